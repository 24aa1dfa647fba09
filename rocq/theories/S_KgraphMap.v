(** Specification of partitions of a graph into parts, and of the pieces they are made from. *)
From Verif Require Import Base M_Graph S_Graph M_Bgraph S_Bgraph M_Arch S_Arch M_KgraphMap.

(** A fixed-size architecture of [N] terminals whose routines do what S_Arch says. *)
Record arch_ok {D : Type} (N : Z) (wf : D -> Prop) (mem : D -> Z -> Prop) (A : arch D) : Prop := {
  ao_var : a_var A = false;
  ao_frst : frst_ok N wf mem (a_frst A);
  ao_size : size_ok wf mem (a_size A);
  ao_wght : forall d, wf d -> exists w, a_wght A d = Ok w;
  ao_bip : bipart_ok wf mem (a_bip A);
  ao_num : num_in wf mem (a_num A);
  ao_term : term_ok N wf mem (a_term A) (a_num A);
  ao_incl : incl_ok wf mem (a_incl A);
  ao_dist : forall d d', wf d -> wf d' -> exists x, a_dist A d d' = Ok x }.

(** A bipartitioning strategy which succeeds: from any consistent bipartition [g] such that [Q g], it
    ends with each vertex in one of the two parts, and says how many are in part 0. *)
Definition bip_on (avg : Z -> Z -> Z -> Z) (Q : bgraph -> Prop) (bip : bgraph -> res (Z * bgraph)) : Prop :=
  forall g, Q g -> graph_valid (bs g) -> bg_readable g -> bg_valid avg g ->
    exists h, bip g = Ok (0, h) /\ bs h = bs g /\ vertnbr (bs g) <= zlen (bpart h) /\
      (forall v, isvert (bs g) v -> bp h v = 0 \/ bp h v = 1) /\ bsz0 h = bsize h 0.
(** ... on the bipartitions, with all vertices in part 0, from which it is started *)
Definition fresh (g : bgraph) : Prop := 0 <= baseval (bs g) /\ bcmge0 g = bcmge g /\ forall v, isvert (bs g) v -> bp g v = 0.
Definition bip_ok (avg : Z -> Z -> Z -> Z) (bip : bgraph -> res (Z * bgraph)) : Prop := bip_on avg fresh bip.

(** Number, in the original graph, of a vertex of a subgraph *)
Definition orig (s : graph) (v : Z) : Z := match vnumtab s with Some t => at_ (baseval s) t v | None => v end.

(** [s] is the subgraph of [org] induced by some of its vertices: its vertices are distinct vertices of [org], of the same
    loads, and their neighbours are, in the same order and with the same loads, their neighbours in [org] that are kept
    ([f] tells which vertices are). *)
Record subg (org s : graph) : Prop := {
  sg_valid : graph_valid s; sg_read : graph_readable s; sg_base0 : 0 <= baseval s; sg_base : baseval s = baseval org;
  sg_vn : forall t, vnumtab s = Some t -> vertnbr s <= zlen t;
  sg_in : forall v, isvert s v -> isvert org (orig s v);
  sg_inj : forall v w, isvert s v -> isvert s w -> orig s v = orig s w -> v = w;
  sg_velo : forall v, isvert s v -> velo s v = velo org (orig s v);
  sg_arcs : exists f : Z -> bool, (forall w, isvert org w -> f w = true <-> exists u, isvert s u /\ orig s u = w) /\
    forall v, isvert s v -> map (fun x => (orig s (fst x), snd x)) (nbr s v) = filter (fun x => f (fst x)) (nbr org (orig s v)) }.

(** Load, in a mapping, of the vertices of domain [i]; communication load: each
    edge, seen from its larger end, counts for its load times the distance
    between the domains of its ends. *)
Section K.
Context {D : Type} `{Dflt D}.
Definition mp (s : graph) (m : mapping D) (v : Z) : Z := at_ (baseval s) (m_part m) v.
Definition mdom (m : mapping D) (i : Z) : D := at_ 0 (m_domn m) i.
Definition kload (s : graph) (m : mapping D) (i : Z) : Z :=
  zsum (baseval s) (vertnnd s) (fun v => if mp s m v =? i then velo s v else 0).
Definition distz (A : arch D) (d d' : D) : Z := match a_dist A d d' with Ok x => x | _ => 0 end.
Definition kcommload (A : arch D) (s : graph) (m : mapping D) : Z :=
  zsum (baseval s) (vertnnd s) (fun v => zsum (vert s v) (vend s v) (fun e =>
    if (edge s e <? v) && negb (mp s m v =? mp s m (edge s e))
    then edlo s e * distz A (mdom m (mp s m v)) (mdom m (mp s m (edge s e))) else 0)).

(** A complete mapping onto terminals: every vertex is in one of the [m_nbr m] domains, which are
    distinct single terminals of the [N]. *)
Record map_ok (N : Z) (wf : D -> Prop) (mem : D -> Z -> Prop) (s : graph) (m : mapping D) : Prop := {
  mo_len : vertnbr s <= zlen (m_part m);
  mo_nbr : 0 <= m_nbr m <= zlen (m_domn m);
  mo_part : forall v, isvert s v -> 0 <= mp s m v < m_nbr m;
  mo_dom : forall i, 0 <= i < m_nbr m -> wf (mdom m i) /\ exists t, 0 <= t < N /\ forall t', mem (mdom m i) t' <-> t' = t;
  mo_inj : forall i j t, 0 <= i < m_nbr m -> 0 <= j < m_nbr m -> mem (mdom m i) t -> mem (mdom m j) t -> i = j }.

(** Data of a recursive bipartitioning: fixed parts are terminals or negative, old parts are domains or -1, arrays are
    long enough. *)
Record dt_ok (N : Z) (wf : D -> Prop) (dt : @rbdata D) : Prop := {
  do_valid : graph_valid (rb_org dt); do_read : graph_readable (rb_org dt);
  do_pfix : forall pf, rb_pfix dt = Some pf -> vertnbr (rb_org dt) <= zlen pf /\
    forall v, isvert (rb_org dt) v -> at_ (baseval (rb_org dt)) pf v < N;
  do_old : forall m, rb_old dt = Some m -> vertnbr (rb_org dt) <= zlen (m_part m) /\
    forall v, isvert (rb_org dt) v -> mp (rb_org dt) m v = -1 \/ 0 <= mp (rb_org dt) m v < zlen (m_domn m) /\ wf (mdom m (mp (rb_org dt) m v));
  do_vmlo : forall l, rb_vmlo dt = Some l -> vertnbr (rb_org dt) <= zlen l }.

(** ** Bipartition problems *)
(** Distance from subdomain [di] to domain [d], none if [d] is in it. *)
Definition away (A : arch D) (di d : D) : Z := match a_incl A di d with Ok true => 0 | _ => distz A di d end.
Definition termz (A : arch D) (t : Z) : D := match a_term A t with Ok d => d | _ => dflt end.

(** Cost of placing vertex [w] in subdomain [di]: its edges to fixed vertices, and its migration from the old mapping. *)
Definition fixcost (A : arch D) (dt : @rbdata D) (di : D) (w : Z) : Z :=
  match rb_pfix dt with
  | None => 0
  | Some pf => zsum (vert (rb_org dt) w) (vend (rb_org dt) w) (fun e =>
      let p := at_ (baseval (rb_org dt)) pf (edge (rb_org dt) e) in
      if 0 <=? p then edlo (rb_org dt) e * away A di (termz A p) else 0)
  end.
Definition oldcost (A : arch D) (dt : @rbdata D) (di : D) (w : Z) : Z :=
  match rb_old dt with
  | None => 0
  | Some m => if mp (rb_org dt) m w =? -1 then 0 else
      rb_cmlo dt * (match rb_vmlo dt with Some l => at_ (baseval (rb_org dt)) l w | None => 1 end) * away A di (mdom m (mp (rb_org dt) m w))
  end.
Definition extcost (A : arch D) (dt : @rbdata D) (di : D) (w : Z) : Z := rb_crlo dt * fixcost A dt di w + oldcost A dt di w.

(** [g] is the problem of bipartitioning, between the two halves of a domain, the subgraph induced by some of the vertices
    which are not fixed, with exact external gains. *)
Definition problem (wf : D -> Prop) (A : arch D) (dt : @rbdata D) (g : bgraph) : Prop :=
  exists act d d0 d1, wf d /\ a_bip A d = Ok (d0, d1) /\ subg (rb_org dt) act /\
    (forall pf v, rb_pfix dt = Some pf -> isvert act v -> at_ (baseval (rb_org dt)) pf (orig act v) < 0) /\
    baseval (bs g) = baseval act /\ vertnbr (bs g) = vertnbr act /\ (forall v, isvert act v -> nbr (bs g) v = nbr act v /\ velo (bs g) v = velo act v) /\
    a_dist A d0 d1 = Ok (bdist g) /\ a_wght A d0 = Ok (bwg0 g) /\ a_wght A d1 = Ok (bwg1 g) /\
    (forall v, isvert act v -> bp g v = 0 /\ veex g v = extcost A dt d1 (orig act v) - extcost A dt d0 (orig act v)) /\
    (bveex g <> None -> bcmle0 g = zsum (baseval act) (vertnnd act) (fun v => extcost A dt d0 (orig act v))) /\
    bcmge0 g = bcmge g.
(** The same; no load is fixed if no vertex is *)
Definition subproblem (wf : D -> Prop) (A : arch D) (dt : @rbdata D) (g : bgraph) : Prop :=
  problem wf A dt g /\ (rb_pfix dt = None -> bfx0 g = 0 /\ bfx1 g = 0).

(** Load of the slots (terminal number, load) whose terminal satisfies [f] *)
Definition fixload (f : Z -> bool) (tab : list (Z * Z)) : Z := fold_right Z.add 0 (map (fun x => if f (fst x) then snd x else 0) tab).

(** The recorded state of a k-way graph agrees with its mapping. *)
Record k_ok (A : arch D) (k : kgraph) : Prop := {
  ko_fron : 0 <= kfronnbr k <= zlen (kfron k) /\ Sorted.StronglySorted Z.lt (firstn (Z.to_nat (kfronnbr k)) (kfron k)) /\
    forall v, In v (firstn (Z.to_nat (kfronnbr k)) (kfron k)) <->
      isvert (rb_org (kdt k)) v /\ exists e, arc (rb_org (kdt k)) v e /\
        mp (rb_org (kdt k)) (kmap k) (edge (rb_org (kdt k)) e) <> mp (rb_org (kdt k)) (kmap k) v;
  ko_load : forall i, 0 <= i < m_nbr (kmap k) ->
    at_ 0 (kavgt k) i + at_ 0 (kdltt k) i = kload (rb_org (kdt k)) (kmap k) i;
  ko_comm : kcomm k = kcommload A (rb_org (kdt k)) (kmap k) }.
End K.
