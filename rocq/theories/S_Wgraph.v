(** Specification of partitions with overlap. *)
From Verif Require Import Base M_Graph M_Vgraph M_Wgraph S_Graph.

(** Part of a vertex, -1 for a vertex of the separator; [i]-th vertex of the frontier array *)
Definition wpt (g : wgraph) (v : Z) : Z := at_ (baseval (ws g)) (wpart g) v.
Definition wfr (g : wgraph) (i : Z) : Z := at_ 0 (wfron g) i.

(** A vertex belongs to the overlapped part [p] if it is in [p], or is in the separator and has a neighbour in [p] *)
Definition near (s : graph) (pt : Z -> Z) (v p : Z) : bool := existsb (fun e => pt (edge s e) =? p) (zseq (vert s v) (vend s v - vert s v)).
Definition inpart (s : graph) (pt : Z -> Z) (v p : Z) : bool := (pt v =? p) || ((pt v =? -1) && near s pt v p).
(** Number and load of the vertices of an overlapped part *)
Definition osize (s : graph) (pt : Z -> Z) (p : Z) : Z := zcount (baseval s) (vertnnd s) (fun v => inpart s pt v p).
Definition oload (s : graph) (pt : Z -> Z) (p : Z) : Z := zsum (baseval s) (vertnnd s) (fun v => if inpart s pt v p then velo s v else 0).

(** A partition with overlap: parts are numbered from 0, and an edge only joins vertices of a same part, or a vertex of the separator to
    any vertex *)
Record ovl (s : graph) (n : Z) (pt : Z -> Z) : Prop := {
  ov_range : forall v, isvert s v -> -1 <= pt v < n;
  ov_sep : forall v e, arc s v e -> pt v = pt (edge s e) \/ pt v = -1 \/ pt (edge s e) = -1 }.

(** Arrays are large enough *)
Record wg_readable (g : wgraph) : Prop := {
  wr_graph : graph_readable (ws g);
  wr_part : vertnbr (ws g) <= zlen (wpart g);
  wr_fron : vertnbr (ws g) <= zlen (wfron g);
  wr_load : wnbr g <= zlen (wcload g);
  wr_size : wnbr g <= zlen (wcsize g) }.
(** The frontier array lists the vertices of the separator, each one once *)
Definition wfron_exact (g : wgraph) : Prop :=
  0 <= wfronnbr g <= vertnbr (ws g) /\
  (forall i, 0 <= i < wfronnbr g -> isvert (ws g) (wfr g i) /\ wpt g (wfr g i) = -1) /\
  (forall i j, 0 <= i < wfronnbr g -> 0 <= j < wfronnbr g -> wfr g i = wfr g j -> i = j) /\
  (forall v, isvert (ws g) v -> wpt g v = -1 -> exists i, 0 <= i < wfronnbr g /\ wfr g i = v).
(** Recorded loads and sizes are those of the overlapped parts *)
Record wg_counts (g : wgraph) : Prop := {
  wc_load : forall p, 0 <= p < wnbr g -> at_ 0 (wcload g) p = oload (ws g) (wpt g) p;
  wc_size : forall p, 0 <= p < wnbr g -> at_ 0 (wcsize g) p = osize (ws g) (wpt g) p;
  wc_fron : wfronload g = zsum (baseval (ws g)) (vertnnd (ws g)) (fun v => if wpt g v =? -1 then velo (ws g) v else 0) }.
(** Consistent partition *)
Record wgood (g : wgraph) : Prop := {
  wo_ovl : ovl (ws g) (wnbr g) (wpt g);
  wo_fron : wfron_exact g;
  wo_counts : wg_counts g }.
(** Same graph, number of parts and array sizes *)
Record wsame (g h : wgraph) : Prop := {
  wm_graph : ws h = ws g;
  wm_nbr : wnbr h = wnbr g;
  wm_part : zlen (wpart h) = zlen (wpart g);
  wm_fron : zlen (wfron h) = zlen (wfron g);
  wm_load : zlen (wcload h) = zlen (wcload g);
  wm_size : zlen (wcsize h) = zlen (wcsize g) }.

(** Allocated partition of a consistent graph that is not an induced subgraph; its parts may be anything *)
Record wstate (g : wgraph) : Prop := {
  wt_valid : graph_valid (ws g);
  wt_base : 0 <= baseval (ws g);
  wt_vnum : vnumtab (ws g) = None;
  wt_nbr : 1 <= wnbr g;
  wt_read : wg_readable g }.
(** Outcome of a method: no error in memory, and a consistent partition if it returns 0, which it always does if [tot] *)
Definition wout (tot : bool) (g : wgraph) (r : res (Z * wgraph)) : Prop :=
  exists rc h, r = Ok (rc, h) /\ wsame g h /\ (rc = 0 -> wgood h) /\ (tot = true -> rc = 0).
(** Methods that improve a consistent partition, and methods that can be used first, for [n] parts *)
Definition wmgood (tot : bool) (n : Z) (m : wmeth) : Prop := forall g, wstate g -> wnbr g = n -> wgood g -> wout tot g (m g).
Definition wminit (tot : bool) (n : Z) (m : wmeth) : Prop := forall g, wstate g -> wnbr g = n -> wout tot g (m g).
(** Strategies made of such methods.  The branches of a selection must not fail. *)
Fixpoint wsgood (tot : bool) (n : Z) (s : wstrat) : Prop :=
  match s with
  | WConcat s1 s2 => wsgood tot n s1 /\ wsgood tot n s2
  | WCond test s els => (tot = true -> forall g, test g <> None) /\ wsgood tot n s /\ match els with Some s' => wsgood tot n s' | None => True end
  | WEmpty => True
  | WSelect s1 s2 => wsgood true n s1 /\ wsgood true n s2
  | WMeth m => wmgood tot n m
  end.
(** Strategies that begin with a method that can be used first *)
Fixpoint wsinit (tot : bool) (n : Z) (s : wstrat) : Prop :=
  match s with
  | WConcat s1 s2 => wsinit tot n s1 /\ wsgood tot n s2
  | WCond test s els => (tot = true -> forall g, test g <> None) /\ wsinit tot n s /\ match els with Some s' => wsinit tot n s' | None => False end
  | WMeth m => wminit tot n m
  | _ => False
  end.

(** Same partition: the cells that matter are the same *)
Record wequiv (g h : wgraph) : Prop := {
  wq_same : wsame g h;
  wq_part : forall v, isvert (ws g) v -> wpt h v = wpt g v;
  wq_nbr : wfronnbr h = wfronnbr g;
  wq_fron : forall i, 0 <= i < wfronnbr g -> wfr h i = wfr g i;
  wq_fload : wfronload h = wfronload g;
  wq_load : forall p, 0 <= p < wnbr g -> at_ 0 (wcload h) p = at_ 0 (wcload g) p;
  wq_size : forall p, 0 <= p < wnbr g -> at_ 0 (wcsize h) p = at_ 0 (wcsize g) p }.
