(** Specification of vertex separation strategies. *)
From Verif Require Import Base M_Graph M_Vgraph M_VgraphSt S_Graph S_Vgraph S_Color S_Match S_Coarsen.

(** Valid, but for the recorded sum of the edge loads, which is not maintained by the ordering routines *)
Definition setsum (x : Z) (g : graph) : graph :=
  mkgraph (baseval g) (vertnbr g) (vertnnd g) (verttab g) (vendtab g) (velotab g) (velosum g) (vnumtab g) (vlbltab g)
    (edgenbr g) (edgetab g) (edlotab g) x (degrmax g).
Definition valid_upto_sum (g : graph) : Prop := exists x, graph_valid (setsum x g).

(** Consistent separation of a consistent graph *)
Record vstate (g : vgraph) : Prop := {
  vt_valid : valid_upto_sum (vs g);
  vt_base : 0 <= baseval (vs g);
  vt_read : vg_readable g;
  vt_dw : 0 <= vdw0 g /\ 0 <= vdw1 g /\ 0 < vdw0 g + vdw1 g;
  vt_counts : vg_counts g;
  vt_fron : fron_exact g;
  vt_sep : separated g }.
(** Same graph, weights and array sizes *)
Record vsame (g h : vgraph) : Prop := {
  vm_graph : vs h = vs g;
  vm_dw0 : vdw0 h = vdw0 g;
  vm_dw1 : vdw1 h = vdw1 g;
  vm_part : zlen (vpart h) = zlen (vpart g);
  vm_fron : zlen (vfron h) = zlen (vfron g) }.
(** Same separation: the array cells that matter are the same *)
Record vequiv (g h : vgraph) : Prop := {
  vq_same : vsame g h;
  vq_part : forall v, isvert (vs g) v -> part h v = part g v;
  vq_nbr : vfronnbr h = vfronnbr g;
  vq_fron : forall i, 0 <= i < vfronnbr g -> fron h i = fron g i;
  vq_sz0 : vcsz0 h = vcsz0 g;
  vq_sz1 : vcsz1 h = vcsz1 g;
  vq_ld0 : vcld0 h = vcld0 g;
  vq_ld1 : vcld1 h = vcld1 g;
  vq_ld2 : vcld2 h = vcld2 g;
  vq_dlt : vdlt h = vdlt g }.

(** Separation methods: from a consistent separation, they never fail in memory, and give a consistent separation when
    they return 0, which they always do if [tot].  After a failure, the contents of the arrays and the counts are arbitrary. *)
Definition vgood (tot : bool) (m : vmeth) : Prop :=
  forall g, vstate g -> exists rc h, m g = Ok (rc, h) /\ vsame g h /\ (rc = 0 -> vstate h) /\ (tot = true -> rc = 0).
(** Strategies: a selection never fails *)
Fixpoint vsgood (tot : bool) (s : vstrat) : Prop :=
  match s with
  | VConcat s1 s2 => vsgood tot s1 /\ vsgood tot s2
  | VCond test s els => (tot = true -> forall g, test g <> None) /\ vsgood tot s /\ match els with Some s' => vsgood tot s' | None => True end
  | VEmpty => True
  | VSelect s1 s2 => vsgood false s1 /\ vsgood false s2
  | VMeth m => vgood tot m
  end.

(** Smaller separator, or as small and better balanced *)
Definition vbetter (a b : vgraph) : Prop := vcld2 a < vcld2 b \/ (vcld2 a = vcld2 b /\ Z.abs (vdlt a) < Z.abs (vdlt b)).
(** What a strategy gives from [g]: its result, or [g] itself if it fails *)
Definition voutcome (gs : Z) (ab : Z -> Z) (s : vstrat) (g c : vgraph) : Prop :=
  exists rc h, vgraphSeparateSt gs ab s g = Ok (rc, h) /\ (rc = 0 -> c = h) /\ (rc <> 0 -> vequiv g c).

(** Coarsening: it fails, or gives the coarse graph of some matching, with fewer vertices *)
Definition coar_good (coar : graph -> res (graph * list Z * list (Z * Z))) : Prop :=
  forall s, valid_upto_sum s -> graph_readable s -> 0 <= baseval s ->
    (exists e, coar s = Err e) \/
    exists cg fc mult mate, coar s = Ok (cg, fc, mult) /\ valid_upto_sum cg /\ graph_readable cg /\ is_matching s mate /\
      is_coarse s cg mate fc mult /\ vertnbr cg < vertnbr s.
