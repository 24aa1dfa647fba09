(** Specification of bipartitioning strategies. *)
From Verif Require Import Base M_Graph M_Bgraph M_BgraphSt S_Graph S_Bgraph S_Color S_Match S_Coarsen.

(** The load of part 0 without [x] *)
Definition unfix (x : Z) (g : bgraph) : bgraph :=
  mkbgraph (bs g) (bveex g) (bpart g) (bfron g) (bfronnbr g) (bmin g) (bmax g) (bavg g) (bdlt g - x) (bld0 g - x) (bsz0 g)
    (bcml g) (bcmle0 g) (bcmge0 g) (bcmge g) (bbal g) (bdist g) (bwg0 g) (bwg1 g) (bfx0 g) (bfx1 g).

(** Consistent bipartition of a consistent graph.  The load of part 0 may or may not count the vertices fixed in it, as the
    routines disagree on this; without such vertices, the bipartition is consistent in the strict sense. *)
Record bstate (avg : Z -> Z -> Z -> Z) (g : bgraph) : Prop := {
  bt_valid : graph_valid (bs g);
  bt_base : 0 <= baseval (bs g);
  bt_read : bg_readable g;
  bt_gain0 : bcmge0 g = zsum (baseval (bs g)) (vertnnd (bs g)) (veex g);
  bt_cons : exists x, (x = 0 \/ x = bfx0 g) /\ bg_valid avg (unfix x g) }.
(** Same problem: same graph, external gains, weights, bounds and array sizes *)
Record bsame (g h : bgraph) : Prop := {
  bm_graph : bs h = bs g;
  bm_veex : bveex h = bveex g;
  bm_part : zlen (bpart h) = zlen (bpart g);
  bm_fron : zlen (bfron h) = zlen (bfron g);
  bm_load : bmin h = bmin g /\ bmax h = bmax g /\ bavg h = bavg g;
  bm_comm : bcmle0 h = bcmle0 g /\ bcmge0 h = bcmge0 g /\ bdist h = bdist g;
  bm_wght : bwg0 h = bwg0 g /\ bwg1 h = bwg1 g /\ bfx0 h = bfx0 g /\ bfx1 h = bfx1 g }.
(** Same bipartition: the array cells that matter are the same *)
Record bequiv (g h : bgraph) : Prop := {
  bq_same : bsame g h;
  bq_part : forall v, isvert (bs g) v -> bp h v = bp g v;
  bq_nbr : bfronnbr h = bfronnbr g;
  bq_fron : forall i, 0 <= i < bfronnbr g -> bfr h i = bfr g i;
  bq_load : bld0 h = bld0 g /\ bdlt h = bdlt g /\ bsz0 h = bsz0 g;
  bq_comm : bcml h = bcml g /\ bcmge h = bcmge g }.

(** Bipartitioning methods: from a consistent bipartition, whose target load satisfies [T], they return 0 or 1 without
    memory error, give a consistent bipartition of the same problem when they return 0, which they always do if [tot]; the bipartition is
    also consistent when they return 1, if [safe]. *)
Definition bgood (avg : Z -> Z -> Z -> Z) (T : Z -> Prop) (tot safe : bool) (m : bmeth) : Prop :=
  forall g, bstate avg g -> T (bavg g) -> exists rc h, m g = Ok (rc, h) /\ bsame g h /\ (rc = 0 \/ rc = 1) /\
    (rc = 0 \/ safe = true -> bstate avg h) /\ (tot = true -> rc = 0).
(** Strategies: selections need strategies which never break the bipartition *)
Fixpoint bsgood (avg : Z -> Z -> Z -> Z) (T : Z -> Prop) (tot safe : bool) (s : bstrat) : Prop :=
  match s with
  | BConcat s1 s2 => bsgood avg T tot safe s1 /\ bsgood avg T tot safe s2
  | BCond test s els => (tot = true -> forall g, test g <> None) /\ bsgood avg T tot safe s /\
      match els with Some s' => bsgood avg T tot safe s' | None => True end
  | BEmpty => True
  | BSelect s1 s2 => bsgood avg T tot true s1 /\ bsgood avg T tot true s2
  | BMeth m => bgood avg T tot safe m
  end.

(** Load of part 0 within the bounds *)
Definition balanced (g : bgraph) : Prop := bmin g <= bavg g + bdlt g <= bmax g.
(** First bipartition strictly better: balanced when the other is not; else, if both are balanced, of smaller communication load,
    then closer to the target; if none is, closer to the target, then of smaller communication load *)
Definition bbetter (a b : bgraph) : Prop :=
  (balanced a /\ ~ balanced b) \/
  (balanced a /\ balanced b /\ (bcml a < bcml b \/ (bcml a = bcml b /\ Z.abs (bdlt a) < Z.abs (bdlt b)))) \/
  (~ balanced a /\ ~ balanced b /\ (Z.abs (bdlt a) < Z.abs (bdlt b) \/ (Z.abs (bdlt a) = Z.abs (bdlt b) /\ bcml a < bcml b))).

(** Coarsening: it fails, or gives the coarse graph of some matching, with fewer vertices *)
Definition coar_ok (coar : graph -> res (graph * list Z * list (Z * Z))) : Prop :=
  forall s, graph_valid s -> graph_readable s -> 0 <= baseval s ->
    (exists e, coar s = Err e) \/
    exists cg fc mult mate, coar s = Ok (cg, fc, mult) /\ graph_valid cg /\ graph_readable cg /\ is_matching s mate /\
      is_coarse s cg mate fc mult /\ vertnbr cg < vertnbr s.
