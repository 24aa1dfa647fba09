(** Property C16: sequential matching. *)
From Verif Require Import Base M_Sort M_Graph M_Match S_Graph S_Color S_Match P_Match P_Match2 C_Graph.

(** C16: on every valid graph, whatever the fixed vertices and the old parts,
    the sequential matching ends without touching anything outside its arrays;
    every vertex gets a mate and is the mate of its mate; the count returned is
    the number of groups; two distinct mates are neighbours, or one of them is
    isolated and merging isolated vertices was allowed; mates may be grouped;
    and no two vertices that could have been grouped are both left alone.
    [stksiz] is the number of bits of an INT. *)
Theorem C16_matching :
  forall stksiz nomerge g fix_ par vfixnbr,
    graph_valid g -> graph_readable g -> 0 <= baseval g -> per_vertex g fix_ -> per_vertex g par ->
    32 <= stksiz -> vertnbr g < 2 ^ (stksiz - 1) ->
    exists mate coarvertnbr, graphMatchSeq stksiz nomerge g fix_ par vfixnbr = Ok (mate, coarvertnbr) /\
      let mt v := at_ (baseval g) mate v in
      is_matching g mate /\
      coarvertnbr = groups g mate /\
      (forall v, isvert g v -> mt v <> v ->
         adjacent g v (mt v) \/ (nomerge = false /\ (isolated g v \/ isolated g (mt v)))) /\
      (forall v, isvert g v -> may_group g fix_ par vfixnbr v (mt v)) /\
      (forall v w, isvert g v -> isvert g w -> v <> w -> may_group g fix_ par vfixnbr v w ->
         adjacent g v w \/ (nomerge = false /\ isolated g v /\ isolated g w) ->
         ~ (mt v = v /\ mt w = w)).
Proof.
  intros stksiz nomerge g fix_ par vfixnbr V R HB PF PP Hst Hsz.
  destruct (graphMatchSeq_greedy stksiz nomerge g fix_ par vfixnbr V R HB PF PP Hst Hsz) as (mate & ps & E & GR & IM & HG & HM).
  assert (OR : forall v, may_group g fix_ par vfixnbr v v) by (intros; split; [|intros _]; intros l _; reflexivity).
  assert (OS : forall v w, may_group g fix_ par vfixnbr v w -> may_group g fix_ par vfixnbr w v).
  { intros v w (H1 & H2). split; [intros l El; symmetry; auto|]. intros X l El. symmetry. apply (H2 X); auto. }
  exists mate, (zlen ps). split; [exact E|]. intros mt. split; [exact IM|]. split; [now rewrite HG|]. split; [|split].
  - intros v Hv. apply (greedy_nbr g V nomerge _ ps mate GR IM HM); auto.
  - intros v Hv. apply (greedy_ok g nomerge _ ps mate GR IM HM); auto.
  - intros v w Hv Hw Hne O Hm (S1 & S2). apply (greedy_maximal g V nomerge _ ps mate GR IM HM OS v w); auto.
Qed.
Print Assumptions C16_matching.

(** C16, heavy edges: the groups are made one after the other, and a vertex that
    has neighbours left takes one over a heaviest edge. *)
Theorem C16_heaviest :
  forall stksiz nomerge g fix_ par vfixnbr,
    graph_valid g -> graph_readable g -> 0 <= baseval g -> per_vertex g fix_ -> per_vertex g par ->
    32 <= stksiz -> vertnbr g < 2 ^ (stksiz - 1) ->
    exists mate pairs, graphMatchSeq stksiz nomerge g fix_ par vfixnbr = Ok (mate, zlen pairs) /\
      greedy g nomerge (may_group g fix_ par vfixnbr) pairs /\
      (forall p q, In (p, q) pairs -> at_ (baseval g) mate p = q /\ at_ (baseval g) mate q = p).
Proof.
  intros stksiz nomerge g fix_ par vfixnbr V R HB PF PP Hst Hsz.
  destruct (graphMatchSeq_greedy stksiz nomerge g fix_ par vfixnbr V R HB PF PP Hst Hsz) as (mate & ps & E & GR & IM & HG & HM).
  exists mate, ps. split; [exact E|]. split; [exact GR|]. intros p q I. split; [auto|]. rewrite <- (HM p q I). apply IM.
  destruct (in_split _ _ I) as (bf & a & El). destruct (proj1 GR bf p q a El) as (Hp & _). exact Hp.
Qed.
Print Assumptions C16_heaviest.

(** A path of four vertices with loads 1, 5, 1, and two isolated vertices. *)
Definition ex_match : graph :=
  mkgraph 0 6 6 [0; 1; 3; 5; 6; 6; 6] None None 6 None None 6 [1; 0; 2; 1; 3; 2] (Some [1; 1; 5; 5; 1; 1]) 14 2.

Lemma ex_match_ok : graph_valid ex_match /\ graph_readable ex_match.
Proof. apply (C09_graphCheck_sound 100). vm_compute. reflexivity. Qed.
Example C16_example :
  graph_valid ex_match /\ graph_readable ex_match /\
  graphMatchSeq 32 false ex_match None None 0 = Ok ([1; 0; 3; 2; 5; 4], 3) /\
  graphMatchSeq 32 true ex_match None (Some [0; 1; 1; 1; 0; 0]) 0 = Ok ([0; 2; 1; 3; 4; 5], 5).
Proof. split; [apply ex_match_ok|]. split; [apply ex_match_ok|]. split; vm_compute; reflexivity. Qed.

(** C43: the wanted contraction ratio.  SCOTCH_graphCoarsenMatch says 0 when the
    matching is done and 1 when the graph could not be matched within the bounds;
    the upper bound on the number of coarse vertices is in fact never looked at
    after the matching (graph_coarsen.c:188-193, 549-553). *)
Theorem C43_ratio_refuted :
  exists stksiz nomerge g coarvertmax coarvertmin mate coarvertnbr,
    graph_valid g /\ graph_readable g /\
    graphCoarsenMatch stksiz nomerge g None None 0 coarvertmax coarvertmin = Ok (mate, coarvertnbr) /\
    coarvertmax <= coarvertnbr.
Proof.
  exists 32, true, ex_match, 4, 1, [1; 0; 3; 2; 4; 5], 4. split; [apply ex_match_ok|]. split; [apply ex_match_ok|]. split; [vm_compute; reflexivity | lia].
Qed.
Print Assumptions C43_ratio_refuted.

(** What does hold: 1 is returned exactly when even the best matching the bounds
    allow would be too small, and else the result is that of the matching. *)
Theorem C43_ratio_partial :
  forall stksiz nomerge g fix_ par vfixnbr coarvertmax coarvertmin,
    (coarvertmax < coarvertmin -> graphCoarsenMatch stksiz nomerge g fix_ par vfixnbr coarvertmax coarvertmin = Err 1) /\
    (coarvertmin <= coarvertmax -> graphCoarsenMatch stksiz nomerge g fix_ par vfixnbr coarvertmax coarvertmin = graphMatchSeq stksiz nomerge g fix_ par vfixnbr).
Proof. intros. unfold graphCoarsenMatch. destruct (Z.ltb_spec coarvertmax coarvertmin); split; intros; try reflexivity; lia. Qed.
Print Assumptions C43_ratio_partial.
