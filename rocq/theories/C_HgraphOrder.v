(** Properties C46 and C47: graph orderings. *)
From Verif Require Import Base M_Int M_Graph M_Vgraph M_Induce M_Hgraph M_Order M_HgraphOrder S_Graph S_Vgraph S_Induce S_Hgraph S_Order S_HgraphOrder.
From Verif Require Import P_Hgraph P_HgraphOrder P_HgraphOrder5 C_Graph.
From Verif Require C_Order.
From Coq Require Import Permutation.

(** C46: SCOTCH_graphOrder never fails in memory; when it returns 0, which it does if its methods cannot
    fail, its arrays are an ordering of the graph.  Every strategy, every graph, every initial contents of the arrays. *)
Theorem C46_graphOrder_partial :
  forall jk al g s tot tr perm peri rang tree,
    graph_valid g -> graph_readable g -> 0 <= baseval g -> vnumtab g = None -> 1 <= vertnbr g -> 1 <= al <= 2 -> sgood true tot tr false s ->
    vertnbr g <= zlen perm -> vertnbr g <= zlen peri -> vertnbr g + 1 <= zlen rang -> vertnbr g <= zlen tree ->
    exists rc peri' perm' nb rang' tree', graphOrder jk al g s perm peri rang tree = Ok (rc, (peri', perm', nb, rang', tree')) /\
      (tot = true -> rc = 0) /\
      (rc = 0 -> ordering (baseval g) (vertnbr g) peri' perm' nb rang' tree').
Proof.
  intros jk al g s tot tr perm peri rang tree G R Hb Vn Hn Hal Hs Hp Hq Hr Ht. unfold graphOrder.
  destruct (compute_all g G R Hb Vn Hn jk al s true tot tr false peri None Hal eq_refl Hs Hq ltac:(now left)) as (rc & o & E & T & P). rewrite E. cbn [bind].
  destruct (Z.eqb_spec rc 0) as [->|Hne]; cbn [negb].
  - destruct (P eq_refl) as (V & B & N & Z & _). assert (Nb : o_cblknbr o <= vertnbr g).
    { rewrite (ov_cblk _ V), <- N, <- (ov_vnod _ V), (P_HgraphOrder4.lsum_leaves _ (ov_tree _ V)). destruct (P_Order.leaves_pos _ (ov_tree _ V)) as (_ & La). clear - La. induction (leaves (o_tree o)) as [|x l IH]; [cbn; lia|]. inversion La; subst. rewrite zlen_cons. cbn [P_Order.lsum]. specialize (IH H2). lia. }
    destruct (arrays_spec g o perm rang tree V B ltac:(lia) ltac:(lia) ltac:(lia) ltac:(lia) ltac:(lia)) as (perm' & rang' & tree' & E' & O & _). rewrite E'. cbn [bind]. exists 0, (o_peri o), perm', (o_cblknbr o), rang', tree'. split; [reflexivity|]. split; [auto|]. intros _. rewrite <- B, <- N. exact O.
  - exists rc, (o_peri o), perm, 0, rang, tree. split; [reflexivity|]. split; [auto|]. intros. contradiction.
Qed.
Print Assumptions C46_graphOrder_partial.

(** C47: sparsity of the separator tree.  With strategies the trees of which are separator trees, two adjacent vertices
    always are in the same block, or in a block and one of its ancestors. *)
Theorem C47_separator_tree_partial :
  forall jk al g s tot perm peri rang tree rc peri' perm' nb rang' tree',
    graph_valid g -> graph_readable g -> 0 <= baseval g -> vnumtab g = None -> 1 <= vertnbr g -> 1 <= al <= 2 -> sgood true tot true false s ->
    vertnbr g <= zlen perm -> vertnbr g <= zlen peri -> vertnbr g + 1 <= zlen rang -> vertnbr g <= zlen tree ->
    graphOrder jk al g s perm peri rang tree = Ok (rc, (peri', perm', nb, rang', tree')) -> rc = 0 ->
    forall u v cu cv, isvert g u -> In v (map fst (nbr g u)) ->
      holds (baseval g) perm' rang' nb cu u -> holds (baseval g) perm' rang' nb cv v ->
      anc (baseval g) tree' cu cv \/ anc (baseval g) tree' cv cu.
Proof.
  intros jk al g s tot perm peri rang tree rc peri' perm' nb rang' tree' G R Hb Vn Hn Hal Hs Hp Hq Hr Ht E Rz u v cu cv Hu Hv Bu Bv. unfold graphOrder in E.
  destruct (compute_all g G R Hb Vn Hn jk al s true tot true false peri None Hal eq_refl Hs Hq ltac:(now left)) as (rc0 & o & E0 & _ & P). rewrite E0 in E. cbn [bind] in E.
  destruct (Z.eqb_spec rc0 0) as [->|Hne]; cbn [negb] in E; [|inversion E; subst; contradiction].
  destruct (P eq_refl) as (V & B & N & Z & Rs). assert (Nb : o_cblknbr o <= vertnbr g).
  { rewrite (ov_cblk _ V), <- N, <- (ov_vnod _ V), (P_HgraphOrder4.lsum_leaves _ (ov_tree _ V)). destruct (P_Order.leaves_pos _ (ov_tree _ V)) as (_ & La). clear - La. induction (leaves (o_tree o)) as [|x l IH]; [cbn; lia|]. inversion La; subst. rewrite zlen_cons. cbn [P_Order.lsum]. specialize (IH H2). lia. }
  destruct (arrays_spec g o perm rang tree V B ltac:(lia) ltac:(lia) ltac:(lia) ltac:(lia) ltac:(lia)) as (perm1 & rang1 & tree1 & E' & _ & T). rewrite E' in E. cbn [bind] in E. inversion E; subst. clear E.
  rewrite <- B in *. pose proof (gv_nnd _ G) as Gn. destruct (ends_sym g u v G Hu Hv) as (Hv' & _). unfold isvert in Hu, Hv'. rewrite N in T.
  apply (T (Adj g) (Rs eq_refl) u v cu cv); auto; lia.
Qed.
Print Assumptions C47_separator_tree_partial.

(** C46: ordering of a list of vertices (SCOTCH_graphOrderComputeList): the vertices of the list get the first
    positions, the others come after them in their initial order. *)
Theorem C46_graphOrderComputeList_partial :
  forall jk al g s tot tr peri l,
    graph_valid g -> graph_readable g -> 0 <= baseval g -> vnumtab g = None -> 1 <= al <= 2 -> sgood true tot tr false s ->
    vertnbr g <= zlen peri -> NoDup l -> (forall v, In v l -> isvert g v) -> 1 <= zlen l ->
    exists rc o, graphOrderComputeList jk al g (orderInit (baseval g) (vertnbr g) peri) (Some l) s = Ok (rc, o) /\ (tot = true -> rc = 0) /\
      (rc = 0 -> order_valid o /\ o_base o = baseval g /\ o_vnod o = vertnbr g /\
         Permutation (seg (o_peri o) 0 (zlen l)) l /\
         seg (o_peri o) (zlen l) (vertnbr g - zlen l) = filter (fun v => negb (selected l v)) (zseq (baseval g) (vertnbr g))).
Proof.
  intros jk al g s tot tr peri l G R Hb Vn Hal Hs Hq Nd Hl Hln. pose proof (gv_nnd _ G) as Gn.
  assert (Hsub : zlen l <= vertnbr g).
  { pose proof (gv_size _ G) as Hsz. pose proof (zlen_zseq (baseval g) (vertnbr g) ltac:(lia)) as Z. assert (H : (length l <= length (zseq (baseval g) (vertnbr g)))%nat); [|unfold zlen in *; lia].
    apply NoDup_incl_length; auto. intros v Hv. apply In_zseq. apply Hl in Hv. unfold isvert in Hv. lia. }
  destruct (Z.eq_dec (zlen l) (vertnbr g)) as [Eq|Ne].
  - destruct (compute_all g G R Hb Vn ltac:(lia) jk al s true tot tr false peri (Some l) Hal eq_refl Hs Hq ltac:(eauto)) as (rc & o & E & T & P). exists rc, o. split; [auto|]. split; [auto|]. intros Rz. destruct (P Rz) as (V & B & N & Z & _). split; [auto|]. split; [auto|]. split; [auto|].
    assert (Pl : Permutation l (zseq (baseval g) (vertnbr g))).
    { apply NoDup_Permutation_bis; auto. { pose proof (zlen_zseq (baseval g) (vertnbr g) ltac:(lia)). unfold zlen in *. lia. } intros v Hv. apply In_zseq. apply Hl in Hv. unfold isvert in Hv. lia. }
    split.
    + eapply Permutation_trans; [|apply Permutation_sym; exact Pl]. pose proof (ov_perm _ V) as Pp. unfold perm_range in Pp. rewrite B, N in Pp. apply Permutation_sym. eapply Permutation_trans; [exact Pp|]. rewrite Eq.
      replace (seg (o_peri o) 0 (vertnbr g)) with (firstn (Z.to_nat (vertnbr g)) (o_peri o)); [apply Permutation_refl|]. apply (at_ext 0); [rewrite zlen_seg, zlen_firstn by lia; auto|]. intros i. rewrite zlen_firstn by lia. intros Hi. rewrite at_seg, at_firstn by lia. f_equal.
    + replace (vertnbr g - zlen l) with 0 by lia. unfold seg. rewrite (zseq_0 (zlen l)) by lia. cbn [map]. assert (F : forall m, (forall v, In v m -> In v l) -> filter (fun v => negb (selected l v)) m = []).
      { induction m as [|x m IH]; intros Hm; [reflexivity|]. cbn [filter]. rewrite (proj2 (selected_in l x) (Hm x (or_introl eq_refl))). cbn [negb]. apply IH. intros v Hv. apply Hm. now right. }
      symmetry. apply F. intros v Hv. eapply Permutation_in; [apply Permutation_sym, Pl | exact Hv].
  - destruct (compute_list g G R Hb Vn ltac:(lia) jk al s tot tr false peri l Hal Hs Hq Nd Hl ltac:(lia)) as (rc & o & E & T & P). exists rc, o. split; [auto|]. split; [auto|]. intros Rz. destruct (P Rz) as (V & B & N & Z & P1 & P2). repeat split; auto; apply V.
Qed.
Print Assumptions C46_graphOrderComputeList_partial.

(** ** Examples *)
(** A separation method: the first vertex, its neighbours as a separator, the rest *)
Definition ex_first (vg : vgraph) : res vgraph :=
  let s := vs vg in let b := baseval s in
  let pt := map (fun v => if v =? b then 0 else if existsb (Z.eqb v) (map fst (nbr s b)) then 2 else 1) (zseq b (vertnbr s)) in
  let c p := zcount b (vertnnd s) (fun v => at_ b pt v =? p) in
  Ok (mkvgraph s pt (vfron vg) (c 2) (c 0) (c 1) 0 0 0 0 1 1).
Lemma ex_first_good : sep_good true ex_first.
Proof.
  intros jk s (El & G & R & Hb) Hn. left. eexists. split; [reflexivity|]. pose proof (gv_nnd _ G) as Gn. cbn [unload baseval vertnbr vertnnd] in Gn.
  cbv zeta. cbn [vgraph0 vs vfron]. set (b := baseval s) in *. set (f := fun v => if v =? b then 0 else if existsb (Z.eqb v) (map fst (nbr s b)) then 2 else 1).
  assert (Fp : forall v, isvert s v -> at_ b (map f (zseq b (vertnbr s))) v = f v). { intros v Hv. unfold isvert in Hv. fold b in Hv. rewrite at_map by (rewrite zlen_zseq by lia; lia). rewrite at_zseq by lia. f_equal. lia. }
  constructor; try reflexivity.
  - cbn [vpart]. rewrite zlen_map, zlen_zseq by lia. lia.
  - cbn [vfron]. unfold zlen. rewrite repeat_length. lia.
  - intros v Hv. unfold part. cbn [vs vpart]. fold b. rewrite Fp by auto. unfold f. destruct (v =? b); [lia|]. destruct (existsb _ _); lia.
  - intros v e Ha. unfold part. cbn [vs vpart] in *. fold b.
    assert (Hv : isvert s v) by apply Ha. assert (Hw : In (edge s e) (ends (unload s) v)). { change (In (edge (unload s) e) (ends (unload s) v)). apply In_ends. exists e. split; [apply Ha|reflexivity]. }
    destruct (ends_sym (unload s) v (edge s e) G Hv Hw) as (Iw & Nw & Hw'). rewrite !Fp by auto. clear Fp. rewrite ends_unload in Hw, Hw'. unfold ends in Hw, Hw'.
    assert (K : forall x, In x (map fst (nbr s b)) -> existsb (Z.eqb x) (map fst (nbr s b)) = true). { intros x Hx. apply existsb_exists. exists x. split; [auto | apply Z.eqb_refl]. }
    unfold f. destruct (Z.eqb_spec v b) as [->|Hvb].
    + rewrite (K _ Hw). destruct (Z.eqb_spec (edge s e) b); lia.
    + destruct (Z.eqb_spec (edge s e) b) as [Eb|Hwb]; [rewrite Eb in Hw'; rewrite (K _ Hw'); lia|]. destruct (existsb (Z.eqb v) _), (existsb (Z.eqb (edge s e)) _); lia.
Qed.
(** Connected components, then nested dissection.  The graph has a path, a triangle, and edge loads *)
Definition ex_strat : strat := SCc (SNd ex_first SSi SEmpty).
Definition ex_og : graph :=
  mkgraph 1 8 9 [1; 2; 4; 6; 8; 9; 11; 13; 15] None None 8 None None 14 [2; 1; 3; 2; 4; 3; 5; 4; 7; 8; 6; 8; 6; 7] (Some [9; 9; 1; 1; 1; 1; 1; 1; 1; 1; 1; 1; 1; 1]) 30 2.
Example C46_example :
  graph_valid ex_og /\ graph_readable ex_og /\ sgood true true true false ex_strat /\
  graphOrder (-7) 1 ex_og ex_strat (repeat 0 8) (repeat 0 8) (repeat 0 9) (repeat 0 8) =
    Ok (0, ([1; 3; 5; 4; 2; 6; 7; 8], [1; 5; 2; 4; 3; 6; 7; 8], 6, [1; 2; 3; 4; 5; 6; 9; 0; 0], [5; 4; 4; 5; -1; -1; 0; 0])) /\
  (exists o, graphOrderComputeList (-7) 1 ex_og (orderInit 1 8 (repeat 0 8)) (Some [5; 3; 4; 7]) ex_strat = Ok (0, o) /\ o_peri o = [5; 3; 4; 7; 1; 2; 6; 8]).
Proof.
  split; [|split; [|split; [|split]]].
  - apply (C09_graphCheck_sound 100). vm_compute. reflexivity.
  - apply (C09_graphCheck_sound 100). vm_compute. reflexivity.
  - cbn [sgood ex_strat]. repeat split; auto using ex_first_good.
  - vm_compute. reflexivity.
  - eexists. split; vm_compute; reflexivity.
Qed.
(** The example meets the hypotheses of C47; vertices 2 and 3 are adjacent, in blocks 5 and 2 *)
Example C47_example :
  In 3 (map fst (nbr ex_og 2)) /\ holds 1 [1; 5; 2; 4; 3; 6; 7; 8] [1; 2; 3; 4; 5; 6; 9; 0; 0] 6 5 2 /\
  holds 1 [1; 5; 2; 4; 3; 6; 7; 8] [1; 2; 3; 4; 5; 6; 9; 0; 0] 6 2 3 /\ anc 1 [5; 4; 4; 5; -1; -1; 0; 0] 2 5.
Proof.
  split; [vm_compute; auto|]. split; [vm_compute; intuition congruence|]. split; [vm_compute; intuition congruence|].
  apply anc_up; [lia|]. change (at_ 1 [5; 4; 4; 5; -1; -1; 0; 0] 2) with 4. apply anc_up; [lia|]. constructor.
Qed.

Lemma not_valid o : o_vnod o <= zlen (o_peri o) -> tree_readable (o_tree o) -> orderCheck o = Err 1 -> ~ order_valid o.
Proof. intros Z R E V. pose proof (proj2 (C_Order.C20_orderCheck o Z R) V). congruence. Qed.

(** C46: findings.  The return value for an empty list, or an empty graph, is that of an error. *)
Theorem C46_empty_list_refuted :
  exists g peri o, graph_valid g /\ graph_readable g /\
    graphOrderComputeList 0 1 g (orderInit (baseval g) (vertnbr g) peri) (Some []) SSi = Ok (1, o) /\ order_valid o.
Proof.
  exists ex_og, (repeat 0 8), (orderInit 1 8 [1; 2; 3; 4; 5; 6; 7; 8]). split; [apply (C09_graphCheck_sound 100); vm_compute; reflexivity|]. split; [apply (C09_graphCheck_sound 100); vm_compute; reflexivity|].
  split; [vm_compute; reflexivity|]. apply C_Order.C20_orderCheck; [vm_compute; discriminate | cbn; repeat split | vm_compute; reflexivity].
Qed.
Print Assumptions C46_empty_list_refuted.

(** C46: a graph made by SCOTCH_graphInduceList, whatever the array sizes within those required *)
Theorem C46_induced_graph_refuted :
  exists g, graphInduceList 0 1 ex_og [6; 7; 8] = Ok g /\ graph_valid g /\ graph_readable g /\ sgood true true true false SSi /\
    graphOrder 0 1 g SSi (repeat 0 3) (repeat 0 3) (repeat 0 4) (repeat 0 3) = UB /\
    exists o, graphOrderComputeList 0 1 g (orderInit 1 3 (repeat 0 3)) None SSi = Ok (0, o) /\ o_peri o = [6; 7; 8].
Proof.
  eexists. split; [vm_compute; reflexivity|]. split; [apply (C09_graphCheck_sound 100); vm_compute; reflexivity|]. split; [apply (C09_graphCheck_sound 100); vm_compute; reflexivity|].
  split; [exact I|]. split; [vm_compute; reflexivity|]. eexists. split; vm_compute; reflexivity.
Qed.
Print Assumptions C46_induced_graph_refuted.

(** C46: failures of the strategy for leaves of nested dissection are not reported; neither is a condition which
    selects nothing.  The inverse permutation is left as it was. *)
Theorem C46_unreported_failure_refuted :
  (exists o, graphOrderComputeList 0 1 ex_og (orderInit 1 8 (repeat 0 8)) None (SNd ex_first SSelect SEmpty) = Ok (0, o) /\ ~ order_valid o) /\
  (exists o, graphOrderComputeList 0 1 ex_og (orderInit 1 8 (repeat 0 8)) None (SCond (fun h => Some (100 <? vnohnbr h)) SSi None) = Ok (0, o) /\ ~ order_valid o).
Proof.
  split; eexists; (split; [vm_compute; reflexivity|]); (apply not_valid; [vm_compute; discriminate | cbn; repeat split | vm_compute; reflexivity]).
Qed.
Print Assumptions C46_unreported_failure_refuted.

(** C46: connected components of a subgraph are written at the first positions of the ordering *)
Definition ex_stop (vg : vgraph) : res vgraph := if vertnbr (vs vg) <? 4 then vgraphZero vg else ex_first vg.
Definition ex_star : graph := mkgraph 1 5 6 [1; 2; 6; 7; 8; 9] None None 5 None None 8 [2; 1; 3; 4; 5; 2; 2; 2] None 8 4.
Theorem C46_inner_components_refuted :
  exists g sep o, graph_valid g /\ graph_readable g /\
    (exists o', graphOrderComputeList 0 1 g (orderInit 1 5 (repeat 0 5)) None (SNd sep SSi SSi) = Ok (0, o') /\ order_valid o') /\
    graphOrderComputeList 0 1 g (orderInit 1 5 (repeat 0 5)) None (SNd sep (SCc SSi) SSi) = Ok (0, o) /\ ~ order_valid o.
Proof.
  exists ex_star, ex_stop. eexists. split; [apply (C09_graphCheck_sound 100); vm_compute; reflexivity|]. split; [apply (C09_graphCheck_sound 100); vm_compute; reflexivity|].
  split; [eexists; split; [vm_compute; reflexivity|]; apply C_Order.C20_orderCheck; [vm_compute; discriminate | cbn; repeat split | vm_compute; reflexivity]|].
  split; [vm_compute; reflexivity|]. apply not_valid; [vm_compute; discriminate | cbn; repeat split | vm_compute; reflexivity].
Qed.
Print Assumptions C46_inner_components_refuted.

(** C47: when a separator is itself cut into several blocks, the parts are only linked to the last of them, and adjacent vertices may
    be in unrelated blocks. *)
Definition ex_fan : graph := mkgraph 1 5 6 [1; 4; 6; 9; 12; 13] None None 5 None None 12 [2; 3; 4; 1; 3; 1; 2; 4; 1; 3; 5; 4] None 12 3.
Theorem C47_separator_blocks_refuted :
  exists g s perm peri rang tree nb u v cu cv, graph_valid g /\ graph_readable g /\ sgood true true false false s /\
    graphOrder 0 1 g s (repeat 0 5) (repeat 0 5) (repeat 0 6) (repeat 0 5) = Ok (0, (peri, perm, nb, rang, tree)) /\
    isvert g u /\ In v (map fst (nbr g u)) /\ holds 1 perm rang nb cu u /\ holds 1 perm rang nb cv v /\
    ~ anc 1 tree cu cv /\ ~ anc 1 tree cv cu.
Proof.
  exists ex_fan, (SNd ex_first SSi (SNd ex_first SSi SSi)). do 5 eexists. exists 1, 2, 1, 3.
  split; [apply (C09_graphCheck_sound 100); vm_compute; reflexivity|]. split; [apply (C09_graphCheck_sound 100); vm_compute; reflexivity|].
  split; [cbn [sgood]; repeat split; auto using ex_first_good|]. split; [vm_compute; reflexivity|]. split; [vm_compute; intuition congruence|]. split; [vm_compute; auto|].
  split; [vm_compute; intuition congruence|]. split; [vm_compute; intuition congruence|].
  split; intros H; repeat (inversion H as [|? ? Hb H']; subst; clear H; rename H' into H; vm_compute in H, Hb; try (exfalso; apply Hb; reflexivity); clear Hb).
Qed.
Print Assumptions C47_separator_blocks_refuted.

(** The graph that ordering methods work on has no edge loads, but keeps their sum: it is not consistent, which the
    debugging checks of methods that read it report. *)
Theorem C46_edge_load_sum_refuted : exists g, graph_valid g /\ graph_readable g /\ ~ graph_valid (hs (halgraf g)) /\ graphCheck 100 (hs (halgraf g)) = Err 1.
Proof.
  exists ex_og. split; [apply (C09_graphCheck_sound 100); vm_compute; reflexivity|]. split; [apply (C09_graphCheck_sound 100); vm_compute; reflexivity|].
  split; [intros V; pose proof (gv_edlosum _ V) as H; vm_compute in H; discriminate | vm_compute; reflexivity].
Qed.
Print Assumptions C46_edge_load_sum_refuted.
