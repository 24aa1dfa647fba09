(** Property C76: orderings by block splitting. *)
From Verif Require Import Base M_Graph M_Hgraph M_Order M_HgraphOrder M_HgraphOrderBl S_Graph S_Hgraph S_Order S_HgraphOrder.
From Verif Require Import P_GraphList P_Hgraph P_HgraphOrder P_HgraphOrder3 P_HgraphOrder5 C_HgraphOrder C_Graph.
From Verif Require Import P_ArchMatch2.
From Verif Require Import P_HgraphOrderBl.

Lemma compute_meth jk al g peri (m : ometh) rc st cb : 1 <= vertnbr g -> m (halgraf g) (mkost peri 1 1) 0 (leaf (vertnbr g)) = Ok (rc, st, cb) ->
  graphOrderComputeList jk al g (orderInit (baseval g) (vertnbr g) peri) None (SMeth m) = Ok (rc, mkorder (baseval g) (vertnbr g) (os_tree st) (os_cblk st) cb (os_peri st)).
Proof.
  intros Hn E. unfold graphOrderComputeList. replace (vertnbr g =? 0) with false by lia. rewrite Z.eqb_refl. cbn [orderInit o_peri o_cblknbr o_treenbr o_tree o_base o_vnod].
  assert (E3 : hgraphOrderSt jk al (SMeth m) (halgraf g) (mkost peri 1 1) 0 (Cblk ORDERCBLKLEAF (vertnbr g) 0 None) = Ok (rc, st, cb)); [|now rewrite E3].
  cbn [hgraphOrderSt]. change (vnohnbr (halgraf g)) with (vertnbr g). replace (vertnbr g =? 0) with false by lia. exact E.
Qed.

Lemma order_meth jk al g perm peri rang tree (m m' : ometh) tot rc1 st1 cb1 :
  graph_valid g -> graph_readable g -> 0 <= baseval g -> vnumtab g = None -> 1 <= vertnbr g -> 1 <= al <= 2 ->
  vertnbr g <= zlen perm -> vertnbr g <= zlen peri -> vertnbr g + 1 <= zlen rang -> vertnbr g <= zlen tree ->
  orders true tot true false m' ->
  m (halgraf g) (mkost peri 1 1) 0 (leaf (vertnbr g)) = Ok (rc1, st1, cb1) -> m' (halgraf g) (mkost peri 1 1) 0 (leaf (vertnbr g)) = Ok (rc1, st1, cb1) ->
  (rc1 = 0 -> tree_ok cb1 /\ os_cblk st1 = zlen (leaves cb1)) ->
  exists rc peri' perm' nb rang' tree', graphOrder jk al g (SMeth m) perm peri rang tree = Ok (rc, (peri', perm', nb, rang', tree')) /\ (tot = true -> rc = 0) /\
    (rc = 0 -> ordering (baseval g) (vertnbr g) peri' perm' nb rang' tree' /\ rc1 = 0 /\ nb = zlen (leaves cb1) /\ peri' = os_peri st1 /\
       forall c, 0 <= c <= nb -> at_ (baseval g) rang' (baseval g + c) = baseval g + lsm (firstn (Z.to_nat c) (leaves cb1))).
Proof.
  intros G R Hb Vn Hn Hal Zp Zq Zr Zt Go E1 E1' Od.
  assert (Eq : graphOrder jk al g (SMeth m) perm peri rang tree = graphOrder jk al g (SMeth m') perm peri rang tree). { unfold graphOrder. rewrite (compute_meth jk al g peri m rc1 st1 cb1 Hn E1), (compute_meth jk al g peri m' rc1 st1 cb1 Hn E1'). reflexivity. }
  destruct (C46_graphOrder_partial jk al g (SMeth m') tot true perm peri rang tree G R Hb Vn Hn Hal Go Zp Zq Zr Zt) as (rc & peri' & perm' & nb & rang' & tree' & E & Z & O).
  exists rc, peri', perm', nb, rang', tree'. split; [now rewrite Eq|]. split; [exact Z|]. intros ->. specialize (O eq_refl). split; [exact O|].
  unfold graphOrder in E. rewrite (compute_meth jk al g peri m' rc1 st1 cb1 Hn E1') in E. cbn [bind o_peri o_cblknbr] in E. destruct (Z.eqb_spec rc1 0) as [->|Hne]; cbn [negb] in E; [|inversion E; subst; contradiction].
  destruct (Od eq_refl) as (Tk & Eo). set (oo := mkorder (baseval g) (vertnbr g) (os_tree st1) (os_cblk st1) cb1 (os_peri st1)) in *.
  destruct (orderArrays g oo perm rang tree) as [((x, y), z)| | |] eqn:Ea; cbn [bind] in E; try discriminate.
  assert (Ey : y = rang' /\ os_cblk st1 = nb /\ peri' = os_peri st1) by (inversion E; auto). destruct Ey as (-> & <- & Ep). clear E. split; [reflexivity|]. split; [exact Eo|]. split; [exact Ep|].
  unfold orderArrays in Ea. destruct (orderPeri _ _ _ _ _) as [p2| | |]; cbn [bind] in Ea; try discriminate.
  assert (Zl : zlen (leaves (o_tree oo)) + 1 <= zlen rang) by (pose proof (or_nb _ _ _ _ _ _ _ O); cbn [oo o_tree]; lia).
  destruct (P_Order.orderRang_at oo rang Tk Zl) as (r2 & E4 & _ & R0 & _ & Rs & _). rewrite E4 in Ea. cbn [bind] in Ea. destruct (orderTree _ _) as [t2| | |]; cbn [bind] in Ea; try discriminate.
  assert (Er : r2 = rang') by (inversion Ea; auto). subst r2. clear Ea. change (o_tree oo) with cb1 in Rs. change (o_base oo) with (baseval g) in R0. rewrite Eo.
  assert (X : forall c, 0 <= c -> c <= zlen (leaves cb1) -> at_ 0 rang' c = baseval g + lsm (firstn (Z.to_nat c) (leaves cb1))).
  { apply (natlike_ind (fun c => c <= zlen (leaves cb1) -> at_ 0 rang' c = baseval g + lsm (firstn (Z.to_nat c) (leaves cb1)))); [intros _; rewrite R0; cbn; lia|].
    intros c Hc IH Hl. replace (Z.succ c) with (c + 1) by lia. rewrite Rs, IH by lia. rewrite firstn_at, lsm_app by lia. replace (lsm [at_ 0 (leaves cb1) c]) with (at_ 0 (leaves cb1) c) by (cbn; lia). lia. }
  intros c Hc. rewrite <- X by lia. unfold at_. f_equal. lia.
Qed.

Lemma rang_blocks b nb rang peri (lv : list Z) (f : Z -> Z) B q : Forall (fun x => 1 <= x) lv -> nb = zlen lv ->
  (forall c, 0 <= c <= nb -> at_ b rang (b + c) = b + lsm (firstn (Z.to_nat c) lv)) ->
  (Forall (fun x => q <= x <= q + 1) lv -> forall c, b <= c < b + nb -> q <= at_ b rang (c + 1) - at_ b rang c <= q + 1) /\
  (bal (fun k => zsum 0 k (fun i => f (at_ 0 peri i))) B lv -> forall c, b <= c < b + nb -> zsum (at_ b rang c) (at_ b rang (c + 1)) (fun p => f (at_ b peri p)) <= B).
Proof.
  intros La O3 O4.
  assert (O6 : forall c, b <= c < b + nb -> at_ b rang c = b + lsm (firstn (Z.to_nat (c - b)) lv) /\ at_ b rang (c + 1) = b + lsm (firstn (Z.to_nat (c - b + 1)) lv)).
  { intros c Hc. pose proof (O4 (c - b) ltac:(lia)) as Q. pose proof (O4 (c - b + 1) ltac:(lia)) as Q'. replace (b + (c - b)) with c in Q by lia. replace (b + (c - b + 1)) with (c + 1) in Q' by lia. auto. }
  assert (O7 : forall c, 0 <= c < nb -> lsm (firstn (Z.to_nat (c + 1)) lv) = lsm (firstn (Z.to_nat c) lv) + at_ 0 lv c).
  { intros c Hc. rewrite firstn_at, lsm_app by lia. replace (lsm [at_ 0 lv c]) with (at_ 0 lv c) by (cbn; lia). reflexivity. }
  split.
  - intros M2 c Hc. rewrite Forall_forall in M2. destruct (O6 c Hc) as [-> ->]. rewrite O7 by lia. specialize (M2 (at_ 0 lv (c - b)) ltac:(apply at_In; lia)). cbn beta in M2. lia.
  - intros Hb c Hc. pose proof (bal_at _ _ _ Hb (c - b) ltac:(lia)) as Bc. cbn beta in Bc.
    assert (L1 : 1 <= at_ 0 lv (c - b)) by (rewrite Forall_forall in La; apply La; apply at_In; lia).
    assert (L0 : 0 <= lsm (firstn (Z.to_nat (c - b)) lv)). { clear - La. generalize (Z.to_nat (c - b)). intros k. revert k. induction La as [|x l Hx _ IH]; intros [|k]; cbn; try lia. specialize (IH k). unfold lsm in IH. lia. }
    destruct (O6 c Hc) as [-> ->]. rewrite O7 by lia. rewrite O7 in Bc by lia. set (a := lsm (firstn (Z.to_nat (c - b)) lv)) in *. set (x := at_ 0 lv (c - b)) in *. rewrite (zsum_split 0 a (a + x)) in Bc by lia.
    replace (b + a) with (a + b) by lia. replace (b + (a + x)) with (a + x + b) by lia. rewrite <- (zsum_shift a (a + x) b). rewrite (zsum_ext a (a + x) _ (fun i => f (at_ 0 peri i))); [lia|]. intros i _. f_equal. unfold at_. f_equal. lia.
Qed.

Lemma splits_halgraf g : graph_valid g -> vnumtab g = None -> (velotab g = None \/ forall v, isvert g v -> 1 <= velo g v) -> splits (halgraf g) 0 = true.
Proof.
  intros G Vn Hv. pose proof (gv_nnd _ G) as Gn. unfold splits. change (velotab (hs (halgraf g))) with (velotab g). change (vnumtab (hs (halgraf g))) with (vnumtab g). rewrite Vn. destruct (velotab g) as [vl|] eqn:Ev; [|reflexivity]. rewrite Z.eqb_refl. cbn [andb]. apply forallb_forall. intros v Hi. apply In_zseq in Hi.
  destruct Hv as [Hv|Hv]; [discriminate|]. apply Z.leb_le. apply Hv. unfold isvert. change (baseval g <= v < baseval g + vertnbr g) in Hi. lia.
Qed.

Lemma order_bl jk al f blkmin (sub : ometh) tot tr maxlo g perm peri rang tree :
    graph_valid g -> graph_readable g -> 0 <= baseval g -> vnumtab g = None -> 1 <= vertnbr g -> 1 <= al <= 2 ->
    orders true tot tr true sub -> 1 <= blkmin -> (velotab g = None \/ forall v, isvert g v -> 1 <= velo g v) ->
    (forall v, isvert g v -> velo g v <= maxlo) ->
    vertnbr g <= zlen perm -> vertnbr g <= zlen peri -> vertnbr g + 1 <= zlen rang -> vertnbr g <= zlen tree ->
    exists rc peri' perm' nb rang' tree',
      graphOrder jk al g (SMeth (hgraphOrderBl (S f) blkmin sub)) perm peri rang tree = Ok (rc, (peri', perm', nb, rang', tree')) /\
      (tot = true -> rc = 0) /\
      (rc = 0 -> ordering (baseval g) (vertnbr g) peri' perm' nb rang' tree' /\
         nb <= Z.max 1 (velosum g / blkmin) /\
         (velotab g = None -> nb = Z.max 1 (vertnbr g / blkmin) /\
            forall c, baseval g <= c < baseval g + nb ->
              vertnbr g / nb <= at_ (baseval g) rang' (c + 1) - at_ (baseval g) rang' c <= vertnbr g / nb + 1) /\
         forall c, baseval g <= c < baseval g + nb ->
           zsum (at_ (baseval g) rang' c) (at_ (baseval g) rang' (c + 1)) (fun p => velo g (at_ (baseval g) peri' p)) < 2 * blkmin + maxlo).
Proof.
  intros G R Hb Vn Hn Hal Sb Hm Hv HM Zp Zq Zr Zt. pose proof (splits_halgraf g G Vn Hv) as Sp. pose proof (blOrSi_good f blkmin sub true tot tr Sb Hm) as Go.
  assert (HM' : forall v, baseval (hs (halgraf g)) <= v < baseval (hs (halgraf g)) + vnohnbr (halgraf g) -> velo (hs (halgraf g)) v <= maxlo).
  { intros v Hv'. change (velo g v <= maxlo). apply HM. pose proof (gv_nnd _ G). unfold isvert. change (baseval g <= v < baseval g + vertnbr g) in Hv'. lia. }
  destruct (bl_run (halgraf g) f blkmin sub true tot tr (mkost peri 1 1) 0 maxlo Sb Hm (halgraf_ok g G R Hb Vn) Hn (Z.le_refl 0) Zq (fun _ => eq_refl) Sp HM') as (rc1 & st1 & cb1 & E1 & P1 & _).
  assert (E1' : blOrSi f blkmin sub (halgraf g) (mkost peri 1 1) 0 (leaf (vertnbr g)) = Ok (rc1, st1, cb1)) by (unfold blOrSi; rewrite Sp; exact E1).
  change (leaf (vnohnbr (halgraf g))) with (leaf (vertnbr g)) in E1. generalize dependent (blOrSi f blkmin sub). generalize dependent (hgraphOrderBl (S f) blkmin sub). intros m E1 m' Go E1'.
  assert (Od : rc1 = 0 -> tree_ok cb1 /\ os_cblk st1 = zlen (leaves cb1)). { intros X. destruct (P1 X) as (Od & _). split; [apply Od|]. pose proof (od_cblk _ _ _ _ _ Od) as Oc. cbn [os_cblk] in Oc. lia. }
  destruct (order_meth jk al g perm peri rang tree m m' tot rc1 st1 cb1 G R Hb Vn Hn Hal Zp Zq Zr Zt Go E1 E1' Od) as (rc & peri' & perm' & nb & rang' & tree' & E & Z & O).
  exists rc, peri', perm', nb, rang', tree'. split; [exact E|]. split; [exact Z|]. intros X. destruct (O X) as (O1 & O2 & O3 & O5 & O4). split; [exact O1|]. destruct (P1 O2) as (_ & _ & N1 & N2 & N3). rewrite <- O3 in *. split; [exact N1|].
  assert (La : Forall (fun x => 1 <= x) (leaves cb1)) by (apply (P_Order.leaves_pos _ (proj1 (Od O2)))).
  assert (N4 : bal (fun k => zsum 0 k (fun i => velo g (at_ 0 (os_peri st1) i))) (2 * blkmin + maxlo - 1) (leaves cb1)) by exact (N3 eq_refl Vn).
  destruct (rang_blocks (baseval g) nb rang' (os_peri st1) (leaves cb1) (velo g) (2 * blkmin + maxlo - 1) (vertnbr g / nb) La O3 O4) as [K1 K2]. split.
  - intros Ev. destruct (N2 Ev) as (M1 & M2). split; [exact M1|]. exact (K1 M2).
  - rewrite O5. intros c Hc. apply Z.lt_le_pred. pose proof (K2 N4 c Hc) as Q. rewrite <- Z.sub_1_r. exact Q.
Qed.

(** C76: SCOTCH_graphOrder with block splitting, over a strategy which makes a single block, gives an ordering whenever this
    strategy succeeds, if the graph has no vertex loads or if these are positive.  There are at most as many blocks
    as the minimum size fits in the sum of the vertex loads.  Without loads there are exactly that many, and the sizes of
    any two blocks differ by at most one.  The load of a block is less than twice the minimum size plus the largest
    load of a vertex.  Missing: graphs with null loads, lists of vertices, and strategies which make
    several blocks, for which the claim is false (below). *)
Theorem C76_order_partial :
  forall jk al f blkmin s tot tr maxlo g perm peri rang tree,
    graph_valid g -> graph_readable g -> 0 <= baseval g -> vnumtab g = None -> 1 <= vertnbr g -> 1 <= al <= 2 ->
    sgood true tot tr true s -> 1 <= blkmin -> (velotab g = None \/ forall v, isvert g v -> 1 <= velo g v) ->
    (forall v, isvert g v -> velo g v <= maxlo) ->
    vertnbr g <= zlen perm -> vertnbr g <= zlen peri -> vertnbr g + 1 <= zlen rang -> vertnbr g <= zlen tree ->
    exists rc peri' perm' nb rang' tree',
      graphOrder jk al g (SMeth (hgraphOrderBl (S f) blkmin (hgraphOrderSt jk al s))) perm peri rang tree = Ok (rc, (peri', perm', nb, rang', tree')) /\
      (tot = true -> rc = 0) /\
      (rc = 0 -> ordering (baseval g) (vertnbr g) peri' perm' nb rang' tree' /\
         nb <= Z.max 1 (velosum g / blkmin) /\
         (velotab g = None -> nb = Z.max 1 (vertnbr g / blkmin) /\
            forall c, baseval g <= c < baseval g + nb ->
              vertnbr g / nb <= at_ (baseval g) rang' (c + 1) - at_ (baseval g) rang' c <= vertnbr g / nb + 1) /\
         forall c, baseval g <= c < baseval g + nb ->
           zsum (at_ (baseval g) rang' c) (at_ (baseval g) rang' (c + 1)) (fun p => velo g (at_ (baseval g) peri' p)) < 2 * blkmin + maxlo).
Proof.
  intros jk al f blkmin s tot tr maxlo g perm peri rang tree G R Hb Vn Hn Hal Hs. exact (order_bl jk al f blkmin (hgraphOrderSt jk al s) tot tr maxlo g perm peri rang tree G R Hb Vn Hn Hal (St_good jk al s Hal true tot tr true Hs)).
Qed.
Print Assumptions C76_order_partial.

(** A path of seven vertices, without loads and with loads *)
Definition ex_bl (vl : option (list Z)) (vs : Z) : graph := mkgraph 0 7 7 [0; 1; 3; 5; 7; 9; 11; 12] None vl vs None None 12 [1; 0; 2; 1; 3; 2; 4; 3; 5; 4; 6; 5] None 12 2.
Definition bl_si (f : nat) (m : Z) : strat := SMeth (hgraphOrderBl f m (hgraphOrderSt (-7) 1 SSi)).
Example C76_example :
  (forall g, g = ex_bl None 7 \/ g = ex_bl (Some [1; 5; 1; 1; 1; 4; 2]) 15 -> graph_valid g /\ graph_readable g) /\
  graphOrder (-7) 1 (ex_bl None 7) (bl_si 1 2) (repeat 0 7) (repeat 0 7) (repeat 0 8) (repeat 0 7) =
    Ok (0, ([0; 1; 2; 3; 4; 5; 6], [0; 1; 2; 3; 4; 5; 6], 3, [0; 3; 5; 7; 0; 0; 0; 0], [1; 2; -1; 0; 0; 0; 0])) /\
  graphOrder (-7) 1 (ex_bl (Some [1; 5; 1; 1; 1; 4; 2]) 15) (bl_si 1 3) (repeat 0 7) (repeat 0 7) (repeat 0 8) (repeat 0 7) =
    Ok (0, ([0; 1; 2; 3; 4; 5; 6], [0; 1; 2; 3; 4; 5; 6], 4, [0; 2; 5; 6; 7; 0; 0; 0], [1; 2; 3; -1; 0; 0; 0])) /\
  (forall v, isvert (ex_bl (Some [1; 5; 1; 1; 1; 4; 2]) 15) v -> 1 <= velo (ex_bl (Some [1; 5; 1; 1; 1; 4; 2]) 15) v <= 5) /\ sgood true true true true SSi.
Proof.
  split; [|split; [vm_compute; reflexivity|split; [vm_compute; reflexivity|split]]].
  - intros g [-> | ->]; (split; apply (C09_graphCheck_sound 100); vm_compute; reflexivity).
  - intros v Hv. change (0 <= v < 7) in Hv. assert (v = 0 \/ v = 1 \/ v = 2 \/ v = 3 \/ v = 4 \/ v = 5 \/ v = 6) as X by lia. destruct X as [->|[->|[->|[->|[->|[->| ->]]]]]]; (split; vm_compute; discriminate).
  - exact I.
Qed.

(** Findings.  First: with a last vertex of null load, the call succeeds but the blocks do not cover all the vertices. *)
Theorem C76_null_load_refuted :
  exists g peri' perm' nb rang' tree', graph_valid g /\ graph_readable g /\ vertnbr g = 7 /\
    graphOrder (-7) 1 g (bl_si 1 1) (repeat 0 7) (repeat 0 7) (repeat 0 8) (repeat 0 7) = Ok (0, (peri', perm', nb, rang', tree')) /\
    at_ 0 rang' nb = 6.
Proof.
  exists (ex_bl (Some [1; 1; 1; 1; 1; 1; 0]) 6). do 5 eexists. split; [apply (C09_graphCheck_sound 100); vm_compute; reflexivity|]. split; [apply (C09_graphCheck_sound 100); vm_compute; reflexivity|]. split; [reflexivity|]. split; vm_compute; reflexivity.
Qed.
Print Assumptions C76_null_load_refuted.

(** Second: the loads of a subgraph are read at the numbers of the vertices in the whole graph.  With SCOTCH_graphOrderComputeList
    on a list of vertices of a graph with positive loads, the blocks are written out of the bounds of their array,
    whatever the contents of fresh memory. *)
Theorem C76_list_refuted :
  exists g l, graph_valid g /\ graph_readable g /\ vnumtab g = None /\ (forall v, isvert g v -> 1 <= velo g v) /\ NoDup l /\ (forall v, In v l -> isvert g v) /\
    forall jk, graphOrderComputeList jk 1 g (orderInit 0 7 (repeat 0 7)) (Some l) (SMeth (hgraphOrderBl 1 1 (hgraphOrderSt jk 1 SSi))) = UB.
Proof.
  exists (ex_bl (Some [1; 5; 1; 1; 1; 1; 1]) 11), [1; 2; 3; 4; 5; 6]. split; [apply (C09_graphCheck_sound 100); vm_compute; reflexivity|]. split; [apply (C09_graphCheck_sound 100); vm_compute; reflexivity|]. split; [reflexivity|]. split; [|split; [|split]].
  - intros v Hv. change (0 <= v < 7) in Hv. assert (v = 0 \/ v = 1 \/ v = 2 \/ v = 3 \/ v = 4 \/ v = 5 \/ v = 6) as X by lia. destruct X as [->|[->|[->|[->|[->|[->| ->]]]]]]; vm_compute; discriminate.
  - repeat (constructor; [cbn; lia|]). constructor.
  - intros v Hv. change (0 <= v < 7). cbn in Hv. lia.
  - intros jk. vm_compute. reflexivity.
Qed.
Print Assumptions C76_list_refuted.

(** Third: if the strategy makes several blocks, the method calls itself on each of them with the same graph, so that
    the strategy makes several blocks again: the recursion never ends, whatever its depth. *)
Definition ex_iso : graph := mkgraph 0 2 2 [0; 0; 0] None None 2 None None 0 [] None 0 0.
Lemma iso_run p q x y cb : exists p' q' x' y' c cs, hgraphOrderSt (-7) 1 (SCc SSi) (halgraf ex_iso) (mkost [p; q] x y) 0 cb =
  Ok (0, mkost [p'; q'] x' y', Cblk ORDERCBLKDICO (c_vnod cb) 2 (Some (c :: cs))).
Proof. destruct cb. do 6 eexists. vm_compute. reflexivity. Qed.
Theorem C76_several_blocks_refuted :
  exists g s, graph_valid g /\ graph_readable g /\ vertnbr g = 2 /\ sgood true true true false s /\
    forall fuel, graphOrder (-7) 1 g (SMeth (hgraphOrderBl fuel 1 (hgraphOrderSt (-7) 1 s))) [0; 0] [0; 0] [0; 0; 0] [0; 0] = Fuel.
Proof.
  exists ex_iso, (SCc SSi). split; [apply (C09_graphCheck_sound 100); vm_compute; reflexivity|]. split; [apply (C09_graphCheck_sound 100); vm_compute; reflexivity|]. split; [reflexivity|]. split; [cbn; auto|]. intros fuel.
  assert (X : forall fuel p q x y cb, hgraphOrderBl fuel 1 (hgraphOrderSt (-7) 1 (SCc SSi)) (halgraf ex_iso) (mkost [p; q] x y) 0 cb = Fuel).
  { clear. induction fuel as [|fuel IH]; intros p q x y cb; [reflexivity|]. destruct (iso_run p q x y cb) as (p' & q' & x' & y' & c & cs & E). cbn [hgraphOrderBl]. change (1 <=? 0) with false. cbv iota. rewrite E. cbn [bind]. change (negb (0 =? 0)) with false. cbv iota. cbn [c_tab]. rewrite IH. reflexivity. }
  unfold graphOrder, graphOrderComputeList. change (vertnbr ex_iso) with 2. change (2 =? 0) with false. change (2 =? 2) with true. cbv iota. cbn [orderInit o_peri o_cblknbr o_treenbr o_tree o_base o_vnod].
  change (hgraphOrderSt (-7) 1 (SMeth ?m) (halgraf ex_iso) ?st 0 ?cb) with (m (halgraf ex_iso) st 0 cb). cbv beta. rewrite X. reflexivity.
Qed.
Print Assumptions C76_several_blocks_refuted.
