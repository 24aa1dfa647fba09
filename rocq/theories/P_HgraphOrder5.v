(** Proofs about the user interface of graph orderings. *)
From Verif Require Import Base M_Int M_Graph M_Vgraph M_Induce M_Hgraph M_Order M_HgraphOrder S_Graph S_Vgraph S_Induce S_Hgraph S_Order S_HgraphOrder.
From Verif Require Import P_GraphList P_Induce P_Vgraph P_Hgraph P_HgraphOrder P_HgraphOrder2 P_HgraphOrder3.
From Verif Require P_Order P_Order2 P_HgraphOrder4.
From Coq Require Import Permutation.

Lemma unload_valid g : graph_valid g -> graph_readable g -> graph_valid (unload g) /\ graph_readable (unload g).
Proof.
  intros G R. split.
  - constructor.
    + apply (gv_size _ G).
    + apply (gv_nnd _ G).
    + apply (gv_range _ G).
    + apply (gv_end _ G).
    + apply (gv_loop _ G).
    + apply (gv_simple _ G).
    + intros v e Ha. destruct (gv_sym _ G v e Ha) as (e' & A & B & _). exists e'. auto.
    + apply (gv_edgenbr _ G).
    + apply (gv_velo _ G).
    + apply (gv_velosum _ G).
    + intros. unfold edlo. cbn [unload edlotab]. lia.
    + cbn [unload edlosum]. rewrite (gv_edgenbr _ G). apply zsum_ext. intros v Hv. unfold edlo. cbn [unload edlotab]. pose proof (gv_range _ G v Hv). change (vert (unload g) v) with (vert g v). change (vend (unload g) v) with (vend g v). rewrite zsum_const by lia. lia.
    + apply (gv_degr0 _ G).
    + apply (gv_degr _ G).
  - constructor.
    + apply (gr_vert _ R).
    + apply (gr_vend _ R).
    + apply (gr_velo _ R).
    + apply (gr_edge _ R).
    + discriminate.
Qed.

Section Top.
Variable g : graph.
Hypotheses (G : graph_valid g) (R : graph_readable g) (Hb : 0 <= baseval g) (Vn : vnumtab g = None) (Hn : 1 <= vertnbr g).
Let b := baseval g.
Let n := vertnbr g.

Lemma halgraf_ok : hgraph_ok (halgraf g).
Proof.
  split; [reflexivity|]. destruct (unload_valid g G R) as (G' & R'). change (hgraph_valid (nohalo (unload g) 0)). apply nohalo_valid; auto. intros t. cbn [unload vnumtab]. rewrite Vn. discriminate.
Qed.

Definition Adj (u v : Z) : Prop := In v (map fst (nbr g u)).
Lemma ends_halgraf v : ends (hs (halgraf g)) v = ends g v.
Proof. unfold ends, nbr. rewrite !map_map. reflexivity. Qed.
Lemma halgraf_faithful : faithful Adj (halgraf g).
Proof.
  intros u v _ _. unfold orgnum. change (vnumtab (hs (halgraf g))) with (vnumtab g). rewrite Vn. intros H. change (In v (ends (hs (halgraf g)) u)). rewrite ends_halgraf. exact H.
Qed.

(** Whole graph *)
Lemma compute_all jk al s top tot tr fl peri l : 1 <= al <= 2 -> top = true -> sgood top tot tr fl s -> n <= zlen peri -> (l = None \/ exists l', l = Some l' /\ zlen l' = n) ->
  exists rc o, graphOrderComputeList jk al g (orderInit b n peri) l s = Ok (rc, o) /\ (tot = true -> rc = 0) /\
    (rc = 0 -> order_valid o /\ o_base o = b /\ o_vnod o = n /\ zlen (o_peri o) = zlen peri /\ (tr = true -> respects Adj (o_tree o) (seg (o_peri o) 0 n))).
Proof.
  intros Hal -> Hs Hz Hl. unfold graphOrderComputeList.
  assert (El : match l with Some l => zlen l | None => vertnbr g end = n) by (destruct Hl as [->|(l' & -> & E)]; auto). rewrite El. fold n. replace (n =? 0) with false by lia. replace (n =? n) with true by lia.
  cbn [orderInit o_peri o_cblknbr o_treenbr o_tree o_base o_vnod].
  destruct (St_good jk al s Hal true tot tr fl Hs (halgraf g) (mkost peri 1 1) 0 halgraf_ok Hn ltac:(lia) Hz ltac:(auto)) as (rc & st' & cb & E & P & T).
  change (leaf (vnohnbr (halgraf g))) with (Cblk ORDERCBLKLEAF n 0 None) in E. rewrite E. cbn [bind]. exists rc. eexists. split; [reflexivity|]. split; [exact T|]. intros Rz. destruct (P Rz) as (D & Rs & _). clear P.
  pose proof (od_len _ _ _ _ _ D) as L. pose proof (od_perm _ _ _ _ _ D) as Pm. cbn [os_peri] in L. change (vnohnbr (halgraf g)) with n in *. change (hs (halgraf g)) with (unload g) in Pm at 2 || idtac.
  assert (Pm' : Permutation (zseq b n) (seg (os_peri st') 0 n)).
  { eapply Permutation_trans; [|apply Permutation_sym; exact Pm]. change (baseval (hs (halgraf g))) with b. rewrite map_ext_in with (g := fun x => x); [rewrite map_id; apply Permutation_refl|]. intros v _. unfold orgnum. change (vnumtab (hs (halgraf g))) with (vnumtab g). now rewrite Vn. }
  split; [|split; [reflexivity|split; [reflexivity|split; [exact L|]]]].
  - constructor; cbn [o_base o_vnod o_peri o_tree o_cblknbr o_treenbr].
    + unfold perm_range. replace (firstn (Z.to_nat n) (os_peri st')) with (seg (os_peri st') 0 n); [exact Pm'|]. apply (at_ext 0); [rewrite zlen_seg, zlen_firstn by lia; auto|]. intros i. rewrite zlen_seg by lia. intros Hi. rewrite at_seg, at_firstn by lia. f_equal.
    + apply (od_tree _ _ _ _ _ D).
    + apply (od_vnod _ _ _ _ _ D).
    + rewrite (od_cblk _ _ _ _ _ D). cbn [os_cblk]. lia.
    + rewrite (od_node _ _ _ _ _ D). cbn [os_tree]. lia.
  - intros Ht. cbn [o_tree o_peri]. apply (Rs Ht Adj). apply halgraf_faithful.
Qed.

(** Part of the graph *)
Definition others (l : list Z) : list Z := filter (fun v => negb (selected l v)) (zseq b n).

Lemma listMarks_spec l peri : NoDup l -> (forall v, In v l -> isvert g v) -> n <= zlen peri ->
  exists peri', listMarks g l peri = Ok peri' /\ zlen peri' = zlen peri /\ zlen l + zlen (others l) = n /\
    (forall k, 0 <= k < zlen (others l) -> at_ 0 peri' (zlen l + k) = at_ 0 (others l) k) /\ (forall i, n <= i -> at_ 0 peri' i = at_ 0 peri i).
Proof.
  intros Nd Hl Hz. pose proof (gv_nnd _ G) as Gn. fold b n in Gn. unfold isvert in Hl. fold b in Hl. rewrite Gn in Hl.
  assert (Cnt : zlen l + zlen (others l) = n).
  { assert (P : Permutation (l ++ others l) (zseq b n)).
    { apply NoDup_Permutation; [apply NoDup_app_intro; auto|apply NoDup_zseq|].
      - apply NoDup_filter, NoDup_zseq.
      - intros x H1 H2. apply filter_In in H2. destruct H2 as (_ & H2). apply negb_true_iff, selected_nin in H2. auto.
      - intros x. rewrite in_app_iff. unfold others. rewrite filter_In, In_zseq. split.
        + intros [H|(H & _)]; auto.
        + intros H. destruct (selected l x) eqn:E; [left; now apply selected_in | right; auto]. }
    apply Permutation_length in P. rewrite app_length in P. pose proof (zlen_zseq b n ltac:(lia)) as Z. unfold zlen in *. lia. }
  unfold listMarks. cbv zeta. fold b n. rewrite Gn.
  match goal with |- context [bind (for_ 0 n ?f peri) _] => destruct (wp_ok_inv (for_ 0 n f peri) (fun p => zlen p = zlen peri /\ (forall i, 0 <= i < n -> at_ 0 p i = 0) /\ forall i, n <= i -> at_ 0 p i = at_ 0 peri i)) as (p1 & -> & Z1 & A1 & U1) end.
  { apply wp_for with (I := fun k p => zlen p = zlen peri /\ (forall i, 0 <= i < k -> at_ 0 p i = 0) /\ forall i, k <= i -> at_ 0 p i = at_ 0 peri i).
    - lia.
    - split; [auto|]. split; [intros; lia|auto].
    - intros k p Hk (Zp & A & U). rewrite wr_ok by lia. cbn [wp]. rewrite zlen_upd. split; [auto|]. split; intros i Hi; rewrite at_upd by lia; destruct (Z.eqb_spec k i); try lia; try (apply A; lia); try (apply U; lia).
    - auto. }
  cbn [bind].
  match goal with |- context [bind (for_ 0 (zlen l) ?f p1) _] => destruct (wp_ok_inv (for_ 0 (zlen l) f p1) (fun p => zlen p = zlen peri /\ (forall v, b <= v < b + n -> at_ b p v = if selected l v then -1 else 0) /\ forall i, n <= i -> at_ 0 p i = at_ 0 peri i)) as (p2 & -> & Z2 & A2 & U2) end.
  { pose proof (zlen_nonneg l). apply wp_for with (I := fun k p => zlen p = zlen peri /\ (forall v, b <= v < b + n -> at_ b p v = if selected (firstn (Z.to_nat k) l) v then -1 else 0) /\ forall i, n <= i -> at_ 0 p i = at_ 0 peri i).
    - lia.
    - split; [auto|]. split; [|auto]. intros v Hv. cbn. rewrite (at_rebase 0 b), A1 by lia. reflexivity.
    - intros k p Hk (Zp & A & U). rewrite rd_ok by lia. cbn [bind]. pose proof (Hl (at_ 0 l k) ltac:(apply at_In; lia)) as Hv. rewrite wr_ok by lia. cbn [wp]. rewrite zlen_upd. split; [auto|]. split.
      + intros v Hv'. rewrite at_upd by lia. rewrite firstn_snoc by lia. destruct (Z.eqb_spec (at_ 0 l k) v) as [->|Hne].
        * replace (selected (firstn (Z.to_nat k) l ++ [v]) v) with true; [auto|]. symmetry. apply selected_in, in_app_iff. right. now left.
        * rewrite A by auto. destruct (selected (firstn (Z.to_nat k) l) v) eqn:E1.
          -- replace (selected _ v) with true; [auto|]. symmetry. apply selected_in, in_app_iff. left. now apply selected_in.
          -- replace (selected (firstn (Z.to_nat k) l ++ [at_ 0 l k]) v) with false; [auto|]. symmetry. apply selected_nin. rewrite in_app_iff. intros [H1|[H1|[]]]; [apply selected_nin in E1; auto | auto].
      + intros i Hi. rewrite (at_rebase b 0). rewrite at_upd_other by lia. rewrite <- (at_rebase b 0). apply U. lia.
    - intros p (Zp & A & U). split; [auto|]. split; [|auto]. intros v Hv. rewrite A by auto. unfold zlen. rewrite Nat2Z.id, firstn_all. reflexivity. }
  cbn [bind].
  set (oth := fun v => filter (fun v => negb (selected l v)) (zseq v (b + n - v))).
  match goal with |- context [bind (for_ 0 n ?f (p2, ?ha)) _] => destruct (wp_ok_inv (for_ 0 n f (p2, ha)) (fun '(p, ha0) => ha0 = b + zlen l - 1 /\ zlen p = zlen peri /\ (forall k, 0 <= k < zlen (others l) -> at_ 0 p (zlen l + k) = at_ 0 (others l) k) /\ forall i, n <= i -> at_ 0 p i = at_ 0 peri i)) as ((p3, ha1) & -> & _ & Z3 & A3 & U3) end.
  { apply wp_for with (I := fun k '(p, ha) => let v := b + n - k in zlen p = zlen peri /\ ha = b + n - 1 - zlen (oth v) /\ zlen (oth v) <= k /\ (forall u, b <= u < v -> at_ b p u = if selected l u then -1 else 0) /\
       (forall k, 0 <= k < zlen (oth v) -> at_ b p (ha + 1 + k) = at_ 0 (oth v) k) /\ forall i, n <= i -> at_ 0 p i = at_ 0 peri i).
    - lia.
    - cbv zeta. assert (E0 : oth (b + n - 0) = []) by (unfold oth; rewrite zseq_0 by lia; reflexivity). rewrite E0. change (zlen (@nil Z)) with 0. split; [auto|]. split; [lia|]. split; [lia|]. split; [intros u Hu; apply A2; lia|]. split; [intros; lia|auto].
    - intros k (p, ha) Hk (Zp & -> & Lo & A & S & U). cbv zeta. set (v := b + n - 1 - k) in *. replace (b + n - (k + 1)) with v by lia. replace (b + n - k) with (v + 1) in * by lia.
      assert (Ov : oth v = if selected l v then oth (v + 1) else v :: oth (v + 1)).
      { unfold oth. rewrite zseq_cons by lia. cbn [filter]. replace (b + n - v - 1) with (b + n - (v + 1)) by lia. destruct (selected l v); reflexivity. }
      pose proof (zlen_nonneg (oth (v + 1))) as On. rewrite rd_ok by lia. cbn [bind]. rewrite (A v) by lia. rewrite Ov. destruct (selected l v).
      + change (-1 =? 0) with false. cbn [wp]. split; [auto|]. split; [auto|]. split; [lia|]. split; [intros u Hu; apply A; lia|]. auto.
      + change (0 =? 0) with true. cbn [wp bind]. rewrite wr_ok by lia. cbn [bind wp]. rewrite zlen_upd, zlen_cons. split; [auto|]. split; [lia|]. split; [lia|]. split; [intros u Hu; rewrite at_upd_other by lia; apply A; lia|]. split.
        * intros j Hj. destruct (Z.eq_dec j 0) as [->|].
          -- rewrite at_cons_0. replace (b + n - 1 - zlen (oth (v + 1)) - 1 + 1 + 0) with (b + n - 1 - zlen (oth (v + 1))) by lia. apply at_upd_same. lia.
          -- rewrite at_cons_S by lia. rewrite at_upd_other by lia. rewrite <- S by lia. f_equal. lia.
        * intros i Hi. rewrite (at_rebase b 0). rewrite at_upd_other by lia. rewrite <- (at_rebase b 0). apply U. lia.
    - intros (p, ha) (Zp & -> & _ & _ & S & U). replace (b + n - n) with b in * by lia. assert (Eo : oth b = others l) by (unfold oth, others; do 2 f_equal; lia). rewrite Eo in *. split; [lia|]. split; [auto|]. split; [|auto].
      intros k Hk. rewrite <- S by auto. rewrite (at_rebase b 0). f_equal. lia. }
  cbn [bind]. exists p3. auto.
Qed.

Lemma compute_list jk al s tot tr fl peri l : 1 <= al <= 2 -> sgood true tot tr fl s -> n <= zlen peri -> NoDup l -> (forall v, In v l -> isvert g v) -> 1 <= zlen l < n ->
  exists rc o, graphOrderComputeList jk al g (orderInit b n peri) (Some l) s = Ok (rc, o) /\ (tot = true -> rc = 0) /\
    (rc = 0 -> order_valid o /\ o_base o = b /\ o_vnod o = n /\ zlen (o_peri o) = zlen peri /\
       Permutation (seg (o_peri o) 0 (zlen l)) l /\ seg (o_peri o) (zlen l) (n - zlen l) = others l).
Proof.
  intros Hal Hs Hz Nd Hl Hln. unfold graphOrderComputeList. replace (zlen l =? 0) with false by lia. fold n. replace (zlen l =? n) with false by lia. cbn [orderInit o_peri o_base o_vnod].
  destruct (listMarks_spec l peri Nd Hl Hz) as (p & Ep & Zp & Cnt & Op & _). rewrite Ep. cbn [bind]. cbv zeta.
  pose proof (gv_nnd _ G) as Gn. fold b n in Gn.
  destruct (son_spec jk (halgraf g) l (others l) (n - zlen l) halgraf_ok Nd) as (h' & E' & Ok' & V' & O' & _).
  { intros w Hw. apply Hl in Hw. exact Hw. }
  { intros v w Hv Hw Hx. rewrite ends_halgraf in Hw. unfold others. apply filter_In. split; [|apply negb_true_iff; now apply selected_nin]. apply In_zseq. rewrite <- Gn. change (isvert g w). apply (ends_sym g v w G (Hl v Hv) Hw). }
  { lia. }
  rewrite E'. destruct (St_good jk al s Hal true tot tr fl Hs h' (mkost p 2 3) 0 Ok' ltac:(lia) ltac:(lia) ltac:(cbn [os_peri]; lia) ltac:(auto)) as (rc & st' & c0 & E & P & T). rewrite V' in E, P. rewrite E. cbn [bind].
  exists rc. eexists. split; [reflexivity|]. split; [exact T|]. intros Rz. destruct (P Rz) as (D & _). pose proof (od_len _ _ _ _ _ D) as L. pose proof (od_perm _ _ _ _ _ D) as Pm. pose proof (od_frame _ _ _ _ _ D) as Fr. cbn [os_peri] in L, Fr. rewrite V' in Pm, Fr. rewrite O' in Pm.
  assert (Pl : Permutation (seg (os_peri st') 0 (zlen l)) l).
  { eapply Permutation_trans; [exact Pm|]. rewrite map_ext_in with (g := fun x => x); [rewrite map_id; apply Permutation_refl|]. intros v _. unfold orgnum. change (vnumtab (hs (halgraf g))) with (vnumtab g). now rewrite Vn. }
  assert (So : seg (os_peri st') (zlen l) (n - zlen l) = others l).
  { apply (at_ext 0); [rewrite zlen_seg; lia|]. intros i. rewrite zlen_seg by lia. intros Hi. rewrite at_seg by lia. rewrite Fr by lia. apply Op. lia. }
  cbn [o_base o_vnod o_peri]. split; [|split; [reflexivity|split; [reflexivity|split; [lia|split; auto]]]].
  constructor; cbn [o_base o_vnod o_peri o_tree o_cblknbr o_treenbr].
  - unfold perm_range. replace (firstn (Z.to_nat n) (os_peri st')) with (seg (os_peri st') 0 n).
    2:{ apply (at_ext 0); [rewrite zlen_seg, zlen_firstn by lia; auto|]. intros i. rewrite zlen_seg by lia. intros Hi. rewrite at_seg, at_firstn by lia. f_equal. }
    replace (seg (os_peri st') 0 n) with (seg (os_peri st') 0 (zlen l) ++ seg (os_peri st') (zlen l) (n - zlen l)) by (replace n with (zlen l + (n - zlen l)) at 2 by lia; rewrite seg_app by lia; reflexivity).
    rewrite So. eapply Permutation_trans; [|apply Permutation_app_tail; apply Permutation_sym; exact Pl]. apply NoDup_Permutation; [apply NoDup_zseq|apply NoDup_app_intro; auto|].
    + apply NoDup_filter, NoDup_zseq.
    + intros x H1 H2. apply filter_In in H2. destruct H2 as (_ & H2). apply negb_true_iff, selected_nin in H2. auto.
    + intros x. rewrite in_app_iff. unfold others. rewrite filter_In, In_zseq. split.
      * intros H. destruct (selected l x) eqn:Es; [left; now apply selected_in | right; auto].
      * intros [H|(H & _)]; [|auto]. apply Hl in H. unfold isvert in H. fold b in H. lia.
  - cbn [tree_ok]. split; [right; split; [now left | lia]|]. split; [lia|]. split; [reflexivity|]. split.
    + unfold vsum. cbn [fold_right]. rewrite (od_vnod _ _ _ _ _ D), V'. cbn [c_vnod leaf]. lia.
    + cbn [fold_right]. split; [apply (od_tree _ _ _ _ _ D)|]. split; [|exact I]. cbn. split; [reflexivity|]. split; [lia|reflexivity].
  - reflexivity.
  - rewrite P_Order.leaves_node. cbn [flat_map]. rewrite (od_cblk _ _ _ _ _ D), !zlen_app. cbn [os_cblk]. change (zlen (leaves (leaf (n - zlen l)))) with 1. change (zlen (@nil Z)) with 0. lia.
  - rewrite (od_node _ _ _ _ _ D). cbn [nnodes fold_right leaf os_tree]. lia.
Qed.
End Top.

(** Arrays *)
Lemma arrays_spec g o perm rang tree : order_valid o -> o_base o = baseval g -> 1 <= o_vnod o -> o_vnod o <= zlen (o_peri o) -> o_vnod o <= zlen perm -> o_cblknbr o + 1 <= zlen rang -> o_cblknbr o <= zlen tree ->
  exists perm' rang' tree', orderArrays g o perm rang tree = Ok (perm', rang', tree') /\ ordering (o_base o) (o_vnod o) (o_peri o) perm' (o_cblknbr o) rang' tree' /\
    (forall A, respects A (o_tree o) (seg (o_peri o) 0 (o_vnod o)) -> forall u v cu cv, o_base o <= u < o_base o + o_vnod o -> o_base o <= v < o_base o + o_vnod o -> A u v ->
       holds (o_base o) perm' rang' (o_cblknbr o) cu u -> holds (o_base o) perm' rang' (o_cblknbr o) cv v -> anc (o_base o) tree' cu cv \/ anc (o_base o) tree' cv cu).
Proof.
  intros V Eb Hn Hz Hp Hr Ht. unfold orderArrays. rewrite <- Eb. set (b := o_base o) in *. set (n := o_vnod o) in *.
  destruct (P_Order2.orderPeri_spec (o_peri o) b n perm b ltac:(lia) Hp (ov_perm _ V)) as (perm' & E1 & Z1 & P1 & P2 & _ & _). rewrite E1. cbn [bind].
  pose proof (ov_cblk _ V) as Ec. pose proof (ov_tree _ V) as Tk. destruct (P_Order.leaves_pos _ Tk) as (Lp & La).
  destruct (P_Order.orderRang_at o rang Tk ltac:(lia)) as (rang' & E2 & Z2 & R0 & Rn & Rs & _). rewrite E2. cbn [bind].
  rewrite (P_Order.orderTree_spec o tree Tk Ec Ht). cbn [bind]. change (o_base o) with b.
  set (F := fathers (o_tree o) b (-1)). assert (ZF : zlen F = zlen (leaves (o_tree o))) by apply P_Order.zlen_fathers.
  set (tree' := P_Order.blit b tree b F). assert (At : forall c, b <= c < b + o_cblknbr o -> at_ b tree' c = at_ b F c).
  { intros c Hc. unfold tree'. rewrite P_Order.at_blit by lia. replace ((b <=? c) && (c <? b + zlen F)) with true by lia. unfold at_. f_equal; lia. }
  exists perm', rang', tree'. split; [reflexivity|].
  assert (Rb : forall (l : list Z) (i : Z), at_ b l i = at_ 0 l (i - b)) by (intros l i; unfold at_; f_equal; lia).
  assert (Ls : n = P_Order.lsum (leaves (o_tree o))) by (unfold n; rewrite <- (ov_vnod _ V); now apply P_HgraphOrder4.lsum_leaves).
  assert (Rl : forall k, 0 <= k -> k <= zlen (leaves (o_tree o)) -> at_ 0 rang' k = b + P_Order.lsum (firstn (Z.to_nat k) (leaves (o_tree o)))).
  { intros k Hk. revert k Hk. apply (zrange_ind (fun k => k <= zlen (leaves (o_tree o)) -> at_ 0 rang' k = b + P_Order.lsum (firstn (Z.to_nat k) (leaves (o_tree o))))).
    - intros _. rewrite R0. cbn. lia.
    - intros k Hk IH Hk'. rewrite Rs by lia. rewrite IH by lia. rewrite P_Order.lsum_firstn_S by lia. lia. }
  split.
  - constructor.
    + intros v Hv. repeat rewrite Rb. destruct (P2 (v - b) ltac:(lia)) as (X1 & X2). split; [auto|]. rewrite X2. lia.
    + intros p Hp'. repeat rewrite Rb. pose proof (proj1 (P_Order2.perm_first b n (o_peri o) ltac:(lia)) (ov_perm _ V)) as (Hr' & _). split; [apply Hr'; lia|]. rewrite P1 by lia. lia.
    + split; [lia|]. rewrite Ec, Ls. clear - La. induction (leaves (o_tree o)) as [|x l IH]; [reflexivity|]. inversion La; subst. rewrite zlen_cons. cbn [P_Order.lsum]. specialize (IH H2). lia.
    + rewrite Rb. replace (b - b) with 0 by lia. exact R0.
    + rewrite Rb. replace (b + o_cblknbr o - b) with (zlen (leaves (o_tree o))) by lia. rewrite Rn, (ov_vnod _ V). reflexivity.
    + intros c Hc. repeat rewrite Rb. replace (c + 1 - b) with (c - b + 1) by lia. rewrite Rs by lia. rewrite Forall_forall in La. pose proof (La (at_ 0 (leaves (o_tree o)) (c - b)) ltac:(apply at_In; lia)). lia.
    + intros c Hc. rewrite At by lia. rewrite Ec. apply P_Order.fathers_range; [auto|lia].
  - intros A Rsp u v cu cv Hu Hv HA (Cu & Bu) (Cv & Bv). destruct (proj1 (P_HgraphOrder4.respects_good A) _ _ Rsp Tk) as (_ & Gd).
    assert (Ag : P_HgraphOrder4.agree b tree' b F). { split; [lia|]. intros k Hk. rewrite At by lia. rewrite Rb. f_equal. lia. }
    assert (Ib : forall w c, b <= w < b + n -> b <= c < b + o_cblknbr o -> at_ b rang' c <= at_ b perm' w < at_ b rang' (c + 1) -> P_HgraphOrder4.inblk (leaves (o_tree o)) (at_ b perm' w - b) (c - b) /\ at_ 0 (seg (o_peri o) 0 n) (at_ b perm' w - b) = w).
    { intros w c Hw Hc Bw. repeat rewrite Rb in *. destruct (P2 (w - b) ltac:(lia)) as (X1 & X2). split.
      - split; [lia|]. rewrite !Rl in Bw by lia. replace (c + 1 - b) with (c - b + 1) in Bw by lia. rewrite P_Order.lsum_firstn_S in Bw by lia. lia.
      - rewrite at_seg by lia. replace (0 + (at_ 0 perm' (w - b) - b)) with (at_ 0 perm' (w - b) - b) by lia. rewrite X2. lia. }
    destruct (Ib u cu Hu Cu Bu) as (Iu & Au). destruct (Ib v cv Hv Cv Bv) as (Iv & Av). rewrite <- Au in HA at 1. rewrite <- Av in HA. specialize (Gd b tree' b (-1) Ag _ _ _ _ Iu Iv HA).
    replace (b + (cu - b)) with cu in Gd by lia. replace (b + (cv - b)) with cv in Gd by lia. exact Gd.
Qed.
