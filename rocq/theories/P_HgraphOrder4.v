(** Proofs about separator trees: adjacent vertices are in related blocks. *)
From Verif Require Import Base M_Order M_HgraphOrder S_Order S_HgraphOrder P_Order P_Order2.

Definition inblk (L : list Z) (i c : Z) : Prop := 0 <= c < zlen L /\ lsum (firstn (Z.to_nat c) L) <= i < lsum (firstn (Z.to_nat c) L) + at_ 0 L c.
Definition agree (b : Z) (tree : list Z) (lo : Z) (l : list Z) : Prop := b <= lo /\ forall k, 0 <= k < zlen l -> at_ b tree (lo + k) = at_ 0 l k.

Lemma lsum_nonneg l : Forall (fun x => 1 <= x) l -> 0 <= lsum l.
Proof. induction 1; cbn [lsum]; lia. Qed.
Lemma Forall_firstn {A} (P : A -> Prop) k l : Forall P l -> Forall P (firstn k l).
Proof. intros H. revert k. induction H; intros [|k]; cbn [firstn]; constructor; auto. Qed.
Lemma Forall_skipn {A} (P : A -> Prop) k l : Forall P l -> Forall P (skipn k l).
Proof. intros H. revert k. induction H; intros [|k]; cbn [skipn]; auto. Qed.
Lemma inblk_range L i c : Forall (fun x => 1 <= x) L -> inblk L i c -> 0 <= i < lsum L.
Proof.
  intros F (Hc & Hi). pose proof (lsum_nonneg _ (Forall_firstn _ (Z.to_nat c) _ F)). split; [lia|]. rewrite <- lsum_firstn_S in Hi by lia. rewrite <- (firstn_skipn (Z.to_nat (c + 1)) L) at 1. rewrite lsum_app.
  pose proof (lsum_nonneg _ (Forall_skipn _ (Z.to_nat (c + 1)) _ F)). lia.
Qed.
Lemma inblk_app L1 L2 i c : Forall (fun x => 1 <= x) L1 -> Forall (fun x => 1 <= x) L2 -> inblk (L1 ++ L2) i c ->
  (0 <= i < lsum L1 /\ inblk L1 i c) \/ (lsum L1 <= i < lsum L1 + lsum L2 /\ inblk L2 (i - lsum L1) (c - zlen L1)).
Proof.
  intros F1 F2 H. pose proof (inblk_range (L1 ++ L2) i c ltac:(apply Forall_app; auto) H) as R. rewrite lsum_app in R. destruct H as (Hc & Hi). rewrite zlen_app in Hc. destruct (Z_lt_ge_dec c (zlen L1)) as [Hl|Hg].
  - left. assert (B : inblk L1 i c). { split; [lia|]. rewrite at_app1 in Hi by lia. rewrite firstn_app in Hi. replace (Z.to_nat c - length L1)%nat with O in Hi by (unfold zlen in *; lia). cbn [firstn] in Hi. rewrite app_nil_r in Hi. exact Hi. }
    split; [apply (inblk_range _ _ _ F1 B) | exact B].
  - right. assert (B : inblk L2 (i - lsum L1) (c - zlen L1)).
    { split; [lia|]. rewrite at_app2 in Hi by lia. rewrite firstn_app in Hi. rewrite firstn_all2 in Hi by (unfold zlen in *; lia). rewrite lsum_app in Hi. replace (Z.to_nat c - length L1)%nat with (Z.to_nat (c - zlen L1)) in Hi by (unfold zlen; lia). lia. }
    split; [pose proof (inblk_range _ _ _ F2 B); lia | exact B].
Qed.
Lemma agree_app b tree lo l1 l2 : agree b tree lo (l1 ++ l2) -> agree b tree lo l1 /\ agree b tree (lo + zlen l1) l2.
Proof.
  intros (Hb & H). pose proof (zlen_nonneg l1). pose proof (zlen_nonneg l2). split; (split; [lia|]); intros k Hk.
  - rewrite (H k) by (rewrite zlen_app; lia). now rewrite at_app1 by lia.
  - replace (lo + zlen l1 + k) with (lo + (zlen l1 + k)) by lia. rewrite (H (zlen l1 + k)) by (rewrite zlen_app; lia). rewrite at_app2 by lia. f_equal. lia.
Qed.

Lemma anc_trans b tree c d e : anc b tree c d -> anc b tree d e -> anc b tree c e.
Proof. induction 1; [auto|]. intros H1. apply anc_up; auto. Qed.

Lemma lsum_leaves t : tree_ok t -> c_vnod t = lsum (leaves t).
Proof. intros T. apply (orderRang2_spec t T (repeat 0 (length (leaves t))) 0 0); [lia|]. unfold zlen. rewrite repeat_length. lia. Qed.

(** All the blocks of a subtree lead to its father *)
Lemma reach b tree t lo fa : tree_ok t -> agree b tree lo (fathers t lo fa) -> forall c, lo <= c < lo + zlen (leaves t) -> anc b tree c fa.
Proof.
  intros T (Hb & A). assert (H : forall k c, lo + zlen (leaves t) - c <= Z.of_nat k -> lo <= c < lo + zlen (leaves t) -> anc b tree c fa); [|intros c Hc; apply (H (Z.to_nat (zlen (leaves t) + 1)) c); lia].
  induction k as [|k IH]; intros c Hk Hc; [lia|]. pose proof (A (c - lo) ltac:(rewrite zlen_fathers; lia)) as E. replace (lo + (c - lo)) with c in E by lia.
  apply anc_up; [lia|]. rewrite E. destruct (fathers_range t lo fa T c Hc) as [R|R]; rewrite (at_rebase 0 lo) in R; replace (c - lo + 0) with (c - lo) in R by lia.
  - rewrite R. constructor.
  - apply IH; lia.
Qed.

Scheme respects_ind2 := Minimality for respects Sort Prop with rs_list_ind2 := Minimality for rs_list Sort Prop.
Combined Scheme respects_mut from respects_ind2, rs_list_ind2.

Definition good (A : Z -> Z -> Prop) (t : cblk) (s : list Z) : Prop :=
  tree_ok t -> zlen s = c_vnod t /\ forall b tree lo fa, agree b tree lo (fathers t lo fa) ->
    forall i j ci cj, inblk (leaves t) i ci -> inblk (leaves t) j cj -> A (at_ 0 s i) (at_ 0 s j) ->
      anc b tree (lo + ci) (lo + cj) \/ anc b tree (lo + cj) (lo + ci).

Lemma indep_good A cs ss : Forall2 (good A) cs ss -> ForallOrdPairs (apart A) ss -> all_ok cs ->
  zlen (concat ss) = vsum cs /\ forall b tree lo fa, agree b tree lo (indep cs lo fa) ->
    forall i j ci cj, inblk (flat_map leaves cs) i ci -> inblk (flat_map leaves cs) j cj -> A (at_ 0 (concat ss) i) (at_ 0 (concat ss) j) ->
      anc b tree (lo + ci) (lo + cj) \/ anc b tree (lo + cj) (lo + ci).
Proof.
  induction 1 as [|c s cs ss Hc Hcs IH]; intros P K.
  - split; [reflexivity|]. intros b tree lo fa _ i j ci cj ((H1 & H2) & _). change (zlen (flat_map leaves [])) with 0 in H2. lia.
  - inversion P as [|? ? P1 P2]; subst. cbn in K. destruct K as (K1 & K2). destruct (Hc K1) as (Zs & G). destruct (IH P2 K2) as (Zss & GG). cbn [concat flat_map]. rewrite zlen_app. split; [cbn [vsum fold_right]; fold (vsum cs); lia|].
    intros b tree lo fa Ag i j ci cj Bi Bj HA. cbn [indep] in Ag. apply agree_app in Ag. destruct Ag as (Ag1 & Ag2). rewrite zlen_fathers in Ag2.
    assert (Fc : Forall (fun x => 1 <= x) (leaves c)) by apply (leaves_pos _ K1). assert (Fs : Forall (fun x => 1 <= x) (flat_map leaves cs)).
    { clear - K2. induction cs as [|d cs IH]; cbn [flat_map]; [constructor|]. cbn in K2. destruct K2. apply Forall_app. split; [apply (leaves_pos d); auto | auto]. }
    assert (Ls : lsum (flat_map leaves cs) = vsum cs).
    { clear - K2. induction cs as [|d cs IH]; cbn [flat_map]; [reflexivity|]. cbn in K2. destruct K2. rewrite lsum_app. cbn [vsum fold_right]. fold (vsum cs). rewrite IH by auto. rewrite (lsum_leaves d) by auto. lia. }
    pose proof (lsum_leaves c K1) as Lc. rewrite Forall_forall in P1.
    assert (Ap : forall x y, In x s -> In y (concat ss) -> ~ A x y /\ ~ A y x). { intros x y Hx Hy. apply in_concat in Hy. destruct Hy as (s' & Hs' & Hy). apply (P1 s' Hs' x y Hx Hy). }
    destruct (inblk_app _ _ _ _ Fc Fs Bi) as [(Ri & Bi')|(Ri & Bi')], (inblk_app _ _ _ _ Fc Fs Bj) as [(Rj & Bj')|(Rj & Bj')].
    + rewrite !at_app1 in HA by lia. apply (G b tree lo fa Ag1 i j); auto.
    + exfalso. rewrite at_app1 in HA by lia. rewrite at_app2 in HA by lia. apply (proj1 (Ap (at_ 0 s i) (at_ 0 (concat ss) (j - zlen s)) ltac:(apply at_In; lia) ltac:(apply at_In; lia)) HA).
    + exfalso. rewrite at_app2 in HA by lia. rewrite at_app1 in HA by lia. apply (proj2 (Ap (at_ 0 s j) (at_ 0 (concat ss) (i - zlen s)) ltac:(apply at_In; lia) ltac:(apply at_In; lia)) HA).
    + rewrite !at_app2 in HA by lia. specialize (GG b tree (lo + zlen (leaves c)) fa Ag2 (i - lsum (leaves c)) (j - lsum (leaves c)) (ci - zlen (leaves c)) (cj - zlen (leaves c)) Bi' Bj').
      replace (i - lsum (leaves c)) with (i - zlen s) in GG by lia. replace (j - lsum (leaves c)) with (j - zlen s) in GG by lia. specialize (GG HA).
      replace (lo + zlen (leaves c) + (ci - zlen (leaves c))) with (lo + ci) in GG by lia. replace (lo + zlen (leaves c) + (cj - zlen (leaves c))) with (lo + cj) in GG by lia. exact GG.
Qed.

Lemma leaves_leafs l : flat_map leaves (map leaf l) = l.
Proof. induction l as [|x l IH]; cbn [map flat_map leaves leaf app]; [reflexivity|]. now rewrite IH. Qed.
Lemma at_chain_leaf l : forall lo fa k, 0 <= k < zlen l - 1 -> at_ 0 (chain (map leaf l) lo fa) k = lo + k + 1.
Proof.
  induction l as [|x l IH]; intros lo fa k Hk; [change (zlen (@nil Z)) with 0 in Hk; lia|]. rewrite zlen_cons in Hk. cbn [map chain]. change (fathers (leaf x) lo ?f) with [f]. cbn [app leaves leaf].
  change (zlen [x]) with 1. destruct l as [|y l']; [change (zlen (@nil Z)) with 0 in Hk; lia|]. cbn [map]. change (fathers (Cblk ORDERCBLKLEAF x 0 None) lo ?f) with [f]. cbn [app]. change (zlen (leaves (leaf y))) with 1.
  destruct (Z.eq_dec k 0) as [->|].
  - rewrite at_cons_0. lia.
  - rewrite at_cons_S by lia. change (leaf y :: map leaf l') with (map leaf (y :: l')). rewrite IH by lia. lia.
Qed.

Lemma respects_good A : (forall t s, respects A t s -> good A t s) /\ (forall cs ss, rs_list A cs ss -> Forall2 (good A) cs ss).
Proof.
  apply (respects_mut A (good A) (fun cs ss => Forall2 (good A) cs ss)).
  - intros v s Hs _. split; [exact Hs|]. intros b tree lo fa _ i j ci cj (Hi & _) (Hj & _) _. change (zlen (leaves (leaf v))) with 1 in *. left. replace cj with ci by lia. constructor.
  - intros n c0 c1 v s0 s1 s2 _ G0 _ G1 Ap Hv T. pose proof T as (_ & _ & _ & Vn & (T0 & T1 & T2 & _)). cbn [vsum fold_right] in Vn. unfold vsum in Vn. cbn [fold_right c_vnod leaf] in Vn.
    destruct (G0 T0) as (Z0 & H0). destruct (G1 T1) as (Z1 & H1). split; [cbn [c_vnod]; rewrite !zlen_app; lia|].
    intros b tree lo fa Ag i j ci cj Bi Bj HA. rewrite fathers_eq in Ag. change (ORDERCBLKNEDI =? ORDERCBLKSEQU) with false in Ag. change (ORDERCBLKNEDI =? ORDERCBLKNEDI) with true in Ag. cbv iota zeta in Ag.
    change (zlen (leaves (leaf v))) with 1 in Ag. apply agree_app in Ag. destruct Ag as (Ag0 & Ag). rewrite zlen_fathers in Ag. apply agree_app in Ag. destruct Ag as (Ag1 & _).
    replace (lo + zlen (leaves c0) + zlen (leaves c1) + 1 - 1) with (lo + zlen (leaves c0) + zlen (leaves c1)) in * by lia. set (top := lo + zlen (leaves c0) + zlen (leaves c1)) in *.
    rewrite leaves_node in Bi, Bj. cbn [flat_map] in Bi, Bj. rewrite app_nil_r in Bi, Bj. change (leaves (leaf v)) with [v] in Bi, Bj.
    assert (F0 : Forall (fun x => 1 <= x) (leaves c0)) by apply (leaves_pos _ T0). assert (F1 : Forall (fun x => 1 <= x) (leaves c1)) by apply (leaves_pos _ T1). assert (F2 : Forall (fun x => 1 <= x) [v]) by (destruct T2 as (_ & ? & _); repeat constructor; auto).
    pose proof (lsum_leaves c0 T0) as L0. pose proof (lsum_leaves c1 T1) as L1. pose proof (reach b tree c0 lo top T0 Ag0) as R0. pose proof (reach b tree c1 (lo + zlen (leaves c0)) top T1 Ag1) as R1.
    assert (Cs : forall k ck, inblk (leaves c0 ++ leaves c1 ++ [v]) k ck ->
      (0 <= k < zlen s0 /\ inblk (leaves c0) k ck) \/ (zlen s0 <= k < zlen s0 + zlen s1 /\ inblk (leaves c1) (k - zlen s0) (ck - zlen (leaves c0))) \/ lo + ck = top).
    { intros k ck B. destruct (inblk_app (leaves c0) (leaves c1 ++ [v]) k ck F0 (proj2 (Forall_app _ _ _) (conj F1 F2)) B) as [(R & B')|(R & B')]; [left; split; [lia|auto]|]. destruct (inblk_app _ _ _ _ F1 F2 B') as [(R' & B'')|(R' & B'')].
      - right; left. replace (zlen s0) with (lsum (leaves c0)) by lia. split; [lia | exact B''].
      - right; right. destruct B'' as (Hc & _). change (zlen [v]) with 1 in Hc. unfold top. lia. }
    assert (Up : forall k ck, inblk (leaves c0 ++ leaves c1 ++ [v]) k ck -> anc b tree (lo + ck) top).
    { intros k ck B. destruct (Cs k ck B) as [(_ & (Hc & _))|[(_ & (Hc & _))| ->]]; [apply R0; lia | apply R1; lia | constructor]. }
    pose proof (Cs i ci Bi) as Ci. pose proof (Cs j cj Bj) as Cj.
    destruct Ci as [(Ri & Bi')|[(Ri & Bi')|Ti]]; [| |rewrite Ti; right; apply (Up j cj Bj)].
    + destruct Cj as [(Rj & Bj')|[(Rj & Bj')|Tj]]; [| |rewrite Tj; left; apply (Up i ci Bi)].
      * rewrite !at_app1 in HA by lia. apply (H0 b tree lo top Ag0 i j); auto.
      * exfalso. rewrite (at_app1 0 s0) in HA by lia. rewrite at_app2 in HA by lia. rewrite at_app1 in HA by lia. apply (proj1 (Ap (at_ 0 s0 i) (at_ 0 s1 (j - zlen s0)) ltac:(apply at_In; lia) ltac:(apply at_In; lia)) HA).
    + destruct Cj as [(Rj & Bj')|[(Rj & Bj')|Tj]]; [| |rewrite Tj; left; apply (Up i ci Bi)].
      * exfalso. rewrite at_app2 in HA by lia. rewrite at_app1 in HA by lia. rewrite at_app1 in HA by lia. apply (proj2 (Ap (at_ 0 s0 j) (at_ 0 s1 (i - zlen s0)) ltac:(apply at_In; lia) ltac:(apply at_In; lia)) HA).
      * rewrite !(at_app2 0 s0) in HA by lia. rewrite !at_app1 in HA by lia. pose proof (H1 b tree (lo + zlen (leaves c0)) top Ag1 (i - zlen s0) (j - zlen s0) _ _ Bi' Bj' HA) as X.
        replace (lo + zlen (leaves c0) + (ci - zlen (leaves c0))) with (lo + ci) in X by lia. replace (lo + zlen (leaves c0) + (cj - zlen (leaves c0))) with (lo + cj) in X by lia. exact X.
  - intros typ n k cs ss Ht _ G Ap T. pose proof T as (Tt & _ & Zc & Vn & K). destruct (indep_good A cs ss G Ap K) as (Zs & H). split; [cbn [c_vnod]; lia|]. intros b tree lo fa Ag. rewrite leaves_node. apply (H b tree lo fa).
    rewrite fathers_eq in Ag. destruct Ht as [(-> & ->)| ->].
    + change (ORDERCBLKNEDI =? ORDERCBLKSEQU) with false in Ag. change (ORDERCBLKNEDI =? ORDERCBLKNEDI) with true in Ag. cbv iota in Ag. destruct cs as [|c0 [|c1 [|c2 l]]]; auto. rewrite !zlen_cons in Zc. pose proof (zlen_nonneg l). lia.
    + exact Ag.
  - intros n k l s Hs T. pose proof T as (_ & _ & _ & Vn & K). split.
    + cbn [c_vnod]. rewrite lsum_fold in Hs. pose proof (lsum_leaves _ T) as L. cbn [c_vnod] in L. rewrite leaves_node, leaves_leafs in L. lia.
    + intros b tree lo fa Ag i j ci cj Bi Bj _. rewrite fathers_eq in Ag. change (ORDERCBLKSEQU =? ORDERCBLKSEQU) with true in Ag. cbv iota in Ag. rewrite leaves_node, leaves_leafs in Bi, Bj.
      assert (Zc : zlen (chain (map leaf l) lo fa) = zlen l). { pose proof (zlen_fathers (Cblk ORDERCBLKSEQU n k (Some (map leaf l))) lo fa) as Z. rewrite fathers_eq in Z. change (ORDERCBLKSEQU =? ORDERCBLKSEQU) with true in Z. cbv iota in Z. now rewrite leaves_node, leaves_leafs in Z. }
      assert (St : forall d c, 0 <= c -> c + Z.of_nat d < zlen l -> anc b tree (lo + c) (lo + c + Z.of_nat d)).
      { induction d as [|d IH]; intros c Hc Hd; [replace (lo + c + Z.of_nat 0) with (lo + c) by lia; constructor|]. apply anc_up; [destruct Ag; lia|]. rewrite (proj2 Ag c) by lia. rewrite at_chain_leaf by lia. specialize (IH (c + 1) ltac:(lia) ltac:(lia)). replace (lo + (c + 1)) with (lo + c + 1) in IH by lia. replace (lo + c + Z.of_nat (S d)) with (lo + c + 1 + Z.of_nat d) by lia. exact IH. }
      destruct Bi as (Hi & _), Bj as (Hj & _). destruct (Z_le_gt_dec ci cj).
      * left. pose proof (St (Z.to_nat (cj - ci)) ci ltac:(lia) ltac:(lia)) as X. replace (lo + ci + Z.of_nat (Z.to_nat (cj - ci))) with (lo + cj) in X by lia. exact X.
      * right. pose proof (St (Z.to_nat (ci - cj)) cj ltac:(lia) ltac:(lia)) as X. replace (lo + cj + Z.of_nat (Z.to_nat (ci - cj))) with (lo + ci) in X by lia. exact X.
  - constructor.
  - intros c s cs ss _ G _ GG. constructor; auto.
Qed.
