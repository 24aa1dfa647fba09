(** Proofs about the splitting of fixed loads on variable-sized architectures. *)
From Coq Require Import Permutation.
From Verif Require Import Base M_Graph M_Bgraph M_Arch M_KgraphMap S_Graph S_Bgraph S_KgraphMap P_Graph.

Lemma fixload_perm f l l' : Permutation l l' -> fixload f l = fixload f l'.
Proof. induction 1 as [|x l l' _ IH|x y l|l m r _ IH1 _ IH2]; cbn [fixload fold_right map] in *; unfold fixload in *; cbn [fold_right map] in *; lia. Qed.
Lemma fixload_zsum f l : fixload f l = zsum 0 (zlen l) (fun i => if f (fst (at_ 0 l i)) then snd (at_ 0 l i) else 0).
Proof.
  induction l as [|x l IH] using rev_ind; [reflexivity|]. unfold fixload in *. rewrite map_app, fold_right_app. cbn [map fold_right].
  assert (X : forall l z, fold_right Z.add z l = fold_right Z.add 0 l + z) by (clear; induction l as [|y l IH]; intros z; cbn [fold_right]; [lia|]; rewrite IH; lia).
  rewrite X, IH, zlen_snoc. pose proof (zlen_nonneg l). rewrite zsum_snoc by lia. rewrite at_app2 by lia. replace (at_ 0 [x] (zlen l - zlen l)) with x by (rewrite Z.sub_diag; reflexivity). rewrite Z.add_0_r. f_equal.
  apply zsum_ext. intros i Hi. now rewrite at_app1 by lia.
Qed.

Section Var.
Context {D : Type} `{DD : Dflt D} (A : arch D) (d0 d1 : D) (in0 in1 : Z -> bool).

Lemma splitVar_spec tab : (forall x, In x tab -> exists d, a_term A (fst x) = Ok d /\ a_incl A d0 d = Ok (in0 (fst x)) /\ a_incl A d1 d = Ok (in1 (fst x))) ->
  (forall t, in0 t = true -> in1 t = true -> False) ->
  wp (splitVar A d0 d1 tab) (fun '(tab', n0, n1, w0, w1) => Permutation tab tab' /\ 0 <= n0 /\ 0 <= n1 /\ n0 + n1 <= zlen tab /\
    (forall i, 0 <= i < zlen tab -> in0 (fst (at_ 0 tab' i)) = (i <? n0) /\ in1 (fst (at_ 0 tab' i)) = ((n0 <=? i) && (i <? n0 + n1))) /\
    w0 = fixload in0 tab /\ w1 = fixload in1 tab) noerr.
Proof.
  intros HT HX. unfold splitVar. pose proof (zlen_nonneg tab) as Z0. set (n := zlen tab) in *.
  apply wp_loop with (I := fun '(t, num, nnd, mx, c0, c1) => 0 <= num <= nnd + 1 /\ nnd + 1 <= mx <= n /\ Permutation tab t /\
      (forall i, 0 <= i < num -> in0 (fst (at_ 0 t i)) = true) /\ (forall i, nnd < i < mx -> in0 (fst (at_ 0 t i)) = false /\ in1 (fst (at_ 0 t i)) = true) /\
      (forall i, mx <= i < n -> in0 (fst (at_ 0 t i)) = false /\ in1 (fst (at_ 0 t i)) = false) /\
      c0 = zsum 0 num (fun i => snd (at_ 0 t i)) /\ c1 = zsum (nnd + 1) mx (fun i => snd (at_ 0 t i)))
    (m := fun '(t, num, nnd, mx, c0, c1) => nnd + 1 - num).
  - split; [lia|]. split; [lia|]. split; [reflexivity|]. split; [intros; lia|]. split; [intros; lia|]. split; [intros; lia|]. rewrite !zsum_nil by lia. auto.
  - unfold n, zlen. lia.
  - intros [[[[[t num] nnd] mx] c0] c1] (H1 & H2 & HP & H3 & H4 & H5 & -> & ->).
    assert (Ln : zlen t = n) by (unfold n, zlen; now rewrite (Permutation_length HP)).
    destruct (Z.leb_spec num nnd) as [Hle|Hgt].
    2: { cbn [wp]. split; [exact HP|]. split; [lia|]. split; [lia|]. split; [lia|]. assert (En : nnd + 1 = num) by lia.
      assert (HI : forall i, 0 <= i < n -> in0 (fst (at_ 0 t i)) = (i <? num) /\ in1 (fst (at_ 0 t i)) = ((num <=? i) && (i <? num + (mx - num)))).
      { intros i Hi. destruct (Z.ltb_spec i num).
        - pose proof (H3 i ltac:(lia)) as E. split; [exact E|]. destruct (in1 (fst (at_ 0 t i))) eqn:E1; [exfalso; eauto|]. destruct (Z.leb_spec num i); [lia | reflexivity].
        - destruct (Z.leb_spec num i); [|lia]. cbn [andb]. destruct (Z.ltb_spec i (num + (mx - num))); [apply H4; lia | apply H5; lia]. }
      split; [exact HI|]. rewrite !(fixload_perm _ _ _ HP), !fixload_zsum, Ln.
      rewrite !(zsum_split 0 num n) by lia. rewrite !(zsum_split num mx n) by lia. rewrite En. split.
      - rewrite (zsum_zero num mx), (zsum_zero mx n), !Z.add_0_r.
        + apply zsum_ext. intros i Hi. now rewrite (H3 i Hi).
        + intros i Hi. now rewrite (proj1 (H5 i Hi)).
        + intros i Hi. now rewrite (proj1 (H4 i ltac:(lia))).
      - rewrite (zsum_zero 0 num), (zsum_zero mx n), Z.add_0_r, Z.add_0_l.
        + apply zsum_ext. intros i Hi. now rewrite (proj2 (H4 i ltac:(lia))).
        + intros i Hi. now rewrite (proj2 (H5 i Hi)).
        + intros i Hi. rewrite (proj2 (HI i ltac:(lia))). destruct (Z.leb_spec num i); [lia | reflexivity]. }
    rewrite rd_ok by lia. cbn [bind]. set (x := at_ 0 t num).
    destruct (HT x) as (d & E1 & E2 & E3). { apply (Permutation_in _ (Permutation_sym HP)). apply at_In. lia. }
    unfold termU. rewrite E1. cbn [bind]. rewrite E2. cbn [bind].
    destruct (in0 (fst x)) eqn:X0.
    { cbn [wp]. split; [|lia]. split; [lia|]. split; [lia|]. split; [exact HP|]. split; [|split; [exact H4|]; split; [exact H5|]; split; [now rewrite zsum_snoc by lia | reflexivity]].
      intros i Hi. destruct (Z.eq_dec i num) as [->|]; [exact X0 | apply H3; lia]. }
    rewrite E3. cbn [bind]. rewrite rd_ok by lia. cbn [bind]. rewrite wr_ok by lia. cbn [bind].
    destruct (in1 (fst x)) eqn:X1.
    + rewrite wr_ok by (rewrite zlen_upd; lia). cbn [bind wp]. fold (swp 0 t num nnd). set (t' := swp 0 t num nnd). split; [|lia]. split; [lia|]. split; [lia|].
      split; [eapply Permutation_trans; [exact HP | apply Permutation_swp; lia]|].
      assert (AT : forall i, 0 <= i < n -> at_ 0 t' i = if i =? num then at_ 0 t nnd else if i =? nnd then x else at_ 0 t i) by (intros i Hi; unfold t'; now rewrite at_swp by lia).
      split; [|split; [|split]].
      * intros i Hi. rewrite AT by lia. destruct (Z.eqb_spec i num); [lia|]. destruct (Z.eqb_spec i nnd); [lia|]. now apply H3.
      * intros i Hi. rewrite AT by lia. destruct (Z.eqb_spec i num).
        -- assert (nnd = num) by lia. subst nnd. fold x. auto.
        -- destruct (Z.eqb_spec i nnd); [auto | apply H4; lia].
      * intros i Hi. rewrite AT by lia. destruct (Z.eqb_spec i num); [lia|]. destruct (Z.eqb_spec i nnd); [lia|]. now apply H5.
      * split.
        -- apply zsum_ext. intros i Hi. rewrite AT by lia. destruct (Z.eqb_spec i num); [lia|]. destruct (Z.eqb_spec i nnd); [lia|]. reflexivity.
        -- replace (nnd - 1 + 1) with nnd by lia. rewrite (zsum_cons nnd) by lia.
           replace (at_ 0 t' nnd) with x. 2: { rewrite AT by lia. rewrite Z.eqb_refl. destruct (Z.eqb_spec nnd num) as [->|]; reflexivity. }
           rewrite Z.add_comm. f_equal. apply zsum_ext. intros i Hi. rewrite AT by lia. destruct (Z.eqb_spec i num); [lia|]. destruct (Z.eqb_spec i nnd); [lia|]. reflexivity.
    + rewrite rd_ok by (rewrite zlen_upd; lia). cbn [bind]. rewrite wr_ok by (rewrite zlen_upd; lia). cbn [bind]. rewrite wr_ok by (rewrite !zlen_upd; lia). cbn [bind wp].
      match goal with |- context [upd 0 (upd 0 ?a nnd ?z) (mx - 1) x] => set (t' := upd 0 (upd 0 a nnd z) (mx - 1) x) end.
      assert (AT : forall i, 0 <= i < n -> at_ 0 t' i = if i =? mx - 1 then x else if i =? nnd then at_ 0 t (mx - 1) else if i =? num then at_ 0 t nnd else at_ 0 t i).
      { intros i Hi. unfold t'. rewrite !at_upd by (rewrite ?zlen_upd; lia). rewrite (Z.eqb_sym (mx - 1) i), (Z.eqb_sym nnd i), (Z.eqb_sym num i).
        destruct (Z.eqb_spec i (mx - 1)); [reflexivity|]. destruct (Z.eqb_spec i nnd); [|reflexivity]. destruct (Z.eqb_spec num (mx - 1)); [lia | reflexivity]. }
      assert (ES : t' = swp 0 (swp 0 t num nnd) nnd (mx - 1)).
      { apply (at_ext 0); [unfold t'; now rewrite !zlen_swp, !zlen_upd|]. intros i Hi. unfold t' in Hi. rewrite !zlen_upd in Hi. rewrite AT by lia.
        rewrite at_swp by (rewrite ?zlen_swp; lia). rewrite !at_swp by lia. fold x. rewrite Z.eqb_refl.
        destruct (Z.eqb_spec i (mx - 1)), (Z.eqb_spec i nnd), (Z.eqb_spec i num), (Z.eqb_spec (mx - 1) num), (Z.eqb_spec (mx - 1) nnd), (Z.eqb_spec nnd num);
          try lia; try reflexivity; subst; try reflexivity; unfold x; f_equal; lia. }
      split; [|lia]. split; [lia|]. split; [lia|].
      split. { rewrite ES. eapply Permutation_trans; [exact HP|]. eapply Permutation_trans; [apply (Permutation_swp 0 t num nnd); lia | apply Permutation_swp; rewrite zlen_swp; lia]. }
      split; [|split; [|split]].
      * intros i Hi. rewrite AT by lia. destruct (Z.eqb_spec i (mx - 1)); [lia|]. destruct (Z.eqb_spec i nnd); [lia|]. destruct (Z.eqb_spec i num); [lia|]. now apply H3.
      * intros i Hi. rewrite AT by lia. destruct (Z.eqb_spec i (mx - 1)); [lia|]. destruct (Z.eqb_spec i nnd); [apply H4; lia|]. destruct (Z.eqb_spec i num); [lia|]. apply H4. lia.
      * intros i Hi. rewrite AT by lia. destruct (Z.eqb_spec i (mx - 1)); [auto|]. destruct (Z.eqb_spec i nnd); [lia|]. destruct (Z.eqb_spec i num); [lia|]. apply H5. lia.
      * split.
        -- apply zsum_ext. intros i Hi. rewrite AT by lia. destruct (Z.eqb_spec i (mx - 1)); [lia|]. destruct (Z.eqb_spec i nnd); [lia|]. destruct (Z.eqb_spec i num); [lia|]. reflexivity.
        -- replace (nnd - 1 + 1) with nnd by lia. destruct (Z.eq_dec nnd (mx - 1)) as [->|]; [now rewrite !zsum_nil by lia|].
           rewrite (zsum_cons nnd) by lia. rewrite AT by lia. destruct (Z.eqb_spec nnd (mx - 1)); [lia|]. rewrite Z.eqb_refl.
           replace mx with (mx - 1 + 1) at 1 by lia. rewrite zsum_snoc by lia. rewrite Z.add_comm. f_equal.
           apply zsum_ext. intros i Hi. rewrite AT by lia. destruct (Z.eqb_spec i (mx - 1)); [lia|]. destruct (Z.eqb_spec i nnd); [lia|]. destruct (Z.eqb_spec i num); [lia|]. reflexivity.
Qed.
End Var.
