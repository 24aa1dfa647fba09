(** Operations of the Fibonacci heap other than consolidation. *)
From Verif Require Import Base M_Fibo S_Fibo P_Fibo P_Fibo2.

Definition good (h : fheap) (L : list Z) (kids ord : Z -> list Z) (rk : Z -> nat) (dp sp : Z) : Prop :=
  rings h L kids /\ tinv (pare h) (chld h) (defl h) L kids ord rk dp sp.

Lemma t_flag h pa ch de L kids ord rk dp sp x : rings h L kids -> tinv pa ch de L kids ord rk dp sp -> In x L ->
  dg de x = zlen (kids x) + (if x =? dp then 1 else 0) /\ 0 <= fl de x <= 1 /\ de x = 2 * dg de x + fl de x.
Proof.
  intros R T Hx. destruct (t_def _ _ _ _ _ _ _ _ _ T x Hx) as (f & Hf & E).
  unfold dg, fl. destruct (dgfl _ _ _ Hf E) as [E1 E2]. lia.
Qed.

Lemma tinv_ext pa ch de pa' ch' de' L kids ord rk dp sp :
  (forall x, In x L -> pa' x = pa x /\ ch' x = ch x /\ de' x = de x) ->
  (forall p x, In p (0 :: L) -> In x (kids p) -> In x L) ->
  tinv pa ch de L kids ord rk dp sp -> tinv pa' ch' de' L kids ord rk dp sp.
Proof.
  intros E K [A1 A2 A3 A4 A5 A6 A7]. constructor; auto.
  - intros p x Hp Hx. destruct (E x) as (E1 & _ & _); [eauto|]. rewrite E1. eauto.
  - intros p Hp Hne. destruct (E p Hp) as (_ & E1 & _). rewrite E1. auto.
  - intros p Hp. destruct (E p Hp) as (_ & _ & E1). rewrite E1. auto.
  - intros p i c Hp Hi. assert (In c L).
    { eapply (K p); [now right|]. eapply Permutation_in; [apply A6, Hp|]. eapply nth_error_In; eauto. }
    unfold dg, fl. destruct (E c H) as (_ & _ & E1). rewrite E1. apply (A7 p i c Hp Hi).
Qed.

Lemma nth_error_del {A} (l1 l2 : list A) x i c : nth_error (l1 ++ l2) i = Some c ->
  exists j, (i <= j)%nat /\ nth_error (l1 ++ x :: l2) j = Some c.
Proof.
  intros H. destruct (Nat.lt_ge_cases i (length l1)) as [Hi|Hi].
  - exists i. split; [lia|]. rewrite nth_error_app1 in * by auto. exact H.
  - exists (S i). split; [lia|]. rewrite nth_error_app2 in * by lia. rewrite Nat.sub_succ_l by lia. exact H.
Qed.

Lemma tinv_detach h pa ch de L kids ord rk p l1 x l2 sp :
  rings h L kids -> tinv pa ch de L kids ord rk (-1) sp -> In p L -> kids p = l1 ++ x :: l2 -> sp = -1 \/ sp = x ->
  exists ord', tinv (fset pa x FNULL) ch de L (kset (kset kids p (l2 ++ l1)) 0 (x :: kset kids p (l2 ++ l1) 0)) ord' rk p (-1).
Proof.
  intros R T Hp E Hsp.
  pose proof (not0 _ _ _ _ R Hp) as Hp0.
  assert (Hxk : In x (kids p)) by (rewrite E; apply in_or_app; simpl; auto).
  assert (Hxl : In x L) by (eapply rg_kin; eauto; now right).
  pose proof (not0 _ _ _ _ R Hxl) as Hx0.
  assert (Hxo : In x (ord p)) by (eapply Permutation_in; [symmetry; apply (t_perm _ _ _ _ _ _ _ _ _ T p Hp)|exact Hxk]).
  apply in_split in Hxo. destruct Hxo as (o1 & o2 & Eo).
  pose proof (rg_knd _ _ _ R p (or_intror Hp)) as Hnd. rewrite E in Hnd.
  assert (Hxn : ~ In x (l2 ++ l1)).
  { apply NoDup_remove_2 in Hnd. rewrite in_app_iff in *. tauto. }
  assert (Hsub : forall y, In y (l2 ++ l1) -> In y (kids p)).
  { intros y Hy. rewrite E. rewrite in_app_iff in *. simpl. tauto. }
  rewrite (kset_other kids p _ 0) by auto.
  set (k' := kset (kset kids p (l2 ++ l1)) 0 (x :: kids 0)).
  assert (K0 : k' 0 = x :: kids 0) by apply kset_same.
  assert (Kp : k' p = l2 ++ l1) by (unfold k'; rewrite kset_other by auto; apply kset_same).
  assert (Kq : forall q, q <> 0 -> q <> p -> k' q = kids q) by (intros q H1 H2; unfold k'; now rewrite !kset_other by auto).
  clearbody k'.
  assert (Hne : forall q y, In q L -> In y (k' q) -> In y (kids q) /\ y <> x).
  { intros q y Hq Hy. destruct (Z.eq_dec q p) as [->|Hqp].
    - rewrite Kp in Hy. split; [auto|]. intros ->. contradiction.
    - rewrite Kq in Hy by (auto; eapply not0; eauto). split; [exact Hy|]. intros ->. apply Hqp.
      eapply rg_dis; eauto; now right. }
  exists (kset ord p (o1 ++ o2)). constructor.
  - intros q y Hq Hy. destruct (Z.eq_dec q 0) as [->|Hq0].
    + rewrite K0 in Hy. destruct Hy as [<-|Hy]; [now rewrite fset_same|].
      assert (y <> x) by (intros ->; apply Hp0; symmetry; eapply rg_dis; eauto; now right).
      rewrite fset_other by auto. apply (t_par _ _ _ _ _ _ _ _ _ T 0 y Hq Hy).
    + assert (HqL : In q L) by (destruct Hq; [congruence|auto]).
      destruct (Hne q y HqL Hy) as [Hy1 Hy2]. rewrite fset_other by auto. apply (t_par _ _ _ _ _ _ _ _ _ T q y Hq Hy1).
  - intros y Hy. destruct (Z.eq_dec y x) as [->|Hyx].
    { exists 0. split; [now left|]. rewrite K0. now left. }
    destruct (t_cov _ _ _ _ _ _ _ _ _ T y Hy) as (q & Hq & Hyq). exists q. split; [exact Hq|].
    destruct (Z.eq_dec q 0) as [->|Hq0]; [rewrite K0; now right|].
    destruct (Z.eq_dec q p) as [->|Hqp]; [|now rewrite Kq].
    rewrite Kp. rewrite E in Hyq. rewrite in_app_iff in *. simpl in Hyq. intuition congruence.
  - intros q Hq Hqp. rewrite Kq by (auto; eapply not0; eauto). apply (t_chl _ _ _ _ _ _ _ _ _ T q Hq).
    intros ->. apply (rg_in _ _ _ R) in Hq. lia.
  - intros q Hq. destruct (t_def _ _ _ _ _ _ _ _ _ T q Hq) as (f & Hf & Ed). exists f. split; [exact Hf|].
    pose proof (rg_in _ _ _ R q Hq). destruct (Z.eqb_spec q (-1)); [lia|].
    destruct (Z.eqb_spec q p) as [->|Hqp].
    + rewrite Kp. rewrite Ed, E, !zlen_app, zlen_cons. lia.
    + rewrite Kq by (auto; lia). lia.
  - intros q y Hq Hy. apply (t_rk _ _ _ _ _ _ _ _ _ T q y Hq). now apply Hne.
  - intros q Hq. destruct (Z.eq_dec q p) as [->|Hqp].
    + rewrite kset_same, Kp. rewrite (Permutation_app_comm l2 l1).
      apply (Permutation_app_inv o1 o2 l1 l2 x). rewrite <- Eo, <- E. apply (t_perm _ _ _ _ _ _ _ _ _ T p Hp).
    + rewrite kset_other by auto. rewrite Kq by (auto; eapply not0; eauto). apply (t_perm _ _ _ _ _ _ _ _ _ T q Hq).
  - intros q i c Hq Hi.
    assert (G : exists j, (i <= j)%nat /\ nth_error (ord q) j = Some c).
    { destruct (Z.eq_dec q p) as [->|Hqp].
      - rewrite kset_same in Hi. rewrite Eo. now apply nth_error_del.
      - rewrite kset_other in Hi by auto. exists i. split; [lia|exact Hi]. }
    assert (Hcx : c <> x).
    { intros ->. destruct (Z.eq_dec q p) as [->|Hqp].
      - rewrite kset_same in Hi. apply nth_error_In in Hi. apply Hxn. eapply Permutation_in; [|exact Hi].
        rewrite (Permutation_app_comm l2 l1). apply (Permutation_app_inv o1 o2 l1 l2 x). rewrite <- Eo, <- E.
        apply (t_perm _ _ _ _ _ _ _ _ _ T p Hp).
      - rewrite kset_other in Hi by auto. apply nth_error_In in Hi. apply Hqp.
        eapply (rg_dis _ _ _ R); [right; exact Hq|right; exact Hp| |exact Hxk].
        eapply Permutation_in; [apply (t_perm _ _ _ _ _ _ _ _ _ T q Hq)|exact Hi]. }
    destruct G as (j & Hj & Hj'). pose proof (t_fib _ _ _ _ _ _ _ _ _ T q j c Hq Hj') as H.
    destruct (Z.eqb_spec c sp) as [Hc|Hc].
    + destruct Hsp; [|congruence]. apply nth_error_In in Hj'.
      assert (In c L). { eapply rg_kin; [exact R|right; exact Hq|]. eapply Permutation_in; [apply (t_perm _ _ _ _ _ _ _ _ _ T q Hq)|exact Hj']. }
      apply (rg_in _ _ _ R) in H1. lia.
    + destruct (c =? -1); lia.
Qed.

(** Update of the fields of the node that lost a child. *)
Lemma tinv_redo h pa ch de L kids ord rk p :
  rings h L kids -> tinv pa ch de L kids ord rk p (-1) -> In p L ->
  tinv pa (fset ch p (hd FNULL (kids p))) (fset de p (de p - 2)) L kids ord rk (-1) p.
Proof.
  intros R T Hp. destruct (t_flag _ _ _ _ _ _ _ _ _ _ p R T Hp) as (E1 & E2 & E3). rewrite Z.eqb_refl in E1.
  destruct T as [A1 A2 A3 A4 A5 A6 A7]. constructor; auto.
  - intros q Hq _. unfold fset. destruct (Z.eqb_spec q p) as [->|]; auto.
  - intros q Hq. pose proof (rg_in _ _ _ R q Hq). destruct (Z.eqb_spec q (-1)); [lia|].
    destruct (Z.eq_dec q p) as [->|Hqp].
    + rewrite fset_same. exists (fl de p). split; [auto|]. lia.
    + rewrite fset_other by auto. destruct (A4 q Hq) as (f & Hf & E). exists f. split; [auto|].
      destruct (Z.eqb_spec q p); [congruence|]. lia.
  - intros q i c Hq Hi. specialize (A7 q i c Hq Hi). destruct (Z.eqb_spec c p) as [Hc|Hc]; [subst c|].
    + destruct (dgfl (fset de p (de p - 2) p) (dg de p - 1) (fl de p)) as [G1 G2]; [auto|rewrite fset_same; lia|].
      unfold dg at 1, fl at 1. rewrite G1, G2. destruct (p =? -1) eqn:X; [|lia]. apply (rg_in _ _ _ R) in Hp. lia.
    + unfold dg, fl in *. rewrite fset_other by auto. destruct (Z.eqb_spec c (-1)) as [Hc1|]; [|lia]. rewrite Hc1 in *.
      apply nth_error_In in Hi. assert (In (-1) L).
      { eapply rg_kin; [exact R|right; exact Hq|]. eapply Permutation_in; [apply A6, Hq|exact Hi]. }
      apply (rg_in _ _ _ R) in H. lia.
Qed.

(** Raising the flag of the node that lost a child. *)
Lemma tinv_flagset h pa ch de L kids ord rk p :
  rings h L kids -> tinv pa ch de L kids ord rk (-1) p -> In p L -> fl de p = 0 ->
  tinv pa ch (fset de p (Z.lor (de p) 1)) L kids ord rk (-1) (-1).
Proof.
  intros R T Hp H0. destruct (t_flag _ _ _ _ _ _ _ _ _ _ p R T Hp) as (E1 & E2 & E3).
  assert (Ev : Z.lor (de p) 1 = 2 * dg de p + 1) by (eapply put_flag; eauto).
  destruct T as [A1 A2 A3 A4 A5 A6 A7]. constructor; auto.
  - intros q Hq. destruct (Z.eq_dec q p) as [->|Hqp].
    + rewrite fset_same. exists 1. split; [lia|]. lia.
    + rewrite fset_other by auto. auto.
  - intros q i c Hq Hi. specialize (A7 q i c Hq Hi). destruct (Z.eqb_spec c p) as [Hc|Hc]; [subst c|].
    + destruct (dgfl (fset de p (Z.lor (de p) 1) p) (dg de p) 1) as [G1 G2]; [lia|rewrite fset_same; lia|].
      unfold dg at 1, fl at 1. rewrite G1, G2. destruct (p =? -1); lia.
    + unfold dg, fl in *. rewrite fset_other by auto. destruct (c =? -1); lia.
Qed.

Lemma not_ord h pa ch de L kids ord rk dp sp x q i c :
  rings h L kids -> tinv pa ch de L kids ord rk dp sp -> In x (kids 0) -> In q L -> nth_error (ord q) i = Some c -> c <> x.
Proof.
  intros R T Hx Hq Hi ->. apply nth_error_In in Hi. apply (not0 _ _ _ _ R Hq).
  eapply (rg_dis _ _ _ R); [right; exact Hq|now left| |exact Hx].
  eapply Permutation_in; [apply (t_perm _ _ _ _ _ _ _ _ _ T q Hq)|exact Hi].
Qed.

(** The flags of the roots do not matter. *)
Lemma tinv_root h pa ch de L kids ord rk dp sp x v f :
  rings h L kids -> tinv pa ch de L kids ord rk dp sp -> In x (kids 0) -> x <> dp -> 0 <= f <= 1 -> v = 2 * zlen (kids x) + f ->
  tinv pa ch (fset de x v) L kids ord rk dp sp.
Proof.
  intros R T Hx Hd Hf Hv.
  assert (HN : forall q i c, In q L -> nth_error (ord q) i = Some c -> c <> x) by (intros; eapply not_ord; eauto).
  destruct T as [A1 A2 A3 A4 A5 A6 A7]. constructor; auto.
  - intros q Hq. destruct (Z.eq_dec q x) as [->|Hqx].
    + rewrite fset_same. exists f. split; [auto|]. destruct (Z.eqb_spec x dp); [congruence|]. lia.
    + rewrite fset_other by auto. auto.
  - intros q i c Hq Hi. unfold dg, fl in *. rewrite fset_other by (eapply HN; eauto). eauto.
Qed.

Lemma tinv_rootslack h pa ch de L kids ord rk p :
  rings h L kids -> tinv pa ch de L kids ord rk (-1) p -> In p (kids 0) -> tinv pa ch de L kids ord rk (-1) (-1).
Proof.
  intros R T Hx.
  assert (HN : forall q i c, In q L -> nth_error (ord q) i = Some c -> c <> p) by (intros; eapply not_ord; eauto).
  destruct T as [A1 A2 A3 A4 A5 A6 A7]. constructor; auto.
  intros q i c Hq Hi. specialize (A7 q i c Hq Hi). apply HN in Hi; auto. destruct (Z.eqb_spec c p); [congruence|].
  destruct (c =? -1); lia.
Qed.

Lemma parent_of h pa ch de L kids ord rk dp sp x :
  rings h L kids -> tinv pa ch de L kids ord rk dp sp -> In x L ->
  (pa x = FNULL /\ In x (kids 0)) \/ (pa x <> FNULL /\ In (pa x) L /\ In x (kids (pa x))).
Proof.
  intros R T Hx. destruct (t_cov _ _ _ _ _ _ _ _ _ T x Hx) as (p & Hp & Hxp).
  pose proof (t_par _ _ _ _ _ _ _ _ _ T p x Hp Hxp) as E. destruct (Z.eqb_spec p 0) as [->|Hp0]; [left; auto|].
  right. rewrite E. assert (In p L) by (destruct Hp; [congruence|auto]). split; [|auto].
  apply (rg_in _ _ _ R) in H. unfold FNULL. lia.
Qed.

Lemma roots_le h L kids : rings h L kids -> zlen (kids 0) <= zlen L.
Proof.
  intros R. unfold zlen. apply inj_le, NoDup_incl_length.
  - apply (rg_knd _ _ _ R). now left.
  - intros x Hx. eapply rg_kin; eauto. now left.
Qed.

Lemma moveToRoot_ok h L kids ord rk p x sp :
  good h L kids ord rk (-1) sp -> In p L -> In x (kids p) -> sp = -1 \/ sp = x ->
  exists h' kids' ord', fiboHeapMoveToRoot h x p = Ok h' /\ good h' L kids' ord' rk (-1) p /\
    (forall q y, In q L -> In y (kids' q) -> In y (kids q) /\ y <> x) /\
    zlen (kids' 0) = zlen (kids 0) + 1 /\ degr h' = degr h /\ fnbr h' = fnbr h.
Proof.
  intros [R T] Hp Hxp Hsp.
  pose proof (not0 _ _ _ _ R Hp) as Hp0.
  assert (Hxl : In x L) by (eapply rg_kin; eauto; now right).
  pose proof (rg_in _ _ _ R x Hxl) as Hx. pose proof (rg_in _ _ _ R p Hp) as Hpr.
  assert (Hxpne : x <> p) by (intros ->; pose proof (t_rk _ _ _ _ _ _ _ _ _ T _ _ Hp Hxp); lia).
  destruct (in_split _ _ Hxp) as (l1 & l2 & E).
  destruct (rings_unlink h L kids p l1 x l2 R (or_intror Hp) E) as (h1 & Eu & Hd1 & R1 & Hlim & Hn1 & Hn2).
  destruct (Z.eqb_spec p 0) as [|_]; [contradiction|]. specialize (Hn2 Hp0).
  destruct (tinv_detach h _ _ _ L kids ord rk p l1 x l2 sp R T Hp E Hsp) as (ord' & T').
  set (kids1 := kset kids p (l2 ++ l1)) in *.
  unfold fiboHeapMoveToRoot. rewrite fget_ok by lia. cbn [bind]. rewrite Eu. cbn [bind].
  destruct Hd1 as (F1 & F2 & F3 & F4 & F5).
  rewrite set_pare_ok by lia. cbn [bind]. rewrite fget_ok by (cbn [fnbr]; lia). cbn [bind defl].
  rewrite set_defl_ok by (cbn [fnbr]; lia). cbn [bind fnbr pare chld prev next defl degr].
  rewrite fget_ok by (cbn [fnbr]; lia). cbn [bind defl]. rewrite fset_other by auto.
  rewrite set_defl_ok by (cbn [fnbr]; lia). cbn [bind fnbr pare chld prev next defl degr].
  rewrite set_chld_ok by (cbn [fnbr]; lia). cbn [bind fnbr pare chld prev next defl degr].
  match goal with |- context [fiboHeapLinkAfter ?h2 0 x] => set (h2' := h2) end.
  destruct (rings_link0 h2' L kids1 x) as (h' & El & Hd' & R' & Hf').
  - eapply rings_data; [| | |exact R1]; reflexivity.
  - exact Hxl.
  - exact Hlim.
  - rewrite El. exists h', (kset kids1 0 (x :: kids1 0)), ord'. split; [reflexivity|].
    destruct Hd' as (G1 & G2 & G3 & G4 & G5).
    assert (Kx : forall q, q <> 0 -> q <> p -> kset kids1 0 (x :: kids1 0) q = kids q).
    { intros q Hq1 Hq2. unfold kids1. now rewrite !kset_other by auto. }
    assert (Kp : kset kids1 0 (x :: kids1 0) p = l2 ++ l1).
    { unfold kids1. rewrite kset_other by auto. now rewrite kset_same. }
    assert (K0 : kset kids1 0 (x :: kids1 0) 0 = x :: kids 0).
    { rewrite kset_same. unfold kids1. now rewrite kset_other by auto. }
    pose proof (rg_knd _ _ _ R p (or_intror Hp)) as Hnd. rewrite E in Hnd.
    assert (Hxn : ~ In x (l2 ++ l1)).
    { apply NoDup_remove_2 in Hnd. rewrite in_app_iff in *. tauto. }
    split; [split; [exact R'|]|split; [|split; [|split]]].
    + rewrite G2, G3, G4. unfold h2'. cbn [pare chld defl]. rewrite F2, F3, F4.
      destruct (t_flag _ _ _ _ _ _ _ _ _ _ x R T Hxl) as (X1 & X2 & X3).
      pose proof (rg_in _ _ _ R x Hxl). destruct (Z.eqb_spec x (-1)); [lia|].
      assert (R'' : rings h' L (kset kids1 0 (x :: kids1 0))) by exact R'.
      assert (T1 : tinv (fset (pare h) x FNULL) (chld h) (fset (defl h) x (Z.land (defl h x) (-2))) L (kset kids1 0 (x :: kids1 0)) ord' rk p (-1)).
      { eapply (tinv_root h') with (f := 0); eauto; try lia.
        - rewrite K0. now left.
        - rewrite (clear_flag _ _ _ X2 X3). rewrite (Kx x) by (auto; lia). lia. }
      pose proof (tinv_redo _ _ _ _ _ _ _ _ _ R' T1 Hp) as T2.
      rewrite Kp in T2. rewrite fset_other in T2 by auto.
      destruct (t_flag _ _ _ _ _ _ _ _ _ _ p R T Hp) as (P1 & P2 & P3).
      destruct (Z.eqb_spec p (-1)); [lia|]. rewrite E, zlen_app, zlen_cons in P1.
      eapply tinv_ext; [| |exact T2]; [|apply (rg_kin _ _ _ R')].
      intros y Hy. split; [reflexivity|]. split; [|reflexivity].
      unfold fset. destruct (Z.eqb_spec y p) as [->|]; [|reflexivity].
      pose proof (zlen_nonneg l1). pose proof (zlen_nonneg l2).
      destruct (Z.leb_spec (defl h p - 2) 1) as [Hle|Hgt].
      * assert (Z0 : zlen (l2 ++ l1) = 0) by (rewrite zlen_app; lia).
        destruct (l2 ++ l1) as [|z0 zl]; [reflexivity|]. rewrite zlen_cons in Z0. pose proof (zlen_nonneg zl). lia.
      * rewrite Hn2. assert (zlen (l2 ++ l1) > 0) by (rewrite zlen_app; lia).
        destruct (l2 ++ l1) as [|z0 zl]; [rewrite zlen_nil in *; lia|reflexivity].
    + intros q y Hq Hy. destruct (Z.eq_dec q p) as [->|Hqp].
      * rewrite Kp in Hy. split; [|intros ->; contradiction]. rewrite E. rewrite in_app_iff in *. simpl. tauto.
      * rewrite Kx in Hy by (auto; eapply not0; eauto). split; [exact Hy|]. intros ->. apply Hqp.
        exact (rg_dis _ _ _ R q p x (or_intror Hq) (or_intror Hp) Hy Hxp).
    + rewrite K0, zlen_cons. lia.
    + rewrite G5. unfold h2'. cbn [degr]. exact F5.
    + rewrite G1. unfold h2'. cbn [fnbr]. exact F1.
Qed.

(** Heap order. *)
Definition hord (cmp : Z -> Z -> Z) (L : list Z) (kids : Z -> list Z) : Prop :=
  forall p x, In p L -> In x (kids p) -> cmp p x <= 0.

Lemma decrLoop_ok fuel L rk p : forall h kids ord, good h L kids ord rk (-1) p -> In p L ->
  zlen L - zlen (kids 0) < Z.of_nat fuel ->
  exists h' kids' ord', loop fuel fiboDecrBody (h, p, pare h p) = Ok h' /\ good h' L kids' ord' rk (-1) (-1) /\
    (forall q y, In q L -> In y (kids' q) -> In y (kids q)) /\ degr h' = degr h /\ fnbr h' = fnbr h.
Proof.
  revert p. induction fuel as [|fuel IH]; intros p h kids ord G Hp Hf.
  { pose proof (roots_le _ _ _ (proj1 G)). lia. }
  cbn [loop fiboDecrBody]. destruct G as [R T].
  pose proof (rg_in _ _ _ R p Hp) as Hpr.
  destruct (parent_of _ _ _ _ _ _ _ _ _ _ p R T Hp) as [[E Hk]|(E & Hg & Hk)].
  - rewrite E. cbn [Z.eqb FNULL Pos.eqb bind]. exists h, kids, ord. split; [reflexivity|]. split; [|auto].
    split; [exact R|]. eapply tinv_rootslack; eauto.
  - destruct (Z.eqb_spec (pare h p) FNULL); [contradiction|]. rewrite fget_ok by lia. cbn [bind].
    destruct (t_flag _ _ _ _ _ _ _ _ _ _ p R T Hp) as (X1 & X2 & X3).
    destruct (Z.eqb_spec (Z.land (defl h p) 1) 0) as [Hz|Hz].
    + rewrite set_defl_ok by lia. cbn [bind]. eexists _, kids, ord. split; [reflexivity|]. split; [|auto].
      split; [eapply rings_data; [| | |exact R]; reflexivity|]. cbn [pare chld defl].
      eapply tinv_flagset; eauto.
    + destruct (moveToRoot_ok h L kids ord rk (pare h p) p p (conj R T) Hg Hk (or_intror eq_refl))
        as (h1 & k1 & o1 & E1 & G1 & S1 & Z1 & D1 & N1).
      rewrite E1. cbn [bind]. pose proof (rg_in _ _ _ R _ Hg). rewrite fget_ok by lia. cbn [bind].
      destruct (IH (pare h p) h1 k1 o1 G1 Hg) as (h2 & k2 & o2 & E2 & G2 & S2 & D2 & N2); [lia|].
      exists h2, k2, o2. split; [exact E2|]. split; [exact G2|]. split; [|split; congruence].
      intros q y Hq Hy. apply S1; auto.
Qed.

Lemma decrease_ok fuel cmp h L kids ord rk x :
  good h L kids ord rk (-1) (-1) -> In x L -> zlen L < Z.of_nat fuel ->
  (forall p y, In p L -> In y (kids p) -> y <> x -> cmp p y <= 0) ->
  (forall a b, cmp a b >= 0 -> cmp b a <= 0) ->
  exists h' kids' ord', fiboHeapDecrease fuel cmp h x = Ok h' /\ good h' L kids' ord' rk (-1) (-1) /\
    hord cmp L kids' /\ degr h' = degr h /\ fnbr h' = fnbr h.
Proof.
  intros [R T] Hx Hfu Ho Hc. pose proof (rg_in _ _ _ R x Hx) as Hxr.
  unfold fiboHeapDecrease. rewrite fget_ok by lia. cbn [bind].
  destruct (parent_of _ _ _ _ _ _ _ _ _ _ x R T Hx) as [[E Hk]|(E & Hg & Hk)].
  - rewrite E. cbn [Z.eqb FNULL Pos.eqb negb andb]. exists h, kids, ord. split; [reflexivity|]. split; [split; auto|].
    split; [|auto]. intros p y Hp Hy. apply Ho; auto. intros ->. apply (not0 _ _ _ _ R Hp).
    eapply rg_dis; eauto; [now right|now left].
  - destruct (Z.eqb_spec (pare h x) FNULL); [contradiction|]. cbn [negb andb].
    destruct (Z.ltb_spec (cmp x (pare h x)) 0) as [Hlt|Hge].
    + destruct (moveToRoot_ok h L kids ord rk (pare h x) x (-1) (conj R T) Hg Hk (or_introl eq_refl))
        as (h1 & k1 & o1 & E1 & G1 & S1 & Z1 & D1 & N1).
      rewrite E1. cbn [bind]. pose proof (rg_in _ _ _ R _ Hg). rewrite fget_ok by lia. cbn [bind].
      pose proof (roots_le _ _ _ R). pose proof (zlen_nonneg (kids 0)).
      destruct (decrLoop_ok fuel L rk _ h1 k1 o1 G1 Hg) as (h2 & k2 & o2 & E2 & G2 & S2 & D2 & N2); [lia|].
      exists h2, k2, o2. split; [exact E2|]. split; [exact G2|]. split; [|split; congruence].
      intros q y Hq Hy. apply S2 in Hy; auto. apply S1 in Hy; auto. apply Ho; tauto.
    + exists h, kids, ord. split; [reflexivity|]. split; [split; auto|]. split; [|auto].
      intros p y Hp Hy. destruct (Z.eq_dec y x) as [->|]; [|now apply Ho].
      assert (p = pare h x) by (eapply (rg_dis _ _ _ R); eauto; now right). subst. apply Hc. lia.
Qed.
