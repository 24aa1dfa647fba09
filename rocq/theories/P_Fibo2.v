(** Structure of the Fibonacci heap: trees, degrees, number of descendants. *)
From Verif Require Import Base M_Fibo S_Fibo P_Fibo.

Definition kset (k : Z -> list Z) (p : Z) (l : list Z) : Z -> list Z := fun q => if q =? p then l else k q.
Lemma kset_same k p l : kset k p l p = l.
Proof. unfold kset. now rewrite Z.eqb_refl. Qed.
Lemma kset_other k p l q : q <> p -> kset k p l q = k q.
Proof. unfold kset. intros. destruct (Z.eqb_spec q p); [contradiction|reflexivity]. Qed.

(** The lists of siblings: [kids 0] for the roots, [kids p] for the children of [p]. *)
Record rings (h : fheap) (L : list Z) (kids : Z -> list Z) : Prop := {
  rg_nd : NoDup L;
  rg_in : forall x, In x L -> 1 <= x < fnbr h;
  rg_nz : 0 < fnbr h;
  rg_root : ring h (0 :: kids 0);
  rg_kids : forall p, In p L -> ring h (kids p);
  rg_knd : forall p, In p (0 :: L) -> NoDup (kids p);
  rg_kin : forall p x, In p (0 :: L) -> In x (kids p) -> In x L;
  rg_dis : forall p q x, In p (0 :: L) -> In q (0 :: L) -> In x (kids p) -> In x (kids q) -> p = q
}.

Lemma rings_data h h' L kids : fnbr h' = fnbr h -> next h' = next h -> prev h' = prev h -> rings h L kids -> rings h' L kids.
Proof.
  intros E1 E2 E3 [A1 A2 A3 A4 A5 A6 A7 A8].
  assert (F : forall l, ring h l -> ring h' l).
  { intros l. apply ring_frame. intros y _. split; congruence. }
  constructor; auto; rewrite ?E1; auto.
Qed.

Lemma root_nd h L kids : rings h L kids -> NoDup (0 :: kids 0).
Proof.
  intros R. constructor.
  - intros H. apply (rg_kin _ _ _ R) in H; [|now left]. apply (rg_in _ _ _ R) in H. lia.
  - apply (rg_knd _ _ _ R). now left.
Qed.
Lemma inh_kids h L kids p : rings h L kids -> In p (0 :: L) -> inh h (kids p).
Proof. intros R Hp x Hx. apply (rg_kin _ _ _ R) in Hx; [|exact Hp]. apply (rg_in _ _ _ R) in Hx. lia. Qed.
Lemma inh_root h L kids : rings h L kids -> inh h (0 :: kids 0).
Proof.
  intros R x [<-|Hx].
  - pose proof (rg_nz _ _ _ R). lia.
  - eapply inh_kids; eauto. now left.
Qed.
Lemma not0 h L kids x : rings h L kids -> In x L -> x <> 0.
Proof. intros R Hx. apply (rg_in _ _ _ R) in Hx. lia. Qed.

(** Node [x] is in no list. *)
Definition limbo (L : list Z) (kids : Z -> list Z) (x : Z) : Prop := forall p, In p (0 :: L) -> ~ In x (kids p).

Lemma rings_unlink h L kids p l1 x l2 :
  rings h L kids -> In p (0 :: L) -> kids p = l1 ++ x :: l2 ->
  exists h', fiboHeapUnlink h x = Ok h' /\ same_data h h' /\
    rings h' L (kset kids p (if p =? 0 then l1 ++ l2 else l2 ++ l1)) /\
    limbo L (kset kids p (if p =? 0 then l1 ++ l2 else l2 ++ l1)) x /\
    next h' x = next h x /\ (p <> 0 -> next h x = hd x (l2 ++ l1)).
Proof.
  intros R Hp E.
  assert (Hxk : In x (kids p)) by (rewrite E; apply in_or_app; simpl; auto).
  assert (HxL : In x L) by (eapply rg_kin; eauto).
  pose proof (rg_knd _ _ _ R p Hp) as Hnd. rewrite E in Hnd.
  assert (Hsub : forall y, In y (if p =? 0 then l1 ++ l2 else l2 ++ l1) -> In y (kids p) /\ y <> x).
  { intros y Hy. assert (In y (l1 ++ l2)) by (destruct (p =? 0); auto; rewrite in_app_iff in *; tauto).
    split.
    - rewrite E. rewrite in_app_iff in *. simpl. tauto.
    - intros ->. apply NoDup_remove_2 in Hnd. contradiction. }
  assert (Hndl : NoDup (if p =? 0 then l1 ++ l2 else l2 ++ l1)).
  { apply NoDup_remove_1 in Hnd. destruct (p =? 0); auto. eapply Permutation_NoDup; [apply Permutation_app_comm|exact Hnd]. }
  assert (G : exists h', fiboHeapUnlink h x = Ok h' /\ same_data h h' /\
     (if p =? 0 then ring h' (0 :: l1 ++ l2) else ring h' (l2 ++ l1)) /\
     next h' x = next h x /\ (p <> 0 -> next h x = hd x (l2 ++ l1)) /\
     forall y, ~ In y (if p =? 0 then 0 :: kids p else kids p) -> same_links h h' y).
  { destruct (Z.eqb_spec p 0) as [->|Hp0].
    - destruct (unlink_ok h (0 :: l1) x l2) as (h' & Ek & Hd & Hr1 & Hr2 & Hx & Hn & Hf).
      + cbn [app]. rewrite <- E. apply (rg_root _ _ _ R).
      + cbn [app]. rewrite <- E. eapply inh_root; eauto.
      + cbn [app]. rewrite <- E. eapply root_nd; eauto.
      + exists h'. split; [exact Ek|]. split; [exact Hd|]. split; [exact Hr1|]. split; [apply Hx|]. split; [congruence|].
        intros y Hy. apply Hf. cbn [app]. now rewrite <- E.
    - assert (HpL : In p L) by (destruct Hp; [congruence|auto]).
      destruct (unlink_ok h l1 x l2) as (h' & Ek & Hd & Hr1 & Hr2 & Hx & Hn & Hf).
      + rewrite <- E. apply (rg_kids _ _ _ R), HpL.
      + rewrite <- E. eapply inh_kids; eauto.
      + exact Hnd.
      + exists h'. split; [exact Ek|]. split; [exact Hd|]. split; [exact Hr2|]. split; [apply Hx|]. split; [auto|].
        intros y Hy. apply Hf. now rewrite <- E. }
  destruct G as (h' & Ek & Hd & Hr & Hx & Hn & Hf).
  exists h'. split; [exact Ek|]. split; [exact Hd|]. split; [|split; [|split; assumption]].
  - assert (Efn : fnbr h' = fnbr h) by apply Hd.
    constructor.
    + apply (rg_nd _ _ _ R).
    + rewrite Efn. apply (rg_in _ _ _ R).
    + rewrite Efn. apply (rg_nz _ _ _ R).
    + destruct (Z.eqb_spec p 0) as [->|Hp0].
      * rewrite kset_same. exact Hr.
      * rewrite kset_other by auto. eapply ring_frame; [|apply (rg_root _ _ _ R)].
        intros y Hy. apply Hf. intros Hy'. destruct Hy as [<-|Hy].
        -- apply (rg_kin _ _ _ R) in Hy'; auto. eapply not0; eauto.
        -- apply Hp0. eapply rg_dis; eauto. now left.
    + intros q Hq. destruct (Z.eqb_spec q p) as [->|Hqp].
      * rewrite kset_same. destruct (Z.eqb_spec p 0) as [->|Hp0]; [|exact Hr].
        exfalso. eapply not0; eauto.
      * rewrite kset_other by auto. eapply ring_frame; [|apply (rg_kids _ _ _ R q Hq)].
        intros y Hy. apply Hf. intros Hy'.
        assert (In y (kids p) -> False) by (intros; apply Hqp; eapply rg_dis; eauto; now right).
        destruct (p =? 0); auto. destruct Hy' as [<-|Hy']; auto.
        apply (rg_kin _ _ _ R) in Hy; [|now right]. eapply not0; eauto.
    + intros q Hq. destruct (Z.eqb_spec q p) as [->|Hqp].
      * rewrite kset_same. exact Hndl.
      * rewrite kset_other by auto. apply (rg_knd _ _ _ R q Hq).
    + intros q y Hq Hy. destruct (Z.eqb_spec q p) as [->|Hqp].
      * rewrite kset_same in Hy. apply Hsub in Hy. eapply rg_kin; eauto. tauto.
      * rewrite kset_other in Hy by auto. eapply rg_kin; eauto.
    + assert (S : forall q y, In y (kset kids p (if p =? 0 then l1 ++ l2 else l2 ++ l1) q) -> In y (kids q)).
      { intros q y. unfold kset. destruct (Z.eqb_spec q p) as [->|]; [|auto]. intros Hy. apply Hsub in Hy. tauto. }
      intros q r y Hq Hr' Hyq Hyr. eapply rg_dis; eauto.
  - intros q Hq Hxq. destruct (Z.eqb_spec q p) as [->|Hqp].
    + rewrite kset_same in Hxq. apply Hsub in Hxq. tauto.
    + rewrite kset_other in Hxq by auto. apply Hqp. eapply rg_dis; eauto.
Qed.

Lemma rings_add h h' L kids p x l :
  rings h L kids -> In p (0 :: L) -> In x L -> limbo L kids x -> Permutation (x :: kids p) l ->
  fnbr h' = fnbr h -> (if p =? 0 then ring h' (0 :: l) else ring h' l) ->
  (forall y, ~ In y (x :: (if p =? 0 then 0 :: kids p else kids p)) -> same_links h h' y) ->
  rings h' L (kset kids p l).
Proof.
  intros R Hp HxL Hlim Hl Efn Hr Hf.
  assert (Hinl : forall y, In y l <-> y = x \/ In y (kids p)).
  { intros y. split; intros H.
    - eapply Permutation_in in H; [|symmetry; exact Hl]. destruct H; auto.
    - eapply Permutation_in; [exact Hl|]. destruct H; simpl; auto. }
  constructor.
  - apply (rg_nd _ _ _ R).
  - rewrite Efn. apply (rg_in _ _ _ R).
  - rewrite Efn. apply (rg_nz _ _ _ R).
  - destruct (Z.eqb_spec p 0) as [->|Hp0].
    + rewrite kset_same. exact Hr.
    + rewrite kset_other by auto. eapply ring_frame; [|apply (rg_root _ _ _ R)].
      intros y Hy. apply Hf. intros [<-|Hy'].
      * destruct Hy as [Hy|Hy]; [eapply not0; eauto|]. eapply Hlim; [now left|eauto].
      * destruct Hy as [<-|Hy].
        -- apply (rg_kin _ _ _ R) in Hy'; auto. eapply not0; eauto.
        -- apply Hp0. eapply rg_dis; eauto. now left.
  - intros q Hq. destruct (Z.eqb_spec q p) as [->|Hqp].
    + rewrite kset_same. destruct (Z.eqb_spec p 0) as [->|Hp0]; [|exact Hr].
      exfalso. eapply not0; eauto.
    + rewrite kset_other by auto. eapply ring_frame; [|apply (rg_kids _ _ _ R q Hq)].
      intros y Hy. apply Hf. intros [<-|Hy'].
      * eapply Hlim; [right; exact Hq|exact Hy].
      * assert (In y (kids p) -> False) by (intros; apply Hqp; eapply rg_dis; eauto; now right).
        destruct (p =? 0); auto. destruct Hy' as [<-|Hy']; auto.
        apply (rg_kin _ _ _ R) in Hy; [|now right]. eapply not0; eauto.
  - intros q Hq. destruct (Z.eqb_spec q p) as [->|Hqp].
    + rewrite kset_same. eapply Permutation_NoDup; [exact Hl|]. constructor; [apply Hlim, Hq|apply (rg_knd _ _ _ R _ Hq)].
    + rewrite kset_other by auto. apply (rg_knd _ _ _ R q Hq).
  - intros q y Hq Hy. destruct (Z.eqb_spec q p) as [->|Hqp].
    + rewrite kset_same in Hy. apply Hinl in Hy. destruct Hy as [->|Hy]; auto. eapply rg_kin; eauto.
    + rewrite kset_other in Hy by auto. eapply rg_kin; eauto.
  - intros q r y Hq Hr' Hyq Hyr. unfold kset in Hyq, Hyr.
    destruct (Z.eqb_spec q p) as [->|Hqp]; destruct (Z.eqb_spec r p) as [->|Hrp]; auto.
    + apply Hinl in Hyq. destruct Hyq as [->|Hyq]; [exfalso; eapply Hlim; eauto|eapply rg_dis; eauto].
    + apply Hinl in Hyr. destruct Hyr as [->|Hyr]; [exfalso; eapply (Hlim q); eauto|eapply rg_dis; eauto].
    + eapply rg_dis; eauto.
Qed.

Lemma rings_link0 h L kids x :
  rings h L kids -> In x L -> limbo L kids x ->
  exists h', fiboHeapLinkAfter h 0 x = Ok h' /\ same_data h h' /\ rings h' L (kset kids 0 (x :: kids 0)) /\
    forall y, ~ In y (x :: 0 :: kids 0) -> same_links h h' y.
Proof.
  intros R HxL Hlim.
  destruct (linkAfter_ok h 0 x (kids 0)) as (h' & E & Hd & Hr & Hf).
  - apply (rg_root _ _ _ R).
  - eapply inh_root; eauto.
  - apply (rg_in _ _ _ R) in HxL. lia.
  - intros [H|H]; [symmetry in H; eapply not0; eauto|]. eapply Hlim; [now left|exact H].
  - eapply root_nd; eauto.
  - exists h'. split; [exact E|]. split; [exact Hd|]. split; [|exact Hf].
    eapply rings_add; eauto; simpl; auto. apply Hd.
Qed.

Lemma rings_linkc h L kids p c l x :
  rings h L kids -> In p L -> kids p = c :: l -> In x L -> limbo L kids x ->
  exists h', fiboHeapLinkAfter h c x = Ok h' /\ same_data h h' /\ rings h' L (kset kids p (c :: x :: l)) /\
    forall y, ~ In y (x :: kids p) -> same_links h h' y.
Proof.
  intros R HpL E HxL Hlim.
  destruct (linkAfter_ok h c x l) as (h' & Ek & Hd & Hr & Hf).
  - rewrite <- E. apply (rg_kids _ _ _ R), HpL.
  - rewrite <- E. eapply inh_kids; eauto. now right.
  - apply (rg_in _ _ _ R) in HxL. lia.
  - rewrite <- E. apply Hlim. now right.
  - rewrite <- E. apply (rg_knd _ _ _ R). now right.
  - exists h'. split; [exact Ek|]. split; [exact Hd|]. rewrite E. split; [|exact Hf].
    pose proof (not0 _ _ _ _ R HpL) as Hp0. apply Z.eqb_neq in Hp0.
    eapply rings_add; eauto; rewrite ?Hp0, ?E; auto; [now right|apply perm_swap|apply Hd].
Qed.

Lemma rings_self h L kids p x :
  rings h L kids -> In p L -> kids p = [] -> In x L -> limbo L kids x ->
  exists h', (do h <- set_next h x x; set_prev h x x) = Ok h' /\ same_data h h' /\ rings h' L (kset kids p [x]) /\
    forall y, y <> x -> same_links h h' y.
Proof.
  intros R HpL E HxL Hlim. pose proof (rg_in _ _ _ R _ HxL) as Hx.
  rewrite set_next_ok by lia. cbn [bind]. rewrite set_prev_ok by (cbn [fnbr]; lia). cbn [fnbr pare chld prev next defl degr].
  eexists. split; [reflexivity|]. split; [repeat split|].
  assert (Hf : forall y, y <> x -> same_links h (mkF (fnbr h) (pare h) (chld h) (fset (prev h) x x) (fset (next h) x x) (defl h) (degr h)) y).
  { intros y Hy. split; cbn [next prev]; now rewrite fset_other. }
  split; [|exact Hf].
  pose proof (not0 _ _ _ _ R HpL) as Hp0. apply Z.eqb_neq in Hp0.
  eapply rings_add; eauto; rewrite ?Hp0, ?E; auto.
  - now right.
  - split; cbn [next prev]; now rewrite fset_same.
  - intros y Hy. apply Hf. intros ->. apply Hy. now left.
Qed.

(** The trees.  [ord p]: the children of [p] in the order in which they were linked;
    [rk]: any function that decreases from a node to its children; [dp]: a node that
    just lost a child and the fields of which were not updated; [sp]: a node which
    lost one more child than its flag says. *)
Definition dg (de : Z -> Z) (x : Z) : Z := Z.shiftr (de x) 1.
Definition fl (de : Z -> Z) (x : Z) : Z := Z.land (de x) 1.

Lemma dgfl v k f : 0 <= f <= 1 -> v = 2 * k + f -> Z.shiftr v 1 = k /\ Z.land v 1 = f.
Proof.
  intros Hf ->. rewrite Z.shiftr_div_pow2 by lia. change (Z.land (2*k+f) 1) with (Z.land (2*k+f) (Z.ones 1)).
  rewrite Z.land_ones by lia. change (2^1) with 2. split.
  - symmetry. apply Z.div_unique with f; lia.
  - symmetry. apply Z.mod_unique with k; lia.
Qed.
Lemma clear_flag v k f : 0 <= f <= 1 -> v = 2 * k + f -> Z.land v (-2) = 2 * k.
Proof.
  intros Hf ->. change (-2) with (Z.lnot 1). rewrite <- Z.ldiff_land.
  apply Z.bits_inj'. intros n Hn. rewrite Z.ldiff_spec.
  destruct (Z.eq_dec n 0) as [->|Hn0].
  - change (Z.testbit 1 0) with true. cbn [negb]. rewrite andb_false_r. symmetry. apply Z.testbit_even_0.
  - replace n with (Z.succ (n - 1)) by lia. rewrite Z.testbit_even_succ by lia.
    assert (f = 0 \/ f = 1) as [->| ->] by lia.
    + rewrite Z.add_0_r, Z.testbit_even_succ by lia. change 1 with (2*0+1) at 2. rewrite Z.testbit_odd_succ by lia. rewrite Z.testbit_0_l. now rewrite andb_true_r.
    + rewrite Z.testbit_odd_succ by lia. change 1 with (2*0+1) at 2. rewrite Z.testbit_odd_succ by lia. rewrite Z.testbit_0_l. now rewrite andb_true_r.
Qed.
Lemma put_flag v k f : 0 <= f <= 1 -> v = 2 * k + f -> Z.lor v 1 = 2 * k + 1.
Proof.
  intros Hf ->. apply Z.bits_inj'. intros n Hn. rewrite Z.lor_spec.
  destruct (Z.eq_dec n 0) as [->|Hn0].
  - change (Z.testbit 1 0) with true. rewrite orb_true_r. symmetry. apply Z.testbit_odd_0.
  - replace n with (Z.succ (n - 1)) by lia. rewrite Z.testbit_odd_succ by lia.
    change 1 with (2*0+1) at 2. rewrite Z.testbit_odd_succ by lia. rewrite Z.testbit_0_l, orb_false_r.
    assert (f = 0 \/ f = 1) as [->| ->] by lia.
    + rewrite Z.add_0_r. now rewrite Z.testbit_even_succ by lia.
    + now rewrite Z.testbit_odd_succ by lia.
Qed.

Record tinv (pa ch de : Z -> Z) (L : list Z) (kids ord : Z -> list Z) (rk : Z -> nat) (dp sp : Z) : Prop := {
  t_par : forall p x, In p (0 :: L) -> In x (kids p) -> pa x = if p =? 0 then FNULL else p;
  t_cov : forall x, In x L -> exists p, In p (0 :: L) /\ In x (kids p);
  t_chl : forall p, In p L -> p <> dp -> ch p = hd FNULL (kids p);
  t_def : forall p, In p L -> exists f, 0 <= f <= 1 /\ de p = 2 * (zlen (kids p) + (if p =? dp then 1 else 0)) + f;
  t_rk : forall p x, In p L -> In x (kids p) -> (rk x < rk p)%nat;
  t_perm : forall p, In p L -> Permutation (ord p) (kids p);
  t_fib : forall p i c, In p L -> nth_error (ord p) i = Some c -> Z.of_nat i <= dg de c + fl de c + (if c =? sp then 1 else 0)
}.

(** * Number of descendants *)

Inductive below (L : list Z) (kids : Z -> list Z) (x : Z) : Z -> Prop :=
| below_refl : below L kids x x
| below_step p y : below L kids x p -> In p L -> In y (kids p) -> below L kids x y.

Lemma below_head L kids x c y : In x L -> In c (kids x) -> below L kids c y -> below L kids x y.
Proof.
  intros Hx Hc H. induction H.
  - eapply below_step; [constructor|exact Hx|exact Hc].
  - eapply below_step; eauto.
Qed.

Lemma fib2_SS d : fib2 (S (S d)) = fib2 (S d) + fib2 d.
Proof. unfold fib2. cbn [fibp]. destruct (fibp d) as [a b]. cbn [fst]. lia. Qed.
Lemma fib2_step d : fib2 (S d) = fib2 d + fib2 (pred d).
Proof. destruct d; [reflexivity|]. apply fib2_SS. Qed.
Lemma fib2_pos d : 1 <= fib2 d /\ 1 <= fib2 (S d).
Proof. induction d; [split; compute; discriminate|]. split; [tauto|]. rewrite fib2_SS. lia. Qed.
Lemma fib2_mono a b : (a <= b)%nat -> fib2 a <= fib2 b.
Proof.
  induction 1; [lia|]. rewrite fib2_step. pose proof (fib2_pos (pred m)). lia.
Qed.

Section Size.
  Context (h : fheap) (pa ch de : Z -> Z) (L : list Z) (kids ord : Z -> list Z) (rk : Z -> nat).
  Context (R : rings h L kids) (T : tinv pa ch de L kids ord rk (-1) (-1)).

  Lemma below_rk x y : below L kids x y -> (rk y <= rk x)%nat.
  Proof.
    clear R. induction 1; [lia|]. pose proof (t_rk _ _ _ _ _ _ _ _ _ T _ _ H0 H1). lia.
  Qed.

  Lemma below_cmp c1 c2 y : below L kids c1 y -> below L kids c2 y -> below L kids c1 c2 \/ below L kids c2 c1.
  Proof.
    intros H1. revert c2. induction H1; intros c2 H2; [right; exact H2|].
    inversion H2; subst; [left; eapply below_step; eauto|].
    assert (p0 = p) by (eapply (rg_dis _ _ _ R); eauto; now right). subst. now apply IHbelow.
  Qed.

  Lemma below_dis x c1 c2 y : In x L -> In c1 (kids x) -> In c2 (kids x) -> c1 <> c2 ->
    below L kids c1 y -> below L kids c2 y -> False.
  Proof.
    intros Hx H1 H2 Hne B1 B2.
    assert (G : forall c1 c2, In c1 (kids x) -> In c2 (kids x) -> c1 <> c2 -> below L kids c1 c2 -> False).
    { intros a b Ha Hb Hab B. inversion B; subst; [contradiction|].
      assert (p = x) by (eapply (rg_dis _ _ _ R); eauto; now right). subst.
      apply below_rk in H. pose proof (t_rk _ _ _ _ _ _ _ _ _ T _ _ Hx Ha). lia. }
    destruct (below_cmp _ _ _ B1 B2); eauto.
  Qed.

  Lemma NoDup_app' {A} (l1 l2 : list A) : NoDup l1 -> NoDup l2 -> (forall x, In x l1 -> In x l2 -> False) -> NoDup (l1 ++ l2).
  Proof.
    clear. induction l1 as [|a l1 IH]; cbn [app]; intros H1 H2 H3; [exact H2|].
    inversion H1; subst. constructor.
    - rewrite in_app_iff. intros [H|H]; [contradiction|]. eapply H3; [now left|exact H].
    - apply IH; auto. intros x Hx. apply H3. now right.
  Qed.

  Lemma NoDup_left {A} (l1 l2 : list A) : NoDup (l1 ++ l2) -> NoDup l1.
  Proof.
    clear. induction l1 as [|a l1 IH]; cbn [app]; intros H; [constructor|].
    inversion H; subst. constructor; auto. intros Hi. apply H2. apply in_or_app. now left.
  Qed.

  Lemma dg_len x : In x L -> dg de x = zlen (kids x).
  Proof.
    intros Hx. destruct (t_def _ _ _ _ _ _ _ _ _ T x Hx) as (f & Hf & E).
    pose proof (rg_in _ _ _ R x Hx). destruct (Z.eqb_spec x (-1)); [lia|].
    unfold dg. destruct (dgfl (de x) (zlen (kids x)) f); auto. lia.
  Qed.
  Lemma fl_range x : In x L -> 0 <= fl de x <= 1.
  Proof.
    clear R. intros Hx. destruct (t_def _ _ _ _ _ _ _ _ _ T x Hx) as (f & Hf & E).
    unfold fl. destruct (dgfl (de x) _ f Hf E); auto. lia.
  Qed.

  Lemma size_ge n : forall x, (rk x < n)%nat -> In x L ->
    exists ds, NoDup ds /\ (forall y, In y ds -> In y L /\ below L kids x y) /\ fib2 (length (kids x)) <= zlen ds.
  Proof.
    induction n as [|n IH]; intros x Hn Hx; [lia|].
    pose proof (t_perm _ _ _ _ _ _ _ _ _ T x Hx) as Hperm.
    assert (Ho : forall c, In c (ord x) -> In c (kids x)).
    { intros c Hc. eapply Permutation_in; eauto. }
    assert (Hnd : NoDup (ord x)).
    { eapply Permutation_NoDup; [symmetry; exact Hperm|]. apply (rg_knd _ _ _ R). now right. }
    assert (G : forall m, (m <= length (ord x))%nat -> exists ds, NoDup (x :: ds) /\
       (forall y, In y ds -> In y L /\ exists c, In c (firstn m (ord x)) /\ below L kids c y) /\ fib2 m <= zlen (x :: ds)).
    { induction m as [|m IHm]; intros Hm.
      - exists []. split; [repeat constructor; auto|]. split; [intros y []|]. cbn. lia.
      - destruct IHm as (ds & D1 & D2 & D3); [lia|].
        destruct (nth_error (ord x) m) as [c|] eqn:Ec; [|apply nth_error_None in Ec; lia].
        assert (Hc : In c (kids x)) by (apply Ho; eapply nth_error_In; eauto).
        assert (HcL : In c L) by (eapply (rg_kin _ _ _ R); [right; exact Hx|exact Hc]).
        assert (Hrk : (rk c < n)%nat) by (pose proof (t_rk _ _ _ _ _ _ _ _ _ T _ _ Hx Hc); lia).
        destruct (IH c Hrk HcL) as (dc & E1 & E2 & E3).
        pose proof (t_fib _ _ _ _ _ _ _ _ _ T _ _ _ Hx Ec) as Hfib.
        pose proof (rg_in _ _ _ R c HcL) as Hc0. pose proof (fl_range c HcL) as Hfl.
        destruct (Z.eqb_spec c (-1)) as [|_]; [lia|]. rewrite (dg_len c HcL) in Hfib. unfold zlen in Hfib.
        assert (Hmono : fib2 (pred m) <= fib2 (length (kids c))) by (apply fib2_mono; lia).
        exists (dc ++ ds).
        assert (Efn : firstn (S m) (ord x) = firstn m (ord x) ++ [c]).
        { clear - Ec. revert m Ec. induction (ord x) as [|a l IHl]; intros [|m] Ec; cbn in *; try discriminate; [now inversion Ec|].
          f_equal. now apply IHl. }
        assert (Hcm : ~ In c (firstn m (ord x))).
        { rewrite <- (firstn_skipn (S m) (ord x)) in Hnd. rewrite Efn in Hnd. apply NoDup_left in Hnd.
          apply NoDup_remove_2 in Hnd. now rewrite app_nil_r in Hnd. }
        inversion D1 as [|? ? D1a D1b]; subst.
        split; [|split].
        + constructor.
          * rewrite in_app_iff. intros [H|H]; [|contradiction].
            apply E2 in H. destruct H as [_ H]. apply below_rk in H. pose proof (t_rk _ _ _ _ _ _ _ _ _ T _ _ Hx Hc). lia.
          * apply NoDup_app'; auto. intros y Hy1 Hy2. apply E2 in Hy1. apply D2 in Hy2.
            destruct Hy2 as [_ (c' & Hc' & B')]. destruct Hy1 as [_ B].
            assert (Hin' : In c' (ord x)).
            { rewrite <- (firstn_skipn m (ord x)). apply in_or_app. now left. }
            eapply (below_dis x c c' y); eauto. intros ->. contradiction.
        + intros y Hy. rewrite in_app_iff in Hy. destruct Hy as [Hy|Hy].
          * apply E2 in Hy. split; [tauto|]. exists c. split; [|tauto]. rewrite Efn. apply in_or_app. right. now left.
          * apply D2 in Hy. destruct Hy as [H1 (c' & H2 & H3)]. split; [exact H1|]. exists c'. split; [|exact H3].
            rewrite Efn. apply in_or_app. now left.
        + rewrite fib2_step. rewrite zlen_cons in *. rewrite zlen_app. lia. }
    destruct (G (length (ord x)) (le_n _)) as (ds & D1 & D2 & D3).
    exists (x :: ds). split; [exact D1|]. split.
    - intros y [<-|Hy]; [split; [exact Hx|constructor]|]. apply D2 in Hy. destruct Hy as [H1 (c & H2 & H3)].
      split; [exact H1|]. eapply below_head; [exact Hx| |exact H3].
      rewrite firstn_all in H2. now apply Ho.
    - rewrite <- (Permutation_length Hperm). exact D3.
  Qed.

  Lemma degree_bound x d : In x L -> zlen L < fib2 d -> 0 <= dg de x < Z.of_nat d.
  Proof.
    intros Hx Hd. rewrite (dg_len x Hx).
    destruct (size_ge (S (rk x)) x (le_n _) Hx) as (ds & D1 & D2 & D3).
    assert (zlen ds <= zlen L).
    { unfold zlen. apply inj_le. apply NoDup_incl_length; auto. intros y Hy. now apply D2. }
    split; [apply zlen_nonneg|]. destruct (Z_lt_ge_dec (zlen (kids x)) (Z.of_nat d)); [assumption|].
    exfalso. assert (fib2 d <= fib2 (length (kids x))) by (apply fib2_mono; unfold zlen in *; lia). lia.
  Qed.
End Size.
