(** Insertion into, and deletion from, the Fibonacci heap. *)
From Verif Require Import Base M_Fibo S_Fibo P_Fibo P_Fibo2 P_Fibo3.

Lemma rings_ext h L k k' : (forall q, In q (0 :: L) -> k' q = k q) -> rings h L k -> rings h L k'.
Proof.
  intros E [A1 A2 A3 A4 A5 A6 A7 A8].
  assert (E0 : k' 0 = k 0) by (apply E; now left).
  assert (EL : forall q, In q L -> k' q = k q) by (intros; apply E; now right).
  constructor; auto.
  - now rewrite E0.
  - intros p Hp. rewrite EL by auto. auto.
  - intros p Hp. rewrite E by auto. auto.
  - intros p x Hp. rewrite E by auto. eauto.
  - intros p q x Hp Hq. rewrite !E by auto. eauto.
Qed.

Lemma tinv_kext pa ch de L k k' ord rk dp sp : (forall q, In q (0 :: L) -> k' q = k q) ->
  tinv pa ch de L k ord rk dp sp -> tinv pa ch de L k' ord rk dp sp.
Proof.
  intros E [A1 A2 A3 A4 A5 A6 A7].
  assert (EL : forall q, In q L -> k' q = k q) by (intros; apply E; now right).
  constructor; auto.
  - intros p x Hp. rewrite E by auto. eauto.
  - intros x Hx. destruct (A2 x Hx) as (p & Hp & H). exists p. rewrite E by auto. auto.
  - intros p Hp. rewrite EL by auto. auto.
  - intros p Hp. rewrite EL by auto. auto.
  - intros p x Hp. rewrite EL by auto. auto.
  - intros p Hp. rewrite EL by auto. auto.
Qed.

(** * fiboHeapAdd *)

Lemma rings_new h L kids x : rings h L kids -> ~ In x L -> 1 <= x < fnbr h ->
  rings h (x :: L) (kset kids x []) /\ limbo (x :: L) (kset kids x []) x.
Proof.
  intros R Hx Hr.
  assert (Hsub : forall q y, In q (0 :: x :: L) -> In y (kset kids x [] q) -> In q (0 :: L) /\ In y (kids q)).
  { intros q y Hq. unfold kset. destruct (Z.eqb_spec q x) as [->|Hqx]; [intros []|]. intros Hy. split; [|exact Hy].
    destruct Hq as [Hq|[Hq|Hq]]; [now left|congruence|now right]. }
  destruct R as [A1 A2 A3 A4 A5 A6 A7 A8]. split; [constructor|]; auto.
  - constructor; auto.
  - intros y [<-|Hy]; auto.
  - rewrite kset_other by lia. exact A4.
  - intros p Hp. unfold kset. destruct (Z.eqb_spec p x) as [->|Hpx]; [exact I|]. apply A5. destruct Hp; [congruence|auto].
  - intros p Hp. unfold kset. destruct (Z.eqb_spec p x) as [->|Hpx]; [constructor|]. apply A6.
    destruct Hp as [Hq|[Hq|Hq]]; [now left|congruence|now right].
  - intros p y Hp Hy. apply Hsub in Hy; auto. right. apply (A7 p); tauto.
  - intros p q y Hp Hq Hy1 Hy2. apply Hsub in Hy1; auto. apply Hsub in Hy2; auto. eapply A8; [apply Hy1|apply Hy2|apply Hy1|apply Hy2].
  - intros p Hp Hy. apply Hsub in Hy; auto. apply Hx. apply (A7 p); tauto.
Qed.

Lemma add_ok cmp h L kids ord rk x :
  good h L kids ord rk (-1) (-1) -> hord cmp L kids -> ~ In x L -> 1 <= x < fnbr h ->
  exists h' kids' ord', fiboHeapAdd h x = Ok h' /\ good h' (x :: L) kids' ord' rk (-1) (-1) /\
    (forall cmp', (forall p y, In p L -> In y L -> cmp' p y = cmp p y) -> hord cmp' (x :: L) kids') /\
    degr h' = degr h /\ fnbr h' = fnbr h.
Proof.
  intros [R T] Ho Hx Hr. unfold fiboHeapAdd.
  rewrite set_pare_ok by lia. cbn [bind]. rewrite set_chld_ok by (cbn [fnbr]; lia). cbn [bind].
  rewrite set_defl_ok by (cbn [fnbr]; lia). cbn [bind fnbr pare chld prev next defl degr].
  destruct (rings_new h L kids x R Hx Hr) as [R1 Hlim].
  match goal with |- context [fiboHeapLinkAfter ?h2 0 x] => set (h2' := h2) end.
  destruct (rings_link0 h2' (x :: L) (kset kids x []) x) as (h' & El & Hd' & R' & Hf').
  - eapply rings_data; [| | |exact R1]; reflexivity.
  - now left.
  - exact Hlim.
  - rewrite El. rewrite (kset_other kids x [] 0) in R' by lia.
    set (k' := kset (kset kids x []) 0 (x :: kids 0)) in *.
    assert (K0 : k' 0 = x :: kids 0) by apply kset_same.
    assert (Kx : k' x = []) by (unfold k'; rewrite kset_other by lia; apply kset_same).
    assert (Kq : forall q, In q L -> k' q = kids q).
    { intros q Hq. pose proof (not0 _ _ _ _ R Hq). unfold k'. rewrite !kset_other; auto. intros ->. contradiction. }
    exists h', k', (kset ord x []). split; [reflexivity|]. destruct Hd' as (G1 & G2 & G3 & G4 & G5).
    assert (HxL : forall q y, In q (0 :: L) -> In y (kids q) -> y <> x).
    { intros q y Hq Hy ->. apply Hx. eapply rg_kin; eauto. }
    split; [split; [exact R'|]|split; [|split]].
    + rewrite G2, G3, G4. unfold h2'. cbn [pare chld defl].
      destruct T as [A1 A2 A3 A4 A5 A6 A7]. constructor.
      * intros p y Hp Hy. destruct (Z.eqb_spec p 0) as [->|Hp0].
        -- rewrite K0 in Hy. destruct Hy as [<-|Hy]; [now rewrite fset_same|]. rewrite fset_other by (eapply HxL; eauto; now left).
           apply (A1 0 y); [now left|exact Hy].
        -- destruct Hp as [Hp|[->|Hp]]; [congruence|rewrite Kx in Hy; destruct Hy|].
           rewrite Kq in Hy by auto. rewrite fset_other by (eapply (HxL p); eauto; now right).
           rewrite (A1 p y); [|now right|exact Hy]. destruct (Z.eqb_spec p 0); [congruence|reflexivity].
      * intros y [<-|Hy]; [exists 0; split; [now left|rewrite K0; now left]|].
        destruct (A2 y Hy) as (p & Hp & Hyp). destruct Hp as [<-|Hp].
        -- exists 0. split; [now left|]. rewrite K0. now right.
        -- exists p. split; [right; now right|]. now rewrite Kq.
      * intros p [<-|Hp] Hne; [now rewrite fset_same, Kx|]. rewrite fset_other by (intros ->; contradiction).
        rewrite Kq by auto. auto.
      * intros p [<-|Hp]; [rewrite fset_same, Kx|].
        -- exists 0. split; [lia|]. destruct (Z.eqb_spec x (-1)); [lia|]. reflexivity.
        -- rewrite fset_other by (intros ->; contradiction). rewrite Kq by auto. auto.
      * intros p y [<-|Hp] Hy; [rewrite Kx in Hy; destruct Hy|]. rewrite Kq in Hy by auto. auto.
      * intros p [<-|Hp]; [rewrite kset_same, Kx; constructor|]. rewrite Kq by auto.
        rewrite kset_other by (intros ->; contradiction). auto.
      * intros p i c [<-|Hp] Hi; [rewrite kset_same in Hi; destruct i; discriminate|].
        rewrite kset_other in Hi by (intros ->; contradiction).
        assert (c <> x).
        { eapply (HxL p); [now right|]. eapply Permutation_in; [apply A6, Hp|]. eapply nth_error_In; eauto. }
        unfold dg, fl. rewrite fset_other by auto. apply (A7 p i c Hp Hi).
    + intros cmp' Ec p y [<-|Hp] Hy; [rewrite Kx in Hy; destruct Hy|]. rewrite Kq in Hy by auto. rewrite Ec; auto.
      eapply rg_kin; eauto. now right.
    + rewrite G5. reflexivity.
    + rewrite G1. reflexivity.
Qed.

(** * fiboHeapDel *)

Definition del (x : Z) (L : list Z) : list Z := List.remove Z.eq_dec x L.
Lemma In_del x L y : In y (del x L) <-> In y L /\ y <> x.
Proof. unfold del. split; [apply in_remove|intros []; now apply in_in_remove]. Qed.
Lemma NoDup_del x L : NoDup L -> NoDup (del x L).
Proof.
  unfold del. induction L as [|a L IH]; intros H; [constructor|]. inversion H; subst. cbn.
  destruct (Z.eq_dec x a); [auto|]. constructor; auto. intros Hi. apply in_remove in Hi. tauto.
Qed.
Lemma zlen_del x L : zlen (del x L) <= zlen L.
Proof.
  unfold del. induction L as [|a L IH]; [reflexivity|]. cbn [List.remove]. destruct (Z.eq_dec x a); repeat rewrite zlen_cons; lia.
Qed.

Lemma rings_drop h L kids x : rings h L kids -> limbo L kids x -> rings h (del x L) kids.
Proof.
  intros R Hlim.
  assert (S : forall q, In q (0 :: del x L) -> In q (0 :: L)).
  { intros q [H|H]; [now left|]. apply In_del in H. right. tauto. }
  destruct R as [A1 A2 A3 A4 A5 A6 A7 A8]. constructor; auto.
  - now apply NoDup_del.
  - intros y Hy. apply In_del in Hy. apply A2. tauto.
  - intros p Hp. apply In_del in Hp. apply A5. tauto.
  - intros p y Hp Hy. apply In_del. split; [eapply A7; eauto|]. intros ->. eapply Hlim; eauto.
  - intros p q y Hp Hq. apply A8; auto.
Qed.

Fixpoint npath (h : fheap) (c : Z) (r : list Z) (b : Z) : Prop :=
  match r with [] => next h c = b | d :: r' => next h c = d /\ npath h d r' b end.
Lemma seg_npath h r : forall c b, seg h c r b -> npath h c r b.
Proof. induction r as [|d r IH]; intros c b; cbn [seg npath]; [intros [H _]; exact H|]. intros [[H _] H2]. auto. Qed.
Lemma npath_frame h h' r : forall c b, (forall y, In y (c :: r) -> next h' y = next h y) -> npath h c r b -> npath h' c r b.
Proof.
  induction r as [|d r IH]; intros c b Hf; cbn [npath].
  - intros H. rewrite (Hf c (or_introl eq_refl)). exact H.
  - intros [H1 H2]. split; [rewrite (Hf c (or_introl eq_refl)); exact H1|]. apply IH; auto. intros y Hy. apply Hf. now right.
Qed.

Lemma cutStep_ok L cend c h k : rings h L k -> In c L -> limbo L k c ->
  exists h1, fiboCutBody cend (h, c) = (if next h c =? cend then Ok (inr h1) else Ok (inl (h1, next h c))) /\
    rings h1 L (kset k 0 (c :: k 0)) /\ (forall y, ~ In y (c :: 0 :: k 0) -> same_links h h1 y) /\
    fnbr h1 = fnbr h /\ pare h1 = fset (pare h) c FNULL /\ chld h1 = chld h /\ defl h1 = defl h /\ degr h1 = degr h.
Proof.
  intros R HcL Hcl. pose proof (rg_in _ _ _ R c HcL) as Hcr.
  cbn [fiboCutBody]. rewrite fget_ok by lia. cbn [bind]. rewrite set_pare_ok by lia. cbn [bind].
  match goal with |- context [fiboHeapLinkAfter ?h2 0 c] => set (h2' := h2) end.
  assert (R2 : rings h2' L k) by (eapply rings_data; [| | |exact R]; reflexivity).
  destruct (rings_link0 h2' L k c R2 HcL Hcl) as (h1 & El & Hd & R1 & Hf1).
  rewrite El. cbn [bind]. destruct Hd as (D1 & D2 & D3 & D4 & D5).
  exists h1. split; [reflexivity|]. split; [exact R1|]. split; [exact Hf1|]. rewrite D1, D2, D3, D4, D5. repeat split.
Qed.

Lemma cutLoop_ok L cend : forall r fuel c h k,
  rings h L k -> (forall y, In y (c :: r) -> In y L /\ limbo L k y) -> NoDup (c :: r) -> npath h c r cend -> ~ In cend r ->
  (length r < fuel)%nat ->
  exists h' k', loop fuel (fiboCutBody cend) (h, c) = Ok h' /\ rings h' L k' /\
    k' 0 = rev (c :: r) ++ k 0 /\ (forall q, q <> 0 -> k' q = k q) /\
    (forall y, pare h' y = if in_dec Z.eq_dec y (c :: r) then FNULL else pare h y) /\
    chld h' = chld h /\ defl h' = defl h /\ degr h' = degr h /\ fnbr h' = fnbr h /\
    (forall y, y <> 0 -> ~ In y (c :: r) -> ~ In y (k 0) -> next h' y = next h y).
Proof.
  induction r as [|d r IH]; intros fuel c h k R Hlim Hnd Hp Hce Hf; (destruct fuel as [|fuel]; [cbn [length] in Hf; lia|]);
  cbn [loop]; destruct (Hlim c (or_introl eq_refl)) as [HcL Hcl]; pose proof (rg_in _ _ _ R c HcL) as Hcr;
  destruct (cutStep_ok L cend c h k R HcL Hcl) as (h1 & Es & R1 & Hf1 & D1 & D2 & D3 & D4 & D5); rewrite Es.
  - cbn [npath] in Hp. rewrite Hp, Z.eqb_refl. cbn [bind].
    exists h1, (kset k 0 (c :: k 0)). split; [reflexivity|]. split; [exact R1|]. split; [now rewrite kset_same|].
    split; [intros; now rewrite kset_other|]. rewrite D3, D4, D5, D1. split; [|repeat (split; [reflexivity|])].
    + intros y. rewrite D2. unfold fset. destruct (Z.eqb_spec y c) as [->|Hy].
      * destruct (in_dec _ _ _) as [|n]; [reflexivity|]. exfalso. apply n. now left.
      * destruct (in_dec _ _ _) as [[i|[]]|]; [congruence|reflexivity].
    + intros y Hy0 Hy1 Hy2. destruct (Hf1 y) as [H _]; [|exact H]. intros [H|[H|H]]; [apply Hy1; now left|congruence|contradiction].
  - cbn [npath] in Hp. destruct Hp as [Hp1 Hp2]. rewrite Hp1.
    destruct (Z.eqb_spec d cend) as [E|_]; [exfalso; apply Hce; now left|]. cbn [bind].
    pose proof (proj1 (NoDup_cons_iff _ _) Hnd) as [Hnd1 Hnd2].
    destruct (IH fuel d h1 (kset k 0 (c :: k 0))) as (h' & k' & E1 & E2 & E3 & E4 & E5 & E6 & E7 & E8 & E9 & E10).
    + exact R1.
    + intros y Hy. destruct (Hlim y (or_intror Hy)) as [H1 H2]. split; [exact H1|]. intros p Hpp. unfold kset.
      destruct (Z.eqb_spec p 0) as [->|]; [|now apply H2]. intros [->|H]; [contradiction|]. eapply H2; [left; reflexivity|exact H].
    + exact Hnd2.
    + eapply npath_frame; [|exact Hp2]. intros y Hy. destruct (Hf1 y) as [H _]; [|exact H].
      intros [->|[<-|H]]; [contradiction| |].
      * destruct (Hlim 0 (or_intror Hy)) as [H1 _]. apply (rg_in _ _ _ R) in H1. lia.
      * destruct (Hlim y (or_intror Hy)) as [_ H2]. eapply H2; [now left|exact H].
    + intros H. apply Hce. now right.
    + cbn [length] in Hf. lia.
    + exists h', k'. split; [exact E1|]. split; [exact E2|]. split; [|split; [|split]].
      * rewrite E3, kset_same. cbn [rev]. rewrite <- !app_assoc. reflexivity.
      * intros q Hq. rewrite E4 by auto. now rewrite kset_other.
      * intros y. rewrite E5, D2. unfold fset.
        destruct (in_dec Z.eq_dec y (d :: r)) as [Hy|Hy]; destruct (in_dec Z.eq_dec y (c :: d :: r)) as [Hy'|Hy']; auto.
        -- exfalso. apply Hy'. now right.
        -- destruct Hy' as [<-|Hy']; [now rewrite Z.eqb_refl|contradiction].
        -- destruct (Z.eqb_spec y c) as [->|]; [exfalso; apply Hy'; now left|reflexivity].
      * rewrite E6, E7, E8, E9, D3, D4, D5, D1. repeat (split; [reflexivity|]).
        intros y Hy0 Hy1 Hy2. rewrite E10; auto.
        -- destruct (Hf1 y) as [H _]; [|exact H]. intros [H|[H|H]]; [apply Hy1; now left|congruence|contradiction].
        -- intros H. apply Hy1. now right.
        -- rewrite kset_same. intros [H|H]; [apply Hy1; now left|contradiction].
Qed.

Lemma tinv_delroot hv pa pa' ch de L kids k2 ord rk dp sp x l1 l2 :
  rings hv L kids -> tinv pa ch de L kids ord rk dp sp -> kids 0 = l1 ++ x :: l2 ->
  k2 0 = rev (kids x) ++ l1 ++ l2 -> (forall q, In q (del x L) -> k2 q = kids q) ->
  (forall y, y <> x -> pa' y = if in_dec Z.eq_dec y (kids x) then FNULL else pa y) ->
  tinv pa' ch de (del x L) k2 ord rk dp sp.
Proof.
  intros R T E K0 Kq Hpa.
  assert (Hx0 : In x (kids 0)) by (rewrite E; apply in_or_app; simpl; auto).
  assert (HxL : In x L) by (eapply rg_kin; eauto; now left).
  pose proof (not0 _ _ _ _ R HxL) as Hxne.
  pose proof (rg_knd _ _ _ R 0 (or_introl eq_refl)) as Hnd. rewrite E in Hnd. apply NoDup_remove_2 in Hnd.
  assert (Hs : forall q, In q (del x L) -> In q L) by (intros q Hq; apply In_del in Hq; tauto).
  destruct T as [A1 A2 A3 A4 A5 A6 A7]. constructor.
  - intros q y Hq Hy.
    assert (Hyx : y <> x).
    { intros ->. destruct (Z.eq_dec q 0) as [->|Hq0].
      - rewrite K0, in_app_iff, <- in_rev in Hy. destruct Hy as [Hy|Hy]; [|contradiction].
        apply Hxne. eapply rg_dis; eauto; [now right|now left].
      - assert (Hql : In q (del x L)) by (destruct Hq; [congruence|auto]). rewrite Kq in Hy by auto.
        apply Hq0. eapply rg_dis; eauto; [right; auto|now left]. }
    rewrite Hpa by exact Hyx. destruct (Z.eqb_spec q 0) as [->|Hq0].
    + rewrite K0 in Hy. rewrite in_app_iff, <- in_rev in Hy. destruct (in_dec _ _ _) as [|Hn]; [reflexivity|].
      destruct Hy as [Hy|Hy]; [contradiction|].
      apply (A1 0 y); [now left|]. rewrite E. rewrite in_app_iff in *. simpl. tauto.
    + assert (Hql : In q (del x L)) by (destruct Hq; [congruence|auto]). rewrite Kq in Hy by auto.
      destruct (in_dec _ _ _) as [Hi|Hn].
      * exfalso. apply In_del in Hql. destruct Hql as [? Hne]. apply Hne. eapply rg_dis; eauto; now right.
      * rewrite (A1 q y); [|right; auto|exact Hy]. destruct (Z.eqb_spec q 0); [congruence|reflexivity].
  - intros y Hy. apply In_del in Hy. destruct Hy as [Hy Hyx]. destruct (A2 y Hy) as (p & Hp & Hyp).
    destruct (Z.eq_dec p 0) as [->|Hp0].
    + exists 0. split; [now left|]. rewrite K0. rewrite E in Hyp. rewrite !in_app_iff in *. simpl in Hyp. intuition congruence.
    + destruct (Z.eq_dec p x) as [->|Hpx].
      * exists 0. split; [now left|]. rewrite K0, in_app_iff, <- in_rev. now left.
      * assert (Hpd : In p (del x L)) by (apply In_del; split; [destruct Hp; [congruence|auto]|auto]).
        exists p. split; [now right|]. now rewrite Kq.
  - intros p Hp Hne. rewrite Kq by auto. auto.
  - intros p Hp. rewrite Kq by auto. auto.
  - intros p y Hp Hy. rewrite Kq in Hy by auto. auto.
  - intros p Hp. rewrite Kq by auto. auto.
  - intros p i c Hp. apply A7. auto.
Qed.

Lemma delLoop_ok fuel L rk p : forall h kids ord r, good h L kids ord rk p (-1) -> In p L ->
  (kids p <> [] -> r = hd FNULL (kids p)) -> zlen L - zlen (kids 0) < Z.of_nat fuel ->
  exists h' kids' ord', loop fuel fiboDelBody (h, p, r) = Ok h' /\ good h' L kids' ord' rk (-1) (-1) /\
    (forall q y, In q L -> In y (kids' q) -> In y (kids q)) /\ degr h' = degr h /\ fnbr h' = fnbr h.
Proof.
  revert p. induction fuel as [|fuel IH]; intros p h kids ord r G Hp Hr Hf.
  { pose proof (roots_le _ _ _ (proj1 G)). lia. }
  cbn [loop fiboDelBody]. destruct G as [R T].
  pose proof (rg_in _ _ _ R p Hp) as Hpr.
  rewrite fget_ok by lia. cbn [bind]. rewrite set_defl_ok by lia. cbn [bind].
  rewrite fget_ok by (cbn [fnbr]; lia). cbn [bind pare].
  rewrite set_chld_ok by (cbn [fnbr]; lia). cbn [bind fnbr pare chld prev next defl degr].
  destruct (t_flag _ _ _ _ _ _ _ _ _ _ p R T Hp) as (X1 & X2 & X3). rewrite Z.eqb_refl in X1.
  set (f := fl (defl h) p) in *. set (d := defl h p) in *.
  assert (Xd : d - 2 = 2 * zlen (kids p) + f) by lia.
  destruct (dgfl _ _ _ X2 Xd) as [_ Xf]. rewrite Xf. rewrite (put_flag _ _ _ X2 Xd).
  assert (Ech : (if d - 2 <=? 1 then FNULL else r) = hd FNULL (kids p)).
  { destruct (Z.leb_spec (d - 2) 1).
    - destruct (kids p) as [|z0 zl]; [reflexivity|]. rewrite zlen_cons in Xd. pose proof (zlen_nonneg zl). lia.
    - apply Hr. intros E. rewrite E in Xd; change (zlen (@nil Z)) with 0 in Xd. lia. }
  rewrite Ech. clear Ech.
  pose proof (tinv_redo _ _ _ _ _ _ _ _ _ R T Hp) as T1. fold d in T1.
  destruct (parent_of _ _ _ _ _ _ _ _ _ _ p R T Hp) as [[E Hk]|(E & Hg & Hk)].
  - rewrite E. rewrite Z.eqb_refl, orb_true_r. cbn [bind]. eexists _, kids, ord. split; [reflexivity|]. split; [|auto].
    split; [eapply rings_data; [| | |exact R]; reflexivity|]. cbn [pare chld defl].
    assert (T2 : tinv (pare h) (fset (chld h) p (hd FNULL (kids p))) (fset (fset (defl h) p (d - 2)) p (2 * zlen (kids p) + 1)) L kids ord rk (-1) p).
    { eapply tinv_root with (f := 1); eauto; lia. }
    eapply tinv_rootslack in T2; eauto.
    eapply tinv_ext; [| |exact T2]; [|apply (rg_kin _ _ _ R)].
    intros y Hy. split; [reflexivity|]. split; [reflexivity|]. unfold fset. destruct (y =? p); reflexivity.
  - destruct (Z.eqb_spec (pare h p) FNULL); [contradiction|]. rewrite orb_false_r.
    destruct (Z.eqb_spec f 0) as [Hz|Hz].
    + cbn [bind]. eexists _, kids, ord. split; [reflexivity|]. split; [|auto].
      split; [eapply rings_data; [| | |exact R]; reflexivity|]. cbn [pare chld defl].
      assert (Hfl : fl (fset (defl h) p (d - 2)) p = 0).
      { unfold fl. rewrite fset_same. lia. }
      pose proof (tinv_flagset _ _ _ _ _ _ _ _ _ R T1 Hp Hfl) as T2.
      eapply tinv_ext; [| |exact T2]; [|apply (rg_kin _ _ _ R)].
      intros y Hy. split; [reflexivity|]. split; [reflexivity|]. unfold fset. destruct (y =? p); [|reflexivity].
      rewrite Z.eqb_refl. symmetry. apply (put_flag _ _ _ X2 Xd).
    + assert (Hf1 : f = 1) by lia.
      match goal with |- context [fget next ?h2 p] => set (h2' := h2) end.
      assert (R2 : rings h2' L kids) by (eapply rings_data; [| | |exact R]; reflexivity).
      rewrite fget_ok by (unfold h2'; cbn [fnbr]; lia). cbn [bind].
      destruct (in_split _ _ Hk) as (l1 & l2 & Ek).
      pose proof (not0 _ _ _ _ R Hg) as Hg0.
      destruct (rings_unlink h2' L kids (pare h p) l1 p l2 R2 (or_intror Hg) Ek) as (h3 & Eu & Hd3 & R3 & Hlim & Hn3 & Hn4).
      destruct (Z.eqb_spec (pare h p) 0) as [|_]; [contradiction|]. specialize (Hn4 Hg0).
      rewrite Eu. cbn [bind]. destruct Hd3 as (F1 & F2 & F3 & F4 & F5).
      rewrite set_pare_ok by (rewrite F1; unfold h2'; cbn [fnbr]; lia). cbn [bind].
      destruct (tinv_detach h _ _ _ L kids ord rk (pare h p) l1 p l2 p R T1 Hg Ek (or_intror eq_refl)) as (ord' & T').
      set (kids1 := kset kids (pare h p) (l2 ++ l1)) in *.
      match goal with |- context [fiboHeapLinkAfter ?h2 0 p] => set (h4 := h2) end.
      destruct (rings_link0 h4 L kids1 p) as (h' & El & Hd' & R' & Hf').
      * eapply rings_data; [| | |exact R3]; reflexivity.
      * exact Hp.
      * exact Hlim.
      * rewrite El. cbn [bind]. destruct Hd' as (G1 & G2 & G3 & G4 & G5).
        assert (K0 : kset kids1 0 (p :: kids1 0) 0 = p :: kids 0).
        { rewrite kset_same. unfold kids1. now rewrite kset_other by auto. }
        assert (Kg : kset kids1 0 (p :: kids1 0) (pare h p) = l2 ++ l1).
        { unfold kids1. rewrite kset_other by auto. now rewrite kset_same. }
        assert (Kx : forall q, q <> 0 -> q <> pare h p -> kset kids1 0 (p :: kids1 0) q = kids q).
        { intros q Hq1 Hq2. unfold kids1. now rewrite !kset_other by auto. }
        assert (Gd : good h' L (kset kids1 0 (p :: kids1 0)) ord' rk (pare h p) (-1)).
        { split; [exact R'|]. rewrite G2, G3, G4. unfold h4. cbn [pare chld defl]. rewrite F2, F3, F4. unfold h2'. cbn [pare chld defl].
          eapply tinv_ext; [| |exact T']; [|apply (rg_kin _ _ _ R')].
          intros y Hy. split; [reflexivity|]. split; [reflexivity|]. unfold fset. destruct (y =? p); [lia|reflexivity]. }
        destruct (IH (pare h p) h' _ ord' (next h2' p) Gd Hg) as (h5 & k5 & o5 & E5 & G5' & S5 & D5 & N5).
        -- rewrite Kg. rewrite Hn4. destruct (l2 ++ l1); [congruence|reflexivity].
        -- rewrite K0, zlen_cons. lia.
        -- exists h5, k5, o5. split; [exact E5|]. split; [exact G5'|]. split; [|split].
           ++ intros q y Hq Hy. apply S5 in Hy; auto. destruct (Z.eq_dec q (pare h p)) as [->|Hqp].
              ** rewrite Kg in Hy. rewrite Ek. rewrite in_app_iff in *. simpl. tauto.
              ** rewrite Kx in Hy by (auto; eapply not0; eauto). exact Hy.
           ++ rewrite D5, G5. unfold h4. cbn [degr]. rewrite F5. reflexivity.
           ++ rewrite N5, G1. unfold h4. cbn [fnbr]. rewrite F1. reflexivity.
Qed.

Lemma del_ok fuel h L kids ord rk x :
  good h L kids ord rk (-1) (-1) -> In x L -> zlen L < Z.of_nat fuel ->
  exists h' kids' ord', fiboHeapDel fuel h x = Ok h' /\ good h' (del x L) kids' ord' rk (-1) (-1) /\
    (forall q y, In q (del x L) -> In y (kids' q) -> In y (kids q)) /\ degr h' = degr h /\ fnbr h' = fnbr h.
Proof.
  intros [R T] Hx Hfu. pose proof (rg_in _ _ _ R x Hx) as Hxr. pose proof (not0 _ _ _ _ R Hx) as Hx0.
  unfold fiboHeapDel. rewrite fget_ok by lia. cbn [bind].
  set (P := if pare h x =? FNULL then 0 else pare h x).
  assert (HP : In P (0 :: L) /\ In x (kids P)).
  { unfold P. destruct (parent_of _ _ _ _ _ _ _ _ _ _ x R T Hx) as [[E Hk]|(E & Hg & Hk)].
    - rewrite E, Z.eqb_refl. split; [now left|exact Hk].
    - destruct (Z.eqb_spec (pare h x) FNULL); [contradiction|]. split; [now right|exact Hk]. }
  destruct HP as [HP Hk]. destruct (in_split _ _ Hk) as (l1 & l2 & Ek).
  assert (HPx : P <> x).
  { intros E. rewrite E in *. destruct HP as [HP|HP]; [congruence|]. pose proof (t_rk _ _ _ _ _ _ _ _ _ T _ _ HP Hk). lia. }
  destruct (rings_unlink h L kids P l1 x l2 R HP Ek) as (h1 & Eu & Hd1 & R1 & Hlim & Hn1 & Hn2).
  rewrite Eu. cbn [bind]. destruct Hd1 as (F1 & F2 & F3 & F4 & F5).
  set (kids1 := kset kids P (if P =? 0 then l1 ++ l2 else l2 ++ l1)) in *.
  assert (K1x : kids1 x = kids x) by (unfold kids1; apply kset_other; auto).
  assert (Rd : rings h1 (del x L) kids1) by (apply rings_drop; auto).
  (* the children become roots *)
  assert (C : exists h2 k2, fiboHeapCutChildren fuel h1 x = Ok h2 /\ rings h2 (del x L) k2 /\
    k2 0 = rev (kids x) ++ kids1 0 /\ (forall q, q <> 0 -> k2 q = kids1 q) /\
    (forall y, pare h2 y = if in_dec Z.eq_dec y (kids x) then FNULL else pare h1 y) /\
    chld h2 = chld h1 /\ defl h2 = defl h1 /\ degr h2 = degr h1 /\ fnbr h2 = fnbr h1 /\ next h2 x = next h1 x).
  { unfold fiboHeapCutChildren. rewrite fget_ok by lia. cbn [bind]. replace (chld h1 x) with (chld h x) by now rewrite F3.
    rewrite (t_chl _ _ _ _ _ _ _ _ _ T x Hx) by lia.
    pose proof (rg_kids _ _ _ R1 x Hx) as Hring. rewrite K1x in Hring.
    pose proof (rg_knd _ _ _ R x (or_intror Hx)) as Hnd.
    assert (Hkin : forall y, In y (kids x) -> In y (del x L) /\ limbo (del x L) kids1 y).
    { intros y Hy. assert (HyL : In y L) by (eapply (rg_kin _ _ _ R); [right; exact Hx|exact Hy]).
      assert (Hyx : y <> x) by (intros ->; pose proof (t_rk _ _ _ _ _ _ _ _ _ T _ _ Hx Hy); lia).
      split; [apply In_del; auto|]. intros q Hq Hyq.
      assert (q = x).
      { eapply (rg_dis _ _ _ R1); [|right; exact Hx|exact Hyq|now rewrite K1x].
        destruct Hq as [Hq|Hq]; [now left|right]. apply In_del in Hq. tauto. }
      subst q. destruct Hq as [Hq|Hq]; [congruence|]. apply In_del in Hq. tauto. }
    assert (Hlen : zlen (kids x) <= zlen L).
    { unfold zlen. apply inj_le, NoDup_incl_length; [exact Hnd|]. intros y Hy. eapply (rg_kin _ _ _ R); [right; exact Hx|exact Hy]. }
    destruct (kids x) as [|c r] eqn:Ekx.
    - cbn [hd Z.eqb FNULL Pos.eqb]. exists h1, kids1. split; [reflexivity|]. split; [exact Rd|]. split; [reflexivity|].
      split; [auto|]. split; [intros y; destruct (in_dec _ _ _) as [[]|]; reflexivity|]. repeat split.
    - cbn [hd]. assert (HcL : In c L) by (destruct (Hkin c (or_introl eq_refl)) as [H _]; apply In_del in H; tauto).
      apply (rg_in _ _ _ R) in HcL. destruct (Z.eqb_spec c FNULL) as [E|_]; [unfold FNULL in E; lia|].
      cbn [ring] in Hring. apply seg_npath in Hring.
      destruct (cutLoop_ok (del x L) c r fuel c h1 kids1 Rd Hkin Hnd Hring) as (h2 & k2 & E1 & E2 & E3 & E4 & E5 & E6 & E7 & E8 & E9 & E10).
      + now inversion Hnd.
      + rewrite zlen_cons in Hlen. unfold zlen in *. lia.
      + exists h2, k2. split; [exact E1|]. split; [exact E2|]. split; [exact E3|]. split; [exact E4|]. split; [exact E5|].
        repeat (split; [assumption|]). apply E10; auto.
        * intros Hc. destruct (Hkin x Hc) as [H _]. apply In_del in H. tauto.
        * intros H. apply (Hlim 0); [now left|exact H]. }
  destruct C as (h2 & k2 & E1 & R2 & E3 & E4 & E5 & E6 & E7 & E8 & E9 & E10).
  rewrite E1. cbn [bind].
  assert (Hdl : forall q, In q (del x L) -> In q L /\ q <> 0).
  { intros q Hq. apply In_del in Hq. split; [tauto|]. eapply not0; [exact R|tauto]. }
  assert (EP : P = if pare h x =? FNULL then 0 else pare h x) by reflexivity. clearbody P.
  destruct (Z.eqb_spec (pare h x) FNULL) as [Enull|Enull].
  - subst P. cbn [Z.eqb] in kids1.
    exists h2, k2, ord. split; [reflexivity|]. split; [|split; [|split; congruence]].
    + split; [exact R2|]. rewrite E6, E7, F3, F4.
      eapply (tinv_delroot h) with (kids := kids) (x := x); [exact R|exact T|exact Ek| | |].
      * rewrite E3. unfold kids1. now rewrite kset_same.
      * intros q Hq. apply Hdl in Hq. rewrite E4 by tauto. unfold kids1. rewrite kset_other by tauto. reflexivity.
      * intros y _. rewrite E5, F2. reflexivity.
    + intros q y Hq Hy. apply Hdl in Hq. rewrite E4 in Hy by tauto. unfold kids1 in Hy. rewrite kset_other in Hy by tauto. exact Hy.
  - idtac.
    assert (HPL : In P L). { destruct (parent_of _ _ _ _ _ _ _ _ _ _ x R T Hx) as [[E _]|(_ & E & _)]; [contradiction|]. now rewrite EP. }
    pose proof (not0 _ _ _ _ R HPL) as HP0. destruct (Z.eqb_spec P 0) as [|_]; [contradiction|].
    rewrite fget_ok by lia. cbn [bind]. rewrite <- EP.
    destruct (tinv_detach h _ _ _ L kids ord rk P l1 x l2 (-1) R T HPL Ek (or_introl eq_refl)) as (ord' & T').
    fold kids1 in T'. set (kv := kset kids1 0 (x :: kids1 0)) in *.
    destruct (rings_link0 h1 L kids1 x R1 Hx Hlim) as (hv & _ & _ & Rv & _). fold kv in Rv.
    assert (Kvq : forall q, q <> 0 -> kv q = kids1 q) by (intros; unfold kv; now rewrite kset_other).
    assert (T2 : tinv (pare h2) (chld h) (defl h) (del x L) k2 ord' rk P (-1)).
    { eapply (tinv_delroot hv) with (kids := kv) (x := x) (l1 := []) (l2 := kids1 0); [exact Rv|exact T'| | | |].
      - unfold kv. now rewrite kset_same.
      - rewrite E3. rewrite Kvq, K1x by auto. reflexivity.
      - intros q Hq. apply Hdl in Hq. rewrite E4, Kvq by tauto. reflexivity.
      - intros y Hyx. rewrite E5, F2. rewrite Kvq, K1x by auto. destruct (in_dec _ _ _) as [Hi|Hi]; [reflexivity|].
        now rewrite fset_other. }
    destruct (delLoop_ok fuel (del x L) rk P h2 k2 ord' (next h2 x)) as (h' & k' & o' & L1 & L2 & L3 & L4 & L5).
    + split; [exact R2|]. rewrite E6, E7, F3, F4. exact T2.
    + apply In_del. auto.
    + rewrite E4 by auto. unfold kids1. rewrite kset_same. rewrite E10, Hn1, Hn2 by auto. destruct (l2 ++ l1); [congruence|reflexivity].
    + pose proof (zlen_del x L). pose proof (zlen_nonneg (k2 0)). lia.
    + exists h', k', o'. split; [exact L1|]. split; [exact L2|]. split; [|split; congruence].
      intros q y Hq Hy. apply L3 in Hy; auto. pose proof (Hdl q Hq). rewrite E4 in Hy by tauto. unfold kids1, kset in Hy.
      destruct (Z.eqb_spec q P) as [->|]; [|exact Hy]. rewrite Ek. rewrite in_app_iff in *. simpl. tauto.
Qed.
