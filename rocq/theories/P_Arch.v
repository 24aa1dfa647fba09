(** Proofs about complete graph, hypercube and variable-sized architectures. *)
From Verif Require Import Base M_Int S_Int P_Int M_Arch S_Arch.

Ltac pow2 := change (2 ^ 1) with 2 in *.

(** ** Cardinals *)

Lemma card_ext P Q n : (forall t, P t <-> Q t) -> card P n -> card Q n.
Proof. intros H (l & N & I & L). exists l. split; [auto|split; auto]. intros. now rewrite I. Qed.

Lemma card_unique P n m : card P n -> card P m -> n = m.
Proof.
  intros (l & N & I & <-) (l' & N' & I' & <-). unfold zlen.
  enough (length l <= length l' /\ length l' <= length l)%nat by lia.
  split; apply NoDup_incl_length; auto; intros x; rewrite I, I'; auto.
Qed.

Lemma card_interval a n : 0 <= n -> card (interval a n) n.
Proof.
  intros. exists (zseq a n). split; [apply NoDup_zseq|]. split; [|now apply zlen_zseq].
  intros. apply In_zseq.
Qed.

Lemma card_one P t : card P 1 -> P t -> forall t', P t' <-> t' = t.
Proof.
  intros (l & N & I & L) Pt t'. destruct l as [|a [|b l]]; unfold zlen in L; simpl in L; try lia.
  rewrite <- I in Pt |- *. simpl in *. intuition congruence.
Qed.

Lemma card_pos P n : card P n -> 1 <= n -> exists t, P t.
Proof.
  intros (l & N & I & L) Hn. destruct l as [|a l]; [unfold zlen in L; simpl in L; lia|].
  exists a. apply I. now left.
Qed.

Lemma card_split P P0 P1 n n0 n1 : (forall t, P t <-> P0 t \/ P1 t) -> (forall t, P0 t -> P1 t -> False) ->
  card P n -> card P0 n0 -> card P1 n1 -> n = n0 + n1.
Proof.
  intros HU HD Hn (l0 & N0 & I0 & <-) (l1 & N1 & I1 & <-).
  rewrite <- zlen_app. eapply card_unique; eauto. exists (l0 ++ l1). split; [|split; auto].
  - clear -N0 N1 HD I0 I1. assert (H : forall t, In t l0 -> In t l1 -> False) by (intros t; rewrite I0, I1; apply HD).
    clear I0 I1 HD. induction N0; simpl; auto. constructor.
    + rewrite in_app_iff. intros [?|?]; auto. eapply H; eauto. now left.
    + apply IHN0. intros. eapply H; eauto. now right.
  - intros. rewrite in_app_iff, HU, I0, I1. tauto.
Qed.

Section Gen.
Context {D : Type} (wf : D -> Prop) (mem : D -> Z -> Prop) (sz : D -> Z).
Hypothesis Hsz : forall d, wf d -> 1 <= sz d /\ card (mem d) (sz d).

Lemma bipart_intro bip :
  (forall d, wf d -> sz d = 1 -> bip d = Err 1) ->
  (forall d, wf d -> 1 < sz d -> exists d0 d1, bip d = Ok (d0, d1) /\ wf d0 /\ wf d1 /\
      (forall t, mem d t <-> mem d0 t \/ mem d1 t) /\ (forall t, mem d0 t -> mem d1 t -> False)) ->
  bipart_ok wf mem bip.
Proof.
  intros H1 H2 d n Hd Hn. destruct (Hsz d Hd) as [P C].
  rewrite (card_unique _ _ _ Hn C). auto.
Qed.

Lemma size_intro size : (forall d, wf d -> size d = Ok (sz d)) -> size_ok wf mem size.
Proof. intros H d Hd. exists (sz d). destruct (Hsz d Hd). auto. Qed.

Lemma expand_intro bip : bipart_ok wf mem bip -> expand_ok wf mem bip.
Proof.
  intros HB d n fuel. revert d n. induction fuel; intros d n Hd Hn Hf.
  - destruct (Hsz d Hd) as [P C]. rewrite (card_unique _ _ _ Hn C) in Hf. lia.
  - destruct (Hsz d Hd) as [P C]. pose proof (card_unique _ _ _ Hn C) as E.
    destruct (HB d n Hd Hn) as [B1 B2]. cbn [expand].
    destruct (Z.eq_dec n 1) as [->|Hne].
    + rewrite B1 by auto. destruct (card_pos _ _ Hn ltac:(lia)) as (t & Ht).
      exists [d], [t]. split; [auto|]. split; [constructor; [|constructor]|].
      * split; auto. now apply card_one.
      * split; [constructor; [easy|constructor]|]. intros t'. rewrite (card_one _ _ Hn Ht t'). simpl. intuition.
    + destruct B2 as (d0 & d1 & -> & W0 & W1 & U & X); [lia|].
      destruct (Hsz d0 W0) as [P0 C0], (Hsz d1 W1) as [P1 C1].
      pose proof (card_split _ _ _ _ _ _ U X Hn C0 C1).
      destruct (IHfuel d0 _ W0 C0) as (l0 & t0 & -> & F0 & N0 & I0); [lia|].
      destruct (IHfuel d1 _ W1 C1) as (l1 & t1 & -> & F1 & N1 & I1); [lia|].
      cbn [bind]. exists (l0 ++ l1), (t0 ++ t1). split; [auto|]. split; [now apply Forall2_app|].
      split.
      * assert (Y : forall t, In t t0 -> In t t1 -> False) by (intros t; rewrite I0, I1; apply X).
        clear -N0 N1 Y. induction N0; simpl; auto. constructor.
        -- rewrite in_app_iff. intros [?|?]; auto. eapply Y; eauto. now left.
        -- apply IHN0. intros. eapply Y; eauto. now right.
      * intros. rewrite in_app_iff, I0, I1, U. tauto.
Qed.
End Gen.

Lemma load2_save imax a b ws rest :
  9 <= imax -> - imax <= a <= imax -> - imax <= b <= imax -> Forall blank_char ws ->
  load2 imax (ws ++ (intSave a ++ [32] ++ intSave b ++ [32]) ++ rest) = Ok (a, b, 32 :: rest).
Proof.
  intros Hm Ha Hb Hw. unfold load2.
  rewrite <- !app_assoc. rewrite intLoad_intSave; auto; try lia.
  2: { simpl. unfold digit_char; lia. }
  cbn [orerr bind]. rewrite intLoad_intSave; auto; try lia.
  - apply (blank1 32 eq_refl).
  - simpl. unfold digit_char; lia.
Qed.

(** ** Complete graph *)


Section Cmplt.
Context (n : Z) (Hn : 1 <= n).

Lemma cmplt_sz d : cwf n d -> 1 <= c_nbr d /\ card (cmem d) (c_nbr d).
Proof. intros (?&?&?). split; auto. apply card_interval. lia. Qed.

Lemma cmplt_frst : frst_ok n (cwf n) cmem (archCmpltDomFrst n).
Proof. eexists; split; [reflexivity|]. unfold cwf, cmem, interval; simpl. split; [lia|]. intros; lia. Qed.

Lemma cmplt_size : size_ok (cwf n) cmem (archCmpltDomSize n).
Proof. apply (size_intro _ _ c_nbr cmplt_sz). reflexivity. Qed.

Lemma cmplt_bipart : bipart_ok (cwf n) cmem (archCmpltDomBipart n).
Proof.
  apply (bipart_intro _ _ c_nbr cmplt_sz); intros d (H0 & H1 & H2) H; unfold archCmpltDomBipart.
  - rewrite H. reflexivity.
  - destruct (Z.leb_spec (c_nbr d) 1); [lia|].
    rewrite Z.quot_div_nonneg by lia.
    assert (1 <= c_nbr d / 2 < c_nbr d) by (split; [apply Z.div_le_lower_bound|apply Z.div_lt]; lia).
    do 2 eexists; split; [reflexivity|]. unfold cwf, cmem, interval; cbn [c_min c_nbr].
    split; [lia|]. split; [lia|]. split; intros; lia.
Qed.

Lemma cmplt_term : term_ok n (cwf n) cmem (archCmpltDomTerm n) (archCmpltDomNum n).
Proof.
  unfold archCmpltDomTerm, archCmpltDomNum. split.
  - intros t Ht. destruct (Z.ltb_spec t n); [|lia]. eexists; split; [reflexivity|].
    unfold cwf, cmem, interval; cbn [c_min c_nbr]. split; [lia|]. split; [intros; lia|auto].
  - intros t Ht. destruct (Z.ltb_spec t n); auto. lia.
Qed.

Lemma cmplt_num : num_ok (cwf n) cmem (archCmpltDomNum n).
Proof. intros d (?&?&?). eexists; split; [reflexivity|]. unfold cmem, interval. split; intros; lia. Qed.

Lemma interval_incl a m b k : 1 <= k -> (forall t, interval b k t -> interval a m t) <-> a <= b /\ b + k <= a + m.
Proof.
  unfold interval. intros. split.
  - intros I. pose proof (I b ltac:(lia)). pose proof (I (b + k - 1) ltac:(lia)). lia.
  - intros; lia.
Qed.

Lemma cmplt_incl : incl_ok (cwf n) cmem (archCmpltDomIncl n).
Proof.
  intros d0 d1 (?&?&?) (?&?&?). eexists; split; [reflexivity|].
  unfold cmem. rewrite interval_incl by lia. lia.
Qed.

Lemma cmplt_dist_sym : dist_sym (cwf n) (archCmpltDomDist n).
Proof.
  intros d0 d1 _ _. eexists; split; [reflexivity|]. unfold archCmpltDomDist.
  rewrite (Z.eqb_sym (c_min d1)), (Z.eqb_sym (c_nbr d1)). split; [auto|].
  destruct (_ && _); lia.
Qed.

Lemma cmplt_dist_term : dist_term n (archCmpltDomTerm n) (archCmpltDomDist n) (fun t0 t1 => if t0 =? t1 then 0 else 1).
Proof.
  intros t0 t1 d0 d1 H0 H1. unfold archCmpltDomTerm, archCmpltDomDist.
  destruct (Z.ltb_spec t0 n), (Z.ltb_spec t1 n); try lia.
  intros [= <-] [= <-]. cbn [c_min c_nbr]. now rewrite andb_true_r.
Qed.

Lemma cmplt_saveload imax : 9 <= imax -> n <= imax ->
  saveload_ok (cwf n) (fun _ => True) archCmpltDomSave (archCmpltDomLoad imax n).
Proof.
  intros Hm Hni d ws rest (?&?&?) _ Hw. unfold archCmpltDomLoad, archCmpltDomSave.
  rewrite load2_save by (auto; lia). cbn [bind].
  destruct (Z.ltb_spec (c_nbr d) 1); [lia|].
  unfold ckint. replace (_ && _) with true by lia. cbn [bind].
  destruct (Z.ltb_spec n (c_nbr d + c_min d)); [lia|]. now destruct d.
Qed.
End Cmplt.

(** ** Hypercube *)


Lemma hcubHam_spec i k j : hcubHam i k j = j + zcount 0 (Z.of_nat i) (Z.testbit k).
Proof.
  revert k j. induction i; intros k j.
  - change (zcount 0 (Z.of_nat 0) (Z.testbit k)) with 0. simpl. lia.
  - cbn [hcubHam]. rewrite IHi. unfold zcount.
    rewrite (zsum_cons 0 (Z.of_nat (S i))) by lia.
    replace (zsum (0 + 1) (Z.of_nat (S i)) (fun i0 => b2z (Z.testbit k i0)))
      with (zsum 0 (Z.of_nat i) (fun i0 => b2z (Z.testbit (Z.shiftr k 1) i0))).
    + replace (Z.land k 1) with (b2z (Z.testbit k 0)); [lia|].
      change (b2z (Z.testbit k 0) = Z.land k (Z.ones 1)). rewrite Z.land_ones by lia. rewrite Z.bit0_odd. pow2. rewrite Zmod_odd. now destruct (Z.odd k).
    + replace (Z.of_nat (S i)) with (Z.of_nat i + 1) by lia.
      rewrite <- (zsum_shift 0 (Z.of_nat i) 1 (fun i0 => b2z (Z.testbit k i0))). apply zsum_ext. intros. rewrite Z.shiftr_spec by lia. reflexivity.
Qed.

Section Hcub.
Context (n : Z) (Hn : 0 <= n <= 30).

Lemma shl1_ok k : 0 <= k <= n -> shl1 k = Ok (2 ^ k).
Proof. intros. unfold shl1. now replace (_ && _) with true by lia. Qed.

Lemma hcub_sz d : hwf n d -> 1 <= 2 ^ h_cur d /\ card (hmem d) (2 ^ h_cur d).
Proof.
  intros (?&?&?). assert (0 < 2 ^ h_cur d) by (apply Z.pow_pos_nonneg; lia).
  split; [lia|]. apply card_interval. lia.
Qed.

Lemma hcub_frst : frst_ok (2 ^ n) (hwf n) hmem (archHcubDomFrst n).
Proof.
  eexists; split; [reflexivity|]. assert (0 < 2 ^ n) by (apply Z.pow_pos_nonneg; lia).
  unfold hwf, hmem, interval; cbn [h_cur h_bits]. rewrite Z.mod_0_l by lia. split; [lia|]. intros; lia.
Qed.

Lemma hcub_size : size_ok (hwf n) hmem (archHcubDomSize n).
Proof.
  apply (size_intro _ _ (fun d => 2 ^ h_cur d) hcub_sz). intros d (?&?&?). now apply shl1_ok.
Qed.

Lemma lor_low b k : 0 <= k -> b mod 2 ^ (k + 1) = 0 -> Z.lor b (2 ^ k) = b + 2 ^ k.
Proof.
  intros Hk Hb. symmetry. rewrite Z.add_nocarry_lxor.
  - apply Z.bits_inj'. intros i Hi. rewrite Z.lxor_spec, Z.lor_spec, Z.pow2_bits_eqb by lia.
    destruct (Z.eqb_spec k i); subst; [|now rewrite orb_false_r, xorb_false_r].
    replace (Z.testbit b i) with false; auto.
    rewrite <- (Z.mod_pow2_bits_low b (i + 1)) by lia. rewrite Hb. now rewrite Z.bits_0.
  - apply Z.bits_inj'. intros i Hi. rewrite Z.land_spec, Z.pow2_bits_eqb, Z.bits_0 by lia.
    destruct (Z.eqb_spec k i); subst; [|now rewrite andb_false_r].
    rewrite andb_true_r. rewrite <- (Z.mod_pow2_bits_low b (i + 1)) by lia. rewrite Hb. now rewrite Z.bits_0.
Qed.

Lemma mod_mod_pow b j k : 0 <= j <= k -> b mod 2 ^ k = 0 -> b mod 2 ^ j = 0.
Proof.
  intros Hj H. apply Z.mod_divide; [apply Z.pow_nonzero; lia|]. apply Z.divide_trans with (2 ^ k).
  - exists (2 ^ (k - j)). rewrite <- Z.pow_add_r by lia. f_equal. lia.
  - apply Z.mod_divide; auto. apply Z.pow_nonzero; lia.
Qed.

Lemma hwf_bound d : hwf n d -> h_bits d + 2 ^ h_cur d <= 2 ^ n.
Proof.
  intros (H1 & H2 & H3). assert (0 < 2 ^ h_cur d) by (apply Z.pow_pos_nonneg; lia).
  assert (H4 : 2 ^ n = 2 ^ h_cur d * 2 ^ (n - h_cur d)) by (rewrite <- Z.pow_add_r by lia; f_equal; lia).
  pose proof (Z.div_mod (h_bits d) (2 ^ h_cur d) ltac:(lia)) as E. rewrite H3 in E. rewrite H4 in *.
  set (q := h_bits d / 2 ^ h_cur d) in *. assert (q < 2 ^ (n - h_cur d)) by nia. nia.
Qed.

Lemma hcub_bipart : bipart_ok (hwf n) hmem (archHcubDomBipart n).
Proof.
  apply (bipart_intro _ _ (fun d => 2 ^ h_cur d) hcub_sz); intros d Hd H; pose proof (hwf_bound d Hd) as HB;
    destruct Hd as (H0 & H1 & H2); unfold archHcubDomBipart.
  - destruct (Z.leb_spec (h_cur d) 0); auto.
    pose proof (Z.pow_gt_1 2 (h_cur d)). lia.
  - destruct (Z.leb_spec (h_cur d) 0); [replace (h_cur d) with 0 in H by lia; easy|].
    rewrite shl1_ok by lia. cbn [bind].
    assert (HE : 2 ^ h_cur d = 2 * 2 ^ (h_cur d - 1)) by (rewrite <- Z.pow_succ_r by lia; f_equal; lia).
    assert (0 < 2 ^ (h_cur d - 1)) by (apply Z.pow_pos_nonneg; lia).
    rewrite lor_low by (try lia; replace (h_cur d - 1 + 1) with (h_cur d) by lia; auto).
    do 2 eexists; split; [reflexivity|]. unfold hwf, hmem, interval; cbn [h_cur h_bits].
    assert (h_bits d mod 2 ^ (h_cur d - 1) = 0) by (apply (mod_mod_pow _ _ (h_cur d)); auto; lia).
    split; [split; [lia|split; auto; lia]|]. split.
    + split; [lia|]. split; [lia|]. rewrite <- (Z.mul_1_l (2 ^ (h_cur d - 1))) at 1. now rewrite Z.mod_add by lia.
    + split; intros; lia.
Qed.

Lemma hcub_term : term_ok (2 ^ n) (hwf n) hmem (archHcubDomTerm n) (archHcubDomNum n).
Proof.
  unfold archHcubDomTerm, archHcubDomNum. split; intros t Ht; rewrite shl1_ok by lia; cbn [bind];
    destruct (Z.ltb_spec t (2 ^ n)); try lia; auto.
  eexists; split; [reflexivity|].
  unfold hwf, hmem, interval; cbn [h_cur h_bits]. change (2 ^ 0) with 1. rewrite Z.mod_1_r.
  split; [lia|]. split; [intros; lia|auto].
Qed.

Lemma hcub_num : num_ok (hwf n) hmem (archHcubDomNum n).
Proof.
  intros d (?&?&?). eexists; split; [reflexivity|]. unfold hmem, interval.
  assert (0 < 2 ^ h_cur d) by (apply Z.pow_pos_nonneg; lia). split; intros; lia.
Qed.

Lemma hcub_incl : incl_ok (hwf n) hmem (archHcubDomIncl n).
Proof.
  intros d0 d1 (A0 & B0 & C0) (A1 & B1 & C1). eexists; split; [reflexivity|].
  assert (0 < 2 ^ h_cur d0) by (apply Z.pow_pos_nonneg; lia).
  assert (0 < 2 ^ h_cur d1) by (apply Z.pow_pos_nonneg; lia).
  unfold hmem. rewrite interval_incl by lia.
  rewrite Z.shiftr_lxor, andb_true_iff, Z.leb_le, Z.eqb_eq, Z.lxor_eq_0_iff.
  rewrite !Z.shiftr_div_pow2 by lia.
  pose proof (Z.div_mod (h_bits d0) (2 ^ h_cur d0) ltac:(lia)) as E0. rewrite C0 in E0.
  pose proof (Z.div_mod (h_bits d1) (2 ^ h_cur d0) ltac:(lia)) as E1.
  pose proof (Z.mod_pos_bound (h_bits d1) (2 ^ h_cur d0) ltac:(lia)).
  split.
  - intros [L E]. rewrite <- E in E1.
    assert (HE : 2 ^ h_cur d0 = 2 ^ h_cur d1 * 2 ^ (h_cur d0 - h_cur d1)) by (rewrite <- Z.pow_add_r by lia; f_equal; lia).
    assert (0 < 2 ^ (h_cur d0 - h_cur d1)) by (apply Z.pow_pos_nonneg; lia).
    split; [lia|].
    set (m := h_bits d1 mod 2 ^ h_cur d0) in *.
    assert (Hm : m mod 2 ^ h_cur d1 = 0).
    { set (q0 := h_bits d0 / 2 ^ h_cur d0) in *.
      replace m with (h_bits d1 + - (q0 * 2 ^ (h_cur d0 - h_cur d1)) * 2 ^ h_cur d1).
      2: { transitivity (h_bits d1 - q0 * 2 ^ h_cur d0); [rewrite HE; ring|lia]. }
      rewrite Z.mod_add by lia. auto. }
    pose proof (Z.div_mod m (2 ^ h_cur d1) ltac:(lia)) as Em. rewrite Hm in Em.
    assert (m / 2 ^ h_cur d1 < 2 ^ (h_cur d0 - h_cur d1)) by nia. nia.
  - intros [L U]. assert (h_cur d1 <= h_cur d0) by (apply (Z.pow_le_mono_r_iff 2); lia).
    split; auto.
    set (q0 := h_bits d0 / 2 ^ h_cur d0) in *. set (q1 := h_bits d1 / 2 ^ h_cur d0) in *.
    set (r := h_bits d1 mod 2 ^ h_cur d0) in *. nia.
Qed.

Lemma hcub_dist d0 d1 : hwf n d0 -> hwf n d1 ->
  archHcubDomDist n d0 d1 = Ok (hamming (Z.max (h_cur d0) (h_cur d1)) n (h_bits d0) (h_bits d1)
                                + Z.abs (h_cur d0 - h_cur d1) / 2).
Proof.
  intros (A0 & _) (A1 & _). unfold archHcubDomDist.
  assert (G : forall i j, 0 <= i <= n -> 0 <= j ->
    hcubHam (Z.to_nat (n - i)) (Z.shiftr (Z.lxor (h_bits d0) (h_bits d1)) i) (Z.quot j 2)
    = hamming i n (h_bits d0) (h_bits d1) + j / 2).
  { intros i j Hi Hj. rewrite hcubHam_spec, Z.quot_div_nonneg by lia. unfold hamming, zcount.
    rewrite Z2Nat.id by lia. rewrite Z.add_comm. f_equal.
    pose proof (zsum_shift 0 (n - i) i (fun i0 => b2z (xorb (Z.testbit (h_bits d0) i0) (Z.testbit (h_bits d1) i0)))) as E.
    replace (0 + i) with i in E by lia. replace (n - i + i) with n in E by lia. rewrite <- E.
    apply zsum_ext. intros k Hk. now rewrite Z.shiftr_spec, Z.lxor_spec by lia. }
  destruct (Z.ltb_spec (h_cur d1) (h_cur d0)); rewrite G by lia; do 2 f_equal; f_equal; lia.
Qed.

Lemma hamming_sym a b x y : hamming a b x y = hamming a b y x.
Proof. apply zsum_ext. intros. now rewrite xorb_comm. Qed.

Lemma hamming_nonneg a b x y : 0 <= hamming a b x y.
Proof. apply zsum_nonneg. intros. unfold b2z. destruct (xorb _ _); lia. Qed.

Lemma hcub_dist_sym : dist_sym (hwf n) (archHcubDomDist n).
Proof.
  intros d0 d1 H0 H1. rewrite !hcub_dist by auto. eexists; split; [reflexivity|].
  split.
  - rewrite hamming_sym, Z.max_comm. do 3 f_equal. lia.
  - pose proof (hamming_nonneg (Z.max (h_cur d0) (h_cur d1)) n (h_bits d0) (h_bits d1)).
    pose proof (Z.div_pos (Z.abs (h_cur d0 - h_cur d1)) 2). lia.
Qed.

Lemma hcub_dist_term : dist_term (2 ^ n) (archHcubDomTerm n) (archHcubDomDist n) (hamming 0 n).
Proof.
  intros t0 t1 d0 d1 H0 H1 T0 T1. destruct hcub_term as [HT _].
  destruct (HT t0 H0) as (d0' & E0 & W0 & _). destruct (HT t1 H1) as (d1' & E1 & W1 & _).
  assert (d0' = d0) by congruence. assert (d1' = d1) by congruence. subst.
  rewrite hcub_dist by auto. unfold archHcubDomTerm in *. rewrite shl1_ok in * by lia. cbn [bind] in *.
  destruct (t0 <? 2 ^ n), (t1 <? 2 ^ n); try discriminate.
  injection T0 as <-. injection T1 as <-. cbn [h_cur h_bits]. f_equal.
  change (Z.max 0 0) with 0. change (Z.abs (0 - 0) / 2) with 0. lia.
Qed.

Lemma hcub_saveload imax : 9 <= imax -> 2 ^ n <= imax -> n <= imax ->
  saveload_ok (hwf n) (fun _ => True) archHcubDomSave (archHcubDomLoad imax n).
Proof.
  intros Hm Hni Hnn d ws rest (?&?&?) _ Hw. unfold archHcubDomLoad, archHcubDomSave.
  rewrite load2_save by (auto; lia). cbn [bind].
  destruct (Z.ltb_spec n (h_cur d)); [lia|]. now destruct d.
Qed.
End Hcub.
