(** Proofs about variable-sized architectures. *)
From Verif Require Import Base M_Int S_Int P_Int M_Arch S_Arch P_Arch.


Lemma vlevel_spec t : 1 <= t -> vlevel t = Ok (Z.log2 t).
Proof.
  intros Ht. unfold vlevel.
  match goal with |- loop ?f ?b ?s = _ =>
    destruct (wp_ok_inv (loop f b s) (fun l => l = Z.log2 t)) as (a & -> & ->); [|reflexivity] end.
  apply wp_loop with (I := fun '(x, l) => 1 <= x /\ l + Z.log2 x = Z.log2 t) (m := fun '(x, l) => x); [lia|lia|].
  intros [x l] [H1 H2]. destruct (Z.ltb_spec 1 x); cbn [wp].
  - rewrite Z.shiftr_div_pow2 by lia. change (2 ^ 1) with 2.
    assert (Hl : Z.log2 (x / 2) = Z.log2 x - 1).
    { change (x / 2) with (x / 2 ^ 1). rewrite <- Z.shiftr_div_pow2 by lia. rewrite Z.log2_shiftr by lia.
      pose proof (Z.log2_le_mono 2 x ltac:(lia)). change (Z.log2 2) with 1 in *. lia. }
    pose proof (Z.div_lt x 2). pose proof (Z.div_le_lower_bound x 2 1). lia.
  - replace x with 1 in * by lia. change (Z.log2 1) with 0 in *. lia.
Qed.

Lemma log2_div x k : 1 <= x -> 0 <= k <= Z.log2 x -> Z.log2 (x / 2 ^ k) = Z.log2 x - k /\ 1 <= x / 2 ^ k.
Proof.
  intros Hx Hk. rewrite <- Z.shiftr_div_pow2 by lia. rewrite Z.log2_shiftr by lia. split; [lia|].
  rewrite Z.shiftr_div_pow2 by lia. apply Z.div_le_lower_bound; [apply Z.pow_pos_nonneg; lia|].
  rewrite Z.mul_1_r. transitivity (2 ^ Z.log2 x); [apply Z.pow_le_mono_r; lia|]. apply Z.log2_spec. lia.
Qed.

Lemma vham_spec x dist : 0 <= x ->
  vham x dist = Ok (dist + zcount 0 (Z.log2 x + 1) (Z.testbit x)).
Proof.
  intros Hx. unfold vham.
  assert (G : forall f x dist, 0 <= x < Z.of_nat f -> exists r,
    loop f (fun '(x, d) => if negb (x =? 0) then Ok (inl (Z.shiftr x 1, d + Z.land x 1)) else Ok (inr d)) (x, dist)
      = Ok r /\ forall m, 0 <= m -> x < 2 ^ m -> r = dist + zcount 0 m (Z.testbit x)).
  { clear. induction f; intros x dist Hx; [lia|]. cbn [loop].
    destruct (Z.eqb_spec x 0); cbn [negb bind].
    - subst. eexists; split; [reflexivity|]. intros m Hm0 Hm.
      unfold zcount. rewrite zsum_zero; [lia|]. intros. rewrite Z.bits_0. reflexivity.
    - assert (Hs : Z.shiftr x 1 = x / 2) by (rewrite Z.shiftr_div_pow2 by lia; reflexivity).
      rewrite Hs. pose proof (Z.div_lt x 2). pose proof (Z.div_pos x 2).
      destruct (IHf (x / 2) (dist + Z.land x 1)) as (r & -> & Hr); [lia|].
      exists r; split; [reflexivity|]. intros m Hm0 Hm.
      assert (1 <= m) by (destruct (Z.eq_dec m 0) as [->|]; [change (2 ^ 0) with 1 in Hm|]; lia).
      assert (Hm1 : x / 2 < 2 ^ (m - 1)).
      { apply Z.div_lt_upper_bound; [lia|]. rewrite <- Z.pow_succ_r by lia. now replace (Z.succ (m - 1)) with m by lia. }
      rewrite (Hr (m - 1) ltac:(lia) Hm1). unfold zcount. rewrite (zsum_cons 0 m) by lia.
      pose proof (zsum_shift 0 (m - 1) 1 (fun i => b2z (Z.testbit x i))) as E.
      replace (m - 1 + 1) with m in E by lia. rewrite <- E.
      replace (Z.land x 1) with (b2z (Z.testbit x 0)).
      2: { change (b2z (Z.testbit x 0) = Z.land x (Z.ones 1)). rewrite Z.land_ones by lia.
           rewrite Z.bit0_odd. change (2 ^ 1) with 2. rewrite Zmod_odd. now destruct (Z.odd x). }
      rewrite (zsum_ext 0 (m - 1) (fun i => b2z (Z.testbit (x / 2) i)) (fun i => b2z (Z.testbit x (i + 1)))); [lia|].
      intros. rewrite <- Hs, Z.shiftr_spec by lia. reflexivity. }
  destruct (G (S (S (Z.to_nat x))) x dist ltac:(lia)) as (r & -> & Hr). rewrite (Hr (Z.log2 x + 1)); [reflexivity|pose proof (Z.log2_nonneg x); lia|].
  destruct (Z.eq_dec x 0) as [->|]; [reflexivity|]. apply Z.log2_spec. lia.
Qed.

Lemma hamming_log x y m : 0 <= x -> 0 <= y -> Z.log2 x < m -> Z.log2 y < m ->
  zcount 0 (Z.log2 (Z.lxor x y) + 1) (Z.testbit (Z.lxor x y)) = hamming 0 m x y.
Proof.
  intros Hx Hy H1 H2. unfold hamming, zcount. pose proof (Z.log2_nonneg (Z.lxor x y)).
  pose proof (Z.log2_lxor x y Hx Hy).
  rewrite (zsum_split 0 (Z.log2 (Z.lxor x y) + 1) m) by lia.
  rewrite (zsum_zero (Z.log2 (Z.lxor x y) + 1) m).
  - rewrite Z.add_0_r. apply zsum_ext. intros. now rewrite Z.lxor_spec.
  - intros i Hi. rewrite <- Z.lxor_spec. rewrite Z.bits_above_log2; [reflexivity| |lia].
    apply Z.lxor_nonneg. lia.
Qed.

(** Descendants *)
Lemma descends_shift n m : 1 <= n -> 1 <= m ->
  descends n m <-> Z.log2 n <= Z.log2 m /\ m / 2 ^ (Z.log2 m - Z.log2 n) = n.
Proof.
  intros Hn Hm. split.
  - intros (k & Hk & H). assert (0 < 2 ^ k) by (apply Z.pow_pos_nonneg; lia).
    assert (HL : Z.log2 m = Z.log2 n + k).
    { apply Z.log2_unique; [pose proof (Z.log2_nonneg n); lia|].
      pose proof (Z.log2_spec n ltac:(lia)) as S. pose proof (Z.log2_nonneg n).
      rewrite Z.pow_add_r by lia. replace (Z.succ (Z.log2 n + k)) with (Z.succ (Z.log2 n) + k) by lia.
      rewrite (Z.pow_add_r 2 (Z.succ _)) by lia. nia. }
    split; [lia|]. replace (Z.log2 m - Z.log2 n) with k by lia.
    symmetry. apply Z.div_unique with (r := m - n * 2 ^ k); lia.
  - intros [HL H]. exists (Z.log2 m - Z.log2 n). split; [lia|].
    set (P := 2 ^ (Z.log2 m - Z.log2 n)) in *. assert (0 < P) by (apply Z.pow_pos_nonneg; lia).
    pose proof (Z.div_mod m P ltac:(lia)). pose proof (Z.mod_pos_bound m P ltac:(lia)). rewrite H in *. lia.
Qed.

Lemma descends_refl n : 1 <= n -> descends n n.
Proof. intros. exists 0. change (2 ^ 0) with 1. lia. Qed.

Lemma descends_sons n m : 1 <= n -> 1 <= m -> m <> n ->
  descends n m <-> descends (2 * n) m \/ descends (2 * n + 1) m.
Proof.
  intros Hn Hm Hne. split.
  - intros (k & Hk & H). destruct (Z.eq_dec k 0) as [->|]; [change (2 ^ 0) with 1 in H; lia|].
    assert (E : 2 ^ k = 2 * 2 ^ (k - 1)) by (rewrite <- Z.pow_succ_r by lia; f_equal; lia).
    rewrite E in H. destruct (Z.lt_ge_cases m ((2 * n + 1) * 2 ^ (k - 1))).
    + left. exists (k - 1). split; [lia|]. nia.
    + right. exists (k - 1). split; [lia|]. nia.
  - intros [(k & Hk & H)|(k & Hk & H)]; exists (k + 1); rewrite Z.pow_add_r by lia; change (2 ^ 1) with 2; nia.
Qed.

Lemma descends_disj n m m' : 1 <= n -> 1 <= m -> 1 <= m' -> m <> m' -> Z.log2 m = Z.log2 m' ->
  descends m n -> descends m' n -> False.
Proof.
  intros Hn Hm Hm' Hne HL. rewrite !descends_shift by lia. rewrite HL. intros [_ ?] [_ ?]. congruence.
Qed.

Lemma log2_sons n : 1 <= n -> Z.log2 (2 * n) = Z.log2 n + 1 /\ Z.log2 (2 * n + 1) = Z.log2 n + 1.
Proof. intros. rewrite Z.log2_succ_double, Z.log2_double by lia. lia. Qed.

Lemma swrap_id w x : 1 <= w -> 0 <= x < 2 ^ (w - 1) -> swrap w x = x.
Proof.
  intros Hw Hx. unfold swrap. assert (2 ^ w = 2 * 2 ^ (w - 1)) by (rewrite <- Z.pow_succ_r by lia; f_equal; lia).
  rewrite Z.mod_small by lia. destruct (Z.ltb_spec x (2 ^ (w - 1))); lia.
Qed.

Lemma swrap_neg w x : 1 <= w -> 2 ^ (w - 1) <= x < 2 ^ w -> swrap w x = x - 2 ^ w.
Proof.
  intros Hw Hx. unfold swrap. assert (0 < 2 ^ (w - 1)) by (apply Z.pow_pos_nonneg; lia).
  rewrite Z.mod_small by lia. destruct (Z.ltb_spec x (2 ^ (w - 1))); lia.
Qed.

Lemma swrap_m1 w : 1 <= w -> swrap w (-1) = -1.
Proof.
  intros. unfold swrap. assert (2 ^ w = 2 * 2 ^ (w - 1)) by (rewrite <- Z.pow_succ_r by lia; f_equal; lia).
  assert (0 < 2 ^ (w - 1)) by (apply Z.pow_pos_nonneg; lia).
  rewrite <- (Z.mod_add _ 1) by lia. rewrite Z.mod_small by lia.
  destruct (Z.ltb_spec (-1 + 1 * 2 ^ w) (2 ^ (w - 1))); lia.
Qed.

Lemma v_bipart_fits w d : 2 <= w -> vwf d -> 2 * v_num d + 1 < 2 ^ (w - 1) ->
  exists d0 d1, archVDomBipart w d = Ok (d0, d1) /\ vwf d0 /\ vwf d1 /\
    v_num d0 = 2 * v_num d /\ v_num d1 = 2 * v_num d + 1.
Proof.
  intros Hw (H1 & H2) Hf. unfold archVDomBipart. rewrite Z.shiftl_mul_pow2 by lia. change (2 ^ 1) with 2.
  rewrite !(swrap_id w (v_num d * 2)) by lia. rewrite swrap_id by lia.
  destruct (Z.ltb_spec (v_num d * 2 + 1) (v_num d)); [lia|].
  do 2 eexists; split; [reflexivity|]. unfold vwf; cbn [v_lvl v_num].
  pose proof (log2_sons (v_num d) H1). replace (v_num d * 2) with (2 * v_num d) by lia. lia.
Qed.

Lemma v_bipart_overflow w d : 2 <= w -> vwf d -> v_num d < 2 ^ (w - 1) -> 2 ^ (w - 1) <= 2 * v_num d + 1 ->
  archVDomBipart w d = Err 2.
Proof.
  intros Hw (H1 & H2) Hr Ho. unfold archVDomBipart. rewrite Z.shiftl_mul_pow2 by lia. change (2 ^ 1) with 2.
  assert (E : 2 ^ w = 2 * 2 ^ (w - 1)) by (rewrite <- Z.pow_succ_r by lia; f_equal; lia).
  assert (E' : 2 ^ (w - 1) = 2 * 2 ^ (w - 2)) by (rewrite <- Z.pow_succ_r by lia; f_equal; lia).
  rewrite !(swrap_neg w (v_num d * 2)) by lia.
  set (x := v_num d * 2 - 2 ^ w + 1).
  assert (Hx : - 2 ^ (w - 1) < x <= -1) by (unfold x; lia).
  assert (swrap w x = x).
  { unfold swrap. rewrite <- (Z.mod_add _ 1) by lia. rewrite Z.mod_small by lia.
    destruct (Z.ltb_spec (x + 1 * 2 ^ w) (2 ^ (w - 1))); lia. }
  rewrite H. destruct (Z.ltb_spec x (v_num d)); [auto|lia].
Qed.

Lemma v_incl d0 d1 : vwf d0 -> vwf d1 ->
  exists b, archVDomIncl d0 d1 = Ok b /\ (b = true <-> descends (v_num d0) (v_num d1)).
Proof.
  intros (H0 & L0) (H1 & L1). eexists; split; [reflexivity|]. rewrite descends_shift by auto.
  rewrite andb_true_iff, Z.leb_le, Z.eqb_eq, L0, L1.
  split; intros [A B]; split; auto; revert B; rewrite Z.shiftr_div_pow2 by lia; auto.
Qed.

Lemma v_incl_set d0 d1 : vwf d0 -> vwf d1 ->
  exists b, archVDomIncl d0 d1 = Ok b /\
    (b = true <-> forall m, 1 <= m -> descends (v_num d1) m -> descends (v_num d0) m).
Proof.
  intros H0 H1. destruct (v_incl d0 d1 H0 H1) as (b & E & Hb). exists b. split; [auto|]. rewrite Hb.
  destruct H0 as [H0 _], H1 as [H1 _]. split.
  - intros (k & Hk & D) m Hm (j & Hj & D'). exists (k + j). split; [lia|].
    rewrite Z.pow_add_r by lia. assert (0 < 2 ^ j) by (apply Z.pow_pos_nonneg; lia).
    assert (v_num d1 + 1 <= (v_num d0 + 1) * 2 ^ k) by lia. nia.
  - intros H. apply H; auto. now apply descends_refl.
Qed.

Lemma v_term t : 1 <= t -> exists d, archVDomTerm t = Ok d /\ vwf d /\ archVDomNum d = Ok t.
Proof.
  intros Ht. unfold archVDomTerm. destruct (Z.eqb_spec t (-1)); [lia|]. destruct (Z.eqb_spec t 0); [lia|].
  cbn [negb]. rewrite vlevel_spec by auto. cbn [bind]. eexists; split; [reflexivity|]. unfold vwf; cbn. auto.
Qed.

Lemma v_saveload imax : 9 <= imax -> saveload_ok vwf (fun d => v_num d <= imax) archVDomSave (archVDomLoad imax).
Proof.
  intros Hm d ws rest (H1 & H2) Hf Hw. unfold archVDomLoad, archVDomSave.
  rewrite <- app_assoc. rewrite intLoad_intSave; auto; try lia.
  2: { simpl. unfold digit_char; lia. }
  cbn [orerr bind]. rewrite vlevel_spec by auto. cbn [bind]. destruct d; cbn in *. now subst.
Qed.

Lemma vcmplt_dist d0 d1 : vwf d0 -> vwf d1 ->
  exists x, archVcmpltDomDist d0 d1 = Ok x /\ archVcmpltDomDist d1 d0 = Ok x /\ 0 <= x /\ (x = 0 <-> d0 = d1).
Proof.
  intros (H0 & L0) (H1 & L1). eexists; split; [reflexivity|]. unfold archVcmpltDomDist.
  rewrite (Z.eqb_sym (v_num d1)). split; [auto|]. destruct d0, d1; cbn in *. subst.
  destruct (Z.eqb_spec v_num v_num0).
  - subst. split; [lia|]. split; auto.
  - split; [lia|]. split; [lia|congruence].
Qed.

(** number of the ancestor of [n] at level [l] *)
Lemma vhcub_dist d0 d1 : vwf d0 -> vwf d1 ->
  let l := Z.min (v_lvl d0) (v_lvl d1) in
  archVhcubDomDist d0 d1 = Ok (hamming 0 l (v_num d0 / 2 ^ (v_lvl d0 - l)) (v_num d1 / 2 ^ (v_lvl d1 - l))
                               + Z.abs (v_lvl d0 - v_lvl d1) / 2).
Proof.
  intros (H0 & L0) (H1 & L1) l. unfold archVhcubDomDist.
  pose proof (Z.log2_nonneg (v_num d0)). pose proof (Z.log2_nonneg (v_num d1)).
  assert (G : forall x y k, 1 <= x -> 1 <= y -> 0 <= k -> Z.log2 x = l -> Z.log2 y = l ->
     vham (Z.lxor x y) (Z.shiftr k 1) = Ok (hamming 0 l x y + k / 2)).
  { intros x y k Hx Hy Hk Lx Ly. rewrite vham_spec by (apply Z.lxor_nonneg; lia).
    rewrite (hamming_log x y (l + 1)) by lia. rewrite Z.shiftr_div_pow2 by lia. change (2 ^ 1) with 2.
    f_equal. unfold hamming, zcount. rewrite zsum_snoc by (unfold l; lia).
    assert (T : forall z, 1 <= z -> Z.log2 z = l -> Z.testbit z l = true) by (intros z Hz <-; apply Z.bit_log2; lia).
    rewrite !T by auto. cbn [xorb b2z]. lia. }
  destruct (Z.ltb_spec (v_lvl d1) (v_lvl d0)).
  - assert (El : l = v_lvl d1) by (unfold l; lia).
    rewrite Z.shiftr_div_pow2 by lia.
    pose proof (log2_div (v_num d0) (v_lvl d0 - v_lvl d1) H0 ltac:(lia)).
    rewrite G by lia. rewrite El, Z.sub_diag. change (2 ^ 0) with 1. rewrite Z.div_1_r.
    do 2 f_equal. f_equal. lia.
  - assert (El : l = v_lvl d0) by (unfold l; lia).
    rewrite (Z.shiftr_div_pow2 (v_num d1)) by lia.
    pose proof (log2_div (v_num d1) (v_lvl d1 - v_lvl d0) H1 ltac:(lia)).
    rewrite G by lia. rewrite El, Z.sub_diag. change (2 ^ 0) with 1. rewrite Z.div_1_r.
    do 2 f_equal. f_equal. lia.
Qed.

Lemma vhcub_dist_sym : dist_sym vwf archVhcubDomDist.
Proof.
  intros d0 d1 H0 H1. pose proof (vhcub_dist d0 d1 H0 H1) as E0. pose proof (vhcub_dist d1 d0 H1 H0) as E1.
  cbv zeta in *. rewrite E0, E1. clear E0 E1. eexists; split; [reflexivity|]. split.
  - rewrite hamming_sym, Z.min_comm. do 3 f_equal. lia.
  - match goal with |- 0 <= hamming ?a ?b ?c ?d + ?e / 2 => pose proof (hamming_nonneg a b c d); pose proof (Z.div_pos e 2) end. lia.
Qed.
