(** Proofs about the generator, intPerm, intAscn, intGcd and the distribution
    macros of M_Int. *)
From Verif Require Import Base M_Int S_Int P_Int.

(** ** Bit-level facts *)

Lemma bits_bound n a : 0 <= n -> 0 <= a -> (forall k, n <= k -> Z.testbit a k = false) -> a < 2 ^ n.
Proof.
  intros Hn Ha Hk. destruct (Z.eq_dec a 0) as [->|Hne]; [apply Z.pow_pos_nonneg; lia|].
  apply Z.log2_lt_pow2; [lia|].
  destruct (Z.lt_ge_cases (Z.log2 a) n); auto.
  specialize (Hk (Z.log2 a) ltac:(lia)). rewrite Z.bit_log2 in Hk by lia. discriminate.
Qed.

Lemma bound_bits n a k : 0 <= a < 2 ^ n -> n <= k -> Z.testbit a k = false.
Proof.
  intros Ha Hk. destruct (Z.eq_dec a 0) as [->|Hne]; [apply Z.bits_0|].
  apply Z.bits_above_log2; [lia|].
  assert (Z.log2 a < n); [|lia]. apply Z.log2_lt_pow2; lia.
Qed.

Lemma lxor_bound n a b : 0 <= n -> 0 <= a < 2 ^ n -> 0 <= b < 2 ^ n -> 0 <= Z.lxor a b < 2 ^ n.
Proof.
  intros Hn Ha Hb. assert (0 <= Z.lxor a b) by (apply Z.lxor_nonneg; lia).
  split; auto. apply bits_bound; auto. intros k Hk.
  rewrite Z.lxor_spec, (bound_bits n a), (bound_bits n b); auto.
Qed.

Lemma lor_bound n a b : 0 <= n -> 0 <= a < 2 ^ n -> 0 <= b < 2 ^ n -> 0 <= Z.lor a b < 2 ^ n.
Proof.
  intros Hn Ha Hb. assert (0 <= Z.lor a b) by (apply Z.lor_nonneg; lia).
  split; auto. apply bits_bound; auto. intros k Hk.
  rewrite Z.lor_spec, (bound_bits n a), (bound_bits n b); auto.
Qed.

Lemma u64_bound x : 0 <= u64 x < 2 ^ 64.
Proof. unfold u64. apply Z.mod_pos_bound. lia. Qed.

Lemma shiftr_bound n a k : 0 <= n -> 0 <= k -> 0 <= a < 2 ^ n -> 0 <= Z.shiftr a k < 2 ^ n.
Proof.
  intros Hn Hk Ha. rewrite Z.shiftr_div_pow2 by lia.
  assert (0 < 2 ^ k) by (apply Z.pow_pos_nonneg; lia).
  split; [apply Z.div_pos; lia|]. apply Z.le_lt_trans with a; [|lia].
  apply Z.div_le_upper_bound; nia.
Qed.

Lemma u64_shiftl_bit x s k : 0 <= s -> 0 <= k -> Z.testbit (u64 (Z.shiftl x s)) k = (k <? 64) && Z.testbit x (k - s).
Proof.
  intros Hs Hk. unfold u64. destruct (Z.ltb_spec k 64).
  - rewrite Z.mod_pow2_bits_low by lia. now rewrite Z.shiftl_spec by lia.
  - now rewrite Z.mod_pow2_bits_high by lia.
Qed.

(** x ^ (x << s) is zero only for x = 0 *)
Lemma xorshl_nonzero x s : 0 < s -> 0 <= x < 2 ^ 64 -> Z.lxor x (u64 (Z.shiftl x s)) = 0 -> x = 0.
Proof.
  intros Hs Hx E. apply Z.lxor_eq in E.
  assert (B : forall n k, k < n -> Z.testbit x k = false).
  { intros n. destruct (Z.le_gt_cases n 0) as [|Hn].
    - intros. now apply Z.testbit_neg_r; lia.
    - assert (Hn' : 0 <= n) by lia. revert n Hn' Hn.
      apply (zrange_ind (fun n => 0 < n -> forall k, k < n -> Z.testbit x k = false)); [lia|].
      intros n Hn IH _ k Hk.
      destruct (Z.lt_ge_cases k 0); [now apply Z.testbit_neg_r|].
      rewrite E, u64_shiftl_bit by lia.
      destruct (Z.ltb_spec k 64); auto. simpl.
      destruct (Z.lt_ge_cases (k - s) 0); [now apply Z.testbit_neg_r|].
      apply IH; lia. }
  apply Z.bits_inj_0. intros k. apply (B (k + 1)); lia.
Qed.

(** x ^ (x >> s) is zero only for x = 0 *)
Lemma xorshr_nonzero x s : 0 < s -> 0 <= x < 2 ^ 64 -> Z.lxor x (Z.shiftr x s) = 0 -> x = 0.
Proof.
  intros Hs Hx E. apply Z.lxor_eq in E.
  assert (B : forall m, 0 <= m -> forall k, 64 - m <= k -> Z.testbit x k = false).
  { apply (zrange_ind (fun m => forall k, 64 - m <= k -> Z.testbit x k = false)).
    - intros k Hk. apply (bound_bits 64); lia.
    - intros m Hm IH k Hk.
      destruct (Z.lt_ge_cases k 0); [now apply Z.testbit_neg_r|].
      rewrite E, Z.shiftr_spec by lia. apply IH; lia. }
  apply Z.bits_inj_0. intros k.
  destruct (Z.lt_ge_cases k 0); [now apply Z.testbit_neg_r|].
  apply (B 64); lia.
Qed.

(** ** State invariants *)

Definition state_ok (r : randctx) : Prop :=
  0 <= r_s0 r < 2 ^ 64 /\ 0 <= r_s1 r < 2 ^ 64 /\ ~ (r_s0 r = 0 /\ r_s1 r = 0).

Lemma seed2_ok w v : 1 <= w <= 64 ->
  let '(a, b) := intRandSeed2 w v in 0 <= a < 2 ^ 64 /\ 0 <= b < 2 ^ 64 /\ ~ (a = 0 /\ b = 0).
Proof.
  intros Hw. unfold intRandSeed2.
  assert (Hv : 0 <= uintw w v < 2 ^ 64).
  { unfold uintw. assert (0 < 2 ^ w) by (apply Z.pow_pos_nonneg; lia).
    pose proof (Z.mod_pos_bound v (2 ^ w) ltac:(lia)).
    assert (2 ^ w <= 2 ^ 64) by (apply Z.pow_le_mono_r; lia). lia. }
  set (s := Z.lor (uintw w v) 1).
  assert (Hs : 0 <= s < 2 ^ 64) by (apply lor_bound; lia).
  assert (Hs0 : s <> 0).
  { intros E. assert (Z.testbit s 0 = true); [|rewrite E in *; discriminate].
    unfold s. rewrite Z.lor_spec. now rewrite orb_true_r. }
  split; [apply lxor_bound; [lia|lia|apply u64_bound]|].
  split; [apply lxor_bound; [lia|lia|apply u64_bound]|].
  intros [E _]. apply xorshl_nonzero in E; lia.
Qed.

Lemma reset_ok w r : 1 <= w <= 64 -> state_ok (intRandReset w r).
Proof.
  intros Hw. unfold intRandReset.
  pose proof (seed2_ok w (u64 (Z.lor (u64 (r_seed r)) 1 * u64 (u64 (r_proc r) + 1))) Hw) as H.
  destruct (intRandSeed2 w _) as [a b]. exact H.
Qed.

Lemma val3_ok w r : state_ok r -> state_ok (snd (intRandVal3 w r)).
Proof.
  intros (H0 & H1 & Hn). unfold intRandVal3, state_ok; cbn [snd r_s0 r_s1].
  set (x := r_s0 r) in *. set (y := r_s1 r) in *.
  set (x1 := Z.lxor x (u64 (Z.shiftl x 23))).
  assert (Hx1 : 0 <= x1 < 2 ^ 64) by (apply lxor_bound; [lia|lia|apply u64_bound]).
  split; [auto|split].
  - apply lxor_bound; [lia| |apply shiftr_bound; lia].
    apply lxor_bound; [lia| |apply shiftr_bound; lia].
    apply lxor_bound; lia.
  - intros [Hy E]. rewrite Hy in E.
    rewrite Z.shiftr_0_l, Z.lxor_0_r, Z.lxor_0_r in E.
    apply xorshr_nonzero in E; [|lia|lia].
    apply xorshl_nonzero in E; lia.
Qed.

Lemma val3_fields w r : let r' := snd (intRandVal3 w r) in
  r_flag r' = r_flag r /\ r_proc r' = r_proc r /\ r_seed r' = r_seed r.
Proof. simpl; auto. Qed.

Lemma val3_nonneg w r : 0 <= w -> 0 <= fst (intRandVal3 w r) < 2 ^ w.
Proof.
  intros; unfold intRandVal3; cbn [fst]. unfold uintw. apply Z.mod_pos_bound.
  apply Z.pow_pos_nonneg; lia.
Qed.

Lemma intRandVal_spec w r m : 0 <= w -> 0 < m ->
  exists v, intRandVal w r m = Ok (v, snd (intRandVal3 w r)) /\ 0 <= v < m.
Proof.
  intros Hw Hm. unfold intRandVal. pose proof (val3_nonneg w r Hw) as Hv.
  destruct (intRandVal3 w r) as [v r'] eqn:E. replace (m =? 0) with false by lia.
  exists (v mod m). split; auto. apply Z.mod_pos_bound; lia.
Qed.

Lemma draws_total w r ms : 0 <= w -> Forall (fun m => 0 < m) ms ->
  exists vs r', draws w r ms = Ok (vs, r') /\ Forall2 (fun v m => 0 <= v < m) vs ms /\
    r_flag r' = r_flag r /\ r_proc r' = r_proc r /\ r_seed r' = r_seed r /\ (state_ok r -> state_ok r').
Proof.
  intros Hw. revert r; induction ms as [|m ms IH]; intros r Hf.
  - exists [], r; simpl; auto 10.
  - inversion Hf as [|? ? Hm Hf']; subst.
    destruct (intRandVal_spec w r m Hw Hm) as (v & E & Hv).
    destruct (IH (snd (intRandVal3 w r)) Hf') as (vs & r' & E' & HF & H1 & H2 & H3 & H4).
    exists (v :: vs), r'. simpl draws. rewrite E. cbn [bind]. rewrite E'. cbn [bind].
    split; auto. split; [constructor; auto|].
    destruct (val3_fields w r) as (F1 & F2 & F3).
    repeat split; try congruence.
    all: intros; apply H4, val3_ok; auto.
Qed.

Lemma reset_reset w r r' : r_proc r = r_proc r' -> r_seed r = r_seed r' -> intRandReset w r = intRandReset w r'.
Proof. intros E1 E2. unfold intRandReset. now rewrite E1, E2. Qed.

Lemma reset_fields w r : let r' := intRandReset w r in
  r_flag r' = 1 /\ r_proc r' = r_proc r /\ r_seed r' = r_seed r.
Proof. unfold intRandReset. destruct (intRandSeed2 w _). simpl; auto. Qed.

(** ** intPerm *)

Lemma intPerm_spec w t n r :
  1 <= w -> zlen t = n -> n < 2 ^ w ->
  exists t' r', intPerm w t n r = Ok (t', r') /\ Permutation t t'.
Proof.
  intros Hw Hl Hn. unfold intPerm.
  pose proof (zlen_nonneg t).
  unfold uintw. rewrite (Z.mod_small n) by lia.
  assert (W : wp (for_ 0 n (fun k '(t, r) =>
    do '(permnum, r') <- intRandVal w r (n - k);
    do permtmp <- rd 0 t k;
    do x <- rd 0 t (k + permnum);
    do t1 <- wr 0 t k x;
    do t2 <- wr 0 t1 (k + permnum) permtmp;
    Ok (t2, r')) (t, r)) (fun '(t', _) => Permutation t t') noerr).
  { apply wp_for with (I := fun _ '(t', _) => Permutation t t' /\ zlen t' = n); auto; try lia.
    - intros k [t1 r1] Hk [HP HL].
      destruct (intRandVal_spec w r1 (n - k)) as (v & E & Hv); try lia.
      rewrite E. cbn [bind]. rewrite !rd_ok by lia. cbn [bind].
      rewrite wr_ok by lia. cbn [bind]. rewrite wr_ok by (rewrite zlen_upd; lia). cbn [bind wp].
      change (upd 0 (upd 0 t1 k (at_ 0 t1 (k + v))) (k + v) (at_ 0 t1 k)) with (swp 0 t1 k (k + v)).
      split; [|now rewrite zlen_swp].
      etransitivity; [apply HP|]. apply Permutation_swp; lia.
    - intros [t' r'] [HP _]; auto. }
  apply wp_ok_inv in W as ([t' r'] & E & HP). eauto.
Qed.

Lemma intAscn_spec t n b : 0 <= n -> zlen t = n -> intAscn t n b = Ok (zseq b n).
Proof.
  intros Hn Hl. unfold intAscn.
  assert (W : wp (for_ b (b + n) (fun permnum t => wr b t permnum permnum) t)
     (fun t' => t' = zseq b n) noerr).
  { apply wp_for with (I := fun i t' => zlen t' = n /\ forall k, b <= k < i -> at_ b t' k = k); try lia.
    - split; auto; lia.
    - intros i t1 Hi [H1 H2]. apply wp_wr; [lia|]. rewrite zlen_upd. split; auto.
      intros k Hk. rewrite at_upd by lia. destruct (Z.eqb_spec i k); auto. apply H2; lia.
    - intros t' [H1 H2]. apply (at_ext b); [rewrite zlen_zseq; lia|].
      intros i Hi. rewrite at_zseq by lia. rewrite H2 by lia. lia. }
  apply wp_ok_inv in W as (t' & E & ->). auto.
Qed.

(** ** intGcd *)

Lemma intGcd_spec u v : 0 <= u -> 0 <= v -> intGcd u v = Ok (Z.gcd u v).
Proof.
  intros Hu Hv. unfold intGcd.
  assert (G : forall f u0 v0, 0 <= u0 -> 0 <= v0 -> v0 < Z.of_nat f ->
    loop f (fun '(u, v) => if negb (v =? 0) then Ok (inl (v, Z.rem u v)) else Ok (inr u)) (u0, v0)
      = Ok (Z.gcd u0 v0)).
  { induction f; intros u0 v0 H1 H2 H3; [lia|]. cbn [loop].
    destruct (Z.eqb_spec v0 0) as [->|Hne]; cbn [negb bind].
    - rewrite Z.gcd_0_r. now rewrite Z.abs_eq by lia.
    - pose proof (Z.rem_bound_pos u0 v0 H1 ltac:(lia)). rewrite IHf by lia.
      rewrite Z.rem_mod_nonneg by lia. rewrite Z.gcd_comm, Z.gcd_mod by lia. now rewrite Z.gcd_comm. }
  destruct (Z.ltb_spec v u).
  - rewrite G by lia. now rewrite Z.gcd_comm.
  - rewrite G by lia. auto.
Qed.

(** ** DATASIZE / DATASCAN *)

Lemma datascan_succ n p i : 0 <= n -> 0 < p -> 0 <= i < p ->
  datascan n p (i + 1) = datascan n p i + datasize n p i.
Proof.
  intros Hn Hp Hi. unfold datascan, datasize.
  rewrite !Z.quot_div_nonneg by lia. rewrite Z.rem_mod_nonneg by lia.
  pose proof (Z.div_mod n p ltac:(lia)) as D. pose proof (Z.mod_pos_bound n p ltac:(lia)) as B.
  assert (E : (n + (p - 1 - i)) / p = n / p + (if i <? n mod p then 1 else 0)).
  { symmetry. apply Z.div_unique with
      (r := n mod p + (p - 1 - i) - (if i <? n mod p then p else 0)).
    - left. destruct (Z.ltb_spec i (n mod p)); lia.
    - destruct (Z.ltb_spec i (n mod p)); nia. }
  rewrite E. destruct (Z.ltb_spec (n mod p) (i + 1)), (Z.ltb_spec (n mod p) i), (Z.ltb_spec i (n mod p)); lia.
Qed.

Lemma datasize_bounds n p i : 0 <= n -> 0 < p -> 0 <= i < p ->
  n / p <= datasize n p i <= n / p + 1.
Proof.
  intros Hn Hp Hi. unfold datasize. rewrite Z.quot_div_nonneg by lia.
  split.
  - apply Z.div_le_mono; lia.
  - replace (n / p + 1) with ((n + 1 * p) / p) by (rewrite Z.div_add; lia). apply Z.div_le_mono; lia.
Qed.

Lemma datascan_0 n p : 0 <= n -> 0 < p -> datascan n p 0 = 0.
Proof.
  intros. unfold datascan. pose proof (Z.rem_bound_pos n p ltac:(lia) ltac:(lia)).
  destruct (Z.ltb_spec (Z.rem n p) 0); lia.
Qed.

Lemma datascan_p n p : 0 <= n -> 0 < p -> datascan n p p = n.
Proof.
  intros. unfold datascan. pose proof (Z.rem_bound_pos n p ltac:(lia) ltac:(lia)).
  replace (Z.rem n p <? p) with true by lia. pose proof (Z.quot_rem n p ltac:(lia)). lia.
Qed.

Lemma datascan_mono n p i j : 0 <= n -> 0 < p -> 0 <= i <= j -> j <= p -> datascan n p i <= datascan n p j.
Proof.
  intros Hn Hp [Hi Hij]. revert j Hij.
  apply (zrange_ind (fun j => j <= p -> datascan n p i <= datascan n p j)); [lia|].
  intros j Hj IH Hjp. rewrite datascan_succ by lia.
  pose proof (datasize_bounds n p j). assert (0 <= n / p) by (apply Z.div_pos; lia). lia.
Qed.

(** Every item belongs to exactly one block. *)
Lemma datascan_cover n p k : 0 <= n -> 0 < p -> 0 <= k < n ->
  exists! i, 0 <= i < p /\ datascan n p i <= k < datascan n p i + datasize n p i.
Proof.
  intros Hn Hp Hk.
  assert (Ex : forall q, 0 <= q -> q <= p -> k < datascan n p q ->
     exists i, 0 <= i < q /\ datascan n p i <= k < datascan n p i + datasize n p i).
  { apply (zrange_ind (fun q => q <= p -> k < datascan n p q ->
     exists i, 0 <= i < q /\ datascan n p i <= k < datascan n p i + datasize n p i)).
    - rewrite datascan_0 by lia. lia.
    - intros q Hq IH Hqp Hlt. destruct (Z.lt_ge_cases k (datascan n p q)).
      + destruct IH as (i & Hi & H1); try lia. exists i; split; auto; lia.
      + exists q. rewrite datascan_succ in Hlt by lia. split; lia. }
  destruct (Ex p) as (i & Hi & H1); try lia. { rewrite datascan_p; lia. }
  exists i. split; auto.
  intros j (Hj & H2).
  destruct (Z.lt_trichotomy i j) as [L|[L|L]]; auto.
  - pose proof (datascan_mono n p (i + 1) j). rewrite datascan_succ in H by lia. lia.
  - pose proof (datascan_mono n p (j + 1) i). rewrite datascan_succ in H by lia. lia.
Qed.
