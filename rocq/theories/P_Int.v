(** Proofs about M_Int. *)
From Verif Require Import Base M_Int S_Int.

Definition foldval (v : Z) (ds : list Z) : Z := fold_left (fun v c => v * 10 + (c - 48)) ds v.

Lemma foldval_ge v ds : 0 <= v -> Forall digit_char ds -> v <= foldval v ds.
Proof.
  revert v; induction ds as [|c ds IH]; intros v Hv Hf; simpl; [lia|].
  inversion Hf as [|? ? Hc Hf']; subst. unfold digit_char in Hc. unfold foldval in *; simpl.
  specialize (IH (v * 10 + (c - 48)) ltac:(lia) Hf'). lia.
Qed.

Definition nodigit_head (rest : list Z) : Prop :=
  match rest with [] => True | c :: _ => ~ digit_char c end.

Lemma isdigit_iff c : isdigit c = true <-> digit_char c.
Proof. unfold isdigit, digit_char; lia. Qed.
Lemma isspace_iff c : isspace c = true <-> blank_char c.
Proof. unfold isspace, blank_char; lia. Qed.

Lemma nodigit_head_cons c rest : nodigit_head (c :: rest) -> isdigit c = false.
Proof. simpl. intros H. destruct (isdigit c) eqn:E; auto. apply isdigit_iff in E. contradiction. Qed.

Lemma intLoadDigits_spec imax ds rest v :
  Forall digit_char ds -> nodigit_head rest -> 0 <= v <= imax ->
  intLoadDigits imax (ds ++ rest) v =
    if foldval v ds <=? imax then Ok (foldval v ds, rest) else UB.
Proof.
  revert v; induction ds as [|c ds IH]; intros v Hf Hr Hv.
  - simpl app. unfold foldval; simpl fold_left.
    replace (v <=? imax) with true by lia.
    destruct rest as [|c rest]; simpl; auto.
    now rewrite (nodigit_head_cons _ _ Hr).
  - inversion Hf as [|? ? Hc Hf']; subst. simpl app. simpl intLoadDigits.
    rewrite (proj2 (isdigit_iff c) Hc). unfold digit_char in Hc.
    assert (Hge : v * 10 + (c - 48) <= foldval v (c :: ds)).
    { unfold foldval; simpl. apply foldval_ge; auto; lia. }
    unfold ckint at 1. destruct (Z.leb_spec (v * 10) imax) as [H1|H1].
    + replace (- imax - 1 <=? v * 10) with true by lia. cbn [andb bind].
      unfold ckint. destruct (Z.leb_spec (v * 10 + (c - 48)) imax) as [H2|H2].
      * replace (- imax - 1 <=? v * 10 + (c - 48)) with true by lia. cbn [andb bind].
        rewrite IH by (auto; lia). reflexivity.
      * replace (foldval v (c :: ds) <=? imax) with false by lia.
        now rewrite andb_false_r.
    + replace (foldval v (c :: ds) <=? imax) with false by lia.
      now rewrite andb_false_r.
Qed.

Lemma intLoadTail_spec imax neg ds rest :
  9 <= imax -> Forall digit_char ds -> ds <> [] -> nodigit_head rest ->
  intLoadTail imax neg (ds ++ rest) =
    if decval ds <=? imax then Ok (litval neg ds, rest) else UB.
Proof.
  intros Hm Hf Hne Hr. destruct ds as [|c ds]; [congruence|].
  inversion Hf as [|? ? Hc Hf']; subst. simpl.
  rewrite (proj2 (isdigit_iff c) Hc). unfold digit_char in Hc.
  rewrite intLoadDigits_spec by (auto; lia).
  change (decval (c :: ds)) with (foldval (0 * 10 + (c - 48)) ds).
  replace (0 * 10 + (c - 48)) with (c - 48) by lia.
  unfold litval. change (decval (c :: ds)) with (foldval (0 * 10 + (c - 48)) ds).
  replace (0 * 10 + (c - 48)) with (c - 48) by lia.
  destruct (foldval (c - 48) ds <=? imax); auto.
Qed.

Lemma digits_split s : exists ds rest, s = ds ++ rest /\ Forall digit_char ds /\ nodigit_head rest.
Proof.
  induction s as [|c s (ds & rest & E & Hf & Hr)].
  - exists [], []; simpl; auto.
  - destruct (isdigit c) eqn:D.
    + exists (c :: ds), rest. split; [simpl; congruence|]. split; auto. constructor; auto. now apply isdigit_iff.
    + exists [], (c :: s). split; auto. split; auto. simpl. rewrite <- isdigit_iff. congruence.
Qed.

Lemma intLoad_literal imax s neg ds rest :
  9 <= imax -> literal s neg ds rest ->
  intLoad imax s = if decval ds <=? imax then Ok (litval neg ds, rest) else UB.
Proof.
  intros Hm (ws & sg & -> & Hws & Hsg & Hne & Hf & Hr).
  induction ws as [|w ws IH].
  - simpl. destruct ds as [|c ds]; [congruence|].
    inversion Hf as [|? ? Hc Hf']; subst. pose proof Hc as Hc'. unfold digit_char in Hc'.
    destruct Hsg as [[-> ->] | [[-> | ->] ->]].
    + exact (intLoadTail_spec imax true (c :: ds) rest Hm Hf Hne Hr).
    + exact (intLoadTail_spec imax false (c :: ds) rest Hm Hf Hne Hr).
    + simpl app. cbn [intLoad]. replace (isspace c) with false by (unfold isspace; lia).
      rewrite (proj2 (isdigit_iff c) Hc). change (c :: ds ++ rest) with ((c :: ds) ++ rest).
      apply intLoadTail_spec; auto.
  - inversion Hws as [|? ? Hw Hws']; subst. simpl app. cbn [intLoad].
    rewrite (proj2 (isspace_iff w) Hw). auto.
Qed.

Lemma intLoadTail_cases imax neg s :
  (exists ds rest, s = ds ++ rest /\ Forall digit_char ds /\ ds <> [] /\ nodigit_head rest) \/
  intLoadTail imax neg s = Err 0.
Proof.
  destruct (digits_split s) as (ds & rest & E & Hf & Hr).
  destruct ds as [|c ds].
  - right. simpl in E. subst rest. destruct s as [|c s]; simpl; auto.
    now rewrite (nodigit_head_cons _ _ Hr).
  - left. exists (c :: ds), rest. repeat split; auto. congruence.
Qed.

Lemma intLoad_cases imax s :
  (exists neg ds rest, literal s neg ds rest) \/ intLoad imax s = Err 0.
Proof.
  induction s as [|c s IH]; [auto|].
  cbn [intLoad]. destruct (isspace c) eqn:S.
  - destruct IH as [(neg & ds & rest & ws & sg & E & Hws & H)|]; auto.
    left. exists neg, ds, rest, (c :: ws), sg. split; [simpl; congruence|]. split; auto.
    constructor; auto. now apply isspace_iff.
  - destruct (isdigit c) eqn:D.
    + destruct (intLoadTail_cases imax false (c :: s)) as [(ds & rest & E & Hf & Hn & Hr)|]; auto.
      left. exists false, ds, rest, [], []. simpl. repeat split; auto.
    + destruct (Z.eqb_spec c 45) as [->|].
      * destruct (intLoadTail_cases imax true s) as [(ds & rest & E & Hf & Hn & Hr)|]; auto.
        left. exists true, ds, rest, [], [45]. simpl. repeat split; auto. congruence.
      * destruct (Z.eqb_spec c 43) as [->|]; auto.
        destruct (intLoadTail_cases imax false s) as [(ds & rest & E & Hf & Hn & Hr)|]; auto.
        left. exists false, ds, rest, [], [43]. simpl. repeat split; auto. congruence.
Qed.

Lemma intLoad_complete imax s :
  9 <= imax ->
  (forall v rest, intLoad imax s = Ok (v, rest) <->
     exists neg ds, literal s neg ds rest /\ v = litval neg ds /\ decval ds <= imax) /\
  (intLoad imax s = UB <-> exists neg ds rest, literal s neg ds rest /\ imax < decval ds) /\
  (intLoad imax s = Err 0 <-> ~ exists neg ds rest, literal s neg ds rest) /\
  intLoad imax s <> Fuel.
Proof.
  intros Hm.
  destruct (intLoad_cases imax s) as [(neg & ds & rest & HL)|HE].
  - pose proof (intLoad_literal imax s neg ds rest Hm HL) as E.
    repeat split.
    + rewrite E. destruct (Z.leb_spec (decval ds) imax); try discriminate.
      intros [= <- <-]; eauto.
    + intros (neg' & ds' & HL' & -> & Hle).
      rewrite (intLoad_literal _ _ _ _ _ Hm HL').
      now replace (decval ds' <=? imax) with true by lia.
    + rewrite E. destruct (Z.leb_spec (decval ds) imax); try discriminate. eauto.
    + intros (neg' & ds' & rest' & HL' & Hgt). rewrite (intLoad_literal _ _ _ _ _ Hm HL').
      now replace (decval ds' <=? imax) with false by lia.
    + rewrite E. destruct (decval ds <=? imax); discriminate.
    + intros H; exfalso; eauto.
    + rewrite E. destruct (decval ds <=? imax); discriminate.
  - repeat split.
    + rewrite HE; discriminate.
    + intros (neg' & ds' & HL' & -> & Hle). rewrite (intLoad_literal _ _ _ _ _ Hm HL') in HE.
      now replace (decval ds' <=? imax) with true in HE by lia.
    + rewrite HE; discriminate.
    + intros (neg' & ds' & rest' & HL' & Hgt). rewrite (intLoad_literal _ _ _ _ _ Hm HL') in HE.
      now replace (decval ds' <=? imax) with false in HE by lia.
    + intros _ (neg' & ds' & rest' & HL'). rewrite (intLoad_literal _ _ _ _ _ Hm HL') in HE.
      destruct (decval ds' <=? imax); discriminate.
    + auto.
    + rewrite HE; discriminate.
Qed.

(** ** Writing *)

Lemma decdigs_spec fuel n :
  0 <= n -> n < 2 ^ Z.of_nat fuel -> 
  Forall digit_char (decdigs fuel n) /\ (0 < Z.of_nat fuel -> decdigs fuel n <> []) /\ decval (decdigs fuel n) = n.
Proof.
  revert n; induction fuel as [|f IH]; intros n Hn Hlt.
  - simpl. change (2 ^ Z.of_nat 0) with 1 in Hlt. repeat split; auto; try lia. unfold decval; simpl; lia.
  - cbn [decdigs]. destruct (Z.ltb_spec n 10).
    + repeat split.
      * constructor; auto. unfold digit_char; lia.
      * congruence.
      * unfold decval; cbn [fold_left]; lia.
    + assert (Hd : 0 <= n / 10) by (apply Z.div_pos; lia).
      pose proof (Z.mod_pos_bound n 10 ltac:(lia)) as Hmod.
      pose proof (Z.div_mod n 10 ltac:(lia)) as Hdm.
      assert (Hd' : n / 10 < 2 ^ Z.of_nat f).
      { replace (Z.of_nat (S f)) with (1 + Z.of_nat f) in Hlt by lia.
        rewrite Z.pow_add_r in Hlt by lia. lia. }
      destruct (IH (n / 10) Hd Hd') as (H1 & H2 & H3).
      repeat split.
      * apply Forall_app; split; auto. constructor; auto. unfold digit_char; lia.
      * intros _. destruct (decdigs f (n / 10)); simpl; congruence.
      * unfold decval in *. rewrite fold_left_app, H3. cbn [fold_left]. lia.
Qed.

Lemma decnat_spec n : 0 <= n ->
  Forall digit_char (decnat n) /\ decnat n <> [] /\ decval (decnat n) = n.
Proof.
  intros Hn. unfold decnat.
  destruct (decdigs_spec (S (Z.to_nat (Z.log2 n))) n Hn) as (H1 & H2 & H3).
  - replace (Z.of_nat (S (Z.to_nat (Z.log2 n)))) with (Z.succ (Z.log2 n)) by (pose proof (Z.log2_nonneg n); lia).
    destruct (Z.eq_dec n 0) as [->|]; [reflexivity|]. apply Z.log2_spec; lia.
  - repeat split; auto. apply H2; lia.
Qed.

Lemma intSave_literal v rest :
  nodigit_head rest -> literal (intSave v ++ rest) (v <? 0) (decnat (Z.abs v)) rest.
Proof.
  intros Hr. unfold intSave. destruct (Z.ltb_spec v 0).
  - destruct (decnat_spec (- v) ltac:(lia)) as (H1 & H2 & H3).
    replace (Z.abs v) with (- v) by lia.
    exists [], [45]. simpl. repeat split; auto.
  - destruct (decnat_spec v ltac:(lia)) as (H1 & H2 & H3).
    replace (Z.abs v) with v by lia.
    exists [], []. simpl. repeat split; auto.
Qed.

Lemma literal_blanks ws s neg ds rest :
  Forall blank_char ws -> literal s neg ds rest -> literal (ws ++ s) neg ds rest.
Proof.
  intros Hw (ws' & sg & -> & Hws & H). exists (ws ++ ws'), sg.
  split; [now rewrite <- app_assoc|]. split; auto. apply Forall_app; auto.
Qed.

Lemma intLoad_intSave imax ws v rest :
  9 <= imax -> - imax <= v <= imax ->
  Forall blank_char ws -> nodigit_head rest ->
  intLoad imax (ws ++ intSave v ++ rest) = Ok (v, rest).
Proof.
  intros Hm Hv Hws Hr.
  rewrite (intLoad_literal imax _ _ _ _ Hm (literal_blanks _ _ _ _ _ Hws (intSave_literal v rest Hr))).
  destruct (decnat_spec (Z.abs v) ltac:(lia)) as (_ & _ & ->).
  replace (Z.abs v <=? imax) with true by lia.
  unfold litval. destruct (decnat_spec (Z.abs v) ltac:(lia)) as (_ & _ & ->).
  destruct (Z.ltb_spec v 0); do 2 f_equal; lia.
Qed.

Lemma intLoad_intSave_min imax ws rest :
  9 <= imax -> Forall blank_char ws -> nodigit_head rest ->
  intLoad imax (ws ++ intSave (- imax - 1) ++ rest) = UB.
Proof.
  intros Hm Hws Hr.
  rewrite (intLoad_literal imax _ _ _ _ Hm (literal_blanks _ _ _ _ _ Hws (intSave_literal _ rest Hr))).
  destruct (decnat_spec (Z.abs (- imax - 1)) ltac:(lia)) as (_ & _ & ->).
  now replace (Z.abs (- imax - 1) <=? imax) with false by lia.
Qed.

(** ** fscanf conversions *)

Lemma scanDigits_spec ds rest v :
  Forall digit_char ds -> nodigit_head rest -> scanDigits (ds ++ rest) v = (foldval v ds, rest).
Proof.
  revert v; induction ds as [|c ds IH]; intros v Hf Hr.
  - simpl. destruct rest as [|c rest]; simpl; auto.
    now rewrite (nodigit_head_cons _ _ Hr).
  - inversion Hf as [|? ? Hc Hf']; subst. simpl. rewrite (proj2 (isdigit_iff c) Hc). now rewrite IH.
Qed.

Lemma scanInt_literal s neg ds rest :
  literal s neg ds rest -> scanInt s = Ok (litval neg ds, rest).
Proof.
  intros (ws & sg & -> & Hws & Hsg & Hne & Hf & Hr).
  assert (T : forall neg, scanTail neg (ds ++ rest) = Ok (litval neg ds, rest)).
  { intros n. destruct ds as [|c ds]; [congruence|].
    pose proof (scanDigits_spec (c :: ds) rest 0 Hf Hr) as E.
    inversion Hf as [|? ? Hc Hf']; subst. change ((c :: ds) ++ rest) with (c :: (ds ++ rest)) in *. unfold scanTail. cbv beta iota.
    rewrite (proj2 (isdigit_iff c) Hc). rewrite E. reflexivity. }
  induction ws as [|w ws IH].
  - destruct Hsg as [[-> ->] | [[-> | ->] ->]].
    + apply (T true). + apply (T false).
    + destruct ds as [|c ds]; [congruence|].
      inversion Hf as [|? ? Hc Hf']; subst. pose proof Hc as Hc'. unfold digit_char in Hc'.
      cbn [app scanInt]. replace (isspace c) with false by (unfold isspace; lia).
      rewrite (proj2 (isdigit_iff c) Hc). apply (T false).
  - inversion Hws as [|? ? Hw Hws']; subst. simpl app. cbn [scanInt].
    rewrite (proj2 (isspace_iff w) Hw). auto.
Qed.

Lemma scanInt_intSave ws v rest :
  Forall blank_char ws -> nodigit_head rest -> scanInt (ws ++ intSave v ++ rest) = Ok (v, rest).
Proof.
  intros Hws Hr.
  rewrite (scanInt_literal _ _ _ _ (literal_blanks _ _ _ _ _ Hws (intSave_literal _ rest Hr))).
  unfold litval. destruct (decnat_spec (Z.abs v) ltac:(lia)) as (_ & _ & ->).
  destruct (Z.ltb_spec v 0); do 2 f_equal; lia.
Qed.

Lemma decnat_intSave n : 0 <= n -> decnat n = intSave n.
Proof. intros; unfold intSave. now replace (n <? 0) with false by lia. Qed.

Lemma scanU64_save ws v rest :
  0 <= v < 2 ^ 64 -> Forall blank_char ws -> nodigit_head rest ->
  scanU64 (ws ++ decnat v ++ rest) = Ok (v, rest).
Proof.
  intros Hv Hws Hr. unfold scanU64. rewrite decnat_intSave by lia.
  rewrite scanInt_intSave by auto. cbn [bind].
  replace (- 2 ^ 64 <? v) with true by lia. replace (v <? 2 ^ 64) with true by lia.
  simpl. unfold u64. now rewrite Z.mod_small by lia.
Qed.

Lemma blank1 c : isspace c = true -> Forall blank_char [c].
Proof. constructor; auto. now apply isspace_iff. Qed.

Lemma intRand_save_load imax r txt :
  9 <= imax -> rand_typed r -> intRandSave r = Ok txt ->
  forall rest, exists r' rest',
    intRandLoad imax (txt ++ rest) = Ok (r', rest') /\
    r_flag r' = 1 /\ r_proc r' = r_proc r /\ r_seed r' = r_seed r /\ r_s0 r' = r_s0 r /\ r_s1 r' = r_s1 r /\
    rest' = 10 :: rest.
Proof.
  intros Hm (Hp & Hs & H0 & H1). unfold intRandSave.
  destruct (r_flag r =? 0); try discriminate. intros [= <-] rest.
  exists (mkrand 1 (r_proc r) (r_seed r) (r_s0 r) (r_s1 r)), (10 :: rest).
  split; [|simpl; auto 10].
  unfold intRandLoad.
  replace ((49 :: 10 :: intSave (r_proc r) ++ 9 :: decnat (r_seed r) ++ 10 :: decnat (r_s0 r) ++ 9 :: decnat (r_s1 r) ++ [10]) ++ rest)
    with ([] ++ intSave 1 ++ ([10] ++ intSave (r_proc r) ++ ([9] ++ decnat (r_seed r) ++ ([10] ++ decnat (r_s0 r) ++ ([9] ++ decnat (r_s1 r) ++ 10 :: rest))))).
  2: { change (intSave 1) with [49]. cbn [app]. repeat rewrite <- app_assoc. cbn [app].
       repeat (f_equal; rewrite <- ?app_assoc; cbn [app]). }
  rewrite intLoad_intSave; auto; try lia.
  2: { simpl. unfold digit_char; lia. }
  cbn [orerr bind negb Z.eqb Pos.eqb].
  unfold scanD. rewrite scanInt_intSave; [|now apply blank1|simpl; unfold digit_char; lia].
  cbn [bind]. replace (- 2 ^ 31 <=? r_proc r) with true by lia. replace (r_proc r <? 2 ^ 31) with true by lia.
  cbn [andb orerr bind].
  rewrite scanU64_save; [|lia|now apply blank1|simpl; unfold digit_char; lia]. cbn [orerr bind].
  rewrite scanU64_save; [|lia|now apply blank1|simpl; unfold digit_char; lia]. cbn [orerr bind].
  rewrite scanU64_save; [|lia|now apply blank1|simpl; unfold digit_char; lia]. cbn [orerr bind].
  reflexivity.
Qed.
