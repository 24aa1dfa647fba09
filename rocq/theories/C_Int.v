(** Property theorems C01, C02, C05, C06, C07, C08, C37. *)
From Verif Require Import Base M_Int S_Int P_Int P_Rand.

(** C01: what intSave writes, intLoad reads back, for every value of the type
    except the most negative one; any blanks may precede, any non-digit may
    follow and is left in the stream.
    _partial: INT_MIN is excluded, see the next theorem. *)
Theorem C01_int_text_round_trip_partial :
  forall imax ws v rest,
    9 <= imax -> - imax <= v <= imax ->
    Forall blank_char ws ->
    (match rest with [] => True | c :: _ => ~ digit_char c end) ->
    intLoad imax (ws ++ intSave v ++ rest) = Ok (v, rest).
Proof. exact intLoad_intSave. Qed.
Print Assumptions C01_int_text_round_trip_partial.

Example C01_example : intLoad (2 ^ 31 - 1) ([32; 10] ++ intSave (-40213) ++ [9; 55]) = Ok (-40213, [9; 55]).
Proof. vm_compute. reflexivity. Qed.

(** C01, the full claim is false of the code: the magnitude of the most
    negative value overflows the signed accumulator. *)
Theorem C01_int_min_refuted :
  forall imax, 9 <= imax ->
    exists v rest, - imax - 1 <= v <= imax /\ intLoad imax (intSave v ++ rest) = UB.
Proof.
  intros imax H. exists (- imax - 1), [10]. split; [lia|].
  exact (intLoad_intSave_min imax [] [10] H (Forall_nil _) ltac:(simpl; unfold digit_char; lia)).
Qed.
Print Assumptions C01_int_min_refuted.

(** C02: complete description of the reader on every stream. *)
Theorem C02_int_reader_decodes_grammar :
  forall imax s, 9 <= imax ->
    (forall v rest, intLoad imax s = Ok (v, rest) <->
       exists neg ds, literal s neg ds rest /\ v = litval neg ds /\ decval ds <= imax) /\
    (intLoad imax s = UB <-> exists neg ds rest, literal s neg ds rest /\ imax < decval ds) /\
    (intLoad imax s = Err 0 <-> ~ exists neg ds rest, literal s neg ds rest) /\
    intLoad imax s <> Fuel.
Proof. exact intLoad_complete. Qed.
Print Assumptions C02_int_reader_decodes_grammar.

Example C02_example : literal [32; 45; 49; 50; 65] true [49; 50] [65].
Proof.
  exists [32], [45]. simpl. unfold blank_char, digit_char.
  repeat split; auto; try discriminate; try lia; repeat constructor; auto; lia.
Qed.

(** C05: intPerm permutes, for every generator state. *)
Theorem C05_intPerm_permutes :
  forall w t n r, 1 <= w -> zlen t = n -> n < 2 ^ w ->
    exists t' r', intPerm w t n r = Ok (t', r') /\ Permutation t t'.
Proof. exact intPerm_spec. Qed.
Print Assumptions C05_intPerm_permutes.

Example C05_example :
  exists r', intPerm 32 [10; 20; 30; 40; 50] 5 (intRandSeed 32 (mkrand 0 0 0 0 0) 7) = Ok ([40; 10; 30; 20; 50], r').
Proof. vm_compute. eexists. reflexivity. Qed.

(** intAscn fills the array with consecutive values. *)
Theorem C05_intAscn :
  forall t n b, 0 <= n -> zlen t = n -> intAscn t n b = Ok (zseq b n).
Proof. exact intAscn_spec. Qed.
Print Assumptions C05_intAscn.

(** C06: a reset after any history of draws replays the same context, hence the
    same future values for any further list of draws. *)
Theorem C06_reset_replays :
  forall w r ms vs r2, 0 <= w -> Forall (fun m => 0 < m) ms ->
    draws w (intRandReset w r) ms = Ok (vs, r2) ->
    forall ms', draws w (intRandReset w r2) ms' = draws w (intRandReset w r) ms'.
Proof.
  intros w r ms vs r2 Hw Hf E ms'.
  destruct (draws_total w (intRandReset w r) ms Hw Hf) as (vs0 & r0 & E0 & _ & _ & H1 & H2 & _).
  rewrite E in E0. injection E0 as <- <-.
  destruct (reset_fields w r) as (_ & F1 & F2).
  rewrite (reset_reset w r2 r) by congruence. reflexivity.
Qed.
Print Assumptions C06_reset_replays.

(** C06: setting the same seed gives the same stream whatever came before. *)
Theorem C06_seed_determines_stream :
  forall w r r' seed ms, r_proc r = r_proc r' ->
    draws w (intRandSeed w r seed) ms = draws w (intRandSeed w r' seed) ms.
Proof.
  intros w r r' seed ms E. unfold intRandSeed, intRandReset; cbn [r_seed r_proc]. now rewrite E.
Qed.
Print Assumptions C06_seed_determines_stream.

(** C06: once initialized, the state is never the absorbing zero state, for
    every seed, process number and history of draws. *)
Theorem C06_state_never_zero :
  forall w r ms vs r2, 1 <= w <= 64 -> Forall (fun m => 0 < m) ms ->
    draws w (intRandReset w r) ms = Ok (vs, r2) ->
    ~ (r_s0 r2 = 0 /\ r_s1 r2 = 0).
Proof.
  intros w r ms vs r2 Hw Hf E.
  destruct (draws_total w (intRandReset w r) ms ltac:(lia) Hf) as (vs0 & r0 & E0 & _ & _ & _ & _ & H).
  rewrite E in E0. injection E0 as <- <-. apply (H (reset_ok w r Hw)).
Qed.
Print Assumptions C06_state_never_zero.

(** C06: save then load gives back a context with the same future. *)
Theorem C06_save_load_round_trip :
  forall imax w r txt, 9 <= imax -> rand_typed r -> intRandSave r = Ok txt ->
    forall rest, exists r' rest',
      intRandLoad imax (txt ++ rest) = Ok (r', rest') /\
      (forall ms vs r1, draws w r ms = Ok (vs, r1) -> exists r1', draws w r' ms = Ok (vs, r1')) /\
      intRandReset w r' = intRandReset w r.
Proof.
  intros imax w r txt Hm Ht Es rest.
  destruct (intRand_save_load imax r txt Hm Ht Es rest) as (r' & rest' & E & F & P & S & S0 & S1 & _).
  exists r', rest'. split; auto. split.
  - clear - S0 S1. intros ms. revert r r' S0 S1. induction ms as [|m ms IH]; intros r r' S0 S1 vs r1.
    + simpl. intros [= <- <-]; eauto.
    + cbn [draws]. unfold intRandVal at 1 2, intRandVal3. rewrite S0, S1.
      destruct (m =? 0); [discriminate|]. cbn [bind].
      destruct (draws w (mkrand (r_flag r) _ _ _ _) ms) as [[vs' r'']| | |] eqn:E'; try discriminate.
      cbn [bind]. intros [= <- <-].
      eapply IH in E' as (r1' & ->); [|reflexivity|reflexivity]. cbn [bind]. eauto.
  - apply reset_reset; auto.
Qed.
Print Assumptions C06_save_load_round_trip.

Example C06_example :
  let r := snd (intRandVal3 64 (intRandSeed 64 (mkrand 0 3 0 0 0) (-5))) in
  rand_typed r /\ exists txt, intRandSave r = Ok txt /\ (zlen txt = 49).
Proof. vm_compute. repeat split; try discriminate. eexists; split; reflexivity. Qed.

(** C07: range of random values. *)
Theorem C07_random_in_range :
  forall w r m, 0 <= w -> 0 < m ->
    exists v r', intRandVal w r m = Ok (v, r') /\ 0 <= v < m.
Proof.
  intros w r m Hw Hm. destruct (intRandVal_spec w r m Hw Hm) as (v & E & H). eauto.
Qed.
Print Assumptions C07_random_in_range.

Example C07_example : exists r', intRandVal 32 (intRandSeed 32 (mkrand 0 0 0 0 0) 1) 10 = Ok (5, r').
Proof. vm_compute. eexists. reflexivity. Qed.

(** C08: greatest common divisor. *)
Theorem C08_intGcd :
  forall u v, 0 <= u -> 0 <= v ->
    exists g, intGcd u v = Ok g /\ 0 <= g /\ (g | u) /\ (g | v) /\ forall d, (d | u) -> (d | v) -> (d | g).
Proof.
  intros u v Hu Hv. exists (Z.gcd u v). rewrite intGcd_spec by auto.
  repeat split.
  - apply Z.gcd_nonneg. - apply Z.gcd_divide_l. - apply Z.gcd_divide_r.
  - apply Z.gcd_greatest.
Qed.
Print Assumptions C08_intGcd.

Example C08_example : intGcd 84 120 = Ok 12.
Proof. vm_compute. reflexivity. Qed.

(** C37: block distribution: sizes differ by at most one, blocks are
    contiguous from 0 to n, every item is in exactly one block. *)
Theorem C37_block_distribution :
  forall n p, 0 <= n -> 0 < p ->
    datascan n p 0 = 0 /\ datascan n p p = n /\
    (forall i, 0 <= i < p -> datascan n p (i + 1) = datascan n p i + datasize n p i) /\
    (forall i j, 0 <= i < p -> 0 <= j < p -> Z.abs (datasize n p i - datasize n p j) <= 1) /\
    (forall k, 0 <= k < n -> exists! i, 0 <= i < p /\ datascan n p i <= k < datascan n p i + datasize n p i).
Proof.
  intros n p Hn Hp. split; [now apply datascan_0|]. split; [now apply datascan_p|].
  split; [intros; now apply datascan_succ|]. split.
  - intros i j Hi Hj. pose proof (datasize_bounds n p i Hn Hp Hi). pose proof (datasize_bounds n p j Hn Hp Hj). lia.
  - intros; now apply datascan_cover.
Qed.
Print Assumptions C37_block_distribution.

Example C37_example : map (datasize 10 4) [0; 1; 2; 3] = [3; 3; 2; 2].
Proof. reflexivity. Qed.
