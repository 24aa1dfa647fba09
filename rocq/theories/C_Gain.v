(** Property C26: gain tables. *)
From Verif Require Import Base M_Gain S_Gain P_Gain P_Gain2.

(** Every history of additions, removals, searches, enumerations, flushes and
    relocations of the link array, on a linear table.  The outcomes are those of the
    list of (element, gain) pairs: nothing is undefined, the first element is
    the one of smallest bucket, and so on. *)
Theorem C26_history_linear :
  forall w gainmax subbits lb mem ops,
    gainmax < 1024 -> gvalid w (zlen mem) [] ops ->
    exists s s', gainTablInit w gainmax subbits lb mem = Ok s /\ grun s ops = Ok (s', gouts (linbk 2048) 2048 [] ops).
Proof.
  intros w gainmax subbits lb mem ops H V. destruct (init_lin w gainmax subbits lb mem H) as (s & E & Et & R).
  destruct (run_rep _ _ _ ops s [] R V) as (s' & E' & _). exists s, s'. rewrite Et in E'. auto.
Qed.
Print Assumptions C26_history_linear.

(** The same on a logarithmic table with [sb] sub-bits. *)
Theorem C26_history_logarithmic :
  forall w gainmax sb lb mem ops,
    1024 <= gainmax -> 0 <= sb <= 29 -> sb <= w - 2 -> w <= 64 -> (w - sb) * 2 ^ (sb + 1) < 2 ^ (w - 1) ->
    gvalid w (zlen mem) [] ops ->
    let n := (w - sb) * 2 ^ (sb + 1) in
    exists s s', gainTablInit w gainmax sb lb mem = Ok s /\ grun s ops = Ok (s', gouts (logbk n sb) n [] ops).
Proof.
  intros w gainmax sb lb mem ops H1 H2 H3 H4 H5 V n. destruct (init_log w gainmax sb lb mem H1 H2 H3 H4 H5) as (s & E & Et & R).
  destruct (run_rep _ _ _ ops s [] R V) as (s' & E' & _). exists s, s'. rewrite Et in E'. auto.
Qed.
Print Assumptions C26_history_logarithmic.

(** The buckets: increasing with the gain, within the table, exact for small gains;
    two gains share a bucket of a logarithmic table only if they are close. *)
Theorem C26_linear_buckets :
  (forall g, 0 <= linbk 2048 g < 2048) /\
  (forall g g', g <= g' -> linbk 2048 g <= linbk 2048 g') /\
  (forall g g', -1024 <= g <= 1023 -> -1024 <= g' <= 1023 -> linbk 2048 g = linbk 2048 g' -> g = g').
Proof.
  unfold linbk. change (2048 / 2) with 1024. repeat split; intros; lia.
Qed.
Print Assumptions C26_linear_buckets.

Theorem C26_logarithmic_buckets :
  forall w sb, 0 <= sb <= w - 2 ->
    let n := (w - sb) * 2 ^ (sb + 1) in
    let int g := - 2 ^ (w - 1) <= g < 2 ^ (w - 1) in
    (forall g, int g -> 0 <= logbk n sb g < n) /\
    (forall g g', g <= g' -> logbk n sb g <= logbk n sb g') /\
    (forall g, - 2 ^ (sb + 1) <= g < 2 ^ (sb + 1) -> logbk n sb g = n / 2 + g) /\
    (forall g g', 0 <= g <= g' -> logbk n sb g = logbk n sb g' -> (g' - g) * 2 ^ sb <= g) /\
    (forall g, logbk n sb (- 1 - g) = 2 * (n / 2) - 1 - logbk n sb g).
Proof.
  intros w sb Hs n int. assert (P2 := pow_pos sb ltac:(lia)).
  assert (Etot : n = ((w - sb) * 2 ^ sb) * 2) by (unfold n; rewrite Z.pow_add_r by lia; ring).
  assert (Eh : n / 2 = (w - sb) * 2 ^ sb) by (rewrite Etot; now rewrite Z.div_mul by lia).
  assert (NN : forall j, 0 <= j -> 0 <= logidx sb j).
  { intros j Hj. unfold logidx. assert (0 <= j / 2 ^ Z.max 0 (Z.log2 j - sb)) by (apply Z.div_pos; [lia | apply pow_pos; lia]). nia. }
  unfold logbk. rewrite Eh. repeat split.
  - unfold int in *. destruct (Z.leb_spec 0 g); [pose proof (logidx_range w sb g ltac:(lia) ltac:(lia)) | pose proof (logidx_range w sb (-1 - g) ltac:(lia) ltac:(lia))]; nia.
  - unfold int in *. destruct (Z.leb_spec 0 g); [pose proof (logidx_range w sb g ltac:(lia) ltac:(lia)) | pose proof (logidx_range w sb (-1 - g) ltac:(lia) ltac:(lia))]; nia.
  - intros g g' H. destruct (Z.leb_spec 0 g), (Z.leb_spec 0 g'); try lia.
    + pose proof (logidx_mono sb g g' ltac:(lia) ltac:(lia)). lia.
    + pose proof (NN g' ltac:(lia)). pose proof (NN (-1 - g) ltac:(lia)). lia.
    + pose proof (logidx_mono sb (-1 - g') (-1 - g) ltac:(lia) ltac:(lia)). lia.
  - intros g Hg. destruct (Z.leb_spec 0 g); rewrite logidx_small by lia; lia.
  - intros g g' Hg. destruct (Z.leb_spec 0 g), (Z.leb_spec 0 g'); try lia. intros E. apply logidx_close; lia.
  - intros g. destruct (Z.leb_spec 0 g), (Z.leb_spec 0 (-1 - g)); try lia.
    replace (-1 - (-1 - g)) with g by lia. lia.
Qed.
Print Assumptions C26_logarithmic_buckets.

(** What the enumeration yields.  If no element is in the last bucket, every
    element is visited once, by increasing bucket. *)
Theorem C26_enumeration :
  forall bk n t, 0 < n -> NoDup (elems t) -> (forall k g, In (k, g) t -> 0 <= bk g < n - 1) ->
    Permutation (visited bk n t) (elems t) /\
    forall l1 k k' l2 g g', visited bk n t = l1 ++ k :: k' :: l2 -> In (k, g) t -> In (k', g') t -> bk g <= bk g'.
Proof.
  intros bk n t Hn N B.
  assert (L : inbk bk t (n - 1) = []).
  { destruct (inbk bk t (n - 1)) as [|k l] eqn:E; [reflexivity|]. assert (H : In k (inbk bk t (n - 1))) by (rewrite E; now left).
    rewrite In_inbk in H. destruct H as (g & H & E'). specialize (B k g H). lia. }
  assert (V : visited bk n t = ordered bk (n - 1) t) by (unfold visited; destruct (ordered bk (n - 1) t) eqn:E; auto).
  rewrite V. split.
  - apply NoDup_Permutation; [now apply NoDup_ordered | auto |]. intros k. rewrite In_ordered. split.
    + intros (b & _ & H). rewrite In_inbk in H. destruct H as (g & H & _). apply (in_map fst) in H. exact H.
    + intros H. unfold elems in H. rewrite in_map_iff in H. destruct H as ([k' g] & E & H). cbn in E. subst k'. exists (bk g). split; [apply (B k g H)|].
      rewrite In_inbk. eauto.
  - intros l1 k k' l2 g g' E H1 H2.
    destruct (Z.leb_spec (bk g) (bk g')); [auto|]. exfalso. pose proof (B _ _ H1) as B1. pose proof (B _ _ H2) as B2.
    assert (K1 : In k (inbk bk t (bk g))) by (rewrite In_inbk; eauto).
    assert (K2 : In k' (inbk bk t (bk g'))) by (rewrite In_inbk; eauto).
    assert (Nd := NoDup_ordered bk (n - 1) t N).
    rewrite (ordered_split bk _ t (bk g)) in E by lia. set (A := ordered bk (bk g) t) in *.
    set (B0 := inbk bk t (bk g) ++ bylist bk t (zseq (bk g + 1) (n - 1 - bk g - 1))) in *.
    assert (I1 : In k' A) by (unfold A; rewrite In_ordered; exists (bk g'); split; [lia|auto]).
    assert (I2 : In k B0) by (unfold B0; rewrite in_app_iff; now left).
    rewrite (ordered_split bk _ t (bk g)) in Nd by lia. fold A B0 in Nd.
    (* k comes before k' in A ++ B0 although k is in B0 and k' in A *)
    assert (D : forall x, In x A -> In x B0 -> False).
    { intros x X1 X2. clear -Nd X1 X2. induction A as [|y A IH]; [easy|]. cbn [app] in Nd. inversion Nd as [|? ? N1 N2]; subst.
      destruct X1 as [->|X1]; [apply N1; rewrite in_app_iff; tauto | auto]. }
    clear -E Nd I1 I2 D. revert l1 E. induction A as [|y A IH]; intros l1 E; [easy|]. cbn [app] in *. destruct l1 as [|z l1]; cbn [app] in E.
    + injection E as -> E. apply (D k); [now left | auto].
    + injection E as -> E. inversion Nd as [|? ? N1 N2]; subst. destruct I1 as [->|I1].
      * apply N1. rewrite E. rewrite in_app_iff. cbn. tauto.
      * apply (IH N2 I1) with (l1 := l1); auto. intros x X1. apply D. now right.
Qed.
Print Assumptions C26_enumeration.

(** A concrete history that meets the hypotheses, on both kinds of tables. *)
Definition exmem : list glnk := repeat dflt 5.
Definition exops : list gop :=
  [GAdd 0 7; GAdd 1 (-3); GAdd 2 7; GFrst; GAdd 3 (-2000); GMove 900; GDel 1; GList; GNext 3; GNext 2; GFree; GFrst; GAdd 4 1; GList].
Example C26_example_valid : gvalid 32 (zlen exmem) [] exops.
Proof. cbn. change (zlen exmem) with 5. intuition lia. Qed.
Example C26_example_linear :
  (do s <- gainTablInit 32 100 2 500 exmem; do '(s, l) <- grun s exops; Ok l) =
  Ok [ODone; ODone; ODone; OLink (Some 1); ODone; ODone; ODone; OList [3; 2; 0]; OLink (Some 2); OLink (Some 0); ODone; OLink None; ODone; OList [4]].
Proof. vm_compute. reflexivity. Qed.
Example C26_example_logarithmic :
  (do s <- gainTablInit 32 5000 2 500 exmem; do '(s, l) <- grun s exops; Ok l) =
  Ok [ODone; ODone; ODone; OLink (Some 1); ODone; ODone; ODone; OList [3; 2; 0]; OLink (Some 2); OLink (Some 0); ODone; OLink None; ODone; OList [4]].
Proof. vm_compute. reflexivity. Qed.

(** The loop of gainTablNext stops before the last bucket: on a linear table, an element
    of gain 1023 or more, in the table, is not visited. *)
Theorem C26_last_bucket_refuted :
  exists ops k, gvalid 32 5 [] ops /\ In k (elems (gfinal [] ops)) /\
    exists s l, grun s (ops ++ [GList]) = Ok l /\ gainTablInit 32 1023 0 0 exmem = Ok s /\ ~ In k (match last (snd l) ODone with OList l => l | _ => [] end).
Proof.
  exists [GAdd 0 5; GAdd 1 1023], 1. split; [|split].
  - cbn [gvalid gpre gpost elems map fst In]. change (2 ^ (32 - 1)) with 2147483648. intuition lia.
  - cbn. tauto.
  - destruct (gainTablInit 32 1023 0 0 exmem) as [s| | |] eqn:E; try (vm_compute in E; discriminate).
    destruct (grun s ([GAdd 0 5; GAdd 1 1023] ++ [GList])) as [l| | |] eqn:E2.
    + exists s, l. split; [exact E2|]. split; [reflexivity|].
      assert (E3 : (do s <- gainTablInit 32 1023 0 0 exmem; do l <- grun s ([GAdd 0 5; GAdd 1 1023] ++ [GList]); Ok (last (snd l) ODone)) = Ok (OList [0])) by (vm_compute; reflexivity).
      rewrite E in E3. cbn [bind] in E3. rewrite E2 in E3. cbn [bind] in E3. injection E3 as E3. rewrite E3. intros [H|H]; [discriminate | easy].
    + exfalso. assert (E3 : (do s <- gainTablInit 32 1023 0 0 exmem; grun s ([GAdd 0 5; GAdd 1 1023] ++ [GList])) <> Err e) by (vm_compute; discriminate). rewrite E in E3. apply E3. exact E2.
    + exfalso. assert (E3 : (do s <- gainTablInit 32 1023 0 0 exmem; grun s ([GAdd 0 5; GAdd 1 1023] ++ [GList])) <> UB) by (vm_compute; discriminate). rewrite E in E3. apply E3. exact E2.
    + exfalso. assert (E3 : (do s <- gainTablInit 32 1023 0 0 exmem; grun s ([GAdd 0 5; GAdd 1 1023] ++ [GList])) <> Fuel) by (vm_compute; discriminate). rewrite E in E3. apply E3. exact E2.
Qed.
Print Assumptions C26_last_bucket_refuted.

(** The emptiness test answers yes on a table whose only element is in the
    last bucket. *)
Theorem C26_empty_refuted :
  exists s s', gainTablInit 32 1023 0 0 exmem = Ok s /\ gainTablAdd s 0 1023 = Ok s' /\ gainTablEmpty s' = true.
Proof.
  assert (E : exists s, gainTablInit 32 1023 0 0 exmem = Ok s /\ exists s', gainTablAdd s 0 1023 = Ok s' /\ gainTablEmpty s' = true).
  { eexists. split; [vm_compute; reflexivity|]. eexists. split; [vm_compute; reflexivity|]. vm_compute. reflexivity. }
  destruct E as (s & E & s' & E' & H). eauto.
Qed.
Print Assumptions C26_empty_refuted.
