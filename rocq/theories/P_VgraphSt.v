(** Proofs about vertex separation strategies. *)
From Verif Require Import Base Mem M_Graph M_Vgraph M_VgraphSt S_Graph S_Vgraph S_VgraphSt P_Graph P_Vgraph P_Vgraph2.

Definition vset (x : Z) (g : vgraph) : vgraph :=
  mkvgraph (setsum x (vs g)) (vpart g) (vfron g) (vfronnbr g) (vcsz0 g) (vcsz1 g) (vcld0 g) (vcld1 g) (vcld2 g) (vdlt g) (vdw0 g) (vdw1 g).
Lemma readable_set x s : graph_readable s -> graph_readable (setsum x s).
Proof. intros [A]. constructor; auto. Qed.
Lemma vreadable_set x g : vg_readable g -> vg_readable (vset x g).
Proof. intros [A B C D E]. constructor; auto. now apply readable_set. Qed.
Lemma counts_set x g : vg_counts g -> vg_counts (vset x g).
Proof. intros [A B C D E F G]. constructor; auto. Qed.

Lemma vupto_sum s : valid_upto_sum s -> velosum s = zsum (baseval s) (vertnnd s) (velo s).
Proof. intros (x & V). apply (gv_velosum _ V). Qed.
Lemma vupto_struct s : valid_upto_sum s -> vg_struct s.
Proof.
  intros (x & V). constructor.
  - intros v Hv. pose proof (gv_range _ V v Hv) as H. change (vert (setsum x s) v) with (vert s v) in H. change (vend (setsum x s) v) with (vend s v) in H. change (baseval (setsum x s)) with (baseval s) in H. lia.
  - intros v e Ha. apply (gv_end _ V v e Ha).
Qed.

Lemma psize_all g : vg_readable g -> (forall v, isvert (vs g) v -> 0 <= part g v <= 2) -> psize g 0 + psize g 1 + psize g 2 = vertnbr (vs g).
Proof.
  intros R C. pose proof (vr_nnd _ R) as (N1 & N2).
  unfold psize. replace (vertnbr (vs g)) with (zcount (baseval (vs g)) (vertnnd (vs g)) (fun _ => true)) by (rewrite zcount_all by (auto; lia); lia).
  unfold zcount. rewrite <- !zsum_add. apply zsum_ext. intros v Hv. pose proof (C v Hv).
  destruct (Z.eqb_spec (part g v) 0), (Z.eqb_spec (part g v) 1), (Z.eqb_spec (part g v) 2); cbn [b2z]; lia.
Qed.

Lemma pload_all g : valid_upto_sum (vs g) -> (forall v, isvert (vs g) v -> 0 <= part g v <= 2) -> pload g 0 + pload g 1 + pload g 2 = velosum (vs g).
Proof.
  intros V Hp. rewrite (vupto_sum _ V). unfold pload. rewrite <- !zsum_add. apply zsum_ext. intros v Hv. specialize (Hp v Hv).
  destruct (Z.eqb_spec (part g v) 0), (Z.eqb_spec (part g v) 1), (Z.eqb_spec (part g v) 2); lia.
Qed.

Lemma vstate_sums g : vstate g -> 0 <= vfronnbr g <= vertnbr (vs g) /\ vcsz0 g + vcsz1 g + vfronnbr g = vertnbr (vs g) /\
  vcld0 g + vcld1 g + vcld2 g = velosum (vs g).
Proof.
  intros [V B R D C F S]. pose proof (vr_nnd _ R) as (N1 & N2). destruct (fron_exact_counted g N1 N2 F) as (Fc & _).
  pose proof (psize_all g R (vc_part _ C)) as Sz. pose proof (pload_all g V (vc_part _ C)) as Ld. destruct C as [C1 C2 C3 C4 C5 C6 C7].
  assert (forall p, 0 <= psize g p) by (intros; apply zcount_nonneg). pose proof (H 0). pose proof (H 1). pose proof (H 2). lia.
Qed.

Lemma vsame_refl g : vsame g g. Proof. constructor; reflexivity. Qed.
Lemma vsame_trans a b c : vsame a b -> vsame b c -> vsame a c.
Proof. intros [] []. constructor; congruence. Qed.
Lemma vsame_sym a b : vsame a b -> vsame b a.
Proof. intros []. constructor; congruence. Qed.
Lemma vequiv_refl g : vequiv g g.
Proof. constructor; auto using vsame_refl. Qed.

Lemma vequiv_state g h : vequiv g h -> vstate g -> vstate h.
Proof.
  intros [Sm P Nb Fr E0 E1 L0 L1 L2 Dl] [V B R D C F S]. destruct Sm as [Sg Sw0 Sw1 Sp Sf].
  assert (Hsz : forall p, psize h p = psize g p).
  { intros p. unfold psize. rewrite Sg. apply zsum_ext. intros v Hv. rewrite P by exact Hv. reflexivity. }
  assert (Hld : forall p, pload h p = pload g p).
  { intros p. unfold pload. rewrite Sg. apply zsum_ext. intros v Hv. rewrite P by exact Hv. reflexivity. }
  constructor.
  - now rewrite Sg.
  - now rewrite Sg.
  - destruct R as [R1 R2 R3 R4 R5]. constructor; rewrite ?Sg; auto; try lia; intros v Hv; rewrite P by auto; auto.
  - rewrite Sw0, Sw1. exact D.
  - destruct C as [C1 C2 C3 C4 C5 C6 C7]. constructor; rewrite ?Hsz, ?Hld; try congruence. intros v Hv. rewrite Sg in Hv. rewrite P by auto. auto.
  - destruct F as (F0 & F1 & F2 & F3). unfold fron_exact. rewrite Nb, Sg. split; [auto|]. split; [|split].
    + intros i Hi. rewrite Fr by auto. destruct (F1 i Hi). split; [auto|]. rewrite P; auto.
    + intros i j Hi Hj. rewrite !Fr by auto. auto.
    + intros v Hv. rewrite P by auto. intros Hp. destruct (F3 v Hv Hp) as (i & Hi & E). exists i. split; [auto|]. rewrite Fr; auto.
  - intros v e Ha. rewrite Sg in Ha |- *. rewrite !P; [apply S; exact Ha| |apply Ha]. exact (vt_end _ (vupto_struct _ V) v e Ha).
Qed.

Lemma vstate_store gs g data : 0 < gs -> vstate g -> zlen data = zlen (vgraphStoreInit gs g) ->
  exists t, vgraphStoreSave gs g data = Ok t /\ st_cld0 t = vcld0 g /\ st_cld1 t = vcld1 g /\ st_dlt t = vdlt g /\
    forall h, vsame g h -> exists h', vgraphStoreUpdt gs h t = Ok h' /\ vequiv g h'.
Proof.
  intros Hg S Hd. destruct (vstate_sums g S) as (H1 & H2 & H3). pose proof (vt_read _ S) as R.
  destruct (vgraphStore_round gs g data Hg R H1 Hd H2 H3) as (t & Et & Hu). exists t. split; [exact Et|].
  unfold vgraphStoreSave in Et. destruct (storeSave _ _ _ _ _ _ _); [|discriminate..]. cbn [bind] in Et. injection Et as <-. cbn [st_cld0 st_cld1 st_dlt].
  repeat (split; [reflexivity|]). intros h [S1 S2 S3 S4 S5]. destruct R as [R1 R2 R3 R4 R5].
  destruct (Hu h S1 S2 S3) as (h' & E & B2 & B3 & B4 & B5 & B6 & B7 & B8 & B9 & B10 & B11 & B12 & B13 & B14 & B15); [lia | lia|].
  exists h'. split; [exact E|]. constructor; auto. constructor; congruence.
Qed.

(** ** Methods *)
Lemma Zero_good g : valid_upto_sum (vs g) -> 0 <= baseval (vs g) -> vg_readable g -> (0 <= vdw0 g /\ 0 <= vdw1 g /\ 0 < vdw0 g + vdw1 g) ->
  exists h, vgraphZero g = Ok h /\ vsame g h /\ vstate h /\ forall v, isvert (vs g) v -> part h v = 0.
Proof.
  intros V B R D. destruct (vgraphZero_spec g R (vupto_struct _ V) (vupto_sum _ V)) as (h & E & Es & Rh & Ch & Fh & Sh & P0 & W0 & W1).
  exists h. split; [exact E|]. split; [|split].
  - unfold vgraphZero in E. cbv zeta in E. destruct (memst_spec (baseval (vs g)) (vpart g) (vertnbr (vs g)) 0) as (pt & Em & Hz & _).
    { pose proof (vr_nnd _ R). pose proof (vr_part _ R). lia. }
    rewrite Em in E. cbn [bind] in E. injection E as <-. constructor; auto.
  - constructor; rewrite ?Es, ?W0, ?W1; auto.
  - exact P0.
Qed.

Lemma Zr_good : vgood true vgraphSeparateZr.
Proof.
  intros g S. unfold vgraphSeparateZr. destruct (negb (vcsz0 g =? vertnbr (vs g))).
  - destruct (Zero_good g (vt_valid _ S) (vt_base _ S) (vt_read _ S) (vt_dw _ S)) as (h & E & Sm & Sh & _). rewrite E. exists 0, h. auto.
  - exists 0, g. auto using vsame_refl.
Qed.

Lemma Th_good : vgood true vgraphSeparateThMeth.
Proof.
  intros g [V B R D C F S]. destruct V as (x & V).
  destruct (vgraphSeparateTh_spec (vset x g) (vreadable_set x g R) V (counts_set x g C) F S) as (h & E & I & W0 & W1).
  unfold vgraphSeparateThMeth.
  assert (E' : vgraphSeparateTh (vset x g) = do h <- vgraphSeparateTh g; Ok (vset x h)).
  { unfold vgraphSeparateTh. change (thLoop (vset x g)) with (thLoop g). destruct (thLoop g) as [[[[pt fr] nbr] [[[l0 l1] s0] s1]]| | |]; reflexivity. }
  rewrite E' in E. destruct (vgraphSeparateTh g) as [h0| | |] eqn:E0; try discriminate. cbn [bind] in E |- *. injection E as <-.
  assert (Eg : vs h0 = vs g).
  { unfold vgraphSeparateTh in E0. destruct (thLoop g) as [[[[pt fr] nbr] [[[l0 l1] s0] s1]]| | |]; [|discriminate..]. cbn [bind] in E0. injection E0 as <-. reflexivity. }
  exists 0, h0. split; [reflexivity|]. destruct I as [I1 I2 I3 I4 I5 I6 I7 I8 I9 I10].
  assert (Sm : vsame g h0) by (constructor; auto).
  split; [exact Sm|]. split; [|reflexivity]. intros _. destruct R as [R1 R2 R3 R4 R5]. cbn [vset vpart vfron vfronnbr vdw0 vdw1] in *.
  destruct I6 as [C1 C2 C3 C4 C5 C6 C7]. constructor; rewrite ?Eg; auto.
  - exists x. exact V.
  - constructor; rewrite ?Eg; auto; try lia. intros v Hv. assert (Hv' : isvert (vs (vset x h0)) v) by (cbn [vset vs]; rewrite Eg; exact Hv). specialize (C1 v Hv').
    change (part (vset x h0) v) with (part h0 v) in C1. lia.
  - rewrite W0, W1. exact D.
  - constructor; auto.
Qed.

(** ** Strategies *)
Lemma vequiv_ld g h : vequiv g h -> vcld0 h = vcld0 g /\ vcld1 h = vcld1 g /\ vdlt h = vdlt g.
Proof. intros []. auto. Qed.

Lemma St_select gs ab s1 s2 g : 0 < gs -> vgood false (vgraphSeparateSt gs ab s1) -> vgood false (vgraphSeparateSt gs ab s2) -> vstate g ->
  exists h g1 c1 c2, vgraphSeparateSt gs ab (VSelect s1 s2) g = Ok (0, h) /\ vstate h /\ vsame g h /\ vequiv g g1 /\
    voutcome gs ab s1 g c1 /\ voutcome gs ab s2 g1 c2 /\ vstate c1 /\ vstate c2 /\
    (if (vcld2 c1 <? vcld2 c2) || ((vcld2 c1 =? vcld2 c2) && (ab (vdlt c1) <? ab (vdlt c2))) then vequiv c1 h else vequiv c2 h).
Proof.
  intros Hg G1 G2 S. cbn [vgraphSeparateSt]. cbv zeta. destruct (vstate_store gs g (vgraphStoreInit gs g) Hg S eq_refl) as (t1 & -> & _ & _ & _ & U1). cbn [bind].
  destruct (G1 g S) as (rc & h & E1 & Sm & Hz & _). rewrite E1. cbn [bind].
  assert (Za : forall k, vsame g k -> zlen (vgraphStoreInit gs g) = zlen (vgraphStoreInit gs k)).
  { intros k Hk. unfold vgraphStoreInit. rewrite (vm_graph _ _ Hk). reflexivity. }
  match goal with |- context [bind ?X _] =>
    destruct (wp_ok_inv X (fun '(t0, h1) => vequiv g h1 /\ exists c1, voutcome gs ab s1 g c1 /\ vstate c1 /\ vsame g c1 /\
      st_cld0 t0 = vcld0 c1 /\ st_cld1 t0 = vcld1 c1 /\ st_dlt t0 = vdlt c1 /\
      forall k, vsame g k -> exists k', vgraphStoreUpdt gs k t0 = Ok k' /\ vequiv c1 k')) as ((t0 & h1) & Ex & Q1 & (c1 & O1 & Sc1 & Smc & T0 & T1 & T2 & U0)) end.
  { destruct (Z.eqb_spec rc 0) as [->|Hn]; cbn [negb].
    - destruct (vstate_store gs h (vgraphStoreInit gs g) Hg (Hz eq_refl) (Za h Sm)) as (t0 & -> & T0 & T1 & T2 & U0). cbn [bind].
      destruct (U1 h Sm) as (h1 & -> & Q1). cbn [bind wp]. split; [exact Q1|]. exists h. split; [exists 0, h; split; [exact E1 | split; [reflexivity | congruence]]|].
      split; [exact (Hz eq_refl)|]. split; [exact Sm|]. repeat (split; [assumption|]). intros k Hk.
      destruct (U0 k (vsame_trans _ _ _ (vsame_sym _ _ Sm) Hk)) as (k' & -> & Qk). exists k'. split; [reflexivity | exact Qk].
    - destruct (U1 h Sm) as (h1 & -> & Q1). cbn [bind]. pose proof (vequiv_state _ _ Q1 S) as S1. pose proof (vq_same _ _ Q1) as Sm1.
      destruct (vstate_store gs h1 (vgraphStoreInit gs g) Hg S1 (Za h1 Sm1)) as (t0 & -> & T0 & T1 & T2 & U0). cbn [bind wp]. split; [exact Q1|].
      exists h1. split; [exists rc, h; split; [exact E1 | split; [congruence | intros _; exact Q1]]|]. split; [exact S1|]. split; [exact Sm1|]. repeat (split; [assumption|]).
      intros k Hk. destruct (U0 k (vsame_trans _ _ _ (vsame_sym _ _ Sm1) Hk)) as (k' & -> & Qk). exists k'. split; [reflexivity | exact Qk]. }
  rewrite Ex. cbn [bind].
  pose proof (vequiv_state _ _ Q1 S) as S1. pose proof (vq_same _ _ Q1) as Sm1.
  destruct (G2 h1 S1) as (rc2 & h2 & E2 & Sm2 & Hz2 & _). rewrite E2. cbn [bind]. pose proof (vsame_trans _ _ _ Sm1 Sm2) as Sm12.
  match goal with |- context [bind ?X _] =>
    destruct (wp_ok_inv X (fun h3 => vstate h3 /\ vsame g h3 /\ voutcome gs ab s2 h1 h3)) as (h3 & Eh & S3 & Sm3 & O2) end.
  { destruct (Z.eqb_spec rc2 0) as [->|Hn]; cbn [negb].
    - cbn [wp]. split; [exact (Hz2 eq_refl)|]. split; [exact Sm12|]. exists 0, h2. split; [exact E2 | split; [reflexivity | congruence]].
    - destruct (U1 h2 Sm12) as (h3 & -> & Q3). cbn [wp]. split; [exact (vequiv_state _ _ Q3 S)|]. split; [exact (vq_same _ _ Q3)|].
      exists rc2, h2. split; [exact E2|]. split; [congruence|]. intros _. destruct Q1 as [A1 A2 A3 A4 A5 A6 A7 A8 A9 A10], Q3 as [B1 B2 B3 B4 B5 B6 B7 B8 B9 B10].
      constructor; try congruence.
      + exact (vsame_trans _ _ _ (vsame_sym _ _ A1) B1).
      + intros v Hv. rewrite (vm_graph _ _ A1) in Hv. rewrite A2, B2 by exact Hv. reflexivity.
      + intros i Hi. rewrite A3 in Hi. rewrite A4, B4 by exact Hi. reflexivity. }
  rewrite Eh. cbn [bind].
  assert (Ec : velosum (vs h3) - st_cld0 t0 - st_cld1 t0 = vcld2 c1).
  { rewrite T0, T1. destruct (vstate_sums c1 Sc1) as (_ & _ & X). rewrite (vm_graph _ _ Sm3), <- (vm_graph _ _ Smc). lia. }
  rewrite Ec, T2.
  match goal with |- context [bind (if ?c then _ else _)] => replace c with ((vcld2 c1 <? vcld2 h3) || ((vcld2 c1 =? vcld2 h3) && (ab (vdlt c1) <? ab (vdlt h3)))) end.
  2: { destruct (vcld2 c1 <? vcld2 h3); [reflexivity|]. destruct (vcld2 c1 =? vcld2 h3); [|reflexivity]. destruct (ab (vdlt c1) <? ab (vdlt h3)); reflexivity. }
  destruct ((vcld2 c1 <? vcld2 h3) || ((vcld2 c1 =? vcld2 h3) && (ab (vdlt c1) <? ab (vdlt h3)))) eqn:Eb.
  - destruct (U0 h3 Sm3) as (h4 & -> & Q4). cbn [bind]. exists h4, h1, c1, h3. split; [reflexivity|]. split; [exact (vequiv_state _ _ Q4 Sc1)|].
    split; [exact (vsame_trans _ _ _ Smc (vq_same _ _ Q4))|]. repeat (split; [assumption|]). rewrite Eb. exact Q4.
  - cbn [bind]. exists h3, h1, c1, h3. split; [reflexivity|]. repeat (split; [assumption|]). rewrite Eb. apply vequiv_refl.
Qed.

Lemma St_good gs ab : 0 < gs -> forall s tot, vsgood tot s -> vgood tot (vgraphSeparateSt gs ab s).
Proof.
  intros Hg. fix IH 1. intros s tot. destruct s as [s1 s2|test s els| |s1 s2|m]; intros Hs g S; cbn [vgraphSeparateSt] in *; cbn [vsgood] in Hs.
  - destruct Hs as (H1 & H2). destruct (IH s1 tot H1 g S) as (rc & h & E & Sm & Hz & Ht). rewrite E. cbn [bind]. destruct (Z.eqb_spec rc 0) as [->|Hn].
    + destruct (IH s2 tot H2 h (Hz eq_refl)) as (rc & h' & E' & Sm' & Hz' & Ht'). exists rc, h'. split; [exact E'|]. split; [exact (vsame_trans _ _ _ Sm Sm')|]. split; [exact Hz' | exact Ht'].
    + exists rc, h. split; [reflexivity|]. split; [exact Sm|]. split; [exact Hz | exact Ht].
  - destruct Hs as (Ht & H1 & H2). destruct (test g) as [[]|] eqn:Et.
    + exact (IH s tot H1 g S).
    + destruct els as [s'|]; [exact (IH s' tot H2 g S)|]. exists 0, g. split; [reflexivity|]. split; [apply vsame_refl|]. split; [intros _; exact S | reflexivity].
    + exists 1, g. split; [reflexivity|]. split; [apply vsame_refl|]. split; [discriminate|]. intros Hb. now apply (Ht Hb) in Et.
  - exists 0, g. split; [reflexivity|]. split; [apply vsame_refl|]. split; [intros _; exact S | reflexivity].
  - destruct Hs as (H1 & H2). destruct (St_select gs ab s1 s2 g Hg (IH s1 false H1) (IH s2 false H2) S) as (h & g1 & c1 & c2 & E & Sh & Sm & _).
    exists 0, h. split; [exact E|]. split; [exact Sm|]. split; [intros _; exact Sh | reflexivity].
  - exact (Hs g S).
Qed.
