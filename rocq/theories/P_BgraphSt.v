(** Proofs about bipartitioning strategies. *)
From Verif Require Import Base Mem M_Graph M_Vgraph M_Bgraph M_BgraphSt S_Graph S_Bgraph S_BgraphSt P_Graph P_Vgraph P_Bgraph P_Bgraph2.

Section St.
Variable avg : Z -> Z -> Z -> Z.

Lemma bsame_refl g : bsame g g. Proof. constructor; auto. Qed.
Lemma bsame_trans a b c : bsame a b -> bsame b c -> bsame a c.
Proof. intros [A1 A2 A3 A4 (A5 & A6 & A7) (A8 & A9 & A10) (A11 & A12 & A13 & A14)] [B1 B2 B3 B4 (B5 & B6 & B7) (B8 & B9 & B10) (B11 & B12 & B13 & B14)]. constructor; repeat split; congruence. Qed.
Lemma bsame_sym a b : bsame a b -> bsame b a.
Proof. intros [A1 A2 A3 A4 (A5 & A6 & A7) (A8 & A9 & A10) (A11 & A12 & A13 & A14)]. constructor; repeat split; congruence. Qed.
Lemma bequiv_refl g : bequiv g g.
Proof. constructor; auto using bsame_refl. Qed.

Lemma bequiv_state g h : bequiv g h -> bstate avg g -> bstate avg h.
Proof.
  intros [Sm P Nb Fr (L1 & L2 & L3) (C1 & C2)] [V B R G0 (x & Hx & Hc)].
  destruct Sm as [Sg Sv Sp Sf (M1 & M2 & M3) (N1 & N2 & N3) (W1 & W2 & W3 & W4)].
  assert (Ve : forall v, veex h v = veex g v) by (intros v; unfold veex; now rewrite Sv, Sg).
  constructor.
  - now rewrite Sg.
  - now rewrite Sg.
  - destruct R as [R1 R2 R3 R4 R5]. constructor; rewrite ?Sg, ?Sv; auto; try lia; intros v Hv; rewrite P by exact Hv; auto.
  - rewrite N2, G0, Sg. apply zsum_ext. intros v _. now rewrite Ve.
  - exists x. split; [now rewrite W3|]. destruct Hc as [A1 A2 A3 A4 A5 A6 A7 A8].
    assert (P' : forall v, isvert (bs g) v -> bp (unfix x h) v = bp (unfix x g) v) by exact P.
    assert (Ex : forall p, bext (unfix x h) p = bext (unfix x g) p).
    { intros p. unfold bext. cbn [unfix bs]. rewrite Sg. apply zsum_ext. intros v Hv. rewrite P' by exact Hv. change (veex (unfix x h) v) with (veex h v). rewrite Ve. reflexivity. }
    assert (On : forall v, isvert (bs g) v -> onfront (unfix x h) v <-> onfront (unfix x g) v).
    { intros v Hv. unfold onfront. cbn [unfix bs]. rewrite Sg. split; intros (e & Ha & Hn); exists e; (split; [exact Ha|]); pose proof (gv_end _ V v e Ha) as He; [rewrite <- !P' by auto | rewrite !P' by auto]; exact Hn. }
    constructor; cbn [unfix bs bavg bwg0 bwg1 bfx0 bfx1 bld0 bdlt bsz0 bcml bcmge bdist bcmle0 bfronnbr] in *; rewrite ?Sg, ?Ex.
    + intros v Hv. rewrite P' by exact Hv. auto.
    + congruence.
    + lia.
    + rewrite L3, A4. unfold bsize. cbn [unfix bs]. rewrite Sg. apply zsum_ext. intros v Hv. rewrite P' by exact Hv. reflexivity.
    + rewrite L1, A5. unfold bload. cbn [unfix bs]. rewrite Sg. apply zsum_ext. intros v Hv. rewrite P' by exact Hv. reflexivity.
    + rewrite C1, A6, N1, N3. f_equal. f_equal. unfold bcut. cbn [unfix bs]. rewrite Sg. apply zsum_ext. intros v Hv. apply zsum_ext. intros e He. rewrite !P'; [reflexivity | exact (gv_end _ V v e (conj Hv He)) | exact Hv].
    + congruence.
    + rewrite Nb. destruct A8 as (F0 & F1 & F2 & F3). change (bfr (unfix x h)) with (bfr h). change (bfr (unfix x g)) with (bfr g) in *. split; [exact F0|]. split; [|split].
      * intros i Hi. rewrite Fr by exact Hi. destruct (F1 i Hi) as (X1 & X2). split; [exact X1|]. now apply On.
      * intros i j Hi Hj. rewrite !Fr by auto. auto.
      * intros v Hv Hf. apply On in Hf; [|exact Hv]. destruct (F3 v Hv Hf) as (i & Hi & E). exists i. split; [exact Hi|]. now rewrite Fr.
Qed.

Lemma bstate_fron g : bstate avg g -> 0 <= bfronnbr g <= vertnbr (bs g) /\ bld0 g = bavg g + bdlt g.
Proof.
  intros [V B R G0 (x & Hx & Hc)]. pose proof (bg_fronnbr avg (unfix x g) V Hc) as F. pose proof (bv_fron _ _ Hc) as (F0 & _). pose proof (bv_dlt _ _ Hc) as D.
  cbn [unfix bfronnbr bs bld0 bdlt bavg] in *. lia.
Qed.

Lemma bstate_store gs g data : 0 < gs -> bstate avg g -> zlen data = zlen (bgraphStoreInit gs g) ->
  exists t, bgraphStoreSave gs g data = Ok t /\ bt_dlt t = bdlt g /\ bt_cml t = bcml g /\
    forall h, bsame g h -> exists h', bgraphStoreUpdt gs h t = Ok h' /\ bequiv g h'.
Proof.
  intros Hg S Hd. destruct (bstate_fron g S) as (Hf & Hl). destruct S as [V B R G0 _].
  destruct (bgraphStore_round gs g data Hg R V Hf Hd Hl) as (t & Et & Hu). exists t. split; [exact Et|].
  unfold bgraphStoreSave in Et. destruct (storeSave _ _ _ _ _ _ _); [|discriminate..]. cbn [bind] in Et. injection Et as <-. cbn [bt_dlt bt_cml].
  split; [reflexivity|]. split; [reflexivity|]. intros h [S1 S2 S3 S4 (S5 & S6 & S7) (S8 & S9 & S10) (S11 & S12 & S13 & S14)]. destruct R as [R1 R2 R3 R4 R5].
  destruct (Hu h S1 S7 ltac:(lia) ltac:(lia)) as (h' & E & B1 & B2 & B3 & B4 & B5 & B6 & B7 & B8 & B9 & B10 & B11 & B12 & B13 & B14 & B15).
  injection B15 as X1 X2 X3 X4 X5 X6 X7 X8 X9. exists h'. split; [exact E|]. constructor; auto. constructor; repeat split; congruence.
Qed.

(** ** Methods *)
Lemma bZero_good g : graph_valid (bs g) -> 0 <= baseval (bs g) -> bg_readable g -> bcmge0 g = zsum (baseval (bs g)) (vertnnd (bs g)) (veex g) ->
  bavg g = bgraphAvg avg (bs g) (bwg0 g) (bwg1 g) (bfx0 g) (bfx1 g) ->
  exists h, bgraphZero g = Ok h /\ bsame g h /\ bstate avg h /\ bsz0 h = vertnbr (bs g) /\ bfronnbr h = 0 /\ forall v, isvert (bs g) v -> bp h v = 0.
Proof.
  intros V B R G0 Av. unfold bgraphZero. destruct (bzero_part g R V) as (pt & -> & Hz & Hp). cbn [bind]. eexists. split; [reflexivity|].
  match goal with |- bsame g ?z /\ _ => set (h := z) end.
  assert (P0 : forall v, isvert (bs g) v -> bp h v = 0) by exact Hp.
  split; [constructor; auto|]. split; [|split; [reflexivity | split; [reflexivity | exact P0]]]. constructor.
  - exact V.
  - exact B.
  - destruct R as [R1 R2 R3 R4 R5]. constructor; cbn [h bs bpart bfron bveex]; auto; try lia; intros v Hv; rewrite P0 by exact Hv; lia.
  - exact G0.
  - exists (bfx0 g). split; [right; reflexivity|]. apply all0_valid; cbn [unfix h bs bavg bwg0 bwg1 bfx0 bfx1 bld0 bdlt bfronnbr bsz0 bcml bcmle0 bcmge]; auto; try lia.
Qed.

Lemma bstate_avg g : bstate avg g -> bavg g = bgraphAvg avg (bs g) (bwg0 g) (bwg1 g) (bfx0 g) (bfx1 g).
Proof. intros [_ _ _ _ (x & _ & Hc)]. exact (bv_avg _ _ Hc). Qed.

Lemma bZr_good T : bgood avg T true true bgraphBipartZr.
Proof.
  intros g S Hg. unfold bgraphBipartZr. destruct (negb (bld0 g =? velosum (bs g))).
  - destruct (bZero_good g (bt_valid _ _ S) (bt_base _ _ S) (bt_read _ _ S) (bt_gain0 _ _ S) (bstate_avg g S)) as (h & -> & Sm & Sh & _). cbn [bind]. exists 0, h. auto 10.
  - exists 0, g. auto 10 using bsame_refl.
Qed.

(** ** Strategies *)
Lemma out_spec g d : ((bavg g + d <? bmin g) || (bmax g <? bavg g + d)) = true <-> ~ (bmin g <= bavg g + d <= bmax g).
Proof. destruct (Z.ltb_spec (bavg g + d) (bmin g)), (Z.ltb_spec (bmax g) (bavg g + d)); cbn [orb]; split; intros; try lia; try discriminate. Qed.

(** the rule, when both strategies succeed *)
Definition keep00 (c1 c2 : bgraph) (ab : Z -> Z) : bool := stKeep ab c2 0 0 (bdlt c1) (bcml c1).

Lemma bSt_select gs ab T tot s1 s2 g : 0 < gs -> bgood avg T tot true (bgraphBipartSt gs ab s1) -> bgood avg T tot true (bgraphBipartSt gs ab s2) -> bstate avg g -> T (bavg g) ->
  exists o1 o2 c1 g1 c2 h, bgraphBipartSt gs ab s1 g = Ok (o1, c1) /\ bequiv g g1 /\ bgraphBipartSt gs ab s2 g1 = Ok (o2, c2) /\
    bgraphBipartSt gs ab (BSelect s1 s2) g = Ok (Z.min o1 o2, h) /\ (o1 = 0 \/ o1 = 1) /\ (o2 = 0 \/ o2 = 1) /\ (tot = true -> o1 = 0 /\ o2 = 0) /\
    bstate avg c1 /\ bstate avg c2 /\ bsame g c1 /\ bsame g c2 /\ bstate avg h /\ bsame g h /\
    (if ((o1 =? 0) || (o2 =? 0)) && negb (stKeep ab c2 o1 o2 (bdlt c1) (bcml c1)) then bequiv c1 h else bequiv c2 h).
Proof.
  intros Hg G1 G2 S Hav. cbn [bgraphBipartSt]. cbv zeta. destruct (bstate_store gs g (bgraphStoreInit gs g) Hg S eq_refl) as (t1 & -> & _ & _ & U1). cbn [bind].
  destruct (G1 g S Hav) as (o1 & c1 & E1 & Sm1 & R1 & Z1 & T1). rewrite E1. cbn [bind]. specialize (Z1 (or_intror eq_refl)).
  assert (Za : zlen (bgraphStoreInit gs g) = zlen (bgraphStoreInit gs c1)) by (unfold bgraphStoreInit; now rewrite (bm_graph _ _ Sm1)).
  destruct (bstate_store gs c1 (bgraphStoreInit gs g) Hg Z1 Za) as (t0 & -> & D0 & C0 & U0). cbn [bind].
  destruct (U1 c1 Sm1) as (g1 & -> & Q1). cbn [bind]. pose proof (bequiv_state _ _ Q1 S) as S1. pose proof (bq_same _ _ Q1) as Sg1.
  assert (Hav1 : T (bavg g1)) by (destruct (bm_load _ _ Sg1) as (_ & _ & ->); exact Hav).
  destruct (G2 g1 S1 Hav1) as (o2 & c2 & E2 & Sm2 & R2 & Z2 & T2). rewrite E2. cbn [bind]. specialize (Z2 (or_intror eq_refl)). pose proof (bsame_trans _ _ _ Sg1 Sm2) as Sm12.
  rewrite D0, C0. exists o1, o2, c1, g1, c2.
  assert (Em : (if o2 <? o1 then o2 else o1) = Z.min o1 o2) by (destruct (Z.ltb_spec o2 o1); lia). rewrite Em.
  destruct ((o1 =? 0) || (o2 =? 0)); cbn [andb negb].
  - destruct (stKeep ab c2 o1 o2 (bdlt c1) (bcml c1)); cbn [negb bind].
    + exists c2. repeat (split; [auto using bequiv_refl; reflexivity || assumption|]). auto 20 using bequiv_refl.
    + destruct (U0 c2 (bsame_trans _ _ _ (bsame_sym _ _ Sm1) Sm12)) as (h & -> & Qh). cbn [bind]. exists h.
      pose proof (bequiv_state _ _ Qh Z1). pose proof (bsame_trans _ _ _ Sm1 (bq_same _ _ Qh)). auto 20.
  - cbn [bind]. exists c2. auto 20 using bequiv_refl.
Qed.

Lemma bgood_weak T tot safe m : bgood avg T tot true m -> bgood avg T tot safe m.
Proof. intros G g S Hg. destruct (G g S Hg) as (rc & h & E & Sm & R & Hz & Ht). exists rc, h. repeat (split; [assumption|]). split; auto. Qed.

Lemma bSt_good gs ab T : 0 < gs -> forall s tot safe, bsgood avg T tot safe s -> bgood avg T tot safe (bgraphBipartSt gs ab s).
Proof.
  intros Hg. fix IH 1. intros s tot safe. destruct s as [s1 s2|test s els| |s1 s2|m]; intros Hs g S Hav; cbn [bgraphBipartSt] in *; cbn [bsgood] in Hs.
  - destruct Hs as (H1 & H2). destruct (IH s1 tot safe H1 g S Hav) as (rc & h & E & Sm & Rc & Hz & Ht). rewrite E. cbn [bind]. destruct (Z.eqb_spec rc 0) as [->|Hn].
    + assert (Hav1 : T (bavg h)) by (destruct (bm_load _ _ Sm) as (_ & _ & ->); exact Hav).
      destruct (IH s2 tot safe H2 h (Hz (or_introl eq_refl)) Hav1) as (rc & h' & E' & Sm' & Rc' & Hz' & Ht'). exists rc, h'. split; [exact E'|]. split; [exact (bsame_trans _ _ _ Sm Sm')|]. auto.
    + exists rc, h. split; [reflexivity|]. auto.
  - destruct Hs as (Ht & H1 & H2). destruct (test g) as [[]|] eqn:Et.
    + exact (IH s tot safe H1 g S Hav).
    + destruct els as [s'|]; [exact (IH s' tot safe H2 g S Hav)|]. exists 0, g. split; [reflexivity|]. split; [apply bsame_refl|]. auto.
    + exists 1, g. split; [reflexivity|]. split; [apply bsame_refl|]. split; [now right|]. split; [intros _; exact S|]. intros Hb. now apply (Ht Hb) in Et.
  - exists 0, g. split; [reflexivity|]. split; [apply bsame_refl|]. auto.
  - destruct Hs as (H1 & H2). destruct (bSt_select gs ab T tot s1 s2 g Hg (IH s1 tot true H1) (IH s2 tot true H2) S Hav) as (o1 & o2 & c1 & g1 & c2 & h & _ & _ & _ & E & R1 & R2 & Ht & _ & _ & _ & _ & Sh & Sm & _).
    exists (Z.min o1 o2), h. split; [exact E|]. split; [exact Sm|]. split; [lia|]. split; [intros _; exact Sh|]. intros Hb. destruct (Ht Hb). lia.
  - exact (Hs g S Hav).
Qed.
End St.
