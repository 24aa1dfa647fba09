(** Proofs about grouped allocation and footprint accounting. *)
From Verif Require Import Base Mem M_Memory S_Memory.

Lemma padoff_spec m : 0 <= m -> m + 7 < W64 -> m <= padoff m <= m + 7 /\ padoff m mod 8 = 0.
Proof.
  intros H0 H1. unfold padoff. rewrite Z.mod_small by lia.
  replace (W64 - 8) with (Z.ldiff (Z.ones 64) (Z.ones 3)) by reflexivity.
  assert (E : Z.land (m + 7) (Z.ldiff (Z.ones 64) (Z.ones 3)) = Z.ldiff (m + 7) (Z.ones 3)).
  { rewrite <- (Z.mod_small (m + 7) (2 ^ 64)) at 2 by (unfold W64 in H1; lia). rewrite <- Z.land_ones by lia.
    apply Z.bits_inj'. intros k Hk. rewrite Z.land_spec, !Z.ldiff_spec, Z.land_spec. now rewrite andb_assoc. }
  rewrite E, Z.ldiff_ones_r, Z.shiftl_mul_pow2, Z.shiftr_div_pow2 by lia. change (2 ^ 3) with 8.
  pose proof (Z.div_mod (m + 7) 8 ltac:(lia)). pose proof (Z.mod_pos_bound (m + 7) 8 ltac:(lia)).
  rewrite Z.mod_mul by lia. lia.
Qed.

Lemma need_nonneg sizes : Forall (fun s => 0 <= s) sizes -> 0 <= need sizes.
Proof. induction 1; cbn [need fold_right]; [lia|]. fold (need l). lia. Qed.

Lemma grpoffs_spec sizes : forall m, Forall (fun s => 0 <= s) sizes -> 0 <= m -> m + need sizes < W64 ->
  m <= snd (grpoffs m sizes) <= m + need sizes /\
  forall b, b mod 8 = 0 -> laid (b + m) (b + snd (grpoffs m sizes)) (map (fun o => b + o) (fst (grpoffs m sizes))) sizes.
Proof.
  induction sizes as [|s r IH]; intros m HF Hm Hn.
  { cbn [grpoffs fst snd map laid need fold_right] in *. split; intros; lia. }
  cbn [grpoffs need fold_right] in *. fold (need r) in *. inversion HF as [|? ? Hs HF']; subst. pose proof (need_nonneg r HF').
  destruct (padoff_spec m ltac:(lia) ltac:(lia)) as [P1 P2]. rewrite (Z.mod_small (padoff m + s)) by lia.
  destruct (IH (padoff m + s) HF' ltac:(lia) ltac:(lia)) as [I1 I2].
  destruct (grpoffs (padoff m + s) r) as [l e] eqn:E. cbn [fst snd map laid] in *. split; [lia|].
  intros b Hb. split; [lia|]. split.
  - rewrite Z.add_mod, Hb, P2 by lia. reflexivity.
  - specialize (I2 b Hb). now rewrite <- Z.add_assoc.
Qed.

Lemma laid_weaken lo hi hi' a s : laid lo hi a s -> hi <= hi' -> laid lo hi' a s.
Proof.
  revert lo s. induction a as [|x a IH]; intros lo [|s sr] H L; cbn [laid] in *; auto; try lia.
  destruct H as (? & ? & ?). auto.
Qed.

Lemma lor8_ge x : 0 <= x -> x <= Z.lor x 8.
Proof.
  intros. assert (E : Z.lor x 8 = x + Z.ldiff 8 x).
  { rewrite Z.add_nocarry_lxor.
    - apply Z.bits_inj'. intros k Hk. rewrite Z.lor_spec, Z.lxor_spec, Z.ldiff_spec.
      destruct (Z.testbit x k), (Z.testbit 8 k); reflexivity.
    - apply Z.bits_inj'. intros k Hk. rewrite Z.land_spec, Z.ldiff_spec, Z.bits_0.
      destruct (Z.testbit x k), (Z.testbit 8 k); reflexivity. }
  rewrite E. assert (0 <= Z.ldiff 8 x) by (apply Z.ldiff_nonneg; lia). lia.
Qed.

Lemma memAllocGroup_spec alloc sizes : Forall (fun s => 0 <= s) sizes -> need sizes < W64 ->
  exists ask, memAllocGroup alloc sizes = match alloc ask with
    | None => None
    | Some blk => Some (blk, map (fun o => blk + o) (fst (grpoffs 0 sizes))) end /\
    forall blk, alloc ask = Some blk -> blk mod 8 = 0 ->
      laid blk (blk + ask) (map (fun o => blk + o) (fst (grpoffs 0 sizes))) sizes.
Proof.
  intros HF Hn. exists (groupAsk sizes). split; [reflexivity|]. intros blk _ Hb.
  destruct (grpoffs_spec sizes 0 HF ltac:(lia) ltac:(lia)) as [P1 P2]. specialize (P2 blk Hb).
  rewrite Z.add_0_r in P2. eapply laid_weaken; [exact P2|]. unfold groupAsk. pose proof (lor8_ge (snd (grpoffs 0 sizes)) ltac:(lia)). lia.
Qed.

(** ** Footprint accounting *)

Definition sums (l : list (Z * Z)) : Z := fold_right (fun x acc => snd x + acc) 0 l.

Definition msim (s : MS) (l : live) : Prop :=
  NoDup (map fst (blks s)) /\ (forall p, hdr p (blks s) = l p) /\ msiz s = sums (blks s) /\ Forall (fun x => 0 <= snd x) (blks s).

Lemma hdr_In p l : hdr p l <> None <-> In p (map fst l).
Proof.
  induction l as [|[q s] l IH]; cbn [hdr map fst In]; [tauto|]. destruct (Z.eqb_spec q p).
  - split; [auto|intros _ E; discriminate].
  - rewrite IH. tauto.
Qed.

Lemma sums_hdr l : NoDup (map fst l) ->
  sums l = fold_right (fun p acc => match hdr p l with Some s => s | None => 0 end + acc) 0 (map fst l).
Proof.
  induction l as [|[q s] l IH]; intros ND; [reflexivity|]. cbn [map fst] in *. inversion ND; subst.
  cbn [sums fold_right snd hdr]. rewrite Z.eqb_refl. fold (sums l). rewrite (IH H2). f_equal.
  assert (G : forall ps, (forall p, In p ps -> p <> q) ->
    fold_right (fun p acc => match hdr p l with Some s0 => s0 | None => 0 end + acc) 0 ps =
    fold_right (fun p acc => match (if q =? p then Some s else hdr p l) with Some s0 => s0 | None => 0 end + acc) 0 ps).
  { induction ps as [|p ps IHp]; intros Hp; [reflexivity|]. cbn [fold_right]. rewrite IHp by (intros; apply Hp; cbn; auto).
    destruct (Z.eqb_spec q p); [exfalso; apply (Hp p); cbn; auto|reflexivity]. }
  apply G. intros p Hp E. subst. auto.
Qed.

Lemma livesum_fun l t t' : livesum l t -> livesum l t' -> t = t'.
Proof.
  intros (ps & N & I & ->) (ps' & N' & I' & ->).
  assert (P : Permutation ps ps') by (apply NoDup_Permutation; auto; intros; rewrite I, I'; tauto).
  clear N I N' I'. induction P; cbn [fold_right]; lia.
Qed.

Lemma msim_sum s l : msim s l -> livesum l (memCur s).
Proof.
  intros (N & H & Z1 & _). exists (map fst (blks s)). split; [auto|]. split.
  - intros p. rewrite <- H. symmetry. apply hdr_In.
  - unfold memCur. rewrite Z1, sums_hdr by auto.
    generalize (map fst (blks s)). intros ps. induction ps as [|p ps IH]; [reflexivity|]. cbn [fold_right]. rewrite IH, H. reflexivity.
Qed.

Lemma drop_incl p l x : In x (drop p l) -> In x l.
Proof. induction l as [|[q s] l IH]; cbn [drop In]; [auto|]. destruct (q =? p); cbn [In]; tauto. Qed.

Lemma drop_spec p l s : NoDup (map fst l) -> hdr p l = Some s ->
  NoDup (map fst (drop p l)) /\ (forall q, hdr q (drop p l) = if q =? p then None else hdr q l) /\ sums l = s + sums (drop p l).
Proof.
  induction l as [|[q z] l IH]; intros ND H; [discriminate|]. cbn [map fst drop hdr] in *. inversion ND as [|? ? Nq ND']; subst.
  destruct (Z.eqb_spec q p) as [->|Hne].
  - injection H as ->. split; [auto|]. split; [|cbn [sums fold_right snd]; reflexivity].
    intros q. destruct (Z.eqb_spec q p) as [->|]; [|destruct (Z.eqb_spec p q); [congruence|reflexivity]].
    destruct (hdr p l) eqn:E; [|auto]. exfalso. apply Nq. apply hdr_In. congruence.
  - destruct (IH ND' H) as (I1 & I2 & I3). split; [|split].
    + cbn [map fst]. constructor; [|auto]. intros Hin. apply Nq. apply in_map_iff in Hin as (x & Ex & Hx). apply in_map_iff. exists x. split; [auto|]. eapply drop_incl; eauto.
    + intros r. cbn [hdr]. destruct (Z.eqb_spec q r) as [->|]; [|apply I2]. destruct (Z.eqb_spec r p); [congruence|reflexivity].
    + cbn [sums fold_right snd]. fold (sums l) (sums (drop p l)). lia.
Qed.

Lemma sums_nonneg l : Forall (fun x => 0 <= snd x) l -> 0 <= sums l.
Proof. induction 1; cbn [sums fold_right]; [lia|]. fold (sums l). lia. Qed.

Lemma ipt_ok x : - 2 ^ 63 <= x < 2 ^ 63 -> ipt x = Ok x.
Proof. intros. unfold ipt. now replace (_ && _) with true by lia. Qed.

Lemma lor8_nonneg z : 0 <= z -> 0 <= Z.lor z 8.
Proof. intros. apply Z.lor_nonneg. lia. Qed.

Lemma mstep_spec s l op : msim s l -> legal l [op] -> msiz s <= mmax s -> sums (blks s) < 2 ^ 63 ->
  (forall t, livesum (lstep l op) t -> t < 2 ^ 63) ->
  exists s', mstep s op = Ok s' /\ msim s' (lstep l op) /\ mmax s' = Z.max (mmax s) (msiz s').
Proof.
  intros SIM [LG _] MX B FT. pose proof SIM as (N & H & Z1 & F). pose proof (sums_nonneg _ F) as SN.
  assert (CHK : forall s', msim s' (lstep l op) -> 0 <= sums (blks s') < 2 ^ 63).
  { intros s' Hs. split; [apply sums_nonneg; apply Hs|]. pose proof Hs as (h1 & h2 & h3 & h4). rewrite <- h3. apply FT.
    apply (msim_sum s'). exact Hs. }
  destruct op as [z [p|]|q z [p|]|q]; cbn [mstep lstep] in *.
  - destruct LG as [Hz Hf]. specialize (Hf p eq_refl). pose proof (lor8_nonneg z Hz) as L8.
    set (b' := (p, Z.lor z 8) :: blks s) in *.
    assert (SIM' : forall mx, msim {| msiz := msiz s + Z.lor z 8; mmax := mx; blks := b' |} (lset l p (Some (Z.lor z 8)))).
    { intros mx. split; [|split; [|split]]; cbn [blks msiz].
      - cbn [b' map fst]. constructor; [|auto]. rewrite <- hdr_In. rewrite H. congruence.
      - intros q. unfold b', lset. cbn [hdr]. rewrite Z.eqb_sym. destruct (q =? p); auto.
      - unfold b'. cbn [sums fold_right snd]. fold (sums (blks s)). lia.
      - constructor; auto. }
    pose proof (CHK _ (SIM' 0)) as CK. cbn [blks] in CK. unfold b' in CK. cbn [sums fold_right snd] in CK. fold (sums (blks s)) in CK.
    unfold memAllocRecord. rewrite ipt_ok by lia. cbn [bind]. eexists. split; [reflexivity|]. split; [apply SIM'|]. cbn [mmax msiz].
    destruct (Z.ltb_spec (mmax s) (msiz s + Z.lor z 8)); lia.
  - eexists. split; [reflexivity|]. split; [auto|]. lia.
  - destruct LG as (Hz & Hq & Hf). specialize (Hf p eq_refl). pose proof (lor8_nonneg z Hz) as L8.
    unfold memReallocRecord. rewrite H. destruct (l q) as [oz|] eqn:Eq; [|congruence]. rewrite <- H in Eq.
    destruct (drop_spec q (blks s) oz N Eq) as (D1 & D2 & D3).
    assert (FD : Forall (fun x => 0 <= snd x) (drop q (blks s))) by (rewrite Forall_forall in *; intros x Hx; apply F; eapply drop_incl; eauto).
    pose proof (sums_nonneg _ FD) as SD.
    assert (Hoz : 0 <= oz).
    { assert (G : In (q, oz) (blks s)). { clear - Eq. induction (blks s) as [|[a b] r IH]; cbn [hdr] in Eq; [discriminate|]. destruct (Z.eqb_spec a q); [left; congruence|right; auto]. }
      rewrite Forall_forall in F. apply (F (q, oz) G). }
    set (b' := (p, Z.lor z 8) :: drop q (blks s)) in *.
    assert (SIM' : forall mx, msim {| msiz := msiz s - oz + Z.lor z 8; mmax := mx; blks := b' |} (lset (lset l q None) p (Some (Z.lor z 8)))).
    { intros mx. split; [|split; [|split]]; cbn [blks msiz].
      - cbn [b' map fst]. constructor; [|auto]. rewrite <- hdr_In. rewrite D2. destruct (Z.eqb_spec p q); [congruence|]. rewrite H. destruct Hf; congruence.
      - intros r. unfold b', lset. cbn [hdr]. rewrite Z.eqb_sym. destruct (r =? p); auto. rewrite D2, H. reflexivity.
      - unfold b'. cbn [sums fold_right snd]. fold (sums (drop q (blks s))). lia.
      - constructor; auto. }
    pose proof (CHK _ (SIM' 0)) as CK. cbn [blks] in CK. unfold b' in CK. cbn [sums fold_right snd] in CK. fold (sums (drop q (blks s))) in CK.
    rewrite ipt_ok by lia. cbn [bind]. rewrite ipt_ok by lia. cbn [bind]. eexists. split; [reflexivity|]. split; [apply SIM'|]. cbn [mmax msiz].
    destruct (Z.ltb_spec (mmax s) (msiz s - oz + Z.lor z 8)); lia.
  - destruct LG as (Hz & Hq & Hf). unfold memReallocRecord. rewrite H. destruct (l q) eqn:Eq; [|congruence]. cbn [bind].
    eexists. split; [reflexivity|]. split; [auto|]. lia.
  - unfold memFreeRecord. rewrite H. destruct (l q) as [oz|] eqn:Eq; [|congruence]. rewrite <- H in Eq.
    destruct (drop_spec q (blks s) oz N Eq) as (D1 & D2 & D3).
    assert (FD : Forall (fun x => 0 <= snd x) (drop q (blks s))) by (rewrite Forall_forall in *; intros x Hx; apply F; eapply drop_incl; eauto).
    pose proof (sums_nonneg _ FD) as SD.
    assert (Hoz : 0 <= oz).
    { assert (G : In (q, oz) (blks s)). { clear - Eq. induction (blks s) as [|[a b] r IH]; cbn [hdr] in Eq; [discriminate|]. destruct (Z.eqb_spec a q); [left; congruence|right; auto]. }
      rewrite Forall_forall in F. apply (F (q, oz) G). }
    rewrite ipt_ok by lia. cbn [bind]. eexists. split; [reflexivity|]. split; [|cbn [mmax msiz]; lia].
    split; [|split; [|split]]; cbn [blks msiz]; auto; [|lia]. intros r. rewrite D2, H. unfold lset. reflexivity.
Qed.

Lemma mrun_snoc h : forall s op, mrun s (h ++ [op]) = do s <- mrun s h; mstep s op.
Proof.
  induction h as [|x h IH]; intros s op; cbn [app mrun].
  - cbn [bind]. destruct (mstep s op); reflexivity.
  - rewrite bind_assoc. destruct (mstep s x); cbn [bind]; auto.
Qed.
Lemma legal_snoc h : forall l op, legal l (h ++ [op]) -> legal l h /\ legal (fold_left lstep h l) [op].
Proof.
  induction h as [|x h IH]; intros l op H; cbn [app legal fold_left] in *; [tauto|].
  destruct H as [H1 H2]. apply IH in H2. tauto.
Qed.

Lemma mrun_spec h : legal (fun _ => None) h -> fits h ->
  exists s, mrun ms0 h = Ok s /\ msim s (lrun h) /\ msiz s <= mmax s /\ peak h (mmax s).
Proof.
  induction h as [|op h IH] using rev_ind; intros LG FT.
  - exists ms0. split; [reflexivity|].
    assert (L0 : forall t, livesum (fun _ => None) t -> t = 0).
    { intros t (ps & _ & I & ->). destruct ps as [|p ps]; [reflexivity|]. exfalso. apply (proj1 (I p) (or_introl eq_refl)). reflexivity. }
    split; [|split; [cbn; lia|]].
    + split; [constructor|]. split; [reflexivity|]. split; [reflexivity|constructor].
    + split.
      * intros h1 h2 t E HL. destruct h1; [|discriminate]. apply L0 in HL. subst. cbn. lia.
      * exists [], []. split; [reflexivity|]. exists []. split; [constructor|]. split; [|reflexivity]. intros p. cbn. tauto.
  - apply legal_snoc in LG as [LG1 LG2].
    assert (FT1 : fits h) by (intros h1 h2 -> t HL; apply (FT h1 (h2 ++ [op])); [now rewrite app_assoc|auto]).
    destruct (IH LG1 FT1) as (s & R & SIM & MX & PK). fold (lrun h) in LG2.
    assert (ER : lrun (h ++ [op]) = lstep (lrun h) op) by (unfold lrun; now rewrite fold_left_app).
    destruct (mstep_spec s (lrun h) op SIM LG2 MX) as (s' & E' & SIM' & MX').
    { destruct SIM as (a & b & c & d). rewrite <- c. apply (FT1 h []); [now rewrite app_nil_r|]. apply msim_sum. split; auto. }
    { intros t HL. apply (FT (h ++ [op]) []); [now rewrite app_nil_r|]. now rewrite ER. }
    exists s'. rewrite mrun_snoc, R, ER. cbn [bind]. split; [auto|]. split; [auto|]. split; [lia|].
    pose proof (msim_sum _ _ SIM') as SUM'. rewrite <- ER in SUM'. unfold memCur in SUM'.
    destruct PK as [PK1 (g1 & g2 & Eg & PK2)]. split.
    + intros h1 h2 t E HL. destruct h2 as [|x h2 _] using rev_ind.
      * rewrite app_nil_r in E. subst h1. pose proof (livesum_fun _ _ _ HL SUM'). lia.
      * rewrite app_assoc in E. apply app_inj_tail in E as [E _]. pose proof (PK1 h1 h2 t E HL). lia.
    + destruct (Z_le_gt_dec (msiz s') (mmax s)).
      * exists g1, (g2 ++ [op]). split; [now rewrite app_assoc, <- Eg|]. replace (mmax s') with (mmax s) by lia. auto.
      * exists (h ++ [op]), []. split; [now rewrite app_nil_r|]. replace (mmax s') with (msiz s') by lia. auto.
Qed.
