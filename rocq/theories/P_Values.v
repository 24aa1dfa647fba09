(** Proofs about context option values. *)
From Verif Require Import Base Mem M_Values S_Values.

Lemma zlen_slice d o n : 0 <= n -> zlen (slice d o n) = n.
Proof. intros. unfold slice. now rewrite zlen_map, zlen_zseq. Qed.
Lemma at_slice d o n k : 0 <= k < n -> at_ 0 (slice d o n) k = at_ 0 d (o + k).
Proof. intros. unfold slice. rewrite at_map by (rewrite zlen_zseq; lia). rewrite at_zseq by lia. f_equal. lia. Qed.

Lemma slice_upd_in d o n k x : 0 <= o -> 0 <= k < n -> o + n <= zlen d ->
  slice (upd 0 d (o + k) x) o n = upd 0 (slice d o n) k x.
Proof.
  intros. apply (at_ext 0); [rewrite zlen_upd, !zlen_slice; lia|]. rewrite zlen_slice by lia. intros i Hi.
  rewrite at_slice by lia. rewrite !at_upd by (rewrite ?zlen_slice; lia).
  destruct (Z.eqb_spec (o + k) (o + i)), (Z.eqb_spec k i); try lia; auto. now rewrite at_slice by lia.
Qed.
Lemma slice_upd_out d o n j x : 0 <= o -> 0 <= j < zlen d -> o + n <= zlen d -> (j < o \/ o + n <= j) ->
  slice (upd 0 d j x) o n = slice d o n.
Proof.
  intros. destruct (Z_le_gt_dec n 0) as [Hn|Hn].
  { unfold slice. rewrite zseq_0 by lia. reflexivity. }
  apply (at_ext 0); [rewrite !zlen_slice; lia|]. rewrite zlen_slice by lia. intros i Hi.
  rewrite !at_slice by lia. rewrite at_upd by lia. destruct (Z.eqb_spec j (o + i)); [lia|auto].
Qed.

Section Sim.
  Context (deq : Z -> Z -> bool) (def : list Z) (vi oi vd od : Z) (LAY : layout def vi oi vd od).

  Definition ctxok (h : list (list Z)) (v : VC) : Prop :=
    dain v = 0 /\ datasiz v = zlen def /\ vintnbr v = vi /\ ointval v = oi /\ vdblnbr v = vd /\ odblval v = od /\
    0 <= data v < zlen h /\ zlen (at_ 0 h (data v)) = zlen def.
  Definition inv (s : VS) : Prop :=
    1 <= zlen (heap s) /\ at_ 0 (heap s) 0 = def /\
    (forall c, 0 <= c < zlen (ctxs s) -> ctxok (heap s) (at_ 0 (ctxs s) c)) /\
    (forall c c', 0 <= c < zlen (ctxs s) -> 0 <= c' < zlen (ctxs s) -> c <> c' ->
       data (at_ 0 (ctxs s) c) = data (at_ 0 (ctxs s) c') -> data (at_ 0 (ctxs s) c) = 0).
  Notation absc := (absc vi oi vd od).
  Notation abs := (abs vi oi vd od).

  Lemma zlen_abs s : zlen (abs s) = zlen (ctxs s).
  Proof. unfold S_Values.abs. apply zlen_map. Qed.
  Lemma at_abs s c : 0 <= c < zlen (ctxs s) -> at_ 0 (abs s) c = absc (heap s) (at_ 0 (ctxs s) c).
  Proof. intros. unfold S_Values.abs. apply at_map. lia. Qed.

  (** after a successful private copy, nothing observable changed and the
      context has its own area *)
  Lemma allocate_spec alloc s c : inv s -> 0 <= c < zlen (ctxs s) ->
    exists o s', contextValuesAllocate alloc s c = Ok (o, s') /\ inv s' /\ zlen (ctxs s') = zlen (ctxs s) /\ abs s' = abs s /\
      (o = 1 /\ alloc = false \/ o = 0 /\ data (at_ 0 (ctxs s') c) <> 0).
  Proof.
    intros (I1 & I2 & I3 & I4) Hc. unfold contextValuesAllocate. rewrite rd_ok by lia. cbn [bind].
    pose proof (I3 c Hc) as (K1 & K2 & K3 & K4 & K5 & K6 & K7 & K8). set (v := at_ 0 (ctxs s) c) in *.
    destruct (Z.eqb_spec (data v) (dain v)) as [E|E].
    2: { exists 0, s. split; [auto|]. split; [repeat (split; auto)|]. split; [auto|]. split; [auto|]. right. split; [auto|]. fold v. lia. }
    destruct alloc.
    2: { exists 1, s. split; [auto|]. split; [repeat (split; auto)|]. auto. }
    rewrite rd_ok by lia. cbn [bind]. rewrite K1, I2, K2.
    pose proof (zlen_nonneg def). destruct (Z.ltb_spec (zlen def) 0); [lia|]. rewrite Z.ltb_irrefl. cbn [orb].
    rewrite wr_ok by lia. cbn [bind].
    assert (EF : firstn (Z.to_nat (zlen def)) def = def) by (unfold zlen; rewrite Nat2Z.id; apply firstn_all). rewrite EF.
    eexists 0, _. split; [reflexivity|].
    assert (AH : forall i, 0 <= i < zlen (heap s) -> at_ 0 (heap s ++ [def]) i = at_ 0 (heap s) i) by (intros; apply at_app1; lia).
    assert (AN : at_ 0 (heap s ++ [def]) (zlen (heap s)) = def) by (rewrite at_app2 by lia; rewrite Z.sub_diag; apply at_cons_0).
    assert (AC : forall c', 0 <= c' < zlen (ctxs s) ->
      at_ 0 (upd 0 (ctxs s) c (set_data v (zlen (heap s)))) c' = if c =? c' then set_data v (zlen (heap s)) else at_ 0 (ctxs s) c')
      by (intros; apply at_upd; lia).
    split; [|split; [|split]]; cbn [heap ctxs].
    - unfold inv. cbn [heap ctxs]. rewrite zlen_snoc, zlen_upd. split; [lia|]. split; [rewrite AH by lia; auto|]. split.
      + intros c' Hc'. rewrite AC by lia. destruct (Z.eqb_spec c c') as [<-|].
        * unfold ctxok, set_data. cbn [dain data datasiz vintnbr ointval vdblnbr odblval]. rewrite zlen_snoc, AN. repeat (split; [auto; lia|]). auto.
        * destruct (I3 c' Hc') as (q1 & q2 & q3 & q4 & q5 & q6 & q7 & q8). unfold ctxok. rewrite zlen_snoc, AH by lia.
          repeat (split; [auto; lia|]). auto.
      + intros c1 c2 H1 H2 Hne. rewrite !AC by lia. destruct (Z.eqb_spec c c1), (Z.eqb_spec c c2); try lia; cbn [set_data data]; intros Ed.
        all: destruct (I3 c2 H2) as (_ & _ & _ & _ & _ & _ & q7 & _); destruct (I3 c1 H1) as (_ & _ & _ & _ & _ & _ & q8 & _).
        all: first [lia | apply (I4 c1 c2); auto].
    - apply zlen_upd.
    - apply (at_ext 0); [rewrite !zlen_abs; cbn [ctxs]; apply zlen_upd|]. rewrite zlen_abs. cbn [ctxs]. rewrite zlen_upd. intros i Hi.
      rewrite !at_abs by (cbn [ctxs]; rewrite ?zlen_upd; lia). cbn [heap ctxs]. rewrite AC by lia.
      destruct (Z.eqb_spec c i) as [<-|].
      + fold v. unfold S_Values.absc. cbn [set_data data]. rewrite AN. now rewrite E, K1, I2.
      + unfold S_Values.absc. destruct (I3 i ltac:(lia)) as (_ & _ & _ & _ & _ & _ & q7 & _). now rewrite AH by lia.
    - right. split; [auto|]. rewrite AC, Z.eqb_refl by lia. cbn [set_data data]. lia.
  Qed.

  (** overwriting one cell of a private area *)
  Lemma poke_spec s c j x : inv s -> 0 <= c < zlen (ctxs s) -> 0 <= j < zlen def -> data (at_ 0 (ctxs s) c) <> 0 ->
    let v := at_ 0 (ctxs s) c in
    let d' := upd 0 (at_ 0 (heap s) (data v)) j x in
    let s' := {| heap := upd 0 (heap s) (data v) d'; ctxs := ctxs s |} in
    inv s' /\ abs s' = upd 0 (abs s) c {| ints := slice d' oi vi; dbls := slice d' od vd |}.
  Proof.
    intros (I1 & I2 & I3 & I4) Hc Hj Hd v d' s'. pose proof (I3 c Hc) as (K1 & K2 & K3 & K4 & K5 & K6 & K7 & K8).
    assert (Ld : zlen d' = zlen def) by (unfold d'; rewrite zlen_upd; auto).
    assert (AH : forall i, 0 <= i < zlen (heap s) -> at_ 0 (upd 0 (heap s) (data v) d') i = if data v =? i then d' else at_ 0 (heap s) i)
      by (intros; apply at_upd; unfold v; lia).
    fold v in K7, K8, Hd. split.
    - unfold inv, s'. cbn [heap ctxs]. rewrite zlen_upd. split; [auto|]. split.
      { rewrite AH by lia. destruct (Z.eqb_spec (data v) 0); [congruence|auto]. }
      split; [|auto]. intros c' Hc'. destruct (I3 c' Hc') as (q1 & q2 & q3 & q4 & q5 & q6 & q7 & q8). unfold ctxok. rewrite zlen_upd, AH by lia.
      repeat (split; [auto; lia|]). destruct (data v =? _); auto.
    - apply (at_ext 0); [rewrite zlen_upd, !zlen_abs; reflexivity|]. rewrite zlen_abs. unfold s' at 1. cbn [ctxs]. intros i Hi.
      rewrite at_abs by (unfold s'; cbn [ctxs]; lia). unfold s'. cbn [heap ctxs]. rewrite (at_upd 0 (abs s) c i) by (rewrite ?zlen_abs; unfold s' in *; cbn [ctxs] in *; lia).
      destruct (I3 i ltac:(lia)) as (_ & _ & _ & _ & _ & _ & q7 & _).
      destruct (Z.eqb_spec c i) as [<-|].
      + fold v. unfold S_Values.absc. rewrite AH by auto. now rewrite Z.eqb_refl.
      + rewrite at_abs by lia. unfold S_Values.absc. rewrite AH by auto. destruct (Z.eqb_spec (data v) (data (at_ 0 (ctxs s) i))) as [E|]; [|auto].
        exfalso. apply Hd. unfold v. apply (I4 c i); auto; lia.
  Qed.

  Lemma setInt_spec alloc s c n x : inv s -> 0 <= c < zlen (ctxs s) ->
    exists o s', contextValuesSetInt alloc s c n x = Ok (o, s') /\ inv s' /\ zlen (ctxs s') = zlen (ctxs s) /\
      vspec deq (abs s) (VSetInt alloc c n x) o 0 (abs s').
  Proof.
    intros INV Hc. pose proof INV as (I1 & I2 & I3 & I4). pose proof (I3 c Hc) as (K1 & K2 & K3 & K4 & K5 & K6 & K7 & K8).
    destruct LAY as (l1 & l2 & l3 & l4 & l5 & l6 & l7).
    unfold contextValuesSetInt, setval. rewrite rd_ok by lia. cbn [bind]. rewrite K3, K4. cbn [vspec]. rewrite at_abs by lia.
    unfold S_Values.absc at 1. cbn [ints]. rewrite zlen_slice by lia.
    destruct (Z.ltb_spec n 0); cbn [orb]; [exists 1, s; replace (_ && _) with false by lia; auto|].
    destruct (Z.leb_spec vi n); [exists 1, s; replace (_ && _) with false by lia; auto|].
    replace ((0 <=? n) && (n <? vi)) with true by lia.
    rewrite rd_ok by lia. cbn [bind]. rewrite rd_ok by lia. cbn [bind].
    set (v := at_ 0 (ctxs s) c) in *.
    destruct (Z.eqb_spec (at_ 0 (at_ 0 (heap s) (data v)) (oi + n)) x) as [E|E].
    { exists 0, s. split; [auto|]. split; [auto|]. split; [auto|]. left. split; [auto|].
      apply (at_ext 0); [now rewrite zlen_upd|]. rewrite zlen_abs. intros i Hi. rewrite at_upd by (rewrite ?zlen_abs; lia).
      destruct (Z.eqb_spec c i) as [<-|]; [|auto]. rewrite at_abs by lia. fold v. unfold S_Values.absc. cbn [ints dbls]. f_equal.
      apply (at_ext 0); [now rewrite zlen_upd|]. rewrite zlen_slice by lia. intros k Hk. rewrite at_upd by (rewrite ?zlen_slice; lia).
      destruct (Z.eqb_spec n k) as [<-|]; [|auto]. now rewrite at_slice by lia. }
    destruct (allocate_spec alloc s c INV Hc) as (o & s1 & -> & INV1 & L1 & A1 & [[-> EA]|[-> D1]]); cbn [bind].
    { exists 1, s1. rewrite A1. auto 8. }
    cbn [Z.eqb negb]. pose proof INV1 as (J1 & J2 & J3 & J4). pose proof (J3 c ltac:(lia)) as (M1 & M2 & M3 & M4 & M5 & M6 & M7 & M8).
    rewrite rd_ok by lia. cbn [bind]. rewrite rd_ok by lia. cbn [bind]. rewrite M4. rewrite wr_ok by lia. cbn [bind]. rewrite wr_ok by lia. cbn [bind].
    eexists 0, _. split; [reflexivity|]. destruct (poke_spec s1 c (oi + n) x INV1 ltac:(lia) ltac:(lia) D1) as [P1 P2].
    split; [exact P1|]. split; [exact L1|]. left. split; [auto|]. rewrite P2, A1. f_equal.
    assert (EV : absc (heap s) v = absc (heap s1) (at_ 0 (ctxs s1) c)) by (unfold v; rewrite <- !at_abs by lia; now rewrite A1).
    rewrite EV. unfold S_Values.absc. cbn [ints dbls]. rewrite slice_upd_in by lia. f_equal. apply slice_upd_out; lia.
  Qed.

  Lemma setDbl_spec alloc s c n x : inv s -> 0 <= c < zlen (ctxs s) ->
    exists o s', contextValuesSetDbl deq alloc s c n x = Ok (o, s') /\ inv s' /\ zlen (ctxs s') = zlen (ctxs s) /\
      vspec deq (abs s) (VSetDbl alloc c n x) o 0 (abs s').
  Proof.
    intros INV Hc. pose proof INV as (I1 & I2 & I3 & I4). pose proof (I3 c Hc) as (K1 & K2 & K3 & K4 & K5 & K6 & K7 & K8).
    destruct LAY as (l1 & l2 & l3 & l4 & l5 & l6 & l7).
    unfold contextValuesSetDbl, setval. rewrite rd_ok by lia. cbn [bind]. rewrite K5, K6. cbn [vspec]. rewrite at_abs by lia.
    unfold S_Values.absc at 1. cbn [dbls]. rewrite zlen_slice by lia.
    destruct (Z.ltb_spec n 0); cbn [orb]; [exists 1, s; replace (_ && _) with false by lia; auto|].
    destruct (Z.leb_spec vd n); [exists 1, s; replace (_ && _) with false by lia; auto|].
    replace ((0 <=? n) && (n <? vd)) with true by lia.
    rewrite rd_ok by lia. cbn [bind]. rewrite rd_ok by lia. cbn [bind].
    set (v := at_ 0 (ctxs s) c) in *.
    destruct (deq (at_ 0 (at_ 0 (heap s) (data v)) (od + n)) x) eqn:E.
    { exists 0, s. split; [auto|]. split; [auto|]. split; [auto|]. left. split; [auto|]. right. split; [|auto].
      unfold S_Values.absc. cbn [dbls]. now rewrite at_slice by lia. }
    destruct (allocate_spec alloc s c INV Hc) as (o & s1 & -> & INV1 & L1 & A1 & [[-> EA]|[-> D1]]); cbn [bind].
    { exists 1, s1. rewrite A1. auto 8. }
    cbn [Z.eqb negb]. pose proof INV1 as (J1 & J2 & J3 & J4). pose proof (J3 c ltac:(lia)) as (M1 & M2 & M3 & M4 & M5 & M6 & M7 & M8).
    rewrite rd_ok by lia. cbn [bind]. rewrite rd_ok by lia. cbn [bind]. rewrite M6. rewrite wr_ok by lia. cbn [bind]. rewrite wr_ok by lia. cbn [bind].
    eexists 0, _. split; [reflexivity|]. destruct (poke_spec s1 c (od + n) x INV1 ltac:(lia) ltac:(lia) D1) as [P1 P2].
    split; [exact P1|]. split; [exact L1|]. left. split; [auto|]. left. rewrite P2, A1. f_equal.
    assert (EV : absc (heap s) v = absc (heap s1) (at_ 0 (ctxs s1) c)) by (unfold v; rewrite <- !at_abs by lia; now rewrite A1).
    rewrite EV. unfold S_Values.absc. cbn [ints dbls]. rewrite slice_upd_in by lia. f_equal. apply slice_upd_out; lia.
  Qed.

  Lemma vstep_spec s op : inv s -> 0 <= vctx op < zlen (ctxs s) ->
    exists r v s', vstep deq s op = Ok (r, v, s') /\ inv s' /\ zlen (ctxs s') = zlen (ctxs s) /\ vspec deq (abs s) op r v (abs s').
  Proof.
    intros INV Hc. destruct op as [a c n x|a c n x|c n|c n]; cbn [vctx vstep] in *.
    - destruct (setInt_spec a s c n x INV Hc) as (o & s' & -> & ? & ? & ?). exists o, 0, s'. auto.
    - destruct (setDbl_spec a s c n x INV Hc) as (o & s' & -> & ? & ? & ?). exists o, 0, s'. auto.
    - pose proof INV as (I1 & I2 & I3 & I4). pose proof (I3 c Hc) as (K1 & K2 & K3 & K4 & K5 & K6 & K7 & K8).
      destruct LAY as (l1 & l2 & l3 & l4 & l5 & l6 & l7).
      unfold contextValuesGetInt, getval. rewrite rd_ok by lia. cbn [bind vspec]. rewrite K3, K4, at_abs by lia. unfold S_Values.absc. cbn [ints]. rewrite zlen_slice by lia.
      destruct (Z.ltb_spec n 0); cbn [orb bind]; [eexists 1, 0, s; replace (_ && _) with false by lia; auto|].
      destruct (Z.leb_spec vi n); cbn [bind]; [eexists 1, 0, s; replace (_ && _) with false by lia; auto|].
      rewrite rd_ok by lia. cbn [bind]. rewrite rd_ok by lia. cbn [bind]. eexists 0, _, s. replace (_ && _) with true by lia. split; [reflexivity|].
      rewrite at_slice by lia. auto 8.
    - pose proof INV as (I1 & I2 & I3 & I4). pose proof (I3 c Hc) as (K1 & K2 & K3 & K4 & K5 & K6 & K7 & K8).
      destruct LAY as (l1 & l2 & l3 & l4 & l5 & l6 & l7).
      unfold contextValuesGetDbl, getval. rewrite rd_ok by lia. cbn [bind vspec]. rewrite K5, K6, at_abs by lia. unfold S_Values.absc. cbn [dbls]. rewrite zlen_slice by lia.
      destruct (Z.ltb_spec n 0); cbn [orb bind]; [eexists 1, 0, s; replace (_ && _) with false by lia; auto|].
      destruct (Z.leb_spec vd n); cbn [bind]; [eexists 1, 0, s; replace (_ && _) with false by lia; auto|].
      rewrite rd_ok by lia. cbn [bind]. rewrite rd_ok by lia. cbn [bind]. eexists 0, _, s. replace (_ && _) with true by lia. split; [reflexivity|].
      rewrite at_slice by lia. auto 8.
  Qed.

  Lemma vrun_spec h : forall s, inv s -> Forall (fun op => 0 <= vctx op < zlen (ctxs s)) h ->
    exists rs s', vrun deq s h = Ok (rs, s') /\ inv s' /\ zlen (ctxs s') = zlen (ctxs s) /\ vhist deq (abs s) h rs (abs s').
  Proof.
    induction h as [|op h IH]; intros s INV HF.
    - exists [], s. split; [auto|]. split; [auto|]. split; [auto|]. constructor.
    - inversion HF; subst. destruct (vstep_spec s op INV) as (r & v & s1 & E & INV1 & L1 & V); auto.
      destruct (IH s1 INV1) as (rs & s' & E' & INV' & L' & V'); [now rewrite L1|].
      cbn [vrun]. rewrite E. cbn [bind]. rewrite E'. cbn [bind]. eexists _, s'. split; [reflexivity|]. split; [auto|]. split; [lia|].
      econstructor; eauto.
  Qed.

  Lemma fresh_spec k : inv (fresh def vi oi vd od k) /\
    abs (fresh def vi oi vd od k) = repeat {| ints := slice def oi vi; dbls := slice def od vd |} k.
  Proof.
    assert (E : fresh def vi oi vd od k = {| heap := [def]; ctxs := repeat {| dain := 0; data := 0; datasiz := zlen def; vintnbr := vi; ointval := oi; vdblnbr := vd; odblval := od |} k |}).
    { induction k as [|k IH]; [reflexivity|]. change (fresh def vi oi vd od (S k)) with (contextValuesInit (fresh def vi oi vd od k) 0 (zlen def) vi oi vd od). rewrite IH. unfold contextValuesInit. cbn [heap ctxs].
      f_equal. now rewrite <- repeat_cons. }
    rewrite E. clear E. split.
    - unfold inv. cbn [heap ctxs]. change (zlen [def]) with 1. rewrite zlen_repeat. split; [lia|]. split; [reflexivity|]. split.
      + intros c Hc. rewrite at_repeat by lia. unfold ctxok. cbn [dain data datasiz vintnbr ointval vdblnbr odblval]. change (zlen [def]) with 1.
        repeat (split; [auto; lia|]). reflexivity.
      + intros c c' Hc Hc' _ _. rewrite at_repeat by lia. reflexivity.
    - unfold S_Values.abs. cbn [heap ctxs]. induction k as [|k IH]; [reflexivity|]. cbn [repeat map]. f_equal. exact IH.
  Qed.
End Sim.

(** ** Options *)

Lemma setNum_eq alloc s c n x : contextOptionSetNum alloc s c n x =
  if (x =? 0) || (x =? 1) then contextValuesSetInt alloc s c n x else Ok (1, s).
Proof.
  unfold contextOptionSetNum, OPTRANDOMFIXEDSEED, OPTDETERMINISTIC.
  destruct (Z.eqb_spec x 1) as [->|]; [reflexivity|]. destruct (Z.eqb_spec x 0) as [->|]; reflexivity.
Qed.

Lemma optfind_letter k a : optfind k contextOptionTab = Some a <-> letter k a.
Proof.
  unfold contextOptionTab, letter, OPTDETERMINISTIC, OPTRANDOMFIXEDSEED. cbn [optfind].
  destruct (Z.eqb_spec 100 k) as [<-|]; [intuition congruence|].
  destruct (Z.eqb_spec 117 k) as [<-|]; [intuition congruence|].
  destruct (Z.eqb_spec 102 k) as [<-|]; [intuition congruence|].
  destruct (Z.eqb_spec 114 k) as [<-|]; intuition congruence.
Qed.

Lemma skipsp_app ws r : Forall (fun c => isspace c = true) ws -> skipsp (ws ++ r) = skipsp r.
Proof. induction 1 as [|c ws Hc _ IH]; [reflexivity|]. cbn [app skipsp]. now rewrite Hc. Qed.
Lemma skipsp_split l : exists ws, Forall (fun c => isspace c = true) ws /\ l = ws ++ skipsp l /\ match skipsp l with c :: _ => isspace c = false | [] => True end.
Proof.
  induction l as [|c l IH]; [exists []; cbn; auto|]. cbn [skipsp]. destruct (isspace c) eqn:E.
  - destruct IH as (ws & H1 & H2 & H3). exists (c :: ws). split; [constructor; auto|]. split; [cbn; now rewrite <- H2|auto].
  - exists []. auto.
Qed.
Lemma letter_class k a : letter k a -> isalpha k = true /\ isspace k = false /\ (k =? 44) = false.
Proof. unfold letter. intros [[-> _]|[[-> _]|[[-> _]|[-> _]]]]; auto. Qed.

Lemma skip_optstr ws rest l : Forall (fun c => isspace c = true) ws -> optstr rest l -> rest <> [] -> optstr (ws ++ rest) l.
Proof.
  intros HW H HN. inversion H; subst; [congruence| |]; rewrite app_assoc; econstructor; eauto; apply Forall_app; auto.
Qed.

Lemma parse_complete alloc c l : forall str, optstr str l -> forall s fuel, (length str < fuel)%nat ->
  contextOptionParse fuel alloc s c str = do s <- setall alloc s c l; Ok (0, s).
Proof.
  intros str H. remember (length str) as n eqn:En. revert str l H En. induction n as [n IH] using (well_founded_induction lt_wf).
  intros str l H En s fuel Hf. destruct fuel as [|f]; [lia|]. cbn [contextOptionParse].
  inversion H as [|ws k ws' a HW HW' HL E1 E2|ws k ws' sep rest a l' HW HW' HL HS HR E1 E2]; subst.
  - reflexivity.
  - destruct (letter_class _ _ HL) as (A1 & A2 & _). apply optfind_letter in HL. rewrite skipsp_app by auto.
    destruct (ws ++ k :: ws') eqn:E; [destruct ws; discriminate|]. cbn [skipsp]. rewrite A2, A1, HL. destruct a as [num val]. cbn [negb setall].
    destruct (contextOptionSetNum alloc s c num val) as [[o s']| | |]; cbn [bind]; auto.
    replace (skipsp ws') with (@nil Z); [reflexivity|]. rewrite <- (app_nil_r ws'). now rewrite skipsp_app.
  - destruct (letter_class _ _ HL) as (A1 & A2 & _). apply optfind_letter in HL. rewrite skipsp_app by auto.
    remember (ws ++ k :: ws' ++ sep ++ rest) as str eqn:E. destruct str as [|x str]; [destruct ws; discriminate|].
    cbn [skipsp]. rewrite A2, A1, HL. destruct a as [num val]. cbn [negb setall].
    destruct (contextOptionSetNum alloc s c num val) as [[o s']| | |]; cbn [bind]; auto. rewrite skipsp_app by auto.
    assert (LE : (length rest < length (x :: str))%nat) by (rewrite E, !app_length; cbn [length]; rewrite !app_length; lia).
    destruct HS as [->|[-> HN]].
    + cbn [app skipsp]. change (isspace 44) with false. cbn [Z.eqb Pos.eqb]. apply (IH (length rest)) with (str := rest); auto; lia.
    + cbn [app].
      assert (G : exists ws2 k2 r2, rest = ws2 ++ k2 :: r2 /\ Forall (fun c => isspace c = true) ws2 /\ isspace k2 = false /\ (k2 =? 44) = false).
      { inversion HR as [|ws2 k2 ws2' a2 G1 G2 G3|ws2 k2 ws2' sep2 rest2 a2 l2 G1 G2 G3]; subst; [congruence| |];
          destruct (letter_class _ _ G3) as (q1 & q2 & q3); eauto 8. }
      destruct G as (ws2 & k2 & r2 & ER & G1 & G2 & G3). rewrite ER, skipsp_app by auto. cbn [skipsp]. rewrite G2, G3.
      assert (HR' : optstr (k2 :: r2) l').
      { subst rest. clear - HR G1 G2. inversion HR as [E|ws3 k3 ws3' a3 F1 F2 F3 E|ws3 k3 ws3' sep3 rest3 a3 l3 F1 F2 F3 F4 F5 E]; subst.
        - destruct ws2; discriminate.
        - destruct (letter_class _ _ F3) as (_ & q2 & _).
          assert (X : skipsp (ws3 ++ k3 :: ws3') = skipsp (ws2 ++ k2 :: r2)) by now rewrite E.
          rewrite !skipsp_app in X by auto. cbn [skipsp] in X. rewrite q2, G2 in X. rewrite <- X. apply (os_last []); auto.
        - destruct (letter_class _ _ F3) as (_ & q2 & _).
          assert (X : skipsp (ws3 ++ k3 :: ws3' ++ sep3 ++ rest3) = skipsp (ws2 ++ k2 :: r2)) by now rewrite E.
          rewrite !skipsp_app in X by auto. cbn [skipsp] in X. rewrite q2, G2 in X. rewrite <- X. apply (os_cons [] k3 ws3' sep3 rest3); auto. }
      assert (LE2 : (length (k2 :: r2) <= length rest)%nat) by (rewrite ER, app_length; lia).
      apply (IH (length (k2 :: r2))) with (str := k2 :: r2); auto; lia.
Qed.

Lemma parse_sound alloc c : forall fuel str s o s', contextOptionParse fuel alloc s c str = Ok (o, s') ->
  (o = 0 -> exists l, optstr str l /\ setall alloc s c l = Ok s') /\ (o = 0 \/ o = 1).
Proof.
  induction fuel as [|f IH]; intros str s o s' H; [discriminate|]. cbn [contextOptionParse] in H.
  destruct str as [|x str0]. { injection H as <- <-. split; [|auto]. intros _. exists []. split; [constructor|reflexivity]. }
  remember (x :: str0) as str eqn:ES. assert (HN : str <> []) by (rewrite ES; discriminate). clear ES.
  destruct (skipsp_split str) as (ws & W1 & W2 & W3). destruct (skipsp str) as [|k r] eqn:EK.
  { injection H as <- <-. split; [lia|auto]. }
  destruct (isalpha k); cbn [negb] in H; [|injection H as <- <-; split; [lia|auto]].
  destruct (optfind k contextOptionTab) as [[num val]|] eqn:EF; [|injection H as <- <-; split; [lia|auto]].
  apply optfind_letter in EF. apply bind_ok_inv in H as ([o1 s1] & ES & H).
  destruct (skipsp_split r) as (ws' & X1 & X2 & X3). destruct (skipsp r) as [|k' r'] eqn:ER.
  { injection H as <- <-. split; [|auto]. intros _. exists [(num, val)]. rewrite app_nil_r in X2. subst ws'. split; [rewrite W2; constructor; auto|].
    cbn [setall]. rewrite ES. reflexivity. }
  apply IH in H as [H HO]. split; [|auto]. intros E0. destruct (H E0) as (l & L1 & L2). exists ((num, val) :: l). split.
  - rewrite W2, X2. destruct (Z.eqb_spec k' 44) as [->|].
    + apply (os_cons ws k ws' [44] r'); auto.
    + apply (os_cons ws k ws' [] (k' :: r')); auto. right. split; [auto|discriminate].
  - cbn [setall]. rewrite ES. exact L2.
Qed.
