(** What any accepted graph file gives. *)
From Verif Require Import Base M_Int M_Graph M_GraphIo S_Graph S_GraphIo P_GraphList P_Induce.

Lemma wlp_push {A} n (l : list A) x (Q : list A -> Prop) : (zlen l < n -> Q (l ++ [x])) -> wlp (push n l x) Q.
Proof. intros H. unfold push. destruct (Z.ltb_spec (zlen l) n); cbn [wlp]; auto. Qed.
Lemma wlp_any {A} (r : res A) (Q : A -> Prop) : (forall a, Q a) -> wlp r Q.
Proof. intros. apply wlp_intro. auto. Qed.

Definition sumz (l : list Z) : Z := lsum (fun x => x) l.
Lemma sumz_snoc l x : sumz (l ++ [x]) = sumz l + x.
Proof. unfold sumz. rewrite lsum_app. cbn. lia. Qed.

(** optional array with its running sum: [None] leaves the sum at [d] *)
Definition osum (d len : Z) (o : option (list Z)) (sum : Z) : Prop :=
  match o with Some l => zlen l = len /\ sum = sumz l | None => sum = d end.

Lemma loadArc_any imax m adj pe d s et el esum : (pe = true \/ el = None) -> osum d (zlen et) el esum ->
  wlp (loadArc imax m adj pe (s, et, el, esum)) (fun '(s', et', el', esum') => zlen et' = zlen et + 1 /\ (pe = true \/ el' = None) /\ osum d (zlen et') el' esum').
Proof.
  intros HP HO. unfold loadArc. apply wlp_bind.
  apply wlp_mono with (Q := fun '(s', el', esum') => (pe = true \/ el' = None) /\ osum d (zlen et + 1) el' esum').
  - destruct pe; cbn [wlp].
    + apply wlp_bind. apply wlp_any. intros (x & s1). destruct el as [l|]; cbn [wlp].
      * apply wlp_bind. apply wlp_push. intros _. cbn [wlp]. destruct HO as (H1 & H2). split; [auto|]. cbn [osum]. rewrite zlen_snoc, sumz_snoc. lia.
      * auto.
    + destruct HP as [?| ->]; [discriminate|]. cbn [osum] in *. auto.
  - intros ((s1 & el1) & es1) (H1 & H2). apply wlp_bind. apply wlp_any. intros (w & s2). apply wlp_bind. apply wlp_push. intros _. cbn [wlp]. rewrite zlen_snoc. auto.
Qed.

Lemma loadArcs_any imax m adj pe d lo hi s et el esum : (pe = true \/ el = None) -> osum d (zlen et) el esum ->
  wlp (for_ lo hi (fun _ => loadArc imax m adj pe) (s, et, el, esum)) (fun '(s', et', el', esum') => zlen et' = zlen et + Z.max 0 (hi - lo) /\ (pe = true \/ el' = None) /\ osum d (zlen et') el' esum').
Proof.
  intros HP HO. destruct (Z.le_gt_cases lo hi) as [Hle|Hgt].
  - apply wlp_for with (I := fun i st => let '(s', et', el', esum') := st in zlen et' = zlen et + (i - lo) /\ (pe = true \/ el' = None) /\ osum d (zlen et') el' esum').
    + auto.
    + split; [lia|auto].
    + intros i (((s1 & et1) & el1) & es1) Hi (H1 & H2 & H3). eapply wlp_mono; [apply loadArc_any; eauto|]. intros (((s2 & et2) & el2) & es2) (K1 & K2 & K3). split; [lia|auto].
    + intros (((s2 & et2) & el2) & es2) (K1 & K2 & K3). split; [lia|auto].
  - rewrite for_nil by lia. cbn [wlp]. split; [lia|auto].
Qed.

Definition olen (k : Z) (o : option (list Z)) : Prop := match o with Some l => zlen l = k | None => True end.

(** state after [k] vertices *)
Definition linv (b n m : Z) (pv pe : bool) (k : Z) (st : ldst) : Prop :=
  zlen (lvt st) = k /\ at_ 0 (lvt st ++ [lenum st]) 0 = b /\
  (forall i, 0 <= i < k -> 0 <= at_ 0 (lvt st ++ [lenum st]) (i + 1) - at_ 0 (lvt st ++ [lenum st]) i <= ldmax st) /\
  0 <= ldmax st /\ zlen (let_ st) = lenum st - b /\ olen k (lvl st) /\
  (pv = true \/ lve st = None) /\ osum n k (lve st) (lvsum st) /\
  (pe = true \/ lel st = None) /\ osum m (lenum st - b) (lel st) (lesum st).

Lemma loadVert_any imax b n m ennd adj pv pe k st : 0 <= k -> linv b n m pv pe k st ->
  wlp (loadVert imax n m ennd adj pv pe st) (linv b n m pv pe (k + 1)).
Proof.
  intros Hk (H1 & H2 & H3 & H4 & H5 & H6 & H7 & H8 & H9 & H10). unfold loadVert. apply wlp_bind.
  apply wlp_mono with (Q := fun '(s, vl, lm) => olen (k + 1) vl).
  { destruct (lvl st) as [l|]; cbn [wlp]; [|exact I]. apply wlp_bind. apply wlp_any. intros (x & s1). apply wlp_bind. apply wlp_push. intros _. cbn [wlp olen] in *. rewrite zlen_snoc. lia. }
  intros ((s1 & vl1) & lm1) Hvl. apply wlp_bind.
  apply wlp_mono with (Q := fun '(s, ve, vs) => (pv = true \/ ve = None) /\ osum n (k + 1) ve vs).
  { destruct pv; cbn [wlp].
    - apply wlp_bind. apply wlp_any. intros (x & s2). destruct (lve st) as [l|]; cbn [wlp].
      + apply wlp_bind. apply wlp_push. intros _. cbn [wlp osum] in *. rewrite zlen_snoc, sumz_snoc. split; [auto|lia].
      + auto.
    - destruct H7 as [?|E]; [discriminate|]. rewrite E in *. cbn [osum] in *. auto. }
  intros ((s2 & ve2) & vs2) (Hp & Hve). apply wlp_bind. apply wlp_any. intros (dg & s3). apply wlp_bind. apply wlp_push. intros _.
  destruct (ennd <? dg + lenum st); cbn [wlp]; [exact I|]. apply wlp_bind.
  eapply wlp_mono; [apply loadArcs_any with (d := m); [exact H9 | rewrite H5; exact H10]|].
  intros (((s4 & et4) & el4) & es4) (K1 & K2 & K3). cbn [wlp]. unfold linv. cbn [lvt lenum ldmax let_ lvl lve lvsum lel lesum].
  replace (dg + lenum st - lenum st) with dg in K1 by lia.
  assert (AE : forall i, 0 <= i <= k -> at_ 0 ((lvt st ++ [lenum st]) ++ [Z.max (lenum st) (dg + lenum st)]) i = at_ 0 (lvt st ++ [lenum st]) i) by (intros; apply at_app1; rewrite zlen_snoc; lia).
  split; [rewrite zlen_snoc; lia|]. split; [rewrite AE by lia; auto|]. split.
  { intros i Hi. destruct (Z.eq_dec i k) as [->|Hne].
    - rewrite (AE k) by lia. rewrite (at_app2 0 (lvt st ++ [lenum st]) _ (k + 1)) by (rewrite zlen_snoc; lia). rewrite (at_app2 0 (lvt st) _ k) by lia. rewrite zlen_snoc, H1.
      replace (k + 1 - (k + 1)) with 0 by lia. replace (k - k) with 0 by lia. rewrite !at_cons_0. destruct (Z.ltb_spec (ldmax st) dg); lia.
    - rewrite !AE by lia. specialize (H3 i ltac:(lia)). destruct (Z.ltb_spec (ldmax st) dg); lia. }
  split; [destruct (Z.ltb_spec (ldmax st) dg); lia|]. split; [lia|]. split; [auto|]. split; [auto|]. split; [auto|]. split; [auto|].
  replace (Z.max (lenum st) (dg + lenum st) - b) with (zlen et4) by lia. exact K3.
Qed.

Lemma load2_any imax b nnd vt et lm lb : 0 <= b <= nnd -> (forall v, b <= v < nnd -> at_ b vt v <= at_ b vt (v + 1)) -> at_ b vt b = b -> at_ b vt nnd = b + zlen et ->
  wlp (graphLoad2 imax b nnd vt et lm lb) (fun et' => zlen et' = zlen et /\ (forall j, 0 <= j < zlen et -> b <= at_ 0 et' j < nnd) /\
    (forall v, b <= v < nnd -> 0 <= at_ b lb v) /\ (forall v w, b <= v < nnd -> b <= w < nnd -> at_ b lb v = at_ b lb w -> v = w) /\
    (forall j, 0 <= j < zlen et -> at_ b lb (at_ 0 et' j) = at_ 0 et j)).
Proof.
  intros Hbn Hv H0 Hend. unfold graphLoad2. apply wlp_bind. apply wlp_any. intros siz. destruct (siz <? 0); cbn [wlp]; [exact I|]. apply wlp_bind.
  apply wlp_for with (I := fun v x => (forall y, 0 <= y < zlen x -> at_ 0 x y = -1 \/ (b <= at_ 0 x y < v /\ at_ b lb (at_ 0 x y) = y)) /\
     (forall w, b <= w < v -> 0 <= at_ b lb w < zlen x /\ at_ 0 x (at_ b lb w) = w)).
  - lia.
  - split; [|intros; lia]. intros y Hy. left. rewrite zlen_repeat in Hy. apply at_repeat. lia.
  - intros v x Hvv (X1 & X2). apply wlp_bind. apply wlp_rd. intros _. apply wlp_bind. apply wlp_rd. intros Hl.
    destruct (Z.eqb_spec (at_ 0 x (at_ b lb v)) (-1)) as [E|NE]; cbn [negb wlp]; [|exact I]. apply wlp_wr. intros _. rewrite zlen_upd. split.
    + intros y Hy. rewrite at_upd by lia. destruct (Z.eqb_spec (at_ b lb v) y) as [<-|Hne]; [right; split; [lia|auto]|]. destruct (X1 y Hy) as [?|(? & ?)]; [auto|right]. split; [lia|auto].
    + intros w Hw. destruct (Z.eq_dec w v) as [->|Hne]; [split; [lia|]; rewrite at_upd by lia; now rewrite Z.eqb_refl|].
      destruct (X2 w ltac:(lia)) as (Y1 & Y2). split; [lia|]. rewrite at_upd by lia. destruct (Z.eqb_spec (at_ b lb v) (at_ b lb w)) as [Eq|_]; [|auto].
      rewrite <- Eq, E in Y2. lia.
  - intros x (X1 & X2).
    set (J := fun e (et' : list Z) => zlen et' = zlen et /\ forall j, 0 <= j < zlen et -> if j <? e - b then b <= at_ 0 et' j < nnd /\ at_ b lb (at_ 0 et' j) = at_ 0 et j else at_ 0 et' j = at_ 0 et j).
    assert (Mono : forall v, b <= v -> v <= nnd -> b <= at_ b vt v).
    { intros v Hb. pattern v. revert v Hb. apply zrange_ind; [lia|]. intros v Hb IH Hle. specialize (IH ltac:(lia)). specialize (Hv v ltac:(lia)). lia. }
    apply wlp_for with (I := fun v => J (at_ b vt v)).
    + lia.
    + rewrite H0. split; [auto|]. intros j Hj. replace (j <? b - b) with false by lia. auto.
    + intros v et1 Hvv HJ. apply wlp_bind. apply wlp_rd. intros _. apply wlp_bind. apply wlp_rd. intros _. pose proof (Mono v ltac:(lia) ltac:(lia)).
      apply wlp_for with (I := J); auto.
      intros e et2 He (J1 & J2). apply wlp_bind. apply wlp_rd. intros Hr. destruct (lm <? at_ b et2 e); cbn [wlp]; [exact I|]. apply wlp_bind. apply wlp_rd. intros Hx.
      destruct (Z.eqb_spec (at_ 0 x (at_ b et2 e)) (-1)) as [E|NE]; cbn [wlp]; [exact I|]. apply wlp_wr. intros _. split; [now rewrite zlen_upd|].
      assert (Ae : at_ b et2 e = at_ 0 et (e - b)).
      { rewrite (at_rebase 0 b). rewrite Z.add_0_r. specialize (J2 (e - b) ltac:(lia)). now rewrite Z.ltb_irrefl in J2. }
      intros j Hj. rewrite (at_rebase b 0). rewrite at_upd by lia. destruct (Z.eqb_spec e (j - 0 + b)) as [Eq|Hne].
      * replace (j <? e + 1 - b) with true by lia. destruct (X1 _ Hx) as [?|(Y1 & Y2)]; [contradiction|]. split; [lia|]. rewrite Y2, Ae. f_equal. lia.
      * specialize (J2 j Hj). rewrite (at_rebase 0 b). replace (j - 0 + b - b + 0) with j by lia. destruct (Z.ltb_spec j (e - b)), (Z.ltb_spec j (e + 1 - b)); auto; lia.
    + intros et1. rewrite Hend. intros (J1 & J2). split; [auto|].
      assert (J3 : forall j, 0 <= j < zlen et -> b <= at_ 0 et1 j < nnd /\ at_ b lb (at_ 0 et1 j) = at_ 0 et j).
      { intros j Hj. specialize (J2 j Hj). now replace (j <? b + zlen et - b) with true in J2 by lia. }
      split; [intros j Hj; now apply J3|]. split; [intros v Hvv; now apply X2|]. split; [|intros j Hj; now apply J3].
      intros v w Hvv Hw Eq. destruct (X2 v Hvv) as (_ & Y1). destruct (X2 w Hw) as (_ & Y2). rewrite Eq in Y1. congruence.
Qed.

Theorem graphLoad_any imax s bv nv ne h s' : graphLoad imax s bv nv ne = Ok (h, s') ->
  counted h /\ Z.even (edgenbr h) = true /\ (forall t, vlbltab h = Some t -> 0 <= baseval h ->
     (forall e, baseval h <= e < baseval h + edgenbr h -> isvert h (edge h e)) /\
     (forall v, isvert h v -> 0 <= at_ (baseval h) t v) /\
     (forall v w, isvert h v -> isvert h w -> at_ (baseval h) t v = at_ (baseval h) t w -> v = w)).
Proof.
  intros E. refine (wlp_elim _ (fun '(h, _) => _) (h, s') _ E). clear E h s'. unfold graphLoad.
  apply wlp_bind, wlp_any. intros (vers & s0). destruct (negb (vers =? 0)); cbn [wlp]; [exact I|].
  apply wlp_bind, wlp_any. intros (n & s1). apply wlp_bind, wlp_any. intros (m & s2). apply wlp_bind, wlp_any. intros (fb & s3). apply wlp_bind, wlp_any. intros (prop & s4).
  destruct ((prop <? 0) || (111 <? prop)); cbn [wlp]; [exact I|]. destruct (Z.ltb_spec n 0) as [|Hn]; cbn [wlp]; [exact I|].
  destruct ((m <? 0) || negb (Z.land m 1 =? 0)) eqn:Em; cbn [wlp]; [exact I|].
  assert (Hm : 0 <= m /\ Z.even m = true).
  { apply orb_false_iff in Em as (E1 & E2). split; [lia|]. apply negb_false_iff, Z.eqb_eq in E2. change 1 with (Z.ones 1) in E2. rewrite Z.land_ones in E2 by lia. change (2 ^ 1) with 2 in E2. rewrite Zmod_even in E2. destruct (Z.even m); [auto|discriminate]. }
  set (p0 := negb (prop / 100 =? 0)). set (p1 := negb (prop / 10 mod 10 =? 0)). set (p2 := negb (prop mod 10 =? 0)).
  set (b := if bv =? -1 then fb else bv). set (adj := if p0 then 0 else if bv =? -1 then 0 else bv - fb). clearbody adj b p0. clear Em.
  apply wlp_bind. apply wlp_for with (I := fun k => linv b n m p2 p1 (k - b)).
  - lia.
  - rewrite Z.sub_diag. unfold linv. cbn [lvt lenum ldmax let_ lvl lve lvsum lel lesum]. split; [reflexivity|]. split; [reflexivity|]. split; [lia|]. split; [lia|]. split; [rewrite zlen_nil; lia|].
    split; [destruct ((if p0 then n else 0) =? 0); reflexivity|].
    assert (HX : forall p q x, let sz := if p && negb q then x else 0 in (p = true \/ (if sz =? 0 then None else Some (@nil Z)) = None) /\ osum x 0 (if sz =? 0 then None else Some []) (if sz =? 0 then x else 0)).
    { intros p q x. cbv zeta. destruct p, q; cbn [andb negb]; rewrite ?Z.eqb_refl; try (split; [auto|reflexivity]). destruct (Z.eqb_spec x 0); split; auto; [reflexivity | split; reflexivity]. }
    destruct (HX p2 nv n) as (? & ?). destruct (HX p1 ne m) as (? & ?). rewrite Z.sub_diag. auto.
  - intros k st Hk HI. replace (k + 1 - b) with (k - b + 1) by lia. apply loadVert_any; auto. lia.
  - intros st. replace (n + b - b) with n by lia. intros (H1 & H2 & H3 & H4 & H5 & H6 & H7 & H8 & H9 & H10).
    apply wlp_bind, wlp_push. intros _. destruct (Z.eqb_spec (lenum st) (m + b)) as [Eq|]; cbn [negb wlp]; [|exact I]. rewrite Eq in *. replace (m + b - b) with m in * by lia.
    set (W := lvt st ++ [m + b]) in *. assert (LW : zlen W = n + 1) by (unfold W; rewrite zlen_snoc; lia).
    assert (AW : forall v, at_ b W v = at_ 0 W (v - b)) by (intros; rewrite (at_rebase 0 b); f_equal; lia).
    assert (Wend : at_ b W (n + b) = m + b) by (rewrite AW; unfold W; rewrite at_app2 by lia; rewrite H1; replace (n + b - b - n) with 0 by lia; now rewrite at_cons_0).
    assert (Wst : forall v, b <= v < n + b -> 0 <= at_ b W (v + 1) - at_ b W v <= ldmax st).
    { intros v Hv. rewrite !AW. replace (v + 1 - b) with (v - b + 1) by lia. apply H3. lia. }
    assert (W0 : at_ b W b = b) by (rewrite AW, Z.sub_diag; auto).
    assert (OS : forall t sm len, osum sm len (Some t) sm -> True) by auto. clear OS.
    apply wlp_bind. apply wlp_mono with (Q := fun et' => zlen et' = m /\ (forall t, lvl st = Some t -> 0 <= b -> (forall j, 0 <= j < m -> b <= at_ 0 et' j < n + b) /\
       (forall v, b <= v < n + b -> 0 <= at_ b t v) /\ (forall v w, b <= v < n + b -> b <= w < n + b -> at_ b t v = at_ b t w -> v = w))).
    + destruct (lvl st) as [lb|]; cbn [wlp]; [|split; [auto|discriminate]].
      destruct (Z.le_gt_cases 0 b) as [Hb|Hb].
      2:{ apply wlp_mono with (Q := fun et' => zlen et' = m); [|intros et' L; split; [auto|lia]]. unfold graphLoad2. apply wlp_bind, wlp_any. intros siz. destruct (siz <? 0); cbn [wlp]; [exact I|]. apply wlp_bind, wlp_any. intros x.
          apply wlp_for with (I := fun _ e => zlen e = m); auto; [lia|]. intros v e1 Hv L1. apply wlp_bind, wlp_rd. intros _. apply wlp_bind, wlp_rd. intros _. specialize (Wst v Hv).
          apply wlp_for with (I := fun _ e => zlen e = m); auto; [lia|]. intros e e2 He L2. apply wlp_bind, wlp_rd. intros _. destruct (llmax st <? at_ b e2 e); cbn [wlp]; [exact I|]. apply wlp_bind, wlp_rd. intros _. destruct (at_ 0 x (at_ b e2 e) =? -1); cbn [wlp]; [exact I|]. apply wlp_wr. intros _. now rewrite zlen_upd. }
      eapply wlp_mono; [apply load2_any; auto; [lia | intros v Hv; specialize (Wst v Hv); lia | lia]|]. intros et' (L1 & L2 & L3 & L4 & _). split; [lia|]. intros t [= <-] _. split; [|auto]. intros j Hj. apply L2. lia.
    + intros et' (Let & Hlb). cbn [wlp].
      assert (ZS : forall t len c, zlen t = len -> zsum c (c + len) (at_ c t) = sumz t).
      { intros t len c <-. unfold sumz. rewrite lsum_zsum. transitivity (zsum (0 + c) (zlen t + c) (at_ c t)); [f_equal; lia|]. rewrite <- zsum_shift. apply zsum_ext. intros i Hi. rewrite (at_rebase 0 c). f_equal. lia. }
      split; [|split].
      * constructor; cbn [vertnbr vertnnd baseval vendtab verttab edgetab velotab edlotab vlbltab edgenbr velosum edlosum degrmax]; auto; try lia.
        -- unfold vert. cbn [baseval verttab vertnnd]. lia.
        -- intros v (V1 & V2). cbn [baseval vertnnd] in V1, V2. unfold vert, vend. cbn [baseval verttab vendtab]. specialize (Wst v ltac:(lia)). lia.
        -- intros t Et. rewrite Et in H8. now destruct H8.
        -- intros t Et. rewrite Et in H10. now destruct H10.
        -- intros t Et. now rewrite Et in H6.
        -- unfold velo. cbn [velotab baseval]. destruct (lve st) as [t|]; [|cbn [osum] in H8; rewrite zsum_const by lia; lia]. destruct H8 as (L & ->). replace (n + b) with (b + n) by lia. symmetry. now apply ZS.
        -- unfold edlo. cbn [edlotab baseval]. destruct (lel st) as [t|]; [|cbn [osum] in H10; rewrite zsum_const by lia; lia]. destruct H10 as (L & ->). symmetry. now apply ZS.
        -- intros v (V1 & V2). cbn [baseval vertnnd] in V1, V2. unfold vert, vend. cbn [baseval verttab vendtab]. specialize (Wst v ltac:(lia)). lia.
      * cbn [edgenbr]. tauto.
      * cbn [vlbltab baseval edgenbr]. intros t Et Hb. destruct (Hlb t Et Hb) as (L1 & L2 & L3). unfold isvert. cbn [baseval vertnnd]. split; [|split].
        -- intros e He. unfold edge. cbn [baseval edgetab]. rewrite (at_rebase 0 b). replace (e - b + 0) with (e - b) by lia. specialize (L1 (e - b) ltac:(lia)). lia.
        -- intros v Hv. apply L2. lia.
        -- intros v w Hv Hw. apply L3; lia.
Qed.
