(** Proofs about coarse graph building: the edges. *)
From Verif Require Import Base M_Int M_Graph M_Match M_Coarsen S_Graph S_Color S_Match S_Coarsen P_Graph P_GraphList P_Induce P_Vgraph P_Match P_Match2 P_Coarsen.

(** ** Merged lists *)
Definition cacc (c : Z) (A : list (Z * Z)) (x : Z * Z) : list (Z * Z) := if fst x =? c then A else madd (fst x) (snd x) A.
Definition wto (d : Z) (F : list (Z * Z)) : Z := lsum (fun x => if fst x =? d then snd x else 0) F.

Lemma madd_fst d l A x : In x (map fst (madd d l A)) <-> x = d \/ In x (map fst A).
Proof.
  induction A as [|(d', y) A IH]; cbn [madd map fst In]; [intuition congruence|]. destruct (Z.eqb_spec d' d) as [->|]; cbn [map fst In]; [intuition congruence|]. rewrite IH. intuition congruence.
Qed.
Lemma madd_NoDup d l A : NoDup (map fst A) -> NoDup (map fst (madd d l A)).
Proof.
  induction A as [|(d', y) A IH]; cbn [madd map fst]; intros H; [constructor; [intros []|constructor]|]. inversion H; subst. destruct (Z.eqb_spec d' d) as [->|]; cbn [map fst]; constructor; auto. rewrite madd_fst. intros [->|I]; auto.
Qed.
Lemma madd_len d l A : zlen A <= zlen (madd d l A) <= zlen A + 1.
Proof.
  induction A as [|(d', y) A IH]; cbn [madd]; [change (zlen (@nil (Z * Z))) with 0; change (zlen [(d, l)]) with 1; lia|]. destruct (d' =? d); rewrite ?zlen_cons; lia.
Qed.
Lemma madd_lsum d l A : lsum snd (madd d l A) = lsum snd A + l.
Proof. induction A as [|(d', y) A IH]; cbn [madd]; [unfold lsum; cbn [fold_right snd]; lia|]. destruct (d' =? d); rewrite !lsum_cons; cbn [snd]; lia. Qed.
Lemma madd_wto d l A e : wto e (madd d l A) = wto e A + (if d =? e then l else 0).
Proof.
  unfold wto. induction A as [|(d', y) A IH]; cbn [madd]; [unfold lsum; cbn [fold_right fst snd]; destruct (d =? e); lia|].
  destruct (Z.eqb_spec d' d) as [->|]; rewrite !lsum_cons; cbn [fst snd]; [destruct (d =? e); lia|]. lia.
Qed.
Lemma wto_In A d w : NoDup (map fst A) -> In (d, w) A -> wto d A = w.
Proof.
  unfold wto. induction A as [|(d', y) A IH]; intros ND I; [destruct I|]. cbn [map fst] in ND. inversion ND as [|? ? NI ND']; subst. rewrite lsum_cons. cbn [fst snd].
  destruct I as [[= -> ->]|I].
  - rewrite Z.eqb_refl. assert (E : lsum (fun x => if fst x =? d then snd x else 0) A = 0); [|lia]. clear - NI. induction A as [|(d', y) A IH]; [reflexivity|]. rewrite lsum_cons. cbn [fst snd]. cbn [map fst] in NI. destruct (Z.eqb_spec d' d) as [->|]; [exfalso; apply NI; now left|]. rewrite IH; [lia|]. intros I. apply NI. now right.
  - destruct (Z.eqb_spec d' d) as [->|]; [exfalso; apply NI; apply (in_map fst) in I; auto|]. rewrite IH; auto.
Qed.

Definition cfold (c : Z) (F A : list (Z * Z)) : list (Z * Z) := fold_left (cacc c) F A.
Lemma cfold_app c F F' A : cfold c (F ++ F') A = cfold c F' (cfold c F A).
Proof. apply fold_left_app. Qed.
Lemma cfold_cons c x F A : cfold c (x :: F) A = cfold c F (cacc c A x).
Proof. reflexivity. Qed.

Lemma cfold_spec c F A : NoDup (map fst A) -> let B := cfold c F A in
  NoDup (map fst B) /\ zlen A <= zlen B <= zlen A + zlen F /\
  (forall d, In d (map fst B) <-> In d (map fst A) \/ d <> c /\ In d (map fst F)) /\
  (forall d, d <> c -> wto d B = wto d A + wto d F) /\
  lsum snd B = lsum snd A + lsum snd F - wto c F.
Proof.
  revert A. induction F as [|(d0, l0) F IH]; intros A ND; cbn zeta.
  - cbn [cfold fold_left map In]. change (zlen (@nil (Z * Z))) with 0. change (wto c []) with 0. change (lsum snd (@nil (Z * Z))) with 0. split; [auto|]. split; [lia|]. split; [tauto|]. split; [intros; change (wto d []) with 0; lia|lia].
  - rewrite cfold_cons. unfold cacc at 1 2 3 4 5 6. cbn [fst snd]. rewrite zlen_cons. cbn [map fst In]. rewrite lsum_cons. cbn [snd]. assert (W : forall d, wto d ((d0, l0) :: F) = (if d0 =? d then l0 else 0) + wto d F) by (intros; reflexivity).
    destruct (Z.eqb_spec d0 c) as [->|N].
    + destruct (IH A ND) as (H1 & H2 & H3 & H4 & H5). split; [auto|]. split; [lia|]. split; [|split].
      * intros d. rewrite H3. intuition congruence.
      * intros d Hd. rewrite H4, W by auto. destruct (Z.eqb_spec c d); [congruence|lia].
      * rewrite H5, W, Z.eqb_refl. lia.
    + destruct (IH (madd d0 l0 A) (madd_NoDup d0 l0 A ND)) as (H1 & H2 & H3 & H4 & H5). pose proof (madd_len d0 l0 A). split; [auto|]. split; [lia|]. split; [|split].
      * intros d. rewrite H3, madd_fst. intuition congruence.
      * intros d Hd. rewrite H4, W, madd_wto by auto. lia.
      * rewrite H5, W, madd_lsum. destruct (Z.eqb_spec d0 c); [congruence|lia].
Qed.

(** ** Edge loops *)
Section Edges.
Context (g : graph) (V : graph_valid g) (RG : graph_readable g) (HB : 0 <= baseval g) (M msk : Z) (M_pos : 0 < M) (land_mod : forall x, Z.land x msk = x mod M) (HMd : 2 * degrmax g < M).
Context (mate : list Z) (n : Z) (fc : list Z) (mult : list (Z * Z)) (MO : multok g mate n fc mult).
Notation b := (baseval g).
Notation fcv v := (at_ b fc v).

(** arcs of a fine vertex, ends as coarse vertices *)
Definition fn (v : Z) : list (Z * Z) := map (fun x => (at_ b fc (fst x), snd x)) (nbr g v).
Definition FA (c : Z) : list (Z * Z) := let '(v0, v1) := at_ b mult c in fn v0 ++ (if v0 =? v1 then [] else fn v1).
Definition CL (c : Z) : list (Z * Z) := cfold c (FA c) [].
Definition CW (c : Z) : Z := let '(v0, v1) := at_ b mult c in velo g v0 + (if v0 =? v1 then 0 else velo g v1).

Lemma zlen_fn v : isvert g v -> zlen (fn v) = vend g v - vert g v.
Proof. intros Hv. unfold fn. rewrite zlen_map. apply zlen_nbr. apply (gv_range g V v Hv). Qed.

(** frame: cells outside [e0, e1) are as before *)
Definition same_out (e0 e1 : Z) (s s' : cedg) : Prop :=
  zlen (cedge s') = zlen (cedge s) /\ zlen (cedlo s') = zlen (cedge s) /\
  forall e, b <= e -> e < e0 \/ e1 <= e -> at_ b (cedge s') e = at_ b (cedge s) e /\ at_ b (cedlo s') e = at_ b (cedlo s) e.

Lemma same_out_trans e0 e1 e2 s s' s'' : e1 <= e2 -> same_out e0 e1 s s' -> same_out e0 e2 s' s'' -> same_out e0 e2 s s''.
Proof.
  intros H (A1 & A2 & A3) (B1 & B2 & B3). split; [congruence|]. split; [congruence|]. intros e He Ho. destruct (A3 e He) as (X & Y); [lia|]. destruct (B3 e He) as (X' & Y'); [lia|]. split; congruence.
Qed.

Lemma coarArcs_ok c v s adj e0 A : isvert g v -> hinv g M c e0 s -> seg g s e0 A ->
  cnxt s - e0 + zlen (fn v) < M -> cnxt s + zlen (fn v) <= b + zlen (cedge s) -> zlen (cedlo s) = zlen (cedge s) ->
  exists s', coarArcs g msk fc c v s adj = Ok (s', adj - wto c (fn v)) /\ hinv g M c e0 s' /\ seg g s' e0 (cfold c (fn v) A) /\
    cnxt s <= cnxt s' <= cnxt s + zlen (fn v) /\ same_out e0 (cnxt s') s s'.
Proof.
  intros Hv HI SG H1 H2 H3. unfold coarArcs. rewrite rvert_ok, rvend_ok by auto. cbn [bind]. pose proof (gv_range g V v Hv) as Hr. rewrite zlen_fn in * by auto.
  set (pre e := firstn (Z.to_nat (e - vert g v)) (fn v)).
  match goal with |- exists s', ?r = _ /\ _ => destruct (wp_ok_inv r (fun '(s', adj') => adj' = adj - wto c (fn v) /\ hinv g M c e0 s' /\ seg g s' e0 (cfold c (fn v) A) /\
    cnxt s <= cnxt s' <= cnxt s + (vend g v - vert g v) /\ same_out e0 (cnxt s') s s')) as ((s' & adj') & -> & (-> & H)) end; [|eauto].
  apply wp_for with (I := fun e '(s', adj') => adj' = adj - wto c (pre e) /\ hinv g M c e0 s' /\ seg g s' e0 (cfold c (pre e) A) /\
    cnxt s <= cnxt s' <= cnxt s + (e - vert g v) /\ same_out e0 (cnxt s') s s').
  - lia.
  - unfold pre. rewrite !Z.sub_diag. change (Z.to_nat 0) with O. cbn [firstn]. change (wto c []) with 0. split; [lia|]. split; [auto|]. split; [auto|]. split; [lia|]. split; [auto|]. split; [auto|]. auto.
  - intros e (s1 & adj1) He (Ea & HI1 & SG1 & Hn1 & SO). assert (AR : arc g v e) by (split; auto). rewrite (redge_ok g) with (v := v) by auto. cbn [bind]. pose proof (gv_end g V v e AR) as (W1 & W2).
    pose proof (gv_nnd g V). rewrite rd_ok by (rewrite (mo_fc _ _ _ _ _ MO); lia). cbn [bind].
    assert (EL : (match edlotab g with None => Ok 1 | Some t => rd b t e end) = Ok (edlo g e)).
    { unfold edlo. destruct (edlotab g) as [t|] eqn:Et; [|auto]. apply rd_ok. eapply gr_edlo; eauto. }
    rewrite EL. cbn [bind].
    assert (EP : pre (e + 1) = pre e ++ [(fcv (edge g e), edlo g e)]).
    { unfold pre. replace (e + 1 - vert g v) with (e - vert g v + 1) by lia. rewrite firstn_snoc by (rewrite zlen_fn by auto; lia).
      f_equal. f_equal. unfold fn. rewrite at_map by (rewrite zlen_nbr; lia). rewrite at_nbr by lia. cbn [fst snd]. replace (vert g v + (e - vert g v)) with e by lia. auto. }
    assert (WP : wto c (pre (e + 1)) = wto c (pre e) + (if fcv (edge g e) =? c then edlo g e else 0)). { rewrite EP. unfold wto. rewrite lsum_app, lsum_cons. cbn [fst snd]. change (lsum _ []) with 0. lia. }
    assert (CP : cfold c (pre (e + 1)) A = cacc c (cfold c (pre e) A) (fcv (edge g e), edlo g e)) by (rewrite EP, cfold_app; reflexivity).
    rewrite WP, CP. unfold cacc. cbn [fst snd]. destruct (Z.eqb_spec (fcv (edge g e)) c) as [Ec|Nc]; cbn [negb].
    + cbn [wp]. split; [lia|]. split; [auto|]. split; [auto|]. split; [lia|auto].
    + destruct SO as (O1 & O2 & O3). destruct (coarHash_ok g HB M msk M_pos land_mod c (fcv (edge g e)) (edlo g e) s1 e0 _ HI1 SG1) as (s2 & -> & HI2 & SG2 & L1 & L2 & Hn2 & SO2); try lia.
      cbn [bind wp]. split; [lia|]. split; [auto|]. split; [auto|]. split; [lia|]. apply same_out_trans with (e1 := cnxt s1) (s' := s1); [lia|split; auto|]. split; [auto|]. split; [lia|auto].
  - intros (s1 & adj1) H. assert (EP : pre (vend g v) = fn v) by (unfold pre; apply firstn_all2; pose proof (zlen_fn v Hv); unfold zlen in *; lia). rewrite EP in H. auto.
Qed.

Lemma CL_spec c : NoDup (map fst (CL c)) /\ 0 <= zlen (CL c) <= zlen (FA c) /\ (forall d, In d (map fst (CL c)) <-> d <> c /\ In d (map fst (FA c))) /\
  (forall d, d <> c -> wto d (CL c) = wto d (FA c)) /\ lsum snd (CL c) = lsum snd (FA c) - wto c (FA c).
Proof.
  clear M msk M_pos land_mod HMd. unfold CL. destruct (cfold_spec c (FA c) []) as (H1 & H2 & H3 & H4 & H5); [constructor|]. change (zlen (@nil (Z * Z))) with 0 in H2. change (lsum snd (@nil (Z * Z))) with 0 in H5. split; [auto|]. split; [lia|]. split; [|split; [|lia]].
  - intros d. rewrite H3. cbn [map In]. tauto.
  - intros d Hd. rewrite H4 by auto. change (wto d []) with 0. lia.
Qed.

Lemma fineLoad_ok v : isvert g v -> fineLoad g v = Ok (velo g v).
Proof. intros (H1 & H2). unfold fineLoad, velo. destruct (velotab g) as [t|] eqn:Et; [|auto]. apply rd_ok. pose proof (gr_velo g RG t Et). pose proof (gv_nnd g V). lia. Qed.

Lemma zlen_FA c : b <= c < b + n -> zlen (FA c) <= 2 * degrmax g.
Proof.
  intros Hc. unfold FA. destruct (mo_c _ _ _ _ _ MO c Hc) as (v0 & v1 & E & I0 & I1 & _). rewrite E. rewrite zlen_app, zlen_fn by auto. pose proof (gv_degr g V v0 I0). pose proof (gv_degr g V v1 I1). pose proof (gv_degr0 g V).
  destruct (v0 =? v1); [change (zlen (@nil (Z * Z))) with 0; lia|]. rewrite zlen_fn by auto. lia.
Qed.

Definition Eo (lo E0 c : Z) : Z := E0 + zsum lo c (fun k => zlen (CL k)).

(** The coarse vertices [lo..hi-1], written from edge index [E0] on. *)
Record erun (lo hi E0 : Z) (vt vt' : list Z) (vd vd' : option (list Z)) (vl vl' : list Z) (s s' : cedg) (adj dgm : Z) : Prop := {
  er_nxt : cnxt s' = Eo lo E0 hi;
  er_out : same_out E0 (cnxt s') s s';
  er_edge : forall c i, lo <= c < hi -> 0 <= i < zlen (CL c) -> at_ 0 (CL c) i = (at_ b (cedge s') (Eo lo E0 c + i), at_ b (cedlo s') (Eo lo E0 c + i));
  er_vt : zlen vt' = zlen vt /\ forall c, b <= c -> at_ b vt' c = if (lo <=? c) && (c <? hi) then Eo lo E0 c else at_ b vt c;
  er_vl : zlen vl' = zlen vl /\ forall c, b <= c -> at_ b vl' c = if (lo <=? c) && (c <? hi) then CW c else at_ b vl c;
  er_vd : match vd, vd' with
          | None, None => True
          | Some t, Some t' => zlen t' = zlen t /\ forall c, b <= c -> at_ b t' c = if (lo <=? c) && (c <? hi) then Eo lo E0 (c + 1) else at_ b t c
          | _, _ => False end;
  er_adj : adj = - zsum lo hi (fun c => wto c (FA c));
  er_dgm : 0 <= dgm /\ (forall c, lo <= c < hi -> zlen (CL c) <= dgm) /\ (dgm = 0 \/ exists c, lo <= c < hi /\ zlen (CL c) = dgm);
  er_hash : (zlen (horg s') = M /\ zlen (hend s') = M /\ zlen (hnum s') = M) /\ forall x, 0 <= x < M -> at_ 0 (horg s') x < hi }.

Lemma Eo_S lo E0 c : lo <= c -> Eo lo E0 (c + 1) = Eo lo E0 c + zlen (CL c).
Proof. intros. unfold Eo. rewrite zsum_snoc by lia. lia. Qed.
Lemma Eo_mono lo E0 c d : lo <= c <= d -> Eo lo E0 c <= Eo lo E0 d.
Proof. intros. unfold Eo. assert (zsum lo c (fun k => zlen (CL k)) <= zsum lo d (fun k => zlen (CL k))); [|lia]. apply zsum_mono; [lia|]. intros; apply zlen_nonneg. Qed.

Lemma coarEdges_ok lo hi vt vd vl s : b <= lo <= hi -> hi <= b + n -> b <= cnxt s ->
  hi <= b + zlen vt -> hi <= b + zlen vl -> (forall t, vd = Some t -> hi <= b + zlen t) ->
  cnxt s + zsum lo hi (fun c => zlen (FA c)) <= b + zlen (cedge s) -> zlen (cedlo s) = zlen (cedge s) ->
  (zlen (horg s) = M /\ zlen (hend s) = M /\ zlen (hnum s) = M) -> (forall x, 0 <= x < M -> at_ 0 (horg s) x < lo) ->
  exists vt' vd' vl' s' adj dgm, coarEdges g msk fc mult lo hi vt vd vl s = Ok (vt', vd', vl', s', adj, dgm) /\
    erun lo hi (cnxt s) vt vt' vd vd' vl vl' s s' adj dgm.
Proof.
  intros Hlo Hhi Hb Hvt Hvl Hvd Hcap Hll HL HO. unfold coarEdges. set (E0 := cnxt s) in *.
  match goal with |- exists vt' vd' vl' s' adj dgm, ?r = _ /\ _ => destruct (wp_ok_inv r (fun '(vt', vd', vl', s', adj, dgm) => erun lo hi E0 vt vt' vd vd' vl vl' s s' adj dgm)) as ((((((vt' & vd') & vl') & s') & adj) & dgm) & -> & H) end; [|eauto 10].
  apply wp_for with (I := fun c '(vt', vd', vl', s', adj, dgm) => erun lo c E0 vt vt' vd vd' vl vl' s s' adj dgm).
  - lia.
  - assert (EE : Eo lo E0 lo = E0) by (unfold Eo; rewrite zsum_nil by lia; lia). assert (BF : forall c, ((lo <=? c) && (c <? lo)) = false) by (intros c; destruct (Z.leb_spec lo c), (Z.ltb_spec c lo); auto; lia).
    constructor; auto.
    + split; [auto|]. split; [auto|]. auto.
    + intros; lia.
    + split; [auto|]. intros c Hc. rewrite BF. auto.
    + split; [auto|]. intros c Hc. rewrite BF. auto.
    + destruct vd; [|auto]. split; [auto|]. intros c Hc. rewrite BF. auto.
    + rewrite zsum_nil by lia. lia.
    + split; [lia|]. split; [intros; lia|auto].
  - intros c (((((vt1 & vd1) & vl1) & s1) & adj1) & dgm1) Hc []. destruct er_vt0 as (V1 & V2), er_vl0 as (L1 & L2), er_hash0 as (T1 & T2), er_dgm0 as (D0 & D1 & D2), er_out0 as (O1 & O2 & O3).
    destruct (mo_c _ _ _ _ _ MO c ltac:(lia)) as (v0 & v1 & Em & I0 & I1 & _ & _ & _ & Fv0 & Fv1).
    rewrite wr_ok by lia. cbn [bind]. rewrite rd_ok by (rewrite (mo_mult _ _ _ _ _ MO); lia). cbn [bind]. rewrite Em. rewrite fineLoad_ok by auto. cbn [bind].
    set (e0 := cnxt s1) in *.
    assert (LFA : zlen (FA c) = zlen (fn v0) + (if v0 =? v1 then 0 else zlen (fn v1))). { unfold FA. rewrite Em, zlen_app. destruct (v0 =? v1); reflexivity. }
    assert (HFA : 0 <= zlen (FA c) <= 2 * degrmax g) by (split; [apply zlen_nonneg|apply zlen_FA; lia]).
    pose proof (zlen_nonneg (fn v0)) as P0. pose proof (zlen_nonneg (fn v1)) as P1.
    assert (Cap : e0 + zlen (FA c) <= b + zlen (cedge s1)).
    { assert (A1 : zsum lo c (fun k => zlen (CL k)) <= zsum lo c (fun k => zlen (FA k))) by (apply zsum_le; intros i Hi; apply CL_spec).
      assert (A2 : zsum lo (c + 1) (fun k => zlen (FA k)) <= zsum lo hi (fun k => zlen (FA k))) by (apply zsum_mono; [lia|]; intros; apply zlen_nonneg). rewrite zsum_snoc in A2 by lia. unfold Eo in er_nxt0. lia. }
    assert (He0 : b <= e0). { pose proof (Eo_mono lo E0 lo c ltac:(lia)). unfold Eo at 1 in H. rewrite zsum_nil in H by lia. lia. }
    assert (HI0 : hinv g M c e0 s1). { constructor; auto; try lia; try (intros x Hx; specialize (T2 x Hx); lia); try (intros x y Hx; specialize (T2 x Hx); lia). }
    assert (SG0 : seg g s1 e0 []) by (split; [change (zlen (@nil (Z * Z))) with 0; lia|change (zlen (@nil (Z * Z))) with 0; intros; lia]).
    assert (IF : zlen (fn v0) <= zlen (FA c)) by (rewrite LFA; destruct (v0 =? v1); lia).
    destruct (coarArcs_ok c v0 s1 adj1 e0 [] I0 HI0 SG0) as (s2 & -> & HI2 & SG2 & Hn2 & SO2); try lia. cbn [bind].
    assert (K : exists s3 ld, (if v0 =? v1 then Ok (s2, adj1 - wto c (fn v0), velo g v0) else
        do l1 <- fineLoad g v1; do '(s, adj) <- coarArcs g msk fc c v1 s2 (adj1 - wto c (fn v0)); Ok (s, adj, velo g v0 + l1)) = Ok (s3, adj1 - wto c (FA c), ld) /\
        ld = CW c /\ hinv g M c e0 s3 /\ seg g s3 e0 (CL c) /\ same_out e0 (cnxt s3) s1 s3).
    { unfold CL, FA, CW. rewrite Em. rewrite cfold_app. unfold wto. rewrite lsum_app. fold (wto c (fn v0)). destruct (v0 =? v1) eqn:Ev.
      - exists s2, (velo g v0). change (lsum _ []) with 0. rewrite Z.add_0_r. split; [auto|]. split; [lia|]. auto.
      - destruct SO2 as (X1 & X2 & X3). destruct (coarArcs_ok c v1 s2 (adj1 - wto c (fn v0)) e0 _ I1 HI2 SG2) as (s3 & E3 & HI3 & SG3 & Hn3 & SO3); try lia.
        rewrite fineLoad_ok by auto. cbn [bind]. rewrite E3. cbn [bind]. exists s3, (velo g v0 + velo g v1). split; [change (lsum _ (fn v1)) with (wto c (fn v1)); do 3 f_equal; lia|]. split; [auto|]. split; [auto|]. split; [auto|]. apply same_out_trans with (e1 := cnxt s2) (s' := s2); [lia|split; auto|auto]. }
    destruct K as (s3 & ld & EK & -> & HI3 & (SA & SV) & SO3). rewrite EK. cbn [bind]. clear EK. rewrite wr_ok by lia. cbn [bind].
    assert (Hvdc : exists vd2, (match vd1 with None => Ok None | Some t => do t <- wr b t c (cnxt s3); Ok (Some t) end) = Ok vd2 /\
       match vd, vd2 with | None, None => True
       | Some t, Some t' => zlen t' = zlen t /\ forall x, b <= x -> at_ b t' x = if (lo <=? x) && (x <? c + 1) then Eo lo E0 (x + 1) else at_ b t x | _, _ => False end).
    { destruct vd as [t|], vd1 as [t1|]; try tauto; [|exists None; auto]. destruct er_vd0 as (W1 & W2). rewrite wr_ok by (specialize (Hvd t eq_refl); lia). cbn [bind]. eexists. split; [reflexivity|]. cbn beta iota. rewrite zlen_upd. split; [auto|].
      intros x Hx. specialize (Hvd t eq_refl). rewrite at_upd by lia. rewrite W2 by auto. destruct (Z.eqb_spec c x) as [<-|].
      - destruct (Z.leb_spec lo c), (Z.ltb_spec c (c + 1)); try lia. cbn [andb]. rewrite Eo_S by lia. lia.
      - destruct (Z.leb_spec lo x), (Z.ltb_spec x (c + 1)), (Z.ltb_spec x c); try lia; auto. }
    destruct Hvdc as (vd2 & -> & Hvd2). cbn [bind wp]. clear er_vd0.
    pose proof (Eo_S lo E0 c ltac:(lia)) as ES.
    constructor; auto.
    + lia.
    + destruct SO3 as (S1 & S2 & S3). split; [congruence|]. split; [congruence|]. intros e He Ho. assert (E0 <= e0) by (pose proof (Eo_mono lo E0 lo c ltac:(lia)); unfold Eo at 1 in H; rewrite zsum_nil in H by lia; lia).
      pose proof (zlen_nonneg (CL c)). destruct (O3 e He) as (X & Y); [lia|]. destruct (S3 e He) as (X' & Y'); [lia|]. split; congruence.
    + intros d i Hd Hi. destruct (Z.eq_dec d c) as [->|]; [rewrite <- er_nxt0; fold e0; apply SV; lia|]. rewrite er_edge0 by lia. destruct SO3 as (S1 & S2 & S3).
      assert (E0 <= Eo lo E0 d) by (pose proof (Eo_mono lo E0 lo d ltac:(lia)); unfold Eo at 1 in H; rewrite zsum_nil in H by lia; lia). pose proof (Eo_mono lo E0 (d + 1) c ltac:(lia)) as H1. rewrite Eo_S in H1 by lia.
      destruct (S3 (Eo lo E0 d + i)) as (X & Y); [lia|left; lia|]. congruence.
    + rewrite zlen_upd. split; [auto|]. intros x Hx. rewrite at_upd by lia. rewrite V2 by auto. destruct (Z.eqb_spec c x) as [<-|].
      * destruct (Z.leb_spec lo c), (Z.ltb_spec c (c + 1)); try lia. cbn [andb]. lia.
      * destruct (Z.leb_spec lo x), (Z.ltb_spec x (c + 1)), (Z.ltb_spec x c); try lia; auto.
    + rewrite zlen_upd. split; [auto|]. intros x Hx. rewrite at_upd by lia. rewrite L2 by auto. destruct (Z.eqb_spec c x) as [<-|].
      * destruct (Z.leb_spec lo c), (Z.ltb_spec c (c + 1)); try lia. cbn [andb]. auto.
      * destruct (Z.leb_spec lo x), (Z.ltb_spec x (c + 1)), (Z.ltb_spec x c); try lia; auto.
    + rewrite zsum_snoc by lia. lia.
    + rewrite <- SA. destruct (Z.ltb_spec dgm1 (zlen (CL c))).
      * split; [lia|]. split; [intros d Hd; destruct (Z.eq_dec d c) as [->|]; [lia|specialize (D1 d ltac:(lia)); lia]|]. right. exists c. split; [lia|auto].
      * split; [lia|]. split; [intros d Hd; destruct (Z.eq_dec d c) as [->|]; [lia|apply D1; lia]|]. destruct D2 as [->|(d & Hd & E)]; [auto|]. right. exists d. split; [lia|auto].
    + split; [apply HI3|]. intros x Hx. pose proof (hi_old _ _ _ _ _ HI3 x Hx). lia.
  - auto.
Qed.
End Edges.
