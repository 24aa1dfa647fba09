(** Proofs about coarse graph building: the coarse graph. *)
From Verif Require Import Base M_Int M_Graph M_Match M_Coarsen S_Graph S_Color S_Match S_Coarsen P_Graph P_GraphList P_Induce P_Vgraph P_Match P_Match2 P_Coarsen P_Coarsen2.

Lemma zsum_two lo hi i j f : lo <= i < hi -> lo <= j < hi -> i <> j -> (forall k, lo <= k < hi -> k <> i -> k <> j -> f k = 0) -> zsum lo hi f = f i + f j.
Proof.
  intros Hi Hj N H. rewrite (zsum_ext lo hi f (fun k => (if k =? i then f k else 0) + (if k =? i then 0 else f k))) by (intros k Hk; destruct (k =? i); lia).
  rewrite zsum_add. f_equal.
  - rewrite (zsum_single lo hi _ i); [now rewrite Z.eqb_refl|auto|]. intros k Hk Nk. destruct (Z.eqb_spec k i); [contradiction|auto].
  - rewrite (zsum_single lo hi _ j); [destruct (Z.eqb_spec j i); [congruence|auto]|auto|]. intros k Hk Nk. destruct (Z.eqb_spec k i); auto.
Qed.

Lemma wto_out d F : ~ In d (map fst F) -> wto d F = 0.
Proof.
  unfold wto. induction F as [|(d', y) F IH]; intros NI; [reflexivity|]. rewrite lsum_cons. cbn [fst snd]. cbn [map fst] in NI. destruct (Z.eqb_spec d' d) as [->|]; [exfalso; apply NI; now left|]. rewrite IH; [lia|]. intros I. apply NI. now right.
Qed.
Lemma lsum_ends (p : Z -> bool) lo hi F : (forall x, In x F -> lo <= fst x < hi) ->
  lsum (fun x => if p (fst x) then snd x else 0) F = zsum lo hi (fun w => if p w then wto w F else 0).
Proof.
  induction F as [|(d, y) F IH]; intros H.
  - change (lsum _ []) with 0. symmetry. apply zsum_zero. intros w Hw. destruct (p w); reflexivity.
  - rewrite lsum_cons. cbn [fst snd]. rewrite IH by (intros x Ix; apply H; now right).
    rewrite (zsum_ext lo hi (fun w => if p w then wto w ((d, y) :: F) else 0) (fun w => (if p w then (if d =? w then y else 0) else 0) + (if p w then wto w F else 0))) by (intros w Hw; unfold wto; rewrite lsum_cons; cbn [fst snd]; destruct (p w); lia).
    rewrite zsum_add. f_equal. rewrite (zsum_single lo hi _ d).
    + rewrite Z.eqb_refl. auto.
    + apply (H (d, y)). now left.
    + intros k Hk Nk. destruct (Z.eqb_spec d k); [congruence|]. destruct (p k); auto.
Qed.

Section Coarse.
Context (g : graph) (V : graph_valid g) (HB : 0 <= baseval g).
Context (mate : list Z) (fc : list Z) (mult : list (Z * Z)) (IM : is_matching g mate) (MO : multok g mate (groups g mate) fc mult).
Notation b := (baseval g).
Notation n := (groups g mate).
Notation fcv v := (at_ b fc v).
Notation mt v := (at_ b mate v).
Notation fnl := (fn g fc).
Notation FAl := (FA g fc mult).
Notation CLl := (CL g fc mult).

Definition G (f : Z -> Z) (c : Z) : Z := let '(v0, v1) := at_ b mult c in f v0 + (if v0 =? v1 then 0 else f v1).

Lemma group_sum f c : b <= c < b + n -> zsum b (vertnnd g) (fun v => if fcv v =? c then f v else 0) = G f c.
Proof.
  intros Hc. unfold G. destruct (mo_c _ _ _ _ _ MO c Hc) as (v0 & v1 & E & I0 & I1 & Hle & M0 & M1 & F0 & F1). rewrite E.
  assert (U : forall v, isvert g v -> fcv v = c -> v = v0 \/ v = v1). { intros v Hv Ev. destruct (mo_v _ _ _ _ _ MO v Hv) as (_ & H). rewrite Ev, E in H. auto. }
  destruct (Z.eqb_spec v0 v1) as [Ee|N].
  - rewrite (zsum_single b (vertnnd g) _ v0); [rewrite F0, Z.eqb_refl; lia|auto|]. intros k Hk Nk. destruct (Z.eqb_spec (fcv k) c) as [Ek|]; [|auto]. destruct (U k Hk Ek); congruence.
  - rewrite (zsum_two b (vertnnd g) v0 v1); auto; [rewrite F0, F1, Z.eqb_refl; auto|]. intros k Hk N0 N1. destruct (Z.eqb_spec (fcv k) c) as [Ek|]; [|auto]. destruct (U k Hk Ek); contradiction.
Qed.

Lemma regroup f : zsum b (b + n) (G f) = zsum b (vertnnd g) f.
Proof.
  rewrite (zsum_ext b (b + n) _ (fun c => zsum b (vertnnd g) (fun v => if fcv v =? c then f v else 0))) by (intros c Hc; symmetry; apply group_sum; auto).
  rewrite zsum_swap. apply zsum_ext. intros v Hv. destruct (mo_v _ _ _ _ _ MO v Hv) as (H & _). rewrite (zsum_single b (b + n) _ (fcv v)); [now rewrite Z.eqb_refl|auto|].
  intros k Hk Nk. destruct (Z.eqb_spec (fcv v) k); [congruence|auto].
Qed.

Lemma lsum_FA f c : lsum f (FAl c) = G (fun v => lsum f (fnl v)) c.
Proof. unfold FA, G. destruct (at_ b mult c) as (v0 & v1). rewrite lsum_app. destruct (v0 =? v1); reflexivity. Qed.
Lemma zlen_FA_G c : zlen (FAl c) = G (fun v => zlen (fnl v)) c.
Proof. unfold FA, G. destruct (at_ b mult c) as (v0 & v1). rewrite zlen_app. destruct (v0 =? v1); reflexivity. Qed.

Lemma lsum_fn (h : Z -> Z -> Z) v : lsum (fun x => h (fst x) (snd x)) (fnl v) = lsum (fun x => h (fcv (fst x)) (snd x)) (nbr g v).
Proof. unfold fn. induction (nbr g v) as [|x l IH]; [reflexivity|]. cbn [map]. rewrite !lsum_cons. rewrite IH. reflexivity. Qed.

Lemma lsum_nbr_zsum (h : Z -> Z -> Z) v : isvert g v -> lsum (fun x => h (fst x) (snd x)) (nbr g v) = zsum (vert g v) (vend g v) (fun e => h (edge g e) (edlo g e)).
Proof.
  intros Hv. pose proof (gv_range g V v Hv) as Hr. rewrite lsum_zsum, zlen_nbr by lia.
  replace (vend g v) with (vend g v - vert g v + vert g v) at 2 by lia. replace (vert g v) with (0 + vert g v) at 2 by lia. rewrite <- zsum_shift. apply zsum_ext. intros i Hi.
  rewrite at_nbr by lia. cbn [fst snd]. replace (i + vert g v) with (vert g v + i) by lia. auto.
Qed.

Lemma wto_FA c d : b <= c < b + n -> wto d (FAl c) = fine_arcs_load g fc c d.
Proof.
  intros Hc. unfold wto. rewrite lsum_FA. rewrite <- group_sum by auto. unfold fine_arcs_load. apply zsum_ext. intros v Hv. destruct (fcv v =? c); cbn [andb].
  - rewrite (lsum_fn (fun x y => if x =? d then y else 0)). rewrite (lsum_nbr_zsum (fun x y => if fcv x =? d then y else 0)) by auto. auto.
  - symmetry. apply zsum_zero. auto.
Qed.

Lemma nbr_wto_sym v w : isvert g v -> isvert g w -> wto w (nbr g v) = wto v (nbr g w).
Proof.
  intros Hv Hw. pose proof (nbr_NoDup g v V Hv) as N1. pose proof (nbr_NoDup g w V Hw) as N2.
  destruct (in_dec Z.eq_dec w (map fst (nbr g v))) as [I|NI].
  - apply in_map_iff in I as ((w' & l) & E & I). cbn [fst] in E. subst w'. rewrite (wto_In _ _ _ N1 I). destruct (nbr_of_valid g v w l V Hv I) as (_ & _ & _ & I'). now rewrite (wto_In _ _ _ N2 I').
  - rewrite wto_out by auto. symmetry. apply wto_out. intros I. apply NI. apply in_map_iff in I as ((v' & l) & E & I). cbn [fst] in E. subst v'. destruct (nbr_of_valid g w v l V Hw I) as (_ & _ & _ & I'). apply (in_map fst) in I'. auto.
Qed.

Lemma fal_matrix c d : fine_arcs_load g fc c d =
  zsum b (vertnnd g) (fun v => zsum b (vertnnd g) (fun w => if (fcv v =? c) && (fcv w =? d) then wto w (nbr g v) else 0)).
Proof.
  unfold fine_arcs_load. apply zsum_ext. intros v Hv. rewrite <- (lsum_nbr_zsum (fun w l => if (fcv v =? c) && (fcv w =? d) then l else 0)) by auto.
  rewrite <- (lsum_ends (fun w => (fcv v =? c) && (fcv w =? d)) b (vertnnd g)); [reflexivity|]. intros (w & l) I. destruct (nbr_of_valid g v w l V Hv I) as (H & _). auto.
Qed.

Lemma fal_sym c d : fine_arcs_load g fc c d = fine_arcs_load g fc d c.
Proof.
  rewrite !fal_matrix. rewrite zsum_swap. apply zsum_ext. intros v Hv. apply zsum_ext. intros w Hw. rewrite andb_comm. rewrite (nbr_wto_sym w v) by auto. auto.
Qed.

Lemma fal_nonneg c d : 0 <= fine_arcs_load g fc c d.
Proof. apply zsum_nonneg. intros v Hv. apply zsum_nonneg. intros e He. destruct (_ && _); [|lia]. eapply gv_edlo with (v := v); [auto|split; auto]. Qed.

Lemma In_fn v d : isvert g v -> (In d (map fst (fnl v)) <-> exists w, adjacent g v w /\ fcv w = d).
Proof.
  intros Hv. unfold fn. rewrite map_map. cbn [fst]. rewrite in_map_iff. split.
  - intros ((w & l) & <- & I). apply In_nbr in I as (e & He & E1 & E2). exists w. split; [exists e; split; [split; auto|auto]|auto].
  - intros (w & (e & (Hv' & He) & E) & <-). exists (w, edlo g e). split; [auto|]. apply In_nbr. exists e. auto.
Qed.

Lemma In_FA c d : b <= c < b + n -> (In d (map fst (FAl c)) <-> exists v w, adjacent g v w /\ fcv v = c /\ fcv w = d).
Proof.
  intros Hc. unfold FA. destruct (mo_c _ _ _ _ _ MO c Hc) as (v0 & v1 & E & I0 & I1 & Hle & M0 & M1 & F0 & F1). rewrite E. rewrite map_app, in_app_iff, In_fn by auto. split.
  - intros [(w & A & Ew)|I]; [exists v0, w; auto|]. destruct (Z.eqb_spec v0 v1); [destruct I|]. apply In_fn in I as (w & A & Ew); [|auto]. exists v1, w. auto.
  - intros (v & w & A & Ev & Ew). assert (Hv : isvert g v) by (destruct A as (e & (H & _) & _); auto). destruct (mo_v _ _ _ _ _ MO v Hv) as (_ & H). rewrite Ev, E in H. cbn [fst snd] in H.
    destruct (Z.eqb_spec v0 v1) as [Ee|N].
    { left. exists w. split; [|auto]. destruct H; congruence. }
    destruct H as [Hx|Hx]; [left|right; apply In_fn; auto]; exists w; rewrite <- Hx; auto.
Qed.

Lemma fc_group v w : isvert g v -> isvert g w -> (fcv v = fcv w <-> w = v \/ w = mt v).
Proof.
  intros Hv Hw. destruct (mo_v _ _ _ _ _ MO v Hv) as (Rv & Gv). destruct (mo_v _ _ _ _ _ MO w Hw) as (Rw & Gw).
  destruct (mo_c _ _ _ _ _ MO (fcv v) Rv) as (v0 & v1 & E & I0 & I1 & Hle & M0 & M1 & F0 & F1). rewrite E in Gv. cbn [fst snd] in Gv. split.
  - intros EE. rewrite <- EE, E in Gw. cbn [fst snd] in Gw. destruct Gv as [-> | ->], Gw as [-> | ->]; auto.
  - intros [->|Ew]; [auto|]. assert (w = v0 \/ w = v1) as [-> | ->] by (rewrite Ew; destruct Gv as [-> | ->]; auto); congruence.
Qed.

Lemma CL_In c d l : b <= c < b + n -> In (d, l) (CLl c) -> d <> c /\ l = fine_arcs_load g fc c d /\ exists v w, adjacent g v w /\ fcv v = c /\ fcv w = d.
Proof.
  intros Hc I. destruct (CL_spec g fc mult c) as (H1 & H2 & H3 & H4 & H5). assert (I' : In d (map fst (CLl c))) by (apply (in_map fst) in I; auto). apply H3 in I' as (N & I'). split; [auto|]. split; [|apply In_FA; auto].
  rewrite <- wto_FA, <- H4 by auto. symmetry. apply wto_In; auto.
Qed.
Lemma CL_In_rev c d : b <= c < b + n -> d <> c -> (exists v w, adjacent g v w /\ fcv v = c /\ fcv w = d) -> In (d, fine_arcs_load g fc c d) (CLl c).
Proof.
  intros Hc N H. destruct (CL_spec g fc mult c) as (H1 & H2 & H3 & H4 & H5). assert (I : In d (map fst (CLl c))) by (apply H3; split; [auto|]; apply In_FA; auto).
  apply in_map_iff in I as ((d' & l) & E & I). cbn [fst] in E. subst d'. destruct (CL_In c d l Hc I) as (_ & <- & _). auto.
Qed.

Lemma adj_rev v w : adjacent g v w -> adjacent g w v.
Proof. intros (e & A & E). destruct (gv_sym g V v e A) as (e' & A' & E' & _). exists e'. rewrite E in A'. auto. Qed.
Lemma adj_verts v w : adjacent g v w -> isvert g v /\ isvert g w.
Proof. intros (e & A & E). split; [apply A|]. rewrite <- E. eapply gv_end; eauto. Qed.

(** A graph whose neighbour lists are the merged lists is the coarse graph. *)
Lemma coarse_of_nbr cg : baseval cg = b -> vertnbr cg = n -> vertnnd cg = b + n ->
  (forall c, isvert cg c -> b <= vert cg c <= vend cg c) -> (forall c, isvert cg c -> nbr cg c = CLl c) ->
  (forall c, isvert cg c -> velo cg c = CW g mult c) ->
  edgenbr cg = zsum b (b + n) (fun c => zlen (CLl c)) -> velosum cg = velosum g ->
  edlosum cg = edlosum g - zsum b (b + n) (fun c => wto c (FAl c)) ->
  0 <= degrmax cg -> (forall c, isvert cg c -> zlen (CLl c) <= degrmax cg) ->
  graph_valid cg /\ is_coarse g cg mate fc mult.
Proof.
  intros Eb En Ed Hr Hnb Hv He Hs Hl Hd0 Hd. pose proof (zcount_nonneg b (vertnnd g) (fun v => v <=? mt v)) as Hn0. change (zcount b (vertnnd g) (fun v => v <=? mt v)) with n in Hn0.
  assert (IV : forall c, isvert cg c <-> b <= c < b + n) by (intros c; unfold isvert; rewrite Eb, Ed; tauto).
  assert (FL : forall c, b <= c < b + n -> CW g mult c = fine_load g fc c) by (intros c Hc; unfold fine_load; rewrite (group_sum (velo g)) by auto; reflexivity).
  split.
  - apply valid_of_nbr; rewrite ?Eb, ?Ed, ?En; auto.
    + intros c d l Hc. pose proof (proj1 (IV c) Hc) as Rc. rewrite Hnb by auto. intros I. destruct (CL_In c d l Rc I) as (N & -> & v & w & A & Ev & Ew).
      destruct (adj_verts v w A) as (Iv & Iw). assert (Rd : b <= d < b + n) by (rewrite <- Ew; apply (mo_v _ _ _ _ _ MO w Iw)). split; [apply IV; auto|]. split; [auto|]. split; [apply fal_nonneg|].
      rewrite Hnb by (apply IV; auto). rewrite fal_sym. apply CL_In_rev; auto. exists w, v. split; [apply adj_rev; auto|auto].
    + intros c Hc. rewrite Hnb by auto. apply CL_spec.
    + intros c Hc. rewrite Hv, FL by (auto; apply IV; auto). apply zsum_nonneg. intros v Hv'. destruct (fcv v =? c); [|lia]. apply (gv_velo g V). auto.
    + rewrite He. apply zsum_ext. intros c Hc. rewrite Hnb by (apply IV; auto). auto.
    + rewrite Hs, (gv_velosum g V). rewrite <- regroup. apply zsum_ext. intros c Hc. rewrite Hv by (apply IV; auto). reflexivity.
    + rewrite Hl, (gv_edlosum g V).
      rewrite (zsum_ext b (b + n) (fun v => lsum snd (nbr cg v)) (fun c => lsum snd (FAl c) + -1 * wto c (FAl c))) by (intros c Hc; rewrite Hnb by (apply IV; auto); destruct (CL_spec g fc mult c) as (_ & _ & _ & _ & H5); rewrite H5; lia).
      rewrite zsum_add, zsum_scale. rewrite (zsum_ext b (b + n) (fun c => lsum snd (FAl c)) (G (fun v => lsum snd (fnl v)))) by (intros c Hc; apply lsum_FA). rewrite regroup.
      rewrite (zsum_ext b (vertnnd g) (fun v => lsum snd (fnl v)) (fun v => zsum (vert g v) (vend g v) (edlo g))); [lia|]. intros v Hv'. rewrite (lsum_fn (fun _ y => y)). rewrite <- lsum_nbr by (apply (gv_range g V); auto). reflexivity.
    + intros c Hc. rewrite Hnb by auto. auto.
  - constructor; auto.
    + split; [apply (mo_fc _ _ _ _ _ MO)|]. intros v Hv'. apply IV. apply (mo_v _ _ _ _ _ MO v Hv').
    + apply fc_group.
    + split; [rewrite En; apply (mo_mult _ _ _ _ _ MO)|]. intros c Hc. apply IV in Hc. destruct (mo_c _ _ _ _ _ MO c Hc) as (v0 & v1 & E & I0 & I1 & Hle & M0 & M1 & F0 & F1). exists v0, v1. auto.
    + intros c Hc. rewrite Hv by auto. apply FL. apply IV. auto.
    + intros c d. split.
      * intros (e & (Hc & He') & Ee). pose proof (proj1 (IV c) Hc) as Rc. assert (I : In (d, edlo cg e) (nbr cg c)) by (apply In_nbr; exists e; auto). rewrite Hnb in I by auto. destruct (CL_In c d _ Rc I) as (N & _ & H). auto.
      * intros (N & v & w & A & Ev & Ew). destruct (adj_verts v w A) as (Iv & Iw). assert (Rc : b <= c < b + n) by (rewrite <- Ev; apply (mo_v _ _ _ _ _ MO v Iv)). assert (Hc : isvert cg c) by (apply IV; auto).
        assert (I : In (d, fine_arcs_load g fc c d) (nbr cg c)) by (rewrite Hnb by auto; apply CL_In_rev; eauto). apply In_nbr in I as (e & He' & E1 & E2). exists e. split; [split; auto|auto].
    + intros c e (Hc & He'). assert (I : In (edge cg e, edlo cg e) (nbr cg c)) by (apply In_nbr; exists e; auto). rewrite Hnb in I by auto. apply IV in Hc. destruct (CL_In c _ _ Hc I) as (_ & E & _). auto.
Qed.

Lemma sum_FA : zsum b (b + n) (fun c => zlen (FAl c)) = edgenbr g.
Proof.
  rewrite (zsum_ext b (b + n) _ (G (fun v => zlen (fnl v)))) by (intros c Hc; apply zlen_FA_G). rewrite regroup. rewrite (gv_edgenbr g V). apply zsum_ext. intros v Hv. unfold fn. rewrite zlen_map. apply zlen_nbr. apply (gv_range g V v Hv).
Qed.
End Coarse.

Lemma groups_nonneg g mate : 0 <= groups g mate.
Proof. apply zcount_nonneg. Qed.

Theorem coarBuild_ok g mate : graph_valid g -> graph_readable g -> 0 <= baseval g -> is_matching g mate ->
  exists cg fc mult, coarBuild g mate (groups g mate) = Ok (cg, fc, mult) /\ graph_valid cg /\ graph_readable cg /\ is_coarse g cg mate fc mult /\
    vendtab cg = None /\ zlen (verttab cg) = groups g mate + 1 /\ zlen (edgetab cg) = edgenbr cg.
Proof.
  intros V RG HB IM. set (b := baseval g). pose proof (gv_degr0 g V) as D0. destruct (coarHashMsk_ok (degrmax g) D0) as (k & msk & Ek & Hk & EM & Hm).
  destruct (coarMult_ok g V mate IM) as (fc & mult & Emu & MO). set (n := groups g mate) in *. pose proof (groups_nonneg g mate) as Hn0. fold n in Hn0.
  unfold coarBuild. fold b. rewrite Ek, Emu. cbn [bind]. pose proof (Z.pow_pos_nonneg 2 k ltac:(lia) Hk) as MP.
  pose proof (sum_FA g V mate fc mult MO) as SF. fold b n in SF.
  assert (Hen : 0 <= edgenbr g) by (rewrite <- SF; apply zsum_nonneg; intros; apply zlen_nonneg).
  destruct (coarEdges_ok g V RG HB (2 ^ k) msk MP (fun x => msk_land k msk x Hk EM) ltac:(lia) mate n fc mult MO b (b + n)
    (repeat 0 (Z.to_nat (n + 1))) None (repeat 0 (Z.to_nat n)) (cedg0 msk (repeat 0 (Z.to_nat (edgenbr g))) (repeat 0 (Z.to_nat (edgenbr g))) b)) as (vt & vd & vl & s & adj & dgm & -> & ER).
  1: fold b; lia. 1: fold b; lia. 1: cbn [cedg0 cnxt]; fold b; lia. 1: rewrite zlen_repeat; fold b; lia. 1: rewrite zlen_repeat; fold b; lia. 1: discriminate.
  1: cbn [cedg0 cnxt cedge]; rewrite SF, zlen_repeat; fold b; lia. 1: reflexivity.
  1: cbn [cedg0 horg hend hnum]; rewrite zlen_repeat; lia.
  1: intros x Hx; cbn [cedg0 horg]; rewrite at_repeat by lia; fold b in HB; lia.
  cbn [bind]. destruct ER. cbn [cedg0 cnxt cedge] in *. destruct er_vt as (V1 & V2), er_vl as (L1 & L2), er_dgm as (G0 & G1 & _), er_out as (O1 & O2 & O3). cbn [cedg0 cedge] in *. rewrite zlen_repeat in V1, L1, O1, O2 by lia.
  fold b in V2, L2, er_nxt, er_edge. rewrite wr_ok by lia. cbn [bind].
  set (E := cnxt s) in *. set (L := fun i => CL g fc mult (b + i)).
  assert (OF : forall i, 0 <= i <= n -> Eo g fc mult b b (b + i) = b + offs L i).
  { intros i Hi. unfold Eo, offs, L. f_equal. pose proof (zsum_shift 0 i b (fun j => zlen (CL g fc mult j))) as ZS. cbn beta in ZS. replace (b + i) with (i + b) by lia. change (zsum b (i + b)) with (zsum (0 + b) (i + b)). rewrite <- ZS. apply zsum_ext. intros j Hj. do 2 f_equal. lia. }
  assert (EE : E = b + offs L n) by (rewrite er_nxt; apply OF; lia).
  assert (HE : 0 <= offs L n <= edgenbr g).
  { split; [rewrite <- (offs_0 L); apply offs_mono; lia|]. rewrite <- SF. rewrite er_nxt in EE. unfold Eo in EE. assert (zsum b (b + n) (fun k => zlen (CL g fc mult k)) <= zsum b (b + n) (fun c => zlen (FA g fc mult c))) by (apply zsum_le; intros i Hi; apply CL_spec). lia. }
  match goal with |- exists cg fc' mult', Ok (?c, _, _) = _ /\ _ => set (cg := c) end.
  assert (ZF : forall l : list Z, zlen l = edgenbr g -> zlen (firstn (Z.to_nat (E - b)) l) = E - b). { intros l Hl. apply zlen_firstn. lia. }
  assert (LO : laid_out cg L).
  { constructor; cbn [cg vertnbr vertnnd baseval vendtab verttab edgetab edlotab]; auto.
    - rewrite zlen_upd. lia.
    - intros i Hi. rewrite at_upd by lia. destruct (Z.eqb_spec (b + n) (b + i)) as [Eq|]; [replace i with n by lia; lia|]. rewrite V2 by lia. destruct (Z.leb_spec b (b + i)), (Z.ltb_spec (b + i) (b + n)); try lia. cbn [andb]. apply OF. lia.
    - rewrite ZF by lia. lia.
    - intros i j Hi Hj. unfold edge. cbn [cg edgetab baseval]. pose proof (offs_mono L (i + 1) n ltac:(lia)) as OM. rewrite offs_S in OM by lia. pose proof (offs_mono L 0 i ltac:(lia)) as OM0. rewrite offs_0 in OM0. rewrite at_firstn by lia.
      pose proof (er_edge (b + i) j ltac:(lia) Hj) as X. rewrite OF in X by lia. unfold L at 2. rewrite X. auto.
    - intros i j Hi Hj. unfold edlo. cbn [cg edlotab baseval]. pose proof (offs_mono L (i + 1) n ltac:(lia)) as OM. rewrite offs_S in OM by lia. pose proof (offs_mono L 0 i ltac:(lia)) as OM0. rewrite offs_0 in OM0. rewrite at_firstn by lia.
      pose proof (er_edge (b + i) j ltac:(lia) Hj) as X. rewrite OF in X by lia. unfold L at 2. rewrite X. auto.
    - intros t [= <-]. rewrite ZF by lia. lia. }
  assert (IV : forall c, isvert cg c -> b <= c < b + n) by (intros c Hc; exact Hc).
  assert (VC : graph_valid cg /\ is_coarse g cg mate fc mult).
  { apply coarse_of_nbr; auto.
    - intros c Hc. pose proof (laid_range cg L LO c Hc). auto.
    - intros c Hc. apply IV in Hc. pose proof (laid_nbr cg L LO (c - b)) as X. cbn [cg vertnbr baseval] in X. replace (b + (c - b)) with c in X by lia. unfold L in X. replace (b + (c - b)) with c in X by lia. apply X. lia.
    - intros c Hc. apply IV in Hc. unfold velo. cbn [cg velotab baseval]. rewrite L2 by lia. destruct (Z.leb_spec b c), (Z.ltb_spec c (b + n)); try lia. auto.
    - cbn [cg edgenbr]. fold b. unfold Eo in er_nxt. fold b n. lia.
    - cbn [cg edlosum]. fold b n. lia. }
  exists cg, fc, mult. split; [auto|]. destruct VC as (VC1 & VC2). split; [auto|]. split; [|split; [auto|split; [auto|]]].
  - apply (laid_readable cg L LO). intros t [= <-]. cbn [cg vertnbr]. lia.
  - cbn [cg verttab edgetab edgenbr]. rewrite zlen_upd. rewrite ZF by lia. split; lia.
Qed.

(** A group has one or two vertices. *)
Lemma groups_half g mate : graph_valid g -> is_matching g mate -> vertnbr g <= 2 * groups g mate <= 2 * vertnbr g.
Proof.
  intros V IM. destruct (coarMult_ok g V mate IM) as (fc & mult & _ & MO). pose proof (regroup g mate fc mult MO (fun _ => 1)) as R. pose proof (gv_nnd g V) as Hn. pose proof (gv_size g V) as Hs. pose proof (groups_nonneg g mate) as H0.
  rewrite (zsum_const (baseval g) (vertnnd g)) in R by lia.
  assert (zsum (baseval g) (baseval g + groups g mate) (G g mult (fun _ => 1)) <= zsum (baseval g) (baseval g + groups g mate) (fun _ => 2)) by (apply zsum_le; intros c Hc; unfold G; destruct (at_ (baseval g) mult c) as (v0 & v1); destruct (v0 =? v1); lia).
  assert (zsum (baseval g) (baseval g + groups g mate) (fun _ => 1) <= zsum (baseval g) (baseval g + groups g mate) (G g mult (fun _ => 1))) by (apply zsum_le; intros c Hc; unfold G; destruct (at_ (baseval g) mult c) as (v0 & v1); destruct (v0 =? v1); lia).
  rewrite !zsum_const in * by lia. lia.
Qed.
