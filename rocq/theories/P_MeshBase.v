(** Proofs about meshBuild and meshBase. *)
From Verif Require Import Base M_Graph S_Graph P_Graph P_GraphBase S_Color P_Vgraph M_Mesh S_Mesh P_MeshGraph2 P_MeshCheck.

(** ** meshBuild *)
Lemma meshLoadSum_wlp gmax t bas nbr : 0 <= nbr -> wlp (meshLoadSum gmax t bas nbr) (fun s => s = zsum bas (bas + nbr) (mload t)).
Proof.
  intros Hn. unfold meshLoadSum. destruct t as [[o l]|].
  - apply wlp_for with (I := fun v s => s = zsum bas v (mload (Some (o, l)))); [lia|now rewrite zsum_nil by lia| |auto].
    intros v s Hv ->. apply wlp_bind, wlp_intro. intros x Hx. unfold rload in Hx. apply rd_inv in Hx. destruct Hx as (_ & ->). apply wlp_intro. intros s' Hs%gadd_inv. destruct Hs as [-> _].
    now rewrite zsum_snoc by lia.
  - cbn [wlp]. rewrite (zsum_ext _ _ _ (fun _ => 1)) by reflexivity. rewrite zsum_const by lia. lia.
Qed.

Lemma meshLoadSum_ok gmax t bas nbr : 0 <= nbr -> (forall v, bas <= v < bas + nbr -> 1 <= mload t v) -> (forall o l, t = Some (o, l) -> o <= bas /\ bas + nbr <= o + zlen l \/ nbr = 0) ->
  (t <> None -> zsum bas (bas + nbr) (mload t) <= gmax) -> meshLoadSum gmax t bas nbr = Ok (zsum bas (bas + nbr) (mload t)).
Proof.
  intros Hn H1 HR HG. unfold meshLoadSum. destruct t as [[o l]|].
  - specialize (HG ltac:(discriminate)). specialize (HR o l eq_refl).
    destruct (wp_ok_inv (for_ bas (bas + nbr) (fun v s => do l0 <- rload (o, l) v; gadd gmax s l0) 0) (fun s => s = zsum bas (bas + nbr) (mload (Some (o, l))))) as (s & E & ->); [|exact E].
    apply wp_for with (I := fun v s => s = zsum bas v (mload (Some (o, l)))); [lia|now rewrite zsum_nil by lia| |auto].
    intros v s Hv ->. unfold rload. cbn [fst snd]. rewrite rd_ok by lia. cbn [bind]. change (at_ o l v) with (mload (Some (o, l)) v). pose proof (H1 v Hv).
    assert (X : 0 <= zsum bas v (mload (Some (o, l))) + mload (Some (o, l)) v <= gmax).
    { rewrite <- zsum_snoc by lia. split; [apply zsum_nonneg; intros i Hi; specialize (H1 i ltac:(lia)); lia|].
      pose proof (zsum_mono bas (v + 1) (bas + nbr) (mload (Some (o, l))) ltac:(lia) ltac:(intros i Hi; specialize (H1 i ltac:(lia)); lia)). lia. }
    rewrite gadd_ok by exact X. cbn [wp]. now rewrite zsum_snoc by lia.
  - rewrite (zsum_ext _ _ _ (fun _ => 1)) by reflexivity. rewrite zsum_const by lia. f_equal. lia.
Qed.

Definition meshOf (velmbas vnodbas velmnbr vnodnbr : Z) vt vd velo vnlo vlbl enbr et es ns is dm : mesh :=
  mkmesh (Z.min velmbas vnodbas) velmnbr velmbas (velmbas + velmnbr) is vnodnbr vnodbas (vnodbas + vnodnbr)
    vt vd (based velmbas velo) (based vnodbas vnlo) es ns None vlbl enbr et dm.

Lemma meshBuild_wlp gmax eb nb en nn vt vd velo vnlo vlbl enbr et : 0 <= en -> 0 <= nn ->
  wlp (meshBuild gmax eb nb en nn vt vd velo vnlo vlbl enbr et) (fun m => 0 <= mbase m /\ built m /\
    exists es ns is dm, m = meshOf eb nb en nn vt vd velo vnlo vlbl enbr et es ns is dm).
Proof.
  intros He Hn. unfold meshBuild. destruct ((eb <? 0) || _ || _) eqn:E0; [exact I|]. destruct (negb (eb + en =? nb) && _) eqn:E1; [exact I|].
  fold (based eb velo). fold (based nb vnlo).
  apply wlp_bind. eapply wlp_mono; [apply meshLoadSum_wlp; exact He|]. intros es Es. cbn beta. apply wlp_bind. eapply wlp_mono; [apply meshLoadSum_wlp; exact Hn|]. intros ns Ns. cbn beta.
  change (mgraph _) with (mgraph (meshOf eb nb en nn vt vd velo vnlo vlbl enbr et es ns 0 0)). set (m0 := meshOf eb nb en nn vt vd velo vnlo vlbl enbr et es ns 0 0).
  apply wlp_bind. eapply wlp_mono; [apply wlp_for with (I := fun v '(dm, is) => 0 <= dm /\ is = zcount eb v (fun v => mdegree m0 v =? 0) /\ (forall v', eb <= v' < v -> mdegree m0 v' <= dm) /\ (dm = 0 \/ exists v', eb <= v' < v /\ mdegree m0 v' = dm))
    (Q := fun '(dm, is) => 0 <= dm /\ is = zcount eb (eb + en) (fun v => mdegree m0 v =? 0) /\ (forall v', eb <= v' < eb + en -> mdegree m0 v' <= dm) /\ (dm = 0 \/ exists v', eb <= v' < eb + en /\ mdegree m0 v' = dm)); [lia| | |]|].
  - split; [lia|]. split; [now rewrite zcount_nil by lia|]. split; [lia|now left].
  - intros v [dm is] Hv (A1 & A2 & A3 & A4). unfold meshDegrElm. apply wlp_bind, wlp_intro. intros hi Hhi%rvend_inv. destruct Hhi as [-> _]. apply wlp_bind, wlp_intro. intros lo Hlo%rvert_inv. destruct Hlo as [-> _].
    change (vend (mgraph m0) v - vert (mgraph m0) v) with (mdegree m0 v). rewrite zcount_snoc by lia.
    assert (A3' : forall x, dm <= x -> mdegree m0 v <= x -> forall v', eb <= v' < v + 1 -> mdegree m0 v' <= x).
    { intros x X1 X2 v' Hv'. destruct (Z.eq_dec v' v) as [->|]; [exact X2|]. specialize (A3 v' ltac:(lia)). lia. }
    assert (A4' : dm = 0 \/ exists v', eb <= v' < v + 1 /\ mdegree m0 v' = dm) by (destruct A4 as [|(v' & X & Y)]; [now left|right; exists v'; split; [lia|exact Y]]).
    destruct (Z.ltb_spec dm (mdegree m0 v)).
    + cbn [wlp]. split; [lia|]. split; [replace (mdegree m0 v =? 0) with false by lia; cbn [b2z]; lia|]. split; [apply A3'; lia|]. right. exists v. split; [lia|reflexivity].
    + destruct (Z.eqb_spec (mdegree m0 v) 0); cbn [wlp b2z]; (split; [lia|]; split; [lia|]; split; [apply A3'; lia|exact A4']).
  - intros [dm is] X. exact X.
  - intros [dm is] (A1 & A2 & A3 & A4). apply wlp_bind. 
    eapply wlp_mono; [apply wlp_for with (I := fun v dm' => dm <= dm' /\ (forall v', nb <= v' < v -> mdegree m0 v' <= dm') /\ (dm' = dm \/ exists v', nb <= v' < v /\ mdegree m0 v' = dm'))
    (Q := fun dm' => dm <= dm' /\ (forall v', nb <= v' < nb + nn -> mdegree m0 v' <= dm') /\ (dm' = dm \/ exists v', nb <= v' < nb + nn /\ mdegree m0 v' = dm')); [lia| | |]|].
    + split; [lia|]. split; [lia|now left].
    + intros v dm' Hv (B1 & B3 & B4). unfold meshDegrNod. apply wlp_bind, wlp_intro. intros hi Hhi%rvend_inv. destruct Hhi as [-> _]. apply wlp_bind, wlp_intro. intros lo Hlo%rvert_inv. destruct Hlo as [-> _].
      cbn [wlp]. change (vend (mgraph m0) v - vert (mgraph m0) v) with (mdegree m0 v).
      destruct (Z.ltb_spec dm' (mdegree m0 v)).
      * split; [lia|]. split; [|right; exists v; split; [lia|reflexivity]]. intros v' Hv'. destruct (Z.eq_dec v' v) as [->|]; [lia|]. specialize (B3 v' ltac:(lia)). lia.
      * split; [lia|]. split; [|destruct B4 as [|(v' & X & Y)]; [now left|right; exists v'; split; [lia|exact Y]]]. intros v' Hv'. destruct (Z.eq_dec v' v) as [->|]; [lia|]. apply B3; lia.
    + intros dm' X. exact X.
    + intros dm' (B1 & B3 & B4). cbn [wlp]. split; [cbn [mbase]; lia|]. split; [|exists es, ns, is, dm'; reflexivity].
      unfold built, elem, node. cbn [velmbas velmnnd vnodbas vnodnnd mdegrmax mvelosum mvnlosum mvelo mvnlo veisnbr]. split; [exact Es|]. split; [exact Ns|]. split; [exact A2|]. split; [lia|]. split.
      * intros v [Hv|Hv]; [specialize (A3 v Hv)|specialize (B3 v Hv)]; unfold mdegree, vend, vert in *; cbn in *; lia.
      * destruct B4 as [->|(v' & X & Y)]; [destruct A4 as [|(v' & X & Y)]; [now left|right; exists v'; split; [now left|exact Y]]|right; exists v'; split; [now right|exact Y]].
Qed.

(** consistent arrays are accepted *)
Lemma meshBuild_ok gmax m : mesh_valid m -> mesh_readable m -> mbase m <= 1 ->
  (mvelo m <> None -> mvelosum m <= gmax) -> (mvnlo m <> None -> mvnlosum m <= gmax) ->
  forall velo vnlo, mvelo m = based (velmbas m) velo -> mvnlo m = based (vnodbas m) vnlo ->
  exists d, meshBuild gmax (velmbas m) (vnodbas m) (velmnbr m) (vnodnbr m) (mvert m) (mvend m) velo vnlo (mvlbl m) (medgenbr m) (medge m) =
    Ok (mkmesh (mbase m) (velmnbr m) (velmbas m) (velmnnd m) (veisnbr m) (vnodnbr m) (vnodbas m) (vnodnnd m) (mvert m) (mvend m) (mvelo m) (mvnlo m)
          (mvelosum m) (mvnlosum m) None (mvlbl m) (medgenbr m) (medge m) d).
Proof.
  intros V R Hb G1 G2 velo vnlo Ev En. pose proof (mv_graph m V) as GV. pose proof (mr_graph m R) as GR.
  destruct (mv_base m V) as [B0 B1], (mv_elm m V) as [E0 E1], (mv_nod m V) as [N0 N1]. pose proof (mv_order m V) as OR.
  set (r := meshBuild _ _ _ _ _ _ _ _ _ _ _ _).
  assert (W : exists m', r = Ok m').
  { unfold r, meshBuild.
    replace ((velmbas m <? 0) || (vnodbas m <? 0) || ((1 <? velmbas m) && (1 <? vnodbas m))) with false by lia.
    replace (negb (velmbas m + velmnbr m =? vnodbas m) && negb (vnodbas m + vnodnbr m =? velmbas m)) with false by lia.
    fold (based (velmbas m) velo). fold (based (vnodbas m) vnlo). rewrite <- Ev, <- En. rewrite <- E1, <- N1.
    rewrite meshLoadSum_ok; [|lia|rewrite <- E1; exact (mv_velo m V)|rewrite <- E1; exact (mr_velo m R)|rewrite <- E1, <- (mv_velosum m V); exact G1]. cbn [bind].
    rewrite meshLoadSum_ok; [|lia|rewrite <- N1; exact (mv_vnlo m V)|rewrite <- N1; exact (mr_vnlo m R)|rewrite <- N1, <- (mv_vnlosum m V); exact G2]. cbn [bind].
    set (g := mgraph _). assert (RV : forall v, isvert (mgraph m) v -> rvert g v = Ok (vert (mgraph m) v) /\ rvend g v = Ok (vend (mgraph m) v)).
    { intros v Hv. rewrite <- (rvert_ok _ v GR GV Hv), <- (rvend_ok _ v GR GV Hv). unfold g, rvert, rvend. cbn. rewrite B1. auto. }
    destruct (wp_ok_inv (for_ (velmbas m) (velmnnd m) (meshDegrElm g) (0, 0)) (fun _ => True)) as ([dm is] & -> & _).
    { apply wp_for with (I := fun _ _ => True); auto; [lia|]. intros v [dm is] Hv _. unfold meshDegrElm. destruct (RV v ltac:(apply elem_vert; assumption)) as [-> ->]. cbn [bind].
      destruct (dm <? _); [exact I|]. destruct (_ =? 0); exact I. }
    cbn [bind]. destruct (wp_ok_inv (for_ (vnodbas m) (vnodnnd m) (meshDegrNod g) dm) (fun _ => True)) as (dm' & -> & _).
    { apply wp_for with (I := fun _ _ => True); auto; [lia|]. intros v dm' Hv _. unfold meshDegrNod. destruct (RV v ltac:(apply node_vert; assumption)) as [-> ->]. exact I. }
    cbn [bind]. eauto. }
  destruct W as (m' & W). pose proof (meshBuild_wlp gmax (velmbas m) (vnodbas m) (velmnbr m) (vnodnbr m) (mvert m) (mvend m) velo vnlo (mvlbl m) (medgenbr m) (medge m) E0 N0) as X. fold r in X. rewrite W in X. cbn [wlp] in X.
  destruct X as (_ & (S1 & S2 & S3 & _) & es & ns & is & dm & ->). exists dm. rewrite W. f_equal. unfold meshOf in *. cbn [velmbas velmnnd vnodbas vnodnnd mvelosum mvnlosum mvelo mvnlo veisnbr] in *.
  rewrite <- Ev, <- En, <- E1, <- N1 in *. rewrite <- (mv_velosum m V) in S1. rewrite <- (mv_vnlosum m V) in S2. 
  assert (Hdeg : forall v, mdegree (mkmesh (Z.min (velmbas m) (vnodbas m)) (velmnbr m) (velmbas m) (velmnnd m) is (vnodnbr m) (vnodbas m) (vnodnnd m) (mvert m) (mvend m) (mvelo m) (mvnlo m) es ns None (mvlbl m) (medgenbr m) (medge m) dm) v = mdegree m v).
  { intros v. unfold mdegree, vend, vert. cbn. now rewrite B1. }
  assert (S3' : is = veisnbr m) by (rewrite S3, (mv_isol m V); unfold zcount; apply zsum_ext; intros v Hv; now rewrite Hdeg).
  rewrite B1. subst. reflexivity.
Qed.

Lemma valid_degr m d : mesh_valid m -> 0 <= d -> (forall v, isvert (mgraph m) v -> mdegree m v <= d) ->
  mesh_valid (mkmesh (mbase m) (velmnbr m) (velmbas m) (velmnnd m) (veisnbr m) (vnodnbr m) (vnodbas m) (vnodnnd m) (mvert m) (mvend m) (mvelo m) (mvnlo m)
          (mvelosum m) (mvnlosum m) None (mvlbl m) (medgenbr m) (medge m) d).
Proof.
  intros [V1 V2 V3 V4 V5 V6 V7 V8 V9 V10 V11] Hd Hdg. constructor; try assumption. destruct V5. constructor; assumption.
Qed.

(** ** meshBase *)
Lemma mload_moved adj t v : mload (moved adj t) (v + adj) = mload t v.
Proof. destruct t as [[o l]|]; cbn [moved mload fst snd]; [apply at_shift|reflexivity]. Qed.

Lemma meshBase_spec m b' : mesh_valid m -> mesh_readable m -> disjoint_ranges (mgraph m) -> (mvend m = None -> velmnbr m + vnodnbr m + 1 <= zlen (mvert m)) -> 0 <= b' ->
  let adj := b' - mbase m in
  exists m', meshBase m b' = Ok (mbase m, m') /\ mesh_shifted adj m m' /\ mvelo m' = mvelo m /\ mvnlo m' = mvnlo m /\
    mesh_valid (move_loads adj m') /\ mesh_readable (move_loads adj m') /\ meshBase m' (mbase m) = Ok (b', m).
Proof.
  intros V R D HC Hb' adj. pose proof (mv_graph m V) as GV. pose proof (mr_graph m R) as GR. set (g := mgraph m) in *.
  destruct (graphBase_spec g b' GV GR D HC) as (g' & E & Bg & SH & GV' & GR' & BK).
  set (m' := mkmesh b' (velmnbr m) (velmbas m + adj) (velmnnd m + adj) (veisnbr m) (vnodnbr m) (vnodbas m + adj) (vnodnnd m + adj) (verttab g') (vendtab g')
    (mvelo m) (mvnlo m) (mvelosum m) (mvnlosum m) (moved adj (mvnum m)) (mvlbl m) (medgenbr m) (edgetab g') (mdegrmax m)).
  assert (Eg : mgraph m' = g').
  { destruct SH as [S1 S2 S3 _ _ _ _ _ _ S9]. destruct S9 as (T1 & T2 & T3 & T4 & T5). change (baseval g) with (mbase m) in *. change (vertnbr g) with (velmnbr m + vnodnbr m) in *. change (vertnnd g) with (velmnbr m + vnodnbr m + mbase m) in *.
    destruct g' as [b0 n0 d0 vt0 vd0 vl0 vs0 vn0 vb0 en0 et0 el0 es0 dm0]. cbn in Bg, S1, S2, S3, T1, T2, T3, T4, T5 |- *. unfold m', mgraph. cbn.
    destruct T5 as (T5 & T6 & T7 & T8). cbn in *. subst. f_equal; try congruence; lia. }
  exists m'. split; [unfold meshBase; fold g; rewrite E; reflexivity|].
  assert (MS : mesh_shifted adj m m').
  { constructor; cbn [m' mbase velmnbr velmbas velmnnd vnodnbr vnodbas vnodnnd veisnbr mvelosum mvnlosum mvlbl medgenbr mdegrmax mvnum]; try lia; auto 10.
    - rewrite Eg. exact SH. }
  split; [exact MS|]. split; [reflexivity|]. split; [reflexivity|].
  destruct (mv_base m V) as [B0 B1], (mv_elm m V) as [E0 E1], (mv_nod m V) as [N0 N1]. pose proof (mv_order m V) as OR.
  assert (Emg : mgraph (move_loads adj m') = g') by exact Eg.
  assert (EL : forall v, elem (move_loads adj m') v <-> elem m (v - adj)) by (intros v; unfold elem, move_loads, m'; cbn [velmbas velmnnd]; lia).
  assert (NL : forall v, node (move_loads adj m') v <-> node m (v - adj)) by (intros v; unfold node, move_loads, m'; cbn [vnodbas vnodnnd]; lia).
  assert (LE : forall v, mload (mvelo (move_loads adj m')) v = mload (mvelo m) (v - adj)) by (intros v; change (mvelo (move_loads adj m')) with (moved adj (mvelo m)); replace v with (v - adj + adj) at 1 by lia; apply mload_moved).
  assert (LN : forall v, mload (mvnlo (move_loads adj m')) v = mload (mvnlo m) (v - adj)) by (intros v; change (mvnlo (move_loads adj m')) with (moved adj (mvnlo m)); replace v with (v - adj + adj) at 1 by lia; apply mload_moved).
  assert (DG : forall v, isvert g' (v + adj) -> mdegree (move_loads adj m') (v + adj) = mdegree m v).
  { intros v Hv. unfold mdegree. rewrite Emg. apply (gs_isvert adj g g' SH) in Hv. rewrite (gs_vert adj g g' SH v Hv), (gs_vend adj g g' SH v Hv). fold g. lia. }
  split; [|split].
  - constructor.
    + cbn [move_loads m' mbase velmbas vnodbas]. unfold adj. lia.
    + cbn [move_loads m' velmnbr velmbas velmnnd]. lia.
    + cbn [move_loads m' vnodnbr vnodbas vnodnnd]. lia.
    + cbn [move_loads m' velmbas velmnnd vnodbas vnodnnd]. lia.
    + rewrite Emg. exact GV'.
    + intros x y (e & A & Ey). rewrite Emg in A, Ey. rewrite EL, NL. apply (mv_tied m V). apply (gs_arc adj g g' SH) in A. exists (e - adj). split; [exact A|].
      fold g. rewrite <- Ey. rewrite (gs_edge' adj g g' SH x e); [lia|]. apply (gs_arc adj g g' SH). exact A.
    + intros v Hv. rewrite LE. apply (mv_velo m V). now apply EL.
    + intros v Hv. rewrite LN. apply (mv_vnlo m V). now apply NL.
    + change (mvelosum (move_loads adj m')) with (mvelosum m). rewrite (mv_velosum m V). cbn [move_loads m' velmbas velmnnd]. rewrite <- zsum_shift. apply zsum_ext. intros v Hv. rewrite LE. f_equal. lia.
    + change (mvnlosum (move_loads adj m')) with (mvnlosum m). rewrite (mv_vnlosum m V). cbn [move_loads m' vnodbas vnodnnd]. rewrite <- zsum_shift. apply zsum_ext. intros v Hv. rewrite LN. f_equal. lia.
    + change (veisnbr (move_loads adj m')) with (veisnbr m). rewrite (mv_isol m V). unfold zcount. cbn [move_loads m' velmbas velmnnd]. rewrite <- zsum_shift. apply zsum_ext. intros v Hv. rewrite DG; [reflexivity|].
      apply (gs_isvert adj g g' SH). apply elem_vert; auto.
  - constructor.
    + rewrite Emg. exact GR'.
    + cbn [move_loads m' mvelo velmbas velmnnd velmnbr]. intros o t. destruct (mvelo m) as [[o' l']|] eqn:Eo; [|discriminate]. cbn [moved]. intros [= <- <-]. destruct (mr_velo m R _ _ Eo); [left; lia|now right].
    + cbn [move_loads m' mvnlo vnodbas vnodnnd vnodnbr]. intros o t. destruct (mvnlo m) as [[o' l']|] eqn:Eo; [|discriminate]. cbn [moved]. intros [= <- <-]. destruct (mr_vnlo m R _ _ Eo); [left; lia|now right].
  - unfold meshBase. rewrite Eg. change (mbase m) with (baseval g) at 1 2. rewrite BK. cbn [bind]. f_equal. f_equal.
    cbn [m' mbase velmnbr velmbas velmnnd vnodnbr vnodbas vnodnnd veisnbr mvelosum mvnlosum mvlbl medgenbr mdegrmax mvnum mvelo mvnlo]. change (baseval g) with (mbase m).
    destruct m as [f1 f2 f3 f4 f5 f6 f7 f8 f9 f10 f11 f12 f13 f14 f15 f16 f17 f18 f19]. unfold g, adj, mgraph. cbn. f_equal; try lia. destruct f15 as [[o l]|]; cbn; [|reflexivity]. do 2 f_equal. lia.
Qed.
