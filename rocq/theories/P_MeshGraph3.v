(** Proofs about meshGraphDual. *)
From Verif Require Import Base M_Graph S_Graph P_Graph S_Color P_Vgraph M_Mesh S_Mesh P_MeshHash P_MeshGraph P_MeshGraph2.

Section Dual.
Context (m : mesh) (V : mesh_valid m) (R : mesh_readable m) (q : Z) (Hq : 0 <= q) (H32 : 32 <= 2 ^ q) (Hd : mdegrmax m * mdegrmax m * 2 <= 2 ^ q) (noconbr : Z).
Notation g := (mgraph m).
Notation b := (mbase m).
Notation siz := (2 ^ q).
Notation tab := (list (Z * Z * Z)).
Let GV : graph_valid g := mv_graph m V.
Let GR : graph_readable g := mr_graph m R.

Definition thrd (u w : Z) : Z := Z.min (Z.min noconbr (mdegree m u - 1)) (mdegree m w - 1).
Definition kfd (hs : tab) (u i : Z) : option Z := if fst (fst (at_ 0 hs i)) =? u then Some (snd (fst (at_ 0 hs i))) else None.
Definition DI (u : Z) (c : Z -> Z) (hs : tab) : Prop :=
  zlen hs = siz /\ kok q 37 (kfd hs u) /\ (forall i, slot q i -> fst (fst (at_ 0 hs i)) <= u) /\ (forall k, (exists i, slot q i /\ kfd hs u i = Some k) <-> k = u \/ 1 <= c k) /\
  forall i k n, slot q i -> at_ 0 hs i = (u, k, n) -> (k = u -> n <= 0) /\ (k <> u -> (n <= 0 <-> thrd u k <= c k) /\ (0 < n -> n = thrd u k - c k)).
Definition DS (u : Z) (hs : tab) : Prop := zlen hs = siz /\ forall i, slot q i -> fst (fst (at_ 0 hs i)) < u.

Lemma DI_ext u c c' hs : (forall k, c' k = c k) -> DI u c hs -> DI u c' hs.
Proof.
  intros E (A & B & C & D & F). split; [exact A|]. split; [exact B|]. split; [exact C|]. split; [intros k; now rewrite D, E|].
  intros i k n. rewrite E. apply F.
Qed.

Lemma DI_end u c hs : DI u c hs -> DS (u + 1) hs.
Proof. intros (A & B & C & D). split; [exact A|]. intros i Hi. specialize (C i Hi). lia. Qed.

Lemma dstart_ok u hs : DS u hs -> wp (dualStart (siz - 1) u hs) (DI u (fun _ => 0)) noerr.
Proof.
  intros (A & B). pose proof (home_slot q Hq u) as Hs. unfold dualStart. rewrite wr_ok by (unfold slot in Hs; lia). cbn [wp].
  set (h := Z.land (u * 37) (siz - 1)) in *. set (hs' := upd 0 hs h (u, u, 0)).
  assert (K : forall i, slot q i -> at_ 0 hs' i = if h =? i then (u, u, 0) else at_ 0 hs i) by (intros i Hi; unfold hs'; apply at_upd; unfold slot in *; lia).
  assert (KF : forall i, slot q i -> kfd hs' u i = if h =? i then Some u else None).
  { intros i Hi. unfold kfd. rewrite K by exact Hi. destruct (h =? i); cbn [fst snd]; [now rewrite Z.eqb_refl|]. specialize (B i Hi). now replace (fst (fst (at_ 0 hs i)) =? u) with false by lia. }
  split; [unfold hs'; now rewrite zlen_upd|]. split; [|split; [|split]].
  - apply (kok_ext q 37 Hq (fun i => if h =? i then Some u else None)); [exact KF|]. now apply kok_one.
  - intros i Hi. rewrite K by exact Hi. destruct (h =? i); cbn [fst]; [lia|]. specialize (B i Hi). lia.
  - intros k. split.
    + intros (i & Hi & E). rewrite KF in E by exact Hi. destruct (h =? i); [|discriminate]. injection E as <-. now left.
    + intros [->|]; [|lia]. exists h. split; [exact Hs|]. rewrite KF by exact Hs. now rewrite Z.eqb_refl.
  - intros i k n Hi. rewrite K by exact Hi. destruct (h =? i); [intros [= <- <-]; split; [lia|contradiction]|]. intros E. specialize (B i Hi). rewrite E in B. cbn [fst] in B. lia.
Qed.

Lemma dualDegr_ok v : isvert g v -> dualDegr g v = Ok (mdegree m v - 1).
Proof. intros Hv. unfold dualDegr. rewrite (rvend_ok g v GR GV Hv), (rvert_ok g v GR GV Hv). reflexivity. Qed.

(** the table after its slot [h] received key [w] with counter [n] *)
Lemma DI_put u w n h c hs : DI u c hs -> slot q h -> (forall k, 0 <= c k) -> w <> u -> 
  kok q 37 (fun i => if h =? i then Some w else kfd hs u i) -> (kfd hs u h = Some w \/ kfd hs u h = None) -> (kfd hs u h = None -> forall i, slot q i -> kfd hs u i <> Some w) ->
  (n <= 0 <-> thrd u w <= c w + 1) -> (0 < n -> n = thrd u w - (c w + 1)) ->
  DI u (fun k => c k + b2z (w =? k)) (upd 0 hs h (u, w, n)).
Proof.
  intros (A & B & C & D & F) Hh C0 Nw Ko Hk Hn0 Hn1 Hn2.
  assert (K : forall i, slot q i -> at_ 0 (upd 0 hs h (u, w, n)) i = if h =? i then (u, w, n) else at_ 0 hs i) by (intros i Hi; apply at_upd; unfold slot in *; lia).
  assert (KF : forall i, slot q i -> kfd (upd 0 hs h (u, w, n)) u i = if h =? i then Some w else kfd hs u i).
  { intros i Hi. unfold kfd. rewrite K by exact Hi. destruct (h =? i); cbn [fst snd]; [now rewrite Z.eqb_refl|reflexivity]. }
  assert (UQ : forall i, slot q i -> kfd hs u i = Some w -> i = h).
  { intros i Hi Ei. destruct Hk as [Hk|Hk]; [eapply (k_uniq q 37 _ B); eauto|]. destruct (Hn0 Hk i Hi Ei). }
  split; [now rewrite zlen_upd|]. split; [|split; [|split]].
  - now apply (kok_ext q 37 Hq (fun i => if h =? i then Some w else kfd hs u i)).
  - intros i Hi. rewrite K by exact Hi. destruct (h =? i); cbn [fst]; [lia|]. now apply C.
  - intros k. pose proof (C0 k) as Ck. split.
    + intros (i & Hi & Ei). rewrite KF in Ei by exact Hi. destruct (h =? i).
      * injection Ei as ->. rewrite Z.eqb_refl. cbn [b2z]. lia.
      * assert (X : k = u \/ 1 <= c k) by (apply D; eauto). unfold b2z. destruct (w =? k); lia.
    + intros Hk'. destruct (Z.eq_dec k w) as [->|Nk]; [exists h; split; [exact Hh|]; rewrite KF by exact Hh; now rewrite Z.eqb_refl|].
      replace (w =? k) with false in Hk' by lia. cbn [b2z] in Hk'. destruct (proj2 (D k) ltac:(lia)) as (i & Hi & Ei). exists i. split; [exact Hi|].
      rewrite KF by exact Hi. destruct (Z.eqb_spec h i) as [->|]; [|exact Ei]. destruct Hk; congruence.
  - intros i k n' Hi. rewrite K by exact Hi. destruct (Z.eqb_spec h i) as [->|Nh].
    + intros [= <- <-]. split; [contradiction|]. intros _. rewrite Z.eqb_refl. cbn [b2z]. auto.
    + intros E. assert (Ek : kfd hs u i = Some k) by (unfold kfd; rewrite E; cbn [fst snd]; now rewrite Z.eqb_refl).
      destruct (Z.eqb_spec w k) as [<-|]; [exfalso; apply Nh; symmetry; now apply UQ|]. cbn [b2z]. rewrite Z.add_0_r. now apply (F i).
Qed.

Lemma dstep_ok u w e0 ed0 c st : elem m u -> elem m w -> rinv m (velmbas m) thrd DI u e0 ed0 c st -> 4 <= 2 * medgenbr m -> (forall k, 0 <= c k <= paths g u k) ->
  wp (dualStep g noconbr b (velmbas m - b) (siz - 1) u w st) (rinv m (velmbas m) thrd DI u e0 ed0 (fun k => c k + b2z (w =? k))) noerr.
Proof.
  intros Hu Hw I H4 Hc. pose proof (ri_hash _ _ _ _ _ _ _ _ _ I) as HI. pose proof HI as (A & B & C & D & F). unfold dualStep.
  rewrite (dualDegr_ok u) by (now apply elem_vert). cbn [bind].
  assert (Hc0 : forall k, 0 <= c k) by (intros k; apply Hc).
  (* the shared end of the two cases in which the counter changes *)
  assert (TEST : forall n h, slot q h -> w <> u -> kok q 37 (fun i => if h =? i then Some w else kfd (mhs st) u i) -> (kfd (mhs st) u h = Some w \/ kfd (mhs st) u h = None) ->
    (kfd (mhs st) u h = None -> forall i, slot q i -> kfd (mhs st) u i <> Some w) ->
    n = thrd u w - (c w + 1) -> ~ made thrd c u w ->
    wp (do hs <- wr 0 (mhs st) h (u, w, n);
        let st := mkmst hs (med st) (mnd st) (mnx st) in
        if n <=? 0 then do st <- meshEdgeAdd b (w - (velmbas m - b)) st; Ok (inr st) else Ok (@inr Z _ st))
      (fun x => match x with inr r => rinv m (velmbas m) thrd DI u e0 ed0 (fun k => c k + b2z (w =? k)) r | inl _ => False end) noerr).
  { intros n h Hh Nw Ko K1 K2 En Nm. rewrite wr_ok by (unfold slot in Hh; lia). cbn [bind]. cbv zeta.
    assert (Hn : DI u (fun k => c k + b2z (w =? k)) (upd 0 (mhs st) h (u, w, n))) by (apply DI_put; auto; lia).
    destruct (Z.leb_spec n 0).
    - apply wp_bind. eapply wp_mono; [apply (rinv_add m (velmbas m) thrd DI u w e0 ed0 c (fun k => c k + b2z (w =? k)) st _ I H4 Nm)|].
      + intros k. unfold made in *. specialize (Hc0 k). destruct (Z.eqb_spec w k) as [<-|]; cbn [b2z]; lia.
      + exact Hn.
      + intros st' I'. exact I'.
    - cbn [wp]. apply (rinv_same m (velmbas m) thrd DI u e0 ed0 c); auto. intros k. unfold made in *. specialize (Hc0 k). destruct (Z.eqb_spec w k) as [<-|]; cbn [b2z]; lia. }
  apply (kprobe q 37 Hq (kfd (mhs st) u) w); [exact B| | | | |].
  - eapply (key_free m V q); eauto. now apply elem_vert.
  - unfold zlen in A. lia.
  - intros h k' Hh E Nk. rewrite rd_ok by (unfold slot in Hh; lia). cbn [bind]. unfold kfd in E. destruct (at_ 0 (mhs st) h) as [[o t] n]. cbn [fst snd] in E.
    destruct (o =? u); [|discriminate]. injection E as ->. cbn [negb]. now replace (k' =? w) with false by lia.
  - intros h Hh E. rewrite rd_ok by (unfold slot in Hh; lia). cbn [bind]. assert (Kw : w = u \/ 1 <= c w) by (apply D; eauto). pose proof E as E'. unfold kfd in E.
    destruct (at_ 0 (mhs st) h) as [[o t] n] eqn:Et. cbn [fst snd] in E. destruct (Z.eqb_spec o u) as [->|]; [|discriminate]. injection E as ->. cbn [negb]. rewrite Z.eqb_refl.
    destruct (F h w n Hh Et) as [F1 F2]. destruct (Z.ltb_spec 0 n) as [Hn|Hn].
    + assert (Nw : w <> u) by (intros X; specialize (F1 X); lia). destruct (F2 Nw) as [F3 F4]. apply TEST; auto.
      * apply (kok_ext q 37 Hq (kfd (mhs st) u)); [|exact B]. intros i Hi. destruct (Z.eqb_spec h i) as [<-|]; [now symmetry|reflexivity].
      * intros X. congruence.
      * specialize (F4 Hn). lia.
      * unfold made. lia.
    + cbn [wp]. assert (Kt : w = u \/ thrd u w <= c w) by (destruct (Z.eq_dec w u) as [|Nw]; [now left|right; now apply (F2 Nw)]).
      pose proof (rinv_same m (velmbas m) thrd DI u e0 ed0 c (fun k => c k + b2z (w =? k)) st (mhs st) I) as X. destruct st as [a1 a2 a3 a4]. apply X; clear X; cbn [mhs] in *.
      * intros k. unfold made. specialize (Hc0 k). destruct (Z.eqb_spec w k) as [<-|]; cbn [b2z]; lia.
      * split; [exact A|]. split; [exact B|]. split; [exact C|]. split; [intros k; rewrite D; specialize (Hc0 k); destruct (Z.eqb_spec w k) as [<-|]; cbn [b2z]; lia|].
        intros i k n' Hi Ei. destruct (F i k n' Hi Ei) as [G1 G2]. split; [exact G1|]. intros Nk. destruct (G2 Nk) as [G3 G4]. destruct (Z.eqb_spec w k) as [<-|]; cbn [b2z]; [|rewrite Z.add_0_r; auto].
        assert (i = h) by (eapply (k_uniq q 37 _ B); eauto; unfold kfd; rewrite Ei; cbn [fst snd]; now rewrite Z.eqb_refl). subst i. assert (n' = n) by congruence. subst n'. lia.
  - intros h Hh Hp E N. rewrite rd_ok by (unfold slot in Hh; lia). cbn [bind]. pose proof E as E'. unfold kfd in E. destruct (at_ 0 (mhs st) h) as [[o t] n] eqn:Et. cbn [fst snd] in E.
    destruct (o =? u) eqn:Eo; [discriminate|]. cbn [negb]. rewrite (dualDegr_ok w) by (now apply elem_vert). cbn [bind].
    assert (Kw : w <> u /\ c w = 0).
    { assert (X : ~ (w = u \/ 1 <= c w)) by (rewrite <- D; intros (i & Hi & Ei); exact (N i Hi Ei)). specialize (Hc0 w). lia. }
    apply TEST; auto; try tauto.
    + now apply kins.
    + unfold thrd. lia.
    + unfold made. lia.
Qed.
End Dual.

Lemma thrd_sym m n u w : thrd m n u w = thrd m n w u.
Proof. unfold thrd. lia. Qed.

Lemma meshGraphDual_spec m noconbr : mesh_valid m -> mesh_readable m ->
  wp (meshGraphDual m noconbr) (fun gr => (mvelosum m = velmnbr m -> graph_valid gr) /\ graph_readable gr /\ baseval gr = mbase m /\ vertnbr gr = velmnbr m /\ velosum gr = mvelosum m /\ velotab gr = None /\
    (forall v, isvert gr v <-> elem m (v + (velmbas m - mbase m))) /\
    forall v w, isvert gr v -> isvert gr w -> (adjacent gr v w <-> v <> w /\ let u := v + (velmbas m - mbase m) in let t := w + (velmbas m - mbase m) in 1 <= paths (mgraph m) u t /\ thrd m noconbr u t <= paths (mgraph m) u t)) noerr.
Proof.
  intros V R. pose proof (mv_graph m V) as GV. destruct (meshHashSiz_ok (mdegrmax m) (gv_degr0 _ GV)) as (q & Hq & E & H32 & Hd).
  unfold meshGraphDual. rewrite E. cbn [bind]. destruct (mv_base m V) as [B0 B1]. destruct (mv_elm m V) as [N0 N1].
  set (off := velmbas m - mbase m).
  assert (Hrow : forall u, row (velmbas m) (velmnbr m) u -> elem m u) by (intros u Hu; unfold row, elem in *; lia).
  assert (Hrow' : forall u, elem m u -> row (velmbas m) (velmnbr m) u) by (intros u Hu; unfold row, elem in *; lia).
  assert (HE : 0 <= medgenbr m).
  { change (medgenbr m) with (edgenbr (mgraph m)). rewrite (gv_edgenbr _ GV). apply zsum_nonneg. intros v Hv. pose proof (gv_range _ GV v Hv). lia. }
  apply wp_bind.
  eapply wp_mono; [apply (meshRows_spec m V R (velmbas m) (velmnbr m)) with (thr := thrd m noconbr) (HI := DI m q noconbr) (HS := DS q)|].
  - lia.
  - intros u Hu. apply elem_vert; auto.
  - intros u e e' Hu A A'. apply Hrow'. eapply elem_side; eauto.
  - apply DI_ext.
  - intros u hs Hu. now apply dstart_ok.
  - intros u c hs _. apply DI_end.
  - intros u w e0 ed0 c st Hu Hw I H4 Hc _. eapply dstep_ok; eauto.
  - constructor; cbn [mhs mnd mnx med].
    + rewrite zlen_repeat. lia.
    + lia.
    + rewrite zlen_repeat. lia.
    + lia.
    + split; [rewrite zlen_repeat; pose proof (Z.pow_pos_nonneg 2 q); lia|]. intros i Hi. rewrite at_repeat by (unfold slot in Hi; lia). cbn [fst]. lia.
    + lia.
    + apply at_upd_same. rewrite zlen_repeat. lia.
    + intros; lia.
  - intros [[vt dm] st] RS. pose proof (rs_len _ _ _ _ _ _ _ _ _ RS) as LV.
    rewrite wr_ok by lia. cbn [bind wp].
    destruct (rows_graph m V (velmbas m) (velmnbr m) N0 ltac:(intros u Hu; apply elem_vert; auto) ltac:(intros u e e' Hu A A'; apply Hrow'; eapply elem_side; eauto) (thrd m noconbr) (DS q) ltac:(intros; apply thrd_sym) vt dm st None (velmnbr m) RS ltac:(discriminate)) as (G1 & G2 & G3).
    + intros v Hv'. unfold S_Graph.velo. cbn [velotab]. lia.
    + rewrite (zsum_ext (mbase m) _ _ (fun v => 1)) by reflexivity. rewrite zsum_const by lia. lia.
    + split; [intros ->; exact G1|]. split; [destruct G2; constructor; assumption|]. split; [reflexivity|]. split; [reflexivity|]. split; [reflexivity|]. split; [reflexivity|]. split.
      * intros v. unfold isvert, elem, off. cbn [baseval vertnnd]. lia.
      * intros v w Iv Iw. specialize (G3 v w). fold off in G3. unfold made in G3. unfold adjacent, arc in *. cbv zeta. 
        split; [|intros [X1 X2]; apply G3; split; [exact Iv|]; split; [exact Iw|]; split; [lia|exact X2]].
        intros X. apply G3 in X. destruct X as (_ & _ & X1 & X2). split; [intros ->; now apply X1|exact X2].
Qed.
