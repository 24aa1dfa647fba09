(** Proofs about meshGraph and meshGraphDual. *)
From Verif Require Import Base M_Graph S_Graph P_Graph S_Color P_Vgraph M_Mesh S_Mesh P_MeshHash P_MeshGraph.

Section Add.
Context (m : mesh) (bas : Z) {H : Type} (thr : Z -> Z -> Z) (HI : Z -> (Z -> Z) -> H -> Prop).
Notation b := (mbase m).

Lemma rinv_same u e0 ed0 c c' (st : mst H) hs : rinv m bas thr HI u e0 ed0 c st -> (forall k, made thr c' u k <-> made thr c u k) -> HI u c' hs ->
  rinv m bas thr HI u e0 ed0 c' (mkmst hs (med st) (mnd st) (mnx st)).
Proof.
  intros [A1 A2 A3 A4 A5 A6 A7] M Hh. constructor; auto. intros w. cbn [mnx med]. now rewrite A6, M.
Qed.

Lemma rinv_add u w e0 ed0 c c' (st : mst H) hs : rinv m bas thr HI u e0 ed0 c st -> 4 <= 2 * medgenbr m -> ~ made thr c u w -> (forall k, made thr c' u k <-> k = w \/ made thr c u k) -> HI u c' hs ->
  wp (meshEdgeAdd b (w - (bas - b)) (mkmst hs (med st) (mnd st) (mnx st))) (rinv m bas thr HI u e0 ed0 c') noerr.
Proof.
  intros [A1 A2 A3 A4 A5 A6 A7] H4 N M Hh. eapply wp_mono; [apply meshEdgeAdd_spec; cbn [mnx mnd med]; lia|].
  cbn [mnx mnd med mhs]. intros st' (E1 & E2 & E3 & E4 & E5 & E6 & E7). constructor.
  - lia.
  - exact E4.
  - lia.
  - intros i Hi. rewrite E6 by lia. apply A4. exact Hi.
  - rewrite E2. intros i j Hi Hj. 
    assert (NW : forall i, e0 <= i < mnx st -> at_ b (med st) i <> w - (bas - b)) by (intros i' Hi' X; apply N, A6; exists i'; auto).
    destruct (Z.eq_dec i (mnx st)) as [->|]; destruct (Z.eq_dec j (mnx st)) as [->|]; [reflexivity| | |]; rewrite ?E7; rewrite ?E6 by lia.
    + intros X. exfalso. apply (NW j ltac:(lia)). now symmetry.
    + intros X. exfalso. apply (NW i ltac:(lia)). exact X.
    + intros X. apply A5; auto; lia.
  - rewrite E2. intros k. rewrite M, <- A6. split.
    + intros (i & Hi & Ei). destruct (Z.eq_dec i (mnx st)) as [->|]; [left; lia|]. right. exists i. rewrite E6 in Ei by lia. split; [lia|exact Ei].
    + intros [->|(i & Hi & Ei)]; [exists (mnx st); split; [lia|exact E7]|]. exists i. rewrite E6 by lia. split; [lia|exact Ei].
  - rewrite E1. exact Hh.
Qed.
End Add.

(** ** Both sides of a mesh *)
Section Sides.
Context (m : mesh) (V : mesh_valid m).
Notation g := (mgraph m).

Lemma elem_vert u : elem m u -> isvert g u.
Proof.
  intros Hu. destruct (mv_base m V), (mv_elm m V), (mv_nod m V). pose proof (mv_order m V). unfold isvert, elem in *.
  change (baseval g) with (mbase m). change (vertnnd g) with (velmnbr m + vnodnbr m + mbase m). lia.
Qed.
Lemma node_vert u : node m u -> isvert g u.
Proof.
  intros Hu. destruct (mv_base m V), (mv_elm m V), (mv_nod m V). pose proof (mv_order m V). unfold isvert, node in *.
  change (baseval g) with (mbase m). change (vertnnd g) with (velmnbr m + vnodnbr m + mbase m). lia.
Qed.
Lemma vert_side u : isvert g u -> elem m u /\ ~ node m u \/ node m u /\ ~ elem m u.
Proof.
  destruct (mv_base m V), (mv_elm m V), (mv_nod m V). pose proof (mv_order m V). unfold isvert, node, elem in *.
  change (baseval g) with (mbase m). change (vertnnd g) with (velmnbr m + vnodnbr m + mbase m). lia.
Qed.
Lemma arc_side u e : arc g u e -> elem m u /\ node m (edge g e) \/ node m u /\ elem m (edge g e).
Proof.
  intros A. assert (I : incident m u (edge g e)) by (exists e; auto). pose proof (mv_tied m V _ _ I) as T.
  pose proof (gv_end g (mv_graph m V) _ _ A) as HE. destruct A as [A _]. pose proof (vert_side _ A). pose proof (vert_side _ HE). tauto.
Qed.
Lemma incident_sym x y : incident m x y <-> incident m y x.
Proof.
  assert (G : forall x y, incident m x y -> incident m y x).
  { intros x' y' (e & A & E). destruct (gv_sym g (mv_graph m V) _ _ A) as (e' & A' & E' & _). exists e'. rewrite <- E. auto. }
  split; apply G.
Qed.
Lemma node_side u e e' : node m u -> arc g u e -> arc g (edge g e) e' -> node m (edge g e').
Proof. intros Hu A B. pose proof (arc_side _ _ A). pose proof (arc_side _ _ B). pose proof (vert_side _ (node_vert u Hu)). pose proof (vert_side _ (proj1 B)). tauto. Qed.
Lemma elem_side u e e' : elem m u -> arc g u e -> arc g (edge g e) e' -> elem m (edge g e').
Proof. intros Hu A B. pose proof (arc_side _ _ A). pose proof (arc_side _ _ B). pose proof (vert_side _ (elem_vert u Hu)). pose proof (vert_side _ (proj1 B)). tauto. Qed.
End Sides.

(** ** meshGraph *)
Section Primal.
Context (m : mesh) (V : mesh_valid m) (R : mesh_readable m) (q : Z) (Hq : 0 <= q) (H32 : 32 <= 2 ^ q) (Hd : mdegrmax m * mdegrmax m * 2 <= 2 ^ q).
Notation g := (mgraph m).
Notation b := (mbase m).
Notation siz := (2 ^ q).
Notation tab := (list (Z * Z)).
Let GV : graph_valid g := mv_graph m V.

Definition kf (hs : tab) (u i : Z) : option Z := if fst (at_ 0 hs i) =? u then Some (snd (at_ 0 hs i)) else None.
Definition PI (u : Z) (c : Z -> Z) (hs : tab) : Prop :=
  zlen hs = siz /\ kok q 37 (kf hs u) /\ (forall i, slot q i -> fst (at_ 0 hs i) <= u) /\ forall k, (exists i, slot q i /\ kf hs u i = Some k) <-> k = u \/ 1 <= c k.
Definition PS (u : Z) (hs : tab) : Prop := zlen hs = siz /\ forall i, slot q i -> fst (at_ 0 hs i) < u.

Lemma PI_ext u c c' hs : (forall k, c' k = c k) -> PI u c hs -> PI u c' hs.
Proof. intros E (A & B & C & D). split; [exact A|]. split; [exact B|]. split; [exact C|]. intros k. now rewrite D, E. Qed.

Lemma PI_end u c hs : PI u c hs -> PS (u + 1) hs.
Proof. intros (A & B & C & D). split; [exact A|]. intros i Hi. specialize (C i Hi). lia. Qed.

Lemma home_slot u : slot q (Z.land (u * 37) (siz - 1)).
Proof. rewrite kmsk by exact Hq. now apply kmod. Qed.

Lemma start_ok u hs : PS u hs -> wp (meshStart (siz - 1) u hs) (PI u (fun _ => 0)) noerr.
Proof.
  intros (A & B). pose proof (home_slot u) as Hs. unfold meshStart. rewrite wr_ok by (unfold slot in Hs; lia). cbn [wp].
  set (h := Z.land (u * 37) (siz - 1)) in *. set (hs' := upd 0 hs h (u, u)).
  assert (K : forall i, slot q i -> at_ 0 hs' i = if h =? i then (u, u) else at_ 0 hs i) by (intros i Hi; unfold hs'; apply at_upd; unfold slot in *; lia).
  assert (KF : forall i, slot q i -> kf hs' u i = if h =? i then Some u else None).
  { intros i Hi. unfold kf. rewrite K by exact Hi. destruct (h =? i); cbn [fst snd]; [now rewrite Z.eqb_refl|]. specialize (B i Hi). now replace (fst (at_ 0 hs i) =? u) with false by lia. }
  split; [unfold hs'; now rewrite zlen_upd|]. split; [|split].
  - apply (kok_ext q 37 Hq (fun i => if h =? i then Some u else None)); [exact KF|]. now apply kok_one.
  - intros i Hi. rewrite K by exact Hi. destruct (h =? i); cbn [fst]; [lia|]. specialize (B i Hi). lia.
  - intros k. split.
    + intros (i & Hi & E). rewrite KF in E by exact Hi. destruct (h =? i); [|discriminate]. injection E as <-. now left.
    + intros [->|]; [|lia]. exists h. split; [exact Hs|]. rewrite KF by exact Hs. now rewrite Z.eqb_refl.
Qed.

Lemma key_free (kf : Z -> option Z) u (c : Z -> Z) : isvert g u -> kok q 37 kf -> (forall k, (exists i, slot q i /\ kf i = Some k) <-> k = u \/ 1 <= c k) -> (forall k, 0 <= c k <= paths g u k) ->
  exists i, slot q i /\ kf i = None.
Proof.
  intros Iu B D Hc. apply (kfree q 37 Hq kf (u :: around g u)); [exact B| |].
  - intros i k Hi E. destruct (proj1 (D k) ltac:(eauto)) as [->|Hk]; [now left|]. right. apply around_in. specialize (Hc k). lia.
  - rewrite zlen_cons. pose proof (around_len g GV u Iu) as X. change (degrmax g) with (mdegrmax m) in X. nia.
Qed.

Definition thr1 (u w : Z) : Z := 1.
Lemma step_ok u w e0 ed0 c st : node m u -> rinv m (vnodbas m) thr1 PI u e0 ed0 c st -> 4 <= 2 * medgenbr m -> (forall k, 0 <= c k <= paths g u k) ->
  wp (meshStep b (vnodbas m - b) (siz - 1) u w st) (rinv m (vnodbas m) thr1 PI u e0 ed0 (fun k => c k + b2z (w =? k))) noerr.
Proof.
  intros Hu I H4 Hc. pose proof (ri_hash _ _ _ _ _ _ _ _ _ I) as (A & B & C & D). unfold meshStep.
  assert (Hb : forall k, 0 <= b2z (w =? k) <= 1) by (intros k; unfold b2z; destruct (w =? k); lia).
  apply (kprobe q 37 Hq (kf (mhs st) u) w); [exact B| | | | |].
  - eapply key_free; eauto. now apply node_vert.
  - unfold zlen in A. lia.
  - intros h k' Hh E Nk. rewrite rd_ok by (unfold slot in Hh; lia). cbn [bind]. unfold kf in E. destruct (at_ 0 (mhs st) h) as [o t]. cbn [fst snd] in E.
    destruct (o =? u); [|discriminate]. injection E as ->. cbn [negb]. now replace (k' =? w) with false by lia.
  - intros h Hh E. rewrite rd_ok by (unfold slot in Hh; lia). cbn [bind]. assert (Kw : w = u \/ 1 <= c w) by (apply D; eauto). unfold kf in E. destruct (at_ 0 (mhs st) h) as [o t]. cbn [fst snd] in E.
    destruct (o =? u); [|discriminate]. injection E as ->. cbn [negb]. rewrite Z.eqb_refl. cbn [wp].
    pose proof (rinv_same m (vnodbas m) thr1 PI u e0 ed0 c (fun k => c k + b2z (w =? k)) st (mhs st) I) as X. destruct st as [a1 a2 a3 a4]; apply X; clear X; cbn [mhs] in *.
    + intros k. unfold made, thr1. specialize (Hc k). destruct (Z.eqb_spec w k) as [->|]; cbn [b2z]; lia.
    + split; [exact A|]. split; [exact B|]. split; [exact C|]. intros k. rewrite D. specialize (Hc k). destruct (Z.eqb_spec w k) as [->|]; cbn [b2z]; lia.
  - intros h Hh Hp E N. rewrite rd_ok by (unfold slot in Hh; lia). cbn [bind]. pose proof E as E'. unfold kf in E. destruct (at_ 0 (mhs st) h) as [o t] eqn:Et. cbn [fst snd] in E.
    destruct (o =? u) eqn:Eo; [discriminate|]. cbn [negb]. rewrite wr_ok by (unfold slot in Hh; lia). cbn [bind]. apply wp_bind.
    assert (Kw : w <> u /\ c w = 0).
    { assert (X : ~ (w = u \/ 1 <= c w)) by (rewrite <- D; intros (i & Hi & Ei); exact (N i Hi Ei)). specialize (Hc w). lia. }
    eapply wp_mono; [apply (rinv_add m (vnodbas m) thr1 PI u w e0 ed0 c (fun k => c k + b2z (w =? k)) st (upd 0 (mhs st) h (u, w)) I H4)|].
    + unfold made. lia.
    + intros k. unfold made, thr1. specialize (Hc k). destruct (Z.eqb_spec w k) as [->|]; cbn [b2z]; lia.
    + assert (K : forall i, slot q i -> at_ 0 (upd 0 (mhs st) h (u, w)) i = if h =? i then (u, w) else at_ 0 (mhs st) i) by (intros i Hi; apply at_upd; unfold slot in *; lia).
      assert (KF : forall i, slot q i -> kf (upd 0 (mhs st) h (u, w)) u i = if h =? i then Some w else kf (mhs st) u i).
      { intros i Hi. unfold kf. rewrite K by exact Hi. destruct (h =? i); cbn [fst snd]; [now rewrite Z.eqb_refl|reflexivity]. }
      split; [now rewrite zlen_upd|]. split; [|split].
      * apply (kok_ext q 37 Hq (fun i => if h =? i then Some w else kf (mhs st) u i)); [exact KF|]. now apply kins.
      * intros i Hi. rewrite K by exact Hi. destruct (h =? i); cbn [fst]; [lia|]. now apply C.
      * intros k. split.
        -- intros (i & Hi & Ei). rewrite KF in Ei by exact Hi. destruct (h =? i).
           ++ injection Ei as ->. rewrite Z.eqb_refl. cbn [b2z]. lia.
           ++ assert (X : k = u \/ 1 <= c k) by (apply D; eauto). specialize (Hb k). lia.
        -- intros Hk. destruct (Z.eq_dec k w) as [->|Nk]; [exists h; split; [exact Hh|]; rewrite KF by exact Hh; now rewrite Z.eqb_refl|].
           replace (w =? k) with false in Hk by lia. cbn [b2z] in Hk. destruct (proj2 (D k) ltac:(lia)) as (i & Hi & Ei). exists i. split; [exact Hi|].
           rewrite KF by exact Hi. destruct (Z.eqb_spec h i) as [->|]; [congruence|exact Ei].
    + intros st' I'. cbn [wp]. exact I'.
Qed.
End Primal.

Lemma meshGraph_spec m : mesh_valid m -> mesh_readable m ->
  wp (meshGraph m) (fun gr => graph_valid gr /\ graph_readable gr /\ baseval gr = mbase m /\ vertnbr gr = vnodnbr m /\
    (forall v, isvert gr v -> velo gr v = mload (mvnlo m) (v + (vnodbas m - mbase m))) /\
    (forall v, isvert gr v <-> node m (v + (vnodbas m - mbase m))) /\
    forall v w, isvert gr v -> isvert gr w -> (adjacent gr v w <-> v <> w /\ 1 <= paths (mgraph m) (v + (vnodbas m - mbase m)) (w + (vnodbas m - mbase m)))) noerr.
Proof.
  intros V R. pose proof (mv_graph m V) as GV. destruct (meshHashSiz_ok (mdegrmax m) (gv_degr0 _ GV)) as (q & Hq & E & H32 & Hd).
  unfold meshGraph. rewrite E. cbn [bind]. destruct (mv_base m V) as [B0 B1]. destruct (mv_nod m V) as [N0 N1]. pose proof (zlen_nonneg (medge m)).
  set (off := vnodbas m - mbase m).
  assert (Hrow : forall u, row (vnodbas m) (vnodnbr m) u -> node m u) by (intros u Hu; unfold row, node in *; lia).
  assert (Hrow' : forall u, node m u -> row (vnodbas m) (vnodnbr m) u) by (intros u Hu; unfold row, node in *; lia).
  assert (HE : 0 <= medgenbr m).
  { change (medgenbr m) with (edgenbr (mgraph m)). rewrite (gv_edgenbr _ GV). apply zsum_nonneg. intros v Hv. pose proof (gv_range _ GV v Hv). lia. }
  assert (Hvelo : exists velo, (match mvnlo m with
              | None => Ok None
              | Some (o, t) => if (vnodbas m <? o) && (0 <? vnodnbr m) then UB else Ok (Some (skipn (Z.to_nat (vnodbas m - o)) t))
              end) = Ok velo /\ (forall t, velo = Some t -> vnodnbr m <= zlen t) /\
      forall v, mbase m <= v < vnodnbr m + mbase m -> (match velo with Some t => at_ (mbase m) t v | None => 1 end) = mload (mvnlo m) (v + off)).
  { destruct (mvnlo m) as [[o t]|] eqn:Eo; [|exists None; split; [reflexivity|]; split; [discriminate|]; intros; reflexivity].
    destruct (mr_vnlo m R _ _ Eo) as [[X1 X2]|X].
    - replace (vnodbas m <? o) with false by lia. cbn [andb]. eexists. split; [reflexivity|]. split.
      + intros t' [= <-]. rewrite zlen_skipn by lia. lia.
      + intros v Hv. cbn [mload fst snd]. rewrite at_skipn by lia. rewrite (at_rebase o). f_equal. unfold off. lia.
    - replace (0 <? vnodnbr m) with false by lia. rewrite andb_false_r. eexists. split; [reflexivity|]. split; [intros t' [= <-]; pose proof (zlen_nonneg (skipn (Z.to_nat (vnodbas m - o)) t)); lia|]. lia. }
  destruct Hvelo as (velo & Ev & Lv & Hv). rewrite Ev. cbn [bind]. apply wp_bind.
  eapply wp_mono; [apply (meshRows_spec m V R (vnodbas m) (vnodnbr m)) with (thr := thr1) (HI := PI q) (HS := PS q)|].
  - lia.
  - intros u Hu. apply node_vert; auto.
  - intros u e e' Hu A A'. apply Hrow'. eapply node_side; eauto.
  - apply PI_ext.
  - intros u hs Hu. now apply start_ok.
  - intros u c hs _. apply PI_end.
  - intros u w e0 ed0 c st Hu Hw I H4 Hc _. eapply step_ok; eauto.
  - constructor; cbn [mhs mnd mnx med].
    + rewrite zlen_repeat. lia.
    + lia.
    + rewrite zlen_repeat. lia.
    + lia.
    + split; [rewrite zlen_repeat; pose proof (Z.pow_pos_nonneg 2 q); lia|]. intros i Hi. rewrite at_repeat by (unfold slot in Hi; lia). cbn [fst]. lia.
    + lia.
    + apply at_upd_same. rewrite zlen_repeat. lia.
    + intros; lia.
  - intros [[vt dm] st] RS. pose proof (rs_len _ _ _ _ _ _ _ _ _ RS) as LV.
    rewrite wr_ok by lia. cbn [bind wp].
    assert (VE : forall v, mbase m <= v < vnodnbr m + mbase m -> S_Graph.velo (mkgraph (mbase m) (vnodnbr m) (vnodnbr m + mbase m) (upd (mbase m) vt (vnodnbr m + mbase m) (mnx st)) None velo (mvnlosum m) None None
      (mnx st - mbase m) (med st) None (mnx st - mbase m) dm) v = mload (mvnlo m) (v + off)) by (intros v Hv'; unfold S_Graph.velo; cbn [velotab baseval]; now apply Hv).
    destruct (rows_graph m V (vnodbas m) (vnodnbr m) N0 ltac:(intros u Hu; apply node_vert; auto) ltac:(intros u e e' Hu A A'; apply Hrow'; eapply node_side; eauto) thr1 (PS q) ltac:(reflexivity) vt dm st velo (mvnlosum m) RS Lv) as (G1 & G2 & G3).
    + intros v Hv'. rewrite VE by exact Hv'. pose proof (mv_vnlo m V (v + off)) as X. unfold isvert in Hv'. cbn [baseval vertnnd] in Hv'. unfold node, off in *. specialize (X ltac:(lia)). lia.
    + rewrite (mv_vnlosum m V). rewrite (zsum_ext (mbase m) _ _ (fun v => mload (mvnlo m) (v + off))) by (intros; now apply VE).
      rewrite zsum_shift. f_equal; unfold off; lia.
    + split; [exact G1|]. split; [exact G2|]. split; [reflexivity|]. split; [reflexivity|]. split; [intros v Hv'; apply VE; exact Hv'|]. split.
      * intros v. unfold isvert, node, off. cbn [baseval vertnnd]. lia.
      * intros v w Iv Iw. rewrite G3. unfold made, thr1. fold off. split; [|intros [X1 X2]; split; [exact Iv|]; split; [exact Iw|]; lia]. intros (_ & _ & X1 & X2 & _). split; [intros ->; now apply X1|exact X2].
Qed.
