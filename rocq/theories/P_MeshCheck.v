(** Proofs about meshCheck, meshBuild and meshBase. *)
From Verif Require Import Base M_Graph S_Graph P_Graph P_GraphBase S_Color P_Vgraph M_Mesh S_Mesh P_MeshGraph2.

(** ** Soundness of meshCheck *)

(** what a successful pass over one arc of a vertex of [bas..nnd-1] establishes *)
Definition marcOk (m : mesh) (bas nnd v e : Z) : Prop :=
  let g := mgraph m in
  isvert g (edge g e) /\ ~ (bas <= edge g e < nnd) /\ baseval g <= e < baseval g + zlen (edgetab g) /\
  exists e', vert g (edge g e) <= e' < vend g (edge g e) /\ edge g e' = v /\
    forall k, vert g (edge g e) <= k < vend g (edge g e) -> edge g k = v -> k = e'.

Lemma meshCheckArc_wlp m bas nnd v e : wlp (meshCheckArc m bas nnd v e) (fun _ => marcOk m bas nnd v e).
Proof.
  unfold meshCheckArc. apply wlp_bind, wlp_intro. intros w Hw%redge_inv. destruct Hw as [-> He]. set (g := mgraph m) in *. set (w := edge g e).
  destruct ((w <? mbase m) || _) eqn:E1; [exact I|]. destruct ((bas <=? w) && _) eqn:E2; [exact I|].
  apply wlp_bind, wlp_intro. intros lo Hlo%rvert_inv. destruct Hlo as [-> _]. apply wlp_bind, wlp_intro. intros hi Hhi%rvend_inv. destruct Hhi as [-> _].
  apply wlp_bind. eapply wlp_mono; [apply arcsearch_wlp|]. intros ee (A1 & A2 & A3). cbn beta in *. destruct (Z.leb_spec (vend g w) ee); [exact I|].
  apply wlp_bind. eapply wlp_mono; [apply arcsearch_wlp|]. intros ee' (B1 & B2 & B3). cbn beta in *. destruct (Z.ltb_spec ee' (vend g w)); [exact I|]. cbn [wlp].
  unfold marcOk. fold g. fold w. split; [unfold isvert; change (baseval g) with (mbase m); change (vertnnd g) with (velmnbr m + vnodnbr m + mbase m); lia|].
  split; [lia|]. split; [exact He|]. exists ee. split; [lia|]. split; [apply A3; lia|]. intros k Hk Ek.
  destruct (Z.lt_trichotomy k ee) as [L|[L|L]]; [|exact L|].
  - destruct (A2 k ltac:(lia)) as (_ & N & _). contradiction.
  - destruct (B2 k ltac:(lia)) as (_ & N & _). contradiction.
Qed.

Definition mvertOk (m : mesh) (bas nnd v : Z) : Prop :=
  let g := mgraph m in
  baseval g <= vert g v <= vend g v /\ baseval g <= v < baseval g + zlen (verttab g) /\
  match vendtab g with Some t => baseval g <= v < baseval g + zlen t | None => baseval g <= v + 1 < baseval g + zlen (verttab g) end /\
  forall e, vert g v <= e < vend g v -> marcOk m bas nnd v e.

Lemma meshCheckVert_wlp m bas nnd v {S} (k : Z -> Z -> S) : 
  wlp (do lo <- rvert (mgraph m) v; if lo <? mbase m then Err 1 else do hi <- rvend (mgraph m) v; if hi <? lo then Err 1 else
       do _ <- for_ lo hi (fun e _ => meshCheckArc m bas nnd v e) tt; Ok (k lo hi))
    (fun s => mvertOk m bas nnd v /\ s = k (vert (mgraph m) v) (vend (mgraph m) v)).
Proof.
  apply wlp_bind, wlp_intro. intros lo Hlo%rvert_inv. destruct Hlo as [-> H1]. destruct (Z.ltb_spec (vert (mgraph m) v) (mbase m)); [exact I|].
  apply wlp_bind, wlp_intro. intros hi Hhi%rvend_inv. destruct Hhi as [-> H2]. destruct (Z.ltb_spec (vend (mgraph m) v) (vert (mgraph m) v)); [exact I|].
  apply wlp_bind. apply wlp_for with (I := fun e _ => forall e', vert (mgraph m) v <= e' < e -> marcOk m bas nnd v e').
  - lia.
  - intros; lia.
  - intros e _ He IH. eapply wlp_mono; [apply meshCheckArc_wlp|]. intros s0 A e' He'. destruct (Z.eq_dec e' e) as [->|]; [exact A|apply IH; lia].
  - intros _ IH. cbn [wlp]. split; [|reflexivity]. unfold mvertOk. split; [change (baseval (mgraph m)) with (mbase m); lia|]. auto.
Qed.

Lemma meshCheckElm_wlp m v dm is : wlp (meshCheckElm m v (dm, is)) (fun '(dm', is') => mvertOk m (velmbas m) (velmnnd m) v /\ dm <= dm' /\ mdegree m v <= dm' /\ (0 <= dm -> is' = is + b2z (mdegree m v =? 0))).
Proof.
  unfold meshCheckElm. eapply wlp_mono; [apply (meshCheckVert_wlp m (velmbas m) (velmnnd m) v (fun lo hi => if dm <? hi - lo then (hi - lo, is) else if hi - lo =? 0 then (dm, is + 1) else (dm, is)))|].
  intros s (A & ->). fold (mdegree m v). destruct (Z.ltb_spec dm (mdegree m v)).
  - split; [exact A|]. split; [lia|]. split; [lia|]. intros. replace (mdegree m v =? 0) with false by lia. cbn [b2z]. lia.
  - destruct (Z.eqb_spec (mdegree m v) 0); (split; [exact A|]; split; [lia|]; split; [lia|]; intros; cbn [b2z]; lia).
Qed.

Lemma meshCheckNod_wlp m v dm : wlp (meshCheckNod m v dm) (fun dm' => mvertOk m (vnodbas m) (vnodnnd m) v /\ dm <= dm' /\ mdegree m v <= dm').
Proof.
  unfold meshCheckNod. eapply wlp_mono; [apply (meshCheckVert_wlp m (vnodbas m) (vnodnnd m) v (fun lo hi => if dm <? hi - lo then hi - lo else dm))|].
  intros s (A & ->). fold (mdegree m v). split; [exact A|]. destruct (Z.ltb_spec dm (mdegree m v)); lia.
Qed.

Lemma meshCheckLoad_wlp gmax t bas nnd : bas <= nnd -> wlp (meshCheckLoad gmax t bas nnd) (fun s => s = zsum bas nnd (mload t) /\ (forall v, bas <= v < nnd -> 1 <= mload t v) /\
  forall o l, t = Some (o, l) -> o <= bas /\ nnd <= o + zlen l \/ nnd - bas = 0).
Proof.
  intros Hle. unfold meshCheckLoad. destruct t as [[o l]|].
  - apply wlp_for with (I := fun v s => s = zsum bas v (mload (Some (o, l))) /\ (forall v', bas <= v' < v -> 1 <= mload (Some (o, l)) v' /\ o <= v' < o + zlen l)); [lia| | |].
    + split; [now rewrite zsum_nil by lia|intros; lia].
    + intros v s Hv (-> & H2). apply wlp_bind, wlp_intro. intros x Hx. unfold rload in Hx. apply rd_inv in Hx. destruct Hx as (Hx & ->). cbn [fst snd] in *. change (at_ o l v) with (mload (Some (o, l)) v).
      destruct (Z.ltb_spec (mload (Some (o, l)) v) 1); [exact I|]. apply wlp_intro. intros s' Hs%gadd_inv. destruct Hs as [-> _].
      split; [rewrite zsum_snoc by lia; reflexivity|]. intros v' Hv'. destruct (Z.eq_dec v' v) as [->|]; [split; [lia|lia]|apply H2; lia].
    + intros s (-> & H2). split; [reflexivity|]. split; [intros v Hv; apply H2; exact Hv|]. intros o' l' [= <- <-].
      destruct (Z.eq_dec bas nnd) as [|N]; [right; lia|left]. destruct (H2 bas ltac:(lia)). destruct (H2 (nnd - 1) ltac:(lia)). lia.
  - cbn [wlp]. split; [|split; [cbn [mload]; lia|discriminate]]. rewrite (zsum_ext _ _ _ (fun _ => 1)) by reflexivity. rewrite zsum_const by lia. lia.
Qed.

Lemma meshCheck_sound gmax m : meshCheck gmax m = Ok tt -> 0 <= mbase m -> mbase m = Z.min (velmbas m) (vnodbas m) ->
  medgenbr m = zsum (mbase m) (velmnbr m + vnodnbr m + mbase m) (mdegree m) -> mesh_valid m /\ mesh_readable m.
Proof.
  intros E HB HM HN.
  assert (W : wlp (meshCheck gmax m) (fun _ => mesh_valid m /\ mesh_readable m)); [|exact (wlp_elim _ _ _ W E)]. clear E.
  unfold meshCheck. destruct ((velmnnd m <? velmbas m) || _ || _ || _ || _) eqn:E0; [exact I|].
  apply wlp_bind.
  eapply wlp_mono; [apply wlp_for with (I := fun v '(dm, is) => 0 <= dm /\ is = zcount (velmbas m) v (fun v => mdegree m v =? 0) /\
     forall v', velmbas m <= v' < v -> mvertOk m (velmbas m) (velmnnd m) v' /\ mdegree m v' <= dm) (Q := fun '(dm, is) => 0 <= dm /\ is = zcount (velmbas m) (velmnnd m) (fun v => mdegree m v =? 0) /\
     forall v', elem m v' -> mvertOk m (velmbas m) (velmnnd m) v' /\ mdegree m v' <= dm); [lia| | |]|].
  - split; [lia|]. split; [now rewrite zcount_nil by lia|]. intros; lia.
  - intros v [dm is] Hv (H1 & H2 & H3). eapply wlp_mono; [apply meshCheckElm_wlp|]. intros [dm' is'] (K1 & K2 & K3 & K4). cbn beta iota. split; [lia|]. split.
    + rewrite K4, zcount_snoc by lia. lia.
    + intros v' Hv'. destruct (Z.eq_dec v' v) as [->|]; [split; [exact K1|lia]|]. destruct (H3 v' ltac:(lia)). split; [assumption|lia].
  - intros [dm is] H. exact H.
  - intros [dm is] (D1 & D2 & D3). destruct (Z.eqb_spec is (veisnbr m)) as [Ei|]; [|exact I]. cbn [negb]. apply wlp_bind.
    eapply wlp_mono; [apply wlp_for with (I := fun v dm' => dm <= dm' /\
     forall v', vnodbas m <= v' < v -> mvertOk m (vnodbas m) (vnodnnd m) v' /\ mdegree m v' <= dm') (Q := fun dm' => dm <= dm' /\
     forall v', node m v' -> mvertOk m (vnodbas m) (vnodnnd m) v' /\ mdegree m v' <= dm'); [lia| | |]|].
    + split; [lia|]. intros; lia.
    + intros v dm' Hv (H1 & H3). eapply wlp_mono; [apply meshCheckNod_wlp|]. intros dm'' (K1 & K2 & K3). cbn beta. split; [lia|].
      intros v' Hv'. destruct (Z.eq_dec v' v) as [->|]; [split; [exact K1|lia]|]. destruct (H3 v' ltac:(lia)). split; [assumption|lia].
    + intros dm' H. exact H.
    + intros dm' (N1 & N2). apply wlp_bind. eapply wlp_mono; [apply meshCheckLoad_wlp; lia|]. intros es (L1 & L2 & L3). cbn beta.
      destruct (Z.eqb_spec es (mvelosum m)) as [Es|]; [|exact I]. cbn [negb]. apply wlp_bind. eapply wlp_mono; [apply meshCheckLoad_wlp; lia|]. intros ns (M1 & M2 & M3). cbn beta.
      destruct (Z.eqb_spec ns (mvnlosum m)) as [Es'|]; [|exact I]. cbn [negb]. destruct (Z.ltb_spec (mdegrmax m) dm'); [exact I|]. cbn [wlp].
      set (g := mgraph m) in *.
      assert (SD : forall v, isvert g v -> elem m v /\ ~ node m v \/ node m v /\ ~ elem m v).
      { intros v Hv. unfold isvert, elem, node in *. change (baseval g) with (mbase m) in Hv. change (vertnnd g) with (velmnbr m + vnodnbr m + mbase m) in Hv. lia. }
      assert (VO : forall v, isvert g v -> exists bas nnd, bas <= v < nnd /\ (bas = velmbas m /\ nnd = velmnnd m \/ bas = vnodbas m /\ nnd = vnodnnd m) /\ mvertOk m bas nnd v /\ mdegree m v <= dm').
      { intros v Hv. destruct (SD v Hv) as [[X _]|[X _]].
        - exists (velmbas m), (velmnnd m). destruct (D3 v X). split; [exact X|]. split; [now left|]. split; [assumption|lia].
        - exists (vnodbas m), (vnodnnd m). destruct (N2 v X). split; [exact X|]. split; [now right|]. split; [assumption|lia]. }
      assert (AO : forall v e, arc g v e -> exists bas nnd, bas <= v < nnd /\ (bas = velmbas m /\ nnd = velmnnd m \/ bas = vnodbas m /\ nnd = vnodnnd m) /\ marcOk m bas nnd v e).
      { intros v e [Hv He]. destruct (VO v Hv) as (bas & nnd & X1 & X2 & (_ & _ & _ & X3) & _). exists bas, nnd. auto. }
      assert (NB : velmnbr m + vnodnbr m = vertnbr g) by reflexivity.
      assert (BV : baseval g = mbase m) by reflexivity.
      assert (NN : vertnnd g = velmnbr m + vnodnbr m + mbase m) by reflexivity.
      assert (GV : graph_valid g).
      { constructor.
        - lia.
        - lia.
        - intros v Hv. destruct (VO v Hv) as (bas & nnd & _ & _ & (X & _) & _). exact X.
        - intros v e A. destruct (AO v e A) as (bas & nnd & _ & _ & X & _). exact X.
        - intros v e A E. destruct (AO v e A) as (bas & nnd & X1 & _ & _ & X2 & _). fold g in X2. lia.
        - intros v e e' A A' E. destruct (AO v e A) as (bas & nnd & _ & _ & Hw & _ & _ & r & Hr & Er & _). cbv zeta in *.
          assert (A2 : arc g (edge g e) r) by (split; auto). destruct (AO _ _ A2) as (bas' & nnd' & _ & _ & _ & _ & _ & k & Hk & _ & U). cbv zeta in *.
          rewrite Er in U. destruct A as [_ A], A' as [_ A']. rewrite (U e A eq_refl). symmetry. apply U; auto.
        - intros v e A. destruct (AO v e A) as (bas & nnd & _ & _ & Hw & _ & _ & r & Hr & Er & _). exists r. split; [split; auto|]. split; [exact Er|reflexivity].
        - exact HN.
        - intros; unfold velo; cbn; lia.
        - change (velosum g) with (velmnbr m + vnodnbr m). rewrite (zsum_ext _ _ _ (fun _ => 1)) by reflexivity. rewrite zsum_const by lia. lia.
        - intros; unfold edlo; cbn; lia.
        - change (edlosum g) with (medgenbr m). rewrite HN. apply zsum_ext. intros v Hv. destruct (VO v Hv) as (bas & nnd & _ & _ & (X & _) & _).
          rewrite (zsum_ext _ _ _ (fun _ => 1)) by reflexivity. unfold mdegree. fold g. fold g in X. rewrite zsum_const by lia. lia.
        - change (degrmax g) with (mdegrmax m). lia.
        - change (degrmax g) with (mdegrmax m). intros v Hv. destruct (VO v Hv) as (bas & nnd & _ & _ & _ & X). unfold mdegree in X. fold g in X. lia. }
      split; constructor; try assumption; try lia; change (mgraph m) with g.
      * intros x y (e & A & <-). destruct (AO x e A) as (bas & nnd & X1 & X2 & X3 & X4 & _). fold g in X3, X4. pose proof (SD _ X3). pose proof (SD _ (proj1 A)). unfold elem, node in *. fold g. lia.
      * destruct (Z.ltb_spec 0 (vertnbr g)) as [Hp|Hp].
        -- assert (IV : isvert g (vertnnd g - 1)) by (unfold isvert; lia). constructor.
           ++ destruct (VO _ IV) as (bas & nnd & _ & _ & (_ & K1 & K2 & _) & _). fold g in K1, K2. destruct (vendtab g); unfold b2z; destruct (0 <? vertnbr g); lia.
           ++ intros t Et. destruct (VO _ IV) as (bas & nnd & _ & _ & (_ & K1 & K2 & _) & _). fold g in K2. rewrite Et in K2. lia.
           ++ discriminate.
           ++ intros v e A. destruct (AO v e A) as (bas & nnd & _ & _ & _ & _ & X & _). exact X.
           ++ discriminate.
        -- constructor.
           ++ pose proof (zlen_nonneg (verttab g)). unfold b2z. replace (0 <? vertnbr g) with false by lia. destruct (vendtab g); lia.
           ++ intros t Et. pose proof (zlen_nonneg t). lia.
           ++ discriminate.
           ++ intros v e [Hv _]. unfold isvert in Hv. lia.
           ++ discriminate.
Qed.

(** ** Completeness of meshCheck *)
Lemma meshCheckArc_ok m bas nnd v e : mesh_valid m -> mesh_readable m -> arc (mgraph m) v e -> ~ (bas <= edge (mgraph m) e < nnd) -> meshCheckArc m bas nnd v e = Ok tt.
Proof.
  intros V R A NS. pose proof (mv_graph m V) as GV. pose proof (mr_graph m R) as GR. unfold meshCheckArc. set (g := mgraph m) in *.
  rewrite (redge_ok g v e GR A). cbn [bind]. pose proof (gv_end g GV v e A) as HE. set (w := edge g e) in *. pose proof HE as HE'. unfold isvert in HE'.
  change (baseval g) with (mbase m) in HE'. change (vertnnd g) with (velmnbr m + vnodnbr m + mbase m) in HE'.
  replace ((w <? mbase m) || (velmnbr m + vnodnbr m + mbase m <=? w)) with false by lia.
  replace ((bas <=? w) && (w <? nnd)) with false by lia.
  rewrite (rvert_ok g w GR GV HE), (rvend_ok g w GR GV HE). cbn [bind]. pose proof (gv_range g GV w HE) as RW.
  assert (RD : forall k, vert g w <= k < vend g w -> baseval g <= k < baseval g + zlen (edgetab g)) by (intros k Hk; apply (gr_edge g GR w k); split; auto).
  destruct (gv_sym g GV v e A) as (r & Ar & Er & _). fold w in Ar.
  destruct (wp_ok_inv _ _ (arcsearch_wp g (vend g w) v (vert g w) RD ltac:(lia))) as (ee & -> & A1 & A2 & A3). cbn [bind].
  assert (Hlt : ee < vend g w) by (destruct (Z.lt_ge_cases ee (vend g w)) as [|X]; [assumption|]; exfalso; apply (A2 r); [destruct Ar; lia|exact Er]).
  replace (vend g w <=? ee) with false by lia.
  destruct (wp_ok_inv _ _ (arcsearch_wp g (vend g w) v (ee + 1) ltac:(intros; apply RD; lia) ltac:(lia))) as (ee' & -> & B1 & B2 & B3). cbn [bind].
  destruct (Z.ltb_spec ee' (vend g w)) as [L|]; [|reflexivity]. exfalso. specialize (A3 Hlt). specialize (B3 L).
  assert (ee = ee') by (apply (gv_simple g GV w); [split; [exact HE|lia]|split; [exact HE|lia]|congruence]). lia.
Qed.

Lemma for_unit lo hi (body : Z -> unit -> res unit) : (forall e, lo <= e < hi -> body e tt = Ok tt) -> for_ lo hi body tt = Ok tt.
Proof.
  intros Hb. destruct (Z.le_gt_cases hi lo); [now apply for_nil|].
  destruct (wp_ok_inv (for_ lo hi body tt) (fun _ => True)) as ([] & E & _); [|exact E].
  apply wp_for with (I := fun _ _ => True); auto; [lia|]. intros i [] Hi _. rewrite Hb by exact Hi. exact I.
Qed.

Lemma meshCheckLoad_ok gmax t bas nnd : bas <= nnd -> (forall v, bas <= v < nnd -> 1 <= mload t v) -> (forall o l, t = Some (o, l) -> o <= bas /\ nnd <= o + zlen l \/ nnd - bas = 0) ->
  (t <> None -> zsum bas nnd (mload t) <= gmax) -> meshCheckLoad gmax t bas nnd = Ok (zsum bas nnd (mload t)).
Proof.
  intros Hle H1 HR HG. unfold meshCheckLoad. destruct t as [[o l]|].
  - specialize (HG ltac:(discriminate)). specialize (HR o l eq_refl).
    destruct (wp_ok_inv (for_ bas nnd (fun v s => do l0 <- rload (o, l) v; if l0 <? 1 then Err 1 else gadd gmax s l0) 0) (fun s => s = zsum bas nnd (mload (Some (o, l))))) as (s & E & ->); [|exact E].
    apply wp_for with (I := fun v s => s = zsum bas v (mload (Some (o, l)))); [lia|now rewrite zsum_nil by lia| |auto].
    intros v s Hv ->. unfold rload. cbn [fst snd]. rewrite rd_ok by lia. cbn [bind]. change (at_ o l v) with (mload (Some (o, l)) v). pose proof (H1 v Hv).
    replace (mload (Some (o, l)) v <? 1) with false by lia.
    assert (X : 0 <= zsum bas v (mload (Some (o, l))) + mload (Some (o, l)) v <= gmax).
    { rewrite <- zsum_snoc by lia. split; [apply zsum_nonneg; intros i Hi; specialize (H1 i ltac:(lia)); lia|].
      pose proof (zsum_mono bas (v + 1) nnd (mload (Some (o, l))) ltac:(lia) ltac:(intros i Hi; specialize (H1 i ltac:(lia)); lia)). lia. }
    rewrite gadd_ok by exact X. cbn [wp]. now rewrite zsum_snoc by lia.
  - rewrite (zsum_ext _ _ _ (fun _ => 1)) by reflexivity. rewrite zsum_const by lia. f_equal. lia.
Qed.

Lemma meshCheck_complete gmax m : mesh_valid m -> mesh_readable m -> (mvelo m <> None -> mvelosum m <= gmax) -> (mvnlo m <> None -> mvnlosum m <= gmax) -> meshCheck gmax m = Ok tt.
Proof.
  intros V R G1 G2. pose proof (mv_graph m V) as GV. pose proof (mr_graph m R) as GR. set (g := mgraph m) in *.
  destruct (mv_base m V) as [B0 B1], (mv_elm m V) as [E0 E1], (mv_nod m V) as [N0 N1]. pose proof (mv_order m V) as OR. unfold meshCheck.
  replace ((velmnnd m <? velmbas m) || (vnodnnd m <? vnodbas m) || negb (velmnnd m =? velmbas m + velmnbr m) || negb (vnodnnd m =? vnodbas m + vnodnbr m) || (negb (velmnnd m =? vnodbas m) && negb (vnodnnd m =? velmbas m))) with false by lia.
  assert (DG : forall v, isvert g v -> 0 <= mdegree m v <= mdegrmax m).
  { intros v Hv. pose proof (gv_range g GV v Hv). pose proof (gv_degr g GV v Hv). change (degrmax g) with (mdegrmax m) in *. unfold mdegree. fold g. lia. }
  destruct (wp_ok_inv (for_ (velmbas m) (velmnnd m) (meshCheckElm m) (0, 0)) (fun '(dm, is) => 0 <= dm <= mdegrmax m /\ is = zcount (velmbas m) (velmnnd m) (fun v => mdegree m v =? 0))) as ([dm is] & -> & D1 & D2).
  { apply wp_for with (I := fun v '(dm, is) => 0 <= dm <= mdegrmax m /\ is = zcount (velmbas m) v (fun v => mdegree m v =? 0)).
    - lia.
    - split; [|now rewrite zcount_nil by lia]. pose proof (gv_degr0 g GV). change (degrmax g) with (mdegrmax m) in *. lia.
    - intros v [dm is] Hv (D1 & D2). assert (Iv : isvert g v) by (apply elem_vert; [exact V|exact Hv]). unfold meshCheckElm. fold g.
      rewrite (rvert_ok g v GR GV Iv). cbn [bind]. pose proof (gv_range g GV v Iv) as RG. change (baseval g) with (mbase m) in RG. replace (vert g v <? mbase m) with false by lia.
      rewrite (rvend_ok g v GR GV Iv). cbn [bind]. replace (vend g v <? vert g v) with false by lia.
      rewrite for_unit by (intros e He; assert (A : arc g v e) by (split; auto); apply meshCheckArc_ok; auto; pose proof (arc_side m V v e A) as S; fold g in S; pose proof (vert_side m V _ (gv_end g GV v e A)) as S2; fold g in S2;
        pose proof (vert_side m V v Iv) as S3; change (~ elem m (edge g e)); unfold elem, node in *; lia).
      cbn [bind wp]. pose proof (DG v Iv) as DV. change (vend g v - vert g v) with (mdegree m v). rewrite zcount_snoc by lia.
      destruct (Z.ltb_spec dm (mdegree m v)); [split; [lia|]; replace (mdegree m v =? 0) with false by lia; cbn [b2z]; lia|].
      destruct (Z.eqb_spec (mdegree m v) 0); (split; [lia|]; cbn [b2z]; lia).
    - auto. }
  cbn [bind]. rewrite (mv_isol m V), <- D2, Z.eqb_refl. cbn [negb].
  destruct (wp_ok_inv (for_ (vnodbas m) (vnodnnd m) (meshCheckNod m) dm) (fun dm => dm <= mdegrmax m)) as (dm' & -> & D3).
  { apply wp_for with (I := fun v dm => dm <= mdegrmax m); [lia|lia| |auto].
    intros v dm' Hv D3. assert (Iv : isvert g v) by (apply node_vert; [exact V|exact Hv]). unfold meshCheckNod. fold g.
    rewrite (rvert_ok g v GR GV Iv). cbn [bind]. pose proof (gv_range g GV v Iv) as RG. change (baseval g) with (mbase m) in RG. replace (vert g v <? mbase m) with false by lia.
    rewrite (rvend_ok g v GR GV Iv). cbn [bind]. replace (vend g v <? vert g v) with false by lia.
    rewrite for_unit by (intros e He; assert (A : arc g v e) by (split; auto); apply meshCheckArc_ok; auto; pose proof (arc_side m V v e A) as S; fold g in S; pose proof (vert_side m V _ (gv_end g GV v e A)) as S2; fold g in S2;
        pose proof (vert_side m V v Iv) as S3; change (~ node m (edge g e)); unfold elem, node in *; lia).
    cbn [bind wp]. pose proof (DG v Iv) as DV. change (vend g v - vert g v) with (mdegree m v). destruct (Z.ltb_spec dm' (mdegree m v)); lia. }
  cbn [bind]. rewrite meshCheckLoad_ok; [|lia|exact (mv_velo m V)|intros o l E; destruct (mr_velo m R o l E); lia|rewrite <- (mv_velosum m V); exact G1].
  cbn [bind]. rewrite (mv_velosum m V), Z.eqb_refl. cbn [negb].
  rewrite meshCheckLoad_ok; [|lia|exact (mv_vnlo m V)|intros o l E; destruct (mr_vnlo m R o l E); lia|rewrite <- (mv_vnlosum m V); exact G2].
  cbn [bind]. rewrite (mv_vnlosum m V), Z.eqb_refl. cbn [negb]. now replace (mdegrmax m <? dm') with false by lia.
Qed.
