(** Proofs about multilevel partitioning with overlap: projection and recursion. *)
From Verif Require Import Base Mem M_Graph M_Vgraph M_Coarsen M_VgraphSt M_Wgraph M_WgraphMl S_Graph S_Vgraph S_Color S_Match S_Coarsen S_VgraphSt S_Wgraph S_WgraphMl
  P_Graph P_Vgraph P_Match2 P_VgraphSt P_VgraphMl P_Gain P_Wgraph P_WgraphRb P_WgraphSt P_WgraphMl C_Coarsen.

Lemma NoDup_app_snoc (s : list Z) x : NoDup s -> ~ In x s -> NoDup (s ++ [x]).
Proof. intros H N. apply NoDup_app_intro; auto; [constructor; [intros []|constructor]|]. intros y Hy [<-|[]]. contradiction. Qed.

Section Proj.
Variables (s : graph) (ch : wgraph) (mate fc : list Z) (mult : list (Z * Z)).
Hypothesis V : graph_valid s.
Hypothesis VC : graph_valid (ws ch).
Hypothesis LC : vertnbr (ws ch) <= zlen (wpart ch).
Hypothesis IM : is_matching s mate.
Hypothesis IC : is_coarse s (ws ch) mate fc mult.
Hypothesis RC : forall c, isvert (ws ch) c -> -1 <= wpt ch c < wnbr ch.
Notation b := (baseval s).
Notation fcv v := (at_ b fc v).

Lemma project_ok pt fr : vertnbr s <= zlen pt -> vertnbr s <= zlen fr ->
  wp (wmlProject b ch mult pt fr) (fun '(pt', fr', k) => zlen pt' = zlen pt /\ zlen fr' = zlen fr /\ (forall v, isvert s v -> at_ b pt' v = wpt ch (fcv v)) /\
    exists L, k = zlen L /\ k <= vertnbr s /\ firstn (Z.to_nat k) fr' = L /\ NoDup L /\ forall v, In v L <-> isvert s v /\ wpt ch (fcv v) = -1) noerr.
Proof.
  intros Lp Lf. pose proof (gv_nnd _ V) as Ns. pose proof (gv_size _ V) as Zs. pose proof (gv_nnd _ VC) as Nc. pose proof (gv_size _ VC) as Zc. pose proof (ic_base _ _ _ _ _ IC) as EB.
  pose proof (proj1 (ic_mult _ _ _ _ _ IC)) as Zm.
  assert (FR : forall v, isvert s v -> b <= fcv v < b + vertnbr (ws ch)) by (intros v Hv; pose proof (proj2 (ic_fc _ _ _ _ _ IC) v Hv) as X; unfold isvert in X; lia).
  assert (LEN : forall L, NoDup L -> (forall v, In v L -> isvert s v) -> zlen L <= vertnbr s).
  { intros L ND HL. assert (Inc : incl L (zseq b (vertnbr s))) by (intros w Hw; apply In_zseq; apply HL in Hw; unfold isvert in Hw; lia).
    pose proof (NoDup_incl_length ND Inc) as H. assert (H0 : zlen L <= zlen (zseq b (vertnbr s))) by (unfold zlen; lia). rewrite zlen_zseq in H0 by lia. exact H0. }
  unfold wmlProject. apply wp_for with (I := fun c '(pt', fr', k) => zlen pt' = zlen pt /\ zlen fr' = zlen fr /\ (forall v, isvert s v -> fcv v < b + c -> at_ b pt' v = wpt ch (fcv v)) /\
    exists L, k = zlen L /\ firstn (Z.to_nat k) fr' = L /\ NoDup L /\ forall v, In v L <-> isvert s v /\ fcv v < b + c /\ wpt ch (fcv v) = -1).
  - exact Zc.
  - do 2 (split; [reflexivity|]). split; [intros v Hv; specialize (FR v Hv); lia|]. exists []. do 2 (split; [reflexivity|]). split; [constructor|]. intros v. split; [intros []|]. intros (Hv & H & _). specialize (FR v Hv). lia.
  - intros c [[pt1 fr1] k] Hc (I1 & I2 & I3 & L & K & FL & ND & HL).
    assert (Vc : isvert (ws ch) (b + c)) by (unfold isvert; rewrite Nc, EB; lia).
    destruct (mult_at _ _ _ _ _ IM IC (b + c) Vc) as (v0 & v1 & Em & V0 & V1 & F0 & F1 & G). replace (at_ b mult (b + c)) with (at_ 0 mult c) in Em by (unfold at_; f_equal; lia).
    rewrite rd_ok by lia. cbn [bind]. rewrite rd_ok by lia. cbn [bind]. rewrite Em.
    assert (Ep : at_ 0 (wpart ch) c = wpt ch (b + c)) by (unfold wpt, at_; rewrite EB; f_equal; lia). rewrite Ep. set (p := wpt ch (b + c)) in *. specialize (RC (b + c) Vc). fold p in RC.
    assert (R0 : b <= v0 < b + zlen pt1) by (unfold isvert in V0; lia). assert (R1 : b <= v1 < b + zlen pt1) by (unfold isvert in V1; lia).
    rewrite wr_ok by lia. cbn [bind].
    assert (LT : forall v, isvert s v -> fcv v < b + (c + 1) <-> fcv v < b + c \/ v = v0 \/ v = v1).
    { intros v Hv. rewrite <- (G v Hv). lia. }
    assert (PT : forall pt2, (forall v, isvert s v -> at_ b pt2 v = if (v =? v0) || (v =? v1) then p else at_ b pt1 v) -> forall v, isvert s v -> fcv v < b + (c + 1) -> at_ b pt2 v = wpt ch (fcv v)).
    { intros pt2 H v Hv Hl. rewrite H by exact Hv. apply LT in Hl; [|exact Hv]. destruct (Z.eqb_spec v v0) as [->|]; [now rewrite F0|]. destruct (Z.eqb_spec v v1) as [->|]; [now rewrite F1|]. cbn [orb]. apply I3; auto. tauto. }
    assert (P1 : v0 = v1 -> forall v, isvert s v -> at_ b (upd b pt1 v0 p) v = if (v =? v0) || (v =? v1) then p else at_ b pt1 v).
    { intros <- v Hv. unfold isvert in Hv. rewrite at_upd by lia. rewrite orb_diag. now rewrite (Z.eqb_sym v v0). }
    assert (P2 : v0 <> v1 -> forall v, isvert s v -> at_ b (upd b (upd b pt1 v0 p) v1 p) v = if (v =? v0) || (v =? v1) then p else at_ b pt1 v).
    { intros Hne v Hv. unfold isvert in Hv. rewrite !at_upd by (rewrite ?zlen_upd; lia). rewrite (Z.eqb_sym v v0), (Z.eqb_sym v v1). destruct (v1 =? v), (v0 =? v); reflexivity. }
    assert (N0 : ~ In v0 L) by (intros I; apply HL in I; lia). assert (N1 : ~ In v1 L) by (intros I; apply HL in I; lia).
    assert (NDA : NoDup (v0 :: L)) by now constructor.
    assert (VL : forall v, In v (v0 :: L) -> isvert s v) by (intros v [<-|I]; [exact V0|apply HL in I; apply I]).
    pose proof (LEN _ NDA VL) as LA. rewrite zlen_cons in LA.
    destruct (Z.leb_spec 0 p) as [Hp|Hp].
    + assert (HL' : forall v, In v L <-> isvert s v /\ fcv v < b + (c + 1) /\ wpt ch (fcv v) = -1).
      { intros v. rewrite HL. split; [intros (A & B & C); split; [exact A|split; [lia|exact C]]|]. intros (A & B & C). split; [exact A|]. split; [|exact C]. apply LT in B; [|exact A]. destruct B as [B|[-> | ->]]; [exact B| |].
        - rewrite F0 in C. fold p in C. lia. - rewrite F1 in C. fold p in C. lia. }
      destruct (Z.eqb_spec v0 v1) as [E01|E01]; cbn [negb].
      * cbn [wp]. rewrite zlen_upd. split; [exact I1|]. split; [exact I2|]. split; [apply PT; auto|]. exists L. auto.
      * rewrite wr_ok by (rewrite zlen_upd; lia). cbn [bind wp]. rewrite !zlen_upd. split; [exact I1|]. split; [exact I2|]. split; [apply PT; auto|]. exists L. auto.
    + assert (Ep1 : p = -1) by lia. pose proof (zlen_nonneg L) as L0. rewrite wr_ok by lia. cbn [bind]. destruct (Z.eqb_spec v0 v1) as [E01|E01]; cbn [negb].
      * cbn [wp]. rewrite !zlen_upd. split; [exact I1|]. split; [exact I2|]. split; [apply PT; auto|]. exists (L ++ [v0]). split; [rewrite zlen_app, zlen_cons, zlen_nil; lia|]. split; [rewrite firstn_push by lia; now rewrite FL|].
        split; [apply NoDup_app_snoc; auto|]. intros v. rewrite in_app_iff, HL. cbn [In]. subst v1. split.
        -- intros [(A & B & C)|[<-|[]]]; [split; [exact A|split; [lia|exact C]]|]. split; [exact V0|]. rewrite F0. fold p. split; lia.
        -- intros (A & B & C). apply LT in B; [|exact A]. destruct B as [B|[-> | ->]]; auto.
      * rewrite wr_ok by (rewrite zlen_upd; lia). cbn [bind].
        assert (NDB : NoDup (v1 :: v0 :: L)) by (constructor; [intros [E|I]; [congruence|contradiction]|exact NDA]).
        assert (VLB : forall v, In v (v1 :: v0 :: L) -> isvert s v) by (intros v [<-|I]; [exact V1|now apply VL]). pose proof (LEN _ NDB VLB) as LB. rewrite !zlen_cons in LB.
        rewrite wr_ok by (rewrite zlen_upd; lia). cbn [bind wp]. rewrite !zlen_upd. split; [exact I1|]. split; [exact I2|]. split; [apply PT; auto|].
        exists ((L ++ [v0]) ++ [v1]). split; [rewrite !zlen_app, !zlen_cons, !zlen_nil; lia|]. split; [replace (k + 2) with (k + 1 + 1) by lia; rewrite firstn_push by (rewrite zlen_upd; lia); rewrite firstn_push by lia; now rewrite FL|].
        split; [apply NoDup_app_snoc; [apply NoDup_app_snoc; auto|]; rewrite in_app_iff; cbn [In]; intros [I|[E|[]]]; [contradiction|congruence]|].
        intros v. rewrite !in_app_iff, HL. cbn [In]. split.
        -- intros [[(A & B & C)|[<-|[]]]|[<-|[]]]; [split; [exact A|split; [lia|exact C]]| |]; (split; [assumption|]); [rewrite F0|rewrite F1]; fold p; split; lia.
        -- intros (A & B & C). apply LT in B; [|exact A]. destruct B as [B|[-> | ->]]; auto.
  - intros [[pt1 fr1] k] (I1 & I2 & I3 & L & K & FL & ND & HL). split; [exact I1|]. split; [exact I2|]. split; [intros v Hv; apply I3; auto; apply FR; auto|].
    exists L. split; [exact K|]. split; [rewrite K; apply LEN; auto; intros v Hv; apply HL in Hv; apply Hv|]. split; [exact FL|]. split; [exact ND|].
    intros v. rewrite HL. split; [tauto|]. intros [A B]. split; [exact A|]. split; [apply FR; exact A|exact B].
Qed.
End Proj.

Lemma wUncoarsen_spec jk g ch mate fc mult : wstate g -> wstate ch -> wgood ch -> wnbr ch = wnbr g -> is_matching (ws g) mate -> is_coarse (ws g) (ws ch) mate fc mult ->
  exists h, wgraphPartMlUncoarsen jk g ch mult = Ok h /\ wsame g h /\ wgood h /\ wfronload h = wfronload ch /\ forall v, isvert (ws g) v -> wpt h v = wpt ch (at_ (baseval (ws g)) fc v).
Proof.
  intros [V B0 Vn N1 [R LP LF LL LS]] [VC BC VnC NC [RC LPC LFC LLC LSC]] [[O1 O2] _ [C1 C2 C3]] EN IM IC. unfold wgraphPartMlUncoarsen. destruct (Z.ltb_spec (wnbr g) 0); [lia|].
  destruct (memst_spec 0 (wcload g) (wnbr g) 0) as (cl & -> & Zc & Ac); [lia|]. cbn [bind]. destruct (memst_spec 0 (wcsize g) (wnbr g) 0) as (cs & -> & Zs & As); [lia|]. cbn [bind].
  destruct (wp_ok_inv _ _ (project_ok (ws g) ch mate fc mult V VC LPC IM IC O1 (wpart g) (wfron g) LP LF)) as ([[pt fr] k] & -> & Z1 & Z2 & PT & L & K & KL & FL & ND & HL). cbn [bind].
  set (g1 := mkwgraph _ _ _ _ _ _ _ _). pose proof (gv_nnd _ V) as Ns.
  assert (PE : forall v, isvert (ws g) v -> wpt g1 v = wpt ch (at_ (baseval (ws g)) fc v)) by exact PT.
  assert (RG : forall v, isvert (ws g1) v -> -1 <= wpt g1 v < wnbr g1).
  { intros v Hv. rewrite PE by exact Hv. cbn [g1 wnbr]. rewrite <- EN. apply O1. apply (proj2 (ic_fc _ _ _ _ _ IC)). exact Hv. }
  assert (W := verts_ok g1 V R B0 ltac:(cbn [g1 wnbr]; lia) ltac:(cbn [g1 ws wpart]; lia) RG (jk :: repeat (-1) (Z.to_nat (wnbr g))) cl cs).
  cbn [g1 ws wnbr] in W. fold g1 in W. destruct (wp_ok_inv _ _ (W ltac:(rewrite zlen_cons, zlen_repeat; lia)
    ltac:(intros p Hp; unfold at_; replace (Z.to_nat (p - -1)) with (S (Z.to_nat p)) by lia; cbn [nth];
      pose proof (at_repeat 0 (-1) (Z.to_nat (wnbr g)) p ltac:(lia)) as E; unfold at_ in E; rewrite Z.sub_0_r in E; rewrite E; lia)
    ltac:(lia) ltac:(lia) ltac:(intros p Hp; rewrite Ac, As by lia; destruct (Z.ltb_spec p (0 + wnbr g)); lia))) as ([[[vn nx] cl'] cs'] & E & L1 & L2 & CT).
  rewrite E. cbn [bind]. eexists. split; [reflexivity|]. match goal with |- wsame _ ?z /\ _ => set (h := z) end.
  assert (PH : forall v, wpt h v = wpt g1 v) by reflexivity.
  split; [constructor; cbn [h ws wnbr wpart wfron wcload wcsize]; auto; lia|]. split; [|split; [reflexivity|exact PT]]. constructor.
  - constructor; cbn [h ws wnbr]; fold h.
    + exact RG.
    + intros v e A. pose proof (gv_end _ V v e A) as Hw. pose proof (proj1 A) as Hv. rewrite !PH, !PE by auto.
      destruct (Z.eq_dec (at_ (baseval (ws g)) fc v) (at_ (baseval (ws g)) fc (edge (ws g) e))) as [Eq|Hn]; [left; now rewrite Eq|].
      destruct (proj2 (ic_adj _ _ _ _ _ IC (at_ (baseval (ws g)) fc v) (at_ (baseval (ws g)) fc (edge (ws g) e)))) as (e' & Ha' & Ee').
      { split; [exact Hn|]. exists v, (edge (ws g) e). split; [exists e; auto|]. auto. }
      rewrite <- Ee'. exact (O2 _ e' Ha').
  - apply (fron_of_list h L); cbn [h ws wfron wfronnbr]; auto; try lia.
    + intros w Hw. rewrite HL, PH, PE by exact Hw. tauto.
    + intros w Hw. apply HL in Hw. apply Hw.
  - constructor; cbn [h ws wnbr wcload wcsize wfronload]; fold h.
    + intros p Hp. apply (CT p Hp).
    + intros p Hp. apply (CT p Hp).
    + rewrite C3, (ic_base _ _ _ _ _ IC). rewrite <- (proj_load _ _ _ _ _ IC (fun d => wpt ch d =? -1)). apply zsum_ext. intros v Hv. now rewrite PH, PE.
Qed.

Lemma Ml2_init jk coar low asc tot n : wcoar_good coar -> wmgood tot n low -> wmgood tot n asc ->
  forall fuel g, wstate g -> wnbr g = n -> vertnbr (ws g) < Z.of_nat fuel -> wout tot g (wgraphPartMl2 jk coar low asc fuel g).
Proof.
  intros CG GL GA. induction fuel as [|fuel IH]; intros g St En Hf; pose proof St as [V B0 Vn N1 R]; pose proof (gv_size _ V); [lia|].
  cbn [wgraphPartMl2]. destruct (CG (wnbr g) (ws g) V (wr_graph _ R) B0) as [(e & ->)|(cg & fc & mult & mate & -> & Vc & Rc & Nc & IM & IC & Hlt)].
  - destruct (wp_ok_inv _ _ (wgraphZero_spec g V B0 N1 R)) as (h & -> & Sm & Gh & _). cbn [bind]. destruct (GL h (wsame_state _ _ Sm St) ltac:(rewrite (wm_nbr _ _ Sm); exact En) Gh) as (rc & h' & E & Sm' & Gd & T).
    exists rc, h'. split; [exact E|]. split; [exact (wsame_trans _ _ _ Sm Sm')|]. auto.
  - cbv zeta. set (cv := mkwgraph cg _ _ _ _ _ _ _). pose proof (ic_base _ _ _ _ _ IC) as EB. pose proof (gv_size _ Vc) as Zc.
    assert (Stc : wstate cv) by (constructor; cbn [cv ws wnbr]; auto; [lia|]; constructor; cbn [cv ws wnbr wpart wfron wcload wcsize]; auto; rewrite zlen_repeat; lia).
    destruct (IH cv Stc En ltac:(cbn [cv ws]; lia)) as (rc & ch & -> & Sm & Gd & T). cbn [bind]. destruct (Z.eqb_spec rc 0) as [->|Hn]; cbn [negb].
    + destruct (wUncoarsen_spec jk g ch mate fc mult St (wsame_state _ _ Sm Stc) (Gd eq_refl)) as (h & -> & Smh & Gh & _); auto.
      { exact (wm_nbr _ _ Sm). } { rewrite (wm_graph _ _ Sm). exact IC. }
      cbn [bind]. destruct (GA h (wsame_state _ _ Smh St) ltac:(rewrite (wm_nbr _ _ Smh); exact En) Gh) as (rc & h' & E & Sm' & Gd' & T'). exists rc, h'. split; [exact E|]. split; [exact (wsame_trans _ _ _ Smh Sm')|]. auto.
    + exists rc, g. split; [reflexivity|]. split; [apply wsame_refl|]. split; [congruence|auto].
Qed.
Lemma Ml_init jk coar low asc tot n : wcoar_good coar -> wmgood tot n low -> wmgood tot n asc -> wminit tot n (wgraphPartMl jk coar low asc).
Proof. intros CG GL GA g St En. apply (Ml2_init _ _ _ _ tot n); auto. pose proof (gv_size _ (wt_valid _ St)). lia. Qed.

Lemma graphCoarsen_vnum stk nm g f p v cmax cmin cg fc mult : graphCoarsen stk nm g f p v cmax cmin = Ok (cg, fc, mult) -> vnumtab cg = None.
Proof.
  unfold graphCoarsen. destruct (cmax <? cmin); [discriminate|]. intros H. apply bind_ok_inv in H. destruct H as ([mate n] & _ & H). destruct (cmax <=? n); [discriminate|].
  unfold coarBuild in H. apply bind_ok_inv in H. destruct H as (msk & _ & H). apply bind_ok_inv in H. destruct H as ([fc' mult'] & _ & H). cbv zeta in H. apply bind_ok_inv in H.
  destruct H as ([[[[[vt vd] vl] st] adj] dgm] & _ & H). apply bind_ok_inv in H. destruct H as (vt' & _ & H). injection H as <- _ _. reflexivity.
Qed.
Lemma wmlCoarsen_good cmax coarnbr : (forall s, cmax s <= vertnbr s) -> wcoar_good (wmlCoarsen cmax coarnbr).
Proof.
  intros Hc n s V R B. unfold wmlCoarsen, mlCoarsen. set (stk := if vertnbr s <? 2 ^ 63 then 64 else vertnbr s + 1). pose proof (gv_size _ V) as N.
  assert (Hs : 32 <= stk /\ vertnbr s < 2 ^ (stk - 1)).
  { subst stk. destruct (Z.ltb_spec (vertnbr s) (2 ^ 63)) as [H|H]; [split; [lia | exact H]|]. split; [lia|]. replace (vertnbr s + 1 - 1) with (vertnbr s) by lia. apply Z.pow_gt_lin_r; lia. }
  assert (PV : per_vertex s None) by (intros l; discriminate).
  destruct (C18_graphCoarsen stk false s None None 0 (cmax s) (coarnbr * n) V R B PV PV (proj1 Hs) (proj2 Hs)) as [E|(cg & fc & mult & mate & E & V1 & R1 & IM & IC & _ & H2 & _)]; [left; eauto|].
  right. exists cg, fc, mult, mate. split; [exact E|]. split; [exact V1|]. split; [exact R1|]. split; [exact (graphCoarsen_vnum _ _ _ _ _ _ _ _ _ _ _ E)|]. split; [exact IM|]. split; [exact IC|]. specialize (Hc s). lia.
Qed.
