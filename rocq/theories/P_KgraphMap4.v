(** Proofs about recursive bipartitioning and the graph partitioning routines. *)
From Coq Require Import Sorted.
From Verif Require Import Base M_Graph M_Vgraph M_Bgraph M_Arch M_Induce M_KgraphMap
  S_Graph S_Bgraph S_Arch S_Induce S_KgraphMap P_Graph P_Vgraph P_Bgraph2 P_Arch P_Induce P_KgraphMap P_Hash P_KgraphMap2 P_KgraphMap3.

Section Gen.
Context {D : Type} `{DD : Dflt D}.
Context (N : Z) (wf : D -> Prop) (mem : D -> Z -> Prop) (A : arch D) (AO : arch_ok N wf mem A).
Context (jkd : D) (jk al : Z) (Hal : 1 <= al <= 2).
Context (avg kavg : Z -> Z -> Z -> Z) (lim : bgraph -> D -> Z * Z) (bip : bgraph -> res (Z * bgraph)).

Lemma step_doms org J d m m' : m_nbr m = 0 -> (forall t, mem d t -> 0 <= t < N) -> step wf mem org J d m m' -> doms N wf mem (m_domn m') (m_nbr m').
Proof.
  intros Nm Hd [S1 S2 S3 S4 S5 S6 S7 S8]. rewrite Nm in *. constructor.
  - lia.
  - intros i Hi. destruct (S5 i Hi) as (W & t & Ht & E). split; [exact W|]. exists t. split; [now apply Hd | exact E].
  - intros i j t Hi Hj. now apply S6.
Qed.

Lemma kgraphMapRb_spec fuel k : bip_on avg (subproblem wf A (kdt k)) bip -> dt_ok N wf (kdt k) -> 0 <= baseval (rb_org (kdt k)) -> vnumtab (rb_org (kdt k)) = None -> N <= Z.of_nat fuel ->
  vertnbr (rb_org (kdt k)) <= zlen (m_part (kmap k)) -> vertnbr (rb_org (kdt k)) <= zlen (kfron k) ->
  (forall pf, rb_pfix (kdt k) = Some pf -> kvfix k = nfix (rb_org (kdt k)) pf /\
     exists v, isvert (rb_org (kdt k)) v /\ 0 <= at_ (baseval (rb_org (kdt k))) pf v /\ velo (rb_org (kdt k)) v <> 0) ->
  wp (kgraphMapRb jkd jk al avg kavg lim A bip fuel k) (fun '(rc, k') => rc = 0 /\ kdt k' = kdt k /\ kvfix k' = kvfix k /\
    zlen (m_part (kmap k')) = zlen (m_part (kmap k)) /\
    map_ok N wf mem (rb_org (kdt k)) (kmap k') /\ k_ok A k' /\
    forall pf v, rb_pfix (kdt k) = Some pf -> isvert (rb_org (kdt k)) v -> 0 <= at_ (baseval (rb_org (kdt k))) pf v ->
      mem (mdom (kmap k') (mp (rb_org (kdt k)) (kmap k') v)) (at_ (baseval (rb_org (kdt k))) pf v)) noerr.
Proof.
  intros BO DO B0 VN HF Lm Lf HP. unfold kgraphMapRb. cbv zeta. pose proof DO as [V R DP _ _]. set (org := rb_org (kdt k)) in *.
  destruct (frst_size N wf mem A AO) as (df & Ef & Wf & Mf & Es & N1 & Cf). rewrite Ef. cbn [bind].
  apply wp_bind.
  apply wp_mono with (Q := fun '(ind, vf) => subg org ind /\ unfixed (kdt k) ind /\ okslots N vf /\
     (forall w, job ind None 0 w <-> isvert org w /\ forall pf, rb_pfix (kdt k) = Some pf -> at_ (baseval org) pf w < 0) /\
     (forall pf, rb_pfix (kdt k) = Some pf -> forall v, isvert org v -> 0 <= at_ (baseval org) pf v -> In (at_ (baseval org) pf v) (map fst vf)) /\ (rb_pfix (kdt k) = None -> vf = [])).
  { destruct (rb_pfix (kdt k)) as [pf|] eqn:Ep.
    - destruct (HP pf eq_refl) as [Hv Hx]. destruct (DP pf eq_refl) as [L HN].
      eapply wp_mono; [eapply vfloBuild_spec; eauto|]. intros [ind vf] (S1 & SV & S2 & S3 & S4 & S5 & S6). split; [exact S1|].
      split; [intros pf' Ep'; rewrite Ep in Ep'; injection Ep' as <-; split; [exact SV|]; intros v Iv; apply S3; exists v; split; [exact Iv|]; split; [exact Logic.I | reflexivity]|].
      split; [exact S4|]. split.
      + intros w. rewrite S3. split; intros [H1 H2]; split; auto. intros pf' [= <-]. exact H2.
      + split; [intros pf' [= <-]; now apply S5 | discriminate].
    - cbn [wp]. split; [now apply subg_refl|]. split; [intros pf Ep'; congruence|]. split; [intros i Hi; unfold zlen in Hi; cbn [length] in Hi; lia|]. split; [|split; [intros pf [=] | reflexivity]].
      intros w. unfold job, sel, orig. rewrite VN. split.
      + intros (v & Hv & _ & <-). split; [exact Hv|]. intros pf [=].
      + intros [Hw _]. exists w. auto. }
  intros [ind vf] (SI & UI & OS & EJ & HV & NF). apply wp_bind. unfold rbPart.
  eapply wp_mono; [eapply (rbPart2_spec N wf mem A AO jkd jk al Hal avg kavg lim bip (kdt k) DO fuel ind None 0 _ df vf _ N SI); eauto|].
  { intros p [=]. }
  { cbn [m_nbr m_domn]. pose proof (zlen_nonneg (m_domn (kmap k))). lia. }
  intros [rc m1] (-> & St). pose proof (step_doms _ _ _ _ _ (eq_refl : m_nbr (mkmap (m_part (kmap k)) (m_domn (kmap k)) 0) = 0) (fun t Ht => proj1 (Mf t) Ht) St) as Dm.
  destruct St as [S1 S2 S3 S4 S5 S6 S7 S8]. cbn [m_part m_nbr] in S1, S2, S7.
  apply wp_bind.
  apply wp_mono with (Q := fun m2 => map_ok N wf mem org m2 /\ zlen (m_part m2) = zlen (m_part (kmap k)) /\
    forall pf v, rb_pfix (kdt k) = Some pf -> isvert org v -> 0 <= at_ (baseval org) pf v -> mem (mdom m2 (mp org m2 v)) (at_ (baseval org) pf v)).
  { destruct (rb_pfix (kdt k)) as [pf|] eqn:Ep.
    - destruct (DP pf eq_refl) as [L HN].
      eapply wp_mono; [eapply (vfloMerge_spec N wf mem A AO jkd org pf vf m1); eauto; try lia|].
      { intros v Hv Hn. apply S7. apply EJ. split; [exact Hv|]. intros pf' [= <-]. exact Hn. }
      intros m2 (M1 & M2 & M3 & M4). split; [exact M1|]. split; [lia|]. intros pf' v [= <-] Hv Hp. specialize (M4 v Hv).
      destruct (Z.leb_spec 0 (at_ (baseval org) pf v)); [exact M4 | lia].
    - cbn [wp]. split; [|split; [lia | intros pf v [=]]]. destruct Dm as [D1 D2 D3]. constructor; auto; [lia|].
      intros v Hv. apply S7. apply EJ. split; [exact Hv|]. intros pf [=]. }
  intros m2 (MO & L2 & FX). apply wp_bind. pose proof (mo_nbr _ _ _ _ _ MO) as Mn.
  eapply wp_mono; [apply (kgraphFron_spec org (m_part m2) (kfron k) V R); lia|]. intros [fr nf] (Lfr & Hnf & Efr).
  apply wp_bind. eapply wp_mono; [apply (kgraphCost_spec N wf mem A AO kavg org m2 _ _ V R MO); rewrite zlen_repeat; lia|].
  intros [[avt dlt] cm] (_ & _ & -> & KL). cbn [wp]. split; [reflexivity|]. cbn [kdt kmap kvfix]. split; [reflexivity|]. split; [reflexivity|].
  split; [exact L2|]. split; [exact MO|]. split; [|exact FX].
  constructor; cbn [kdt kmap kfron kfronnbr kavgt kdltt kcomm]; fold org.
  - split; [exact Hnf|]. rewrite Efr. split; [apply ssort_filter, ssort_zseq|]. intros v. rewrite filter_In, In_zseq. pose proof (gv_nnd _ V) as Nn. split.
    + intros [Hv Hb]. assert (Iv : isvert org v) by (unfold isvert; lia). split; [exact Iv|]. now apply (frb_spec org (m_part m2) v V Iv) in Hb.
    + intros [Iv He]. split; [unfold isvert in Iv; lia|]. now apply frb_spec.
  - exact KL.
  - reflexivity.
Qed.

(** Old parts are unset or terminals; fixed parts are unset or terminals, as many as told. *)
Definition termlist (s : graph) (l : list Z) : Prop :=
  vertnbr s <= zlen l /\ forall v, isvert s v -> at_ (baseval s) l v = -1 \/ 0 <= at_ (baseval s) l v < N.

Lemma fixedNbr_spec g part : graph_valid g -> termlist g part ->
  wp (fixedNbr g part) (fun n => n = nfix g part) noerr.
Proof.
  clear - N. intros V [L H]. pose proof (gv_size _ V) as Z0. pose proof (gv_nnd _ V) as Nn. unfold fixedNbr, nfix, vlist.
  eapply wp_mono; [apply wp_for with (I := fun k n => n = zlen (filter (fun v => 0 <=? at_ (baseval g) part v) (zseq (baseval g) k))) (Q := fun n => n = zlen (filter (fun v => 0 <=? at_ (baseval g) part v) (zseq (baseval g) (vertnbr g))))|].
  - lia.
  - now rewrite zseq_0 by lia.
  - intros i n Hi ->. rewrite rd_ok by lia. cbn [bind wp]. rewrite zseq_snoc by lia. rewrite filter_app, zlen_app. cbn [filter].
    assert (E : at_ 0 part i = at_ (baseval g) part (baseval g + i)) by (rewrite (at_b0 (baseval g)); f_equal; lia).
    rewrite E. specialize (H (baseval g + i) ltac:(unfold isvert; lia)).
    destruct (Z.eqb_spec (at_ (baseval g) part (baseval g + i)) (-1)) as [X|X]; destruct (Z.leb_spec 0 (at_ (baseval g) part (baseval g + i))); rewrite ?zlen_one; try lia; unfold zlen at 3; cbn [length]; lia.
  - auto.
  - auto.
Qed.

Lemma bip_any dt : bip_ok avg bip -> 0 <= baseval (rb_org dt) -> bip_on avg (subproblem wf A dt) bip.
Proof.
  intros B B0 g ((act & d & d0 & d1 & _ & _ & S & _ & Eb & En & _ & _ & _ & _ & P0 & _ & Gg) & _) V R H. apply B; auto. split; [rewrite Eb, (sg_base _ _ S); exact B0|]. split; [exact Gg|].
  intros v Hv. apply P0. unfold isvert in *. pose proof (gv_nnd _ V). pose proof (gv_nnd _ (sg_valid _ _ S)). lia.
Qed.

Lemma compute_spec fuel g part old vmlo cr cm fx : (forall dt, rb_org dt = g -> (fx = 0 -> rb_pfix dt = None) -> bip_on avg (subproblem wf A dt) bip) -> graph_valid g -> graph_readable g -> 0 <= baseval g -> vnumtab g = None -> N <= Z.of_nat fuel ->
  vertnbr g <= zlen part ->
  (fx = 0 \/ termlist g part /\ fx = nfix g part /\ exists v, isvert g v /\ 0 <= at_ (baseval g) part v /\ velo g v <> 0) ->
  (forall o, old = Some o -> termlist g o) -> (forall l, vmlo = Some l -> vertnbr g <= zlen l) ->
  wp (graphMapCompute2 jkd jk A (kgraphMapRb jkd jk al avg kavg lim A bip fuel) g part old vmlo cr cm fx) (fun '(rc, part') => rc = 0 /\ zlen part' = zlen part /\
    (forall v, isvert g v -> 0 <= at_ (baseval g) part' v < N) /\
    (0 < fx -> forall v, isvert g v -> 0 <= at_ (baseval g) part v -> at_ (baseval g) part' v = at_ (baseval g) part v) /\
    forall i, vertnbr g <= i < zlen part -> at_ 0 part' i = at_ 0 part i) noerr.
Proof.
  intros BO V R B0 VN HF Lp HX HO HM. pose proof (gv_size _ V) as Z0. pose proof (gv_nnd _ V) as Nn. unfold graphMapCompute2. cbv zeta.
  destruct (frst_size N wf mem A AO) as (df & Ef & Wf & Mf & Es & N1 & Cf). rewrite Ef. cbn [bind].
  pose proof (zlen_filter_compl (fun v => 0 <=? at_ (baseval g) part v) (vlist g)) as FC. unfold vlist in FC at 3. rewrite zlen_zseq in FC by lia.
  fold (nfix g part) in FC. match type of FC with _ + zlen ?l = _ => pose proof (zlen_nonneg l) as FN; set (nofix := l) in * end.
  destruct ((0 <? fx) && (vertnbr g <=? fx)) eqn:Eall.
  { cbn [wp]. apply andb_prop in Eall. destruct Eall as [E1 E2]. destruct HX as [->|(TL & -> & _)]; [discriminate|].
    assert (nofix = []) as NE. { destruct nofix as [|x l] eqn:En; [reflexivity|]. rewrite zlen_cons in FC. pose proof (zlen_nonneg l). lia. }
    repeat (split; [reflexivity|]). split; [|split; [reflexivity | reflexivity]].
    intros v Hv. destruct (proj2 TL v Hv) as [X|X]; [|exact X]. exfalso. assert (In v nofix); [|now rewrite NE in *].
    unfold nofix. apply filter_In. split; [apply In_zseq; unfold isvert in Hv; lia | now rewrite X]. }
  unfold mapMax. rewrite (ao_var _ _ _ _ AO), Es. cbn [bind].
  apply wp_bind.
  apply wp_mono with (Q := fun om => forall m, om = Some m -> vertnbr g <= zlen (m_part m) /\
    forall v, isvert g v -> mp g m v = -1 \/ 0 <= mp g m v < zlen (m_domn m) /\ wf (mdom m (mp g m v))).
  { destruct old as [o|]; [|intros m [=]]. destruct (HO o eq_refl) as [Lo To]. apply wp_bind.
    eapply wp_mono; [apply (mapBuild_spec N wf mem A AO jkd g o); auto; cbn [m_part]; rewrite zlen_repeat; lia|].
    cbn [m_part]. intros m (M1 & [D1 D2 D3] & M3). rewrite zlen_repeat in M1. cbn [wp]. intros m' [= <-]. split; [lia|]. intros v Hv. specialize (M3 v Hv).
    destruct (at_ (baseval g) o v =? -1).
    - left. rewrite M3. unfold mp. cbn [m_part]. apply at_repeat. unfold isvert in Hv. lia.
    - right. destruct M3 as [M3 _]. split; [lia|]. now apply D2. }
  intros om HOm. apply wp_bind.
  match goal with |- wp (kgraphMapRb _ _ _ _ _ _ _ _ _ ?K) _ _ => set (k0 := K) end.
  assert (NFx : fx = 0 -> rb_pfix (kdt k0) = None) by (intros ->; reflexivity).
  eapply wp_mono; [eapply (kgraphMapRb_spec fuel k0 (BO (kdt k0) eq_refl NFx))|]; cbn [kdt rb_org k0 kmap m_part kfron kvfix rb_pfix]; auto; try (rewrite zlen_repeat; lia).
  - constructor; cbn [rb_org rb_pfix rb_old rb_vmlo]; auto.
    + destruct (Z.ltb_spec 0 fx); [|intros pf [=]]. intros pf [= <-]. split; [exact Lp|]. destruct HX as [->|(TL & _)]; [lia|]. intros v Hv. destruct (proj2 TL v Hv); lia.
    + destruct old; [exact HM | intros l [=]].
  - destruct (Z.ltb_spec 0 fx); [|intros pf [=]]. intros pf [= <-]. destruct HX as [->|(TL & E & Hx)]; [lia|]. auto.
  - intros [rc k1] (-> & Ed & _ & L1 & MO & _ & FX). apply wp_bind.
    eapply wp_mono; [apply (mapTerm_spec N wf mem A AO g (kmap k1) part V MO); auto|]. intros t' (Lt & P1 & P2). cbn [wp].
    split; [reflexivity|]. split; [exact Lt|]. split; [intros v Hv; now apply P1|]. split.
    + intros Hfx v Hv Hp. destruct (P1 v Hv) as [_ M]. assert (0 <? fx = true) as E1 by lia. rewrite E1 in FX. specialize (FX part v eq_refl Hv Hp).
      pose proof (mo_part _ _ _ _ _ MO v Hv) as Hpv. destruct (mo_dom _ _ _ _ _ MO _ Hpv) as (_ & t & _ & E). apply E in M. apply E in FX. congruence.
    + intros i Hi. specialize (P2 (baseval g + i) ltac:(lia)). rewrite !(at_b0 (baseval g)) in P2. replace (baseval g + i - baseval g) with i in P2 by lia. exact P2.
Qed.
End Gen.
