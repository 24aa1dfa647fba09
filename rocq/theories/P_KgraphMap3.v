(** Proofs about the state of a k-way graph and the mapping routines. *)
From Coq Require Import Sorted.
From Verif Require Import Base M_Graph M_Vgraph M_Bgraph M_Arch M_Induce M_KgraphMap
  S_Graph S_Bgraph S_Arch S_Induce S_KgraphMap P_Graph P_Vgraph P_Bgraph2 P_Arch P_Cmpltw P_Induce P_KgraphMap P_Hash P_KgraphMap2.

(** ** Frontier *)
Definition frb (s : graph) (pt : list Z) (v : Z) : bool :=
  existsb (fun e => negb (at_ (baseval s) pt (edge s e) =? at_ (baseval s) pt v)) (zseq (vert s v) (vend s v - vert s v)).

Lemma frb_spec s pt v : graph_valid s -> isvert s v -> frb s pt v = true <-> exists e, arc s v e /\ at_ (baseval s) pt (edge s e) <> at_ (baseval s) pt v.
Proof.
  intros V Hv. unfold frb. rewrite existsb_exists. pose proof (gv_range _ V v Hv) as Hr. split.
  - intros (e & He & Hn). apply In_zseq in He. exists e. split; [split; [exact Hv | lia]|]. destruct (Z.eqb_spec (at_ (baseval s) pt (edge s e)) (at_ (baseval s) pt v)); [discriminate | assumption].
  - intros (e & [_ He] & Hn). exists e. split; [apply In_zseq; lia|]. destruct (Z.eqb_spec (at_ (baseval s) pt (edge s e)) (at_ (baseval s) pt v)); [contradiction | reflexivity].
Qed.

Lemma ssort_zseq b n : StronglySorted Z.lt (zseq b n).
Proof.
  destruct (Z.le_ge_cases n 0) as [H|H]; [rewrite zseq_0 by lia; constructor|]. revert b. 
  revert n H. apply (zrange_ind (fun n => forall b, StronglySorted Z.lt (zseq b n)) 0).
  - intros b. rewrite zseq_0 by lia. constructor.
  - intros n Hn IH b. rewrite zseq_cons by lia. constructor; [replace (n + 1 - 1) with n by lia; apply IH|]. apply Forall_forall. intros x Hx. apply In_zseq in Hx. lia.
Qed.
Lemma ssort_filter (f : Z -> bool) l : StronglySorted Z.lt l -> StronglySorted Z.lt (filter f l).
Proof.
  induction 1 as [|a l S IH F]; [constructor|]. cbn [filter]. destruct (f a); [|exact IH]. constructor; [exact IH|].
  rewrite Forall_forall in *. intros x Hx. apply filter_In in Hx. now apply F.
Qed.

Lemma kgraphFron_spec s (pt fron : list Z) : graph_valid s -> graph_readable s -> vertnbr s <= zlen pt -> vertnbr s <= zlen fron ->
  wp (kgraphFron s pt fron) (fun '(fr, nf) => zlen fr = zlen fron /\ 0 <= nf <= zlen fr /\ firstn (Z.to_nat nf) fr = filter (frb s pt) (zseq (baseval s) (vertnbr s))) noerr.
Proof.
  intros V R L1 L2. pose proof (gv_nnd _ V) as Nn. pose proof (gv_size _ V) as Z0. set (b := baseval s) in *. unfold kgraphFron. cbv zeta. fold b.
  apply wp_for with (I := fun k '(fr, nf) => zlen fr = zlen fron /\ 0 <= nf <= k - b /\ firstn (Z.to_nat nf) fr = filter (frb s pt) (zseq b (k - b))).
  - lia.
  - split; [reflexivity|]. split; [lia|]. rewrite zseq_0 by lia. reflexivity.
  - intros v [fr nf] Hv (Lf & Hn & E). assert (Iv : isvert s v) by exact Hv. rewrite rd_ok by lia. cbn [bind].
    rewrite (rvert_ok s v R V Iv), (rvend_ok s v R V Iv). cbn [bind]. pose proof (gv_range _ V v Iv) as Hr.
    apply wp_bind. apply wp_mono with (Q := fun f => f = frb s pt v).
    { apply wp_loop with (I := fun e => vert s v <= e <= vend s v /\ forall e', vert s v <= e' < e -> at_ b pt (edge s e') = at_ b pt v) (m := fun e => vend s v - e).
      - split; [lia|]. intros; lia.
      - lia.
      - intros e [He Hs]. destruct (Z.ltb_spec e (vend s v)) as [Hlt|Hge].
        + assert (Ae : arc s v e) by (split; [exact Iv | lia]). rewrite (redge_ok s v e R Ae). cbn [bind]. pose proof (gv_end _ V v e Ae) as Hw. unfold isvert in Hw. rewrite rd_ok by lia. cbn [bind].
          destruct (Z.eqb_spec (at_ b pt (edge s e)) (at_ b pt v)) as [Ee|Ne]; cbn [negb wp].
          * split; [|lia]. split; [lia|]. intros e' He'. destruct (Z.eq_dec e' e) as [->|]; [exact Ee | apply Hs; lia].
          * symmetry. apply frb_spec; auto. exists e. auto.
        + cbn [wp]. symmetry. apply not_true_is_false. intros F. apply (frb_spec s pt v V Iv) in F. destruct F as (e' & [_ He'] & Hne). apply Hne. fold b. apply Hs. lia. }
    intros f ->. replace (v + 1 - b) with (v - b + 1) by lia. rewrite zseq_snoc by lia. rewrite filter_app. cbn [filter]. replace (b + (v - b)) with v by lia.
    destruct (frb s pt v).
    + rewrite wr_ok by lia. cbn [bind wp]. split; [now rewrite zlen_upd|]. split; [lia|].
      rewrite firstn_snoc by (rewrite zlen_upd; lia). rewrite firstn_upd_le by lia. rewrite E. rewrite at_upd by lia. now rewrite Z.eqb_refl.
    + cbn [wp]. split; [exact Lf|]. split; [lia|]. now rewrite app_nil_r.
  - intros [fr nf] (Lf & Hn & E). split; [exact Lf|]. split; [lia|]. rewrite E. do 2 f_equal. lia.
Qed.

Section Gen.
Context {D : Type} `{DD : Dflt D}.
Context (N : Z) (wf : D -> Prop) (mem : D -> Z -> Prop) (A : arch D) (AO : arch_ok N wf mem A).

(** ** Costs *)
Lemma edlo_rd g v e : graph_readable g -> arc g v e ->
  (match edlotab g with Some l => rd (baseval g) l e | None => Ok 1 end) = Ok (edlo g e).
Proof.
  intros R He. unfold edlo. destruct (edlotab g) as [t|] eqn:E; [|reflexivity]. apply rd_ok. eapply gr_edlo; eauto.
Qed.

Lemma dist_rd d d' : wf d -> wf d' -> a_dist A d d' = Ok (distz A d d').
Proof. intros W W'. unfold distz. destruct (ao_dist _ _ _ _ AO d d' W W') as [x ->]. reflexivity. Qed.

Lemma kgraphCost_spec (kavg : Z -> Z -> Z -> Z) s m (avt dlt : list Z) : graph_valid s -> graph_readable s -> map_ok N wf mem s m -> m_nbr m <= zlen avt -> m_nbr m <= zlen dlt ->
  wp (kgraphCost kavg A s m avt dlt) (fun '(avt', dlt', cm) => zlen avt' = zlen avt /\ zlen dlt' = zlen dlt /\ cm = kcommload A s m /\
    forall i, 0 <= i < m_nbr m -> at_ 0 avt' i + at_ 0 dlt' i = kload s m i) noerr.
Proof.
  intros V R [M1 M2 M3 M4 M5] La Ld. pose proof (gv_nnd _ V) as Nn. pose proof (gv_size _ V) as Z0. set (b := baseval s) in *. unfold kgraphCost. cbv zeta. fold b.
  destruct (memst_spec 0 dlt (m_nbr m) 0 ltac:(lia)) as (d0 & -> & Ld0 & Ad0). cbn [bind].
  apply wp_bind. apply wp_mono with (Q := fun '(dl, cm) => zlen dl = zlen dlt /\ cm = kcommload A s m /\ forall i, 0 <= i < m_nbr m -> at_ 0 dl i = kload s m i).
  { apply wp_for with (I := fun k '(dl, cm) => zlen dl = zlen dlt /\
      cm = zsum b k (fun v => zsum (vert s v) (vend s v) (fun e =>
        if (edge s e <? v) && negb (mp s m v =? mp s m (edge s e)) then edlo s e * distz A (mdom m (mp s m v)) (mdom m (mp s m (edge s e))) else 0)) /\
      forall i, 0 <= i < m_nbr m -> at_ 0 dl i = zsum b k (fun v => if mp s m v =? i then velo s v else 0)).
    - lia.
    - split; [exact Ld0|]. split; [now rewrite zsum_nil by lia|]. intros i Hi. rewrite Ad0 by lia. rewrite zsum_nil by lia. destruct (Z.ltb_spec i (0 + m_nbr m)); lia.
    - intros v [dl cm] Hv (Ldl & Ecm & Edl). assert (Iv : isvert s v) by exact Hv. rewrite rd_ok by lia. cbn [bind].
      pose proof (velo_rd s v R V Iv) as Xv. fold b in Xv. rewrite Xv. cbn [bind]. clear Xv.
      pose proof (M3 v Iv) as Hp. unfold mp in Hp. fold b in Hp. set (p := at_ b (m_part m) v) in *.
      rewrite rd_ok by lia. cbn [bind]. rewrite wr_ok by lia. cbn [bind]. rewrite (rvert_ok s v R V Iv), (rvend_ok s v R V Iv). cbn [bind]. pose proof (gv_range _ V v Iv) as Hr.
      apply wp_bind. apply wp_mono with (Q := fun '(c, _, _) => c = cm + zsum (vert s v) (vend s v) (fun e =>
        if (edge s e <? v) && negb (p =? mp s m (edge s e)) then edlo s e * distz A (mdom m p) (mdom m (mp s m (edge s e))) else 0)).
      { apply wp_for with (I := fun k '(c, pl, dl) => c = cm + zsum (vert s v) k (fun e =>
          if (edge s e <? v) && negb (p =? mp s m (edge s e)) then edlo s e * distz A (mdom m p) (mdom m (mp s m (edge s e))) else 0) /\
          (pl = -1 \/ 0 <= pl < m_nbr m /\ dl = distz A (mdom m p) (mdom m pl))).
        - lia.
        - split; [rewrite zsum_nil; lia | now left].
        - intros e [[c pl] dd] He (Ec & Hpl). assert (Ae : arc s v e) by (split; [exact Iv | lia]). rewrite (redge_ok s v e R Ae). cbn [bind].
          rewrite zsum_snoc by lia. pose proof (gv_end _ V v e Ae) as Hw. pose proof (gv_loop _ V v e Ae) as Hl.
          destruct (Z.ltb_spec v (edge s e)).
          { cbn [wp]. destruct (Z.ltb_spec (edge s e) v); [lia|]. cbn [andb]. split; [lia | exact Hpl]. }
          destruct (Z.ltb_spec (edge s e) v); [|lia]. cbn [andb]. pose proof (M3 _ Hw) as Hq. unfold isvert in Hw. rewrite rd_ok by lia. cbn [bind].
          change (at_ b (m_part m) (edge s e)) with (mp s m (edge s e)). set (q := mp s m (edge s e)) in *.
          destruct (Z.eqb_spec p q) as [Epq|Npq]; cbn [negb].
          { cbn [wp]. split; [lia | exact Hpl]. }
          pose proof (edlo_rd s v e R Ae) as Xe. fold b in Xe.
          assert (XD : (if negb (q =? pl) then do d <- rd 0 (m_domn m) p; do d' <- rd 0 (m_domn m) q; a_dist A d d' else Ok dd) = Ok (distz A (mdom m p) (mdom m q))).
          { destruct (Z.eqb_spec q pl) as [Eq|Nq]; cbn [negb].
            - destruct Hpl as [->|[_ ->]]; [lia|]. now rewrite Eq.
            - rewrite !rd_ok by lia. cbn [bind]. apply dist_rd; apply M4; lia. }
          rewrite XD. cbn [bind]. rewrite Xe. cbn [bind wp]. split; [lia|]. right. split; [lia | reflexivity].
        - intros [[c pl] dd] [Ec _]. exact Ec. }
      intros [[c pl] dd] Ec. cbn [wp]. split; [now rewrite zlen_upd|]. split.
      + rewrite zsum_snoc by lia. rewrite Ec, Ecm. reflexivity.
      + intros i Hi. rewrite zsum_snoc by lia. rewrite at_upd by lia. change (mp s m v) with p. rewrite !Edl by lia. destruct (Z.eqb_spec p i) as [->|]; lia.
    - intros [dl cm] X. exact X. }
  intros [dl cm] (Ldl & -> & Edl). destruct (ao_frst _ _ _ _ AO) as (df & -> & Wf & _). cbn [bind]. destruct (ao_wght _ _ _ _ AO df Wf) as [wf' ->]. cbn [bind].
  apply wp_bind.
  eapply wp_mono; [apply wp_for with (I := fun k '(av, d) => zlen av = zlen avt /\ zlen d = zlen dlt /\
      (forall i, 0 <= i < k -> at_ 0 av i + at_ 0 d i = kload s m i) /\ forall i, k <= i < m_nbr m -> at_ 0 d i = kload s m i)
      (Q := fun '(av, d) => zlen av = zlen avt /\ zlen d = zlen dlt /\ forall i, 0 <= i < m_nbr m -> at_ 0 av i + at_ 0 d i = kload s m i)|].
  - lia.
  - split; [reflexivity|]. split; [exact Ldl|]. split; [intros; lia|]. intros i Hi. apply Edl. lia.
  - intros i [av d] Hi (La' & Ld' & P1 & P2). rewrite rd_ok by lia. cbn [bind]. destruct (M4 i Hi) as [Wi _]. unfold mdom in Wi. destruct (ao_wght _ _ _ _ AO _ Wi) as [wi ->]. cbn [bind].
    rewrite rd_ok by lia. cbn [bind]. rewrite wr_ok by lia. cbn [bind]. rewrite wr_ok by lia. cbn [bind wp].
    split; [now rewrite zlen_upd|]. split; [now rewrite zlen_upd|]. split; intros j Hj; rewrite !at_upd by lia; destruct (Z.eqb_spec i j) as [<-|]; try lia.
    + rewrite (P2 i) by lia. lia.
    + apply P1. lia.
  - intros [av d] (La' & Ld' & P1 & P2). auto.
  - intros [av d] (La' & Ld' & P1). cbn [wp]. auto.
Qed.

(** ** Terminal numbers *)
Lemma mapTerm_spec s m (term : list Z) : graph_valid s -> map_ok N wf mem s m -> vertnbr s <= zlen term ->
  wp (mapTerm A s m term) (fun t' => zlen t' = zlen term /\
    (forall v, isvert s v -> 0 <= at_ (baseval s) t' v < N /\ mem (mdom m (mp s m v)) (at_ (baseval s) t' v)) /\
    forall v, vertnnd s <= v < baseval s + zlen term -> at_ (baseval s) t' v = at_ (baseval s) term v) noerr.
Proof.
  intros V [M1 M2 M3 M4 M5] L. pose proof (gv_nnd _ V) as Nn. pose proof (gv_size _ V) as Z0. set (b := baseval s) in *. unfold mapTerm. cbv zeta. fold b.
  apply wp_for with (I := fun k t' => zlen t' = zlen term /\
    (forall v, b <= v < k -> 0 <= at_ b t' v < N /\ mem (mdom m (mp s m v)) (at_ b t' v)) /\
    forall v, k <= v < b + zlen term -> at_ b t' v = at_ b term v).
  - lia.
  - split; [reflexivity|]. split; [intros; lia | reflexivity].
  - intros v t' Hv (Lt & P1 & P2). assert (Iv : isvert s v) by exact Hv. pose proof (M3 v Iv) as Hp. rewrite rd_ok by lia. cbn [bind].
    change (at_ b (m_part m) v) with (mp s m v). rewrite rd_ok by lia. cbn [bind]. destruct (M4 _ Hp) as (W & t & Ht & E). unfold mdom in W, E.
    rewrite (mem_rng N wf mem A AO _ t W E). cbn [bind]. rewrite wr_ok by lia. cbn [wp]. split; [now rewrite zlen_upd|]. split.
    + intros u Hu. rewrite at_upd by lia. destruct (Z.eqb_spec v u) as [<-|]; [|apply P1; lia]. split; [exact Ht|]. now apply E.
    + intros u Hu. rewrite at_upd by lia. destruct (Z.eqb_spec v u); [lia|]. apply P2. lia.
  - intros t' X. exact X.
Qed.

(** ** Mapping made from terminal numbers *)
Lemma mapBuild_spec (jkd : D) s (term : list Z) m : graph_valid s -> vertnbr s <= zlen term -> vertnbr s <= zlen (m_part m) -> m_nbr m = 0 ->
  (forall v, isvert s v -> at_ (baseval s) term v = -1 \/ 0 <= at_ (baseval s) term v < N) ->
  wp (mapBuild jkd A s term m) (fun m' => zlen (m_part m') = zlen (m_part m) /\ doms N wf mem (m_domn m') (m_nbr m') /\
    forall v, isvert s v -> if at_ (baseval s) term v =? -1 then mp s m' v = mp s m v
      else 0 <= mp s m' v < m_nbr m' /\ mem (mdom m' (mp s m' v)) (at_ (baseval s) term v)) noerr.
Proof.
  intros V Lt Lm Nm HT. pose proof (gv_nnd _ V) as Nn. pose proof (gv_size _ V) as Z0. set (b := baseval s) in *. unfold mapBuild. cbv zeta. fold b.
  destruct (frst_size N wf mem A AO) as (df & Ef & Wf & Mf & Es & N1 & Cf). rewrite (ao_var _ _ _ _ AO), Ef. cbn [bind]. rewrite Es. cbn [bind].
  assert (EQ : exists q, 0 <= q /\ 4 * 2 ^ Z.max 5 (Z.log2_up (N + 1)) = 2 ^ q /\ N < 2 ^ q).
  { set (e := Z.max 5 (Z.log2_up (N + 1))). exists (e + 2). split; [unfold e; lia|]. rewrite Z.pow_add_r by (unfold e; lia). change (2 ^ 2) with 4. split; [lia|].
    pose proof (proj2 (Z.log2_up_spec (N + 1) ltac:(lia))) as X. assert (2 ^ Z.log2_up (N + 1) <= 2 ^ e) by (apply Z.pow_le_mono_r; unfold e; lia). lia. }
  destruct EQ as (q & Hq & -> & Hs). set (L0 := zseq 0 N).
  assert (FR : forall tab dt n, index mem q tab dt n L0 -> exists i, 0 <= i < 2 ^ q /\ hkey tab i = -1).
  { intros tab dt n [I1 I2 I3]. apply (hash_free q Hq tab L0 I1); [|unfold L0; rewrite zlen_zseq; lia]. intros i Hi Hk. now apply I2. }
  apply wp_bind. eapply wp_mono; [apply wp_for with (I := fun k '(tab, pt, dt, dn) => index mem q tab dt dn L0 /\ doms N wf mem dt dn /\ zlen pt = zlen (m_part m) /\
     forall v, isvert s v -> if negb (at_ b term v =? -1) && (v <? k) then 0 <= at_ b pt v < dn /\ mem (at_ 0 dt (at_ b pt v)) (at_ b term v) else at_ b pt v = at_ b (m_part m) v)
     (Q := fun '(tab, pt, dt, dn) => doms N wf mem dt dn /\ zlen pt = zlen (m_part m) /\
     forall v, isvert s v -> if at_ b term v =? -1 then at_ b pt v = at_ b (m_part m) v else 0 <= at_ b pt v < dn /\ mem (at_ 0 dt (at_ b pt v)) (at_ b term v))|].
  - lia.
  - rewrite Nm. split; [|split; [|split; [reflexivity|]]].
    + constructor; [now apply hash_init| |intros; lia]. intros i Hi Hk. exfalso. apply Hk. now apply hash_init_key.
    + pose proof (zlen_nonneg (m_domn m)). constructor; intros; lia.
    + intros v Hv. unfold isvert in Hv. fold b in Hv. destruct (Z.ltb_spec v b); [lia|]. now rewrite andb_false_r.
  - intros v [[[tab pt] dt] dn] Hv (IX & Dt & Lp & Pv). assert (Iv : isvert s v) by exact Hv. rewrite rd_ok by lia. cbn [bind].
    destruct (Z.eqb_spec (at_ b term v) (-1)) as [Hp|Hp].
    { cbn [wp]. repeat (split; [assumption|]). intros u Hu. specialize (Pv u Hu). destruct (Z.eq_dec u v) as [->|].
      - rewrite Hp in *. exact Pv.
      - replace (u <? v + 1) with (u <? v) by lia. exact Pv. }
    specialize (HT v Iv). destruct HT as [|HT]; [contradiction|].
    set (p := at_ b term v) in *.
    apply wp_bind. eapply wp_mono; [apply (probe_spec q Hq tab p (ix_hash _ _ _ _ _ _ IX) ltac:(lia) (FR _ _ _ IX))|]. intros h (Hh & Pa & Hc).
    pose proof (h_len _ _ (ix_hash _ _ _ _ _ _ IX)) as Lh. rewrite rd_ok by lia. cbn [bind].
    assert (P0 : negb (p =? -1) && (v <? v + 1) = true) by lia.
    destruct (Z.eqb_spec (fst (at_ 0 tab h)) p) as [Ek|Nk].
    + rewrite wr_ok by lia. cbn [bind wp]. repeat (split; [now rewrite ?zlen_upd|]). intros u Hu. specialize (Pv u Hu). unfold isvert in Hu. rewrite at_upd by lia.
      destruct (Z.eqb_spec v u) as [<-|Nu].
      * fold p. rewrite P0. destruct (ix_key _ _ _ _ _ _ IX h Hh ltac:(unfold hkey; lia)) as (X1 & X2 & _). unfold hkey in X2. rewrite Ek in X2. auto.
      * replace (u <? v + 1) with (u <? v) by lia. exact Pv.
    + destruct Hc as [|[K1 K2]]; [contradiction|]. rewrite wr_ok by lia. cbn [bind]. destruct (proj1 (ao_term _ _ _ _ AO) p HT) as (d & -> & Wd & Ed & _). cbn [bind].
      pose proof (dm_cap _ _ _ _ _ Dt) as Ct.
      set (dt' := if zlen dt =? dn then mapResize jkd dt (zlen dt + (zlen dt / 4 + 8)) else dt).
      assert (Q4 : 0 <= zlen dt / 4) by (apply Z.div_pos; [apply zlen_nonneg | lia]).
      assert (T1 : dn < zlen dt' /\ forall i, 0 <= i < dn -> at_ 0 dt' i = at_ 0 dt i).
      { unfold dt'. destruct (Z.eqb_spec (zlen dt) dn); [|split; [lia | reflexivity]]. rewrite zlen_mapResize by lia. split; [lia|].
        intros i Hi. apply at_mapResize; lia. }
      destruct T1 as [T1 T2]. rewrite wr_ok by lia. cbn [bind]. rewrite wr_ok by lia. cbn [bind wp].
      assert (Dt' : doms N wf mem dt' dn).
      { destruct Dt as [D1 D2 D3]. constructor; [lia| |].
        - intros i Hi. rewrite T2 by exact Hi. now apply D2.
        - intros i j t Hi Hj. rewrite !T2 by assumption. now apply D3. }
      assert (IX' : index mem q tab dt' dn L0).
      { destruct IX as [I1 I2 I3]. constructor; [exact I1| |].
        - intros i Hi Hk. destruct (I2 i Hi Hk) as (X1 & X2 & X3). rewrite T2 by exact X1. auto.
        - intros x t Hx. rewrite T2 by exact Hx. now apply I3. }
      assert (HL : In p L0) by (apply In_zseq; lia).
      assert (NM : forall i, 0 <= i < dn -> ~ mem (at_ 0 dt' i) p).
      { intros i Hi M. destruct (ix_all _ _ _ _ _ _ IX' i p Hi M) as (j & Hj & Ej). now apply (K2 j). }
      assert (AT : forall i, 0 <= i < dn -> at_ 0 (upd 0 dt' dn d) i = at_ 0 dt i).
      { intros i Hi. rewrite at_upd by lia. destruct (Z.eqb_spec dn i); [lia|]. now apply T2. }
      split; [eapply index_snoc; eauto; try lia; apply (dm_one _ _ _ _ _ Dt')|]. split; [apply (doms_snoc N wf mem dt' dn d p Dt' T1 Wd HT Ed NM)|]. split; [now rewrite zlen_upd|].
      intros u Hu. specialize (Pv u Hu). unfold isvert in Hu. rewrite (at_upd b pt) by lia. destruct (Z.eqb_spec v u) as [<-|Nu].
      * fold p. rewrite P0. split; [lia|]. rewrite at_upd by lia. rewrite Z.eqb_refl. now apply Ed.
      * replace (u <? v + 1) with (u <? v) by lia. destruct (negb (at_ b term u =? -1) && (u <? v)); [|exact Pv].
        destruct Pv as [P1 P2]. split; [lia|]. rewrite AT by exact P1. exact P2.
  - intros [[[tab pt] dt] dn] (IX & Dt & Lp & Pv). repeat (split; [assumption|]). intros v Hv. specialize (Pv v Hv). unfold isvert in Hv.
    destruct (Z.ltb_spec v (vertnnd s)); [|lia]. rewrite andb_true_r in Pv. destruct (at_ b term v =? -1); exact Pv.
  - intros [[[tab pt] dt] dn] (Dt & Lp & Pv). cbn [wp]. unfold mp, mdom. cbn [m_part m_domn m_nbr]. fold b. auto.
Qed.
End Gen.
