(** Proofs about recursive bipartitioning: leaves, fixed load slots, bipartition graphs. *)
From Verif Require Import Base M_Graph M_Vgraph M_Bgraph M_Arch M_Induce M_KgraphMap
  S_Graph S_Bgraph S_Arch S_Induce S_KgraphMap P_Graph P_Vgraph P_Bgraph2 P_Arch P_Induce.

Definition sel (s : graph) (sp : option (list Z)) (ip v : Z) : Prop :=
  match sp with Some p => at_ (baseval s) p v = ip | None => True end.
Definition job (s : graph) (sp : option (list Z)) (ip w : Z) : Prop := exists v, isvert s v /\ sel s sp ip v /\ orig s v = w.

Lemma at_b0 {X} `{Dflt X} b (l : list X) i : at_ b l i = at_ 0 l (i - b).
Proof. unfold at_. now rewrite Z.sub_0_r. Qed.

Lemma part_list_In s p ip v : graph_valid s -> In v (part_list s p ip) <-> isvert s v /\ at_ (baseval s) p v = ip.
Proof.
  intros V. pose proof (gv_nnd _ V). unfold part_list. rewrite filter_In, In_zseq, Z.eqb_eq. unfold isvert. split; intros [? ?]; split; auto; lia.
Qed.

Lemma induce_subg jk al org s p ip : 1 <= al <= 2 -> subg org s -> vertnbr s <= zlen p ->
  wp (graphInducePart jk al s p (zlen (part_list s p ip)) ip) (fun ind => subg org ind /\ vertnbr ind = zlen (part_list s p ip) /\
    (forall w, job ind None 0 w <-> job s (Some p) ip w) /\ vnumtab ind <> None) noerr.
Proof.
  intros Hal S L. set (l := part_list s p ip). destruct S as [V R B0 Bs Vn Si Sj Sv (f & Hf & Sa)].
  assert (LI : forall v, In v l <-> isvert s v /\ at_ (baseval s) p v = ip) by (intros v; now apply part_list_In).
  assert (ND : NoDup l) by (apply NoDup_filter, NoDup_zseq).
  eapply wp_mono; [apply inducePart_spec; auto|]. fold l. intros h (I & Vh & Rh). destruct I as [Ib In_ Id Ia Iv (vn & Ev & Lv & Av) _].
  assert (OH : forall i, 0 <= i < zlen l -> orig h (baseval s + i) = orig s (at_ 0 l i)).
  { intros i Hi. unfold orig at 1. rewrite Ev, Ib, at_b0. replace (baseval s + i - baseval s) with i by lia. rewrite Av by exact Hi. reflexivity. }
  assert (VH : forall v, isvert h v <-> 0 <= v - baseval s < zlen l) by (intros v; unfold isvert; lia).
  assert (OV : forall v, isvert h v -> orig h v = orig s (at_ 0 l (v - baseval s))) by (intros v Hv; apply VH in Hv; rewrite <- OH by exact Hv; f_equal; lia).
  assert (LV : forall v, isvert h v -> In (at_ 0 l (v - baseval s)) l) by (intros v Hv; apply VH in Hv; apply at_In; lia).
  split; [|split; [exact In_|]].
  - constructor; auto; try lia.
    + intros t Et. rewrite Ev in Et. injection Et as <-. lia.
    + intros v Hv. rewrite OV by exact Hv. apply Si. now apply LI, LV.
    + intros v w Hv Hw E. rewrite !OV in E by assumption. pose proof (proj1 (LI _) (LV v Hv)) as [Iv' _]. pose proof (proj1 (LI _) (LV w Hw)) as [Iw _].
      pose proof (Sj _ _ Iv' Iw E) as E2. apply VH in Hv. apply VH in Hw.
      assert (v - baseval s = w - baseval s); [|lia]. apply (proj2 (NoDup_at 0 l) ND); auto; lia.
    + intros v Hv. rewrite OV by exact Hv. pose proof (proj1 (LI _) (LV v Hv)) as [Iv' _]. apply VH in Hv. replace v with (baseval s + (v - baseval s)) at 1 by lia.
      rewrite Iv by exact Hv. now apply Sv.
    + exists (fun w => f w && existsb (fun x => orig s x =? w) l). split.
      * intros w Hw. rewrite andb_true_iff, (Hf w Hw), existsb_exists. split.
        -- intros (_ & x & Hx & E). apply Z.eqb_eq in E. apply (In_at 0) in Hx. destruct Hx as (i & Hi & Ei). exists (baseval s + i). split; [apply VH; lia|]. rewrite OH by lia. now rewrite Ei.
        -- intros (u & Hu & E). rewrite OV in E by exact Hu. split; [exists (at_ 0 l (u - baseval s)); split; [now apply LI, LV | exact E]|].
           exists (at_ 0 l (u - baseval s)). split; [now apply LV | now apply Z.eqb_eq].
      * intros v Hv. pose proof (proj1 (LI _) (LV v Hv)) as [Iv' _]. rewrite OV by exact Hv. specialize (Sa _ Iv').
        apply VH in Hv. replace v with (baseval s + (v - baseval s)) at 1 by lia. rewrite Ia by exact Hv.
        set (u := at_ 0 l (v - baseval s)) in *.
        assert (EF : forall X : list (Z * Z), filter (fun x => f (fst x) && existsb (fun y => orig s y =? fst x) l) X =
            filter (fun x => existsb (fun y => orig s y =? fst x) l) (filter (fun x => f (fst x)) X)).
        { clear. induction X as [|x X IH]; [reflexivity|]. cbn [filter]. destruct (f (fst x)); cbn [andb filter]; [destruct (existsb _ l); now rewrite IH | exact IH]. }
        rewrite EF, <- Sa. clear EF Sa.
        assert (NV : forall x, In x (nbr s u) -> isvert s (fst x)).
        { intros x Hx. unfold nbr in Hx. apply in_map_iff in Hx. destruct Hx as (e & <- & He). apply In_zseq in He. cbn [fst]. apply (gv_end _ V u). split; [exact Iv' | lia]. }
        revert NV. generalize (nbr s u). induction l0 as [|[w ld] X IH]; intros NV; [reflexivity|]. specialize (IH (fun x Hx => NV x (or_intror Hx))). pose proof (NV _ (or_introl eq_refl)) as Iw. cbn [fst] in Iw.
        cbn [restrict flat_map map filter fst snd]. fold (restrict (baseval s) l X). destruct (posn l w) as [k|] eqn:Epn.
        -- apply posn_some in Epn. destruct Epn as [Hk Ek]. cbn [app map fst snd]. rewrite OH by exact Hk. rewrite Ek. rewrite IH.
           replace (existsb (fun y => orig s y =? orig s w) l) with true; [reflexivity|]. symmetry. apply existsb_exists. exists w. split; [rewrite <- Ek; apply at_In; lia | apply Z.eqb_refl].
        -- apply posn_none in Epn. cbn [app]. rewrite IH. replace (existsb (fun y => orig s y =? orig s w) l) with false; [reflexivity|].
           symmetry. apply not_true_is_false. intros Hx. apply existsb_exists in Hx. destruct Hx as (y & Hy & E). apply Z.eqb_eq in E. apply Epn.
           rewrite <- (Sj y w); auto. now apply LI.
  - split; [|congruence]. intros w. split.
    + intros (v & Hv & _ & E). rewrite OV in E by exact Hv. exists (at_ 0 l (v - baseval s)). destruct (proj1 (LI _) (LV v Hv)). auto.
    + intros (v & Hv & Hs & E). assert (Iv' : In v l) by (apply LI; auto). apply (In_at 0) in Iv'. destruct Iv' as (i & Hi & Ei).
      exists (baseval s + i). split; [apply VH; lia|]. split; [exact Logic.I|]. rewrite OH by lia. now rewrite Ei.
Qed.

Section Gen.
Context {D : Type} `{DD : Dflt D}.
Context (N : Z) (wf : D -> Prop) (mem : D -> Z -> Prop) (A : arch D) (AO : arch_ok N wf mem A).
Context (jkd : D) (jk al : Z) (Hal : 1 <= al <= 2).
Context (avg kavg : Z -> Z -> Z -> Z) (lim : bgraph -> D -> Z * Z) (bip : bgraph -> res (Z * bgraph)).

Lemma zlen_mapResize (tab : list D) n : zlen tab <= n -> zlen (mapResize jkd tab n) = n.
Proof.
  clear avg kavg lim bip.
  intros Hn. unfold mapResize. pose proof (zlen_nonneg tab). rewrite zlen_app, zlen_repeat. rewrite firstn_all2 by (unfold zlen in *; lia). lia.
Qed.
Lemma at_mapResize (tab : list D) n i : zlen tab <= n -> 0 <= i < zlen tab -> at_ 0 (mapResize jkd tab n) i = at_ 0 tab i.
Proof.
  clear avg kavg lim bip.
  intros Hn Hi. unfold mapResize. rewrite firstn_all2 by (unfold zlen in *; lia). apply at_app1. lia.
Qed.

(** One domain more *)
Record step (org : graph) (J : Z -> Prop) (d : D) (m m' : mapping D) : Prop := {
  st_len : zlen (m_part m') = zlen (m_part m);
  st_nbr : m_nbr m < m_nbr m';
  st_cap : m_nbr m' <= zlen (m_domn m');
  st_old : forall i, 0 <= i < m_nbr m -> mdom m' i = mdom m i;
  st_new : forall i, m_nbr m <= i < m_nbr m' -> wf (mdom m' i) /\ exists t, mem d t /\ forall t', mem (mdom m' i) t' <-> t' = t;
  st_dis : forall i j t, m_nbr m <= i < m_nbr m' -> m_nbr m <= j < m_nbr m' -> mem (mdom m' i) t -> mem (mdom m' j) t -> i = j;
  st_job : forall v, J v -> m_nbr m <= mp org m' v < m_nbr m';
  st_out : forall v, isvert org v -> ~ J v -> mp org m' v = mp org m v }.

Lemma part_write org s sp ip dn (pt0 : list Z) (body : Z -> list Z -> res (list Z)) :
  subg org s -> graph_valid org -> vertnbr org <= zlen pt0 ->
  (forall v pt, isvert s v -> zlen pt = zlen pt0 -> (sel s sp ip v /\ body v pt = wr (baseval s) pt (orig s v) dn) \/ (~ sel s sp ip v /\ body v pt = Ok pt)) ->
  wp (for_ (baseval s) (vertnnd s) body pt0) (fun pt => zlen pt = zlen pt0 /\
    forall w, isvert org w -> (job s sp ip w -> at_ (baseval s) pt w = dn) /\ (~ job s sp ip w -> at_ (baseval s) pt w = at_ (baseval s) pt0 w)) noerr.
Proof.
  intros S V L HB. pose proof (gv_nnd _ (sg_valid _ _ S)) as Ns. pose proof (gv_size _ (sg_valid _ _ S)) as Zs. pose proof (gv_nnd _ V) as No.
  pose proof (sg_base _ _ S) as Bs. set (b := baseval s) in *.
  apply wp_for with (I := fun k pt => zlen pt = zlen pt0 /\ forall w, isvert org w ->
     (forall v, b <= v < k -> sel s sp ip v -> orig s v = w -> at_ b pt w = dn) /\
     ((forall v, b <= v < k -> sel s sp ip v -> orig s v <> w) -> at_ b pt w = at_ b pt0 w)).
  - lia.
  - split; [reflexivity|]. intros w Hw. split; [intros; lia | reflexivity].
  - intros k pt Hk [L1 I1]. assert (Hv : isvert s k) by exact Hk. pose proof (sg_in _ _ S k Hv) as Ho. unfold isvert in Ho.
    destruct (HB k pt Hv L1) as [[Hs ->]|[Hs ->]].
    + rewrite wr_ok by lia. cbn [wp]. split; [now rewrite zlen_upd|]. intros w Hw. unfold isvert in Hw. rewrite at_upd by lia. destruct (Z.eqb_spec (orig s k) w) as [E|E].
      * split; [reflexivity|]. intros Hno. exfalso. apply (Hno k); [lia | assumption..].
      * split.
        -- intros v Hv' Hsv Ev. destruct (Z.eq_dec v k) as [->|]; [contradiction|]. apply (proj1 (I1 w Hw) v); [lia | assumption..].
        -- intros Hno. apply I1; [exact Hw|]. intros v Hv'. apply Hno. lia.
    + cbn [wp]. split; [exact L1|]. intros w Hw. split.
      * intros v Hv' Hsv Ev. destruct (Z.eq_dec v k) as [->|]; [contradiction|]. apply (proj1 (I1 w Hw) v); [lia | assumption..].
      * intros Hno. apply I1; [exact Hw|]. intros v Hv'. apply Hno. lia.
  - intros pt [L1 I1]. split; [exact L1|]. intros w Hw. split.
    + intros (v & Hv & Hs & E). apply (proj1 (I1 w Hw) v); assumption.
    + intros Hno. apply I1; [exact Hw|]. intros v Hv Hs E. apply Hno. exists v. auto.
Qed.

Lemma rbPart3_spec org s sp ip d m :
  subg org s -> graph_valid org -> vertnbr org <= zlen (m_part m) -> 0 <= m_nbr m <= zlen (m_domn m) ->
  (forall p, sp = Some p -> vertnbr s <= zlen p) -> (sp = None -> vnumtab s = None -> m_nbr m = 0) ->
  wf d -> card (mem d) 1 ->
  wp (rbPart3 jkd s sp ip d m) (fun m' => step org (job s sp ip) d m m') noerr.
Proof.
  intros S V L C Hp H0 Wd Cd. unfold rbPart3.
  pose proof (gv_nnd _ (sg_valid _ _ S)) as Ns. pose proof (gv_size _ (sg_valid _ _ S)) as Zs.
  set (tab := if zlen (m_domn m) <=? m_nbr m then mapResize jkd (m_domn m) (m_nbr m + m_nbr m / 4 + 8) else m_domn m).
  assert (Q4 : 0 <= m_nbr m / 4) by (apply Z.div_pos; lia).
  assert (T1 : m_nbr m < zlen tab /\ forall i, 0 <= i < m_nbr m -> at_ 0 tab i = at_ 0 (m_domn m) i).
  { unfold tab. destruct (Z.leb_spec (zlen (m_domn m)) (m_nbr m)); [|split; [lia | reflexivity]]. rewrite zlen_mapResize by lia. split; [lia|].
    intros i Hi. apply at_mapResize; lia. }
  destruct T1 as [T1 T2]. cbv zeta. rewrite wr_ok by lia. cbn [bind]. apply wp_bind.
  match goal with |- wp ?X _ _ => assert (HX : wp X (fun pt => zlen pt = zlen (m_part m) /\
    forall w, isvert org w -> (job s sp ip w -> at_ (baseval s) pt w = m_nbr m) /\ (~ job s sp ip w -> at_ (baseval s) pt w = at_ (baseval s) (m_part m) w)) noerr) end.
  { destruct sp as [p|]; [specialize (Hp p eq_refl)|]; destruct (vnumtab s) as [t|] eqn:Ev.
    - apply part_write; auto. intros v pt Hv _. pose proof (sg_vn _ _ S t Ev). unfold isvert in Hv. rewrite !rd_ok by lia. cbn [bind]. unfold sel, orig. rewrite Ev.
      destruct (Z.eqb_spec (at_ (baseval s) p v) ip); auto.
    - apply part_write; auto. intros v pt Hv _. unfold isvert in Hv. rewrite rd_ok by lia. cbn [bind]. unfold sel, orig. rewrite Ev.
      destruct (Z.eqb_spec (at_ (baseval s) p v) ip); auto.
    - apply part_write; auto. intros v pt Hv _. pose proof (sg_vn _ _ S t Ev). unfold isvert in Hv. rewrite !rd_ok by lia. cbn [bind]. unfold sel, orig. rewrite Ev. left. auto.
    - unfold memst. rewrite <- Ns, (H0 eq_refl eq_refl). apply part_write; auto. intros v pt Hv _. unfold sel, orig. rewrite Ev. left. auto. }
  eapply wp_mono; [exact HX|]. intros pt [L1 P1]. cbn [wp]. pose proof (sg_base _ _ S) as Bs.
  assert (DN : at_ 0 (upd 0 tab (m_nbr m) d) (m_nbr m) = d) by (rewrite at_upd by lia; now rewrite Z.eqb_refl).
  destruct (card_pos _ _ Cd ltac:(lia)) as [t Ht]. pose proof (card_one _ _ Cd Ht) as Ht1.
  constructor; cbn [m_part m_domn m_nbr].
  - exact L1.
  - lia.
  - rewrite zlen_upd. lia.
  - intros i Hi. unfold mdom. cbn [m_domn]. rewrite at_upd by lia. destruct (Z.eqb_spec (m_nbr m) i); [lia|]. now apply T2.
  - intros i Hi. assert (i = m_nbr m) as -> by lia. unfold mdom. cbn [m_domn]. rewrite DN. split; [exact Wd|]. exists t. auto.
  - intros i j t' Hi Hj _ _. lia.
  - intros v Hv. assert (Hi : isvert org v) by (destruct Hv as (u & Hu & _ & <-); now apply (sg_in _ _ S)). unfold mp. cbn [m_part]. rewrite <- Bs. rewrite (proj1 (P1 v Hi) Hv). lia.
  - intros v Hv Hn. unfold mp. cbn [m_part]. rewrite <- Bs. exact (proj2 (P1 v Hv) Hn).
Qed.

(** ** Splitting the fixed load slots *)
Definition okslots (tab : list (Z * Z)) : Prop := forall i, 0 <= i < zlen tab -> 0 <= fst (at_ 0 tab i) < N.

Lemma slot_incl d tab i : wf d -> okslots tab -> 0 <= i < zlen tab ->
  exists dt bl, termU A (fst (at_ 0 tab i)) = Ok dt /\ wf dt /\ a_incl A d dt = Ok bl.
Proof.
  intros W O Hi. unfold termU. destruct (proj1 (ao_term _ _ _ _ AO) _ (O i Hi)) as (dt & -> & W1 & _). destruct (ao_incl _ _ _ _ AO d dt W W1) as (bl & E & _). eauto.
Qed.

Lemma split0_spec d0 tab nnd num c0 : wf d0 -> okslots tab -> 0 <= num <= nnd -> nnd < zlen tab ->
  wp (split0 A d0 tab nnd (num, c0)) (fun '(num', _, q) => num <= num' /\ if (q : bool) then num' = nnd + 1 else num' <= nnd) noerr.
Proof.
  intros W O H1 H2. unfold split0.
  apply wp_loop with (I := fun '(k, _) => num <= k <= nnd) (m := fun '(k, _) => nnd - k).
  - lia.
  - unfold zlen in H2. lia.
  - intros [k c] Hk. rewrite rd_ok by lia. cbn [bind]. destruct (slot_incl d0 tab k W O ltac:(lia)) as (dt & bl & -> & _ & E). cbn [bind]. rewrite E. cbn [bind].
    destruct bl; [destruct (Z.ltb_spec nnd (k + 1))|]; cbn [wp]; lia.
Qed.

Lemma split1_spec d1 tab num nnd c1 : wf d1 -> okslots tab -> 0 <= num < nnd -> nnd < zlen tab ->
  wp (split1 A d1 tab num (nnd, c1)) (fun '(nnd', _, q) => if (q : bool) then True else num < nnd' <= nnd) noerr.
Proof.
  intros W O H1 H2. unfold split1.
  apply wp_loop with (I := fun '(k, _) => num < k <= nnd) (m := fun '(k, _) => k - num).
  - lia.
  - unfold zlen in H2. lia.
  - intros [k c] Hk. rewrite rd_ok by lia. cbn [bind]. destruct (slot_incl d1 tab k W O ltac:(lia)) as (dt & bl & -> & _ & E). cbn [bind]. rewrite E. cbn [bind].
    destruct bl; [destruct (Z.leb_spec (k - 1) num)|]; [rewrite rd_ok by lia|..]; cbn [bind wp]; lia.
Qed.

Lemma okslots_upd tab i j : okslots tab -> 0 <= i < zlen tab -> 0 <= j < zlen tab -> okslots (upd 0 tab i (at_ 0 tab j)).
Proof. intros O Hi Hj k Hk. rewrite zlen_upd in Hk. rewrite at_upd by lia. destruct (Z.eqb_spec i k); apply O; lia. Qed.
Lemma okslots_updv tab i x : okslots tab -> 0 <= i < zlen tab -> 0 <= fst x < N -> okslots (upd 0 tab i x).
Proof. intros O Hi Hj k Hk. rewrite zlen_upd in Hk. rewrite at_upd by lia. destruct (Z.eqb_spec i k); auto. Qed.

Lemma splitFix_spec d0 d1 tab : wf d0 -> wf d1 -> okslots tab ->
  wp (splitFix A d0 d1 tab) (fun '(tab', n0, n1, _, _) => zlen tab' = zlen tab /\ okslots tab' /\ 0 <= n0 /\ 0 <= n1 /\ n0 + n1 = zlen tab) noerr.
Proof.
  intros W0 W1 O. unfold splitFix. pose proof (zlen_nonneg tab) as Zt.
  apply wp_loop with (I := fun '(tab', num, nnd, _, _) => zlen tab' = zlen tab /\ okslots tab' /\ 0 <= num <= nnd + 2 /\ nnd < zlen tab /\ num <= zlen tab)
    (m := fun '(_, num, nnd, _, _) => Z.max 0 (nnd - num + 1)).
  - split; [reflexivity|]. split; [exact O|]. lia.
  - unfold zlen. lia.
  - intros [[[[tb num] nnd] c0] c1] (L & O' & H1 & H2 & H3). destruct (Z.ltb_spec num nnd); [|cbn [wp]; split; [auto|]; split; [auto|]; lia].
    apply wp_bind. eapply wp_mono; [apply split0_spec; auto; lia|]. intros [[num' c0'] q] (G1 & G2). destruct q; [cbn [wp]; split; [auto|]; split; [auto|]; lia|].
    destruct (Z.eq_dec num' nnd) as [En|En].
    { (* the scan from the end starts on the slot found *)
      subst num'. apply wp_bind. unfold split1. cbn [loop]. destruct (length tb); cbn [loop].
      all: rewrite rd_ok by lia; cbn [bind]; destruct (slot_incl d1 tb nnd W1 O' ltac:(lia)) as (dt & bl & -> & _ & E); cbn [bind]; rewrite E; cbn [bind].
      all: destruct bl; [destruct (Z.leb_spec (nnd - 1) nnd); [|lia]; rewrite rd_ok by lia; cbn [bind wp]; split; [auto|]; split; [auto|]; lia|].
      all: cbn [bind wp]; rewrite !rd_ok by lia; cbn [bind]; rewrite wr_ok by lia; cbn [bind]; rewrite wr_ok by (rewrite zlen_upd; lia); cbn [bind wp].
      all: split; [rewrite !zlen_upd; split; [auto|]; split; [|lia] | lia].
      all: apply okslots_updv; [apply okslots_updv; auto; try lia; apply O'; lia | rewrite zlen_upd; lia | apply O'; lia]. }
    apply wp_bind. eapply wp_mono; [apply split1_spec; auto; lia|]. intros [[nnd' c1'] q] G3. destruct q; [cbn [wp]; split; [auto|]; split; [auto|]; lia|].
    rewrite !rd_ok by lia; cbn [bind]; rewrite wr_ok by lia; cbn [bind]; rewrite wr_ok by (rewrite zlen_upd; lia); cbn [bind wp].
    split; [rewrite !zlen_upd; split; [auto|]; split; [|lia] | lia].
    apply okslots_updv; [apply okslots_updv; auto; try lia; apply O'; lia | rewrite zlen_upd; lia | apply O'; lia].
Qed.

Definition strip (s : graph) : graph :=
  mkgraph (baseval s) (vertnbr s) (vertnnd s) (verttab s) (vendtab s) (velotab s) (velosum s) (vnumtab s) None
    (edgenbr s) (edgetab s) (edlotab s) (edlosum s) (degrmax s).
Lemma strip_valid s : graph_valid s -> graph_valid (strip s).
Proof. intros [G1 G2 G3 G4 G5 G6 G7 G8 G9 G10 G11 G12 G13 G14]. constructor; assumption. Qed.
Lemma strip_read s : graph_readable s -> graph_readable (strip s).
Proof. intros [G1 G2 G3 G4 G5]. constructor; assumption. Qed.

Lemma bgraphInit_spec s d0 d1 f0 f1 : graph_valid s -> graph_readable s -> wf d0 -> wf d1 ->
  wp (bgraphInit jk avg A s d0 d1 f0 f1) (fun g => bs g = strip s /\ bg_readable g /\ bg_valid avg g /\ bveex g = None /\ (forall v, isvert s v -> bp g v = 0) /\
    a_dist A d0 d1 = Ok (bdist g) /\ a_wght A d0 = Ok (bwg0 g) /\ a_wght A d1 = Ok (bwg1 g) /\ bcmge0 g = bcmge g /\ bfx0 g = f0 /\ bfx1 g = f1) noerr.
Proof.
  intros V R W0 W1. unfold bgraphInit. destruct (ao_dist _ _ _ _ AO d0 d1 W0 W1) as (x & ->). destruct (ao_wght _ _ _ _ AO d0 W0) as (w0 & ->). destruct (ao_wght _ _ _ _ AO d1 W1) as (w1 & ->).
  cbn [bind]. cbv zeta. fold (strip s). pose proof (gv_size _ V) as Zs. pose proof (gv_nnd _ V) as Ns.
  match goal with |- wp (bgraphInit2 _ ?g0 _ _ _ _ _) _ _ => set (G := g0) end.
  assert (RG : bg_readable G).
  { constructor; cbn [bs bpart bfron bveex G]; try (intros; discriminate).
    - now apply strip_read.
    - unfold zlen. rewrite map_length, repeat_length. cbn [vertnbr strip]. lia.
    - intros v Hv. unfold isvert in Hv. cbn [strip baseval vertnnd] in Hv. unfold bp. cbn [bpart bs G strip baseval].
      assert (L : zlen (map (fun x => x mod 256) (repeat jk (Z.to_nat (vertnbr s)))) = vertnbr s) by (unfold zlen; rewrite map_length, repeat_length; lia).
      assert (I : In (at_ (baseval s) (map (fun x => x mod 256) (repeat jk (Z.to_nat (vertnbr s)))) v) (map (fun x => x mod 256) (repeat jk (Z.to_nat (vertnbr s))))) by (apply at_In; lia).
      apply in_map_iff in I. destruct I as (y & <- & _). pose proof (Z.mod_pos_bound y 256 ltac:(lia)). lia.
    - rewrite zlen_repeat. cbn [vertnbr strip]. lia. }
  destruct (bgraphInit2_spec avg G x w0 w1 f0 f1 RG (strip_valid _ V) eq_refl) as (h & -> & H1 & H2 & H3 & H4 & H5 & H6 & H7 & H8 & H9 & H10 & H12 & H11).
  cbn [wp]. split; [exact H1|]. split; [|split; [exact H11|]; split; [exact H10|]; split; [exact H7|]; rewrite H2, H3, H4; auto 10].
  destruct RG as [R1 R2 R3 R4 R5]. constructor; rewrite ?H1, ?H8, ?H9, ?H10; auto; try (intros; discriminate).
  intros v Hv. rewrite H7 by exact Hv. lia.
Qed.

Definition unfixed (dt : rbdata (D := D)) (s : graph) : Prop := forall pf, rb_pfix dt = Some pf -> vnumtab s <> None /\
  forall v, isvert s v -> at_ (baseval (rb_org dt)) pf (orig s v) < 0.
Definition nextv (act : graph) (ae aend : Z) : Z := if aend <=? ae then -1 else orig act (edge act ae).

Lemma actNext_eq act t v ae : graph_valid act -> graph_readable act -> isvert act v -> vert act v <= ae -> vnumtab act = Some t -> vertnbr act <= zlen t ->
  actNext act t ae (vend act v) = Ok (nextv act ae (vend act v)).
Proof.
  intros V R Hv He Ev L. unfold actNext, nextv. destruct (Z.leb_spec (vend act v) ae); [reflexivity|].
  assert (Ar : arc act v ae) by (split; [exact Hv | lia]). rewrite (redge_ok _ _ _ R Ar). cbn [bind]. pose proof (gv_end _ V _ _ Ar) as E. unfold isvert in E. pose proof (gv_nnd _ V).
  rewrite rd_ok by lia. unfold orig. now rewrite Ev.
Qed.

Lemma extnDist_eq di d lo : wf di -> wf d -> extnDist A di d lo = Ok (lo * away A di d).
Proof.
  intros W0 W1. unfold extnDist, away. destruct (ao_incl _ _ _ _ AO di d W0 W1) as (bl & -> & _). cbn [bind]. destruct bl; [f_equal; lia|].
  unfold distz. destruct (ao_dist _ _ _ _ AO di d W0 W1) as (x & ->). reflexivity.
Qed.

Lemma map_fst_filter (f : Z -> bool) (l : list (Z * Z)) : map fst (filter (fun x => f (fst x)) l) = filter f (map fst l).
Proof. induction l as [|x l IH]; [reflexivity|]. cbn [filter map]. destruct (f (fst x)); cbn [map]; now rewrite IH. Qed.

Lemma filter_all (f : Z -> bool) (l : list Z) : length (filter f l) = length l -> forall x, In x l -> f x = true.
Proof.
  induction l as [|y l IH]; [intros _ x []|]. cbn [filter]. destruct (f y) eqn:E; cbn [length]; intros H.
  - injection H as H. intros x [<-|Hx]; auto.
  - exfalso. assert (length (filter f l) <= length l)%nat by (clear; induction l as [|y l IH]; cbn [filter]; [lia|]; destruct (f y); cbn [length]; lia). lia.
Qed.

Lemma extnVert_eq dt act d0 d1 v : dt_ok N wf dt -> subg (rb_org dt) act -> unfixed dt act -> wf d0 -> wf d1 -> isvert act v ->
  extnVert A dt act d0 d1 v = Ok (extcost A dt d0 (orig act v), extcost A dt d1 (orig act v)).
Proof.
  intros O S U W0 W1 Hv. set (org := rb_org dt) in *. pose proof (do_valid _ _ _ O) as Vo. pose proof (do_read _ _ _ O) as Ro. fold org in Vo, Ro.
  pose proof (gv_nnd _ Vo) as No. pose proof (gv_nnd _ (sg_valid _ _ S)) as Na. pose proof (sg_in _ _ S v Hv) as Ho.
  unfold extnVert. fold org.
  match goal with |- bind ?X _ = _ => assert (HX : wp X (fun '(ov, ld, gn) => ov = orig act v /\ ld = rb_crlo dt * fixcost A dt d0 ov /\ gn = rb_crlo dt * fixcost A dt d1 ov) noerr) end.
  { unfold fixcost. fold org. destruct (vnumtab act) as [t|] eqn:Ev.
    2: { destruct (rb_pfix dt) as [pf|] eqn:Ep; [exfalso; now apply (U pf Ep)|]. cbn [wp]. unfold orig. rewrite Ev. repeat split; lia. }
    pose proof (sg_vn _ _ S t Ev) as Lt. assert (Eo : at_ (baseval act) t v = orig act v) by (unfold orig; now rewrite Ev).
    pose proof Hv as Hv'. unfold isvert in Hv'. rewrite rd_ok by lia. rewrite Eo. cbn [bind].
    destruct (rb_pfix dt) as [pf|] eqn:Ep; [|cbn [wp]; repeat split; lia]. destruct (do_pfix _ _ _ O pf Ep) as [Lp Pp]. fold org in Lp, Pp.
    destruct (U pf Ep) as [_ Uf]. destruct (sg_arcs _ _ S) as (f & Hf & Sa). specialize (Sa v Hv).
    rewrite (rvert_ok _ _ Ro Vo Ho), (rvend_ok _ _ Ro Vo Ho). rewrite (rvert_ok _ _ (sg_read _ _ S) (sg_valid _ _ S) Hv), (rvend_ok _ _ (sg_read _ _ S) (sg_valid _ _ S) Hv). cbn [bind].
    set (ov := orig act v) in *. pose proof (gv_range _ Vo ov Ho) as Rg. pose proof (gv_range _ (sg_valid _ _ S) v Hv) as Ra.
    assert (S0 : map (fun a => orig act (edge act a)) (zseq (vert act v) (vend act v - vert act v)) = filter f (map (edge org) (zseq (vert org ov) (vend org ov - vert org ov)))).
    { apply (f_equal (map fst)) in Sa. rewrite map_map, map_fst_filter in Sa. unfold nbr in Sa. rewrite !map_map in Sa. exact Sa. }
    assert (Fx : forall e, arc org ov e -> f (edge org e) = true -> at_ (baseval org) pf (edge org e) < 0).
    { intros e Ar E. apply Hf in E; [|exact (gv_end _ Vo _ _ Ar)]. destruct E as (u & Hu & <-). now apply Uf. }
    destruct (Z.eqb_spec (vend org ov - vert org ov) (vend act v - vert act v)) as [Ed|Ed].
    { assert (Z0 : forall di, zsum (vert org ov) (vend org ov) (fun e => let p := at_ (baseval org) pf (edge org e) in if 0 <=? p then edlo org e * away A di (termz A p) else 0) = 0).
      { intros di. apply zsum_zero. intros e He. assert (Ar : arc org ov e) by (split; [exact Ho | lia]). cbv zeta. destruct (Z.leb_spec 0 (at_ (baseval org) pf (edge org e))); [|reflexivity]. exfalso.
        pose proof (Fx e Ar) as X. rewrite (filter_all f (map (edge org) (zseq (vert org ov) (vend org ov - vert org ov)))) in X; [specialize (X eq_refl); lia| |apply in_map, In_zseq; lia].
        rewrite <- S0. rewrite !map_length. unfold zseq. rewrite !map_length, !seq_length. f_equal. lia. }
      cbn [wp]. rewrite !Z0. repeat split; lia. }
    rewrite (actNext_eq act t v) by (auto; try apply S; lia). cbn [bind].
    set (F := fun di e => let p := at_ (baseval org) pf (edge org e) in if 0 <=? p then edlo org e * away A di (termz A p) else 0).
    apply wp_bind. unfold extnArcs. fold org. eapply wp_mono; [apply wp_for with (I := fun e '(ae, ave, ld, gn) => vert act v <= ae <= vend act v /\ ave = nextv act ae (vend act v) /\
      map (fun a => orig act (edge act a)) (zseq ae (vend act v - ae)) = filter f (map (edge org) (zseq e (vend org ov - e))) /\
      ld = zsum (vert org ov) e (F d0) /\ gn = zsum (vert org ov) e (F d1))|].
    - lia.
    - rewrite !zsum_nil by lia. repeat split; auto; lia.
    - intros e [[[ae ave] l] g] He (Hae & -> & HL & -> & ->). assert (Ar : arc org ov e) by (split; [exact Ho | lia]). rewrite (redge_ok _ _ _ Ro Ar). cbn [bind].
      pose proof (gv_end _ Vo _ _ Ar) as Ie. pose proof (Pp _ Ie) as Pe. rewrite (zseq_cons e) in HL by lia. cbn [map filter] in HL.
      rewrite !zsum_snoc by lia.
      destruct (f (edge org e)) eqn:Ef.
      + assert (Hlt : ae < vend act v) by (destruct (Z.lt_ge_cases ae (vend act v)); [assumption|]; rewrite (zseq_0 ae) in HL by lia; discriminate).
        rewrite (zseq_cons ae) in HL by lia. cbn [map] in HL. injection HL as H1 H2.
        assert (En : edge org e = nextv act ae (vend act v)) by (unfold nextv; destruct (Z.leb_spec (vend act v) ae); [lia | now rewrite H1]).
        rewrite <- En, Z.eqb_refl. rewrite (actNext_eq act t v) by (auto; try apply S; lia). cbn [bind wp].
        assert (Z0 : forall di, F di e = 0) by (intros di; unfold F; pose proof (Fx e Ar Ef); cbv zeta; destruct (Z.leb_spec 0 (at_ (baseval org) pf (edge org e))); [lia | reflexivity]).
        rewrite !Z0. repeat split; try lia. replace (vend act v - (ae + 1)) with (vend act v - ae - 1) by lia. replace (vend org ov - (e + 1)) with (vend org ov - e - 1) by lia. exact H2.
      + assert (Nn : edge org e <> nextv act ae (vend act v)).
        { unfold nextv. destruct (Z.leb_spec (vend act v) ae).
          - pose proof (sg_base0 _ _ S). pose proof (sg_base _ _ S). unfold isvert in Ie. fold org in H1. lia.
          - intros E. assert (Ar' : arc act v ae) by (split; [exact Hv | lia]). pose proof (gv_end _ (sg_valid _ _ S) _ _ Ar') as Ia.
            assert (f (edge org e) = true) by (apply Hf; [exact Ie|]; eauto). congruence. }
        destruct (Z.eqb_spec (edge org e) (nextv act ae (vend act v))); [contradiction|].
        assert (El : match edlotab org with Some l0 => rd (baseval org) l0 e | None => Ok 1 end = Ok (edlo org e)).
        { unfold edlo. destruct (edlotab org) as [l0|] eqn:El; [|reflexivity]. apply rd_ok. eapply (gr_edlo _ Ro); eauto. }
        rewrite El. cbn [bind]. pose proof Ie as Ie'. unfold isvert in Ie'. rewrite rd_ok by lia. cbn [bind].
        assert (HL' : map (fun a => orig act (edge act a)) (zseq ae (vend act v - ae)) = filter f (map (edge org) (zseq (e + 1) (vend org ov - (e + 1))))) by (rewrite HL; replace (vend org ov - e - 1) with (vend org ov - (e + 1)) by lia; reflexivity).
        assert (FE : forall di, F di e = if 0 <=? at_ (baseval org) pf (edge org e) then edlo org e * away A di (termz A (at_ (baseval org) pf (edge org e))) else 0) by reflexivity.
        rewrite !FE. clear FE.
        destruct (Z.leb_spec 0 (at_ (baseval org) pf (edge org e))) as [Hp|Hp]; [|cbn [wp]; repeat split; auto; lia].
        destruct (proj1 (ao_term _ _ _ _ AO) (at_ (baseval org) pf (edge org e)) (conj Hp Pe)) as (d & Et & Wd & _). unfold termz. rewrite Et.
        rewrite (extnDist_eq d0 d _ W0 Wd), (extnDist_eq d1 d _ W1 Wd). cbn [bind wp]. repeat split; auto; lia.
    - exact (fun s h => h).
    - intros [[[ae ave] l] g] (_ & _ & _ & -> & ->). cbn [wp]. repeat split; try lia; apply Z.mul_comm. }
  destruct (wp_ok_inv _ _ HX) as ([[ov ld] gn] & EX & -> & -> & ->). rewrite EX. cbn [bind]. unfold extcost, oldcost. fold org.
  destruct (rb_old dt) as [m|] eqn:Eo; [|now rewrite !Z.add_0_r]. destruct (do_old _ _ _ O m Eo) as [Lm Pm]. fold org in Lm, Pm. specialize (Pm _ Ho). unfold mp in *.
  pose proof Ho as Ho'. unfold isvert in Ho'. rewrite rd_ok by lia. cbn [bind]. destruct (Z.eqb_spec (at_ (baseval org) (m_part m) (orig act v)) (-1)); [now rewrite !Z.add_0_r|].
  destruct Pm as [Pm|[Pm Wm]]; [contradiction|].
  set (vm := match rb_vmlo dt with Some l => at_ (baseval org) l (orig act v) | None => 1 end).
  assert (El : match rb_vmlo dt with Some l => do x <- rd (baseval org) l (orig act v); Ok (rb_cmlo dt * x) | None => Ok (rb_cmlo dt) end = Ok (rb_cmlo dt * vm)).
  { unfold vm. destruct (rb_vmlo dt) as [l|] eqn:El; [|f_equal; lia]. pose proof (do_vmlo _ _ _ O l El) as Ll. fold org in Ll. rewrite rd_ok by lia. reflexivity. }
  rewrite El. cbn [bind]. rewrite rd_ok by lia. cbn [bind]. fold (mdom m (at_ (baseval org) (m_part m) (orig act v))).
  rewrite (extnDist_eq d0 _ _ W0 Wm), (extnDist_eq d1 _ _ W1 Wm). reflexivity.
Qed.

Lemma rbBgraph_spec dt act d d0 d1 f0 f1 : dt_ok N wf dt -> subg (rb_org dt) act -> unfixed dt act -> wf d -> a_bip A d = Ok (d0, d1) -> wf d0 -> wf d1 ->
  wp (rbBgraph jk avg A dt act d0 d1 f0 f1) (fun g => bs g = strip act /\ bg_readable g /\ bg_valid avg g /\ problem wf A dt g /\ bfx0 g = f0 /\ bfx1 g = f1) noerr.
Proof.
  intros O S U Wd Eb W0 W1. unfold rbBgraph. pose proof (sg_valid _ _ S) as V. pose proof (gv_nnd _ V) as Ns. pose proof (gv_size _ V) as Zs.
  apply wp_bind. eapply wp_mono; [apply bgraphInit_spec; auto; apply S|]. intros g (E & R & Vg & X & P0 & D1 & D2 & D3 & Gg & Fx0 & Fx1).
  set (ext := fun di v => extcost A dt di (orig act v)).
  assert (Prob : forall h, bs h = bs g -> bpart h = bpart g -> bdist h = bdist g -> bwg0 h = bwg0 g -> bwg1 h = bwg1 g -> (forall v, isvert act v -> veex h v = ext d1 v - ext d0 v) ->
     (bveex h <> None -> bcmle0 h = zsum (baseval act) (vertnnd act) (ext d0)) -> bcmge0 h = bcmge h -> problem wf A dt h).
  { intros h H1 H2 H3 H4 H5 H6 H7 H8. exists act, d, d0, d1. rewrite H1, H3, H4, H5, E. cbn [strip baseval vertnbr].
    split; [exact Wd|]. split; [exact Eb|]. split; [exact S|]. split; [intros pf v Ep Hv; now apply (U pf Ep)|]. split; [reflexivity|]. split; [reflexivity|].
    split; [intros v Hv; split; reflexivity|]. split; [exact D1|]. split; [exact D2|]. split; [exact D3|]. split; [|split; [exact H7 | exact H8]].
    intros v Hv. split; [|now apply H6]. rewrite <- (P0 v Hv). unfold bp. now rewrite H1, H2. }
  match goal with |- wp (match ?a with _ => _ end) _ _ => set (PF := a) end.
  assert (Loop : wp (let b := baseval act in
      do '(vx, msk, l0, g0) <- for_ b (vertnnd act) (fun v '(vx, msk, l0, g0) =>
        do '(ld, gn) <- extnVert A dt act d0 d1 v;
        do vx <- wr b vx v (gn - ld);
        Ok (vx, Z.lor msk (gn - ld), l0 + ld, g0 + (gn - ld))) (repeat jk (Z.to_nat (vertnbr act)), 0, 0, 0);
      if msk =? 0 then Ok g else
      Ok (mkbgraph (bs g) (Some vx) (bpart g) (bfron g) (bfronnbr g) (bmin g) (bmax g) (bavg g) (bdlt g) (bld0 g) (bsz0 g)
            l0 l0 g0 g0 (bbal g) (bdist g) (bwg0 g) (bwg1 g) (bfx0 g) (bfx1 g)))
     (fun g => bs g = strip act /\ bg_readable g /\ bg_valid avg g /\ problem wf A dt g /\ bfx0 g = f0 /\ bfx1 g = f1) noerr).
  2: { destruct PF eqn:Ep; [exact Loop|]. destruct (rb_old dt) eqn:Eo; [exact Loop|]. cbn [wp]. split; [exact E|]. split; [exact R|]. split; [exact Vg|]. split; [|auto].
       apply Prob; auto; [|now rewrite X]. intros v Hv. unfold veex. rewrite X. unfold ext, extcost, fixcost, oldcost. unfold PF in Ep. rewrite Ep, Eo. lia. }
  cbv zeta. set (b := baseval act) in *. apply wp_bind.
  eapply wp_mono; [apply wp_for with (I := fun k '(vx, msk, l0, g0) => zlen vx = vertnbr act /\ g0 = zsum b k (fun v => at_ b vx v) /\
     (forall v, b <= v < k -> at_ b vx v = ext d1 v - ext d0 v) /\ (msk = 0 -> forall v, b <= v < k -> ext d1 v - ext d0 v = 0) /\ l0 = zsum b k (ext d0))|].
  - lia.
  - rewrite zlen_repeat. split; [lia|]. rewrite !zsum_nil by lia. repeat split; auto; intros; lia.
  - intros k [[[vx msk] l0] g0] Hk (L1 & G1 & G2 & G3 & ->). rewrite (extnVert_eq dt act d0 d1 k O S U W0 W1 Hk). cbn [bind]. rewrite wr_ok by lia. cbn [bind wp].
    fold (ext d0 k). fold (ext d1 k).
    split; [now rewrite zlen_upd|]. split; [|split; [|split]].
    + rewrite zsum_snoc by lia. rewrite at_upd by lia. rewrite Z.eqb_refl. f_equal. rewrite G1. apply zsum_ext. intros v Hv. rewrite at_upd by lia. destruct (Z.eqb_spec k v); [lia | reflexivity].
    + intros v Hv. rewrite at_upd by lia. destruct (Z.eqb_spec k v); [now subst | apply G2; lia].
    + intros Hm v Hv. apply Z.lor_eq_0_iff in Hm. destruct Hm as [M1 M2]. destruct (Z.eq_dec v k) as [->|]; [exact M2 | apply G3; [exact M1 | lia]].
    + now rewrite zsum_snoc by lia.
  - exact (fun s h => h).
  - intros [[[vx msk] l0] g0] (L1 & G1 & G2 & G3 & ->). destruct (Z.eqb_spec msk 0) as [Hm|Hm].
    { cbn [wp]. split; [exact E|]. split; [exact R|]. split; [exact Vg|]. split; [|auto]. apply Prob; auto; [|now rewrite X]. intros v Hv. rewrite (G3 Hm v Hv). unfold veex. now rewrite X. }
    cbn [wp]. cbn [bs]. split; [exact E|].
    destruct R as [R1 R2 R3 R4 R5]. split.
    { constructor; cbn [bs bpart bfron bveex]; auto. intros t [= <-]. rewrite E. cbn [strip vertnbr]. lia. }
    split.
    2: { split; [|auto]. apply Prob; cbn [bs bpart bdist bwg0 bwg1 bcmle0]; auto. intros v Hv. unfold veex. cbn [bveex bs]. rewrite E. cbn [strip baseval]. now apply G2. }
    destruct Vg as [P01 A1 A2 A3 A4 A5 A6 A7].
    assert (Vs : graph_valid (bs g)) by (rewrite E; now apply strip_valid).
    assert (P0' : forall v, isvert (bs g) v -> bp g v = 0) by (rewrite E; exact P0).
    apply all0_valid; cbn [bs bavg bwg0 bwg1 bfx0 bfx1 bld0 bdlt bcmge bcml bcmle0 bsz0 bfronnbr bpart bveex]; try reflexivity; try assumption; try lia.
    + destruct A7 as (F0 & F1 & _). destruct (Z.eq_dec (bfronnbr g) 0) as [|F]; [assumption|]. exfalso.
      destruct (F1 0 ltac:(lia)) as [I (e & Ar & Hne)]. apply Hne. rewrite (P0' _ I). apply P0'. exact (gv_end _ Vs _ _ Ar).
    + rewrite A3. unfold bsize. rewrite zcount_all; [|pose proof (gv_nnd _ Vs); pose proof (gv_size _ Vs); lia|intros v Hv; rewrite P0' by exact Hv; reflexivity]. pose proof (gv_nnd _ Vs). lia.
    + rewrite A4, (gv_velosum _ Vs). apply zsum_ext. intros v Hv. rewrite P0' by exact Hv. reflexivity.
    + rewrite G1, E. reflexivity.
Qed.

(** ** Induced subgraphs *)
(** ** The recursion *)
Lemma step_seq org (J0 J1 J : Z -> Prop) d0 d1 d m m1 m2 :
  (forall v, J v -> J0 v \/ J1 v) -> (forall v, J0 v -> isvert org v /\ J v /\ ~ J1 v) -> (forall v, J1 v -> J v) ->
  (forall t, mem d t <-> mem d0 t \/ mem d1 t) -> (forall t, mem d0 t -> mem d1 t -> False) -> 0 <= m_nbr m ->
  step org J0 d0 m m1 -> step org J1 d1 m1 m2 -> step org J d m m2.
Proof.
  intros U U0 U1 HU HD Hm [S1 S2 S3 S4 S5 S6 S7 S8] [T1 T2 T3 T4 T5 T6 T7 T8]. constructor.
  - lia.
  - lia.
  - exact T3.
  - intros i Hi. rewrite T4 by lia. apply S4. lia.
  - intros i Hi. destruct (Z.lt_ge_cases i (m_nbr m1)) as [Hl|Hl].
    + rewrite T4 by lia. destruct (S5 i ltac:(lia)) as (W & t & Ht & E). split; [exact W|]. exists t. split; [|exact E]. apply HU. now left.
    + destruct (T5 i ltac:(lia)) as (W & t & Ht & E). split; [exact W|]. exists t. split; [|exact E]. apply HU. now right.
  - assert (X : forall i j t, m_nbr m <= i < m_nbr m1 -> m_nbr m1 <= j < m_nbr m2 -> mem (mdom m2 i) t -> mem (mdom m2 j) t -> False).
    { intros i j t Hi Hj Mi Mj. rewrite T4 in Mi by lia. destruct (S5 i Hi) as (_ & t0 & Ht0 & E0). destruct (T5 j Hj) as (_ & t1 & Ht1 & E1).
      apply E0 in Mi. apply E1 in Mj. subst. apply (HD t1); auto. }
    intros i j t Hi Hj Mi Mj. destruct (Z.lt_ge_cases i (m_nbr m1)) as [Hli|Hli]; destruct (Z.lt_ge_cases j (m_nbr m1)) as [Hlj|Hlj].
    + rewrite T4 in Mi, Mj by lia. apply (S6 i j t); auto; lia.
    + exfalso. apply (X i j t); auto; lia.
    + exfalso. apply (X j i t); auto; lia.
    + apply (T6 i j t); auto; lia.
  - intros v Hv. destruct (U v Hv) as [H0|H1].
    + destruct (U0 v H0) as (Iv & _ & N1). rewrite T8 by assumption. pose proof (S7 v H0). lia.
    + pose proof (T7 v H1). lia.
  - intros v Iv Hn. rewrite T8 by (auto; intros H1; apply Hn; auto). apply S8; auto. intros H0. apply Hn. now apply U0.
Qed.

Lemma step_sub org (J J' : Z -> Prop) d0 d m m' : (forall v, J v <-> J' v) -> (forall t, mem d0 t -> mem d t) -> step org J d0 m m' -> step org J' d m m'.
Proof.
  intros EJ Hd [S1 S2 S3 S4 S5 S6 S7 S8]. constructor; auto.
  - intros i Hi. destruct (S5 i Hi) as (W & t & Ht & E). split; [exact W|]. exists t. auto.
  - intros v Hv. apply S7. now apply EJ.
  - intros v Iv Hn. apply S8; auto. now rewrite EJ.
Qed.

Definition jobsize (s : graph) (sp : option (list Z)) (ip : Z) : Z :=
  match sp with Some p => zlen (part_list s p ip) | None => vertnbr s end.

Lemma okslots_firstn tab n : okslots tab -> okslots (firstn n tab).
Proof.
  intros O i Hi. assert (L : zlen (firstn n tab) <= zlen tab /\ zlen (firstn n tab) <= Z.of_nat n) by (unfold zlen; rewrite firstn_length; lia).
  rewrite <- (Nat2Z.id n), at_firstn by lia. apply O. lia.
Qed.
Lemma okslots_skipn tab n : okslots tab -> okslots (skipn n tab).
Proof.
  intros O i Hi. assert (L : zlen (skipn n tab) + Z.of_nat n <= zlen tab) by (unfold zlen in *; rewrite skipn_length in *; lia).
  rewrite <- (Nat2Z.id n), at_skipn by lia. apply O. lia.
Qed.

Lemma rbPart2_spec dt : dt_ok N wf dt -> forall fuel s sp ip n d vf m k,
  subg (rb_org dt) s -> (forall p, sp = Some p -> vertnbr s <= zlen p) -> (sp = None -> vnumtab s = None -> m_nbr m = 0) ->
  n = jobsize s sp ip -> wf d -> card (mem d) k -> k <= Z.of_nat fuel -> okslots vf ->
  vertnbr (rb_org dt) <= zlen (m_part m) -> 0 <= m_nbr m <= zlen (m_domn m) ->
  bip_on avg (subproblem wf A dt) bip -> unfixed dt s -> (rb_pfix dt = None -> vf = []) ->
  wp (rbPart2 jkd jk al avg lim A bip fuel dt s sp ip n d vf m) (fun '(rc, m') => rc = 0 /\ step (rb_org dt) (job s sp ip) d m m') noerr.
Proof.
  intros O. set (org := rb_org dt). pose proof (do_valid _ _ _ O) as Vo. fold org in Vo.
  induction fuel as [|f IH]; intros s sp ip n d vf m k S Lp H0 En Wd Cd Hk Ov Lm Cm BO U NF.
  { destruct (ao_size _ _ _ _ AO d Wd) as (k' & _ & K1 & K2). pose proof (card_unique _ _ _ Cd K2). lia. }
  destruct (ao_size _ _ _ _ AO d Wd) as (k' & _ & K1 & K2). pose proof (card_unique _ _ _ Cd K2) as Ek. subst k'.
  destruct (ao_bip _ _ _ _ AO d k Wd Cd) as [B1 B2]. cbn [rbPart2]. rewrite (ao_var _ _ _ _ AO). cbn [andb].
  destruct (Z.eq_dec k 1) as [->|Hk1].
  { rewrite (B1 eq_refl). apply wp_bind. eapply wp_mono; [apply rbPart3_spec; eauto|]. intros m' St. cbn [wp]. auto. }
  destruct (B2 ltac:(lia)) as (d0 & d1 & Ebip & W0 & W1 & HU & HD). rewrite Ebip.
  destruct (ao_size _ _ _ _ AO d0 W0) as (k0 & _ & K01 & C0). destruct (ao_size _ _ _ _ AO d1 W1) as (k1 & _ & K11 & C1).
  pose proof (card_split _ _ _ _ _ _ HU HD Cd C0 C1) as Ks.
  apply wp_bind.
  match goal with |- wp ?X _ _ => assert (HI : wp X (fun ind => subg org ind /\ vertnbr ind = n /\ (forall w, job ind None 0 w <-> job s sp ip w) /\ unfixed dt ind) noerr) end.
  { destruct sp as [p|]; [|cbn [wp]; split; [exact S|]; split; [now rewrite En | tauto]]. specialize (Lp p eq_refl). cbn [jobsize] in En.
    destruct (Z.ltb_spec n (vertnbr s)) as [Hlt|Hge]; [subst n|].
    { eapply wp_mono; [apply (induce_subg jk al org); auto|]. intros h (H1 & H2 & H3 & H4). split; [assumption|]; split; [assumption|]; split; [assumption|]. intros pf Ep. split; [exact H4|]. intros v Hv.
      assert (Jv : job s (Some p) ip (orig h v)) by (apply H3; exists v; split; [exact Hv|]; split; [exact Logic.I | reflexivity]). destruct Jv as (u & Hu & _ & <-). now apply (U pf Ep). }
    cbn [wp].
    pose proof (sg_valid _ _ S) as Vs. pose proof (gv_size _ Vs) as Zs. pose proof (gv_nnd _ Vs) as Ns.
    assert (All : forall v, isvert s v -> at_ (baseval s) p v = ip).
    { intros v Hv. destruct (Z.eq_dec (at_ (baseval s) p v) ip) as [E|NE]; [exact E|]. exfalso.
      assert (Z1 : forall (l : list Z) g y, In y l -> g y = false -> zlen (filter g l) < zlen l).
      { clear. intros l g y. induction l as [|a l IHl]; [intros []|]. intros [->|Hy] Hg; cbn [filter].
        - rewrite Hg. assert (zlen (filter g l) <= zlen l) by (clear; induction l as [|a l IHl]; cbn [filter]; [lia|]; destruct (g a); rewrite ?zlen_cons; lia). rewrite zlen_cons. lia.
        - specialize (IHl Hy Hg). destruct (g a); rewrite ?zlen_cons; lia. }
      assert (Hx : In v (zseq (baseval s) (vertnbr s))) by (apply In_zseq; unfold isvert in Hv; lia).
      pose proof (Z1 _ (fun v => at_ (baseval s) p v =? ip) v Hx ltac:(lia)) as Zl. rewrite zlen_zseq in Zl by lia. unfold part_list in En. lia. }
    split; [exact S|]. split. 
    - assert (zlen (part_list s p ip) <= vertnbr s); [|lia]. unfold part_list.
      assert (Z2 : forall (l : list Z) g, zlen (filter g l) <= zlen l) by (clear; intros l g; induction l as [|a l IHl]; cbn [filter]; [lia|]; destruct (g a); rewrite ?zlen_cons; lia).
      eapply Z.le_trans; [apply Z2|]. rewrite zlen_zseq; lia.
    - split; [|exact U]. intros w. split; intros (v & Hv & _ & E); exists v; repeat split; auto; try apply Hv. now apply All. }
  eapply wp_mono; [exact HI|]. clear HI. intros ind (Si & Ni & EJ & Ui). unfold vfloSplit. rewrite (ao_var _ _ _ _ AO).
  destruct (wp_ok_inv _ _ (splitFix_spec d0 d1 vf W0 W1 Ov)) as ([[[[vf' n0] n1] w0] w1] & Esp & Lv & Ov' & N0 & N1 & N01). rewrite Esp. cbn [bind].
  assert (NZ : rb_pfix dt = None -> vf' = [] /\ w0 = 0 /\ w1 = 0).
  { intros Ep. rewrite (NF Ep) in Esp. unfold splitFix in Esp. cbn [length loop] in Esp. change (0 <? zlen (@nil (Z * Z)) - 1) with false in Esp. cbn [bind] in Esp. injection Esp as <- _ _ <- <-. auto. }
  assert (NF0 : rb_pfix dt = None -> firstn (Z.to_nat n0) vf' = []) by (intros Ep; destruct (NZ Ep) as (-> & _); now rewrite firstn_nil).
  assert (NF1 : rb_pfix dt = None -> firstn (Z.to_nat n1) (skipn (Z.to_nat n0) vf') = []) by (intros Ep; destruct (NZ Ep) as (-> & _); now rewrite skipn_nil, firstn_nil).
  destruct (wp_ok_inv _ _ (rbBgraph_spec dt ind d d0 d1 w0 w1 O Si Ui Wd Ebip W0 W1)) as (g & -> & Eg & Rg & Vg & Pg & Fx0 & Fx1).
  destruct (lim g d) as [mn mx] eqn:Elim.
  match goal with |- context [bip ?G] => set (G0 := G) end.
  pose proof (sg_valid _ _ Si) as Vi. pose proof (gv_size _ Vi) as Zi. pose proof (gv_nnd _ Vi) as Nni.
  assert (VG : graph_valid (bs G0)) by (cbn [bs G0]; rewrite Eg; now apply strip_valid).
  assert (SP : subproblem wf A dt G0) by (split; [exact Pg | intros Ep; cbn [bfx0 bfx1 G0]; rewrite Fx0, Fx1; destruct (NZ Ep) as (_ & X1 & X2); split; assumption]).
  destruct (BO G0 SP VG) as (h & -> & Eh & Lh & P01 & Sz).
  { destruct Rg as [R1 R2 R3 R4 R5]. constructor; assumption. }
  { destruct Vg as [V1 V2 V3 V4 V5 V6 V7 V8]. constructor; assumption. }
  cbn [bind]. change (0 =? 0) with true. cbn [negb].
  assert (EbG : bs G0 = strip ind) by (cbn [bs G0]; exact Eg).
  assert (Eb : bs h = strip ind) by (rewrite Eh; exact EbG). rewrite Eb. cbn [vertnbr strip]. cbv zeta.
  assert (PV : forall v, isvert ind v -> at_ (baseval ind) (bpart h) v = 0 \/ at_ (baseval ind) (bpart h) v = 1).
  { intros v Hv. specialize (P01 v). rewrite EbG in P01. specialize (P01 Hv). unfold bp in P01. rewrite Eb in P01. exact P01. }
  assert (LB : vertnbr ind <= zlen (bpart h)) by (rewrite EbG in Lh; exact Lh).
  assert (Z0 : bsz0 h = zlen (part_list ind (bpart h) 0)).
  { rewrite Sz. unfold bsize. rewrite Eb. cbn [strip baseval vertnnd]. rewrite zcount_filter by lia. unfold part_list.
    replace (vertnnd ind - baseval ind) with (vertnbr ind) by lia. f_equal. apply filter_ext. intros v. unfold bp. rewrite Eb. reflexivity. }
  assert (Z1 : vertnbr ind - bsz0 h = zlen (part_list ind (bpart h) 1)).
  { rewrite Z0. assert (X : forall l : list Z, (forall v, In v l -> at_ (baseval ind) (bpart h) v = 0 \/ at_ (baseval ind) (bpart h) v = 1) ->
      zlen (filter (fun v => at_ (baseval ind) (bpart h) v =? 0) l) + zlen (filter (fun v => at_ (baseval ind) (bpart h) v =? 1) l) = zlen l).
    { clear. induction l as [|a l IHl]; intros Hl; [reflexivity|]. cbn [filter]. specialize (IHl (fun v Hv => Hl v (or_intror Hv))).
      pose proof (Hl a (or_introl eq_refl)) as Ha. destruct (Z.eqb_spec (at_ (baseval ind) (bpart h) a) 0), (Z.eqb_spec (at_ (baseval ind) (bpart h) a) 1); rewrite ?zlen_cons; lia. }
    specialize (X (zseq (baseval ind) (vertnbr ind))). rewrite zlen_zseq in X by lia. unfold part_list. rewrite <- X at 1; [lia|].
    intros v Hv. apply In_zseq in Hv. apply PV. unfold isvert. lia. }
  assert (O0 : okslots (firstn (Z.to_nat n0) vf')) by now apply okslots_firstn.
  assert (O1 : okslots (firstn (Z.to_nat n1) (skipn (Z.to_nat n0) vf'))) by now apply okslots_firstn, okslots_skipn.
  destruct ((bsz0 h =? 0) || (bsz0 h =? vertnbr ind)) eqn:Et.
  - destruct (bsz0 h =? 0).
    + eapply wp_mono; [eapply (IH s sp ip n d1 _ m k1); eauto; lia|]. intros [rc m'] [Hr St]. split; [exact Hr|].
      eapply step_sub; [reflexivity| |exact St]. intros t Ht. apply HU. now right.
    + eapply wp_mono; [eapply (IH s sp ip n d0 _ m k0); eauto; lia|]. intros [rc m'] [Hr St]. split; [exact Hr|].
      eapply step_sub; [reflexivity| |exact St]. intros t Ht. apply HU. now left.
  - apply wp_bind. eapply wp_mono; [eapply (IH ind (Some (bpart h)) 0 (bsz0 h) d0 _ m k0); eauto; try lia|].
    { intros p [= <-]. exact LB. }
    { intros; discriminate. }
    intros [rc m1] [-> St0]. change (0 =? 0) with true. cbn [negb].
    eapply wp_mono; [eapply (IH ind (Some (bpart h)) 1 (vertnbr ind - bsz0 h) d1 _ m1 k1); eauto; try lia|].
    { intros p [= <-]. exact LB. }
    { intros; discriminate. }
    { destruct St0. lia. }
    { destruct St0. lia. }
    intros [rc m2] [-> St1]. split; [reflexivity|].
    eapply (step_seq org _ _ _ d0 d1 d m m1 m2); [| | |exact HU|exact HD|lia|exact St0|exact St1].
    + intros w Hw. apply EJ in Hw. destruct Hw as (v & Hv & _ & E). destruct (PV v Hv); [left|right]; exists v; auto.
    + intros w (v & Hv & Hs & E). split; [subst w; now apply (sg_in _ _ Si)|]. split; [apply EJ; exists v; split; [exact Hv|]; split; [exact Logic.I | exact E]|].
      intros (v' & Hv' & Hs' & E'). cbn [sel] in Hs, Hs'. assert (v = v') by (apply (sg_inj _ _ Si); auto; congruence). subst v'. lia.
    + intros w (v & Hv & Hs & E). apply EJ. exists v. split; [exact Hv|]. split; [exact Logic.I | exact E].
Qed.
End Gen.
