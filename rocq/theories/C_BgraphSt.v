(** Properties C56, C57 and C58: bipartitioning strategies. *)
From Verif Require Import Base Mem M_Graph M_Vgraph M_Bgraph M_Coarsen M_VgraphSt M_BgraphSt M_KgraphMap S_Graph S_Bgraph S_Match S_Coarsen S_VgraphSt S_BgraphSt S_KgraphMap.
From Verif Require Import M_Arch S_Arch P_Bgraph P_Bgraph2 P_BgraphSt P_BgraphMl P_BgraphMl2 P_BgraphGp P_KgraphMap4 C_Graph C_Vgraph C_Bgraph C_KgraphMap.
Local Notation ex_avg := C_Bgraph.ex_avg.

(** Without vertices fixed in part 0, consistent bipartitions are those that the checking routine accepts *)
Lemma unfix0 g : unfix 0 g = g.
Proof. unfold unfix. rewrite !Z.sub_0_r. now destruct g. Qed.
Lemma bstate_checked avg g : bstate avg g -> bfx0 g = 0 -> bg_valid avg g /\ bgraphCheck avg g = Ok tt.
Proof.
  intros [V B R G (x & Hx & C)] F. assert (x = 0) as -> by (rewrite F in Hx; tauto). rewrite unfix0 in C. split; [exact C|]. now apply C31_bgraphCheck.
Qed.
Lemma checked_bstate avg g : graph_valid (bs g) -> 0 <= baseval (bs g) -> bg_readable g -> bcmge0 g = zsum (baseval (bs g)) (vertnnd (bs g)) (veex g) -> bgraphCheck avg g = Ok tt -> bstate avg g.
Proof. intros V B R G C. constructor; auto. exists 0. split; [now left|]. rewrite unfix0. now apply C31_bgraphCheck. Qed.

(** C56: whatever the strategy, from a consistent bipartition, there is no memory error, and a null return value comes with a consistent
    bipartition of the same problem, which the checking routine accepts if no vertex is fixed in part 0.  The value is null if no method can fail. *)
Theorem C56_strategy :
  forall avg T gs ab s tot safe g, 0 < gs -> bsgood avg T tot safe s -> bstate avg g -> T (bavg g) ->
    exists rc h, bgraphBipartSt gs ab s g = Ok (rc, h) /\ (rc = 0 \/ rc = 1) /\ (tot = true -> rc = 0) /\ bsame g h /\
      (rc = 0 -> bstate avg h /\ (bfx0 g = 0 -> bgraphCheck avg h = Ok tt)).
Proof.
  intros avg T gs ab s tot safe g Hg Hs Sg Ha. destruct (bSt_good avg gs ab T Hg s tot safe Hs g Sg Ha) as (rc & h & E & Sm & Rc & Hz & Ht). exists rc, h.
  split; [exact E|]. split; [exact Rc|]. split; [exact Ht|]. split; [exact Sm|]. intros Z0. pose proof (Hz (or_introl Z0)) as Sh. split; [exact Sh|].
  intros F. apply bstate_checked; [exact Sh|]. destruct (bm_wght _ _ Sm) as (_ & _ & -> & _). exact F.
Qed.
Print Assumptions C56_strategy.

(** C56: selection.  Both strategies start from the same bipartition; if both succeed, the result is what one of them gives, and
    none gives better, when abs is exact on Gnum's. *)
Theorem C56_select :
  forall avg T gs s1 s2 g, 0 < gs -> bsgood avg T true true s1 -> bsgood avg T true true s2 -> bstate avg g -> T (bavg g) ->
    exists h g1 c1 c2, bgraphBipartSt gs abs_int32 (BSelect s1 s2) g = Ok (0, h) /\ bstate avg h /\ bsame g h /\ bequiv g g1 /\
      bgraphBipartSt gs abs_int32 s1 g = Ok (0, c1) /\ bgraphBipartSt gs abs_int32 s2 g1 = Ok (0, c2) /\ (bequiv c1 h \/ bequiv c2 h) /\
      ~ bbetter c1 h /\ ~ bbetter c2 h.
Proof.
  intros avg T gs s1 s2 g Hg H1 H2 Sg Ha.
  destruct (bSt_select avg gs abs_int32 T true s1 s2 g Hg (bSt_good avg gs _ T Hg s1 true true H1) (bSt_good avg gs _ T Hg s2 true true H2) Sg Ha) as (o1 & o2 & c1 & g1 & c2 & h & E1 & Q & E2 & E & _ & _ & Ht & S1 & S2 & M1 & M2 & Sh & Mh & B).
  destruct (Ht eq_refl) as (-> & ->). exists h, g1, c1, c2. split; [exact E|]. split; [exact Sh|]. split; [exact Mh|]. split; [exact Q|]. split; [exact E1|]. split; [exact E2|].
  change ((0 =? 0) || (0 =? 0)) with true in B. cbn [andb] in B. unfold stKeep, abs_int32 in B. cbv zeta in B.
  destruct (bm_load _ _ M1) as (L1 & L2 & L3). destruct (bm_load _ _ M2) as (K1 & K2 & K3). destruct (bm_load _ _ Mh) as (J1 & J2 & J3).
  unfold bbetter, balanced. rewrite J1, J2, J3, L1, L2, L3, K1, K2, K3 in *.
  assert (O : forall x, ((bavg g + x <? bmin g) || (bmax g <? bavg g + x)) = true /\ ~ (bmin g <= bavg g + x <= bmax g) \/ ((bavg g + x <? bmin g) || (bmax g <? bavg g + x)) = false /\ bmin g <= bavg g + x <= bmax g).
  { intros x. destruct (Z.ltb_spec (bavg g + x) (bmin g)), (Z.ltb_spec (bmax g) (bavg g + x)); cbn [orb]; [left | left | left | right]; (split; [reflexivity | lia]). }
  destruct (O (bdlt c1)) as [(F1 & P1)|(F1 & P1)], (O (bdlt c2)) as [(F2 & P2)|(F2 & P2)]; rewrite F1, F2 in B; cbn [Z.ltb Z.compare Z.eqb Pos.eqb Pos.compare Pos.compare_cont negb] in B.
  1, 4: match type of B with if negb ?k then _ else _ => destruct k eqn:Ek end; cbn [negb] in B; (split; [tauto|]); destruct (bq_load _ _ B) as (_ & -> & _); destruct (bq_comm _ _ B) as (-> & _); lia.
  all: (split; [tauto|]); destruct (bq_load _ _ B) as (_ & -> & _); destruct (bq_comm _ _ B) as (-> & _); lia.
Qed.
Print Assumptions C56_select.

(** C56: method Z never fails, whatever the target load *)
Theorem C56_methods : forall avg, bgood avg (fun _ => True) true true bgraphBipartZr.
Proof. intros avg. apply bZr_good. Qed.
Print Assumptions C56_methods.

(** C57: projecting a bipartition to the finer graph.  Each vertex gets the part of its coarse vertex; the result is
    consistent, with the same load, imbalance and communication load. *)
Theorem C57_project :
  forall avg g ch mate fc mult, bg_readable g -> graph_valid (bs g) -> 0 <= baseval (bs g) -> bcmge0 g = zsum (baseval (bs g)) (vertnnd (bs g)) (veex g) ->
    bstate avg ch -> bfron g = bfron ch ->
    bavg ch = bavg g /\ bcmle0 ch = bcmle0 g /\ bdist ch = bdist g /\ bwg0 ch = bwg0 g /\ bwg1 ch = bwg1 g /\ bfx0 ch = bfx0 g /\ bfx1 ch = bfx1 g ->
    is_matching (bs g) mate -> is_coarse (bs g) (bs ch) mate fc mult ->
    (forall c, isvert (bs ch) c -> veex ch c = zsum (baseval (bs g)) (vertnnd (bs g)) (fun v => if at_ (baseval (bs g)) fc v =? c then veex g v else 0)) ->
    exists h, mlbUncoarsen g ch mult = Ok h /\ bsame g h /\ bstate avg h /\ (forall v, isvert (bs g) v -> bp h v = bp ch (at_ (baseval (bs g)) fc v)) /\
      bld0 h = bld0 ch /\ bdlt h = bdlt ch /\ bcml h = bcml ch /\ bcmge h = bcmge ch.
Proof. intros avg g ch mate fc mult R V B G S F Q M C X. now apply mlbUncoarsen_spec with (mate := mate) (fc := fc). Qed.
Print Assumptions C57_project.

(** C57: multilevel bipartitioning, with the sequential coarsening of graphs.  Any number of levels, any memory contents; [rl] is the
    rounding by which the bounds are relaxed. *)
Theorem C57_multilevel :
  forall avg T jk rl cmax cmin low asc tot g, 0 <= jk <= 255 -> (forall s, cmax s <= vertnbr s) ->
    (forall l, bgood avg T tot false (low l)) -> (forall l, bgood avg T tot false (asc l)) -> bstate avg g -> T (bavg g) ->
    exists rc h, bgraphBipartMl jk rl (mlCoarsen cmax cmin) low asc g = Ok (rc, h) /\ (rc = 0 \/ rc = 1) /\ (tot = true -> rc = 0) /\ bsame g h /\
      (rc = 0 -> bstate avg h /\ (bfx0 g = 0 -> bgraphCheck avg h = Ok tt)).
Proof.
  intros avg T jk rl cmax cmin low asc tot g Hj Hc L A Sg Ha. destruct (bMl_good avg T tot jk rl _ low asc Hj (mlCoarsen_ok cmax cmin Hc) L A g Sg Ha) as (rc & h & E & Sm & Rc & Hz & Ht).
  exists rc, h. split; [exact E|]. split; [exact Rc|]. split; [exact Ht|]. split; [exact Sm|]. intros Z0. pose proof (Hz (or_introl Z0)) as Sh. split; [exact Sh|].
  intros F. apply bstate_checked; [exact Sh|]. destruct (bm_wght _ _ Sm) as (_ & _ & -> & _). exact F.
Qed.
Print Assumptions C57_multilevel.

(** C58: graph growing, when the target load is not negative.  It never fails; part 0 does not weigh more than the target load, and would, with the
    load of some vertex of part 1 (or part 1 is empty). *)
Theorem C58_grow :
  forall avg jk passnbr g, bstate avg g -> 0 <= bavg g ->
    exists h, bgraphBipartGp jk passnbr g = Ok (0, h) /\ bsame g h /\ bg_valid avg h /\ bgraphCheck avg h = Ok tt /\
      bload h 0 <= bavg g /\ (bload h 1 = 0 \/ exists v, isvert (bs g) v /\ bp h v = 1 /\ bavg g < bload h 0 + velo (bs g) v).
Proof.
  intros avg jk pn g S Ha. destruct (bGp_spec avg jk pn g S Ha) as (h & E & Sm & Sh & Vh & D & X). exists h. split; [exact E|]. split; [exact Sm|]. split; [exact Vh|].
  assert (Rh : bg_readable h) by apply Sh. assert (Gh : graph_valid (bs h)) by apply Sh. split; [now apply C31_bgraphCheck|].
  pose proof (bv_dlt _ _ Vh) as X1. pose proof (bv_load _ _ Vh) as X2. destruct (bm_load _ _ Sm) as (_ & _ & X3). split; [lia|]. destruct X as [X|(v & Hv & Pv & X)]; [left | right; exists v; split; [exact Hv|]; split; [exact Pv | lia]].
  assert (Y : bload h 0 + bload h 1 = velosum (bs h)).
  { rewrite (gv_velosum _ Gh). unfold bload. rewrite <- zsum_add. apply zsum_ext. intros v Hv. destruct (bv_part _ _ Vh v Hv) as [-> | ->]; cbn [Z.eqb Pos.eqb]; lia. }
  rewrite (bm_graph _ _ Sm) in Y. lia.
Qed.
Print Assumptions C58_grow.

(** Strategies as bipartitioning methods for partitioning (C52 to C54) *)
Lemma fresh_state avg g : fresh g -> graph_valid (bs g) -> bg_readable g -> bg_valid avg g -> bstate avg g.
Proof.
  intros (B & G & P0) V R C. constructor; auto; [|exists 0; split; [now left | now rewrite unfix0]]. rewrite G, (bv_gain _ _ C). unfold bext.
  rewrite (zsum_ext _ _ (fun v => if bp g v =? 0 then veex g v else 0) (veex g)), (zsum_zero _ _ (fun v => if bp g v =? 1 then veex g v else 0)); [lia | |]; intros v Hv; now rewrite (P0 v Hv).
Qed.
Lemma strat_bip avg T gs ab s safe (Q : bgraph -> Prop) : 0 < gs -> bsgood avg T true safe s -> (forall g, Q g -> graph_valid (bs g) -> bg_valid avg g -> fresh g /\ T (bavg g)) -> bip_on avg Q (bgraphBipartSt gs ab s).
Proof.
  intros Hg Hs HQ g Qg V R C. destruct (HQ g Qg V C) as (F & Ha). destruct (bSt_good avg gs ab T Hg s true safe Hs g (fresh_state avg g F V R C) Ha) as (rc & h & E & Sm & _ & Hz & Ht).
  rewrite (Ht eq_refl) in *. exists h. split; [exact E|]. specialize (Hz (or_introl eq_refl)). destruct Hz as [_ _ Rh _ (x & _ & Ch)]. pose proof (bm_graph _ _ Sm) as Eg. split; [exact Eg|]. rewrite <- Eg.
  split; [exact (br_part _ Rh)|]. split; [exact (bv_part _ _ Ch) | exact (bv_size _ _ Ch)].
Qed.

(** C56: partitioning with a strategy whose methods never fail, whatever the target load *)
Theorem C56_partition :
  forall jkd jk al avg kavg lim gs ab s safe g n part, 1 <= al <= 2 -> 0 < gs -> bsgood avg (fun _ => True) true safe s ->
    graph_valid g -> graph_readable g -> 0 <= baseval g -> vnumtab g = None -> 1 <= n -> fixed_in n g part ->
    (exists v, isvert g v /\ 0 <= at_ (baseval g) part v /\ velo g v <> 0) ->
    exists part', graphPartFixed jkd jk al avg kavg lim (bgraphBipartSt gs ab s) g n part = Ok (0, part') /\ zlen part' = zlen part /\
      (forall v, isvert g v -> 0 <= at_ (baseval g) part' v < n) /\
      (forall v, isvert g v -> 0 <= at_ (baseval g) part v -> at_ (baseval g) part' v = at_ (baseval g) part v) /\
      (forall i, vertnbr g <= i < zlen part -> at_ 0 part' i = at_ 0 part i).
Proof.
  intros jkd jk al avg kavg lim gs ab s safe g n part Hal Hg Hs. apply C53_graphPartFixed; [exact Hal|]. apply (strat_bip avg (fun _ => True) gs ab s safe fresh Hg Hs). auto.
Qed.
Print Assumptions C56_partition.

(** C58: recursive bipartitioning, without fixed vertices, with a strategy whose methods never fail when the target load is not negative.  Rounding gives
    no negative target for non negative loads and weights. *)
Lemma problem_target D (DD : Dflt D) N wf mem (A : arch D) avg dt g : arch_ok N wf mem A -> (forall d w, wf d -> a_wght A d = Ok w -> 0 <= w) ->
  (forall l w t, 0 <= l -> 0 <= w <= t -> 0 <= avg l w t) -> rb_pfix dt = None -> subproblem wf A dt g -> graph_valid (bs g) -> bg_valid avg g -> fresh g /\ 0 <= bavg g.
Proof.
  intros AO HW HA Hf ((act & d & d0 & d1 & Wd & Eb & S & _ & Eba & En & _ & _ & W0 & W1 & P0 & _ & Gg) & NF) V C.
  assert (Wb : wf d0 /\ wf d1).
  { destruct (ao_size _ _ _ _ AO d Wd) as (k & _ & Hk & Ck). destruct (ao_bip _ _ _ _ AO d k Wd Ck) as (X1 & X2). destruct (Z.eq_dec k 1) as [E|E]; [rewrite (X1 E) in Eb; discriminate|].
    destruct (X2 ltac:(lia)) as (e0 & e1 & Ee & We0 & We1 & _). rewrite Ee in Eb. injection Eb as <- <-. auto. }
  split.
  - split; [rewrite Eba; apply (sg_base0 _ _ S)|]. split; [exact Gg|]. intros v Hv. apply P0. unfold isvert in *. pose proof (gv_nnd _ V). pose proof (gv_nnd _ (sg_valid _ _ S)). lia.
  - rewrite (bv_avg _ _ C). unfold bgraphAvg. destruct (NF Hf) as (-> & ->). pose proof (HW d0 _ (proj1 Wb) W0). pose proof (HW d1 _ (proj2 Wb) W1).
    assert (0 <= velosum (bs g)) by (rewrite (gv_velosum _ V); apply zsum_nonneg; intros v Hv; now apply (gv_velo _ V)).
    pose proof (HA (velosum (bs g) + 0 + 0) (bwg0 g) (bwg0 g + bwg1 g) ltac:(lia) ltac:(lia)). lia.
Qed.
Theorem C58_mapping :
  forall D (DD : Dflt D) N wf mem (A : arch D) jkd jk al avg kavg lim gs ab s safe fuel k,
    arch_ok N wf mem A -> (forall d w, wf d -> a_wght A d = Ok w -> 0 <= w) -> (forall l w t, 0 <= l -> 0 <= w <= t -> 0 <= avg l w t) ->
    1 <= al <= 2 -> 0 < gs -> bsgood avg (fun a => 0 <= a) true safe s ->
    dt_ok N wf (kdt k) -> 0 <= baseval (rb_org (kdt k)) -> vnumtab (rb_org (kdt k)) = None -> N <= Z.of_nat fuel ->
    vertnbr (rb_org (kdt k)) <= zlen (m_part (kmap k)) -> vertnbr (rb_org (kdt k)) <= zlen (kfron k) -> rb_pfix (kdt k) = None ->
    exists k', kgraphMapRb jkd jk al avg kavg lim A (bgraphBipartSt gs ab s) fuel k = Ok (0, k') /\ kdt k' = kdt k /\
      map_ok N wf mem (rb_org (kdt k)) (kmap k') /\ k_ok A k'.
Proof.
  intros D DD N wf mem A jkd jk al avg kavg lim gs ab s safe fuel k AO HW HA Hal Hg Hs DO B0 VN HF Lm Lf NP.
  destruct (C54_kgraphMapRb D DD N wf mem A jkd jk al avg kavg lim (bgraphBipartSt gs ab s) fuel k AO Hal) as (k' & E & K1 & K2 & K3 & _); auto.
  - apply (strat_bip avg (fun a => 0 <= a) gs ab s safe _ Hg Hs). intros g Pg V C. now apply (problem_target D DD N wf mem A avg (kdt k)).
  - intros pf Hp. congruence.
  - exists k'. auto.
Qed.
Print Assumptions C58_mapping.

Lemma cmplt_wght n d w : cwf n d -> a_wght (cmplt n) d = Ok w -> 0 <= w.
Proof. intros W [= <-]. unfold cwf in W. lia. Qed.
Theorem C58_partition :
  forall jkd jk al avg kavg lim gs ab s safe g n part, 1 <= al <= 2 -> 0 < gs -> (forall l w t, 0 <= l -> 0 <= w <= t -> 0 <= avg l w t) ->
    bsgood avg (fun a => 0 <= a) true safe s ->
    graph_valid g -> graph_readable g -> 0 <= baseval g -> vnumtab g = None -> 1 <= n -> vertnbr g <= zlen part ->
    exists part', graphPart jkd jk al avg kavg lim (bgraphBipartSt gs ab s) g n part = Ok (0, part') /\ zlen part' = zlen part /\
      (forall v, isvert g v -> 0 <= at_ (baseval g) part' v < n) /\
      (forall i, vertnbr g <= i < zlen part -> at_ 0 part' i = at_ 0 part i).
Proof.
  intros jkd jk al avg kavg lim gs ab s safe g n part Hal Hg HA Hs V R B0 VN Hn L. pose proof (cmplt_ok n Hn) as AO.
  destruct (wp_ok_inv _ _ (compute_spec n (cwf n) cmem (cmplt n) AO jkd jk al Hal avg kavg lim (bgraphBipartSt gs ab s) (S (Z.to_nat n)) g part None None 1 1 0
    (fun dt Ed Ef => strat_bip avg (fun a => 0 <= a) gs ab s safe _ Hg Hs (fun h Ph Vh Ch => problem_target cdom _ n (cwf n) cmem (cmplt n) avg dt h AO (cmplt_wght n) HA (Ef eq_refl) Ph Vh Ch))
    V R B0 VN ltac:(lia) L (or_introl eq_refl) ltac:(discriminate) ltac:(discriminate))) as ([rc p'] & E & -> & Lp & P1 & _ & P2).
  exists p'. auto.
Qed.
Print Assumptions C58_partition.

(** ** Examples *)
Definition ex_gp : bmeth := bgraphBipartGp 9 2.
Definition exb_ml (cmin : Z) (low asc : bstrat) : bmeth :=
  bgraphBipartMl 9 (fun x => x / 20) (mlCoarsen (fun s => vertnbr s - 1) cmin) (fun _ => bgraphBipartSt 8 abs_int64 low) (fun _ => bgraphBipartSt 8 abs_int64 asc).
Notation nonneg := (fun a => 0 <= a).
Lemma bgood_tot avg T m : bgood avg T true false m -> bgood avg T true true m.
Proof. intros G g S Ha. destruct (G g S Ha) as (rc & h & E & Sm & R & Hz & Ht). exists rc, h. repeat (split; [assumption|]). split; auto. Qed.
Lemma exb_ml_good avg T cmin low asc : bsgood avg T true false low -> bsgood avg T true false asc -> bgood avg T true true (exb_ml cmin low asc).
Proof.
  intros L A. apply bgood_tot. apply bMl_good; [lia | apply mlCoarsen_ok; intros; lia | |]; intros _; now apply bSt_good.
Qed.
Lemma bip_state avg fr k mn mx dlt ld0 sz0 cml pt ge bal : let g := mkbgraph ex_p5 (Some [1; -1; 2; 0; 3]) pt fr k mn mx 7 dlt ld0 sz0 cml 5 5 ge bal 2 1 1 0 0 in
  zlen pt = 5 -> zlen fr = 5 -> forallb (fun p => (0 <=? p) && (p <=? 255)) pt = true -> bgraphCheck avg g = Ok tt -> bstate avg g.
Proof.
  intros g Hp Hf Hy C. apply checked_bstate; [apply ex_p5_ok | cbn; lia | | vm_compute; reflexivity | exact C].
  constructor; [apply ex_p5_ok | cbn; lia | | cbn; lia | intros t [= <-]; vm_compute; discriminate].
  intros v Hv. rewrite forallb_forall in Hy. specialize (Hy (bp g v)). rewrite Bool.andb_true_iff, !Z.leb_le in Hy. apply Hy. apply at_In. unfold isvert in Hv. change (baseval (bs g)) with 1 in *. change (vertnnd (bs g)) with 6 in Hv. change (bpart g) with pt. lia.
Qed.
Lemma ex_bip_state : bstate ex_avg ex_bip.
Proof. apply bip_state; vm_compute; reflexivity. Qed.
(** A cycle of nine vertices, all of them in part 0 *)
Definition ex_cyc9 : graph := mkgraph 1 9 10 [1; 3; 5; 7; 9; 11; 13; 15; 17; 19] None None 9 None None 18 [2; 9; 1; 3; 2; 4; 3; 5; 4; 6; 5; 7; 6; 8; 7; 9; 8; 1] None 18 2.
Definition ex_b9 : bgraph := mkbgraph ex_cyc9 None (repeat 0 9) (repeat 7 9) 0 0 9 4 5 9 9 0 0 0 0 (5, 4) 1 1 1 0 0.
Lemma ex_b9_state : bstate ex_avg ex_b9.
Proof.
  destruct (C09_graphCheck_sound 100 ex_cyc9 ltac:(vm_compute; reflexivity)) as (V & R).
  apply checked_bstate; [exact V | cbn; lia | | vm_compute; reflexivity | vm_compute; reflexivity].
  constructor; [exact R | vm_compute; discriminate | | vm_compute; discriminate | discriminate].
  intros v Hv. unfold bp. change (bpart ex_b9) with (repeat 0 (Z.to_nat 9)). rewrite at_repeat; [lia|]. destruct Hv as [H1 H2]. vm_compute in H1, H2. split; vm_compute; [exact H1 | exact H2].
Qed.
Definition exb_pick : bstrat := BSelect (BMeth (exb_ml 5 (BMeth ex_gp) BEmpty)) (BConcat (BMeth bgraphBipartZr) (BMeth ex_gp)).
Lemma exb_pick_good avg : bsgood avg nonneg true true exb_pick.
Proof.
  split; [cbn [bsgood]; apply exb_ml_good; [apply bgood_weak, bGp_good | exact I]|]. split; [apply bZr_good | apply bGp_good].
Qed.
Example C56_example :
  bsgood ex_avg nonneg true true exb_pick /\ bstate ex_avg ex_b9 /\ bstate ex_avg ex_bip /\ 0 <= bavg ex_bip /\
  exists h, bgraphBipartSt 8 abs_int64 exb_pick ex_bip = Ok (0, h) /\ bpart h = [0; 0; 0; 1; 1] /\ bfronnbr h = 2 /\ bdlt h = -1 /\ bcml h = 10.
Proof.
  split; [apply exb_pick_good|]. split; [exact ex_b9_state|]. split; [exact ex_bip_state|]. split; [vm_compute; discriminate|]. eexists. split; [vm_compute; reflexivity|]. vm_compute. auto.
Qed.
(** Selection between a reset and what there is: balance first, then communication load *)
Example C56_select_example :
  (exists h, bgraphBipartSt 8 abs_int64 (BSelect BEmpty (BMeth bgraphBipartZr)) ex_bip = Ok (0, h) /\ bdlt h = 8 /\ bcml h = 5) /\
  (exists h, bgraphBipartSt 8 abs_int64 (BSelect BEmpty (BMeth bgraphBipartZr))
      (mkbgraph ex_p5 (Some [1; -1; 2; 0; 3]) [0; 0; 1; 1; 1] [2; 3; 9; 9; 9] 2 3 11 7 (-4) 3 2 12 5 5 (-5) (4, 7) 2 1 1 0 0) = Ok (0, h) /\ bdlt h = -4 /\ bcml h = 12) /\
  (exists h, bgraphBipartSt 8 abs_int64 (BSelect (BMeth bgraphBipartZr) BEmpty)
      (mkbgraph ex_p5 (Some [1; -1; 2; 0; 3]) [0; 0; 1; 1; 1] [2; 3; 9; 9; 9] 2 6 8 7 (-4) 3 2 12 5 5 (-5) (4, 7) 2 1 1 0 0) = Ok (0, h) /\ bdlt h = -4 /\ bcml h = 12).
Proof. repeat split; eexists; (split; [vm_compute; reflexivity|]); vm_compute; auto. Qed.
Example C57_example :
  bstate ex_avg ex_b9 /\ bgood ex_avg nonneg true true (exb_ml 5 (BMeth ex_gp) BEmpty) /\
  (exists cg fc, mlCoarsen (fun s => vertnbr s - 1) 5 ex_cyc9 = Ok (cg, fc, [(1, 2); (3, 4); (5, 6); (7, 8); (9, 9)])) /\
  exists h, exb_ml 5 (BMeth ex_gp) BEmpty ex_b9 = Ok (0, h) /\ bpart h = [0; 0; 0; 0; 1; 1; 1; 1; 1] /\ firstn 4 (bfron h) = [4; 5; 1; 9] /\ bfronnbr h = 4 /\ bcml h = 2.
Proof.
  split; [exact ex_b9_state|]. split; [apply exb_ml_good; [apply bgood_weak, bGp_good | exact I]|]. split; [do 2 eexists; vm_compute; reflexivity|].
  eexists. split; [vm_compute; reflexivity|]. vm_compute. auto.
Qed.
Lemma ex_avg_nonneg l w t : 0 <= l -> 0 <= w <= t -> 0 <= ex_avg l w t.
Proof. intros. unfold ex_avg. destruct (Z.eq_dec t 0) as [->|]; [destruct (l * w); vm_compute; discriminate|]. apply Z.quot_pos; nia. Qed.
Example C58_example :
  bstate ex_avg ex_bip /\ 0 <= bavg ex_bip /\
  (exists h, ex_gp ex_bip = Ok (0, h) /\ bpart h = [0; 0; 0; 1; 1] /\ bload h 0 = 6 /\ bavg h = 7) /\
  graphPart (mkc 9 9) 77 1 ex_avg ex_avg (fun _ _ => (0, 100)) (bgraphBipartSt 8 abs_int64 exb_pick) ex_path8 3 (repeat 55 9) = Ok (0, [0; 0; 1; 1; 1; 2; 2; 2; 55]).
Proof.
  split; [exact ex_bip_state|]. split; [vm_compute; discriminate|]. split; [eexists; split; [vm_compute; reflexivity|]; vm_compute; auto|]. vm_compute. reflexivity.
Qed.

(** ** Findings *)
(** Selection: if the first strategy fails and the second succeeds, out of bounds, the result is, with a null return value, the bipartition that the
    first left, which need not be consistent: here, multilevel bipartitioning failed on the coarse graph after it had overwritten the frontier
    array. *)
Definition ex_fail : bstrat := BMeth (exb_ml 3 (BConcat (BMeth ex_gp) (BCond (fun _ => None) BEmpty None)) BEmpty).
Definition ex_tight : bgraph := mkbgraph ex_p5 (Some [1; -1; 2; 0; 3]) [0; 0; 1; 1; 1] [2; 3; 9; 9; 9] 2 6 8 7 (-4) 3 2 12 5 5 (-5) (4, 7) 2 1 1 0 0.
Theorem C56_select_failed_refuted :
  exists s1 s2 g h c1 c2, bsgood ex_avg nonneg false false s1 /\ bsgood ex_avg nonneg true true s2 /\ bstate ex_avg g /\ 0 <= bavg g /\ bfx0 g = 0 /\
    bgraphBipartSt 8 abs_int64 s1 g = Ok (1, c1) /\ bgraphBipartSt 8 abs_int64 s2 g = Ok (0, c2) /\ bgraphCheck ex_avg c2 = Ok tt /\
    bgraphBipartSt 8 abs_int64 (BSelect s1 s2) g = Ok (0, h) /\ bgraphCheck ex_avg h = Err 1.
Proof.
  exists ex_fail, (BMeth bgraphBipartZr), ex_tight. do 3 eexists.
  split.
  { apply bMl_good; [lia | apply mlCoarsen_ok; intros; lia | |]; intros _; apply bSt_good; try lia; [|exact I].
    split; [|cbn; split; [discriminate | auto]]. intros g S Ha. destruct (bGp_good ex_avg 9 2 g S Ha) as (rc & h & E & Sm & R & Hz & Ht). exists rc, h. repeat (split; [assumption|]). split; [auto | discriminate]. }
  split; [apply bZr_good|]. split; [apply bip_state; vm_compute; reflexivity|]. split; [vm_compute; discriminate|]. split; [reflexivity|].
  repeat (split; [vm_compute; reflexivity|]). vm_compute. reflexivity.
Qed.
Print Assumptions C56_select_failed_refuted.

(** When Gnum is a 64-bit type, abs only keeps the low-order bits of the imbalance, and the worse bipartition may be kept. *)
Definition ex_wide : bgraph :=
  mkbgraph (mkgraph 0 2 2 [0; 0; 0] None (Some [2 ^ 32 + 1; 2 ^ 32 - 1]) (2 ^ 33) None None 0 [] None 0 0) None [0; 1] [0; 0] 0 (2 ^ 32) (2 ^ 32) (2 ^ 32) 1 (2 ^ 32 + 1) 1 0 0 0 0 (1, 2 ^ 32) 1 1 1 0 0.
Theorem C56_select_wide_refuted :
  exists g h, bstate ex_avg g /\ bgraphBipartSt 8 abs_int64 (BSelect BEmpty (BMeth bgraphBipartZr)) g = Ok (0, h) /\ bbetter g h.
Proof.
  exists ex_wide. eexists. split; [|split; [vm_compute; reflexivity | right; right; unfold balanced; vm_compute; split; [|split; [|left; reflexivity]]; intros [H1 H2]; first [now apply H1 | now apply H2]]].
  destruct (C09_graphCheck_sound (2 ^ 62) (bs ex_wide) ltac:(vm_compute; reflexivity)) as (V & R).
  apply checked_bstate; [exact V | vm_compute; discriminate | | vm_compute; reflexivity | vm_compute; reflexivity].
  constructor; [exact R | vm_compute; discriminate | | vm_compute; discriminate | discriminate].
  intros v Hv. unfold isvert in Hv. cbn in Hv. assert (C : v = 0 \/ v = 1) by lia. destruct C as [-> | ->]; vm_compute; split; discriminate.
Qed.
Print Assumptions C56_select_wide_refuted.

(** Graph growing with a negative target load, as large fixed loads can give: past the end of the graph, an array is read out of bounds *)
Definition ex_neg : bgraph := mkbgraph ex_p5 None [0; 0; 0; 0; 0] [9; 9; 9; 9; 9] 0 0 15 (-3) 18 15 5 0 0 0 0 (18, -3) 1 1 1 21 0.
Theorem C58_negative_refuted :
  exists g, bstate ex_avg g /\ bavg g < 0 /\ bgraphBipartGp 9 2 g = UB.
Proof.
  exists ex_neg. split; [|split; vm_compute; reflexivity].
  apply checked_bstate; [apply ex_p5_ok | cbn; lia | | vm_compute; reflexivity | vm_compute; reflexivity].
  constructor; [apply ex_p5_ok | cbn; lia | | cbn; lia | discriminate].
  intros v Hv. unfold bp. change (bpart ex_neg) with (repeat 0 (Z.to_nat 5)). rewrite at_repeat; [lia|]. destruct Hv as [H1 H2]. vm_compute in H1, H2. split; vm_compute; [exact H1 | exact H2].
Qed.
Print Assumptions C58_negative_refuted.
(** ... as partitioning with fixed vertices does *)
Definition ex_h8 : graph := mkgraph 1 8 9 [1; 2; 4; 6; 8; 10; 12; 14; 15] None (Some [100; 1; 1; 1; 1; 1; 1; 1]) 107 None None 14 [2; 1; 3; 2; 4; 3; 5; 4; 6; 5; 7; 6; 8; 7] None 14 2.
Theorem C58_fixed_refuted :
  exists g n part, graph_valid g /\ graph_readable g /\ fixed_in n g part /\ (exists v, isvert g v /\ 0 <= at_ (baseval g) part v /\ velo g v <> 0) /\
    graphPartFixed (mkc 9 9) 77 1 ex_avg ex_avg (fun _ _ => (0, 100)) (bgraphBipartSt 8 abs_int64 (BMeth ex_gp)) g n part = UB.
Proof.
  exists ex_h8, 4, [0; 1; 2; -1; -1; -1; -1; -1]. destruct (C09_graphCheck_sound 1000 ex_h8 ltac:(vm_compute; reflexivity)) as (V & R). split; [exact V|]. split; [exact R|].
  split. { split; [vm_compute; discriminate|]. intros v [H1 H2]. change (baseval ex_h8) with 1 in *. change (vertnnd ex_h8) with 9 in H2.
    assert (C : v = 1 \/ v = 2 \/ v = 3 \/ v = 4 \/ v = 5 \/ v = 6 \/ v = 7 \/ v = 8) by lia.
    repeat (destruct C as [->|C]; [vm_compute; intuition discriminate|]). subst v. vm_compute. intuition discriminate. }
  split; [exists 1; split; [split; vm_compute; congruence | vm_compute; split; congruence]|]. vm_compute. reflexivity.
Qed.
Print Assumptions C58_fixed_refuted.
