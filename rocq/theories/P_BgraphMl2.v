(** Proofs about multilevel bipartitioning: coarsening, and the method. *)
From Verif Require Import Base Mem M_Int M_Graph M_Match M_Coarsen M_Bgraph M_Vgraph M_VgraphSt M_BgraphSt S_Graph S_Bgraph S_BgraphSt S_Color S_Match S_Coarsen P_Graph P_Vgraph P_Bgraph P_Bgraph2 P_VgraphMl P_BgraphSt P_BgraphMl C_Coarsen.

Section Ml.
Variable avg : Z -> Z -> Z -> Z.

(** bipartition structures whose current bipartition is not set *)
Record bpre (g : bgraph) : Prop := {
  bp_valid : graph_valid (bs g);
  bp_base : 0 <= baseval (bs g);
  bp_read : bg_readable g;
  bp_gain0 : bcmge0 g = zsum (baseval (bs g)) (vertnnd (bs g)) (veex g);
  bp_avg : bavg g = bgraphAvg avg (bs g) (bwg0 g) (bwg1 g) (bfx0 g) (bfx1 g) }.
Lemma bstate_pre g : bstate avg g -> bpre g.
Proof. intros S. constructor; try apply S. now apply bstate_avg. Qed.

Lemma at_shift {A} `{Dflt A} b (l : list A) c : at_ b l c = at_ 0 l (c - b).
Proof. unfold at_. f_equal. lia. Qed.

Lemma mlbCoarsen_spec jk rl levl g cg mate fc mult : 0 <= jk <= 255 -> bpre g -> graph_valid cg -> graph_readable cg -> is_matching (bs g) mate -> is_coarse (bs g) cg mate fc mult -> vertnbr cg < vertnbr (bs g) ->
  exists cv, mlbCoarsen jk rl levl g cg mult = Ok cv /\ bpre cv /\ bs cv = cg /\ bfron cv = bfron g /\
    (bavg cv = bavg g /\ bcmle0 cv = bcmle0 g /\ bdist cv = bdist g /\ bwg0 cv = bwg0 g /\ bwg1 cv = bwg1 g /\ bfx0 cv = bfx0 g /\ bfx1 cv = bfx1 g) /\
    forall c, isvert cg c -> veex cv c = zsum (baseval (bs g)) (vertnnd (bs g)) (fun v => if at_ (baseval (bs g)) fc v =? c then veex g v else 0).
Proof.
  intros Hj [V B R G0 Av] VC RC IM IC Hlt. unfold mlbCoarsen. cbv zeta. pose proof (gv_nnd _ V) as N1. pose proof (gv_nnd _ VC) as N3. pose proof (gv_size _ VC) as N4. pose proof (ic_base _ _ _ _ _ IC) as EB.
  set (s := bs g) in *. set (b := baseval s) in *. pose proof (proj1 (ic_mult _ _ _ _ _ IC)) as Zm.
  match goal with |- exists cv, bind ?X _ = _ /\ _ => destruct (wp_ok_inv X (fun vx => (forall t, vx = Some t -> zlen t = vertnbr cg) /\
    forall c, isvert cg c -> match vx with Some t => at_ b t c | None => 0 end = zsum b (vertnnd s) (fun v => if at_ b fc v =? c then veex g v else 0))) as (vx & -> & Zv & Hv) end.
  { destruct (bveex g) as [t|] eqn:Et.
    - pose proof (br_veex _ R t Et) as Zt. fold s in Zt.
      assert (Ve : forall v, veex g v = at_ b t v) by (intros v; unfold veex; now rewrite Et).
      apply wp_bind. apply wp_for with (I := fun k ct => zlen ct = vertnbr cg /\ forall c, 0 <= c < k -> at_ 0 ct c = zsum b (vertnnd s) (fun v => if at_ b fc v =? b + c then veex g v else 0)).
      + lia.
      + split; [rewrite zlen_repeat; lia | intros; lia].
      + intros k ct Hk (I1 & I2). assert (Vk : isvert cg (b + k)) by (unfold isvert; lia).
        destruct (mult_at _ _ _ _ _ IM IC (b + k) Vk) as (v0 & v1 & Em & V0 & V1 & _). pose proof (grp_sum _ _ _ _ _ IM IC (veex g) (b + k) Vk) as Gs. fold s b in Em, Gs. rewrite Em in Gs. cbn [fst snd] in Gs.
        rewrite at_shift in Em. replace (b + k - b) with k in Em by lia. rewrite rd_ok by lia. cbn [bind]. rewrite Em. unfold isvert in V0, V1. fold s b in V0, V1.
        assert (Ex : (if negb (v0 =? v1) then do x0 <- rd b t v0; do x1 <- rd b t v1; Ok (x0 + x1) else rd b t v0) = Ok (zsum b (vertnnd s) (fun v => if at_ b fc v =? b + k then veex g v else 0))).
        { rewrite Gs, !Ve. destruct (v0 =? v1); cbn [negb]; rewrite !rd_ok by lia; cbn [bind]; f_equal; lia. }
        rewrite Ex. cbn [bind]. rewrite wr_ok by lia. cbn [wp]. rewrite zlen_upd. split; [exact I1|]. intros c Hc. rewrite at_upd by lia. destruct (Z.eqb_spec k c) as [<-|]; [reflexivity | apply I2; lia].
      + intros ct (I1 & I2). cbn [wp]. split; [intros t0 E; now injection E as <-|]. intros c Hc. unfold isvert in Hc. rewrite at_shift, I2 by lia. apply zsum_ext. intros v _. now replace (b + (c - b)) with c by lia.
    - cbn [wp]. split; [discriminate|]. intros c Hc. symmetry. apply zsum_zero. intros v _. unfold veex. rewrite Et. now destruct (_ =? _). }
  cbn [bind]. eexists. split; [reflexivity|]. match goal with |- bpre ?z /\ _ => set (cv := z) end.
  assert (VX : forall c, isvert cg c -> veex cv c = zsum b (vertnnd s) (fun v => if at_ b fc v =? c then veex g v else 0)).
  { intros c Hc. rewrite <- Hv by exact Hc. unfold veex, cv. cbn [bveex bs]. rewrite EB. reflexivity. }
  split; [|auto 12]. constructor; cbn [cv bs bcmge0 bavg bwg0 bwg1 bfx0 bfx1].
  - exact VC.
  - rewrite EB. exact B.
  - constructor; cbn [cv bs bpart bfron bveex].
    + exact RC.
    + rewrite zlen_repeat; lia.
    + intros v Hv'. unfold bp, cv. cbn [bpart bs]. unfold isvert in Hv'. rewrite at_repeat by lia. exact Hj.
    + pose proof (br_fron _ R). fold s in H. lia.
    + intros t Ht. rewrite (Zv t Ht). lia.
  - rewrite G0. fold s b. rewrite (by_group s cg mate fc mult IC). rewrite EB. fold b. apply zsum_ext. intros c Hc. symmetry. apply VX. unfold isvert. rewrite EB. exact Hc.
  - rewrite Av. unfold bgraphAvg. fold s. now rewrite (ic_velosum _ _ _ _ _ IC).
Qed.

Variables (T : Z -> Prop) (tot : bool) (jk : Z) (rl : Z -> Z) (coar : graph -> res (graph * list Z * list (Z * Z))) (low asc : Z -> bmeth).
Hypothesis Jk : 0 <= jk <= 255.
Hypothesis CO : coar_ok coar.
Hypothesis LO : forall l, bgood avg T tot false (low l).
Hypothesis AS : forall l, bgood avg T tot false (asc l).

Lemma bMl2_good : forall fuel levl g, bpre g -> T (bavg g) -> vertnbr (bs g) < Z.of_nat fuel ->
  exists rc h, bgraphBipartMl2 jk rl coar low asc fuel levl g = Ok (rc, h) /\ bsame g h /\ (rc = 0 \/ rc = 1) /\ (rc = 0 -> bstate avg h) /\ (tot = true -> rc = 0).
Proof.
  induction fuel as [|fuel IH]; intros levl g P Ht Hf; [pose proof (gv_size _ (bp_valid _ P)); lia|].
  cbn [bgraphBipartMl2]. pose proof P as [V B R G0 Av].
  destruct (CO (bs g) V (br_graph _ R) B) as [(e & ->)|(cg & fc & mult & mate & -> & VC & RC & IM & IC & Hlt)].
  - destruct (bZero_good avg g V B R G0 Av) as (h & -> & Sm & Sh & _). cbn [bind].
    destruct (LO levl h Sh) as (rc & h' & -> & Sm' & Rc & Hz & Htt); [destruct (bm_load _ _ Sm) as (_ & _ & ->); exact Ht|].
    exists rc, h'. split; [reflexivity|]. split; [exact (bsame_trans _ _ _ Sm Sm')|]. auto.
  - destruct (mlbCoarsen_spec jk rl levl g cg mate fc mult Jk P VC RC IM IC Hlt) as (cv & -> & Pc & Ec & Ef & Eq & VX). cbn [bind].
    destruct (IH (levl + 1) cv Pc) as (rc & ch & -> & Sm & Rc & Hz & Htt); [destruct Eq as (-> & _); exact Ht | rewrite Ec; lia|]. cbn [bind].
    set (g' := bsetfron g (bfron ch)).
    assert (Sg : bsame g g') by (constructor; auto; cbn [g' bsetfron bfron]; rewrite (bm_fron _ _ Sm), Ef; reflexivity).
    destruct (Z.eqb_spec rc 0) as [->|Hn]; cbn [negb].
    + specialize (Hz eq_refl). destruct Sm as [S1 S2 S3 S4 (S5 & S6 & S7) (S8 & S9 & S10) (S11 & S12 & S13 & S14)]. destruct Eq as (Q1 & Q2 & Q3 & Q4 & Q5 & Q6 & Q7).
      assert (IC' : is_coarse (bs g') (bs ch) mate fc mult) by (rewrite S1, Ec; exact IC).
      destruct (mlbUncoarsen_spec avg g' ch mate fc mult) as (h & -> & Smh & Sh & _).
      * destruct R as [R1 R2 R3 R4 R5]. constructor; cbn [g' bsetfron bs bpart bfron bveex]; auto. rewrite S4, Ef. exact R4.
      * exact V.
      * exact B.
      * exact G0.
      * exact Hz.
      * reflexivity.
      * cbn [g' bsetfron bavg bcmle0 bdist bwg0 bwg1 bfx0 bfx1]. repeat split; congruence.
      * exact IM.
      * exact IC'.
      * intros c Hc. rewrite S1, Ec in Hc. change (baseval (bs g')) with (baseval (bs g)). change (vertnnd (bs g')) with (vertnnd (bs g)). change (veex g') with (veex g). rewrite <- (VX c Hc). unfold veex. now rewrite S1, S2.
      * cbn [bind]. pose proof (bsame_trans _ _ _ Sg Smh) as Sgh.
        destruct (AS levl h Sh) as (rc & h' & -> & Sm' & Rc' & Hz' & Htt'); [destruct (bm_load _ _ Sgh) as (_ & _ & ->); exact Ht|].
        exists rc, h'. split; [reflexivity|]. split; [exact (bsame_trans _ _ _ Sgh Sm')|]. auto.
    + exists rc, g'. split; [reflexivity|]. split; [exact Sg|]. split; [exact Rc|]. split; [intros; contradiction | intros X; exact (Htt X)].
Qed.

Lemma bMl_good : bgood avg T tot false (bgraphBipartMl jk rl coar low asc).
Proof.
  intros g S Ht. unfold bgraphBipartMl. destruct (bMl2_good (Datatypes.S (Z.to_nat (vertnbr (bs g)))) 0 g (bstate_pre g S) Ht) as (rc & h & E & Sm & Rc & Hz & Htt); [pose proof (gv_size _ (bt_valid _ _ S)); lia|].
  exists rc, h. split; [exact E|]. split; [exact Sm|]. split; [exact Rc|]. split; [intros [->|]; [auto | discriminate] | exact Htt].
Qed.
End Ml.

Lemma mlCoarsen_ok cmax cmin : (forall s, cmax s <= vertnbr s) -> coar_ok (mlCoarsen cmax cmin).
Proof.
  intros Hc s V R B. unfold mlCoarsen. set (stk := if vertnbr s <? 2 ^ 63 then 64 else vertnbr s + 1). pose proof (gv_size _ V) as N.
  assert (Hs : 32 <= stk /\ vertnbr s < 2 ^ (stk - 1)).
  { subst stk. destruct (Z.ltb_spec (vertnbr s) (2 ^ 63)) as [H|H]; [split; [lia | exact H]|]. split; [lia|]. replace (vertnbr s + 1 - 1) with (vertnbr s) by lia. apply Z.pow_gt_lin_r; lia. }
  assert (PV : per_vertex s None) by (intros l; discriminate).
  pose proof (C18_graphCoarsen stk false s None None 0 (cmax s) cmin V R B PV PV (proj1 Hs) (proj2 Hs)) as H. clearbody stk.
  destruct H as [H|(cg & fc & mult & mate & H & V1 & R1 & IM & IC & H1 & H2 & _)]; [left; eauto|]. right. exists cg, fc, mult, mate. specialize (Hc s). repeat (split; [assumption|]). lia.
Qed.
