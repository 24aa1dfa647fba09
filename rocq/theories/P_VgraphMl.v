(** Proofs about multilevel vertex separation. *)
From Verif Require Import Base Mem M_Graph M_Vgraph M_VgraphSt S_Graph S_Vgraph S_Color S_Match S_Coarsen S_VgraphSt P_Graph P_Vgraph P_Vgraph2 P_Coarsen3 P_VgraphSt.

Section Proj.
Variables (s cg : graph) (mate fc : list Z) (mult : list (Z * Z)).
Hypothesis NS : vertnnd s = baseval s + vertnbr s /\ 0 <= vertnbr s.
Hypothesis NC : vertnnd cg = baseval cg + vertnbr cg /\ 0 <= vertnbr cg.
Hypothesis IM : is_matching s mate.
Hypothesis IC : is_coarse s cg mate fc mult.
Notation b := (baseval s).
Notation fcv v := (at_ (baseval s) fc v).

Lemma mult_at c : isvert cg c -> exists v w, at_ b mult c = (v, w) /\ isvert s v /\ isvert s w /\ fcv v = c /\ fcv w = c /\
  forall u, isvert s u -> (fcv u = c <-> u = v \/ u = w).
Proof.
  intros Hc. destruct (proj2 (ic_mult _ _ _ _ _ IC) c Hc) as (v & w & E & Hv & _ & Hm & Hf). destruct IM as (_ & M).
  destruct (M v Hv) as (Mv & _). rewrite Hm in Mv. exists v, w. repeat (split; [assumption|]).
  assert (G : forall u, isvert s u -> (fcv u = c <-> u = v \/ u = w)).
  { intros u Hu. rewrite <- Hf. rewrite <- Hm. pose proof (ic_group _ _ _ _ _ IC v u Hv Hu) as X. split; intros Y; [apply X; auto | symmetry; apply X; auto]. }
  split; [apply G; auto | exact G].
Qed.

Lemma grp_sum f c : isvert cg c -> zsum b (vertnnd s) (fun v => if fcv v =? c then f v else 0) =
  f (fst (at_ b mult c)) + (if fst (at_ b mult c) =? snd (at_ b mult c) then 0 else f (snd (at_ b mult c))).
Proof.
  intros Hc. destruct (mult_at c Hc) as (v & w & -> & Hv & Hw & Fv & Fw & G). cbn [fst snd]. destruct (Z.eqb_spec v w) as [<-|Hn].
  - rewrite (zsum_single _ _ _ v); [rewrite Fv, Z.eqb_refl; lia | exact Hv|]. intros i Hi Hne. destruct (Z.eqb_spec (fcv i) c) as [E|]; [|reflexivity]. apply G in E; [|exact Hi]. destruct E; congruence.
  - rewrite (zsum_two _ _ v w); [rewrite Fv, Fw, Z.eqb_refl; reflexivity | exact Hv | exact Hw | exact Hn|].
    intros i Hi H1 H2. destruct (Z.eqb_spec (fcv i) c) as [E|]; [|reflexivity]. apply G in E; [|exact Hi]. destruct E; congruence.
Qed.

(** Sums over fine vertices, group by group *)
Lemma by_group f : zsum b (vertnnd s) f = zsum b (vertnnd cg) (fun c => zsum b (vertnnd s) (fun v => if fcv v =? c then f v else 0)).
Proof.
  rewrite zsum_swap. apply zsum_ext. intros v Hv. pose proof (proj2 (ic_fc _ _ _ _ _ IC) v Hv) as Hc. unfold isvert in Hc. rewrite (ic_base _ _ _ _ _ IC) in Hc.
  rewrite (zsum_single _ _ _ (fcv v)); [now rewrite Z.eqb_refl | exact Hc|]. intros i Hi Hn. destruct (Z.eqb_spec (fcv v) i); [congruence | reflexivity].
Qed.

Lemma proj_load (P : Z -> bool) : zsum b (vertnnd s) (fun v => if P (fcv v) then velo s v else 0) = zsum b (vertnnd cg) (fun c => if P c then velo cg c else 0).
Proof.
  rewrite by_group. apply zsum_ext. intros c Hc. destruct (P c) eqn:Ep.
  - rewrite (ic_velo _ _ _ _ _ IC) by (unfold isvert; rewrite (ic_base _ _ _ _ _ IC); exact Hc). unfold fine_load. apply zsum_ext. intros v Hv.
    destruct (Z.eqb_spec (fcv v) c) as [->|]; [now rewrite Ep | reflexivity].
  - apply zsum_zero. intros v Hv. destruct (Z.eqb_spec (fcv v) c) as [->|]; [now rewrite Ep | reflexivity].
Qed.
End Proj.

Section Unc.
Variables (g ch : vgraph) (mate fc : list Z) (mult : list (Z * Z)).
Hypothesis RG : vg_readable g.
Hypothesis VG : valid_upto_sum (vs g).
Hypothesis BG : 0 <= baseval (vs g).
Hypothesis DG : 0 <= vdw0 g /\ 0 <= vdw1 g /\ 0 < vdw0 g + vdw1 g.
Hypothesis SC : vstate ch.
Hypothesis DW : vdw0 ch = vdw0 g /\ vdw1 ch = vdw1 g.
Hypothesis IM : is_matching (vs g) mate.
Hypothesis IC : is_coarse (vs g) (vs ch) mate fc mult.
Notation b := (baseval (vs g)).
Notation fcv v := (at_ b fc v).
Notation NS := (vr_nnd _ RG).
Notation NC := (vr_nnd _ (vt_read _ SC)).

(** number of fine vertices of part [p] in the first [k] coarse vertices *)
Definition pcount (k p : Z) : Z := zcount b (vertnnd (vs g)) (fun v => (fcv v <? b + k) && (part ch (fcv v) =? p)).

Lemma fc_rng v : isvert (vs g) v -> b <= fcv v < b + vertnbr (vs ch).
Proof. intros Hv. pose proof (proj2 (ic_fc _ _ _ _ _ IC) v Hv) as X. pose proof NC as (X1 & X2). unfold isvert in X. rewrite X1, (ic_base _ _ _ _ _ IC) in X. exact X. Qed.

Lemma pcount_S k p : 0 <= k < vertnbr (vs ch) -> pcount (k + 1) p = pcount k p +
  (if part ch (b + k) =? p then 1 + (if fst (at_ 0 mult k) =? snd (at_ 0 mult k) then 0 else 1) else 0).
Proof.
  intros Hk. pose proof NC as (N1 & N2). assert (Hc : isvert (vs ch) (b + k)) by (unfold isvert; rewrite (ic_base _ _ _ _ _ IC), N1, (ic_base _ _ _ _ _ IC); lia).
  pose proof (grp_sum _ _ _ _ _ IM IC (fun _ => if part ch (b + k) =? p then 1 else 0) (b + k) Hc) as G.
  replace (at_ b mult (b + k)) with (at_ 0 mult k) in G by (unfold at_; f_equal; lia).
  unfold pcount, zcount. transitivity (zsum b (vertnnd (vs g)) (fun v => b2z ((fcv v <? b + k) && (part ch (fcv v) =? p)) + (if fcv v =? b + k then (if part ch (b + k) =? p then 1 else 0) else 0))).
  - apply zsum_ext. intros v Hv. destruct (Z.eqb_spec (fcv v) (b + k)) as [E|E].
    + rewrite E. destruct (Z.ltb_spec (b + k) (b + (k + 1))), (Z.ltb_spec (b + k) (b + k)); try lia. destruct (part ch (b + k) =? p); reflexivity.
    + rewrite Z.add_0_r. f_equal. f_equal. destruct (Z.ltb_spec (fcv v) (b + (k + 1))), (Z.ltb_spec (fcv v) (b + k)); lia || reflexivity.
  - rewrite zsum_add, G. destruct (part ch (b + k) =? p); [reflexivity|]. destruct (_ =? _); lia.
Qed.
Lemma pcount_le k p : pcount k p <= vertnbr (vs g).
Proof.
  pose proof NS as (X1 & X2). unfold pcount, zcount. replace (vertnbr (vs g)) with (zsum b (vertnnd (vs g)) (fun _ => 1)) by (rewrite zsum_const by lia; lia).
  apply zsum_le. intros i _. destruct (_ && _); cbn [b2z]; lia.
Qed.
Lemma pcount_0 p : pcount 0 p = 0.
Proof. apply zcount_0. intros v Hv. pose proof (fc_rng v Hv). destruct (Z.ltb_spec (fcv v) (b + 0)); [lia | reflexivity]. Qed.

Lemma mlUncoarsen_spec : exists h, mlUncoarsen g ch mult = Ok h /\ vsame g h /\ vstate h /\ (forall v, isvert (vs g) v -> part h v = part ch (fcv v)) /\
  vcld0 h = vcld0 ch /\ vcld1 h = vcld1 ch /\ vcld2 h = vcld2 ch /\ vdlt h = vdlt ch.
Proof.
  pose proof NS as (N1 & N2). pose proof NC as (N3 & N4). pose proof (ic_base _ _ _ _ _ IC) as EB. pose proof (vr_part _ RG) as Zp. pose proof (vr_fron _ RG) as Zf.
  pose proof (proj1 (ic_mult _ _ _ _ _ IC)) as Zm. pose proof (vr_part _ (vt_read _ SC)) as Zc.
  assert (Pc : forall c, isvert (vs ch) c -> 0 <= part ch c <= 2) by apply (vc_part _ (vt_counts _ SC)).
  unfold mlUncoarsen. cbv zeta.
  match goal with |- context [bind ?X _] => destruct (wp_ok_inv X (fun '(pt, fr, k, sz1) =>
    zlen pt = zlen (vpart g) /\ zlen fr = zlen (vfron g) /\ (forall v, isvert (vs g) v -> at_ b pt v = part ch (fcv v)) /\
    k = pcount (vertnbr (vs ch)) 2 /\ sz1 = pcount (vertnbr (vs ch)) 1 /\
    (forall i, 0 <= i < k -> isvert (vs g) (at_ 0 fr i) /\ part ch (fcv (at_ 0 fr i)) = 2) /\
    (forall i j, 0 <= i < k -> 0 <= j < k -> at_ 0 fr i = at_ 0 fr j -> i = j) /\
    (forall v, isvert (vs g) v -> part ch (fcv v) = 2 -> exists i, 0 <= i < k /\ at_ 0 fr i = v))) as ((((pt & fr) & k) & sz1) & EX & Q1 & Q2 & Q3 & Q4 & Q5 & Q6 & Q7 & Q8) end.
  { apply wp_for with (I := fun c '(pt, fr, k, sz1) =>
      zlen pt = zlen (vpart g) /\ zlen fr = zlen (vfron g) /\ (forall v, isvert (vs g) v -> fcv v < b + c -> at_ b pt v = part ch (fcv v)) /\
      k = pcount c 2 /\ sz1 = vcsz1 ch + pcount c 1 - zcount b (b + c) (fun d => part ch d =? 1) /\
      (forall i, 0 <= i < k -> isvert (vs g) (at_ 0 fr i) /\ fcv (at_ 0 fr i) < b + c /\ part ch (fcv (at_ 0 fr i)) = 2) /\
      (forall i j, 0 <= i < k -> 0 <= j < k -> at_ 0 fr i = at_ 0 fr j -> i = j) /\
      (forall v, isvert (vs g) v -> fcv v < b + c -> part ch (fcv v) = 2 -> exists i, 0 <= i < k /\ at_ 0 fr i = v)).
    - lia.
    - rewrite !pcount_0, zcount_nil by lia. repeat (split; [first [reflexivity | lia | intros; lia | intros v Hv; pose proof (fc_rng v Hv); lia]|]).
      intros v Hv; pose proof (fc_rng v Hv); lia.
    - intros c [[[pt fr] k] sz1] Hc (I1 & I2 & I3 & I4 & I5 & I6 & I7 & I8).
      assert (Vc : isvert (vs ch) (b + c)) by (unfold isvert; rewrite N3, EB; lia).
      destruct (mult_at _ _ _ _ _ IM IC (b + c) Vc) as (v0 & v1 & Em & V0 & V1 & F0 & F1 & G). replace (at_ b mult (b + c)) with (at_ 0 mult c) in Em by (unfold at_; f_equal; lia).
      pose proof (pcount_S c 1 Hc) as PS1. pose proof (pcount_S c 2 Hc) as PS2. rewrite Em in PS1, PS2. cbn [fst snd] in PS1, PS2.
      pose proof (pcount_le (c + 1) 2) as PL. pose proof (pcount_le c 2) as PL0.
      assert (P0 : 0 <= pcount c 2) by apply zcount_nonneg.
      rewrite rd_ok by lia. cbn [bind]. rewrite Em. rewrite rd_ok by lia. cbn [bind].
      assert (Ep : at_ 0 (vpart ch) c = part ch (b + c)) by (unfold part, at_; f_equal; lia). rewrite Ep. set (p := part ch (b + c)) in *. specialize (Pc (b + c) Vc). fold p in Pc.
      assert (R0 : b <= v0 < b + zlen pt) by (unfold isvert in V0; lia). assert (R1 : b <= v1 < b + zlen pt) by (unfold isvert in V1; lia).
      rewrite wr_ok by lia. cbn [bind].
      assert (ZC : zcount b (b + (c + 1)) (fun d => part ch d =? 1) = zcount b (b + c) (fun d => part ch d =? 1) + b2z (p =? 1)) by (replace (b + (c + 1)) with (b + c + 1) by lia; rewrite zcount_snoc by lia; reflexivity).
      assert (NL : forall i, 0 <= i < k -> at_ 0 fr i <> v0 /\ at_ 0 fr i <> v1).
      { intros i Hi. destruct (I6 i Hi) as (_ & X & _). split; intros E; rewrite E in X; lia. }
      assert (LT : forall v, isvert (vs g) v -> fcv v < b + (c + 1) -> v <> v0 -> v <> v1 -> fcv v < b + c).
      { intros v Hv Hl H0 H1. destruct (Z.eq_dec (fcv v) (b + c)) as [E|]; [|lia]. apply G in E; [|exact Hv]. tauto. }
      destruct (Z.eqb_spec p 2) as [E2|E2]; cbn [negb].
      + rewrite E2 in *. change (2 =? 1) with false in *. change (2 =? 2) with true in *. cbn [b2z] in *.
        assert (RK : 0 <= k < 0 + zlen fr) by (destruct (v0 =? v1); lia).
        rewrite wr_ok by lia. cbn [bind]. destruct (Z.eqb_spec v0 v1) as [E01|E01]; cbn [negb wp].
        * subst v1. rewrite !zlen_upd. repeat (split; [first [assumption | lia]|]). split; [|split; [lia|split; [lia|split; [|split]]]].
          -- intros v Hv Hl. rewrite at_upd by (unfold isvert in *; lia). destruct (Z.eqb_spec v0 v) as [<-|]; [rewrite F0; fold p; congruence|]. apply I3; auto.
          -- intros i Hi. rewrite at_upd by lia. destruct (Z.eqb_spec k i) as [<-|]; [rewrite F0; split; [assumption|split; [lia|fold p; congruence]]|]. destruct (I6 i ltac:(lia)) as (A & B & C). repeat split; auto; try lia; apply A.
          -- intros i j Hi Hj. rewrite !at_upd by lia. destruct (Z.eqb_spec k i) as [<-|], (Z.eqb_spec k j) as [<-|]; intros E; auto; [exfalso; symmetry in E; revert E; apply NL; lia | exfalso; revert E; apply NL; lia | apply I7; auto; lia].
          -- intros v Hv Hl Hp. destruct (Z.eq_dec v v0) as [->|].
             ++ exists k. split; [lia|]. rewrite at_upd by lia. now rewrite Z.eqb_refl.
             ++ destruct (I8 v Hv) as (i & Hi & Ei); auto. exists i. split; [lia|]. rewrite at_upd by lia. destruct (Z.eqb_spec k i); [lia | exact Ei].
        * rewrite wr_ok by (rewrite zlen_upd; lia). cbn [bind]. rewrite wr_ok by (rewrite zlen_upd; lia). cbn [bind wp].
          rewrite !zlen_upd. repeat (split; [first [assumption | lia]|]). split; [|split; [lia|split; [lia|split; [|split]]]].
          -- intros v Hv Hl. unfold isvert in *. rewrite at_upd by (rewrite ?zlen_upd; lia). destruct (Z.eqb_spec v1 v) as [<-|]; [rewrite F1; fold p; congruence|].
             rewrite at_upd by lia. destruct (Z.eqb_spec v0 v) as [<-|]; [rewrite F0; fold p; congruence|]. apply I3; auto.
          -- intros i Hi. rewrite at_upd by (rewrite ?zlen_upd; lia). destruct (Z.eqb_spec (k + 1) i) as [<-|]; [rewrite F1; split; [assumption|split; [lia|fold p; congruence]]|].
             rewrite at_upd by lia. destruct (Z.eqb_spec k i) as [<-|]; [rewrite F0; split; [assumption|split; [lia|fold p; congruence]]|]. destruct (I6 i ltac:(lia)) as (A & B & C). repeat split; auto; try lia; apply A.
          -- intros i j Hi Hj. rewrite !(at_upd 0 (upd 0 fr k v0)) by (rewrite ?zlen_upd; lia). rewrite !at_upd by lia.
             destruct (Z.eqb_spec (k + 1) i), (Z.eqb_spec (k + 1) j), (Z.eqb_spec k i), (Z.eqb_spec k j); intros E; try lia; try congruence;
               first [exfalso; symmetry in E; revert E; apply NL; lia | exfalso; revert E; apply NL; lia | apply I7; auto; lia].
          -- intros v Hv Hl Hp. destruct (Z.eq_dec v v1) as [->|]; [|destruct (Z.eq_dec v v0) as [->|]].
             ++ exists (k + 1). split; [lia|]. rewrite at_upd by (rewrite ?zlen_upd; lia). now rewrite Z.eqb_refl.
             ++ exists k. split; [lia|]. rewrite at_upd by (rewrite ?zlen_upd; lia). destruct (Z.eqb_spec (k + 1) k); [lia|]. rewrite at_upd by lia. now rewrite Z.eqb_refl.
             ++ destruct (I8 v Hv) as (i & Hi & Ei); auto. exists i. split; [lia|]. rewrite at_upd by (rewrite ?zlen_upd; lia). destruct (Z.eqb_spec (k + 1) i); [lia|].
                rewrite at_upd by lia. destruct (Z.eqb_spec k i); [lia | exact Ei].
      + assert (I6' : forall i, 0 <= i < k -> isvert (vs g) (at_ 0 fr i) /\ fcv (at_ 0 fr i) < b + (c + 1) /\ part ch (fcv (at_ 0 fr i)) = 2).
        { intros i Hi. destruct (I6 i Hi) as (A & B & C). repeat split; auto; try lia; apply A. }
        assert (I8' : forall v, isvert (vs g) v -> fcv v < b + (c + 1) -> part ch (fcv v) = 2 -> exists i, 0 <= i < k /\ at_ 0 fr i = v).
        { intros v Hv Hl Hp. apply I8; auto. destruct (Z.eq_dec (fcv v) (b + c)) as [E|]; [|lia]. rewrite E in Hp. fold p in Hp. lia. }
        assert (Pb : b2z (p =? 1) = p) by (destruct (Z.eqb_spec p 1); cbn [b2z]; lia).
        destruct (Z.eqb_spec v0 v1) as [E01|E01]; cbn [negb].
        * cbn [wp]. subst v1. rewrite !zlen_upd. repeat (split; [first [assumption | lia]|]). split; [|split; [lia|split; [destruct (Z.eqb_spec p 1); lia | split; [exact I6' | split; [exact I7 | exact I8']]]]].
          intros v Hv Hl. rewrite at_upd by (unfold isvert in *; lia). destruct (Z.eqb_spec v0 v) as [<-|]; [rewrite F0; reflexivity|]. apply I3; auto.
        * rewrite wr_ok by (rewrite zlen_upd; lia). cbn [bind wp]. rewrite !zlen_upd. repeat (split; [first [assumption | lia]|]).
          split; [|split; [lia|split; [destruct (Z.eqb_spec p 1); lia | split; [exact I6' | split; [exact I7 | exact I8']]]]].
          intros v Hv Hl. unfold isvert in *. rewrite at_upd by (rewrite ?zlen_upd; lia). destruct (Z.eqb_spec v1 v) as [<-|]; [rewrite F1; reflexivity|].
          rewrite at_upd by lia. destruct (Z.eqb_spec v0 v) as [<-|]; [rewrite F0; reflexivity|]. apply I3; auto.
    - intros [[[pt fr] k] sz1] (I1 & I2 & I3 & I4 & I5 & I6 & I7 & I8). repeat (split; [assumption|]). split; [|split; [assumption|split; [|split; [|split; [assumption|]]]]].
      + intros v Hv. apply I3; auto. apply fc_rng; auto.
      + rewrite I5, (vc_size1 _ (vt_counts _ SC)). unfold psize. rewrite N3, EB. lia.
      + intros i Hi. destruct (I6 i Hi) as (A & B & C). auto.
      + intros v Hv Hp. apply I8; auto. apply fc_rng; auto. }
  rewrite EX. cbn [bind]. eexists. split; [reflexivity|]. match goal with |- vsame _ ?z /\ _ => set (h := z) end.
  assert (PH : forall v, isvert (vs g) v -> part h v = part ch (fcv v)) by exact Q3.
  assert (PC : forall p, psize h p = pcount (vertnbr (vs ch)) p).
  { intros p. unfold psize, pcount. cbn [h vs]. apply zsum_ext. intros v Hv. rewrite PH by exact Hv. pose proof (fc_rng v Hv). destruct (Z.ltb_spec (fcv v) (b + vertnbr (vs ch))); [reflexivity | lia]. }
  assert (PL : forall p, pload h p = pload ch p).
  { intros p. unfold pload. cbn [h vs]. rewrite EB. rewrite <- (proj_load _ _ _ _ _ IC (fun d => part ch d =? p)). apply zsum_ext. intros v Hv. rewrite PH by exact Hv. reflexivity. }
  assert (RH : vg_readable h).
  { destruct RG as [R1 R2 R3 R4 R5]. constructor; cbn [h vs vpart vfron]; auto; try lia. intros v Hv. rewrite PH by exact Hv. pose proof (Pc (fcv v) (proj2 (ic_fc _ _ _ _ _ IC) v Hv)). lia. }
  assert (CH : forall v, isvert (vs h) v -> 0 <= part h v <= 2).
  { intros v Hv. rewrite PH by exact Hv. apply Pc. apply (proj2 (ic_fc _ _ _ _ _ IC) v Hv). }
  pose proof (psize_all h RH CH) as PA. rewrite !PC in PA. change (vertnbr (vs h)) with (vertnbr (vs g)) in PA.
  assert (P2 : 0 <= pcount (vertnbr (vs ch)) 2) by apply zcount_nonneg.
  split; [constructor; auto|]. split; [|split; [exact PH | repeat split]]. constructor; cbn [h vs vdw0 vdw1]; auto.
  - destruct (vt_counts _ SC) as [A1 A2 A3 A4 A5 A6 A7]. constructor; auto; rewrite ?PC, ?PL; cbn [h vcsz0 vcsz1 vcld0 vcld1 vcld2 vdlt vdw0 vdw1]; auto.
    + lia.
    + destruct DW as (<- & <-). exact A7.
  - split; [cbn [h vfronnbr]; lia|]. unfold fron. cbn [h vs vfronnbr vfron]. fold h. split; [|split; [exact Q7|]].
    + intros i Hi. destruct (Q6 i Hi) as (A & B). split; [exact A|]. rewrite PH; auto.
    + intros v Hv. rewrite PH by exact Hv. auto.
  - intros v e Ha. change (vs h) with (vs g) in Ha |- *. pose proof (vt_end _ (vupto_struct _ VG) v e Ha) as Hw. destruct (proj1 Ha, Ha) as (Hv & _).
    rewrite !PH by auto. destruct (Z.eq_dec (fcv v) (fcv (edge (vs g) e))) as [E|Hn]; [rewrite E; lia|].
    destruct (proj2 (ic_adj _ _ _ _ _ IC (fcv v) (fcv (edge (vs g) e)))) as (e' & Ha' & Ee').
    { split; [exact Hn|]. exists v, (edge (vs g) e). split; [exists e; auto|]. auto. }
    rewrite <- Ee'. exact (vt_sep _ SC _ e' Ha').
Qed.
End Unc.

Lemma valid_nnd s : valid_upto_sum s -> vertnnd s = baseval s + vertnbr s /\ 0 <= vertnbr s.
Proof. intros (x & V). split; [apply (gv_nnd _ V) | apply (gv_size _ V)]. Qed.

Lemma Ml2_good jk coar low asc tot : 0 <= jk <= 255 -> coar_good coar -> vgood tot low -> vgood tot asc ->
  forall fuel g, valid_upto_sum (vs g) -> 0 <= baseval (vs g) -> vg_readable g -> (0 <= vdw0 g /\ 0 <= vdw1 g /\ 0 < vdw0 g + vdw1 g) ->
    vertnbr (vs g) < Z.of_nat fuel ->
    exists rc h, vgraphSeparateMl2 jk coar low asc fuel g = Ok (rc, h) /\ vsame g h /\ (rc = 0 -> vstate h) /\ (tot = true -> rc = 0).
Proof.
  intros Hj CG GL GA. induction fuel as [|fuel IH]; intros g V B R D Hf; pose proof (vr_nnd _ R) as (N1 & N2); [lia|].
  cbn [vgraphSeparateMl2]. destruct (CG (vs g) V (vr_graph _ R) B) as [(e & ->)|(cg & fc & mult & mate & -> & Vc & Rc & IM & IC & Hlt)].
  - destruct (Zero_good g V B R D) as (h & -> & Sm & Sh & _). cbn [bind]. destruct (GL h Sh) as (rc & h' & E & Sm' & Hz & Ht). exists rc, h'.
    split; [exact E|]. split; [exact (vsame_trans _ _ _ Sm Sm')|]. auto.
  - cbv zeta. set (cv := mkvgraph cg _ _ _ _ _ _ _ _ _ _ _). pose proof (valid_nnd _ Vc) as (C1 & C2). pose proof (ic_base _ _ _ _ _ IC) as EB.
    assert (Rv : vg_readable cv).
    { constructor; auto.
      - cbn [cv vs vpart]. rewrite zlen_repeat. lia.
      - intros v Hv. unfold isvert, part in *. cbn [cv vs vpart] in *. rewrite at_repeat by lia. lia.
      - cbn [cv vs vfron]. pose proof (vr_fron _ R). lia. }
    destruct (IH cv Vc ltac:(cbn [cv vs]; lia) Rv D ltac:(cbn [cv vs]; lia)) as (rc & ch & -> & Sm & Hz & Ht). cbn [bind].
    set (g1 := mkvgraph (vs g) _ _ _ _ _ _ _ _ _ _ _).
    assert (Sg : vsame g g1) by (constructor; auto; exact (vm_fron _ _ Sm)).
    destruct (Z.eqb_spec rc 0) as [->|Hn]; cbn [negb].
    + specialize (Hz eq_refl). pose proof (vm_graph _ _ Sm) as Eg. cbn [cv vs] in Eg.
      assert (Rg1 : vg_readable g1). { destruct R as [R1 R2 R3 R4 R5]. constructor; auto. pose proof (vm_fron _ _ Sg) as X. change (vs g1) with (vs g). lia. }
      destruct (mlUncoarsen_spec g1 ch mate fc mult) as (h & -> & Sm2 & Sh & _); auto.
      { split; [exact (vm_dw0 _ _ Sm) | exact (vm_dw1 _ _ Sm)]. }
      { rewrite Eg. exact IC. }
      cbn [bind]. destruct (GA h Sh) as (rc & h' & E & Sm' & Hz' & Ht'). exists rc, h'. split; [exact E|]. split; [exact (vsame_trans _ _ _ (vsame_trans _ _ _ Sg Sm2) Sm')|]. auto.
    + exists rc, g1. split; [reflexivity|]. split; [exact Sg|]. split; [congruence | auto].
Qed.

Lemma Ml_good jk coar low asc tot : 0 <= jk <= 255 -> coar_good coar -> vgood tot low -> vgood tot asc -> vgood tot (vgraphSeparateMl jk coar low asc).
Proof.
  intros Hj CG GL GA g S. apply Ml2_good; auto; try apply S. pose proof (vr_nnd _ (vt_read _ S)). lia.
Qed.
