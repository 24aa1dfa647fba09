(** Proofs about separation by graph growing: growth, and the method. *)
From Coq Require Import Relations.Relation_Operators.
From Verif Require Import Base Mem M_Graph M_Vgraph M_VgraphSt S_Graph S_Vgraph S_Color S_VgraphSt P_Graph P_Vgraph P_Vgraph2 P_Bgraph2 P_VgraphSt P_VgraphGp.

Section Gp2.
Variable s : graph.
Hypothesis R : graph_readable s.
Hypothesis V : graph_valid s.
Variables w0 w1 L : Z.
Hypothesis HL : vertnbr s <= L.
Hypothesis HW : 0 <= w0 /\ 0 <= w1.
Notation b := (baseval s).
Notation n := (vertnbr s).
Notation nnd := (vertnnd s).
Notation ps st v := (at_ b (gp_pass st) v).
Notation qu st i := (at_ 0 (gp_qu st) i).
Notation pa pt v := (at_ b pt v).

Definition LD (pt : list Z) (q : Z) : Z := zsum b nnd (fun v => if pa pt v =? q then velo s v else 0).
Lemma LD_upd pt w x q : zlen pt = L -> isvert s w ->
  LD (upd b pt w x) q = LD pt q - (if pa pt w =? q then velo s w else 0) + (if x =? q then velo s w else 0).
Proof.
  intros Hz Hw. pose proof (gv_nnd _ V) as Nn. unfold LD.
  rewrite (zsum_upd b nnd (fun v => if pa pt v =? q then velo s v else 0) _ w); [|exact Hw|].
  - rewrite at_upd by (unfold isvert in Hw; lia). rewrite Z.eqb_refl. reflexivity.
  - intros i Hi Hne. rewrite at_upd by (unfold isvert in Hw; lia). destruct (Z.eqb_spec w i); [congruence | reflexivity].
Qed.

(** what is needed of a separation *)
Record psep (pt : list Z) (dlt c2 : Z) : Prop := {
  pp_len : zlen pt = L;
  pp_val : forall v, isvert s v -> 0 <= pa pt v <= 2;
  pp_sep : forall v w, adjacent s v w -> pa pt v = 1 -> pa pt w <> 0;
  pp_dlt : dlt = LD pt 0 * w1 - LD pt 1 * w0;
  pp_c2 : c2 = LD pt 2 }.

Section Comp.
Variable D : Z -> Prop.
Hypothesis Ddec : forall v, D v \/ ~ D v.
Hypothesis Dcl : forall v w, D v -> adjacent s v w -> D w.
Variable root : Z.
Notation busy := (busy s D root).
Notation done := (done s).
Notation push := (push s).

Record grown (p : Z) (st : gpst) (pt : list Z) (dlt c2 : Z) : Prop := {
  gw_len : zlen pt = L;
  gw_D : forall v, isvert s v -> D v -> pa pt v = 1;
  gw_1 : forall i, 0 <= i < gp_qh st -> pa pt (qu st i) = 1;
  gw_2 : forall i, gp_qh st <= i < gp_qt st -> pa pt (qu st i) = 2;
  gw_0 : forall v, isvert s v -> ~ D v -> ps st v <> p -> pa pt v = 0;
  gw_dlt : dlt = LD pt 0 * w1 - LD pt 1 * w0;
  gw_c2 : c2 = LD pt 2 }.

Lemma grown_psep p st pt dlt c2 : busy p st -> done p st (gp_qh st) -> grown p st pt dlt c2 -> psep pt dlt c2.
Proof.
  intros B Dn [G1 G2 G3 G4 G5 G6 G7].
  assert (C : forall v, isvert s v -> ~ D v -> ps st v = p -> exists i, 0 <= i < gp_qt st /\ qu st i = v /\ ((i < gp_qh st /\ pa pt v = 1) \/ (gp_qh st <= i /\ pa pt v = 2))).
  { intros v Hv Hd Hp. destruct (bs_all _ _ _ _ _ B v Hv Hd Hp) as (i & Hi & <-). exists i. split; [exact Hi|]. split; [reflexivity|]. destruct (Z_lt_le_dec i (gp_qh st)); [left | right]; split; auto; [apply G3 | apply G4]; lia. }
  constructor; auto.
  - intros v Hv. destruct (Ddec v) as [Hd|Hd]; [rewrite G2 by auto; lia|]. destruct (Z.eq_dec (ps st v) p) as [E|E]; [|rewrite G5 by auto; lia].
    destruct (C v Hv Hd E) as (i & _ & _ & [(_ & ->)|(_ & ->)]); lia.
  - intros v w Ha E1 E0. destruct (adj_vert s V v w Ha) as (Hv & Hw). destruct (Ddec v) as [Hd|Hd].
    + rewrite G2 in E0; [lia | exact Hw | exact (Dcl v w Hd Ha)].
    + destruct (Z.eq_dec (ps st v) p) as [E|E]; [|rewrite G5 in E1 by auto; lia]. destruct (C v Hv Hd E) as (i & Hi & Ei & [(Hl & _)|(_ & X)]); [|lia].
      rewrite <- Ei in Ha. pose proof (Dn i ltac:(lia) w Ha) as Pw. rewrite Ei in Ha. assert (Hdw : ~ D w) by (intros X; apply Hd; exact (Dcl w v X (adj_sym s V _ _ Ha))).
      destruct (C w Hw Hdw Pw) as (j & _ & _ & [(_ & X)|(_ & X)]); lia.
Qed.

Lemma grown_push p st pt dlt c2 d w : 1 <= p -> busy p st -> grown p st pt dlt c2 -> isvert s w -> ~ D w -> conn s root w -> ps st w < p ->
  grown p (push p d w st) (upd b pt w 2) (dlt - velo s w * w1) (c2 + velo s w).
Proof.
  intros Hp B [G1 G2 G3 G4 G5 G6 G7] Hw Hd Hc Hl. destruct (push_ok s V D Dcl root p d w st Hp B Hw Hd Hc Hl) as (Q1 & Q2 & Q3 & Q4 & Q5).
  pose proof (gv_nnd _ V) as Nn. pose proof (bs_q _ _ _ _ _ B) as (Hq & _).
  assert (PT : forall u, isvert s u -> pa (upd b pt w 2) u = if w =? u then 2 else pa pt u) by (intros u Hu; unfold isvert in *; now rewrite at_upd by lia).
  assert (Ew : pa pt w = 0) by (apply G5; auto; lia).
  assert (NQ : forall i, 0 <= i < gp_qt st -> isvert s (qu st i) /\ w <> qu st i).
  { intros i Hi. destruct (bs_in _ _ _ _ _ B i Hi) as (X1 & _ & X3 & _). split; [exact X1|]. intros E. rewrite <- E in X3. lia. }
  constructor.
  - now rewrite zlen_upd.
  - intros v Hv Hdv. rewrite PT by auto. destruct (Z.eqb_spec w v); [congruence | auto].
  - change (gp_qh (push p d w st)) with (gp_qh st). intros i Hi. rewrite Q3 by lia. destruct (NQ i ltac:(lia)) as (X1 & X2). rewrite PT by auto. destruct (Z.eqb_spec w (qu st i)); [congruence | auto].
  - change (gp_qh (push p d w st)) with (gp_qh st). change (gp_qt (push p d w st)) with (gp_qt st + 1). intros i Hi. destruct (Z.eq_dec i (gp_qt st)) as [->|].
    + rewrite Q4, PT, Z.eqb_refl by auto. reflexivity.
    + rewrite Q3 by lia. destruct (NQ i ltac:(lia)) as (X1 & X2). rewrite PT by auto. destruct (Z.eqb_spec w (qu st i)); [congruence | apply G4; lia].
  - intros v Hv Hdv. rewrite Q5, PT by auto. destruct (w =? v); [congruence | auto].
  - rewrite !LD_upd, Ew by auto. change (0 =? 0) with true. change (0 =? 1) with false. change (2 =? 0) with false. change (2 =? 1) with false. cbv iota. lia.
  - rewrite LD_upd, Ew by auto. change (0 =? 2) with false. change (2 =? 2) with true. cbv iota. lia.
Qed.

Lemma grown_pop p st pt dlt c2 : busy p st -> gp_qh st < gp_qt st -> grown p st pt dlt c2 ->
  let v := qu st (gp_qh st) in
  grown p (mkgpst (gp_pass st) (gp_dist st) (gp_qu st) (gp_qh st + 1) (gp_qt st)) (upd b pt v 1) (dlt - velo s v * w0) (c2 - velo s v).
Proof.
  intros B Hl [G1 G2 G3 G4 G5 G6 G7] v. pose proof (gv_nnd _ V) as Nn. pose proof (bs_q _ _ _ _ _ B) as (Hq & _).
  destruct (bs_in _ _ _ _ _ B (gp_qh st) ltac:(lia)) as (Hv & Hd & Hp & _). fold v in Hv, Hd, Hp.
  assert (PT : forall u, isvert s u -> pa (upd b pt v 1) u = if v =? u then 1 else pa pt u) by (intros u Hu; unfold isvert in *; now rewrite at_upd by lia).
  assert (Ev : pa pt v = 2) by (apply G4; lia).
  constructor; cbn [gp_qh gp_qt gp_qu gp_pass].
  - now rewrite zlen_upd.
  - intros u Hu Hdu. rewrite PT by auto. destruct (v =? u); auto.
  - intros i Hi. destruct (bs_in _ _ _ _ _ B i ltac:(lia)) as (Vi & _). rewrite PT by auto. destruct (Z.eqb_spec v (qu st i)) as [|Ne]; [reflexivity|]. apply G3. assert (i <> gp_qh st) by (intros ->; apply Ne; reflexivity). lia.
  - intros i Hi. destruct (bs_in _ _ _ _ _ B i ltac:(lia)) as (Vi & _). rewrite PT by auto. destruct (Z.eqb_spec v (qu st i)) as [E|Ne]; [|apply G4; lia]. apply (bs_inj _ _ _ _ _ B) in E; lia.
  - intros u Hu Hdu Hn. rewrite PT by auto. destruct (Z.eqb_spec v u) as [<-|]; [congruence | auto].
  - rewrite !LD_upd, Ev by auto. change (2 =? 0) with false. change (2 =? 1) with false. change (1 =? 0) with false. change (1 =? 1) with true. cbv iota. lia.
  - rewrite LD_upd, Ev by auto. change (2 =? 2) with true. change (1 =? 2) with false. cbv iota. lia.
Qed.

Lemma grow_ok p fuel st pt dlt c2 : 1 <= p -> n < Z.of_nat fuel -> busy p st -> gp_qh st = 0 -> gp_qt st = 1 -> grown p st pt dlt c2 ->
  exists st' pt' dlt' c2', gpGrow fuel s w0 w1 p (st, pt, dlt, c2) = Ok (st', pt', dlt', c2') /\ busy p st' /\ done p st' (gp_qh st') /\ grown p st' pt' dlt' c2' /\
    (0 < dlt' -> gp_qh st' = gp_qt st') /\ 1 <= gp_qt st'.
Proof.
  intros Hp Hf B0 Eh Et G0. unfold gpGrow. cbv zeta.
  match goal with |- context [loop ?f ?B ?x] => destruct (wp_ok_inv (loop f B x) (fun '(st', pt', dlt', c2') => busy p st' /\ done p st' (gp_qh st') /\ grown p st' pt' dlt' c2' /\ (0 < dlt' -> gp_qh st' = gp_qt st') /\ 1 <= gp_qt st')) as ((((st' & pt') & dlt') & c2') & EX & X) end.
  { apply wp_loop with (I := fun '(st, pt, dlt, c2) => busy p st /\ done p st (gp_qh st) /\ grown p st pt dlt c2 /\ gp_qh st < gp_qt st) (m := fun '(st, pt, dlt, c2) => n - gp_qh st).
    - split; [exact B0|]. split; [intros i Hi; lia|]. split; [exact G0 | lia].
    - pose proof (bs_q _ _ _ _ _ B0). lia.
    - clear - Hp Hf R V Dcl Ddec HL. intros [[[st pt] dlt] c2] (B & Dn & G & Hl). destruct (bs_sz _ _ _ _ _ B) as [Z1 Z2 Z3]. pose proof (bs_q _ _ _ _ _ B) as ((Q0 & Q1) & Q2).
      rewrite rd_ok by lia. cbn [bind]. pose proof (grown_pop p st pt dlt c2 B Hl G) as GP. cbv zeta in GP.
      pose proof (arcs_start s D Dcl root p st B Hl Dn) as AS. 
      destruct (bs_in _ _ _ _ _ B (gp_qh st) ltac:(lia)) as (Vv & Dv & Pv & Cv). set (v := qu st (gp_qh st)) in *.
      pose proof (gv_nnd _ V) as Nn. pose proof Vv as Vv'. unfold isvert in Vv'. rewrite (rvelo_ok s R V v Vv). cbn [bind gp_dist]. rewrite rd_ok by lia. cbn [bind].
      pose proof (gw_len _ _ _ _ _ G) as Zt. rewrite wr_ok by lia. cbn [bind].
      rewrite (rvert_ok s v R V Vv), (rvend_ok s v R V Vv). cbn [bind]. pose proof (gv_range _ V v Vv) as Hr.
      set (d := at_ b (gp_dist st) v). clearbody d. set (st1 := mkgpst (gp_pass st) (gp_dist st) (gp_qu st) (gp_qh st + 1) (gp_qt st)) in *.
      match goal with |- context [for_ ?lo ?hi ?f ?x] => destruct (wp_ok_inv (for_ lo hi f x) (fun '(st', pt', dlt', c2') => arcs s D root p (gp_qh st + 1) v lo hi st' /\ grown p st' pt' dlt' c2' /\ gp_qt st <= gp_qt st')) as ((((st' & pt') & dlt') & c2') & -> & A' & G' & T') end.
      { apply wp_for with (I := fun e '(st', pt', dlt', c2') => arcs s D root p (gp_qh st + 1) v (vert s v) e st' /\ grown p st' pt' dlt' c2' /\ gp_qt st <= gp_qt st'); auto.
        - lia.
        - split; [exact AS|]. split; [exact GP | cbn [st1 gp_qt]; lia].
        - intros e [[[st' pt'] dlt'] c2'] He (A & G1 & T). assert (Ha : arc s v e) by (split; auto). destruct (gpArc_ok s R V D Dcl root p (d + 1) v e st' Hp (ar_busy _ _ _ _ _ _ _ _ _ A) Ha Dv Cv) as (X1 & X2 & X3 & X4 & X5 & X6).
          unfold gpGrowArc. rewrite X3. cbn [bind]. rewrite (rvelo_ok s R V _ X1). cbn [bind]. rewrite X4. cbn [bind].
          destruct (Z.ltb_spec (ps st' (edge s e)) p) as [Lt|Lt].
          + destruct (X5 Lt) as (Cw & _). destruct (push_ok s V D Dcl root p (d + 1) _ st' Hp (ar_busy _ _ _ _ _ _ _ _ _ A) X1 X2 Cw Lt) as (Y1 & _).
            pose proof (bs_q _ _ _ _ _ (ar_busy _ _ _ _ _ _ _ _ _ A)) as (Y2 & _). destruct (bs_sz _ _ _ _ _ (ar_busy _ _ _ _ _ _ _ _ _ A)) as [Z1' Z2' Z3']. pose proof (gw_len _ _ _ _ _ G1) as Zt'.
            pose proof X1 as X1'. unfold isvert in X1'. rewrite wr_ok by lia. cbn [bind]. rewrite wr_ok by lia. cbn [bind]. rewrite wr_ok by lia. cbn [bind]. rewrite wr_ok by lia. cbn [bind wp].
            destruct (arcs_push s V D Dcl root p (gp_qh st + 1) v _ e (d + 1) st' (edge s e) Hp ltac:(lia) A eq_refl Vv eq_refl (proj2 He) X2 X1 Cw Lt) as (Y3 & Y4).
            pose proof (grown_push p st' pt' dlt' c2' (d + 1) (edge s e) Hp (ar_busy _ _ _ _ _ _ _ _ _ A) G1 X1 X2 Cw Lt) as Y5.
            split; [exact Y3|]. split; [exact Y5 | cbn [gp_qt]; lia].
          + destruct (X6 Lt) as (Ew & _). cbn [wp]. split; [now apply arcs_skip | auto]. }
      cbn [bind]. destruct (arcs_end s D Dcl root p _ v st' Vv A') as (B' & Dn' & H'). pose proof (bs_q _ _ _ _ _ B') as Hq'.
      destruct (Z.ltb_spec 0 dlt') as [Hd|Hd], (Z.eqb_spec (gp_qh st') (gp_qt st')) as [E|E]; cbn [andb negb wp]; rewrite <- H' in Dn'.
      + repeat (split; [auto; lia|]). lia.
      + split; [|lia]. repeat (split; [auto; lia|]). lia.
      + repeat (split; [auto; lia|]). lia.
      + repeat (split; [auto; lia|]). lia. }
  exists st', pt', dlt', c2'. auto.
Qed.
End Comp.

(** ** The loop on components *)
Record fresh (root : Z) (st : gpst) (pt : list Z) : Prop := {
  fr_sz : sizes s st;
  fr_1 : forall v, isvert s v -> ps st v <> 0 -> pa pt v = 1;
  fr_0 : forall v, isvert s v -> ps st v = 0 -> pa pt v = 0;
  fr_cl : forall v w, isvert s v -> ps st v <> 0 -> adjacent s v w -> ps st w <> 0;
  fr_lt : forall v, isvert s v -> v < root -> ps st v <> 0 }.

Lemma load_vertex pt q : 0 < LD pt q -> exists v, isvert s v /\ pa pt v = q.
Proof.
  intros H. destruct (existsb (fun v => pa pt v =? q) (zseq b (nnd - b))) eqn:E.
  - apply existsb_exists in E. destruct E as (v & Hv & Ev). rewrite In_zseq in Hv. apply Z.eqb_eq in Ev. exists v. split; [unfold isvert; lia | exact Ev].
  - exfalso. assert (LD pt q = 0); [|lia]. apply zsum_zero. intros v Hv. destruct (Z.eqb_spec (pa pt v) q) as [E'|]; [|reflexivity].
    assert (existsb (fun v => pa pt v =? q) (zseq b (nnd - b)) = true); [|congruence]. apply existsb_exists. exists v. split; [rewrite In_zseq; lia | now apply Z.eqb_eq].
Qed.
Lemma LD_nonneg pt q : 0 <= LD pt q.
Proof. apply zsum_nonneg. intros v Hv. pose proof (gv_velo _ V v Hv). destruct (_ =? _); lia. Qed.

Lemma gp_comp fuel passnbr root st pt dlt c2 : n + 1 < Z.of_nat fuel -> b <= root < nnd -> 0 < dlt -> psep pt dlt c2 -> fresh root st pt ->
  exists root', root <= root' < nnd /\
    loop fuel (fun r => do p <- rd b (gp_pass st) r; if negb (p =? 0) then Ok (inl (r + 1)) else Ok (inr r)) root = Ok root' /\
    exists st1 dn pass, gpPasses fuel s passnbr root' st = Ok (st1, dn, pass) /\
    exists st2, gpStart s pass dn st1 = Ok st2 /\ rvelo s dn = Ok (velo s dn) /\ wr b pt dn 2 = Ok (upd b pt dn 2) /\
    exists st4 pt' dlt' c2', gpGrow fuel s w0 w1 pass (st2, upd b pt dn 2, dlt - velo s dn * w1, c2 + velo s dn) = Ok (st4, pt', dlt', c2') /\
      psep pt' dlt' c2' /\ (0 < dlt' -> fresh (root' + 1) st4 pt').
Proof.
  intros Hf Hr Hd [P1 P2 P3 P4 P5] [F1 F3 F4 F5 F6]. pose proof (gv_nnd _ V) as Nn. destruct F1 as [Z1 Z2 Z3].
  assert (Ex : exists u, isvert s u /\ ps st u = 0).
  { destruct (load_vertex pt 0) as (u & Hu & Eu); [pose proof (LD_nonneg pt 0); pose proof (LD_nonneg pt 1); nia|]. exists u. split; [exact Hu|].
    destruct (Z.eq_dec (ps st u) 0) as [|Hn]; [assumption|]. rewrite (F3 u Hu Hn) in Eu. lia. }
  destruct Ex as (u & Hu & Eu).
  match goal with |- context [loop fuel ?B root] => destruct (wp_ok_inv (loop fuel B root) (fun r => root <= r < nnd /\ ps st r = 0 /\ forall v, isvert s v -> v < r -> ps st v <> 0)) as (root' & EX & Hr' & E0 & Hb) end.
  { apply wp_loop with (I := fun r => root <= r <= u /\ forall v, isvert s v -> v < r -> ps st v <> 0) (m := fun r => nnd - r).
    - split; [|auto]. split; [lia|]. destruct (Z_lt_le_dec u root); [|lia]. exfalso. apply (F6 u Hu); auto.
    - lia.
    - intros r (H1 & H2). unfold isvert in Hu. rewrite rd_ok by lia. cbn [bind]. destruct (Z.eqb_spec (ps st r) 0) as [E|E]; cbn [negb wp].
      + split; [lia|]. auto.
      + split; [|lia]. split; [destruct (Z.eq_dec r u); [congruence | lia]|]. intros v Hv Hl. destruct (Z.eq_dec v r) as [->|]; [exact E | apply H2; auto; lia]. }
  exists root'. split; [exact Hr'|]. split; [exact EX|].
  set (D := fun v => isvert s v /\ ps st v <> 0).
  assert (Vr : isvert s root') by (unfold isvert; lia).
  assert (Dd : forall v, D v \/ ~ D v).
  { intros v. unfold D, isvert. destruct (Z_le_gt_dec b v), (Z_lt_le_dec v nnd), (Z.eq_dec (ps st v) 0); try (right; lia). left. lia. }
  assert (Dc : forall v w, D v -> adjacent s v w -> D w).
  { intros v w (H1 & H2) Ha. split; [apply (adj_vert s V v w Ha) | exact (F5 v w H1 H2 Ha)]. }
  assert (ND : forall v, isvert s v -> ~ D v -> ps st v = 0) by (intros v Hv Hn; destruct (Z.eq_dec (ps st v) 0); [assumption | exfalso; apply Hn; split; auto]).
  assert (Dr : ~ D root') by (intros (_ & X); congruence).
  assert (Id : idle s D root' 1 st).
  { constructor; [constructor; auto|..].
    - intros v Hv Hn. rewrite (ND v Hv Hn). lia.
    - intros v Hv Hn X. exfalso. apply X. auto.
    - intros v Hv (_ & X). exact X. }
  destruct (passes_ok s R V D Dc root' fuel passnbr st ltac:(lia) Id Vr Dr) as (st1 & dn & pass & E1 & Hp & Id1 & Vd & Dn & Cn).
  exists st1, dn, pass. split; [exact E1|].
  destruct (start_ok s V D Dc root' pass dn st1 Hp Id1 Vd Dn Cn) as (st2 & E2 & B2 & H2 & T2 & Q2). exists st2. split; [exact E2|]. split; [exact (rvelo_ok s R V dn Vd)|].
  pose proof Vd as Vd'. unfold isvert in Vd'. split; [apply wr_ok; lia|].
  assert (PT : forall v, isvert s v -> pa (upd b pt dn 2) v = if dn =? v then 2 else pa pt v) by (intros v Hv; unfold isvert in *; now rewrite at_upd by lia).
  assert (Ed : pa pt dn = 0) by (apply F4; auto).
  assert (G2 : grown D pass st2 (upd b pt dn 2) (dlt - velo s dn * w1) (c2 + velo s dn)).
  { constructor; rewrite ?H2, ?T2.
    - now rewrite zlen_upd.
    - intros v Hv Hdv. rewrite PT by auto. destruct (Z.eqb_spec dn v) as [<-|]; [contradiction|]. apply F3; [auto | apply Hdv].
    - intros; lia.
    - intros i Hi. replace i with 0 by lia. rewrite Q2, PT, Z.eqb_refl by auto. reflexivity.
    - intros v Hv Hdv Hn. rewrite PT by auto. destruct (Z.eqb_spec dn v) as [<-|]; [|apply F4; auto]. exfalso. apply Hn.
      destruct (bs_in _ _ _ _ _ B2 0 ltac:(lia)) as (_ & _ & X & _). rewrite Q2 in X. exact X.
    - rewrite !LD_upd, Ed by auto. change (0 =? 0) with true. change (0 =? 1) with false. change (2 =? 0) with false. change (2 =? 1) with false. cbv iota. lia.
    - rewrite LD_upd, Ed by auto. change (0 =? 2) with false. change (2 =? 2) with true. cbv iota. lia. }
  destruct (grow_ok D Dd Dc root' pass fuel st2 _ _ _ Hp ltac:(lia) B2 H2 T2 G2) as (st4 & pt' & dlt' & c2' & E4 & B4 & D4 & G4 & Hq & Ht).
  exists st4, pt', dlt', c2'. split; [exact E4|]. split; [exact (grown_psep D Dd Dc root' pass st4 pt' dlt' c2' B4 D4 G4)|].
  intros Hpos. specialize (Hq Hpos). rewrite Hq in D4.
  destruct (bs_in _ _ _ _ _ B4 0 ltac:(lia)) as (V0 & D0 & P0 & C0).
  pose proof (search_conn s V D Dc root' pass (qu st4 0) st4 Hp B4 D4 C0 P0 V0 D0) as SC.
  assert (NZ : forall v, isvert s v -> ps st4 v <> 0 -> D v \/ (~ D v /\ ps st4 v = pass)).
  { intros v Hv Hn. destruct (Dd v) as [|Hdv]; [left; assumption|]. right. split; [exact Hdv|]. apply (SC v). exact (bs_conn _ _ _ _ _ B4 v Hv Hdv Hn). }
  destruct G4 as [W1 W2 W3 W4 W5 W6 W7]. constructor.
  - apply (bs_sz _ _ _ _ _ B4).
  - intros v Hv Hn. destruct (NZ v Hv Hn) as [Hdv|(Hdv & E)]; [auto|]. destruct (bs_all _ _ _ _ _ B4 v Hv Hdv E) as (i & Hi & <-). apply W3. lia.
  - intros v Hv E. apply W5; auto; [|lia]. intros Hdv. exact (bs_D _ _ _ _ _ B4 v Hv Hdv E).
  - intros v w Hv Hn Ha. destruct (NZ v Hv Hn) as [Hdv|(Hdv & E)].
    + apply (bs_D _ _ _ _ _ B4); [apply (adj_vert s V v w Ha) | exact (Dc v w Hdv Ha)].
    + destruct (bs_all _ _ _ _ _ B4 v Hv Hdv E) as (i & Hi & Ei). rewrite <- Ei in Ha. rewrite (D4 i Hi w Ha). lia.
  - intros v Hv Hl. destruct (Z.eq_dec v root') as [->|].
    + destruct (SC root' (rt_refl _ _ _)) as (_ & _ & ->). lia.
    + apply (bs_D _ _ _ _ _ B4); auto. split; [auto|]. apply Hb; auto. lia.
Qed.
End Gp2.
