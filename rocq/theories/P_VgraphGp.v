(** Proofs about separation by graph growing from pseudo-peripheral vertices. *)
From Coq Require Import Relations.Relation_Operators.
From Verif Require Import Base Mem M_Graph M_Vgraph M_VgraphSt S_Graph S_Vgraph S_Color S_VgraphSt P_Graph P_Vgraph P_Vgraph2 P_Bgraph2 P_VgraphSt.

Section Gp.
Variable s : graph.
Hypothesis R : graph_readable s.
Hypothesis V : graph_valid s.
Notation b := (baseval s).
Notation n := (vertnbr s).
Notation nnd := (vertnnd s).
Notation ps st v := (at_ b (gp_pass st) v).
Notation qu st i := (at_ 0 (gp_qu st) i).

Definition conn : Z -> Z -> Prop := clos_refl_trans Z (adjacent s).
Lemma adj_sym v w : adjacent s v w -> adjacent s w v.
Proof. intros (e & Ha & <-). destruct (gv_sym _ V v e Ha) as (e' & Ha' & E & _). exists e'. auto. Qed.
Lemma adj_vert v w : adjacent s v w -> isvert s v /\ isvert s w.
Proof. intros (e & Ha & <-). split; [apply Ha | apply (gv_end _ V v e Ha)]. Qed.
Lemma conn_sym v w : conn v w -> conn w v.
Proof. induction 1; [apply rt_step; now apply adj_sym | apply rt_refl | eapply rt_trans; eauto]. Qed.
Lemma conn_closed (P : Z -> Prop) v w : (forall x y, P x -> adjacent s x y -> P y) -> conn v w -> P v -> P w.
Proof. intros Hc. induction 1; eauto. Qed.
Lemma rvelo_ok v : isvert s v -> rvelo s v = Ok (velo s v).
Proof.
  intros Vv. unfold rvelo, velo. pose proof (gr_velo _ R) as G1. pose proof (gv_nnd _ V). unfold isvert in Vv. destruct (velotab s) as [tv|]; [|reflexivity].
  apply rd_ok. specialize (G1 tv eq_refl). lia.
Qed.

(** ** Searches *)
Section Comp.
(** vertices of earlier components *)
Variable D : Z -> Prop.
Hypothesis Dcl : forall v w, D v -> adjacent s v w -> D w.
Variable root : Z.

Record sizes (st : gpst) : Prop := {
  sz_pass : zlen (gp_pass st) = n;
  sz_dist : zlen (gp_dist st) = n;
  sz_qu : zlen (gp_qu st) = n }.
(** between two searches; the next one has number [p] *)
Record idle (p : Z) (st : gpst) : Prop := {
  id_sz : sizes st;
  id_old : forall v, isvert s v -> ~ D v -> 0 <= ps st v < p;
  id_conn : forall v, isvert s v -> ~ D v -> ps st v <> 0 -> conn root v;
  id_D : forall v, isvert s v -> D v -> ps st v <> 0 }.
(** in search [p] *)
Record busy (p : Z) (st : gpst) : Prop := {
  bs_sz : sizes st;
  bs_q : 0 <= gp_qh st <= gp_qt st /\ gp_qt st <= n;
  bs_in : forall i, 0 <= i < gp_qt st -> isvert s (qu st i) /\ ~ D (qu st i) /\ ps st (qu st i) = p /\ conn root (qu st i);
  bs_inj : forall i j, 0 <= i < gp_qt st -> 0 <= j < gp_qt st -> qu st i = qu st j -> i = j;
  bs_all : forall v, isvert s v -> ~ D v -> ps st v = p -> exists i, 0 <= i < gp_qt st /\ qu st i = v;
  bs_old : forall v, isvert s v -> ~ D v -> 0 <= ps st v <= p;
  bs_conn : forall v, isvert s v -> ~ D v -> ps st v <> 0 -> conn root v;
  bs_D : forall v, isvert s v -> D v -> ps st v <> 0 }.
(** neighbours of the first [k] vertices of the queue are in the queue *)
Definition done (p : Z) (st : gpst) (k : Z) : Prop := forall i, 0 <= i < k -> forall w, adjacent s (qu st i) w -> ps st w = p.

Lemma start_ok p v st : 1 <= p -> idle p st -> isvert s v -> ~ D v -> conn root v ->
  exists st', gpStart s p v st = Ok st' /\ busy p st' /\ gp_qh st' = 0 /\ gp_qt st' = 1 /\ qu st' 0 = v.
Proof.
  intros Hp [[Z1 Z2 Z3] O1 O2 O3] Hv Hd Hc. unfold gpStart. pose proof Hv as Hv'. unfold isvert in Hv'. pose proof (gv_nnd _ V) as Nn.
  rewrite wr_ok by lia. cbn [bind]. rewrite wr_ok by lia. cbn [bind]. rewrite wr_ok by lia. cbn [bind]. eexists. split; [reflexivity|].
  cbn [gp_qh gp_qt gp_qu]. split; [|split; [reflexivity | split; [reflexivity|]]]; [|rewrite at_upd by lia; now rewrite Z.eqb_refl].
  assert (PS : forall w, isvert s w -> at_ b (upd b (gp_pass st) v p) w = if v =? w then p else ps st w) by (intros w Hw; unfold isvert in Hw; now rewrite at_upd by lia).
  assert (Q0 : at_ 0 (upd 0 (gp_qu st) 0 v) 0 = v) by (rewrite at_upd by lia; now rewrite Z.eqb_refl).
  constructor; cbn [gp_qh gp_qt gp_qu gp_pass].
  - constructor; cbn [gp_pass gp_dist gp_qu]; now rewrite zlen_upd.
  - lia.
  - intros i Hi. replace i with 0 by lia. rewrite Q0. rewrite PS, Z.eqb_refl by auto. auto.
  - intros; lia.
  - intros w Hw Hdw. rewrite PS by auto. destruct (Z.eqb_spec v w) as [<-|]; intros E; [exists 0; split; [lia | exact Q0]|]. specialize (O1 w Hw Hdw). lia.
  - intros w Hw Hdw. rewrite PS by auto. destruct (v =? w); [lia|]. specialize (O1 w Hw Hdw). lia.
  - intros w Hw Hdw. rewrite PS by auto. destruct (Z.eqb_spec v w) as [<-|]; auto.
  - intros w Hw Hdw. rewrite PS by auto. destruct (Z.eqb_spec v w); [lia | auto].
Qed.

Definition push (p d w : Z) (st : gpst) : gpst :=
  mkgpst (upd b (gp_pass st) w p) (upd b (gp_dist st) w d) (upd 0 (gp_qu st) (gp_qt st) w) (gp_qh st) (gp_qt st + 1).
Lemma push_ok p d w st : 1 <= p -> busy p st -> isvert s w -> ~ D w -> conn root w -> ps st w < p ->
  gp_qt st < n /\ busy p (push p d w st) /\ (forall i, 0 <= i < gp_qt st -> qu (push p d w st) i = qu st i) /\ qu (push p d w st) (gp_qt st) = w /\
  (forall u, isvert s u -> ps (push p d w st) u = if w =? u then p else ps st u).
Proof.
  intros Hp [[Z1 Z2 Z3] (Hq & Hn) B1 B2 B3 B4 B5 B6] Hw Hd Hc Hl. pose proof Hw as Hw'. unfold isvert in Hw'. pose proof (gv_nnd _ V) as Nn.
  assert (NI : forall i, 0 <= i < gp_qt st -> qu st i <> w) by (intros i Hi E; destruct (B1 i Hi) as (_ & _ & X & _); rewrite E in X; lia).
  assert (Hlt : gp_qt st < n).
  { assert (gp_qt st + 1 <= nnd - b); [|lia]. apply (inj_count _ b nnd (fun i => if i =? gp_qt st then w else qu st i)); try lia.
    - intros i Hi. destruct (Z.eqb_spec i (gp_qt st)); [lia|]. apply (B1 i). lia.
    - intros i j Hi Hj. destruct (Z.eqb_spec i (gp_qt st)), (Z.eqb_spec j (gp_qt st)); intros E; first [lia | exfalso; symmetry in E; revert E; apply NI; lia | exfalso; revert E; apply NI; lia | apply B2; auto; lia]. }
  split; [exact Hlt|]. unfold push. cbn [gp_qh gp_qt gp_qu gp_pass].
  assert (PS : forall u, isvert s u -> at_ b (upd b (gp_pass st) w p) u = if w =? u then p else ps st u) by (intros u Hu; unfold isvert in Hu; now rewrite at_upd by lia).
  assert (QO : forall i, 0 <= i < gp_qt st -> at_ 0 (upd 0 (gp_qu st) (gp_qt st) w) i = qu st i) by (intros i Hi; rewrite at_upd by lia; destruct (Z.eqb_spec (gp_qt st) i); [lia | reflexivity]).
  assert (QN : at_ 0 (upd 0 (gp_qu st) (gp_qt st) w) (gp_qt st) = w) by (rewrite at_upd by lia; now rewrite Z.eqb_refl).
  split; [|auto]. constructor; cbn [gp_qh gp_qt gp_qu gp_pass].
  - constructor; cbn [gp_pass gp_dist gp_qu]; now rewrite zlen_upd.
  - lia.
  - intros i Hi. destruct (Z.eq_dec i (gp_qt st)) as [->|].
    + rewrite QN, PS, Z.eqb_refl by auto. auto.
    + rewrite QO by lia. destruct (B1 i ltac:(lia)) as (X1 & X2 & X3 & X4). rewrite PS by auto. destruct (w =? qu st i); auto.
  - intros i j Hi Hj. destruct (Z.eq_dec i (gp_qt st)) as [->|], (Z.eq_dec j (gp_qt st)) as [->|]; rewrite ?QN; try rewrite !QO by lia; intros E; first [lia | exfalso; symmetry in E; revert E; apply NI; lia | exfalso; revert E; apply NI; lia | apply B2; auto; lia].
  - intros u Hu Hdu. rewrite PS by auto. destruct (Z.eqb_spec w u) as [<-|]; intros E; [exists (gp_qt st); split; [lia | exact QN]|].
    destruct (B3 u Hu Hdu E) as (i & Hi & Ei). exists i. split; [lia|]. rewrite QO by lia. exact Ei.
  - intros u Hu Hdu. rewrite PS by auto. destruct (w =? u); [lia | auto].
  - intros u Hu Hdu. rewrite PS by auto. destruct (Z.eqb_spec w u) as [<-|]; auto.
  - intros u Hu Hdu. rewrite PS by auto. destruct (Z.eqb_spec w u); [lia | auto].
Qed.

Lemma gpArc_ok p d v e st : 1 <= p -> busy p st -> arc s v e -> ~ D v -> conn root v ->
  let w := edge s e in
  isvert s w /\ ~ D w /\ redge s e = Ok w /\ rd b (gp_pass st) w = Ok (ps st w) /\
  (ps st w < p -> conn root w /\ gpArc s p d e st = Ok (push p d w st)) /\ (p <= ps st w -> ps st w = p /\ gpArc s p d e st = Ok st).
Proof.
  intros Hp B Ha Hd Hc w. pose proof (gv_nnd _ V) as Nn. assert (Hadj : adjacent s v w) by (exists e; auto). destruct (adj_vert _ _ Hadj) as (_ & Hw).
  assert (Hdw : ~ D w) by (intros X; apply Hd; exact (Dcl w v X (adj_sym _ _ Hadj))).
  destruct (bs_sz _ _ B) as [Z1 Z2 Z3]. pose proof Hw as Hw'. unfold isvert in Hw'.
  assert (E1 : redge s e = Ok w) by (apply (redge_ok s v e R Ha)). assert (E2 : rd b (gp_pass st) w = Ok (ps st w)) by (apply rd_ok; lia).
  repeat (split; [assumption|]). unfold gpArc. rewrite E1. cbn [bind]. rewrite E2. cbn [bind]. split.
  - intros Hl. assert (Hcw : conn root w) by (eapply rt_trans; [exact Hc | apply rt_step; exact Hadj]). split; [exact Hcw|].
    destruct (push_ok p d w st Hp B Hw Hdw Hcw Hl) as (Hq & _). pose proof (bs_q _ _ B) as Hqq. destruct (Z.ltb_spec (ps st w) p); [|lia]. rewrite wr_ok by lia. cbn [bind]. rewrite wr_ok by lia. cbn [bind]. rewrite wr_ok by lia. reflexivity.
  - intros Hl. pose proof (bs_old _ _ B w Hw Hdw). destruct (Z.ltb_spec (ps st w) p); [lia|]. split; [lia | reflexivity].
Qed.

(** state of the scan of the arcs of the vertex at the head [h - 1] of the queue *)
Record arcs (p h v lo e : Z) (st : gpst) : Prop := {
  ar_busy : busy p st;
  ar_h : gp_qh st = h;
  ar_v : qu st (h - 1) = v;
  ar_done : done p st (h - 1);
  ar_part : forall k, lo <= k < e -> ps st (edge s k) = p }.
Lemma arcs_push p h v lo e d st w : 1 <= p -> 1 <= h <= gp_qt st -> arcs p h v lo e st -> w = edge s e -> isvert s v -> lo = vert s v -> e < vend s v -> ~ D w -> isvert s w -> conn root w -> ps st w < p ->
  arcs p h v lo (e + 1) (push p d w st) /\ gp_qt (push p d w st) = gp_qt st + 1.
Proof.
  intros Hp Hh [B H1 H2 H3 H4] -> Hv -> He Hd Hw Hc Hl. destruct (push_ok p d (edge s e) st Hp B Hw Hd Hc Hl) as (X1 & X2 & X3 & X4 & X5). split; [|reflexivity].
  constructor; auto.
  - rewrite X3 by lia. exact H2.
  - intros i Hi w' Ha. rewrite X3 in Ha by lia. destruct (adj_vert _ _ Ha) as (_ & Vw). rewrite X5 by exact Vw. destruct (edge s e =? w'); [reflexivity|]. exact (H3 i Hi w' Ha).
  - intros k Hk. destruct (Z.eq_dec k e) as [->|].
    + rewrite X5, Z.eqb_refl by auto. reflexivity.
    + rewrite X5; [destruct (_ =? _); [reflexivity | apply H4; lia]|]. apply (gv_end _ V v). split; [exact Hv | lia].
Qed.
Lemma arcs_skip p h v lo e st : arcs p h v lo e st -> ps st (edge s e) = p -> arcs p h v lo (e + 1) st.
Proof. intros [B H1 H2 H3 H4] E. constructor; auto. intros k Hk. destruct (Z.eq_dec k e) as [->|]; [exact E | apply H4; lia]. Qed.
Lemma arcs_end p h v st : isvert s v -> arcs p h v (vert s v) (vend s v) st -> busy p st /\ done p st h /\ gp_qh st = h.
Proof.
  intros Hv [B H1 H2 H3 H4]. split; [exact B|]. split; [|exact H1]. intros i Hi w Ha. destruct (Z.eq_dec i (h - 1)) as [->|]; [|apply (H3 i ltac:(lia) w Ha)].
  rewrite H2 in Ha. destruct Ha as (e & (_ & He) & <-). now apply H4.
Qed.

(** Search over: the whole component has been seen *)
Lemma search_conn p v st : 1 <= p -> busy p st -> done p st (gp_qt st) -> conn root v -> ps st v = p -> isvert s v -> ~ D v ->
  forall u, conn root u -> isvert s u /\ ~ D u /\ ps st u = p.
Proof.
  intros Hp B Dn Hc Ev Hv Hd u Hcu.
  apply (conn_closed (fun x => isvert s x /\ ~ D x /\ ps st x = p) v u); auto.
  - intros x y (X1 & X2 & X3) Ha. destruct (adj_vert _ _ Ha) as (_ & Vy). split; [exact Vy|]. split; [intros Y; apply X2; exact (Dcl y x Y (adj_sym _ _ Ha))|].
    destruct (bs_all _ _ B x X1 X2 X3) as (i & Hi & <-). exact (Dn i Hi y Ha).
  - eapply rt_trans; [apply conn_sym; exact Hc | exact Hcu].
Qed.
Lemma search_over p v st : 1 <= p -> busy p st -> done p st (gp_qt st) -> conn root v -> ps st v = p -> isvert s v -> ~ D v ->
  forall u, isvert s u -> ~ D u -> ps st u <> 0 -> ps st u = p.
Proof.
  intros Hp B Dn Hc Ev Hv Hd u Hu Hdu Hn. apply (search_conn p v st Hp B Dn Hc Ev Hv Hd u). exact (bs_conn _ _ B u Hu Hdu Hn).
Qed.

Lemma busy_head p st : busy p st -> gp_qh st < gp_qt st -> busy p (mkgpst (gp_pass st) (gp_dist st) (gp_qu st) (gp_qh st + 1) (gp_qt st)).
Proof. intros [[Z1 Z2 Z3] Hq B1 B2 B3 B4 B5 B6] Hl. constructor; cbn [gp_qh gp_qt gp_qu gp_pass]; auto; [constructor; auto | lia]. Qed.
Lemma arcs_start p st : busy p st -> gp_qh st < gp_qt st -> done p st (gp_qh st) ->
  arcs p (gp_qh st + 1) (qu st (gp_qh st)) (vert s (qu st (gp_qh st))) (vert s (qu st (gp_qh st))) (mkgpst (gp_pass st) (gp_dist st) (gp_qu st) (gp_qh st + 1) (gp_qt st)).
Proof.
  intros B Hl Dn. constructor; cbn [gp_qh gp_qt gp_qu gp_pass].
  - now apply busy_head.
  - reflexivity.
  - f_equal. lia.
  - replace (gp_qh st + 1 - 1) with (gp_qh st) by lia. exact Dn.
  - intros; lia.
Qed.

Lemma scan_ok p fuel st dn dv dd fl : 1 <= p -> n < Z.of_nat fuel -> busy p st -> gp_qh st = 0 -> gp_qt st = 1 -> isvert s dn -> ~ D dn -> conn root dn ->
  exists st' dn' dv' dd' fl', gpScan fuel s p st (dn, dv, dd, fl) = Ok (st', (dn', dv', dd', fl')) /\ idle (p + 1) st' /\ (isvert s dn' /\ ~ D dn' /\ conn root dn') /\
    (forall u, isvert s u -> ~ D u -> ps st' u <> 0 -> ps st' u = p).
Proof.
  intros Hp Hf B0 Eh Et Hv Hd Hc. unfold gpScan. cbv zeta.
  match goal with |- context [loop ?f ?B ?x] => destruct (wp_ok_inv (loop f B x) (fun '(st', (dn', dv', dd', fl')) => busy p st' /\ done p st' (gp_qt st') /\ 1 <= gp_qt st' /\ (isvert s dn' /\ ~ D dn' /\ conn root dn'))) as ((st' & (((dn' & dv') & dd') & fl')) & EX & B' & Dn' & Q' & G') end.
  { apply wp_loop with (I := fun '(st, (dn, dv, dd, fl)) => busy p st /\ done p st (gp_qh st) /\ gp_qh st < gp_qt st /\ (isvert s dn /\ ~ D dn /\ conn root dn))
      (m := fun '(st, (dn, dv, dd, fl)) => n - gp_qh st).
    - split; [exact B0|]. split; [intros i Hi; lia|]. split; [lia | auto].
    - pose proof (bs_q _ _ B0). lia.
    - clear - Hp Hf R V Dcl. intros [st [[[dn dv] dd] fl]] (B & Dn & Hl & G). destruct (bs_sz _ _ B) as [Z1 Z2 Z3]. pose proof (bs_q _ _ B) as ((Q0 & Q1) & Q2).
      rewrite rd_ok by lia. cbn [bind]. set (v := qu st (gp_qh st)). destruct (bs_in _ _ B (gp_qh st) ltac:(lia)) as (Vv & Dv & Pv & Cv). fold v in Vv, Dv, Pv, Cv.
      pose proof (gv_nnd _ V) as Nn. pose proof Vv as Vv'. unfold isvert in Vv'. cbn [gp_dist]. rewrite rd_ok by lia. cbn [bind].
      rewrite (rvert_ok s v R V Vv), (rvend_ok s v R V Vv). cbn [bind]. pose proof (gv_range _ V v Vv) as Hr.
      set (d := at_ b (gp_dist st) v). clearbody d.
      match goal with |- context [for_ ?lo ?hi ?f ?x] => destruct (wp_ok_inv (for_ lo hi f x) (fun st' => arcs p (gp_qh st + 1) v lo hi st' /\ gp_qt st <= gp_qt st')) as (st' & -> & A' & T') end.
      { apply wp_for with (I := fun e st' => arcs p (gp_qh st + 1) v (vert s v) e st' /\ gp_qt st <= gp_qt st'); auto; [lia | split; [now apply arcs_start | cbn [gp_qt]; lia]|].
        intros e st' He (A & T). assert (Ha : arc s v e) by (split; auto). destruct (gpArc_ok p (d + 1) v e st' Hp (ar_busy _ _ _ _ _ _ A) Ha Dv Cv) as (X1 & X2 & _ & _ & X5 & X6).
        destruct (Z_lt_le_dec (ps st' (edge s e)) p) as [L|L].
        - destruct (X5 L) as (Cw & ->). cbn [wp]. destruct (arcs_push p (gp_qh st + 1) v _ e (d + 1) st' (edge s e) Hp ltac:(lia) A eq_refl Vv eq_refl (proj2 He) X2 X1 Cw L) as (Y1 & Y2). split; [exact Y1 | lia].
        - destruct (X6 L) as (Ew & ->). cbn [wp]. split; [now apply arcs_skip | exact T]. }
      cbn [bind]. destruct (arcs_end p _ v st' Vv A') as (B' & Dn' & H').
      set (dm := if (dv <? d) || _ then _ else _).
      assert (Gm : let '(dn', _, _, _) := dm in isvert s dn' /\ ~ D dn' /\ conn root dn') by (unfold dm; destruct ((dv <? d) || _); auto). clearbody dm. destruct dm as [[[dn1 dv1] dd1] fl1].
      pose proof (bs_q _ _ B') as Hq'. destruct (Z.eqb_spec (gp_qh st') (gp_qt st')) as [E|E]; cbn [wp].
      + split; [exact B'|]. split; [rewrite <- E, H'; exact Dn'|]. split; [lia | exact Gm].
      + split; [|lia]. split; [exact B'|]. split; [rewrite H'; exact Dn'|]. split; [lia | exact Gm]. }
  exists st', dn', dv', dd', fl'. split; [exact EX|].
  destruct (bs_in _ _ B' 0 ltac:(lia)) as (V0 & D0 & P0 & C0). pose proof (search_over p (qu st' 0) st' Hp B' Dn' C0 P0 V0 D0) as SO.
  split; [|split; [exact G' | exact SO]]. destruct B'. constructor; auto. intros v Hv' Hd'. specialize (bs_old0 v Hv' Hd'). lia.
Qed.

Lemma passes_ok fuel passnbr st : n < Z.of_nat fuel -> idle 1 st -> isvert s root -> ~ D root ->
  exists st' dn pass, gpPasses fuel s passnbr root st = Ok (st', dn, pass) /\ 1 <= pass /\ idle pass st' /\ isvert s dn /\ ~ D dn /\ conn root dn.
Proof.
  intros Hf I0 Hr Hd. unfold gpPasses.
  match goal with |- context [loop ?f ?B ?x] => destruct (wp_ok_inv (loop f B x) (fun '(st', dn, pass) => 1 <= pass /\ idle pass st' /\ isvert s dn /\ ~ D dn /\ conn root dn)) as (((st' & dn) & pass) & EX & G) end.
  { apply wp_loop with (I := fun '(st, pass, (dn, dv, dd, fl)) => 1 <= pass /\ idle pass st /\ (isvert s dn /\ ~ D dn /\ conn root dn)) (m := fun '(st, pass, (dn, dv, dd, fl)) => Z.max 0 (passnbr - pass)).
    - split; [lia|]. split; [exact I0|]. split; [exact Hr|]. split; [exact Hd|]. apply rt_refl.
    - lia.
    - intros [[st1 pass] [[[dn dv] dd] fl]] (Hp & I1 & G1 & G2 & G3). destruct (Z.ltb_spec pass passnbr) as [Hl|Hl]; cbn [andb]; [|cbn [wp]; auto].
      destruct fl; [|cbn [wp]; auto]. destruct (start_ok pass dn st1 Hp I1 G1 G2 G3) as (st2 & -> & B2 & H2 & T2 & _). cbn [bind].
      destruct (scan_ok pass fuel st2 dn dv dd false Hp Hf B2 H2 T2 G1 G2 G3) as (st3 & dn' & dv' & dd' & fl' & -> & I3 & G' & _). cbn [bind wp]. split; [|lia]. split; [lia|]. auto. }
  exists st', dn, pass. auto.
Qed.
End Comp.
End Gp.
