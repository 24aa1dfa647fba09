(** Proofs about separation by greedy graph growing: the moves. *)
From Verif Require Import Base Mem M_Graph M_Vgraph M_VgraphSt M_VgraphGg S_Graph S_Vgraph S_Color S_VgraphSt S_VgraphGg P_Graph P_Vgraph P_Vgraph2 P_VgraphGp.

Section Gg.
Variable s : graph.
Hypothesis R : graph_readable s.
Hypothesis V : graph_valid s.
Notation b := (baseval s).
Notation n := (vertnbr s).
Notation nnd := (vertnnd s).
Notation S_ st v := (at_ b st v).
Notation cls st v := (Z.min (at_ b st v) 2).

(** number of arcs of [v], in a range, that lead to [u] *)
Definition cnt (lo hi u : Z) : Z := zcount lo hi (fun e => edge s e =? u).
Lemma cnt_S lo hi u : lo <= hi -> cnt lo (hi + 1) u = cnt lo hi u + b2z (edge s hi =? u).
Proof. intros. unfold cnt. now rewrite zcount_snoc. Qed.
Lemma cnt_split lo hi mid u : lo <= mid <= hi -> cnt lo hi u = cnt lo mid u + cnt mid hi u.
Proof. intros. unfold cnt, zcount. now apply zsum_split. Qed.
Lemma cnt_nonneg lo hi u : 0 <= cnt lo hi u.
Proof. apply zcount_nonneg. Qed.
(** load of the neighbours of [u] in part 0 *)
Definition Z0 (st : list Z) (u : Z) : Z := zsum (vert s u) (vend s u) (fun e => if S_ st (edge s e) =? 0 then velo s (edge s e) else 0).
Lemma Z0_cls st st' u : isvert s u -> (forall v, isvert s v -> (S_ st v =? 0) = (S_ st' v =? 0)) -> Z0 st u = Z0 st' u.
Proof. intros Hu H. apply zsum_ext. intros e He. rewrite H; [reflexivity|]. apply (gv_end s V u e). split; auto. Qed.
Lemma by_end v f : isvert s v -> zsum (vert s v) (vend s v) (fun e => f (edge s e)) = zsum b nnd (fun u => mult s v u * f u).
Proof.
  intros Hv. unfold mult, zcount. rewrite (zsum_ext b nnd _ (fun u => zsum (vert s v) (vend s v) (fun e => b2z (edge s e =? u) * f u))).
  2: { intros u _. rewrite Z.mul_comm, <- zsum_scale. apply zsum_ext. intros; ring. }
  rewrite (zsum_swap b nnd). apply zsum_ext. intros e He. pose proof (gv_end s V v e (conj Hv He)) as HE.
  rewrite (zsum_single _ _ _ (edge s e)); [rewrite Z.eqb_refl; cbn [b2z]; ring | apply HE|]. intros i _ Hi. destruct (Z.eqb_spec (edge s e) i); [congruence | cbn [b2z]; ring].
Qed.
Lemma Z0_mult st u : isvert s u -> Z0 st u = zsum b nnd (fun w => mult s u w * (if S_ st w =? 0 then velo s w else 0)).
Proof. intros Hu. unfold Z0. apply (by_end u (fun w => if S_ st w =? 0 then velo s w else 0) Hu). Qed.
(** a vertex leaves part 0 *)
Lemma Z0_leave st st' x u : isvert s u -> isvert s x -> S_ st x = 0 -> S_ st' x <> 0 -> (forall v, isvert s v -> v <> x -> (S_ st v =? 0) = (S_ st' v =? 0)) ->
  Z0 st u = Z0 st' u + velo s x * cnt (vert s x) (vend s x) u.
Proof.
  intros Hu Hx E0 E1 H. rewrite !Z0_mult by auto. change (cnt (vert s x) (vend s x) u) with (mult s x u). rewrite (mult_sym s x u) by auto.
  rewrite (zsum_upd b nnd (fun w => mult s u w * (if S_ st' w =? 0 then velo s w else 0)) _ x); [|exact Hx|].
  - rewrite E0. destruct (Z.eqb_spec (S_ st' x) 0); [congruence|]. change (0 =? 0) with true. cbv iota. ring.
  - intros i Hi Hne. now rewrite H.
Qed.

Definition chained (st sep : list Z) : Prop := NoDup sep /\ (forall u, In u sep -> isvert s u) /\ forall u, isvert s u -> (S_ st u = 2 <-> In u sep).
Record ginv (st gn : list Z) : Prop := {
  gi_st : zlen st = n;
  gi_gn : zlen gn = n;
  gi_val : forall u, isvert s u -> 0 <= S_ st u <= 3;
  gi_gain : forall u, isvert s u -> 2 <= S_ st u -> at_ b gn u = Z0 st u - velo s u }.

Lemma NN : nnd = b + n /\ 0 <= n. Proof. split; [apply (gv_nnd s V) | apply (gv_size s V)]. Qed.
Lemma redge' v e : arc s v e -> redge s e = Ok (edge s e). Proof. intros A. now apply (redge_ok s v e). Qed.
Lemma vread v : isvert s v -> rvert s v = Ok (vert s v) /\ rvend s v = Ok (vend s v).
Proof. intros Hv. split; [now apply rvert_ok | now apply rvend_ok]. Qed.

(** A vertex of part 0 enters the separator *)
Lemma toSep x st gn sep : ginv st gn -> chained st sep -> isvert s x -> S_ st x = 0 ->
  exists st' gn' sep' acc, for_ (vert s x) (vend s x) (ggArc2 s (velo s x)) (upd b st x 2, gn, x :: sep, - velo s x) = Ok (st', gn', sep', acc) /\
    ginv st' (upd b gn' x acc) /\ chained st' sep' /\ zlen gn' = n /\ forall u, isvert s u -> cls st' u = if u =? x then 2 else cls st u.
Proof.
  intros [L1 L2 VL GN] (C1 & C2 & C3) Hx Ex. pose proof NN as (N1 & N2). pose proof Hx as Hx'. unfold isvert in Hx'.
  set (st1 := upd b st x 2).
  assert (A1 : forall u, isvert s u -> S_ st1 u = if x =? u then 2 else S_ st u) by (intros u Hu; unfold st1, isvert in *; rewrite at_upd by lia; reflexivity).
  assert (Ch1 : chained st1 (x :: sep)).
  { split; [constructor; [|exact C1]|split].
    - intros Hi. apply C3 in Hi; [|exact Hx]. lia.
    - intros u [<-|Hu]; auto.
    - intros u Hu. rewrite A1 by auto. cbn [In]. destruct (Z.eqb_spec x u) as [->|Hn]; [tauto|]. rewrite (C3 u Hu). tauto. }
  pose proof (gv_range s V x Hx) as [Rx1 Rx2].
  match goal with |- context [for_ ?lo ?hi ?f ?i] => destruct (wp_ok_inv (for_ lo hi f i) (fun '(st', gn', sep', acc) =>
     zlen st' = n /\ zlen gn' = n /\ (forall u, isvert s u -> cls st' u = cls st1 u /\ 0 <= S_ st' u <= 3) /\ chained st' sep' /\ acc = Z0 st1 x - velo s x /\
     forall u, isvert s u -> u <> x -> 2 <= S_ st1 u -> at_ b gn' u = Z0 st1 u - velo s u)) as ((((st' & gn') & sep') & acc) & E & Q1 & Q2 & Q3 & Q4 & Q5 & Q6) end.
  - apply wp_for with (I := fun e '(st', gn', sep', acc) => zlen st' = n /\ zlen gn' = n /\ (forall u, isvert s u -> cls st' u = cls st1 u /\ 0 <= S_ st' u <= 3) /\ chained st' sep' /\
      acc = zsum (vert s x) e (fun i => if S_ st1 (edge s i) =? 0 then velo s (edge s i) else 0) - velo s x /\
      forall u, isvert s u -> u <> x -> 2 <= S_ st1 u -> at_ b gn' u = Z0 st1 u - velo s u + velo s x * cnt e (vend s x) u); [lia| | |].
    + unfold st1 at 1. rewrite zlen_upd. split; [auto|]. split; [auto|]. split; [|split; [exact Ch1|split]].
      * intros u Hu. split; [reflexivity|]. rewrite A1 by auto. destruct (x =? u); [lia | auto].
      * rewrite zsum_nil by lia. lia.
      * intros u Hu Hne H2. rewrite A1 in H2 by auto. destruct (Z.eqb_spec x u); [congruence|]. rewrite (GN u Hu H2).
        rewrite (Z0_leave st st1 x u Hu Hx Ex); [lia | rewrite A1 by auto; rewrite Z.eqb_refl; lia|]. intros v Hv Hn. rewrite A1 by auto. destruct (Z.eqb_spec x v); [congruence | reflexivity].
    + intros e [[[st' gn'] sep'] acc] He (I1 & I2 & I3 & I4 & I5 & I6). unfold ggArc2. assert (Ha : arc s x e) by (split; auto). rewrite (redge' x e Ha). cbn [bind].
      pose proof (gv_end s V x e Ha) as Hw. pose proof (gv_loop s V x e Ha) as Hl. set (w := edge s e) in *. pose proof Hw as Hw'. unfold isvert in Hw'.
      rewrite rd_ok by lia. cbn [bind]. destruct (I3 w Hw) as (Cw & Vw).
      assert (Cn : forall u, cnt e (vend s x) u = b2z (w =? u) + cnt (e + 1) (vend s x) u) by (intros u; unfold cnt, zcount; rewrite zsum_cons by lia; reflexivity).
      assert (Zs : zsum (vert s x) (e + 1) (fun i => if S_ st1 (edge s i) =? 0 then velo s (edge s i) else 0) = zsum (vert s x) e (fun i => if S_ st1 (edge s i) =? 0 then velo s (edge s i) else 0) + (if S_ st1 w =? 0 then velo s w else 0)) by (rewrite zsum_snoc by lia; reflexivity).
      destruct (Z.eqb_spec (S_ st' w) 0) as [E0|E0].
      * rewrite (rvelo_ok s R V w Hw). cbn [bind wp]. split; [auto|]. split; [auto|]. split; [auto|]. split; [auto|]. split.
        { rewrite Zs. assert (S_ st1 w = 0) as -> by lia. change (0 =? 0) with true. cbv iota. lia. }
        intros u Hu Hne H2. rewrite (I6 u Hu Hne H2), Cn. destruct (Z.eqb_spec w u) as [Eu|]; [|cbn [b2z]; lia]. exfalso. rewrite <- Eu in H2. lia.
      * destruct (Z.eqb_spec (S_ st1 w) 0) as [E1|E1]; [lia|].
        destruct (Z.leb_spec 2 (S_ st' w)) as [H2|H2].
        2: { cbn [wp]. split; [auto|]. split; [auto|]. split; [auto|]. split; [auto|]. split; [lia|].
             intros u Hu Hne H3. rewrite (I6 u Hu Hne H3), Cn. destruct (Z.eqb_spec w u) as [Eu|]; [|cbn [b2z]; lia]. exfalso. rewrite <- Eu in H3. lia. }
        rewrite rd_ok by lia. cbn [bind]. rewrite wr_ok by lia. cbn [bind].
        assert (G' : forall u, isvert s u -> u <> x -> 2 <= S_ st1 u -> at_ b (upd b gn' w (at_ b gn' w - velo s x)) u = Z0 st1 u - velo s u + velo s x * cnt (e + 1) (vend s x) u).
        { intros u Hu Hne H3. unfold isvert in Hu. rewrite at_upd by lia. destruct (Z.eqb_spec w u) as [Eu|Hn].
          - rewrite <- Eu in *. rewrite (I6 w Hw ltac:(lia) H3), Cn, Z.eqb_refl. cbn [b2z]. lia.
          - rewrite (I6 u Hu Hne H3), Cn. destruct (Z.eqb_spec w u); [congruence | cbn [b2z]; lia]. }
        destruct (Z.leb_spec 3 (S_ st' w)) as [H4|H4].
        -- rewrite wr_ok by lia. cbn [bind wp]. rewrite !zlen_upd. split; [auto|]. split; [auto|]. split; [|split; [|split; [lia | exact G']]].
           ++ intros u Hu. pose proof (I3 u Hu). unfold isvert in Hu. rewrite at_upd by lia. destruct (Z.eqb_spec w u) as [Eu|]; [|auto]. rewrite <- Eu in *. lia.
           ++ destruct I4 as (J1 & J2 & J3). split; [constructor; [|exact J1]|split].
              ** intros Hi. apply J3 in Hi; [lia | exact Hw].
              ** intros u [<-|Hu]; auto.
              ** intros u Hu. pose proof (J3 u Hu) as J. unfold isvert in Hu. rewrite at_upd by lia. cbn [In]. destruct (Z.eqb_spec w u); [tauto|]. rewrite J. tauto.
        -- cbn [wp]. rewrite zlen_upd. split; [auto|]. split; [auto|]. split; [auto|]. split; [auto|]. split; [lia | exact G'].
    + intros [[[st' gn'] sep'] acc] (I1 & I2 & I3 & I4 & I5 & I6). split; [auto|]. split; [auto|]. split; [auto|]. split; [auto|]. split; [rewrite I5; reflexivity|].
      intros u Hu Hne H2. rewrite (I6 u Hu Hne H2). unfold cnt. rewrite zcount_nil by lia. lia.
  - exists st', gn', sep', acc. split; [exact E|]. split; [|split; [exact Q4|split; [exact Q2|]]].
    + assert (ZZ : forall u, isvert s u -> Z0 st' u = Z0 st1 u).
      { intros u Hu. apply Z0_cls; auto. intros v Hv. destruct (Q3 v Hv) as (Cv & Vv). destruct (Z.eqb_spec (S_ st' v) 0), (Z.eqb_spec (S_ st1 v) 0); auto; lia. }
      constructor; rewrite ?zlen_upd; auto.
      * intros u Hu. apply Q3; auto.
      * intros u Hu H2. rewrite ZZ by auto. destruct (Q3 u Hu) as (Cu & _). pose proof Hu as Hu'. unfold isvert in Hu'. rewrite at_upd by lia. destruct (Z.eqb_spec x u) as [<-|Hne]; [exact Q5|]. apply Q6; auto. lia.
    + intros u Hu. destruct (Q3 u Hu) as (-> & _). rewrite A1 by auto. rewrite (Z.eqb_sym u x). destruct (x =? u); [reflexivity | reflexivity].
Qed.

(** The arcs of a vertex that has just entered part 1 *)
Lemma arcs_ok v st gn : ginv st gn -> isvert s v -> (forall u, isvert s u -> S_ st u <> 2) ->
  exists st' gn' sep', for_ (vert s v) (vend s v) (ggArc s) (st, gn, nil) = Ok (st', gn', sep') /\ ginv st' gn' /\ chained st' sep' /\
    forall u, isvert s u -> cls st' u = if (S_ st u =? 0) && (0 <? mult s v u) then 2 else cls st u.
Proof.
  intros G Hv N2. pose proof NN as (N1 & N0). pose proof (gv_range s V v Hv) as [Rv1 Rv2].
  match goal with |- context [for_ ?lo ?hi ?f ?i] => destruct (wp_ok_inv (for_ lo hi f i) (fun '(st', gn', sep') => ginv st' gn' /\ chained st' sep' /\
    forall u, isvert s u -> cls st' u = if (S_ st u =? 0) && (0 <? mult s v u) then 2 else cls st u)) as (((st' & gn') & sep') & E & Q1 & Q2 & Q3) end.
  2: { exists st', gn', sep'. auto. }
  apply wp_for with (I := fun e '(st', gn', sep') => ginv st' gn' /\ chained st' sep' /\
    forall u, isvert s u -> cls st' u = if (S_ st u =? 0) && (0 <? cnt (vert s v) e u) then 2 else cls st u); [lia| | |].
  - split; [exact G|]. split; [split; [constructor|split; [intros u []|]]; intros u Hu; split; [intros X; destruct (N2 u Hu X) | intros []]|].
    intros u Hu. unfold cnt. rewrite zcount_nil by lia. now rewrite andb_false_r.
  - intros e [[st' gn'] sep'] He (I1 & I2 & I3). unfold ggArc. assert (Ha : arc s v e) by (split; auto). rewrite (redge' v e Ha). cbn [bind].
    pose proof (gv_end s V v e Ha) as Hw. set (w := edge s e) in *. pose proof Hw as Hw'. unfold isvert in Hw'. pose proof (gi_st _ _ I1) as L1. pose proof (gi_gn _ _ I1) as L2.
    rewrite rd_ok by lia. cbn [bind].
    assert (Cn : forall u, cnt (vert s v) (e + 1) u = cnt (vert s v) e u + b2z (w =? u)) by (intros u; apply cnt_S; lia).
    pose proof (I3 w Hw) as Cw. pose proof (gi_val _ _ I1 w Hw) as Vw. pose proof (gi_val _ _ G w Hw) as Vw0.
    destruct (Z.eqb_spec (S_ st' w) 0) as [E0|E0].
    + rewrite wr_ok by lia. cbn [bind]. rewrite (rvelo_ok s R V w Hw). destruct (vread w Hw) as (-> & ->). cbn [bind].
      destruct (toSep w st' gn' sep' I1 I2 Hw E0) as (st2 & gn2 & sep2 & acc & -> & T1 & T2 & T3 & T4). cbn [bind]. rewrite wr_ok by lia. cbn [bind wp].
      split; [exact T1|]. split; [exact T2|]. intros u Hu. rewrite T4 by auto. rewrite Cn. pose proof (cnt_nonneg (vert s v) e u). rewrite (Z.eqb_sym w u). destruct (Z.eqb_spec u w) as [->|Hn]; cbn [b2z].
      * destruct (Z.eqb_spec (S_ st w) 0); cbn [andb] in *; [|lia]. destruct (Z.ltb_spec 0 (cnt (vert s v) e w + 1)); [reflexivity | lia].
      * rewrite I3 by auto. now rewrite Z.add_0_r.
    + cbn [wp]. split; [exact I1|]. split; [exact I2|]. intros u Hu. rewrite I3 by auto. rewrite Cn. pose proof (cnt_nonneg (vert s v) e u). destruct (Z.eqb_spec w u) as [Eu|]; cbn [b2z]; [|now rewrite Z.add_0_r].
      rewrite <- Eu in *. destruct (Z.eqb_spec (S_ st w) 0); cbn [andb] in *; [|reflexivity]. destruct (Z.ltb_spec 0 (cnt (vert s v) e w)); destruct (Z.ltb_spec 0 (cnt (vert s v) e w + 1)); lia.
  - intros [[st' gn'] sep'] (I1 & I2 & I3). auto.
Qed.

Lemma relink_ok sep : forall st, zlen st = n -> (forall u, In u sep -> isvert s u) ->
  exists st', ggRelink b sep st = Ok st' /\ zlen st' = n /\ (forall u, In u sep -> S_ st' u = 3) /\ forall u, isvert s u -> ~ In u sep -> S_ st' u = S_ st u.
Proof.
  pose proof NN as (N1 & N2). induction sep as [|x sep IH]; intros st Hz Hs; cbn [ggRelink].
  - exists st. split; [reflexivity|]. split; [exact Hz|]. split; [intros u [] | auto].
  - assert (Hx : isvert s x) by (apply Hs; now left). pose proof Hx as Hx'. unfold isvert in Hx'. rewrite wr_ok by lia. cbn [bind].
    destruct (IH (upd b st x 3)) as (st' & E & I1 & I2 & I3); [now rewrite zlen_upd | intros u Hu; apply Hs; now right |]. exists st'. split; [exact E|]. split; [exact I1|]. split.
    + intros u [<-|Hu]; [|auto]. destruct (in_dec Z.eq_dec x sep) as [Hi|Hi]; [auto|]. rewrite I3 by auto. rewrite at_upd by lia. now rewrite Z.eqb_refl.
    + intros u Hu Hn. rewrite I3; [|auto|intros Hi; apply Hn; now right]. unfold isvert in Hu. rewrite at_upd by lia. destruct (Z.eqb_spec x u) as [->|]; [exfalso; apply Hn; now left | reflexivity].
Qed.

(** ** Loads *)
Definition CL (st : list Z) (q : Z) : Z := zsum b nnd (fun v => if cls st v =? q then velo s v else 0).
Definition rest (st : list Z) : Z := zcount b nnd (fun v => negb (S_ st v =? 1)).
Variables w0 w1 : Z.
Record gstate (x : ggst) : Prop := {
  gt_inv : ginv (gg_st x) (gg_gn x);
  gt_no2 : forall u, isvert s u -> S_ (gg_st x) u <> 2;
  gt_sep : forall u w, adjacent s u w -> S_ (gg_st x) u = 1 -> S_ (gg_st x) w <> 0;
  gt_dlt : gg_dlt x = CL (gg_st x) 0 * w1 - CL (gg_st x) 1 * w0;
  gt_c2 : gg_c2 x = CL (gg_st x) 2 }.

Lemma CL_upd st v x q : zlen st = n -> isvert s v -> CL (upd b st v x) q = CL st q - (if cls st v =? q then velo s v else 0) + (if Z.min x 2 =? q then velo s v else 0).
Proof.
  intros Hz Hv. pose proof NN as (N1 & N2). unfold CL. pose proof Hv as Hv'. unfold isvert in Hv'.
  rewrite (zsum_upd b nnd (fun v => if cls st v =? q then velo s v else 0) _ v); [|exact Hv|].
  - rewrite at_upd by lia. now rewrite Z.eqb_refl.
  - intros i Hi Hne. rewrite at_upd by lia. destruct (Z.eqb_spec v i); [congruence | reflexivity].
Qed.

Lemma move_ok ab v x : gstate x -> isvert s v -> S_ (gg_st x) v = 3 ->
  exists r, ggMove s ab w0 w1 v x = Ok r /\ match r with None => True | Some y => gstate y /\ rest (gg_st y) < rest (gg_st x) /\ 0 <= rest (gg_st y) end.
Proof.
  intros [G N2 SP DL C2] Hv E3. pose proof NN as (N1 & N0). unfold ggMove. cbv zeta. rewrite (rvelo_ok s R V v Hv). cbn [bind].
  destruct (gg_dlt x <? ab (gg_dlt x - velo s v * w0)); [eexists; split; [reflexivity | exact I]|].
  set (st := gg_st x) in *. set (gn := gg_gn x) in *. pose proof (gi_st _ _ G) as L1. pose proof (gi_gn _ _ G) as L2. pose proof Hv as Hv'. unfold isvert in Hv'.
  rewrite wr_ok by lia. cbn [bind]. rewrite rd_ok by lia. destruct (vread v Hv) as (-> & ->). cbn [bind].
  rewrite (gi_gain _ _ G v Hv ltac:(lia)). set (st1 := upd b st v 1).
  assert (A1 : forall u, isvert s u -> S_ st1 u = if v =? u then 1 else S_ st u) by (intros u Hu; unfold st1, isvert in *; rewrite at_upd by lia; reflexivity).
  assert (Z1 : forall u, isvert s u -> (S_ st u =? 0) = (S_ st1 u =? 0)).
  { intros u Hu. rewrite A1 by auto. destruct (Z.eqb_spec v u) as [<-|]; [|reflexivity]. rewrite E3. reflexivity. }
  assert (G1 : ginv st1 gn).
  { constructor; auto.
    - unfold st1. now rewrite zlen_upd.
    - intros u Hu. rewrite A1 by auto. destruct (v =? u); [lia | apply (gi_val _ _ G); auto].
    - intros u Hu H2. rewrite <- (Z0_cls st st1 u Hu Z1). apply (gi_gain _ _ G); auto. rewrite A1 in H2 by auto. destruct (v =? u); lia. }
  destruct (arcs_ok v st1 gn G1 Hv) as (st2 & gn2 & sep & -> & T1 & T2 & T3).
  { intros u Hu. rewrite A1 by auto. destruct (v =? u); [lia | auto]. }
  cbn [bind]. destruct T2 as (U1 & U2 & U3).
  destruct (relink_ok sep st2 (gi_st _ _ T1) U2) as (st3 & -> & W1 & W2 & W3). cbn [bind]. eexists. split; [reflexivity|].
  assert (C3 : forall u, isvert s u -> S_ st3 u = if S_ st2 u =? 2 then 3 else S_ st2 u).
  { intros u Hu. destruct (Z.eqb_spec (S_ st2 u) 2) as [E|E]; [apply W2; now apply U3 | apply W3; auto; intros Hi; apply E; now apply U3]. }
  assert (M01 : forall u, mult s v u = 0 \/ mult s v u = 1) by (intros u; destruct (mult_01 s v u V Hv) as [(E & _)|(E & _)]; auto).
  assert (CF : forall u, isvert s u -> cls st3 u = if v =? u then 1 else if (S_ st u =? 0) && (0 <? mult s v u) then 2 else cls st u).
  { intros u Hu. pose proof (gi_val _ _ T1 u Hu) as Vu. assert (cls st3 u = cls st2 u) as ->. { rewrite C3 by auto. destruct (Z.eqb_spec (S_ st2 u) 2); lia. }
    rewrite T3 by auto. rewrite A1 by auto. destruct (Z.eqb_spec v u) as [<-|]; [|reflexivity]. reflexivity. }
  assert (V3 : forall u, isvert s u -> 0 <= S_ st3 u <= 3) by (intros u Hu; pose proof (gi_val _ _ T1 u Hu); rewrite C3 by auto; destruct (S_ st2 u =? 2); lia).
  assert (Z3 : forall u, isvert s u -> (S_ st2 u =? 0) = (S_ st3 u =? 0)).
  { intros u Hu. rewrite C3 by auto. destruct (Z.eqb_spec (S_ st2 u) 2) as [->|]; reflexivity. }
  assert (S1 : forall u, isvert s u -> S_ st3 u = 1 <-> (v = u \/ S_ st u = 1)).
  { intros u Hu. pose proof (CF u Hu) as C. pose proof (V3 u Hu). pose proof (gi_val _ _ G u Hu). destruct (Z.eqb_spec v u) as [<-|Hn]; [split; [auto | lia]|]. destruct (Z.eqb_spec (S_ st u) 0) as [E|E]; cbn [andb] in C; [destruct (0 <? mult s v u)|]; split; intros; [lia|lia|lia|lia|right; lia|lia]. }
  split; [|split].
  - constructor; cbn [gg_st gg_gn gg_dlt gg_c2].
    + constructor; auto; [apply T1|]. intros u Hu H2. rewrite <- (Z0_cls st2 st3 u Hu Z3). apply (gi_gain _ _ T1); auto. rewrite C3 in H2 by auto. destruct (Z.eqb_spec (S_ st2 u) 2); lia.
    + intros u Hu. rewrite C3 by auto. destruct (Z.eqb_spec (S_ st2 u) 2); lia.
    + intros u w Ha E1 E0. destruct (adj_vert s V u w Ha) as (Hu & Hw). pose proof (CF w Hw) as C. rewrite E0 in C. apply (S1 u Hu) in E1. pose proof (gi_val _ _ G w Hw). destruct E1 as [<-|E1].
      * destruct Ha as (e & Ha & <-). destruct (Z.eqb_spec v (edge s e)); [lia|]. destruct (mult_01 s v (edge s e) V Hv) as [(E & _)|(_ & NE)]; [|apply (NE e Ha); reflexivity].
        rewrite E in C. destruct (Z.eqb_spec (S_ st (edge s e)) 0); cbn [andb] in C; [change (0 <? 1) with true in C; cbv iota in C; lia | lia].
      * assert (S_ st w = 0); [|exact (SP u w Ha E1 ltac:(assumption))]. destruct (Z.eqb_spec v w); [lia|]. destruct (Z.eqb_spec (S_ st w) 0) as [E|E]; [exact E|]. cbn [andb] in C. lia.
    + assert (X0 : CL st3 0 = CL st 0 - Z0 st v).
      { unfold CL. rewrite (Z0_mult st v Hv). assert (forall a c d, a = c + d -> c = a - d) as Arr by (intros; lia). apply Arr. rewrite <- zsum_add. apply zsum_ext. intros u Hu. rewrite CF by exact Hu.
        destruct (Z.eqb_spec v u) as [<-|Hn]; [rewrite E3; change (1 =? 0) with false; change (3 =? 0) with false; change (Z.min 3 2 =? 0) with false; cbv iota; ring|].
        pose proof (gi_val _ _ G u Hu). destruct (Z.eqb_spec (S_ st u) 0) as [E|E]; cbn [andb].
        { rewrite E. change (Z.min 0 2) with 0. destruct (M01 u) as [E1|E1]; rewrite E1; [change (0 <? 0) with false | change (0 <? 1) with true]; cbv iota; change (0 =? 0) with true; change (2 =? 0) with false; change (0 =? 2) with false; change (2 =? 2) with true; cbv iota; ring. }
        cbv iota. ring. }
      assert (X1 : CL st3 1 = CL st 1 + velo s v).
      { unfold CL. rewrite (zsum_upd b nnd (fun u => if cls st u =? 1 then velo s u else 0) _ v); [|exact Hv|].
        - rewrite CF by exact Hv. rewrite Z.eqb_refl, E3. change (Z.min 3 2 =? 1) with false. change (1 =? 1) with true. cbv iota. ring.
        - intros u Hu Hn. rewrite CF by exact Hu. destruct (Z.eqb_spec v u); [congruence|]. destruct (Z.eqb_spec (S_ st u) 0) as [E|E]; cbn [andb]; [rewrite E; destruct (0 <? mult s v u); reflexivity | reflexivity]. }
      rewrite X0, X1, DL. ring.
    + assert (X2 : CL st3 2 = CL st 2 + Z0 st v - velo s v).
      { assert (Arr : forall a c d e, a + e = c + d -> a = c + d - e) by (intros; lia). apply Arr. unfold CL. rewrite (Z0_mult st v Hv). rewrite <- zsum_add.
        replace (velo s v) with (zsum b nnd (fun u => if v =? u then velo s u else 0)) by (rewrite (zsum_single b nnd _ v); [now rewrite Z.eqb_refl | exact Hv | intros i _ Hi; destruct (Z.eqb_spec v i); [congruence | reflexivity]]).
        rewrite <- zsum_add. apply zsum_ext. intros u Hu. rewrite CF by exact Hu.
        destruct (Z.eqb_spec v u) as [<-|Hn]; [rewrite E3; cbn; ring|].
        pose proof (gi_val _ _ G u Hu). destruct (Z.eqb_spec (S_ st u) 0) as [E|E]; cbn [andb].
        { rewrite E. change (Z.min 0 2) with 0. destruct (M01 u) as [E1|E1]; rewrite E1; [change (0 <? 0) with false | change (0 <? 1) with true]; cbv iota; change (0 =? 0) with true; change (2 =? 0) with false; change (0 =? 2) with false; change (2 =? 2) with true; cbv iota; ring. }
        cbv iota. ring. }
      rewrite X2, C2. ring.
  - cbn [gg_st]. unfold rest, zcount. rewrite (zsum_upd b nnd (fun u => b2z (negb (S_ st u =? 1))) _ v); [|exact Hv|].
    + rewrite E3. assert (S_ st3 v = 1) as -> by (apply S1; auto). cbn. lia.
    + intros u Hu Hn. destruct (S1 u Hu) as (Sa & Sb). destruct (Z.eqb_spec (S_ st u) 1) as [E|E], (Z.eqb_spec (S_ st3 u) 1) as [E'|E']; try reflexivity; [exfalso; apply E'; auto | destruct (Sa E'); congruence].
  - apply zcount_nonneg.
Qed.
End Gg.
