(** Proofs about bipartitioning by greedy graph growing: the passes. *)
From Verif Require Import Base Mem M_Graph M_Bgraph M_Vgraph M_BgraphSt M_VgraphGg M_BgraphGg S_Graph S_Bgraph S_BgraphSt S_Color S_VgraphGg S_BgraphGg P_Graph P_Vgraph P_Bgraph P_VgraphGp P_VgraphGg.

Lemma zsum_sub lo hi f g : zsum lo hi (fun i => f i - g i) = zsum lo hi f - zsum lo hi g.
Proof. assert (zsum lo hi (fun i => f i - g i) + zsum lo hi g = zsum lo hi f); [|lia]. rewrite <- zsum_add. apply zsum_ext. intros; lia. Qed.

Section Hg.
Variable s : graph.
Hypothesis R : graph_readable s.
Hypothesis V : graph_valid s.
Variable vx : option (list Z).
Hypothesis Zvx : forall t, vx = Some t -> vertnbr s <= zlen t.
Variables dist av extn0 : Z.
Variable ab : Z -> Z.
Notation b := (baseval s).
Notation n := (vertnbr s).
Notation nnd := (vertnnd s).
Notation S_ st v := (at_ b st v).

Definition hvex (v : Z) : Z := match vx with Some t => at_ b t v | None => 0 end.
(** load of the arcs of [u], and of those to vertices of part 1 *)
Definition DD (u : Z) : Z := zsum (vert s u) (vend s u) (edlo s).
Definition WW (st : list Z) (u : Z) : Z := zsum (vert s u) (vend s u) (fun e => if S_ st (edge s e) =? 1 then edlo s e else 0).
Definition CUT (st : list Z) : Z := zsum b nnd (fun v => if S_ st v =? 1 then 0 else WW st v).
Definition ind1 (st : list Z) (v : Z) : Z := if S_ st v =? 1 then 1 else 0.

Lemma hNN : nnd = b + n /\ 0 <= n. Proof. split; [apply (gv_nnd s V) | apply (gv_size s V)]. Qed.
Lemma hredlo v e : arc s v e -> (match edlotab s with None => Ok 1 | Some t => rd b t e end) = Ok (edlo s e).
Proof.
  intros A. unfold edlo. pose proof (gr_edlo _ R) as G1. destruct (edlotab s) as [t|]; [|reflexivity]. apply rd_ok. eapply G1; eauto.
Qed.
Lemma WW_mul st u : isvert s u -> WW st u = zsum b nnd (fun w => ind1 st w * wmul s u w).
Proof.
  intros Hu. rewrite <- (arcs_wmul s u (ind1 st) V Hu). apply zsum_ext. intros e _. unfold ind1. destruct (S_ st (edge s e) =? 1); lia.
Qed.
Lemma DD_mul u : isvert s u -> DD u = zsum b nnd (wmul s u).
Proof.
  intros Hu. transitivity (zsum b nnd (fun w => 1 * wmul s u w)); [|apply zsum_ext; intros; lia]. rewrite <- (arcs_wmul s u (fun _ => 1) V Hu). apply zsum_ext. intros; lia.
Qed.
Lemma wmul_self u : isvert s u -> wmul s u u = 0.
Proof. intros Hu. apply wmul_none; auto. intros e A E. exact (gv_loop s V u e A E). Qed.

(** same part 1 *)
Definition same1 (st st' : list Z) : Prop := forall u, isvert s u -> (S_ st u = 1 <-> S_ st' u = 1).
Lemma same1_eqb st st' u : same1 st st' -> isvert s u -> (S_ st u =? 1) = (S_ st' u =? 1).
Proof. intros H Hu. specialize (H u Hu). destruct (Z.eqb_spec (S_ st u) 1), (Z.eqb_spec (S_ st' u) 1); tauto. Qed.
Lemma WW_same st st' u : same1 st st' -> isvert s u -> WW st u = WW st' u.
Proof. intros H Hu. apply zsum_ext. intros e He. rewrite (same1_eqb st st') ; auto. apply (gv_end s V u e). split; auto. Qed.
Lemma CUT_same st st' : same1 st st' -> CUT st = CUT st'.
Proof. intros H. apply zsum_ext. intros u Hu. rewrite (same1_eqb st st' u H Hu). now rewrite (WW_same st st' u H Hu). Qed.

Lemma WW_move st v u : zlen st = n -> isvert s v -> isvert s u -> S_ st v <> 1 -> WW (upd b st v 1) u = WW st u + wmul s v u.
Proof.
  intros Hz Hv Hu Ev. pose proof hNN as (N1 & N2). rewrite !WW_mul by auto. pose proof Hv as Hv'. unfold isvert in Hv'.
  rewrite (zsum_upd b nnd (fun w => ind1 st w * wmul s u w) _ v); [|exact Hv|].
  - unfold ind1. rewrite at_upd by lia. rewrite Z.eqb_refl. rewrite (wmul_sym s v u) by auto. destruct (Z.eqb_spec (S_ st v) 1); [contradiction|]. change (1 =? 1) with true. cbv iota. lia.
  - intros w Hw Hn. unfold ind1. rewrite at_upd by lia. destruct (Z.eqb_spec v w); [congruence | reflexivity].
Qed.
Lemma CUT_move st v : zlen st = n -> isvert s v -> S_ st v <> 1 -> CUT (upd b st v 1) = CUT st + DD v - 2 * WW st v.
Proof.
  intros Hz Hv Ev. pose proof hNN as (N1 & N2). pose proof Hv as Hv'. unfold isvert in Hv'.
  set (st' := upd b st v 1).
  assert (A : forall u, isvert s u -> S_ st' u = if v =? u then 1 else S_ st u) by (intros u Hu; unfold st', isvert in *; rewrite at_upd by lia; reflexivity).
  assert (X : CUT st' = zsum b nnd (fun u => (if S_ st u =? 1 then 0 else WW st u) + (wmul s v u - ind1 st u * wmul s v u) - (if v =? u then WW st u else 0))).
  { apply zsum_ext. intros u Hu. rewrite A by exact Hu. unfold st'. rewrite WW_move by auto. unfold ind1. destruct (Z.eqb_spec v u) as [<-|Hn].
    - change (1 =? 1) with true. cbv iota. rewrite wmul_self by auto. destruct (Z.eqb_spec (S_ st v) 1); [contradiction|]. lia.
    - destruct (S_ st u =? 1); lia. }
  rewrite X, zsum_sub, zsum_add, zsum_sub, <- WW_mul, <- DD_mul by auto. rewrite (zsum_single b nnd (fun u => if v =? u then WW st u else 0) v); [|exact Hv|].
  - rewrite Z.eqb_refl. fold (CUT st). lia.
  - intros i _ Hi. destruct (Z.eqb_spec v i); [congruence | reflexivity].
Qed.

Record hginv (st gn : list Z) : Prop := {
  hi_st : zlen st = n;
  hi_gn : zlen gn = n;
  hi_val : forall u, isvert s u -> 0 <= S_ st u <= 2;
  hi_gain : forall u, isvert s u -> S_ st u <> 1 -> S_ gn u = DD u * dist + hvex u - 2 * dist * WW st u;
  hi_adj : forall u w, adjacent s u w -> S_ st u = 1 -> S_ st w <> 0 }.
Definition out1 (st : list Z) : Z := zsum b nnd (fun u => if S_ st u =? 1 then 0 else velo s u).
Definition ext1 (st : list Z) : Z := zsum b nnd (fun u => if S_ st u =? 1 then hvex u else 0).
Definition totals (st : list Z) (dlt cml : Z) : Prop := av + dlt = out1 st /\ cml = extn0 + ext1 st + dist * CUT st.
Definition hstop (st : list Z) (dlt : Z) : Prop := exists v, isvert s v /\ S_ st v <> 1 /\ 0 < velo s v /\ ab dlt <= ab (dlt - velo s v).
Record hgstate (x : hgst) : Prop := {
  ht_inv : hginv (hg_st x) (hg_gn x);
  ht_tot : totals (hg_st x) (hg_dlt x) (hg_cml x) }.
Definition hrest (st : list Z) : Z := zcount b nnd (fun v => negb (S_ st v =? 1)).

Lemma totals_same st st' dlt cml : same1 st st' -> totals st dlt cml -> totals st' dlt cml.
Proof.
  intros H (T1 & T2). split.
  - rewrite T1. apply zsum_ext. intros u Hu. now rewrite (same1_eqb st st' u H Hu).
  - rewrite T2, (CUT_same st st' H). f_equal. f_equal. apply zsum_ext. intros u Hu. now rewrite (same1_eqb st st' u H Hu).
Qed.

(** Arcs of the vertex that moves *)
Definition pw (lo hi u : Z) : Z := zsum lo hi (fun e => if edge s e =? u then edlo s e else 0).
Lemma harcs_ok v st gn : zlen st = n -> zlen gn = n -> (forall u, isvert s u -> 0 <= S_ st u <= 2) -> isvert s v -> S_ st v = 1 ->
  exists st' gn', for_ (vert s v) (vend s v) (hgArc s (dist * 2)) (st, gn) = Ok (st', gn') /\ zlen st' = n /\ zlen gn' = n /\ same1 st st' /\
    (forall u, isvert s u -> 0 <= S_ st' u <= 2 /\ (S_ st u <> 0 -> S_ st' u = S_ st u)) /\ (forall u, adjacent s v u -> S_ st' u <> 0) /\
    forall u, isvert s u -> S_ st u <> 1 -> S_ gn' u = S_ gn u - wmul s v u * (dist * 2).
Proof.
  intros L1 L2 Vl Hv E1. pose proof hNN as (N1 & N2). pose proof (gv_range s V v Hv) as [Rv1 Rv2].
  match goal with |- context [for_ ?lo ?hi ?f ?i] => destruct (wp_ok_inv (for_ lo hi f i) (fun '(st', gn') => zlen st' = n /\ zlen gn' = n /\ same1 st st' /\
    (forall u, isvert s u -> 0 <= S_ st' u <= 2 /\ (S_ st u <> 0 -> S_ st' u = S_ st u)) /\ (forall e, vert s v <= e < vend s v -> S_ st' (edge s e) <> 0) /\
    forall u, isvert s u -> S_ st u <> 1 -> S_ gn' u = S_ gn u - wmul s v u * (dist * 2))) as ((st' & gn') & E & Q1 & Q2 & Q3 & Q4 & Q5 & Q6) end.
  2: { exists st', gn'. split; [exact E|]. split; [auto|]. split; [auto|]. split; [auto|]. split; [auto|]. split; [|auto]. intros u (e & (_ & He) & <-). auto. }
  apply wp_for with (I := fun e0 '(st', gn') => zlen st' = n /\ zlen gn' = n /\ same1 st st' /\
    (forall u, isvert s u -> 0 <= S_ st' u <= 2 /\ (S_ st u <> 0 -> S_ st' u = S_ st u)) /\ (forall e, vert s v <= e < e0 -> S_ st' (edge s e) <> 0) /\
    forall u, isvert s u -> S_ st u <> 1 -> S_ gn' u = S_ gn u - pw (vert s v) e0 u * (dist * 2)); [lia| | |].
  - split; [auto|]. split; [auto|]. split; [intros u Hu; tauto|]. split; [auto|]. split; [intros; lia|]. intros u Hu Hn. unfold pw. rewrite zsum_nil by lia. lia.
  - intros e [st' gn'] He (I1 & I2 & I3 & I4 & I5 & I6). unfold hgArc. assert (Ha : arc s v e) by (split; auto). rewrite (redge' s R v e Ha). cbn [bind].
    pose proof (gv_end s V v e Ha) as Hw. set (w := edge s e) in *. pose proof Hw as Hw'. unfold isvert in Hw'. rewrite rd_ok by lia. cbn [bind].
    assert (PS : forall u, pw (vert s v) (e + 1) u = pw (vert s v) e u + (if w =? u then edlo s e else 0)) by (intros u; unfold pw; rewrite zsum_snoc by lia; reflexivity).
    destruct (Z.eqb_spec (S_ st' w) 1) as [Ew|Ew]; cbn [negb].
    + cbn [wp]. split; [auto|]. split; [auto|]. split; [auto|]. split; [auto|]. split.
      * intros e' He'. destruct (Z.eq_dec e' e) as [->|]; [fold w; lia | apply I5; lia].
      * intros u Hu Hn. rewrite PS, I6 by auto. destruct (Z.eqb_spec w u) as [<-|]; [|lia]. apply I3 in Ew; [contradiction | exact Hw].
    + rewrite (hredlo v e Ha). cbn [bind]. rewrite rd_ok by lia. cbn [bind]. rewrite wr_ok by lia. cbn [bind]. rewrite wr_ok by lia. cbn [bind wp]. rewrite !zlen_upd.
      assert (A : forall u, isvert s u -> S_ (upd b st' w 2) u = if w =? u then 2 else S_ st' u) by (intros u Hu; unfold isvert in Hu; rewrite at_upd by lia; reflexivity).
      assert (Sw : S_ st w <> 1) by (intros X; apply I3 in X; [contradiction | exact Hw]).
      split; [auto|]. split; [auto|]. split; [|split; [|split]].
      * intros u Hu. rewrite A by auto. destruct (Z.eqb_spec w u) as [<-|]; [lia | auto].
      * intros u Hu. rewrite A by auto. destruct (Z.eqb_spec w u) as [<-|]; [|auto]. pose proof (Vl w Hw). lia.
      * intros e' He'. assert (He2 : isvert s (edge s e')) by (apply (gv_end s V v e'); split; [exact Hv | lia]). rewrite A by auto. destruct (Z.eqb_spec w (edge s e')) as [|Hn]; [lia|]. apply I5. destruct (Z.eq_dec e' e) as [->|]; [contradiction | lia].
      * intros u Hu Hn. pose proof Hu as Hu'. unfold isvert in Hu'. rewrite at_upd by lia. rewrite PS. destruct (Z.eqb_spec w u) as [<-|]; rewrite I6 by auto; ring.
  - intros [st' gn'] H. exact H.
Qed.

(** One move *)
Lemma hmove_ok v x : hgstate x -> isvert s v -> S_ (hg_st x) v <> 1 ->
  exists y stop, hgMove s ab dist v x = Ok (y, stop) /\ hgstate y /\ ab (hg_dlt y) <= ab (hg_dlt x) /\
    (forall u, isvert s u -> S_ (hg_st x) u <> 0 -> S_ (hg_st y) u <> 0) /\
    if stop : bool then hstop (hg_st y) (hg_dlt y) else hrest (hg_st y) < hrest (hg_st x) /\ 0 <= hrest (hg_st y) /\ S_ (hg_st y) v = 1.
Proof.
  intros [[L1 L2 Vl GN AD] TT] Hv E1. pose proof hNN as (N1 & N2). unfold hgMove. cbv zeta. rewrite (rvelo_ok s R V v Hv). cbn [bind]. pose proof Hv as Hv'. unfold isvert in Hv'.
  set (st := hg_st x) in *. set (gn := hg_gn x) in *. pose proof (gv_velo s V v Hv) as Lv.
  destruct ((ab (hg_dlt x) <=? ab (hg_dlt x - velo s v)) && (0 <? velo s v)) eqn:Es.
  - apply andb_prop in Es as (Es1 & Es2). rewrite wr_ok by lia. cbn [bind]. eexists. exists true. split; [reflexivity|]. cbn [hg_st hg_gn hg_dlt hg_cml].
    assert (A : forall u, isvert s u -> S_ (upd b st v 2) u = if v =? u then 2 else S_ st u) by (intros u Hu; unfold isvert in Hu; rewrite at_upd by lia; reflexivity).
    assert (S1 : same1 st (upd b st v 2)) by (intros u Hu; rewrite A by auto; destruct (Z.eqb_spec v u) as [<-|]; [split; [contradiction | discriminate] | tauto]).
    split; [|split; [lia|split]].
    + constructor; cbn [hg_st hg_gn hg_dlt hg_cml]; [|now apply (totals_same st)]. constructor; auto.
      * now rewrite zlen_upd.
      * intros u Hu. rewrite A by auto. destruct (v =? u); [lia | auto].
      * intros u Hu Hn. rewrite <- (WW_same st _ u S1 Hu). apply GN; auto. intros X. apply Hn. now apply S1.
      * intros u w Ha Eu. destruct (adj_vert s V u w Ha) as (Hu & Hw). rewrite A by auto. destruct (v =? w); [lia|]. apply (AD u w Ha). now apply S1.
    + intros u Hu. rewrite A by auto. destruct (v =? u); [lia | auto].
    + exists v. rewrite A, Z.eqb_refl by auto. split; [exact Hv|]. split; [lia|]. split; lia.
  - rewrite wr_ok by lia. cbn [bind]. rewrite rd_ok by lia. cbn [bind]. destruct (vread s R V v Hv) as (-> & ->). cbn [bind].
    set (st1 := upd b st v 1).
    assert (A : forall u, isvert s u -> S_ st1 u = if v =? u then 1 else S_ st u) by (intros u Hu; unfold st1, isvert in *; rewrite at_upd by lia; reflexivity).
    destruct (harcs_ok v st1 gn) as (st' & gn' & -> & Q1 & Q2 & Q3 & Q4 & Q5 & Q6); auto.
    { unfold st1. now rewrite zlen_upd. }
    { intros u Hu. rewrite A by auto. destruct (v =? u); [lia | auto]. }
    { rewrite A, Z.eqb_refl by auto. reflexivity. }
    cbn [bind]. eexists. exists false. split; [reflexivity|]. cbn [hg_st hg_gn hg_dlt hg_cml].
    assert (M : ab (hg_dlt x - velo s v) <= ab (hg_dlt x)).
    { destruct (Z.leb_spec (ab (hg_dlt x)) (ab (hg_dlt x - velo s v))); cbn [andb] in Es; [|lia]. replace (velo s v) with 0 by lia. rewrite Z.sub_0_r. lia. }
    split; [|split; [exact M|split; [|split; [|split]]]].
    + constructor; cbn [hg_st hg_gn hg_dlt hg_cml].
      * constructor; auto.
        -- intros u Hu. apply Q4. exact Hu.
        -- intros u Hu Hn. assert (Hn1 : S_ st1 u <> 1) by (intros X; apply Hn; now apply Q3). rewrite Q6 by auto. rewrite <- (WW_same st1 st' u Q3 Hu). unfold st1. rewrite WW_move by auto.
           assert (S_ st u <> 1). { rewrite A in Hn1 by auto. destruct (v =? u); [congruence | exact Hn1]. } rewrite GN by auto. ring.
        -- intros u w Ha Eu. destruct (adj_vert s V u w Ha) as (Hu & Hw). apply Q3 in Eu; [|exact Hu]. rewrite A in Eu by auto. destruct (Z.eqb_spec v u) as [<-|Hn]; [now apply Q5|].
           destruct (Z.eq_dec (S_ st1 w) 0) as [E|E]; [|rewrite (proj2 (Q4 w Hw) E); exact E]. exfalso. rewrite A in E by auto. destruct (v =? w); [lia|]. exact (AD u w Ha Eu E).
      * apply (totals_same st1 st' _ _ Q3). destruct TT as (T1 & T2). split.
        -- unfold out1. rewrite (zsum_upd b nnd (fun u => if S_ st u =? 1 then 0 else velo s u) _ v); [|exact Hv|].
           ++ rewrite A, Z.eqb_refl by auto. change (1 =? 1) with true. cbv iota. destruct (Z.eqb_spec (S_ st v) 1); [contradiction|]. unfold out1 in T1. lia.
           ++ intros u Hu Hn. rewrite A by exact Hu. destruct (Z.eqb_spec v u); [congruence | reflexivity].
        -- unfold st1. rewrite CUT_move by auto. fold st1. rewrite GN by auto. rewrite T2. unfold ext1. rewrite (zsum_upd b nnd (fun u => if S_ st u =? 1 then hvex u else 0) (fun u => if S_ st1 u =? 1 then hvex u else 0) v); [|exact Hv|].
           ++ rewrite A, Z.eqb_refl by auto. change (1 =? 1) with true. cbv iota. destruct (Z.eqb_spec (S_ st v) 1); [contradiction|]. ring.
           ++ intros u Hu Hn. rewrite A by exact Hu. destruct (Z.eqb_spec v u); [congruence | reflexivity].
    + intros u Hu Hn. assert (S_ st1 u <> 0) by (rewrite A by auto; destruct (v =? u); [lia | exact Hn]). rewrite (proj2 (Q4 u Hu)); auto.
    + unfold hrest, zcount. rewrite (zsum_upd b nnd (fun u => b2z (negb (S_ st u =? 1))) _ v); [|exact Hv|].
      * rewrite <- (same1_eqb st1 st' v Q3 Hv), A, Z.eqb_refl by auto. destruct (Z.eqb_spec (S_ st v) 1); [contradiction|]. change (1 =? 1) with true. cbn [negb b2z]. lia.
      * intros u Hu Hn. rewrite <- (same1_eqb st1 st' u Q3 Hu), A by exact Hu. destruct (Z.eqb_spec v u); [congruence | reflexivity].
    + apply zcount_nonneg.
    + apply Q3; [exact Hv|]. rewrite A, Z.eqb_refl by auto. reflexivity.
Qed.

Variable frst : nat -> list Z -> list Z -> option Z.
Hypothesis HF : tabl_ok s frst.
Lemma hgstate_k x k : hgstate x -> hgstate (mkhgst (hg_st x) (hg_gn x) (hg_dlt x) (hg_cml x) k).
Proof. intros [A1 A2]. constructor; assumption. Qed.
Lemma hrest_le st : 0 <= hrest st <= n.
Proof.
  pose proof hNN as (N1 & N2). split; [apply zcount_nonneg|]. replace n with (zsum b nnd (fun _ => 1)) by (rewrite zsum_const by lia; lia). apply zsum_le. intros i _. destruct (negb _); cbn [b2z]; lia.
Qed.

Lemma hmoves_ok fuel v x : n < Z.of_nat fuel -> hgstate x -> isvert s v -> S_ (hg_st x) v <> 1 ->
  exists y stop, hgMoves fuel s ab frst dist v x = Ok (y, stop) /\ hgstate y /\ ab (hg_dlt y) <= ab (hg_dlt x) /\
    if stop : bool then hstop (hg_st y) (hg_dlt y) else
      hrest (hg_st y) < hrest (hg_st x) /\ (forall u, isvert s u -> S_ (hg_st y) u <> 2) /\ (forall u, isvert s u -> S_ (hg_st x) u <> 0 -> S_ (hg_st y) u <> 0) /\ S_ (hg_st y) v <> 0.
Proof.
  intros Hf G Hv E1. unfold hgMoves.
  match goal with |- context [loop fuel ?B ?i] => destruct (wp_ok_inv (loop fuel B i) (fun '(y, stop) => hgstate y /\ ab (hg_dlt y) <= ab (hg_dlt x) /\
    if stop : bool then hstop (hg_st y) (hg_dlt y) else
      hrest (hg_st y) < hrest (hg_st x) /\ (forall u, isvert s u -> S_ (hg_st y) u <> 2) /\ (forall u, isvert s u -> S_ (hg_st x) u <> 0 -> S_ (hg_st y) u <> 0) /\ S_ (hg_st y) v <> 0)) as ((y & stop) & E & Q) end.
  2: { exists y, stop. auto. }
  apply wp_loop with (I := fun '(w, y) => hgstate y /\ isvert s w /\ S_ (hg_st y) w <> 1 /\ hrest (hg_st y) <= hrest (hg_st x) /\ ab (hg_dlt y) <= ab (hg_dlt x) /\
      (forall u, isvert s u -> S_ (hg_st x) u <> 0 -> S_ (hg_st y) u <> 0) /\ (w = v \/ S_ (hg_st y) v <> 0)) (m := fun '(v, y) => hrest (hg_st y)).
  - split; [exact G|]. split; [exact Hv|]. split; [exact E1|]. split; [lia|]. split; [lia|]. auto.
  - pose proof (hrest_le (hg_st x)). lia.
  - intros [w y] (I1 & I2 & I3 & I4 & I5 & I6 & I7). destruct (hmove_ok w y I1 I2 I3) as (z & stop & -> & G' & Mz & Nz & Hr). cbn [bind]. destruct stop.
    + cbn [wp]. split; [exact G'|]. split; [lia | exact Hr].
    + destruct Hr as (Rz & R0 & Ew). assert (Zv : S_ (hg_st z) v <> 0) by (destruct I7 as [<-|X]; [lia | auto]).
      pose proof (HF (hg_k z) (hg_st z) (hg_gn z)) as F. destruct (frst (hg_k z) (hg_st z) (hg_gn z)) as [u|]; cbn [wp hg_st hg_dlt].
      * destruct F as (Hu & Eu). split; [|lia]. split; [apply (hgstate_k z); exact G'|]. split; [exact Hu|]. split; [lia|]. split; [lia|]. split; [lia|]. split; [|now right]. intros t Ht X. apply Nz; auto.
      * split; [apply (hgstate_k z); exact G'|]. split; [lia|]. split; [lia|]. split; [exact F|]. split; [|exact Zv]. intros t Ht X. apply Nz; auto.
Qed.

Lemma hnext_ok fuel prm st i : n < Z.of_nat fuel -> zlen st = n -> perm_ok s prm -> 0 <= i -> (forall j, 0 <= j < i -> j < n -> S_ st (at_ 0 prm j) <> 0) ->
  exists r, ggNext fuel s prm st i = Ok r /\ match r with
    | Some (v, i') => isvert s v /\ S_ st v = 0 /\ 0 <= i' /\ forall j, 0 <= j < i' -> j < n -> at_ 0 prm j = v \/ S_ st (at_ 0 prm j) <> 0
    | None => forall u, isvert s u -> S_ st u <> 0 end.
Proof.
  intros Hf Hz (P1 & P2 & P3) Hi HB. pose proof hNN as (N1 & N0). unfold ggNext.
  match goal with |- context [loop fuel ?B ?j] => apply (fun a => let '(ex_intro _ r (conj E Q)) := wp_ok_inv (loop fuel B j) (fun r => match r with
    | Some (v, i') => isvert s v /\ S_ st v = 0 /\ 0 <= i' /\ forall j, 0 <= j < i' -> j < n -> at_ 0 prm j = v \/ S_ st (at_ 0 prm j) <> 0
    | None => forall u, isvert s u -> S_ st u <> 0 end) a in ex_intro _ r (conj E Q)) end.
  apply wp_loop with (I := fun i => 0 <= i /\ forall j, 0 <= j < i -> j < n -> S_ st (at_ 0 prm j) <> 0) (m := fun i => Z.max 0 (n - i)); [auto | lia|].
  intros j (Hj & Hb). destruct (Z.ltb_spec j n).
  - pose proof (P2 j ltac:(lia)) as Hv. pose proof Hv as Hv'. unfold isvert in Hv'. rewrite rd_ok by lia. cbn [bind]. rewrite rd_ok by lia. cbn [bind].
    destruct (Z.eqb_spec (S_ st (at_ 0 prm j)) 0); cbn [wp].
    + split; [exact Hv|]. split; [assumption|]. split; [lia|]. intros j' Hj' Hn. destruct (Z.eq_dec j' j) as [->|]; [now left | right; apply Hb; lia].
    + split; [|lia]. split; [lia|]. intros j' Hj' Hn. destruct (Z.eq_dec j' j) as [->|]; [assumption | apply Hb; lia].
  - cbn [wp]. intros u Hu. destruct (P3 u Hu) as (j' & Hj' & <-). apply Hb; lia.
Qed.

Definition hend (st : list Z) (dlt : Z) : Prop := (forall u, isvert s u -> S_ st u = 1) \/ hstop st dlt.
Lemma hpass_ok fuel rnd gn0 prm k : n < Z.of_nat fuel -> 0 < n -> perm_ok s prm -> zlen gn0 = n -> (forall u, isvert s u -> S_ gn0 u = DD u * dist + hvex u) ->
  exists y, hgPass fuel s ab frst dist av extn0 rnd gn0 prm k = Ok y /\ hgstate y /\ hend (hg_st y) (hg_dlt y) /\ ab (hg_dlt y) <= ab (velosum s - av).
Proof.
  intros Hf Hn HP Zg Hg. pose proof hNN as (N1 & N0). unfold hgPass. cbv zeta. destruct (Z.eqb_spec n 0) as [|_]; [lia|].
  set (x0 := mkhgst _ _ _ _ _).
  assert (A0 : forall u, isvert s u -> S_ (hg_st x0) u = 0) by (intros u Hu; unfold isvert in Hu; cbn [x0 hg_st]; apply at_repeat; lia).
  assert (W0 : forall u, isvert s u -> WW (hg_st x0) u = 0).
  { intros u Hu. apply zsum_zero. intros e He. rewrite A0; [reflexivity|]. apply (gv_end s V u e). split; auto. }
  assert (G0 : hgstate x0).
  { constructor.
    - constructor; auto.
      + cbn [x0 hg_st]. rewrite zlen_repeat. lia.
      + intros u Hu. rewrite A0 by auto. lia.
      + intros u Hu _. cbn [x0 hg_gn]. rewrite Hg by auto. pose proof (W0 u Hu) as X. cbn [x0 hg_st] in X |- *. rewrite X. ring.
      + intros u w Ha Eu. destruct (adj_vert s V u w Ha) as (Hu & _). rewrite A0 in Eu by auto. lia.
    - split.
      + cbn [x0 hg_dlt]. assert (out1 (hg_st x0) = velosum s) as ->; [|lia]. rewrite (gv_velosum s V). apply zsum_ext. intros u Hu. rewrite A0 by exact Hu. reflexivity.
      + assert (ext1 (hg_st x0) = 0) as -> by (apply zsum_zero; intros u Hu; rewrite A0 by exact Hu; reflexivity).
        assert (CUT (hg_st x0) = 0) as -> by (apply zsum_zero; intros u Hu; rewrite W0 by exact Hu; destruct (_ =? 1); reflexivity). cbn [x0 hg_cml]. ring. }
  match goal with |- context [loop fuel ?B ?j] => apply (fun a => let '(ex_intro _ r (conj E Q)) := wp_ok_inv (loop fuel B j) (fun y => hgstate y /\ hend (hg_st y) (hg_dlt y) /\ ab (hg_dlt y) <= ab (velosum s - av)) a in ex_intro _ r (conj E Q)) end.
  apply wp_loop with (I := fun '(v, i, x) => hgstate x /\ isvert s v /\ S_ (hg_st x) v = 0 /\ 0 <= i /\ ab (hg_dlt x) <= ab (velosum s - av) /\
    (forall j, 0 <= j < i -> j < n -> at_ 0 prm j = v \/ S_ (hg_st x) (at_ 0 prm j) <> 0)) (m := fun '(v, i, x) => hrest (hg_st x)).
  - assert (isvert s (b + rnd mod n)) by (pose proof (Z.mod_pos_bound rnd n Hn); unfold isvert; lia). split; [exact G0|]. split; [assumption|]. split; [now apply A0|]. split; [lia|]. split; [cbn [x0 hg_dlt]; lia|]. intros; lia.
  - pose proof (hrest_le (hg_st x0)). lia.
  - intros [[v i] x] (I1 & I2 & I3 & I4 & I5 & I6). destruct (hmoves_ok fuel v x Hf I1 I2 ltac:(lia)) as (z & stop & -> & G2 & Mz & M). cbn [bind].
    destruct stop; cbn [wp]; [split; [exact G2|]; split; [now right | lia]|]. destruct M as (Mr & M2 & M3 & M4).
    destruct (hnext_ok fuel prm (hg_st z) i Hf (hi_st _ _ (ht_inv _ G2)) HP I4) as (r & -> & Hr).
    { intros j Hj Hjn. destruct (I6 j Hj Hjn) as [->|X]; [exact M4 | apply M3; [apply HP; lia | exact X]]. }
    cbn [bind]. destruct r as [[v' i']|]; cbn [wp].
    + destruct Hr as (H1 & H2 & H3 & H4). pose proof (hrest_le (hg_st z)). split; [|lia]. split; [exact G2|]. split; [exact H1|]. split; [exact H2|]. split; [exact H3|]. split; [lia | exact H4].
    + split; [exact G2|]. split; [|lia]. left. intros u Hu. pose proof (hi_val _ _ (ht_inv _ G2) u Hu). specialize (Hr u Hu). specialize (M2 u Hu). lia.
Qed.

(** ** Kept part array *)
Variable L : Z.
Hypothesis HL : n <= L.
Record pgg (pt : list Z) (dlt cml : Z) : Prop := {
  pg_len : zlen pt = L;
  pg_val : forall u, isvert s u -> 0 <= S_ pt u <= 2;
  pg_adj : forall u w, adjacent s u w -> S_ pt u = 1 -> S_ pt w <> 0;
  pg_tot : totals pt dlt cml;
  pg_end : hend pt dlt;
  pg_mono : ab dlt <= ab (velosum s - av) }.

Lemma hcopy_ok st pt : zlen st = n -> (forall u, isvert s u -> 0 <= S_ st u <= 2) -> zlen pt = L ->
  exists pt', hgCopy s st pt = Ok pt' /\ zlen pt' = L /\ forall u, isvert s u -> S_ pt' u = S_ st u.
Proof.
  intros Hz Hv Hp. pose proof hNN as (N1 & N0). unfold hgCopy.
  match goal with |- context [for_ ?lo ?hi ?f ?i] => apply (fun a => let '(ex_intro _ r (conj E Q)) := wp_ok_inv (for_ lo hi f i) (fun pt' => zlen pt' = L /\ forall u, isvert s u -> S_ pt' u = S_ st u) a in ex_intro _ r (conj E Q)) end.
  apply wp_for with (I := fun e pt' => zlen pt' = L /\ forall u, b <= u < e -> S_ pt' u = S_ st u); [lia | split; [auto | intros; lia] | |].
  - intros u pt' Hu (I1 & I2). rewrite rd_ok by lia. cbn [bind]. rewrite wr_ok by lia. cbn [wp]. rewrite zlen_upd. split; [auto|]. intros w Hw. rewrite at_upd by lia. destruct (Z.eqb_spec u w) as [<-|].
    + specialize (Hv u Hu). destruct (Z.leb_spec 2 (S_ st u)); lia.
    + apply I2. lia.
  - intros pt' (I1 & I2). split; [auto|]. intros u Hu. apply I2. exact Hu.
Qed.
Lemma hcopy_pgg x pt : hgstate x -> hend (hg_st x) (hg_dlt x) -> ab (hg_dlt x) <= ab (velosum s - av) -> zlen pt = L -> exists pt', hgCopy s (hg_st x) pt = Ok pt' /\ pgg pt' (hg_dlt x) (hg_cml x).
Proof.
  intros [G T] He Hm Hp. destruct (hcopy_ok (hg_st x) pt (hi_st _ _ G) (hi_val _ _ G) Hp) as (pt' & E & Q1 & Q2). exists pt'. split; [exact E|].
  constructor; auto.
  - intros u Hu. rewrite Q2 by auto. apply (hi_val _ _ G u Hu).
  - intros u w Ha Eu. destruct (adj_vert s V u w Ha) as (Hu & Hw). rewrite Q2 in * by auto. apply (hi_adj _ _ G u w Ha Eu).
  - apply (totals_same (hg_st x)); [|exact T]. intros u Hu. rewrite Q2 by auto. tauto.
  - destruct He as [X|(v & H1 & H2 & H3)]; [left; intros u Hu; rewrite Q2; auto|]. right. exists v. rewrite Q2 by auto. auto.
Qed.

Variables (rnd : Z -> Z) (prm : Z -> list Z) (gn0 : list Z).
Hypothesis HP : forall p, perm_ok s (prm p).
Hypothesis Zg : zlen gn0 = n.
Hypothesis Hg : forall u, isvert s u -> S_ gn0 u = DD u * dist + hvex u.
Lemma hstep_ok p pt dlt cml k : 0 < n -> zlen pt = L -> (p <> 0 -> pgg pt dlt cml) -> exists x pt' dlt' cml' k', hgPass (S (S (Z.to_nat n))) s ab frst dist av extn0 (rnd p) gn0 (prm p) k = Ok x /\
  hgKeep s ab p x (pt, dlt, cml, k) = Ok (pt', dlt', cml', k') /\ pgg pt' dlt' cml' /\ (p <> 0 -> cml' < cml \/ cml' = cml /\ ab dlt' <= ab dlt).
Proof.
  intros Hn Zp PS. destruct (hpass_ok (S (S (Z.to_nat n))) (rnd p) gn0 (prm p) k ltac:(lia) Hn (HP p) Zg Hg) as (x & E & G & He & Hm). unfold hgKeep.
  destruct (hcopy_pgg x pt G He Hm Zp) as (pt' & Ec & PS').
  destruct ((p =? 0) || ((hg_cml x <? cml) || ((cml =? hg_cml x) && (ab (hg_dlt x) <? ab dlt)))) eqn:Ek.
  - exists x, pt', (hg_dlt x), (hg_cml x), (hg_k x). split; [exact E|]. rewrite Ek, Ec. split; [reflexivity|]. split; [exact PS'|]. intros Hp.
    destruct (Z.eqb_spec p 0); [congruence|]. destruct (Z.ltb_spec (hg_cml x) cml); [auto|]. destruct (Z.eqb_spec cml (hg_cml x)); [|discriminate]. destruct (Z.ltb_spec (ab (hg_dlt x)) (ab dlt)); [|discriminate]. right. lia.
  - exists x, pt, dlt, cml, (hg_k x). split; [exact E|]. rewrite Ek. split; [reflexivity|]. assert (p <> 0) by (intros ->; discriminate). split; [auto|]. intros _. right. lia.
Qed.
Lemma hpasses_ok passnbr pt dlt cml k : 0 < n -> 1 <= passnbr -> zlen pt = L ->
  exists pt' dlt' cml' k', hgPasses s ab frst rnd prm passnbr dist av extn0 gn0 (pt, dlt, cml, k) = Ok (pt', dlt', cml', k') /\ pgg pt' dlt' cml'.
Proof.
  intros Hn Hp Zp. unfold hgPasses.
  match goal with |- context [for_ ?lo ?hi ?f ?i] => destruct (wp_ok_inv (for_ lo hi f i) (fun '(pt', dlt', c2', k') => pgg pt' dlt' c2')) as ((((pt' & dlt') & c2') & k') & E & Q) end.
  2: { exists pt', dlt', c2', k'. auto. }
  apply wp_for with (I := fun p '(pt', dlt', c2', k') => zlen pt' = L /\ (p <> 0 -> pgg pt' dlt' c2')); [lia | split; [exact Zp | lia] | |].
  - intros p [[[pt' dlt'] c2'] k'] Hp' (I1 & I2). destruct (hstep_ok p pt' dlt' c2' k' Hn I1 I2) as (x & pt2 & dlt2 & c22 & k2 & -> & E2 & PS2 & _). cbn [bind]. rewrite E2. cbn [wp]. split; [apply PS2 | auto].
  - intros [[[pt' dlt'] c2'] k'] (_ & I2). apply I2. lia.
Qed.
Lemma hpasses_S passnbr t : 0 <= passnbr -> hgPasses s ab frst rnd prm (passnbr + 1) dist av extn0 gn0 t =
  do t <- hgPasses s ab frst rnd prm passnbr dist av extn0 gn0 t; let '(_, _, _, k) := t in do x <- hgPass (S (S (Z.to_nat n))) s ab frst dist av extn0 (rnd passnbr) gn0 (prm passnbr) k; hgKeep s ab passnbr x t.
Proof.
  clear. intros Hp. unfold hgPasses. rewrite (for_split 0 passnbr (passnbr + 1)) by lia. destruct (for_ 0 passnbr _ t) as [[[[pt dlt] c2] k]| | |]; cbn [bind]; try reflexivity.
  unfold for_. replace (Z.to_nat (passnbr + 1 - passnbr)) with 1%nat by lia. cbn [forN]. match goal with |- _ = ?X => destruct X; reflexivity end.
Qed.

(** Initial gains *)
Lemma hgain0_ok jk : exists gn, hgGain0 jk s vx dist = Ok gn /\ zlen gn = n /\ forall u, isvert s u -> S_ gn u = DD u * dist + hvex u.
Proof.
  clear - R V Zvx. pose proof hNN as (N1 & N0). unfold hgGain0. cbv zeta.
  match goal with |- context [for_ ?lo ?hi ?f ?i] => apply (fun a => let '(ex_intro _ r (conj E Q)) := wp_ok_inv (for_ lo hi f i) (fun gn => zlen gn = n /\ forall u, isvert s u -> S_ gn u = DD u * dist + hvex u) a in ex_intro _ r (conj E Q)) end.
  apply wp_for with (I := fun v gn => zlen gn = n /\ forall u, b <= u < v -> S_ gn u = DD u * dist + hvex u); [lia | rewrite zlen_repeat; split; [lia | intros; lia] | |].
  - intros v gn Hv (I1 & I2). destruct (vread s R V v Hv) as (-> & ->). cbn [bind]. pose proof (gv_range s V v Hv) as [Rv1 Rv2].
    assert (EC : match edlotab s with None => Ok ((vend s v - vert s v) * dist) | Some t => do c <- for_ (vert s v) (vend s v) (fun e c => do l <- rd b t e; Ok (c + l)) 0; Ok (c * dist) end = Ok (DD v * dist)).
    { destruct (edlotab s) as [t|] eqn:Et.
      - match goal with |- context [for_ ?lo ?hi ?f ?i] => destruct (wp_ok_inv (for_ lo hi f i) (fun c => c = DD v)) as (c & -> & ->) end; [|reflexivity].
        apply wp_for with (I := fun e c => c = zsum (vert s v) e (edlo s)); [lia | rewrite zsum_nil by lia; reflexivity | | auto].
        intros e c He ->. pose proof (hredlo v e (conj Hv He)) as X. rewrite Et in X. rewrite X. cbn [bind wp]. rewrite zsum_snoc by lia. reflexivity.
      - unfold DD. rewrite (zsum_ext _ _ _ (fun _ => 1)) by (intros; unfold edlo; rewrite Et; reflexivity). rewrite zsum_const by lia. do 2 f_equal. lia. }
    rewrite EC. cbn [bind].
    assert (EX : match vx with None => Ok 0 | Some t => rd b t v end = Ok (hvex v)) by (unfold hvex; destruct vx as [t|]; [apply rd_ok; specialize (Zvx t eq_refl); lia | reflexivity]).
    rewrite EX. cbn [bind]. rewrite wr_ok by lia. cbn [wp]. rewrite zlen_upd. split; [auto|]. intros u Hu. rewrite at_upd by lia. destruct (Z.eqb_spec v u) as [<-|]; [reflexivity | apply I2; lia].
  - intros gn (I1 & I2). split; [auto|]. intros u Hu. apply I2. exact Hu.
Qed.
End Hg.
