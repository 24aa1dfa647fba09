(** Proofs about the refinement of vertex separators: slots of the frontier, final arrays, the method. *)
From Verif Require Import Base Mem M_Graph M_Vgraph M_VgraphSt M_VgraphGg M_VgraphFm S_Graph S_Vgraph S_Color S_VgraphSt S_VgraphGg S_VgraphFm P_Graph P_Vgraph P_Vgraph2 P_VgraphSt P_VgraphGp P_VgraphGp2 P_VgraphGp3 P_VgraphGg P_VgraphGg2 P_VgraphFm P_VgraphFm2 P_VgraphFm3.

Lemma perm_inj s prm : 0 <= vertnbr s -> vertnnd s = baseval s + vertnbr s -> perm_ok s prm -> forall i j, 0 <= i < vertnbr s -> 0 <= j < vertnbr s -> at_ 0 prm i = at_ 0 prm j -> i = j.
Proof.
  intros N0 N1 (L & I & Su).
  assert (ND : NoDup prm).
  { apply (NoDup_incl_NoDup (l := zseq (baseval s) (vertnbr s))).
    - apply NoDup_zseq.
    - pose proof (zlen_zseq (baseval s) (vertnbr s) N0). unfold zlen in *. lia.
    - intros v Hv. apply In_zseq in Hv. destruct (Su v) as (i & Hi & <-); [unfold isvert; lia|]. unfold at_. rewrite Z.sub_0_r. apply nth_In. unfold zlen in L. lia. }
  intros i j Hi Hj E. unfold at_ in E. rewrite !Z.sub_0_r in E. rewrite NoDup_nth in ND. specialize (ND (Z.to_nat i) (Z.to_nat j)). unfold zlen in L. specialize (ND ltac:(lia) ltac:(lia) E). lia.
Qed.
Lemma land1 p : 0 <= p <= 2 -> Z.land p 1 = b2z (p =? 1).
Proof. intros H. assert (Hc : p = 0 \/ p = 1 \/ p = 2) by lia. destruct Hc as [-> | [-> | ->]]; reflexivity. Qed.
Lemma land2 p : 0 <= p <= 2 -> Z.land p 2 = 2 * b2z (p =? 2).
Proof. intros H. assert (Hc : p = 0 \/ p = 1 \/ p = 2) by lia. destruct Hc as [-> | [-> | ->]]; reflexivity. Qed.

Section Fm4.
Variable s : graph.
Hypothesis R : graph_readable s.
Hypothesis V : graph_valid s.
Variable part : list Z.
Hypothesis HP : vertnbr s <= zlen part.
Hypothesis HP0 : forall w, isvert s w -> 0 <= at_ (baseval s) part w <= 2.
Notation b := (baseval s).
Notation n := (vertnbr s).
Notation nnd := (vertnnd s).
Notation PT x v := (at_ b (fx_pt x) v).
Notation ST x v := (at_ b (fx_st x) v).
Notation MS x v := (at_ b (fx_ms x) v).
Notation P0 v := (at_ b part v).
Notation G := (G s).
Notation nb := (nb s).
Notation wf := (wf s).

(** ** Slots *)
Lemma sums_velo v : isvert s v -> for_ (vert s v) (vend s v) (fun e '(c0, c01) => do u <- redge s e; do pu <- rd b part u; do lu <- rvelo s u; Ok (c0 + Z.land pu 1 * lu, c01 + (2 - Z.land pu 2) * lu)) (0, 0) =
  Ok (nb (at_ b part) v 1, 2 * (nb (at_ b part) v 0 + nb (at_ b part) v 1)).
Proof.
  intros Hv. pose proof (gv_range s V v Hv) as [Rv1 Rv2]. pose proof (nn s V) as NN.
  match goal with |- for_ ?lo ?hi ?f ?i = Ok (?A, ?B) => destruct (wp_ok_inv (for_ lo hi f i) (fun '(c0, c01) => c0 = A /\ c01 = B)) as ((c0 & c01) & E & -> & ->) end; [|exact E].
  apply wp_for with (I := fun i '(c0, c01) => c0 = zsum (vert s v) i (fun e => if P0 (edge s e) =? 1 then velo s (edge s e) else 0) /\
    c01 = 2 * (zsum (vert s v) i (fun e => if P0 (edge s e) =? 0 then velo s (edge s e) else 0) + zsum (vert s v) i (fun e => if P0 (edge s e) =? 1 then velo s (edge s e) else 0))); [lia | rewrite !zsum_nil by lia; auto | |].
  - intros e [c0 c01] He (I1 & I2). assert (Ha : arc s v e) by (split; auto). rewrite (redge' s R v e Ha). cbn [bind]. pose proof (gv_end s V v e Ha) as Hw. rewrite rd_ok by (unfold isvert in Hw; lia). cbn [bind].
    rewrite (rvelo_ok s R V _ Hw). cbn [bind wp]. rewrite !zsum_snoc by lia. rewrite <- I1. pose proof (HP0 _ Hw) as Hp. rewrite land1, land2 by auto. rewrite I2.
    destruct (Z.eqb_spec (P0 (edge s e)) 0), (Z.eqb_spec (P0 (edge s e)) 1), (Z.eqb_spec (P0 (edge s e)) 2); cbn [b2z]; try lia; rewrite <- I1; lia.
  - intros [c0 c01] I. exact I.
Qed.
Lemma sums_none v : isvert s v -> velotab s = None -> exists c2, for_ (vert s v) (vend s v) (fun e '(c0, c2) => do u <- redge s e; do pu <- rd b part u; Ok (c0 + Z.land pu 1, c2 + Z.land pu 2)) (0, 0) =
  Ok (nb (at_ b part) v 1, 2 * c2) /\ vend s v - vert s v = nb (at_ b part) v 0 + nb (at_ b part) v 1 + c2.
Proof.
  intros Hv VN. pose proof (gv_range s V v Hv) as [Rv1 Rv2]. pose proof (nn s V) as NN. assert (VE : forall u, velo s u = 1) by (intros u; unfold velo; now rewrite VN).
  match goal with |- exists c2, for_ ?lo ?hi ?f ?i = _ /\ _ => destruct (wp_ok_inv (for_ lo hi f i) (fun '(c0, c2) => c0 = nb (at_ b part) v 1 /\ exists c, c2 = 2 * c /\ vend s v - vert s v = nb (at_ b part) v 0 + nb (at_ b part) v 1 + c)) as ((c0 & c01) & E & -> & c & -> & EE) end; [|exists c; split; [exact E | exact EE]].
  apply wp_for with (I := fun i '(c0, c2) => c0 = zsum (vert s v) i (fun e => if P0 (edge s e) =? 1 then velo s (edge s e) else 0) /\
    exists c, c2 = 2 * c /\ i - vert s v = zsum (vert s v) i (fun e => if P0 (edge s e) =? 0 then velo s (edge s e) else 0) + zsum (vert s v) i (fun e => if P0 (edge s e) =? 1 then velo s (edge s e) else 0) + c); [lia | rewrite !zsum_nil by lia; split; [reflexivity|]; exists 0; lia | |].
  - intros e [c0 c2] He (I1 & c & I2 & I3). assert (Ha : arc s v e) by (split; auto). rewrite (redge' s R v e Ha). cbn [bind]. pose proof (gv_end s V v e Ha) as Hw. rewrite rd_ok by (unfold isvert in Hw; lia). cbn [bind wp].
    rewrite !zsum_snoc by lia. rewrite <- I1 in I3 |- *. pose proof (HP0 _ Hw) as Hp. rewrite land1, land2 by auto. rewrite VE. split; [destruct (_ =? 1); cbn [b2z]; lia|].
    exists (c + b2z (P0 (edge s e) =? 2)). split; [lia|].
    destruct (Z.eqb_spec (P0 (edge s e)) 0), (Z.eqb_spec (P0 (edge s e)) 1), (Z.eqb_spec (P0 (edge s e)) 2); cbn [b2z]; lia.
  - intros [c0 c2] I. exact I.
Qed.

Lemma slots_ok fron k : 0 <= k <= zlen fron -> (forall i, 0 <= i < k -> isvert s (at_ 0 fron i) /\ P0 (at_ 0 fron i) = 2) ->
  (forall i j, 0 <= i < k -> 0 <= j < k -> at_ 0 fron i = at_ 0 fron j -> i = j) -> (forall v, isvert s v -> P0 v = 2 -> exists i, 0 <= i < k /\ at_ 0 fron i = v) ->
  let N := Z.to_nat n in
  exists x, for_ 0 k (fmSlot s part fron) (mkfmst (repeat (-1) N) (repeat (-1) (2 * N)) (repeat (-1) N) (repeat (-1) N) nil nil) = Ok x /\
    wf x /\ K s part None nil x /\ SB s part (at_ b part) (fx_save x) x /\ (forall u, isvert s u -> MS x u <= -1).
Proof.
  intros Hk F1 F2 F3 N. pose proof (nn s V) as (N1 & N2).
  match goal with |- exists x, for_ ?lo ?hi ?f ?i = _ /\ _ => destruct (wp_ok_inv (for_ lo hi f i) (fun x => wf x /\ fx_lock x = nil /\ fx_save x = nil /\ (forall u, isvert s u -> MS x u <= -1) /\ (forall u, isvert s u -> if P0 u =? 2 then PT x u = 2 /\ ST x u = 3 /\ G x u 0 = nb (at_ b part) u 1 - velo s u /\ G x u 1 = nb (at_ b part) u 0 - velo s u else PT x u = -1))) as (x & E & W & L & S & MM & Q) end.
  - apply wp_for with (I := fun i x => wf x /\ fx_lock x = nil /\ fx_save x = nil /\ (forall u, isvert s u -> MS x u <= -1) /\
      (forall j, 0 <= j < i -> let u := at_ 0 fron j in PT x u = 2 /\ ST x u = 3 /\ G x u 0 = nb (at_ b part) u 1 - velo s u /\ G x u 1 = nb (at_ b part) u 0 - velo s u) /\
      (forall u, isvert s u -> (forall j, 0 <= j < i -> at_ 0 fron j <> u) -> PT x u = -1)); [lia| | |].
    + assert (LR : forall m, zlen (repeat (-1) m) = Z.of_nat m) by (intros m; unfold zlen; rewrite repeat_length; reflexivity).
      assert (AR : forall u, isvert s u -> at_ b (repeat (-1) N) u = -1). { intros u Hu. unfold at_. unfold isvert in Hu. apply (repeat_spec N). apply nth_In. rewrite repeat_length. lia. }
      split; [constructor; cbn [fx_pt fx_gn fx_st fx_ms]; rewrite LR; lia|]. cbn [fx_lock fx_save fx_pt fx_ms]. split; [reflexivity|]. split; [reflexivity|]. split; [intros u Hu; rewrite AR by auto; lia|]. split; [intros j Hj; lia | intros u Hu _; apply AR; auto].
    + intros i x Hi (W & L & S & MM & I1 & I2). destruct (F1 i Hi) as (Hv & Pv). unfold fmSlot. rewrite rd_ok by lia. cbn [bind]. set (v := at_ 0 fron i) in *. rewrite (rd_pt s V x v) by auto. cbn [bind].
      assert (Pm : PT x v = -1) by (apply I2; auto; intros j Hj X; apply F2 in X; lia). rewrite Pm. change (-1 =? -1) with true. cbn [negb]. destruct (vread s R V v Hv) as (-> & ->). cbn [bind].
      match goal with |- wp (bind ?r _) _ _ => assert (Eg : r = Ok (nb (at_ b part) v 1 - velo s v, nb (at_ b part) v 0 - velo s v)) end.
      { destruct (velotab s) eqn:EV.
        - rewrite (sums_velo v Hv). cbn [bind]. rewrite (rvelo_ok s R V v Hv). cbn [bind]. f_equal. f_equal. rewrite Z.shiftr_div_pow2 by lia. change (2 ^ 1) with 2. rewrite (Z.mul_comm 2), Z.div_mul by lia. lia.
        - destruct (sums_none v Hv EV) as (c & -> & EE). cbn [bind]. assert (velo s v = 1) as -> by (unfold velo; now rewrite EV). f_equal. f_equal. rewrite Z.shiftr_div_pow2 by lia. change (2 ^ 1) with 2. rewrite (Z.mul_comm 2), Z.div_mul by lia. lia. }
      rewrite Eg. cbn [bind]. set (a := nb _ v 1 - _). set (c := nb _ v 0 - _). rewrite (wr_gn s V x) by (auto; lia). cbn [bind].
      set (x0 := setgn x (upd 0 (fx_gn x) (gi s v 0) a)). assert (W0 : wf x0) by (destruct W; constructor; cbn [x0 setgn fx_pt fx_gn fx_st fx_ms]; rewrite ?zlen_upd; auto).
      change (upd 0 (fx_gn x) (gi s v 0) a) with (fx_gn x0). rewrite (wr_gn s V x0) by (auto; lia). cbn [bind]. rewrite (wr_pt s V), (wr_st s V) by auto. cbn [bind wp].
      set (x1 := setst _ _).
      assert (PT1 : forall w, isvert s w -> PT x1 w = if v =? w then 2 else PT x w) by (intros w Hw; cbn [x1 setst setgn setpt fx_pt]; apply (at_n s V); auto; apply W).
      assert (ST1 : forall w, isvert s w -> ST x1 w = if v =? w then 3 else ST x w) by (intros w Hw; cbn [x1 setst setgn setpt fx_st]; apply (at_n s V); auto; apply W).
      assert (G1 : forall w sd, isvert s w -> 0 <= sd <= 1 -> G x1 w sd = if v =? w then (if sd =? 0 then a else c) else G x w sd).
      { intros w sd Hw Hsd. unfold P_VgraphFm.G at 1. cbn [x1 setst setpt setgn fx_gn]. rewrite (G_upd s V) by (auto; try lia; apply W0). cbn [x0 setgn fx_gn]. rewrite (G_upd s V) by (auto; try lia; apply W).
        change (at_ 0 (fx_gn x) (gi s w sd)) with (G x w sd). destruct (v =? w); cbn [andb]; [|reflexivity]. assert (Hc : sd = 0 \/ sd = 1) by lia. destruct Hc as [-> | ->]; reflexivity. }
      split; [destruct W, W0; constructor; cbn [x1 setst setpt setgn fx_pt fx_gn fx_st fx_ms]; rewrite ?zlen_upd; auto|]. split; [exact L|]. split; [exact S|]. split; [exact MM|]. split.
      * intros j Hj. pose (u := at_ 0 fron j). fold u. assert (Hj' : 0 <= j < k) by lia. destruct (F1 j Hj') as (Hu & _). fold u in Hu. rewrite PT1, ST1, !G1 by (auto; lia). destruct (Z.eqb_spec v u) as [<-|Hne]; [auto|]. unfold u. apply I1. destruct (Z.eq_dec j i) as [->|]; [now destruct Hne | lia].
      * intros u Hu Hn. rewrite PT1 by auto. destruct (Z.eqb_spec v u) as [X|]; [destruct (Hn i); auto; lia|]. apply I2; auto. intros j Hj. apply Hn. lia.
    + intros x (W & L & S & MM & I1 & I2). split; [exact W|]. split; [exact L|]. split; [exact S|]. split; [exact MM|]. intros u Hu. destruct (Z.eqb_spec (P0 u) 2) as [E|E].
      * destruct (F3 u Hu E) as (i & Hi & <-). apply I1. exact Hi.
      * apply I2; auto. intros j Hj <-. apply E. now apply F1.
  - exists x. split; [exact E|]. split; [exact W|].
    assert (Pc : forall u, isvert s u -> PT x u = 2 /\ ST x u = 3 /\ P0 u = 2 \/ PT x u = -1 /\ P0 u <> 2). { intros u Hu. specialize (Q u Hu). destruct (Z.eqb_spec (P0 u) 2); [left | right]; tauto. }
    split; [|split; [|exact MM]].
    + constructor; rewrite ?L.
      * intros u Hu. destruct (Pc u Hu); lia.
      * intros u Hu. destruct (Pc u Hu); lia.
      * intros u Hu. destruct (Pc u Hu); lia.
      * constructor.
      * intros u [].
      * intros u Hu. destruct (Pc u Hu); lia.
      * constructor.
      * intros u. split; [intros []|]. intros (Hu & X & Y). destruct (Pc u Hu); lia.
      * intros u X. discriminate.
    + rewrite S. constructor; [constructor | intros u p a c [] |]. intros u Hu _. unfold P_VgraphFm.ep. split; [destruct (Pc u Hu) as [(X1 & X2 & X3)|(X1 & X2)]; rewrite X1; [change (2 =? -1) with false | change (-1 =? -1) with true]; cbv iota; auto|].
      intros E2. specialize (Q u Hu). destruct (Z.eqb_spec (P0 u) 2); [|contradiction]. unfold exg. change (1 - 0) with 1. change (1 - 1) with 0. tauto.
Qed.

(** ** Final arrays *)
Lemma final_ok slots pt fron : perm_ok s slots -> zlen pt = n -> n <= zlen fron -> (forall u, isvert s u -> -1 <= at_ b pt u <= 2) -> (forall u, isvert s u -> P0 u = 2 -> at_ b pt u <> -1) ->
  let B u := if at_ b pt u =? -1 then P0 u else at_ b pt u in
  exists part' fron' k d, fmFinal s slots pt part fron = Ok (part', fron', k, d) /\ zlen part' = zlen part /\ zlen fron' = zlen fron /\ (forall u, isvert s u -> at_ b part' u = B u) /\
    d = zcount b nnd (fun u => at_ b part' u =? 1) - zcount b nnd (fun u => P0 u =? 1) /\
    0 <= k /\ (forall i, 0 <= i < k -> isvert s (at_ 0 fron' i) /\ B (at_ 0 fron' i) = 2) /\ (forall i j, 0 <= i < k -> 0 <= j < k -> at_ 0 fron' i = at_ 0 fron' j -> i = j) /\
    (forall u, isvert s u -> B u = 2 -> exists i, 0 <= i < k /\ at_ 0 fron' i = u).
Proof.
  intros PO Lp Lf Rp Ab B. pose proof (nn s V) as (N1 & N2). pose proof (perm_inj s slots N2 N1 PO) as Inj. destruct PO as (L & Iv & Su).
  unfold fmFinal. match goal with |- context [for_ ?lo ?hi ?f ?ini] => destruct (wp_ok_inv (for_ lo hi f ini) (fun '(part', fron', k, d) => zlen part' = zlen part /\ zlen fron' = zlen fron /\ (forall u, isvert s u -> at_ b part' u = B u) /\
    d = zcount b nnd (fun u => at_ b part' u =? 1) - zcount b nnd (fun u => P0 u =? 1) /\
    0 <= k /\ (forall i, 0 <= i < k -> isvert s (at_ 0 fron' i) /\ B (at_ 0 fron' i) = 2) /\ (forall i j, 0 <= i < k -> 0 <= j < k -> at_ 0 fron' i = at_ 0 fron' j -> i = j) /\
    (forall u, isvert s u -> B u = 2 -> exists i, 0 <= i < k /\ at_ 0 fron' i = u))) as ((((part' & fron') & k) & d) & E & Q) end.
  2: { exists part', fron', k, d. split; [exact E | exact Q]. }
  apply wp_for with (I := fun i '(part', fron', k, d) => zlen part' = zlen part /\ zlen fron' = zlen fron /\ (forall j, 0 <= j < i -> at_ b part' (at_ 0 slots j) = B (at_ 0 slots j)) /\ (forall u, isvert s u -> (forall j, 0 <= j < i -> at_ 0 slots j <> u) -> at_ b part' u = P0 u) /\
    d = zcount b nnd (fun u => at_ b part' u =? 1) - zcount b nnd (fun u => P0 u =? 1) /\
    0 <= k <= i /\ (forall i', 0 <= i' < k -> B (at_ 0 fron' i') = 2 /\ exists j, 0 <= j < i /\ at_ 0 slots j = at_ 0 fron' i') /\ (forall i' j, 0 <= i' < k -> 0 <= j < k -> at_ 0 fron' i' = at_ 0 fron' j -> i' = j) /\
    (forall j, 0 <= j < i -> B (at_ 0 slots j) = 2 -> exists i', 0 <= i' < k /\ at_ 0 fron' i' = at_ 0 slots j)); [lia| | |].
  - split; [reflexivity|]. split; [reflexivity|]. split; [intros; lia|]. split; [auto|]. split; [lia|]. split; [lia|]. split; [intros; lia|]. split; intros; lia.
  - intros i [[[pa fr] k] d] Hi (I1 & I2 & I3 & I4 & I5 & I6 & I7 & I8 & I9). rewrite rd_ok by lia. cbn [bind]. pose proof (Iv i Hi) as Hv. set (v := at_ 0 slots i) in *. pose proof Hv as Hv'. unfold isvert in Hv'. rewrite rd_ok by lia. cbn [bind].
    assert (Pv : at_ b pa v = P0 v) by (apply I4; auto; intros j Hj X; apply Inj in X; lia). pose proof (Rp v Hv) as Rv. pose proof (HP0 v Hv) as P0v.
    assert (LT : forall (Q : Z -> Prop), (forall j, 0 <= j < i -> Q j) -> Q i -> forall j, 0 <= j < i + 1 -> Q j) by (intros Q X Y j Hj; destruct (Z.eq_dec j i) as [->|]; [exact Y | apply X; lia]).
    destruct (Z.eqb_spec (at_ b pt v) (-1)) as [E1|E1].
    + assert (Bv : B v = P0 v) by (unfold B; rewrite E1; reflexivity). assert (P0 v <> 2) by (intros X; exact (Ab v Hv X E1)). cbn [wp]. split; [exact I1|]. split; [exact I2|]. split; [apply (LT (fun j => at_ b pa (at_ 0 slots j) = B (at_ 0 slots j))); [exact I3 | fold v; congruence]|].
      split; [intros u Hu X; apply I4; auto; intros j Hj; apply X; lia|]. split; [exact I5|]. split; [lia|]. split; [intros i' Hi'; destruct (I7 i' Hi') as (X1 & j & X2 & X3); split; [exact X1|]; exists j; split; [lia | exact X3]|]. split; [exact I8|].
      apply (LT (fun j => B (at_ 0 slots j) = 2 -> exists i', 0 <= i' < k /\ at_ 0 fr i' = at_ 0 slots j)); [exact I9|]. fold v. lia.
    + assert (Bv : B v = at_ b pt v) by (unfold B; destruct (Z.eqb_spec (at_ b pt v) (-1)); [contradiction | reflexivity]). rewrite rd_ok by lia. cbn [bind]. rewrite Pv. set (p := at_ b pt v) in *.
      assert (exists pa' d', (if p =? P0 v then Ok (pa, d) else do part0 <- wr b pa v p; Ok (part0, d + Z.land p 1 - Z.land (P0 v) 1)) = Ok (pa', d') /\ zlen pa' = zlen part /\ (forall u, isvert s u -> at_ b pa' u = if v =? u then p else at_ b pa u) /\
        d' = zcount b nnd (fun u => at_ b pa' u =? 1) - zcount b nnd (fun u => P0 u =? 1)) as (pa' & d' & -> & J1 & J2 & J3).
      { destruct (Z.eqb_spec p (P0 v)) as [E|E].
        - exists pa, d. split; [reflexivity|]. split; [exact I1|]. split; [|exact I5]. intros u Hu. destruct (Z.eqb_spec v u) as [<-|]; [congruence | reflexivity].
        - rewrite wr_ok by lia. cbn [bind]. do 2 eexists. split; [reflexivity|]. split; [now rewrite zlen_upd|]. assert (X : forall u, isvert s u -> at_ b (upd b pa v p) u = if v =? u then p else at_ b pa u) by (intros u Hu; unfold isvert in Hu; rewrite at_upd by lia; reflexivity). split; [exact X|].
          rewrite !land1 by lia. rewrite I5. unfold zcount. rewrite (zsum_upd b nnd (fun u => b2z (at_ b pa u =? 1)) (fun u => b2z (at_ b (upd b pa v p) u =? 1)) v); [|exact Hv|].
          + rewrite X by auto. rewrite Z.eqb_refl, Pv. lia.
          + intros u Hu Hn. rewrite X by auto. destruct (Z.eqb_spec v u); [congruence | reflexivity]. }
      cbn [bind].
      assert (Z1 : forall j, 0 <= j < i + 1 -> at_ b pa' (at_ 0 slots j) = B (at_ 0 slots j)).
      { apply (LT (fun j => at_ b pa' (at_ 0 slots j) = B (at_ 0 slots j))); [|fold v; rewrite J2, Z.eqb_refl by auto; congruence]. intros j Hj. rewrite J2 by (apply Iv; lia). destruct (Z.eqb_spec v (at_ 0 slots j)) as [X|]; [apply Inj in X; lia | auto]. }
      assert (Z2 : forall u, isvert s u -> (forall j, 0 <= j < i + 1 -> at_ 0 slots j <> u) -> at_ b pa' u = P0 u).
      { intros u Hu X. rewrite J2 by auto. destruct (Z.eqb_spec v u) as [Y|]; [destruct (X i); auto; lia|]. apply I4; auto. intros j Hj. apply X. lia. }
      destruct (Z.eqb_spec p 2) as [E2|E2].
      * rewrite wr_ok by lia. cbn [bind wp]. assert (AF : forall i', 0 <= i' < k + 1 -> at_ 0 (upd 0 fr k v) i' = if k =? i' then v else at_ 0 fr i') by (intros i' Hi'; rewrite at_upd by lia; reflexivity).
        split; [exact J1|]. split; [now rewrite zlen_upd|]. split; [exact Z1|]. split; [exact Z2|]. split; [exact J3|]. split; [lia|]. split; [|split].
        -- intros i' Hi'. rewrite AF by auto. destruct (Z.eqb_spec k i'); [split; [lia|]; exists i; split; [lia | reflexivity]|]. destruct (I7 i' ltac:(lia)) as (X1 & j & X2 & X3). split; [exact X1|]. exists j. split; [lia | exact X3].
        -- intros i' j Hi' Hj. rewrite !AF by auto. assert (NE : forall z, 0 <= z < k -> at_ 0 fr z <> v) by (intros z Hz X; destruct (I7 z Hz) as (_ & j' & X2 & X3); rewrite X in X3; apply Inj in X3; lia).
           destruct (Z.eqb_spec k i'), (Z.eqb_spec k j); intros X; [lia | destruct (NE j); [lia | congruence] | destruct (NE i'); [lia | congruence] | apply I8; auto; lia].
        -- apply (LT (fun j => B (at_ 0 slots j) = 2 -> exists i', 0 <= i' < k + 1 /\ at_ 0 (upd 0 fr k v) i' = at_ 0 slots j)).
           ++ intros j Hj X. destruct (I9 j Hj X) as (i' & Y1 & Y2). exists i'. split; [lia|]. rewrite AF by lia. destruct (Z.eqb_spec k i'); [lia | exact Y2].
           ++ intros _. exists k. split; [lia|]. rewrite AF by lia. now rewrite Z.eqb_refl.
      * cbn [wp]. split; [exact J1|]. split; [exact I2|]. split; [exact Z1|]. split; [exact Z2|]. split; [exact J3|]. split; [lia|]. split; [intros i' Hi'; destruct (I7 i' Hi') as (X1 & j & X2 & X3); split; [exact X1|]; exists j; split; [lia | exact X3]|]. split; [exact I8|].
        apply (LT (fun j => B (at_ 0 slots j) = 2 -> exists i', 0 <= i' < k /\ at_ 0 fr i' = at_ 0 slots j)); [exact I9|]. fold v. lia.
  - intros [[[pa fr] k] d] (I1 & I2 & I3 & I4 & I5 & I6 & I7 & I8 & I9). split; [exact I1|]. split; [exact I2|]. split; [|split; [exact I5|split; [lia|split; [|split; [exact I8|]]]]].
    + intros u Hu. destruct (Su u Hu) as (j & Hj & <-). apply I3. exact Hj.
    + intros i Hi. destruct (I7 i Hi) as (X1 & j & X2 & X3). split; [rewrite <- X3; apply Iv; exact X2 | exact X1].
    + intros u Hu X. destruct (Su u Hu) as (j & Hj & <-). apply I9; auto.
Qed.
End Fm4.

Section Meth.
Variables (ab tb : Z -> Z) (ord : nat -> fmst -> list (Z * Z)) (slots : list Z) (gmax mat movemax passnbr : Z) (fuel : nat).

(** bound on the number of iterations, from a balanced separator *)
Definition fmFuel (g : vgraph) : Z := (vcld2 g * (mat + 1) + ab (vdlt g)) * (Z.max 0 movemax + 1) + Z.max 0 movemax.
Lemma Run_ok g : vstate g -> pos_loads (vs g) -> ord_ok (vs g) ord -> perm_ok (vs g) slots ->
  wpf (fmRun ab tb ord slots gmax mat movemax passnbr fuel g) (fun '(rc, h) => rc = 0 /\ vsame g h /\ vstate h /\
    (ab (vdlt g) <= mat -> ab (vdlt h) <= mat /\ (vcld2 h < vcld2 g \/ vcld2 h = vcld2 g /\ ab (vdlt h) <= ab (vdlt g)))) /\
  ((forall d, 0 <= ab d) -> ab (vdlt g) <= mat -> fmFuel g < Z.of_nat fuel -> exists r, fmRun ab tb ord slots gmax mat movemax passnbr fuel g = Ok r).
Proof.
  intros ST PL HO PO. destruct (vt_valid _ ST) as (x & V). pose proof (vt_read _ ST) as RG. pose proof (readable_set x _ (vr_graph _ RG)) as R. pose proof (vt_counts _ ST) as C. pose proof (vt_fron _ ST) as (F1 & F2 & F3 & F4).
  pose proof (vt_dw _ ST) as (W0 & W1 & W). pose proof (vr_nnd _ RG) as (N1 & N2). pose proof (vr_part _ RG) as Zp. pose proof (vr_fron _ RG) as Zf.
  pose proof (fron_exact_counted g N1 N2 (vt_fron _ ST)) as (Fn & _).
  assert (Lfn : vfronnbr g <= vertnbr (vs g)). { rewrite Fn. pose proof (psize_all g RG (vc_part _ C)) as SA. pose proof (zcount_nonneg (baseval (vs g)) (vertnnd (vs g)) (fun v => S_Vgraph.part g v =? 0)). pose proof (zcount_nonneg (baseval (vs g)) (vertnnd (vs g)) (fun v => S_Vgraph.part g v =? 1)). unfold psize in *. lia. }
  unfold fmRun. cbv zeta. set (s := setsum x (vs g)) in *.
  destruct (slots_ok s R V (vpart g) Zp (vc_part _ C) (vfron g) (vfronnbr g) ltac:(lia) F2 F3 F4) as (x1 & E1 & X1 & X2 & X3 & X4). cbv zeta in E1.
  change (fmSlot s) with (fmSlot (vs g)) in E1. change (vertnbr s) with (vertnbr (vs g)) in E1. rewrite E1. cbn [bind].
  change (fmPasses (vs g)) with (fmPasses s). pose proof (vstate_psep g x ST V) as [_ _ Q3 Q4 Q5].
  assert (OB : okB s (vdw0 g) (vdw1 g) (at_ (baseval s) (vpart g)) (vcld2 g) (vdlt g)).
  { constructor; [apply (vc_part _ C) | | exact Q5 | exact Q4]. intros u w Ha Nu Nw. destruct (adj_vert s V u w Ha) as (Hu & Hw). pose proof (vc_part _ C u Hu) as B1. pose proof (vc_part _ C w Hw) as B2. unfold S_Vgraph.part in B1, B2.
    change (baseval (vs g)) with (baseval s) in B1, B2. destruct (Z.eq_dec (at_ (baseval s) (vpart g) u) 0) as [Eu|Eu], (Z.eq_dec (at_ (baseval s) (vpart g) w) 0) as [Ew|Ew]; try lia.
    - exfalso. assert (at_ (baseval s) (vpart g) w = 1) as X by lia. exact (Q3 w u (adj_sym s V u w Ha) X Eu).
    - exfalso. assert (at_ (baseval s) (vpart g) u = 1) as X by lia. exact (Q3 u w Ha X Ew). }
  match goal with |- context [fmPasses s (vpart g) ab tb ord gmax (vdw0 g) (vdw1 g) mat movemax fuel passnbr x1 ?yy] => set (y0 := yy) end.
  assert (PI0 : PINV s (vpart g) (vdw0 g) (vdw1 g) (at_ (baseval s) (vpart g)) x1 y0) by (constructor; auto).
  assert (QL0 : qual ab mat (vcld2 g) (vdlt g) y0) by (intros X; split; [exact X|]; right; split; [reflexivity|]; cbn [y0 fc_dltb]; lia).
  match goal with |- wpf (bind _ ?f) ?P /\ _ => assert (TAIL : forall z, (qual ab mat (vcld2 g) (vdlt g) (snd z) /\ exists B, PINV s (vpart g) (vdw0 g) (vdw1 g) B (fst z) (snd z)) -> exists h, f z = Ok (0, h) /\ P (0, h)) end.
  2: { pose proof (passes_ok s R V (vpart g) Zp (vc_part _ C) PL (vdw0 g) (vdw1 g) ab tb ord gmax mat movemax HO fuel passnbr (vcld2 g) (vdlt g) (at_ (baseval s) (vpart g)) x1 y0 PI0 QL0) as PO'. split.
    - apply wpf_bind. eapply wpf_mono; [exact PO'|]. intros [x2 y] HQ. destruct (TAIL (x2, y) HQ) as (h & Eh & Ph). cbv beta iota in Eh. rewrite Eh. exact Ph.
    - intros HA Hb HFu. destruct (passes_term s R V (vpart g) Zp (vc_part _ C) PL (vdw0 g) (vdw1 g) ab tb ord gmax mat movemax HO HA fuel passnbr (at_ (baseval s) (vpart g)) x1 y0 PI0 Hb HFu) as ([x2 y] & Ez).
      rewrite Ez in *. cbn [bind]. destruct (TAIL (x2, y) PO') as (h & Eh & _). cbv beta iota in Eh. eexists. exact Eh. }
  intros [x2 y] (QL & B & [Y1 Y2 Y3 Y4 Y5]). cbn [fst snd] in *. cbv beta iota.
  destruct (back_ok s V (vpart g) (vc_part _ C) PL ab tb B (fx_save x2) (ob_rng _ _ _ _ _ _ Y5) x2 Y1 Y3 Y2) as (x3 & _ & Z1 & Z2 & Z3 & _ & Eu).
  change (fmUndo s) with (fmUndo (vs g)) in Eu. rewrite Eu. cbn [bind].
  destruct (final_ok s V (vpart g) Zp (vc_part _ C) slots (fx_pt x3) (vfron g) PO (wf_pt _ _ Z1) Zf (k_pt _ _ _ _ _ Z2) (k_abs _ _ _ _ _ Z2)) as (pa & fr & k & d & EF & A1 & A2 & A3 & A4 & A5 & A6 & A7 & A8).
  change (fmFinal s) with (fmFinal (vs g)) in EF. rewrite EF. cbn [bind]. destruct (Z.eqb_spec (vdw0 g + vdw1 g) 0); [lia|]. eexists. split; [reflexivity|]. split; [reflexivity|].
  match goal with |- vsame _ ?z /\ _ => set (h := z) end.
  assert (BE : forall u, isvert s u -> (if at_ (baseval s) (fx_pt x3) u =? -1 then at_ (baseval s) (vpart g) u else at_ (baseval s) (fx_pt x3) u) = B u).
  { intros u Hu. destruct (sb_out _ _ _ _ _ Z3 u Hu ltac:(intros [])) as (X & _). exact X. }
  assert (PH : forall u, isvert s u -> S_Vgraph.part h u = B u) by (intros u Hu; rewrite <- BE by auto; exact (A3 u Hu)).
  assert (Q2 : forall u, isvert (vs h) u -> 0 <= S_Vgraph.part h u <= 2) by (intros u Hu; rewrite PH by exact Hu; apply (ob_rng _ _ _ _ _ _ Y5 u Hu)).
  assert (RH : vg_readable h).
  { destruct RG as [R1 R2 R3 R4 R5]. constructor; cbn [h vs vpart vfron]; auto; try lia; intros v Hv; specialize (Q2 v Hv); lia. }
  assert (VU : valid_upto_sum (vs h)) by (exists x; exact V).
  assert (LP : forall q, pload h q = LDf s B q) by (intros q; apply (LDf_ext s (S_Vgraph.part h) B q PH)).
  pose proof (pload_all h VU Q2) as LA. pose proof (psize_all h RH Q2) as SA. rewrite !LP in LA. change (vs h) with (vs g) in LA, SA.
  pose proof (ob_c2 _ _ _ _ _ _ Y5) as C2. pose proof (ob_dlt _ _ _ _ _ _ Y5) as DL.
  assert (C0 : Z.quot (fc_dltb y + (velosum (vs g) - fc_c2b y) * vdw0 g) (vdw0 g + vdw1 g) = LDf s B 0).
  { replace (fc_dltb y + (velosum (vs g) - fc_c2b y) * vdw0 g) with (LDf s B 0 * (vdw0 g + vdw1 g)) by nia. apply Z.quot_mul. lia. }
  assert (FE : fron_exact h).
  { split; [exact A5|]. split; [|split; [exact A7|]].
    - intros i Hi. destruct (A6 i Hi) as (T1 & T2). split; [exact T1|]. fold s in T1. change (fron h i) with (at_ 0 fr i). rewrite PH by exact T1. rewrite <- BE by exact T1. exact T2.
    - intros v Hv Ev. apply (A8 v Hv). cbv beta. rewrite BE by exact Hv. rewrite <- PH by exact Hv. exact Ev. }
  pose proof (fron_exact_counted h N1 N2 FE) as (FC & _).
  assert (SZ : vcsz1 g + d = psize h 1).
  { rewrite (vc_size1 _ C), A4. unfold psize. change (vs h) with (vs g). change (zcount (baseval s) (vertnnd s) (fun u => at_ (baseval s) pa u =? 1)) with (zcount (baseval (vs g)) (vertnnd (vs g)) (fun v => S_Vgraph.part h v =? 1)).
    change (zcount (baseval s) (vertnnd s) (fun u => at_ (baseval s) (vpart g) u =? 1)) with (zcount (baseval (vs g)) (vertnnd (vs g)) (fun v => S_Vgraph.part g v =? 1)). lia. }
  split; [constructor; cbn [h vs vpart vfron vdw0 vdw1]; auto; lia|]. split; [|exact QL].
  constructor.
  - exact VU.
  - apply (vt_base _ ST).
  - exact RH.
  - exact (vt_dw _ ST).
  - change (vfronnbr h) with k in FC. constructor; rewrite ?LP; cbn [h vcsz0 vcsz1 vcld0 vcld1 vcld2 vdlt vdw0 vdw1]; auto; rewrite ?C0; fold h; try lia.
  - exact FE.
  - intros v e Ha. change (vs h) with (vs g) in *. assert (Hadj : adjacent s v (edge (vs g) e)) by (exists e; auto). destruct (adj_vert s V _ _ Hadj) as (Hv & Hw). rewrite !PH by auto. pose proof (ob_sep _ _ _ _ _ _ Y5 _ _ Hadj). split; intros (T1 & T2); lia.
Qed.
End Meth.
