(** Proofs about the refinement of vertex separators: records, gains and chains during a move. *)
From Verif Require Import Base Mem M_Graph M_Vgraph M_VgraphSt M_VgraphGg M_VgraphFm S_Graph S_Vgraph S_Color S_VgraphSt S_VgraphGg P_Graph P_Vgraph P_Vgraph2 P_VgraphGp P_VgraphGg.

Section Fm.
Variable s : graph.
Hypothesis R : graph_readable s.
Hypothesis V : graph_valid s.
Variable part : list Z.
Hypothesis HP : vertnbr s <= zlen part.
Notation b := (baseval s).
Notation n := (vertnbr s).
Notation nnd := (vertnnd s).
Notation cnt := (cnt s).
Notation PT x v := (at_ b (fx_pt x) v).
Notation ST x v := (at_ b (fx_st x) v).
Notation MS x v := (at_ b (fx_ms x) v).
Notation P0 v := (at_ b part v).
Definition G (x : fmst) (v side : Z) : Z := at_ 0 (fx_gn x) (gi s v side).
Definition ep (x : fmst) (v : Z) : Z := if PT x v =? -1 then P0 v else PT x v.
(** load of the neighbours of [u] in part [q], gain of the move of [u] to part [side] *)
Definition nb (B : Z -> Z) (u q : Z) : Z := zsum (vert s u) (vend s u) (fun e => if B (edge s e) =? q then velo s (edge s e) else 0).
Definition exg (B : Z -> Z) (u side : Z) : Z := nb B u (1 - side) - velo s u.

Lemma nb_ext B B' u q : isvert s u -> (forall v, isvert s v -> (B v =? q) = (B' v =? q)) -> nb B u q = nb B' u q.
Proof. intros Hu H. apply zsum_ext. intros e He. rewrite H; [reflexivity|]. apply (gv_end s V u e). split; auto. Qed.
Lemma nb_mult B u q : isvert s u -> nb B u q = zsum b nnd (fun w => mult s u w * (if B w =? q then velo s w else 0)).
Proof. intros Hu. unfold nb. apply (by_end s V u (fun w => if B w =? q then velo s w else 0) Hu). Qed.
Lemma nb_leave B B' x u q : isvert s u -> isvert s x -> B x = q -> B' x <> q -> (forall v, isvert s v -> v <> x -> (B v =? q) = (B' v =? q)) ->
  nb B u q = nb B' u q + velo s x * cnt (vert s x) (vend s x) u.
Proof.
  intros Hu Hx E0 E1 H. rewrite !nb_mult by auto. change (cnt (vert s x) (vend s x) u) with (mult s x u). rewrite (mult_sym s x u) by auto.
  rewrite (zsum_upd b nnd (fun w => mult s u w * (if B' w =? q then velo s w else 0)) _ x); [|exact Hx|].
  - destruct (Z.eqb_spec (B x) q); [|congruence]. destruct (Z.eqb_spec (B' x) q); [congruence|]. ring.
  - intros i Hi Hne. now rewrite H.
Qed.

Record wf (x : fmst) : Prop := { wf_pt : zlen (fx_pt x) = n; wf_gn : zlen (fx_gn x) = 2 * n; wf_st : zlen (fx_st x) = n; wf_ms : zlen (fx_ms x) = n }.
Definition key (r : Z * Z * Z * Z) : Z := fst (fst (fst r)).
(** what is recorded allows to come back to the parts [B], with exact gains *)
Record SI (B : Z -> Z) (mn : Z) (x : fmst) : Prop := {
  si_nd : NoDup (map key (fx_save x));
  si_le : forall u, isvert s u -> MS x u <= mn;
  si_ms : forall u, isvert s u -> (MS x u = mn <-> In u (map key (fx_save x)));
  si_in : forall u p a c, In (u, p, a, c) (fx_save x) -> isvert s u /\ PT x u <> -1 /\ p = B u /\ (B u = 2 -> a = exg B u 0 /\ c = exg B u 1);
  si_out : forall u, isvert s u -> MS x u <> mn -> ep x u = B u /\ (B u = 2 -> G x u 0 = exg B u 0 /\ G x u 1 = exg B u 1) }.
(** slots, states, list of locked vertices; [v] is being moved, [ch] are the chained vertices *)
Record K (v : option Z) (ch : list Z) (x : fmst) : Prop := {
  k_pt : forall u, isvert s u -> -1 <= PT x u <= 2;
  k_abs : forall u, isvert s u -> P0 u = 2 -> PT x u <> -1;
  k_st : forall u, isvert s u -> PT x u <> -1 -> 0 <= ST x u <= 3 /\ (ST x u = 3 -> PT x u = 2);
  k_nd : NoDup ch;
  k_ch : forall u, In u ch -> isvert s u /\ PT x u = 2 /\ 0 <= ST x u <= 1 /\ v <> Some u;
  k_one : forall u, isvert s u -> PT x u <> -1 -> ST x u = 1 -> v = Some u \/ In u ch;
  k_lnd : NoDup (fx_lock x);
  k_lock : forall u, In u (fx_lock x) <-> isvert s u /\ PT x u <> -1 /\ 1 <= ST x u <= 2;
  k_v : forall u, v = Some u -> isvert s u /\ PT x u = 2 /\ ST x u = 1 }.

Lemma nn : nnd = b + n /\ 0 <= n. Proof. split; [apply (gv_nnd s V) | apply (gv_size s V)]. Qed.
Lemma gi_in u side : isvert s u -> 0 <= side <= 1 -> 0 <= gi s u side < 2 * n.
Proof. pose proof nn. unfold isvert, gi. lia. Qed.
Lemma gi_eq u side w sd : 0 <= side <= 1 -> 0 <= sd <= 1 -> (gi s u side =? gi s w sd) = (u =? w) && (side =? sd).
Proof. unfold gi. intros. destruct (Z.eqb_spec u w), (Z.eqb_spec side sd); cbn [andb]; lia. Qed.
Lemma rd_pt x u : wf x -> isvert s u -> rd b (fx_pt x) u = Ok (PT x u).
Proof. intros [H1 _ _ _] Hu. pose proof nn. unfold isvert in Hu. now rewrite rd_ok by lia. Qed.
Lemma rd_st x u : wf x -> isvert s u -> rd b (fx_st x) u = Ok (ST x u).
Proof. intros [_ _ H1 _] Hu. pose proof nn. unfold isvert in Hu. now rewrite rd_ok by lia. Qed.
Lemma rd_gn x u side : wf x -> isvert s u -> 0 <= side <= 1 -> rd 0 (fx_gn x) (gi s u side) = Ok (G x u side).
Proof. intros [_ H1 _ _] Hu Hs. pose proof (gi_in u side Hu Hs). now rewrite rd_ok by lia. Qed.
Lemma wr_pt x u p : wf x -> isvert s u -> wr b (fx_pt x) u p = Ok (upd b (fx_pt x) u p).
Proof. intros [H1 _ _ _] Hu. pose proof nn. unfold isvert in Hu. now rewrite wr_ok by lia. Qed.
Lemma wr_st x u p : wf x -> isvert s u -> wr b (fx_st x) u p = Ok (upd b (fx_st x) u p).
Proof. intros [_ _ H1 _] Hu. pose proof nn. unfold isvert in Hu. now rewrite wr_ok by lia. Qed.
Lemma wr_gn x u side p : wf x -> isvert s u -> 0 <= side <= 1 -> wr 0 (fx_gn x) (gi s u side) p = Ok (upd 0 (fx_gn x) (gi s u side) p).
Proof. intros [_ H1 _ _] Hu Hs. pose proof (gi_in u side Hu Hs). now rewrite wr_ok by lia. Qed.
Lemma at_n (l : list Z) u w p : zlen l = n -> isvert s u -> isvert s w -> at_ b (upd b l u p) w = if u =? w then p else at_ b l w.
Proof. intros. pose proof nn. unfold isvert in *. now rewrite at_upd by lia. Qed.
Lemma G_upd (l : list Z) u side w sd p : zlen l = 2 * n -> isvert s u -> isvert s w -> 0 <= side <= 1 -> 0 <= sd <= 1 ->
  at_ 0 (upd 0 l (gi s u side) p) (gi s w sd) = if (u =? w) && (side =? sd) then p else at_ 0 l (gi s w sd).
Proof. intros Hz Hu Hw H1 H2. pose proof (gi_in u side Hu H1). pose proof (gi_in w sd Hw H2). rewrite at_upd by lia. now rewrite gi_eq. Qed.

(** Same parts, gains, states and locks *)
Record same (x x' : fmst) : Prop := { sm_pt : fx_pt x' = fx_pt x; sm_gn : fx_gn x' = fx_gn x; sm_st : fx_st x' = fx_st x; sm_lk : fx_lock x' = fx_lock x }.
Lemma K_same v ch x x' : same x x' -> K v ch x -> K v ch x'.
Proof. intros [E1 E2 E3 E4] [K1 K2 K3 K4 K5 K6 K7 K8 K9]. constructor; rewrite ?E1, ?E3, ?E4; auto. Qed.

Lemma rec_ok B mn u p a c x : wf x -> SI B mn x -> isvert s u -> PT x u <> -1 -> (MS x u <> mn -> p = B u /\ (B u = 2 -> a = exg B u 0 /\ c = exg B u 1)) ->
  exists x', fmRec s mn u p a c x = Ok x' /\ wf x' /\ SI B mn x' /\ same x x' /\ MS x' u = mn /\ (forall w, isvert s w -> MS x w = mn -> MS x' w = mn).
Proof.
  intros W [S1 S2 S3 S4 S5] Hu Hpp Hp. pose proof nn as NN'. pose proof Hu as Hu'. unfold isvert in Hu'. pose proof (wf_ms _ W) as Lm. unfold fmRec. rewrite rd_ok by lia. cbn [bind].
  destruct (Z.eqb_spec (MS x u) mn) as [E|E].
  - exists x. split; [reflexivity|]. split; [exact W|]. split; [constructor; assumption|]. split; [constructor; reflexivity|]. split; [exact E | auto].
  - destruct (Hp E) as (Hp1 & Hp2). rewrite wr_ok by lia. cbn [bind]. eexists. split; [reflexivity|]. split; [|split; [|split; [|split]]].
    + destruct W. constructor; cbn [fx_pt fx_gn fx_st fx_ms]; rewrite ?zlen_upd; auto.
    + constructor; cbn [fx_pt fx_gn fx_st fx_ms fx_save map]; change (key (u, p, a, c)) with u.
      * constructor; [|exact S1]. rewrite <- S3 by exact Hu. exact E.
      * intros w Hw. rewrite at_n by auto. destruct (u =? w); [lia | auto].
      * intros w Hw. rewrite at_n by auto. cbn [In]. destruct (Z.eqb_spec u w) as [->|Hn]; [tauto|]. rewrite (S3 w Hw). tauto.
      * intros w p' a' c' [X|X]; [|now apply S4]. injection X as <- <- <- <-. auto.
      * intros w Hw. rewrite at_n by auto. destruct (Z.eqb_spec u w) as [->|Hn]; [tauto|]. intros X. destruct (S5 w Hw X) as (T1 & T2). split; [exact T1 | exact T2].
    + constructor; reflexivity.
    + cbn [fx_ms]. rewrite at_n by auto. now rewrite Z.eqb_refl.
    + intros w Hw X. cbn [fx_ms]. rewrite at_n by auto. destruct (u =? w); auto.
Qed.
Lemma rec_cur B mn u x : wf x -> SI B mn x -> isvert s u -> PT x u = 2 ->
  exists x', fmRec s mn u 2 (G x u 0) (G x u 1) x = Ok x' /\ wf x' /\ SI B mn x' /\ same x x' /\ MS x' u = mn /\ (forall w, isvert s w -> MS x w = mn -> MS x' w = mn).
Proof.
  intros W S Hu Hp. apply (rec_ok B); auto; [lia|]. intros E. destruct (si_out _ _ _ S u Hu E) as (T1 & T2). unfold ep in T1. rewrite Hp in T1. split; [exact T1 | exact T2].
Qed.
(** Changes of recorded vertices *)
Lemma SI_mod B mn x x' : SI B mn x -> fx_ms x' = fx_ms x -> fx_save x' = fx_save x -> (forall u, isvert s u -> PT x u <> -1 -> PT x' u <> -1) ->
  (forall u, isvert s u -> MS x u <> mn -> ep x' u = ep x u /\ (B u = 2 -> G x' u 0 = G x u 0 /\ G x' u 1 = G x u 1)) -> SI B mn x'.
Proof.
  intros [S1 S2 S3 S4 S5] E1 E2 HN H. constructor; rewrite ?E1, ?E2; auto.
  { intros u p a c Hi. destruct (S4 u p a c Hi) as (T1 & T2 & T3). auto. }
  intros u Hu Hm. destruct (S5 u Hu Hm) as (T1 & T2). destruct (H u Hu Hm) as (T3 & T4). split; [congruence|].
  intros X. destruct (T2 X), (T4 X). split; congruence.
Qed.

(** A gain of a separator vertex changes *)
Lemma sep_ok B mn v ch side amt u x : wf x -> SI B mn x -> K v ch x -> isvert s u -> PT x u = 2 -> 0 <= side <= 1 ->
  exists x' ch', fmSep s mn side amt u (x, ch) = Ok (x', ch') /\ wf x' /\ SI B mn x' /\ K v ch' x' /\ fx_pt x' = fx_pt x /\
    (forall w sd, isvert s w -> 0 <= sd <= 1 -> G x' w sd = G x w sd + if (u =? w) && (side =? sd) then amt else 0) /\
    (forall w, In w ch' -> w = u \/ In w ch) /\ (forall w, isvert s w -> w <> u -> ST x' w = ST x w) /\ (forall w, isvert s w -> MS x w = mn -> MS x' w = mn).
Proof.
  intros W S KK Hu Hp Hs. unfold fmSep. rewrite !rd_gn by (auto; lia). cbn [bind]. destruct (rec_cur B mn u x W S Hu Hp) as (x1 & -> & W1 & S1 & Sm & M1 & MM). cbn [bind].
  pose proof (K_same v ch x x1 Sm KK) as K1. destruct Sm as [E1 E2 E3 E4].
  assert (EG : forall w sd, G x1 w sd = G x w sd) by (intros; unfold G; now rewrite E2). assert (Hp1 : PT x1 u = 2) by now rewrite E1.
  rewrite rd_gn by auto. cbn [bind]. rewrite wr_gn by auto. cbn [bind]. cbv zeta. set (x2 := setgn x1 _).
  assert (W2 : wf x2) by (destruct W1; constructor; cbn [x2 setgn fx_pt fx_gn fx_st fx_ms]; rewrite ?zlen_upd; auto).
  assert (G2 : forall w sd, isvert s w -> 0 <= sd <= 1 -> G x2 w sd = G x w sd + if (u =? w) && (side =? sd) then amt else 0).
  { intros w sd Hw Hsd. unfold G at 1. cbn [x2 setgn fx_gn]. rewrite G_upd by (auto; apply W1). change (at_ 0 (fx_gn x1) (gi s w sd)) with (G x1 w sd). rewrite !EG. destruct (Z.eqb_spec u w) as [<-|], (Z.eqb_spec side sd) as [<-|]; cbn [andb]; lia. }
  assert (K2 : K v ch x2) by (destruct K1; constructor; assumption).
  assert (S2 : SI B mn x2).
  { apply (SI_mod B mn x1); auto. intros w Hw Hm. split; [reflexivity|]. intros _. rewrite !G2, !EG by (auto; lia). destruct (Z.eqb_spec u w) as [<-|]; [congruence|]. cbn [andb]. lia. }
  rewrite (rd_st x2 u W2 Hu). cbn [bind]. change (fx_st x2) with (fx_st x1). change (ST x2 u) with (ST x1 u).
  assert (KX : forall t, 0 <= t <= 1 -> ST x1 u <> 0 -> ST x1 u <> 1 -> (t = 1 <-> ST x1 u = 2) -> K v (u :: ch) (setst x2 (upd b (fx_st x1) u t))).
  { intros t Ht N0 N1' T2. destruct K1 as [Q1 Q2 Q3 Q4 Q5 Q6 Q7 Q8 Q9]. pose proof (wf_st _ W1) as Ls. destruct (Q3 u Hu ltac:(lia)) as (T3 & _). constructor; cbn [setst x2 setgn fx_pt fx_st fx_lock]; auto.
    - intros w Hw Hn. rewrite at_n by auto. destruct (Z.eqb_spec u w) as [<-|]; [lia | auto].
    - constructor; [|exact Q4]. intros X. destruct (Q5 u X) as (_ & _ & Y & _). lia.
    - intros w [<-|Hw].
      + rewrite at_n by auto. rewrite Z.eqb_refl. split; [auto|]. split; [auto|]. split; [auto|]. intros ->. destruct (Q9 u eq_refl) as (_ & _ & Y). lia.
      + destruct (Q5 w Hw) as (Y1 & Y2 & Y3 & Y4). rewrite at_n by auto. destruct (Z.eqb_spec u w) as [<-|]; [lia|]. auto.
    - intros w Hw Hn. rewrite at_n by auto. destruct (Z.eqb_spec u w) as [<-|]; [right; now left|]. intros X. destruct (Q6 w Hw Hn X); [now left | right; now right].
    - intros w. rewrite Q8. split; intros (Y1 & Y2 & Y3); (split; [auto|]; split; [auto|]); revert Y3; rewrite at_n by auto; destruct (Z.eqb_spec u w) as [<-|]; lia.
    - intros w Hv. destruct (Q9 w Hv) as (Y1 & Y2 & Y3). rewrite at_n by auto. destruct (Z.eqb_spec u w) as [<-|]; [lia | auto]. }
  assert (SX : forall t, SI B mn (setst x2 (upd b (fx_st x1) u t))) by (intros t; apply (SI_mod B mn x2); auto).
  assert (WX : forall t, wf (setst x2 (upd b (fx_st x1) u t))) by (intros t; destruct W2; constructor; cbn [setst fx_pt fx_gn fx_st fx_ms]; rewrite ?zlen_upd; auto).
  assert (TX : forall t w, isvert s w -> w <> u -> ST (setst x2 (upd b (fx_st x1) u t)) w = ST x w).
  { intros t w Hw Hn. cbn [setst fx_st]. rewrite at_n by (auto; apply W1). destruct (Z.eqb_spec u w); [congruence|]. now rewrite E3. }
  destruct (k_st _ _ _ K1 u Hu ltac:(lia)) as (T3 & _).
  destruct (Z.leb_spec 3 (ST x1 u)) as [H3|H3]; [|destruct (Z.eqb_spec (ST x1 u) 2) as [H2|H2]].
  - rewrite (wr_st x1) by auto. cbn [bind]. do 2 eexists. split; [reflexivity|]. split; [apply WX|]. split; [apply SX|]. split; [apply KX; lia|]. split; [exact E1|]. split; [exact G2|]. split; [intros w [<-|Hw]; auto|]. split; [apply TX | exact MM].
  - rewrite (wr_st x1) by auto. cbn [bind]. do 2 eexists. split; [reflexivity|]. split; [apply WX|]. split; [apply SX|]. split; [apply KX; lia|]. split; [exact E1|]. split; [exact G2|]. split; [intros w [<-|Hw]; auto|]. split; [apply TX | exact MM].
  - do 2 eexists. split; [reflexivity|]. split; [exact W2|]. split; [exact S2|]. split; [exact K2|]. split; [exact E1|]. split; [exact G2|]. split; [auto|]. split; [|exact MM]. intros w Hw Hn. cbn [x2 setgn fx_st]. now rewrite E3.
Qed.

(** The arcs of a vertex that has just entered the separator *)
Lemma arcs2_ok B mn v ch p u x : wf x -> SI B mn x -> K v ch x -> isvert s u -> PT x u = 2 -> ~ In u ch -> 0 <= p <= 1 ->
  exists x' ch' acc, for_ (vert s u) (vend s u) (fmArc2 s mn p (velo s u)) (x, ch, 0) = Ok (x', ch', acc) /\ wf x' /\ SI B mn x' /\ K v ch' x' /\ fx_pt x' = fx_pt x /\ ~ In u ch' /\ ST x' u = ST x u /\ (forall w, isvert s w -> MS x w = mn -> MS x' w = mn) /\
    (forall w sd, isvert s w -> 0 <= sd <= 1 -> G x' w sd = G x w sd - if (PT x w =? 2) && (p =? sd) then velo s u * cnt (vert s u) (vend s u) w else 0) /\
    acc = zsum (vert s u) (vend s u) (fun e => if PT x (edge s e) =? 2 then 0 else velo s (edge s e)).
Proof.
  intros W S KK Hu Hp Hn Hs. pose proof (gv_range s V u Hu) as [Ru1 Ru2].
  match goal with |- context [for_ ?lo ?hi ?f ?i] => destruct (wp_ok_inv (for_ lo hi f i) (fun '(x', ch', acc) => wf x' /\ SI B mn x' /\ K v ch' x' /\ fx_pt x' = fx_pt x /\ ~ In u ch' /\ ST x' u = ST x u /\ (forall w, isvert s w -> MS x w = mn -> MS x' w = mn) /\
    (forall w sd, isvert s w -> 0 <= sd <= 1 -> G x' w sd = G x w sd - if (PT x w =? 2) && (p =? sd) then velo s u * cnt (vert s u) (vend s u) w else 0) /\
    acc = zsum (vert s u) (vend s u) (fun e => if PT x (edge s e) =? 2 then 0 else velo s (edge s e)))) as (((x' & ch') & acc) & E & Q) end.
  2: { exists x', ch', acc. split; [exact E | exact Q]. }
  apply wp_for with (I := fun i '(x', ch', acc) => wf x' /\ SI B mn x' /\ K v ch' x' /\ fx_pt x' = fx_pt x /\ ~ In u ch' /\ ST x' u = ST x u /\ (forall w, isvert s w -> MS x w = mn -> MS x' w = mn) /\
    (forall w sd, isvert s w -> 0 <= sd <= 1 -> G x' w sd = G x w sd - if (PT x w =? 2) && (p =? sd) then velo s u * cnt (vert s u) i w else 0) /\
    acc = zsum (vert s u) i (fun e => if PT x (edge s e) =? 2 then 0 else velo s (edge s e))); [lia| | |].
  - split; [exact W|]. split; [exact S|]. split; [exact KK|]. split; [reflexivity|]. split; [exact Hn|]. split; [reflexivity|]. split; [auto|]. split; [|now rewrite zsum_nil by lia].
    intros w sd _ _. unfold P_VgraphGg.cnt. rewrite zcount_nil by lia. destruct (_ && _); lia.
  - intros e [[x' ch'] acc] He (I1 & I2 & I3 & I4 & I5 & I6 & I9 & I7 & I8). unfold fmArc2. assert (Ha : arc s u e) by (split; auto). rewrite (redge' s R u e Ha). cbn [bind].
    pose proof (gv_end s V u e Ha) as Hw. pose proof (gv_loop s V u e Ha) as Hl. set (w := edge s e) in *. rewrite (rd_pt x' w I1 Hw). cbn [bind]. rewrite I4.
    assert (Cn : forall z, cnt (vert s u) (e + 1) z = cnt (vert s u) e z + b2z (w =? z)) by (intros z; apply cnt_S; lia).
    assert (Zs : zsum (vert s u) (e + 1) (fun e => if PT x (edge s e) =? 2 then 0 else velo s (edge s e)) = acc + (if PT x w =? 2 then 0 else velo s w)) by (rewrite zsum_snoc by lia; rewrite I8; reflexivity).
    destruct (Z.eqb_spec (PT x w) 2) as [E2|E2].
    + destruct (sep_ok B mn v ch' p (- velo s u) w x' I1 I2 I3 Hw ltac:(now rewrite I4) Hs) as (x2 & ch2 & -> & J1 & J2 & J3 & J4 & J5 & J6 & J7 & J8). cbn [bind wp].
      split; [exact J1|]. split; [exact J2|]. split; [exact J3|]. split; [congruence|]. split; [intros X; destruct (J6 u X); congruence|]. split; [rewrite J7 by (auto; congruence); exact I6|]. split; [auto|]. split; [|lia].
      intros z sd Hz Hsd. rewrite J5, I7, Cn by auto. destruct (Z.eqb_spec w z) as [<-|]; cbn [andb b2z]; [|destruct (_ && _); lia]. destruct (Z.eqb_spec (PT x w) 2); [|contradiction]. destruct (p =? sd); cbn [andb]; lia.
    + rewrite (rvelo_ok s R V w Hw). cbn [bind wp]. split; [exact I1|]. split; [exact I2|]. split; [exact I3|]. split; [exact I4|]. split; [exact I5|]. split; [exact I6|]. split; [exact I9|]. split; [|lia].
      intros z sd Hz Hsd. rewrite I7, Cn by auto. destruct (Z.eqb_spec w z) as [<-|]; cbn [andb b2z]; [|destruct (_ && _); lia]. destruct (Z.eqb_spec (PT x w) 2); [contradiction|]. cbn [andb]. lia.
  - intros [[x' ch'] acc] I. exact I.
Qed.

(** A slot is made for a vertex of part [q] *)
Lemma create_ok B mn v ch u q x : wf x -> SI B mn x -> K v ch x -> isvert s u -> PT x u = -1 -> P0 u = q -> 0 <= q <= 1 ->
  let x' := setst (setpt x (upd b (fx_pt x) u q)) (upd b (fx_st x) u 0) in
  wf x' /\ SI B mn x' /\ K v ch x' /\ (forall w, isvert s w -> ep x' w = ep x w) /\ PT x' u = q /\ (forall w, isvert s w -> PT x' w = 2 <-> PT x w = 2).
Proof.
  intros [W1 W2 W3 W4] S KK Hu Hp E0 Hq x'.
  assert (PT' : forall w, isvert s w -> PT x' w = if u =? w then q else PT x w) by (intros w Hw; cbn [x' setst setpt fx_pt]; now rewrite at_n by auto).
  assert (ST' : forall w, isvert s w -> ST x' w = if u =? w then 0 else ST x w) by (intros w Hw; cbn [x' setst setpt fx_st]; now rewrite at_n by auto).
  assert (EP : forall w, isvert s w -> ep x' w = ep x w).
  { intros w Hw. unfold ep. rewrite PT' by auto. destruct (Z.eqb_spec u w) as [<-|]; [|reflexivity]. rewrite Hp. destruct (Z.eqb_spec q (-1)); [lia|]. change (-1 =? -1) with true. cbv iota. lia. }
  split; [constructor; cbn [x' setst setpt fx_pt fx_gn fx_st fx_ms]; rewrite ?zlen_upd; auto|]. split; [|split; [|split; [exact EP|split]]].
  - apply (SI_mod B mn x); auto. intros w Hw Hne. rewrite PT' by auto. destruct (u =? w); lia.
  - destruct KK as [Q1 Q2 Q3 Q4 Q5 Q6 Q7 Q8 Q9]. constructor.
    + intros w Hw. rewrite PT' by auto. destruct (u =? w); [lia | auto].
    + intros w Hw. rewrite PT' by auto. destruct (u =? w); [lia | auto].
    + intros w Hw. rewrite PT', ST' by auto. destruct (u =? w); [lia | auto].
    + exact Q4.
    + intros w Hw. destruct (Q5 w Hw) as (Y1 & Y2 & Y3 & Y4). rewrite PT', ST' by auto. destruct (Z.eqb_spec u w) as [<-|]; [lia | auto].
    + intros w Hw. rewrite PT', ST' by auto. destruct (u =? w); [lia | auto].
    + exact Q7.
    + intros w. change (fx_lock x') with (fx_lock x). rewrite Q8. split; intros (Y1 & Y2 & Y3); (split; [exact Y1|]); revert Y2 Y3; rewrite PT', ST' by auto; destruct (Z.eqb_spec u w) as [<-|]; intros; lia.
    + intros w Hv. destruct (Q9 w Hv) as (Y1 & Y2 & Y3). rewrite PT', ST' by auto. destruct (Z.eqb_spec u w) as [<-|]; [lia | auto].
  - rewrite PT' by auto. now rewrite Z.eqb_refl.
  - intros w Hw. rewrite PT' by auto. destruct (Z.eqb_spec u w) as [<-|]; lia.
Qed.

(** ** The arcs of the vertex that moves *)
Section Arcs.
Variables (B : Z -> Z) (mn v p : Z) (B0 : Z -> Z).
Hypothesis Hp : 0 <= p <= 1.
Hypothesis Hv : isvert s v.
Hypothesis HB : forall w, isvert s w -> 0 <= B0 w <= 2.
Hypothesis HP0 : forall w, isvert s w -> 0 <= P0 w <= 2.
Hypothesis HS : forall u w, adjacent s u w -> B0 u <> 2 -> B0 w <> 2 -> B0 u = B0 w.
Notation q := (1 - p).
Record M (e : Z) (x : fmst) (ch : list Z) : Prop := {
  m_wf : wf x; m_ms : MS x v = mn; m_si : SI B mn x; m_k : K (Some v) ch x;
  m_ep : forall w, isvert s w -> ep x w = if (0 <? cnt (vert s v) e w) && (B0 w =? q) then 2 else B0 w;
  m_gp : forall w, isvert s w -> PT x w = 2 -> G x w p = nb (ep x) w q - velo s w;
  m_gq : forall w, isvert s w -> PT x w = 2 -> G x w q = nb B0 w p - velo s w + velo s v * cnt (vert s v) e w }.

Lemma two x ch w : K (Some v) ch x -> isvert s w -> (ep x w = 2 <-> PT x w = 2).
Proof. intros KK Hw. unfold ep. pose proof (k_abs _ _ _ KK w Hw). destruct (Z.eqb_spec (PT x w) (-1)) as [E|E]; [|reflexivity]. split; [tauto | lia]. Qed.

(** nothing to do for a vertex of part [p] *)
Lemma skip_ok e x ch u : vert s v <= e -> edge s e = u -> isvert s u -> M e x ch -> ep x u = p -> M (e + 1) x ch.
Proof.
  intros Le Ee Hu [W MSv S KK ME GP GQ] Ep. constructor; auto.
  - intros w Hw. rewrite ME by auto. rewrite cnt_S by lia. rewrite Ee. destruct (Z.eqb_spec u w) as [<-|]; cbn [b2z]; [|now rewrite Z.add_0_r].
    pose proof (ME u Hu) as X. destruct (Z.eqb_spec (B0 u) q) as [E|E]; [|now rewrite !andb_false_r]. rewrite !andb_true_r in *. destruct (0 <? cnt (vert s v) e u); lia.
  - intros w Hw H2. rewrite (GQ w Hw H2). rewrite cnt_S by lia. rewrite Ee. destruct (Z.eqb_spec u w) as [<-|]; cbn [b2z]; [|lia]. apply (two x ch u KK Hu) in H2. lia.
Qed.
(** a vertex of the other part enters the separator *)
Lemma enter_ok e x ch u : vert s v <= e < vend s v -> edge s e = u -> isvert s u -> M e x ch -> PT x u = q ->
  exists x' ch',
    (do x <- fmRec s mn u q 0 0 x;
      do lu <- rvelo s u;
      do pt <- wr b (fx_pt x) u 2;
      do gn <- wr 0 (fx_gn x) (gi s u p) (- lu);
      do gn <- wr 0 gn (gi s u q) (- lu + velo s v);
      do lo <- rvert s u; do hi <- rvend s u;
      do '(x, ch, acc) <- for_ lo hi (fmArc2 s mn p lu) (setgn (setpt x pt) gn, ch, 0);
      do g <- rd 0 (fx_gn x) (gi s u p);
      do gn <- wr 0 (fx_gn x) (gi s u p) (g + acc);
      do t <- rd b (fx_st x) u;
      do st <- (if t =? 2 then wr b (fx_st x) u 1 else Ok (fx_st x));
      Ok (setst (setgn x gn) st, u :: ch)) = Ok (x', ch') /\ M (e + 1) x' ch'.
Proof.
  intros He Ee Hu [W MSv S KK ME GP GQ] Eu. assert (Epu : ep x u = q) by (unfold ep; rewrite Eu; destruct (Z.eqb_spec q (-1)); lia).
  assert (Bu : B0 u = q /\ cnt (vert s v) e u = 0).
  { pose proof (ME u Hu) as X. rewrite Epu in X. pose proof (cnt_nonneg s (vert s v) e u). destruct (Z.eqb_spec (B0 u) q) as [E|E]; [|rewrite andb_false_r in X; lia]. split; [exact E|]. rewrite andb_true_r in X. destruct (Z.ltb_spec 0 (cnt (vert s v) e u)); lia. }
  destruct Bu as (Bu & Cu).
  destruct (rec_ok B mn u q 0 0 x W S Hu ltac:(lia)) as (x1 & -> & W1 & S1 & Sm & M1 & MM1).
  { intros E. destruct (si_out _ _ _ S u Hu E) as (T1 & _). split; [lia|]. lia. }
  cbn [bind]. pose proof (K_same _ _ _ _ Sm KK) as K1. destruct Sm as [E1 E2 E3 E4]. rewrite (rvelo_ok s R V u Hu). cbn [bind]. rewrite wr_pt by auto. cbn [bind]. rewrite wr_gn by auto. cbn [bind].
  rewrite wr_ok by (rewrite zlen_upd; pose proof (gi_in u q Hu ltac:(lia)); rewrite (wf_gn _ W1); lia). cbn [bind]. destruct (vread s R V u Hu) as (-> & ->). cbn [bind].
  set (x2 := setgn (setpt x1 (upd b (fx_pt x1) u 2)) _).
  assert (W2 : wf x2) by (destruct W1; constructor; cbn [x2 setgn setpt fx_pt fx_gn fx_st fx_ms]; rewrite ?zlen_upd; auto).
  assert (P2 : forall w, isvert s w -> PT x2 w = if u =? w then 2 else PT x w) by (intros w Hw; cbn [x2 setgn setpt fx_pt]; rewrite at_n by (auto; apply W1); now rewrite E1).
  assert (G2 : forall w sd, isvert s w -> 0 <= sd <= 1 -> G x2 w sd = if u =? w then (if p =? sd then - velo s u else - velo s u + velo s v) else G x w sd).
  { intros w sd Hw Hsd. unfold G at 1. cbn [x2 setgn setpt fx_gn]. rewrite G_upd by (rewrite ?zlen_upd; auto; try apply W1; lia). rewrite G_upd by (auto; apply W1).
    unfold G. rewrite E2. destruct (Z.eqb_spec u w) as [<-|]; cbn [andb]; [|reflexivity]. destruct (Z.eqb_spec p sd), (Z.eqb_spec q sd); try lia; reflexivity. }
  assert (Nch : ~ In u ch) by (intros X; destruct (k_ch _ _ _ KK u X) as (_ & X' & _); lia).
  assert (Nv : Some v <> Some u) by (intros X; destruct (k_v _ _ _ KK u X) as (_ & X' & _); lia).
  assert (K2 : K (Some v) ch x2).
  { destruct KK as [Q1 Q2 Q3 Q4 Q5 Q6 Q7 Q8 Q9]. assert (ES : fx_st x2 = fx_st x) by exact E3. assert (EL : fx_lock x2 = fx_lock x) by exact E4. constructor.
    - intros w Hw. rewrite P2 by auto. destruct (u =? w); [lia | auto].
    - intros w Hw. rewrite P2 by auto. destruct (u =? w); [lia | auto].
    - intros w Hw. rewrite P2, ES by auto. destruct (Z.eqb_spec u w) as [<-|]; [|auto]. intros _. destruct (Q3 u Hu ltac:(lia)). tauto.
    - exact Q4.
    - intros w Hw. destruct (Q5 w Hw) as (Y1 & Y2 & Y3 & Y4). rewrite P2, ES by auto. destruct (Z.eqb_spec u w) as [<-|]; [lia | auto].
    - intros w Hw. rewrite P2, ES by auto. destruct (Z.eqb_spec u w) as [<-|]; [|auto]. intros _. apply Q6; auto. lia.
    - rewrite EL. exact Q7.
    - intros w. rewrite EL, Q8, ES. split; intros (Y1 & Y2 & Y3); (split; [exact Y1|]; split; [|exact Y3]); revert Y2; rewrite P2 by auto; destruct (Z.eqb_spec u w) as [<-|]; lia.
    - intros w X. destruct (Q9 w X) as (Y1 & Y2 & Y3). rewrite P2, ES by auto. destruct (Z.eqb_spec u w) as [<-|]; [lia | auto]. }
  assert (S2 : SI B mn x2).
  { apply (SI_mod B mn x1); auto. { intros w Hw Hne. rewrite P2 by auto. rewrite E1 in Hne. destruct (u =? w); lia. } intros w Hw Hm. assert (u <> w) by congruence. unfold ep. rewrite P2 by auto. rewrite !G2 by (auto; lia). unfold G. rewrite E1, E2. destruct (Z.eqb_spec u w); [congruence|]. auto. }
  destruct (arcs2_ok B mn (Some v) ch p u x2 W2 S2 K2 Hu ltac:(rewrite P2 by auto; now rewrite Z.eqb_refl) Nch Hp) as (x3 & ch3 & acc & -> & W3 & S3 & K3 & E3pt & N3 & T3 & MM & G3 & Acc).
  cbn [bind]. rewrite rd_gn by auto. cbn [bind]. rewrite wr_gn by auto. cbn [bind]. rewrite rd_st by auto. cbn [bind].
  set (t := ST x3 u) in *.
  match goal with |- context [bind (if t =? 2 then ?X else ?Y) ?F] => set (FF := F); replace (if t =? 2 then X else Y) with (Ok (if t =? 2 then upd b (fx_st x3) u 1 else fx_st x3)) by (rewrite wr_st by auto; destruct (t =? 2); reflexivity) end.
  unfold FF. cbn [bind]. do 2 eexists. split; [reflexivity|]. match goal with |- M _ ?z _ => set (x4 := z) end.
  assert (L3 : zlen (fx_gn x3) = 2 * n) by apply W3.
  assert (W4 : wf x4) by (destruct W3; constructor; cbn [x4 setst setgn fx_pt fx_gn fx_st fx_ms]; rewrite ?zlen_upd; auto; destruct (t =? 2); rewrite ?zlen_upd; auto).
  assert (P4 : forall w, isvert s w -> PT x4 w = if u =? w then 2 else PT x w) by (intros w Hw; change (fx_pt x4) with (fx_pt x3); rewrite E3pt; apply P2; auto).
  assert (G4 : forall w sd, isvert s w -> 0 <= sd <= 1 -> G x4 w sd = G x3 w sd + if (u =? w) && (p =? sd) then acc else 0).
  { intros w sd Hw Hsd. unfold G at 1. cbn [x4 setst setgn fx_gn]. rewrite G_upd by auto. destruct (Z.eqb_spec u w) as [<-|], (Z.eqb_spec p sd) as [<-|]; cbn [andb]; unfold G; lia. }
  assert (T4 : forall w, isvert s w -> ST x4 w = if (u =? w) && (t =? 2) then 1 else ST x3 w).
  { intros w Hw. cbn [x4 setst setgn fx_st]. destruct (t =? 2); [|now rewrite andb_false_r]. rewrite at_n by (auto; apply W3). now rewrite andb_true_r. }
  assert (Tu : t = 0 \/ t = 2).
  { destruct (k_st _ _ _ K3 u Hu) as (X1 & X2); [change (fx_pt x4) with (fx_pt x3) in P4; rewrite P4 by auto; rewrite Z.eqb_refl; lia|]. fold t in X1, X2.
    assert (t = ST x u) as Et by (rewrite T3; cbn [x2 setgn setpt fx_st]; now rewrite E3). destruct (k_st _ _ _ KK u Hu ltac:(lia)) as (_ & X3). rewrite <- Et in X3.
    assert (t <> 1); [|lia]. intros E. rewrite Et in E. destruct (k_one _ _ _ KK u Hu ltac:(lia) E); tauto. }
  assert (EP4 : forall w, isvert s w -> ep x4 w = if u =? w then 2 else ep x w).
  { intros w Hw. unfold ep. rewrite P4 by auto. destruct (u =? w); reflexivity. }
  constructor.
  - exact W4.
  - apply MM; [exact Hv|]. apply MM1; assumption.
  - apply (SI_mod B mn x3); auto. intros w Hw Hm. assert (u <> w). { intros <-. apply Hm, MM; [exact Hu | exact M1]. }
    split; [reflexivity|]. intros _. rewrite !G4 by (auto; lia). destruct (Z.eqb_spec u w); [congruence|]. cbn [andb]. lia.
  - assert (E4l : fx_lock x4 = fx_lock x3) by reflexivity. assert (E4p : fx_pt x4 = fx_pt x3) by reflexivity. assert (U2 : PT x3 u = 2) by (rewrite <- E4p, P4 by auto; now rewrite Z.eqb_refl).
    destruct K3 as [Q1 Q2 Q3 Q4 Q5 Q6 Q7 Q8 Q9]. constructor; rewrite ?E4l, ?E4p; auto.
    + intros w Hw X. destruct (Q3 w Hw X) as (Y1 & Y2). rewrite T4 by auto. destruct (Z.eqb_spec u w) as [<-|]; cbn [andb]; [|auto]. destruct (Z.eqb_spec t 2); [lia | auto].
    + constructor; assumption.
    + intros w [<-|Hw].
      * rewrite T4 by auto. rewrite Z.eqb_refl. fold t. cbn [andb]. split; [auto|]. split; [auto|]. split; [|auto]. destruct (Z.eqb_spec t 2); lia.
      * destruct (Q5 w Hw) as (Y1 & Y2 & Y3 & Y4). rewrite T4 by auto. destruct (Z.eqb_spec u w) as [<-|]; cbn [andb]; [contradiction | auto].
    + intros w Hw X. rewrite T4 by auto. destruct (Z.eqb_spec u w) as [<-|]; cbn [andb]; [right; now left|]. intros Y. destruct (Q6 w Hw X Y); [now left | right; now right].
    + intros w. rewrite Q8. split; intros (Y1 & Y2 & Y3); (split; [exact Y1|]; split; [exact Y2|]); revert Y3; rewrite T4 by auto; destruct (Z.eqb_spec u w) as [<-|]; cbn [andb]; try lia; fold t; destruct (Z.eqb_spec t 2); lia.
    + intros w X. destruct (Q9 w X) as (Y1 & Y2 & Y3). rewrite T4 by auto. destruct (Z.eqb_spec u w) as [<-|]; cbn [andb]; [congruence | auto].
  - intros w Hw. rewrite EP4, ME by auto. rewrite cnt_S by lia. rewrite Ee. destruct (Z.eqb_spec u w) as [<-|]; cbn [b2z]; [|now rewrite Z.add_0_r]. rewrite Cu, Bu, Z.eqb_refl. reflexivity.
  - intros w Hw H2. rewrite G4, G3, G2 by auto. rewrite Z.eqb_refl, !andb_true_r. rewrite P2 by auto. rewrite P4 in H2 by auto. destruct (Z.eqb_spec u w) as [<-|Hn].
    + assert (cnt (vert s u) (vend s u) u = 0) as ->.
      { destruct (mult_01 s u u V Hu) as [(X & e' & A & Ee')|(X & _)]; [destruct (gv_loop s V u e' A Ee') | exact X]. }
      assert (AN : acc = nb (ep x4) u q); [|change (2 =? 2) with true; cbv iota; lia].
      rewrite Acc. apply zsum_ext. intros i Hi. assert (Ha : arc s u i) by (split; auto). pose proof (gv_end s V u i Ha) as Hz. pose proof (gv_loop s V u i Ha) as Hl. set (z := edge s i) in *.
      rewrite P2, EP4 by auto. destruct (Z.eqb_spec u z) as [|_]; [congruence|]. pose proof (two x ch z KK Hz) as TW. destruct (Z.eqb_spec (PT x z) 2) as [X|X].
      * apply TW in X. rewrite X. destruct (Z.eqb_spec 2 q); [lia | reflexivity].
      * assert (Y : ep x z <> 2) by tauto. rewrite (ME z Hz) in *. destruct ((0 <? cnt (vert s v) e z) && (B0 z =? q)); [lia|].
        assert (B0 u = B0 z) as <-. { apply HS; [exists i; auto | lia | exact Y]. } rewrite Bu. rewrite Z.eqb_refl. reflexivity.
    + rewrite (GP w Hw H2). rewrite H2. change (2 =? 2) with true. cbv iota. rewrite (nb_leave (ep x) (ep x4) u w q Hw Hu Epu); [lia | rewrite EP4 by auto; rewrite Z.eqb_refl; lia|].
      intros z Hz Hzn. rewrite EP4 by auto. destruct (Z.eqb_spec u z); [congruence | reflexivity].
  - intros w Hw H2. rewrite G4, G3, G2 by (auto; lia). destruct (Z.eqb_spec p q) as [|_]; [lia|]. rewrite !andb_false_r. rewrite P4 in H2 by auto. rewrite cnt_S by lia. rewrite Ee. destruct (Z.eqb_spec u w) as [<-|Hn]; cbn [b2z].
    + rewrite Cu. assert (nb B0 u p = 0) as ->; [|lia]. apply zsum_zero. intros i Hi. assert (Ha : arc s u i) by (split; auto). destruct (Z.eqb_spec (B0 (edge s i)) p) as [X|]; [|reflexivity].
      assert (B0 u = B0 (edge s i)); [apply HS; [exists i; auto | lia | lia] | lia].
    + rewrite (GQ w Hw H2). lia.
Qed.

Lemma arc_ok e x ch : vert s v <= e < vend s v -> M e x ch -> exists x' ch', fmArc s part mn p (velo s v) e (x, ch) = Ok (x', ch') /\ M (e + 1) x' ch'.
Proof.
  intros He MM. pose proof MM as [W MSv S KK ME GP GQ]. unfold fmArc. cbv zeta. assert (Ha : arc s v e) by (split; auto). rewrite (redge' s R v e Ha). cbn [bind].
  pose proof (gv_end s V v e Ha) as Hu. pose proof (gv_loop s V v e Ha) as Hl. remember (edge s e) as u eqn:Eu. symmetry in Eu. rewrite (rd_pt x u W Hu). cbn [bind]. pose proof (k_pt _ _ _ KK u Hu) as Pu.
  destruct (Z.eqb_spec (PT x u) (-1)) as [E1|E1].
  - rewrite rd_ok by (pose proof nn; unfold isvert in Hu; lia). cbn [bind]. assert (Eep : ep x u = P0 u) by (unfold ep; rewrite E1; reflexivity). destruct (Z.eqb_spec (P0 u) p) as [E2|E2].
    + cbn [bind]. exists x, ch. split; [reflexivity|]. apply (skip_ok e x ch u); auto; lia.
    + rewrite wr_pt by auto. cbn [bind]. rewrite wr_st by auto. cbn [bind].
      assert (Eq : P0 u = q). { pose proof (HP0 u Hu). destruct (Z.eq_dec (P0 u) 2) as [X|X]; [|lia]. destruct (k_abs _ _ _ KK u Hu X E1). }
      destruct (create_ok B mn (Some v) ch u q x W S KK Hu E1 Eq ltac:(lia)) as (C1 & C2 & C3 & C4 & C5 & C6). match type of C1 with wf ?z => set (x1 := z) in * end.
      destruct (Z.eqb_spec q 2) as [|_]; [lia|]. rewrite Z.eqb_refl. apply (enter_ok e x1 ch u); auto. constructor; auto.
      * intros w Hw. rewrite C4 by auto. apply ME; auto.
      * intros w Hw H2. change (G x1 w p) with (G x w p). rewrite (GP w Hw) by (now apply C6). f_equal. apply nb_ext; auto. intros z Hz. now rewrite C4.
      * intros w Hw H2. change (G x1 w q) with (G x w q). apply GQ; auto. now apply C6.
  - cbn [bind]. destruct (Z.eqb_spec (PT x u) 2) as [E2|E2]; [|destruct (Z.eqb_spec (PT x u) q) as [E3|E3]].
    + destruct (sep_ok B mn (Some v) ch q (velo s v) u x W S KK Hu E2 ltac:(lia)) as (x2 & ch2 & -> & J1 & J2 & J3 & J4 & J5 & J6 & J7 & J8). exists x2, ch2. split; [reflexivity|].
      assert (EE : forall w, ep x2 w = ep x w) by (intros w; unfold ep; now rewrite J4). constructor; auto.
      * intros w Hw. rewrite EE, ME by auto. rewrite cnt_S by lia. rewrite Eu. destruct (Z.eqb_spec u w) as [<-|]; cbn [b2z]; [|now rewrite Z.add_0_r].
        pose proof (ME u Hu) as X. apply (two x ch u KK Hu) in E2. rewrite E2 in X. pose proof (cnt_nonneg s (vert s v) e u). destruct (Z.eqb_spec (B0 u) q); [|now rewrite !andb_false_r]. rewrite !andb_true_r in *.
        destruct (Z.ltb_spec 0 (cnt (vert s v) e u)); destruct (Z.ltb_spec 0 (cnt (vert s v) e u + 1)); lia.
      * intros w Hw H2. rewrite J4 in H2. rewrite J5, (GP w Hw H2) by auto. destruct (Z.eqb_spec q p) as [|_]; [lia|]. rewrite andb_false_r. rewrite (nb_ext (ep x2) (ep x) w q Hw) by (intros; now rewrite EE). lia.
      * intros w Hw H2. rewrite J4 in H2. rewrite J5, (GQ w Hw H2) by (auto; lia). rewrite Z.eqb_refl, andb_true_r. rewrite cnt_S by lia. rewrite Eu. destruct (u =? w); cbn [b2z]; lia.
    + apply (enter_ok e x ch u); auto.
    + exists x, ch. split; [reflexivity|]. apply (skip_ok e x ch u); auto; [lia|]. unfold ep. destruct (Z.eqb_spec (PT x u) (-1)); lia.
Qed.
Lemma arcs_ok x : M (vert s v) x nil -> exists x' ch', for_ (vert s v) (vend s v) (fmArc s part mn p (velo s v)) (x, nil) = Ok (x', ch') /\ M (vend s v) x' ch'.
Proof.
  intros M0. pose proof (gv_range s V v Hv) as [Rv1 Rv2].
  match goal with |- context [for_ ?lo ?hi ?f ?i] => destruct (wp_ok_inv (for_ lo hi f i) (fun '(x', ch') => M (vend s v) x' ch')) as ((x' & ch') & E & Q) end.
  2: { exists x', ch'. auto. }
  apply wp_for with (I := fun e '(x', ch') => M e x' ch'); [lia | exact M0 | | auto].
  intros e [x' ch'] He I. destruct (arc_ok e x' ch' He I) as (x2 & ch2 & -> & J). exact J.
Qed.
End Arcs.
End Fm.
