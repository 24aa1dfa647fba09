(** Proofs about the refinement of vertex separators: moves. *)
From Verif Require Import Base Mem M_Graph M_Vgraph M_VgraphSt M_VgraphGg M_VgraphFm S_Graph S_Vgraph S_Color S_VgraphSt S_VgraphGg P_Graph P_Vgraph P_Vgraph2 P_VgraphGp P_VgraphGg P_VgraphFm.

Lemma NoDup_remove_Z u l : NoDup l -> NoDup (remove Z.eq_dec u l).
Proof.
  induction 1 as [|w l Hw Hl IH]; cbn [remove]; [constructor|]. destruct (Z.eq_dec u w); [exact IH|]. constructor; [|exact IH].
  intros X. apply in_remove in X. tauto.
Qed.

Section Fm2.
Variable s : graph.
Hypothesis R : graph_readable s.
Hypothesis V : graph_valid s.
Variable part : list Z.
Hypothesis HP : vertnbr s <= zlen part.
Hypothesis HP0 : forall w, isvert s w -> 0 <= at_ (baseval s) part w <= 2.
Notation b := (baseval s).
Notation n := (vertnbr s).
Notation nnd := (vertnnd s).
Notation cnt := (cnt s).
Notation PT x v := (at_ b (fx_pt x) v).
Notation ST x v := (at_ b (fx_st x) v).
Notation MS x v := (at_ b (fx_ms x) v).
Notation P0 v := (at_ b part v).
Notation G := (G s).
Notation ep := (ep s part).
Notation nb := (nb s).
Notation wf := (wf s).
Notation SI := (SI s part).
Notation K := (K s part).

(** Another state of one vertex, another list of locked vertices *)
Lemma wf_st' x u t l : wf x -> wf (setlk (setst x (upd b (fx_st x) u t)) l).
Proof. intros [W1 W2 W3 W4]. constructor; cbn [setlk setst fx_pt fx_gn fx_st fx_ms]; rewrite ?zlen_upd; auto. Qed.
Lemma SI_st B mn x u t l : SI B mn x -> SI B mn (setlk (setst x (upd b (fx_st x) u t)) l).
Proof. intros S. apply (SI_mod s part B mn x); auto. Qed.
Lemma add_ok u x : wf x -> isvert s u -> ST x u < 3 -> fmAdd s u x = Ok (setst x (upd b (fx_st x) u 3)).
Proof. intros W Hu Ht. unfold fmAdd. rewrite (rd_st s V) by auto. cbn [bind]. destruct (Z.leb_spec 3 (ST x u)); [lia|]. now rewrite (wr_st s V) by auto. Qed.
Lemma upd_upd (l : list Z) u t t' : zlen l = n -> isvert s u -> upd b (upd b l u t) u t' = upd b l u t'.
Proof.
  intros Hz Hu. pose proof (nn s V). apply (at_ext b); rewrite !zlen_upd; [reflexivity|]. intros i Hi. unfold isvert in Hu. rewrite !at_upd by (rewrite ?zlen_upd; lia). destruct (u =? i); reflexivity.
Qed.

Lemma relink_ok B mn p ch : 0 <= p <= 1 -> forall x, wf x -> SI B mn x -> K None ch x ->
  exists x', fmRelink s p ch x = Ok x' /\ wf x' /\ SI B mn x' /\ K None nil x' /\ fx_pt x' = fx_pt x /\ fx_gn x' = fx_gn x /\ fx_ms x' = fx_ms x /\ fx_save x' = fx_save x.
Proof.
  intros Hp. induction ch as [|u ch IH]; intros x W S KK; cbn [fmRelink].
  - exists x. split; [reflexivity|]. repeat (split; [assumption || reflexivity|]). reflexivity.
  - destruct (k_ch _ _ _ _ _ KK u (or_introl eq_refl)) as (Hu & P2 & T01 & _). rewrite (rd_st s V) by auto. cbn [bind].
    assert (Nu : ~ In u ch) by (pose proof (k_nd _ _ _ _ _ KK) as X; now inversion X).
    assert (KT : forall t l, (t = 2 /\ l = fx_lock x /\ ST x u = 1) \/ (t = 3 /\ (forall w, In w l <-> In w (fx_lock x) /\ w <> u) /\ NoDup l) -> K None ch (setlk (setst x (upd b (fx_st x) u t)) l)).
    { intros t l Ht. assert (TT : forall w, isvert s w -> at_ b (upd b (fx_st x) u t) w = if u =? w then t else ST x w) by (intros w Hw; apply (at_n s V); auto; apply W).
      destruct KK as [Q1 Q2 Q3 Q4 Q5 Q6 Q7 Q8 Q9]. constructor; cbn [setlk setst fx_pt fx_st fx_lock]; auto.
      - intros w Hw X. rewrite TT by auto. destruct (Z.eqb_spec u w) as [<-|]; [lia | auto].
      - now inversion Q4.
      - intros w Hw. destruct (Q5 w (or_intror Hw)) as (Y1 & Y2 & Y3 & Y4). rewrite TT by auto. destruct (Z.eqb_spec u w) as [<-|]; [contradiction | auto].
      - intros w Hw X. rewrite TT by auto. destruct (Z.eqb_spec u w) as [<-|Hn]; [lia|]. intros Y. destruct (Q6 w Hw X Y) as [|[|]]; [discriminate | congruence | now right].
      - destruct Ht as [(_ & -> & _)|(_ & _ & X)]; assumption.
      - intros w. destruct Ht as [(-> & -> & E)|(-> & X & _)]; [|rewrite X]; rewrite Q8.
        + split; intros (Y1 & Y2 & Y3); (split; [exact Y1|]; split; [exact Y2|]); revert Y3; rewrite TT by auto; destruct (Z.eqb_spec u w) as [<-|]; lia.
        + split.
          * intros ((Y1 & Y2 & Y3) & Y4). rewrite TT by auto. destruct (Z.eqb_spec u w); [congruence | auto].
          * intros (Y1 & Y2 & Y3). revert Y3. rewrite TT by auto. destruct (Z.eqb_spec u w) as [<-|]; intros; [lia|]. auto.
      - intros w X. discriminate. }
    assert (GO : forall t l, K None ch (setlk (setst x (upd b (fx_st x) u t)) l) -> exists x', fmRelink s p ch (setlk (setst x (upd b (fx_st x) u t)) l) = Ok x' /\ wf x' /\ SI B mn x' /\ K None nil x' /\ fx_pt x' = fx_pt x /\ fx_gn x' = fx_gn x /\ fx_ms x' = fx_ms x /\ fx_save x' = fx_save x).
    { intros t l Kt. destruct (IH _ (wf_st' x u t l W) (SI_st B mn x u t l S) Kt) as (x' & E & I). exists x'. split; [exact E | exact I]. }
    destruct (Z.eqb_spec (ST x u) 0) as [E0|E0].
    + rewrite add_ok by (auto; lia). cbn [bind]. apply (GO 3 (fx_lock x)). apply KT. right. split; [reflexivity|]. split; [|apply KK]. intros w. split; [|tauto]. intros X. split; [exact X|]. intros ->. apply (k_lock _ _ _ _ _ KK) in X. lia.
    + rewrite (wr_st s V) by auto. cbn [bind]. cbv zeta. set (x1 := setst x (upd b (fx_st x) u 2)). assert (W1 : wf x1) by exact (wf_st' x u 2 (fx_lock x) W).
      change (fx_gn x1) with (fx_gn x). rewrite (rd_gn s V x) by auto. cbn [bind]. rewrite (rvelo_ok s R V u Hu). cbn [bind].
      destruct (Z.eqb_spec (G x u p) (- velo s u)) as [Eg|Eg].
      * destruct (in_dec Z.eq_dec u (fx_lock x1)) as [Hi|Hi]; [|exfalso; apply Hi; apply (k_lock _ _ _ _ _ KK); split; [auto|]; split; lia].
        set (l := remove Z.eq_dec u (fx_lock x1)). assert (T1 : ST x1 u = 2) by (unfold x1; cbn [setst fx_st]; rewrite (at_n s V) by (auto; apply W); now rewrite Z.eqb_refl).
        rewrite add_ok; [|exact (wf_st' x u 2 l W) | exact Hu | change (ST (setlk x1 l) u) with (ST x1 u); lia]. cbn [bind].
        replace (setst (setlk x1 l) (upd b (fx_st (setlk x1 l)) u 3)) with (setlk (setst x (upd b (fx_st x) u 3)) l) by (unfold x1; cbn [setlk setst fx_pt fx_gn fx_st fx_ms fx_lock fx_save]; rewrite upd_upd by (auto; apply W); reflexivity).
        apply GO, KT. right. split; [reflexivity|]. change (fx_lock x1) with (fx_lock x) in l. split.
        -- intros w. unfold l. split; [intros X; apply in_remove in X; exact X | intros (X1 & X2); apply in_in_remove; auto].
        -- unfold l. apply NoDup_remove_Z. apply KK.
      * cbn [bind]. apply (GO 2 (fx_lock x)). apply KT. left. split; [reflexivity|]. split; [reflexivity | lia].
Qed.

(** ** Moves *)
Definition LDf (B : Z -> Z) (q : Z) : Z := zsum b nnd (fun v => if B v =? q then velo s v else 0).
Variables w0 w1 : Z.
Record okB (B : Z -> Z) (c2 dlt : Z) : Prop := {
  ob_rng : forall w, isvert s w -> 0 <= B w <= 2;
  ob_sep : forall u w, adjacent s u w -> B u <> 2 -> B w <> 2 -> B u = B w;
  ob_c2 : c2 = LDf B 2;
  ob_dlt : dlt = LDf B 0 * w1 - LDf B 1 * w0 }.
Lemma LDf_ext B B' q : (forall w, isvert s w -> B w = B' w) -> LDf B q = LDf B' q.
Proof. intros H. apply zsum_ext. intros v Hv. now rewrite H. Qed.
Lemma okB_ext B B' c2 dlt : (forall w, isvert s w -> B w = B' w) -> okB B c2 dlt -> okB B' c2 dlt.
Proof.
  intros H [O1 O2 O3 O4]. constructor.
  - intros w Hw. rewrite <- H by auto. auto.
  - intros u w Ha. destruct (adj_vert s V u w Ha). rewrite <- !H by auto. auto.
  - now rewrite <- (LDf_ext B B' 2 H).
  - now rewrite <- (LDf_ext B B' 0 H), <- (LDf_ext B B' 1 H).
Qed.
Definition gx (x : fmst) : Prop := forall w sd, isvert s w -> PT x w = 2 -> 0 <= sd <= 1 -> G x w sd = nb (ep x) w (1 - sd) - velo s w.
(** parts after the move of [v] to part [p] *)
Definition mvd (B : Z -> Z) (v p w : Z) : Z := if v =? w then p else if (0 <? mult s v w) && (B w =? 1 - p) then 2 else B w.

Lemma mvd_okB B c2 dlt v p : okB B c2 dlt -> isvert s v -> B v = 2 -> 0 <= p <= 1 ->
  okB (mvd B v p) (c2 + exg s B v p) (dlt + (1 - 2 * p) * (exg s B v p * (if p =? 0 then w0 else w1) + velo s v * (w0 + w1))).
Proof.
  intros [O1 O2 O3 O4] Hv E2 Hp. set (q := 1 - p).
  assert (M01 : forall u, mult s v u = 0 \/ mult s v u = 1) by (intros u; destruct (mult_01 s v u V Hv) as [(E & _)|(E & _)]; auto).
  assert (Xq : LDf (mvd B v p) q = LDf B q - nb B v q).
  { unfold LDf. rewrite (nb_mult s V B v q Hv). assert (Arr : forall a c d, a = c + d -> c = a - d) by (intros; lia). apply Arr. rewrite <- zsum_add. apply zsum_ext. intros u Hu. unfold mvd. fold q.
    destruct (Z.eqb_spec v u) as [<-|Hn]; [rewrite E2; destruct (Z.eqb_spec 2 q); [lia|]; destruct (Z.eqb_spec p q); [lia|ring]|].
    destruct (Z.eqb_spec (B u) q) as [E|E].
    - destruct (M01 u) as [E1|E1]; rewrite E1; [change (0 <? 0) with false | change (0 <? 1) with true]; cbn [andb]; [rewrite E, Z.eqb_refl; ring|]. destruct (Z.eqb_spec 2 q); [lia | ring].
    - rewrite andb_false_r. destruct (Z.eqb_spec (B u) q); [contradiction | ring]. }
  assert (Xp : LDf (mvd B v p) p = LDf B p + velo s v).
  { unfold LDf. rewrite (zsum_upd b nnd (fun u => if B u =? p then velo s u else 0) _ v); [|exact Hv|].
    - unfold mvd. rewrite Z.eqb_refl, E2, Z.eqb_refl. destruct (Z.eqb_spec 2 p); [lia | ring].
    - intros u Hu Hn. unfold mvd. destruct (Z.eqb_spec v u); [congruence|]. fold q. destruct (Z.eqb_spec (B u) q) as [E|E]; [|now rewrite andb_false_r]. rewrite andb_true_r. destruct (0 <? mult s v u); [|reflexivity].
      destruct (Z.eqb_spec 2 p); [lia|]. destruct (Z.eqb_spec (B u) p); [lia | reflexivity]. }
  assert (X2 : LDf (mvd B v p) 2 = LDf B 2 + nb B v q - velo s v).
  { assert (Arr : forall a c d e, a + e = c + d -> a = c + d - e) by (intros; lia). apply Arr. unfold LDf. rewrite (nb_mult s V B v q Hv). rewrite <- zsum_add.
    replace (velo s v) with (zsum b nnd (fun u => if v =? u then velo s u else 0)) by (rewrite (zsum_single b nnd _ v); [now rewrite Z.eqb_refl | exact Hv | intros i _ Hi; destruct (Z.eqb_spec v i); [congruence | reflexivity]]).
    rewrite <- zsum_add. apply zsum_ext. intros u Hu. unfold mvd. fold q.
    destruct (Z.eqb_spec v u) as [<-|Hn]; [rewrite E2; destruct (Z.eqb_spec p 2); [lia|]; change (2 =? 2) with true; destruct (Z.eqb_spec 2 q); [lia|ring]|].
    destruct (Z.eqb_spec (B u) q) as [E|E].
    - destruct (M01 u) as [E1|E1]; rewrite E1; [change (0 <? 0) with false | change (0 <? 1) with true]; cbn [andb]; [ring|]. change (2 =? 2) with true. cbv iota. destruct (Z.eqb_spec (B u) 2); [lia | ring].
    - rewrite andb_false_r. ring. }
  unfold exg. fold q. constructor.
  - intros w Hw. unfold mvd. specialize (O1 w Hw). destruct (v =? w); [lia|]. destruct (_ && _); lia.
  - intros u w Ha. destruct (adj_vert s V u w Ha) as (Hu & Hw). pose proof (adj_sym s V u w Ha) as Ha'. unfold mvd.
    assert (AM : forall z, adjacent s v z -> mult s v z = 1).
    { intros z (e & A & <-). destruct (mult_01 s v (edge s e) V Hv) as [(E & _)|(_ & NE)]; [exact E | destruct (NE e A); reflexivity]. }
    fold q. pose proof (O1 u Hu). pose proof (O1 w Hw).
    destruct (Z.eqb_spec v u) as [<-|N1], (Z.eqb_spec v w) as [<-|N2].
    + reflexivity.
    + rewrite (AM w Ha). change (0 <? 1) with true. cbn [andb]. destruct (Z.eqb_spec (B w) q); lia.
    + rewrite (AM u Ha'). change (0 <? 1) with true. cbn [andb]. destruct (Z.eqb_spec (B u) q); lia.
    + specialize (O2 u w Ha). destruct ((0 <? mult s v u) && (B u =? q)); [lia|]. destruct ((0 <? mult s v w) && (B w =? q)); [lia|]. exact O2.
  - rewrite X2, O3. ring.
  - assert (Hc : p = 0 \/ p = 1) by lia. destruct Hc as [Hc|Hc].
    + assert (q = 1) as Eq by (unfold q; lia). rewrite Eq, Hc in *. rewrite Xq, Xp, O4. change (0 =? 0) with true. cbv iota. ring.
    + assert (q = 0) as Eq by (unfold q; lia). rewrite Eq, Hc in *. rewrite Xq, Xp, O4. change (1 =? 0) with false. cbv iota. ring.
Qed.

Lemma move_ok B mn v p x : wf x -> SI B mn x -> K None nil x -> gx x -> (forall w, isvert s w -> 0 <= ep x w <= 2) -> (forall u w, adjacent s u w -> ep x u <> 2 -> ep x w <> 2 -> ep x u = ep x w) ->
  isvert s v -> ST x v = 3 -> PT x v <> -1 -> 0 <= p <= 1 ->
  exists x', fmMove s part w0 w1 mn v p x = Ok (x', exg s (ep x) v p, (1 - 2 * p) * (exg s (ep x) v p * (if p =? 0 then w0 else w1) + velo s v * (w0 + w1))) /\
    wf x' /\ SI B mn x' /\ K None nil x' /\ gx x' /\ forall w, isvert s w -> ep x' w = mvd (ep x) v p w.
Proof.
  intros W S KK GX HB HS Hv E3 Pn Hp. assert (P2 : PT x v = 2) by (apply (k_st _ _ _ _ _ KK v Hv Pn); exact E3). set (q := 1 - p).
  unfold fmMove. cbv zeta. rewrite (rd_st s V) by auto. cbn [bind]. rewrite E3. change (3 <=? 3) with true. cbn [negb]. rewrite (wr_st s V) by auto. cbn [bind].
  set (x1 := setlk (setst x (upd b (fx_st x) v 1)) (v :: fx_lock x)). assert (W1 : wf x1) by exact (wf_st' x v 1 _ W).
  assert (S1 : SI B mn x1) by exact (SI_st B mn x v 1 _ S).
  assert (TT : forall w, isvert s w -> ST x1 w = if v =? w then 1 else ST x w) by (intros w Hw; cbn [x1 setlk setst fx_st]; apply (at_n s V); auto; apply W).
  assert (K1 : K (Some v) nil x1).
  { destruct KK as [Q1 Q2 Q3 Q4 Q5 Q6 Q7 Q8 Q9]. constructor; auto.
    - intros u Hu X. change (PT x1 u) with (PT x u) in *. rewrite TT by auto. destruct (Z.eqb_spec v u) as [<-|]; [lia | auto].
    - intros u [].
    - intros u Hu X. rewrite TT by auto. destruct (Z.eqb_spec v u) as [<-|]; [now left|]. intros Y. destruct (Q6 u Hu X Y) as [|[]]. discriminate.
    - cbn [x1 setlk fx_lock]. constructor; [|exact Q7]. intros X. apply Q8 in X. lia.
    - intros u. cbn [x1 setlk fx_lock In]. change (at_ b (fx_pt _) u) with (PT x1 u). change (at_ b (fx_st _) u) with (ST x1 u). rewrite Q8. change (PT x1 u) with (PT x u). split.
      + intros [<-|(Y1 & Y2 & Y3)]; [rewrite TT, Z.eqb_refl by auto; split; [auto|lia]|]. rewrite TT by auto. split; [exact Y1|]. split; [exact Y2|]. destruct (v =? u); lia.
      + intros (Y1 & Y2 & Y3). rewrite TT in Y3 by auto. destruct (Z.eqb_spec v u); [now left | right; auto].
    - intros u X. injection X as <-. rewrite TT by auto. rewrite Z.eqb_refl. auto. }
  change (fx_gn x1) with (fx_gn x). rewrite !(rd_gn s V x) by (auto; lia). cbn [bind]. rewrite (rvelo_ok s R V v Hv). cbn [bind].
  change (G x v 0) with (G x1 v 0) at 1. change (G x v 1) with (G x1 v 1) at 1. destruct (rec_cur s V part B mn v x1 W1 S1 Hv P2) as (x2 & -> & W2 & S2 & Sm & M2 & _). cbn [bind].
  pose proof (K_same s part _ _ _ _ Sm K1) as K2. destruct (vread s R V v Hv) as (-> & ->). cbn [bind].
  assert (EP2 : forall w, ep x2 w = ep x w) by (intros w; unfold P_VgraphFm.ep; rewrite (sm_pt _ _ Sm); reflexivity).
  assert (PT2 : forall w, PT x2 w = PT x w) by (intros w; now rewrite (sm_pt _ _ Sm)).
  assert (G2 : forall w sd, G x2 w sd = G x w sd) by (intros w sd; unfold P_VgraphFm.G; now rewrite (sm_gn _ _ Sm)).
  assert (NBE : forall w r, isvert s w -> nb (ep x2) w r = nb (ep x) w r) by (intros w r Hw; apply (nb_ext s V); auto; intros; now rewrite EP2).
  assert (CN : forall w, cnt (vert s v) (vert s v) w = 0) by (intros w; unfold P_VgraphGg.cnt; apply zcount_nil; lia).
  destruct (arcs_ok s R V part HP B mn v p (ep x) Hp Hv HB HP0 HS x2) as (x3 & ch & -> & [W3 M3 S3 K3 ME GP GQ]).
  { constructor; auto.
    - intros w Hw. rewrite EP2, CN. reflexivity.
    - intros w Hw X. rewrite PT2 in X. rewrite G2, NBE by auto. apply GX; auto.
    - intros w Hw X. rewrite PT2 in X. rewrite G2, CN. rewrite (GX w (1 - p) Hw X ltac:(lia)). replace (1 - (1 - p)) with p by lia. ring. }
  cbn [bind]. fold q in ME, GP, GQ. rewrite (wr_st s V) by auto. cbn [bind]. rewrite (wr_pt s V) by auto. cbn [bind].
  destruct (k_v _ _ _ _ _ K3 v eq_refl) as (_ & Pv & Tv). set (x4 := setpt _ _).
  assert (PT4 : forall w, isvert s w -> PT x4 w = if v =? w then p else PT x3 w) by (intros w Hw; cbn [x4 setpt fx_pt]; apply (at_n s V); auto; apply W3).
  assert (ST4 : forall w, isvert s w -> ST x4 w = if v =? w then 2 else ST x3 w) by (intros w Hw; cbn [x4 setpt setst fx_st]; apply (at_n s V); auto; apply W3).
  assert (EP4 : forall w, isvert s w -> ep x4 w = if v =? w then p else ep x3 w).
  { intros w Hw. unfold P_VgraphFm.ep. rewrite PT4 by auto. destruct (v =? w); [|reflexivity]. destruct (Z.eqb_spec p (-1)); [lia | reflexivity]. }
  assert (W4 : wf x4) by (destruct W3 as [Y1 Y2 Y3 Y4]; constructor; cbn [x4 setpt setst fx_pt fx_gn fx_st fx_ms]; rewrite ?zlen_upd; auto).
  assert (S4 : SI B mn x4).
  { apply (SI_mod s part B mn x3); auto.
    - intros w Hw X. rewrite PT4 by auto. destruct (v =? w); lia.
    - intros w Hw X. rewrite EP4 by auto. destruct (Z.eqb_spec v w) as [<-|]; [contradiction | auto]. }
  assert (K4 : K None ch x4).
  { destruct K3 as [Q1 Q2 Q3 Q4 Q5 Q6 Q7 Q8 Q9]. constructor; auto.
    - intros u Hu. rewrite PT4 by auto. destruct (v =? u); [lia | auto].
    - intros u Hu X. rewrite PT4 by auto. destruct (v =? u); [lia | auto].
    - intros u Hu. rewrite PT4, ST4 by auto. destruct (v =? u); [lia | auto].
    - intros u Hu. destruct (Q5 u Hu) as (Y1 & Y2 & Y3 & Y4). rewrite PT4, ST4 by auto. destruct (Z.eqb_spec v u); [congruence|]. repeat (split; [assumption|]). discriminate.
    - intros u Hu. rewrite PT4, ST4 by auto. destruct (Z.eqb_spec v u); [lia|]. intros Y1 Y2. destruct (Q6 u Hu Y1 Y2) as [X|X]; [congruence | now right].
    - intros u. change (fx_lock x4) with (fx_lock x3). rewrite Q8. split; intros (Y1 & Y2 & Y3); (split; [exact Y1|]); revert Y2 Y3; rewrite PT4, ST4 by auto; destruct (Z.eqb_spec v u) as [<-|]; intros; lia.
    - intros u X. discriminate. }
  destruct (relink_ok B mn p ch Hp x4 W4 S4 K4) as (x5 & -> & W5 & S5 & K5 & F1 & F2 & F3 & F4). cbn [bind].
  assert (EP5 : forall w, isvert s w -> ep x5 w = mvd (ep x) v p w).
  { intros w Hw. unfold P_VgraphFm.ep at 1. rewrite F1. change (ep x4 w = mvd (ep x) v p w). rewrite EP4, ME by auto. unfold mvd. destruct (v =? w); reflexivity. }
  rewrite (GX v p Hv P2 Hp). exists x5. split; [reflexivity|]. split; [exact W5|]. split; [exact S5|]. split; [exact K5|]. split; [|exact EP5].
  assert (G5 : forall w sd, G x5 w sd = G x3 w sd) by (intros w sd; unfold P_VgraphFm.G; rewrite F2; reflexivity).
  assert (Ev : ep x v = 2) by (unfold P_VgraphFm.ep; rewrite P2; reflexivity).
  assert (Ev3 : ep x3 v = 2) by (unfold P_VgraphFm.ep; rewrite Pv; reflexivity).
  assert (E54 : forall w, isvert s w -> ep x5 w = if v =? w then p else ep x3 w) by (intros w Hw; rewrite EP5 by auto; unfold mvd; rewrite ME by auto; destruct (v =? w); reflexivity).
  intros w sd Hw X Hsd. rewrite F1 in X. rewrite PT4 in X by auto. destruct (Z.eqb_spec v w) as [<-|Hn]; [lia|]. rewrite G5. assert (Hc : sd = p \/ sd = q) by (unfold q; lia). destruct Hc as [-> | ->].
  - rewrite (GP w Hw X). f_equal. fold q. apply (nb_ext s V); auto. intros z Hz. rewrite E54 by auto. destruct (Z.eqb_spec v z) as [<-|]; [|reflexivity]. rewrite Ev3. destruct (Z.eqb_spec 2 q), (Z.eqb_spec p q); try reflexivity; unfold q in *; lia.
  - rewrite (GQ w Hw X). replace (1 - q) with p by (unfold q; lia). rewrite (nb_leave s V (ep x5) (ep x) v w p Hw Hv); [lia | | rewrite Ev; lia|].
    + rewrite E54 by auto. now rewrite Z.eqb_refl.
    + intros z Hz Hzn. rewrite E54 by auto. destruct (Z.eqb_spec v z); [congruence|]. rewrite ME by auto. destruct (Z.eqb_spec (ep x z) q) as [E|]; [|now rewrite andb_false_r]. rewrite andb_true_r. destruct (0 <? cnt _ _ z); [|reflexivity].
      rewrite E. destruct (Z.eqb_spec 2 p), (Z.eqb_spec q p); try reflexivity; unfold q in *; lia.
Qed.
End Fm2.
