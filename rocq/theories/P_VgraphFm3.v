(** Proofs about the refinement of vertex separators: moves kept, moves undone, passes. *)
From Verif Require Import Base Mem M_Graph M_Vgraph M_VgraphSt M_VgraphGg M_VgraphFm S_Graph S_Vgraph S_Color S_VgraphSt S_VgraphGg S_VgraphFm P_Graph P_Vgraph P_Vgraph2 P_VgraphGp P_VgraphGg P_VgraphFm P_VgraphFm2.

(** Success, or exhaustion of the fuel *)
Definition wpf {A} (r : res A) (Q : A -> Prop) : Prop := match r with Ok a => Q a | Fuel => True | _ => False end.
Lemma wpf_bind {A B} (r : res A) (f : A -> res B) Q : wpf r (fun a => wpf (f a) Q) -> wpf (bind r f) Q.
Proof. destruct r; cbn; auto. Qed.
Lemma wpf_mono {A} (r : res A) (Q Q' : A -> Prop) : wpf r Q -> (forall a, Q a -> Q' a) -> wpf r Q'.
Proof. destruct r; cbn; auto. Qed.
Lemma wpf_loop {S R} (I : S -> Prop) fuel body (s : S) (Q : R -> Prop) :
  I s -> (forall s, I s -> wpf (body s) (fun x => match x with inl s' => I s' | inr r => Q r end)) -> wpf (loop fuel body s) Q.
Proof.
  intros Hi Hb. revert s Hi. induction fuel; intros s Hi; [exact Logic.I|]. cbn [loop]. apply wpf_bind. eapply wpf_mono; [apply Hb; auto|].
  intros [s'|r] H; [apply IHfuel; exact H | exact H].
Qed.

Section Fm3.
Variable s : graph.
Hypothesis R : graph_readable s.
Hypothesis V : graph_valid s.
Variable part : list Z.
Hypothesis HP : vertnbr s <= zlen part.
Hypothesis HP0 : forall w, isvert s w -> 0 <= at_ (baseval s) part w <= 2.
Hypothesis HV : forall w, isvert s w -> 0 < velo s w.
Notation b := (baseval s).
Notation n := (vertnbr s).
Notation nnd := (vertnnd s).
Notation PT x v := (at_ b (fx_pt x) v).
Notation ST x v := (at_ b (fx_st x) v).
Notation MS x v := (at_ b (fx_ms x) v).
Notation P0 v := (at_ b part v).
Notation G := (G s).
Notation ep := (ep s part).
Notation nb := (nb s).
Notation wf := (wf s).
Notation SI := (SI s part).
Notation K := (K s part).
Notation gx := (gx s part).
Variables w0 w1 : Z.
Notation okB := (okB s w0 w1).
Variables (ab tb : Z -> Z) (ord : nat -> fmst -> list (Z * Z)) (gmax mat movemax : Z).
Hypothesis HO : ord_ok s ord.

Lemma ep2 x u : K None nil x -> isvert s u -> ep x u = 2 -> PT x u = 2.
Proof. intros KK Hu. unfold P_VgraphFm.ep. pose proof (k_abs _ _ _ _ _ KK u Hu). destruct (Z.eqb_spec (PT x u) (-1)); tauto. Qed.

(** ** Choice of a move *)
Definition lnk (x : fmst) (l : Z * Z) : Prop := isvert s (fst l) /\ 0 <= snd l <= 1 /\ PT x (fst l) <> -1 /\ ST x (fst l) = 3.
Lemma get_ok x dlt dmax pv links : wf x -> Forall (lnk x) links -> forall best, match best with Some (v, sd, _) => lnk x (v, sd) | None => True end ->
  exists r, fmGet s ab tb gmax w0 w1 (fx_gn x) dlt dmax pv best links = Ok r /\ match r with Some (v, sd, _) => lnk x (v, sd) | None => True end.
Proof.
  intros W. induction links as [|(v, sd) links IH]; intros HL best HB; cbn [fmGet].
  - exists best. auto.
  - inversion HL as [|? ? (L1 & L2 & L3 & L4) HL']; subst. cbn [fst snd] in *. rewrite (rd_gn s V x) by auto. cbn [bind].
    destruct (match best with Some (_, _, gb) => tb gb <? tb (G x v sd) | None => false end); [exists best; auto|].
    rewrite (rvelo_ok s R V v L1). cbn [bind]. specialize (HV v L1). destruct (Z.leb_spec (velo s v) 0); [lia|]. rewrite andb_false_r.
    assert (LV : lnk x (v, sd)) by (unfold lnk; cbn [fst snd]; auto). destruct (G x v sd =? - velo s v); [eexists; split; [reflexivity | exact LV]|]. cbv zeta. apply IH; [exact HL'|].
    destruct (_ && _); [exact LV | exact HB].
Qed.

(** ** State between two moves *)
Record INV (B : Z -> Z) (x : fmst) (y : fmsc) : Prop := {
  iv_wf : wf x; iv_si : SI B (fc_ms y) x; iv_k : K None nil x; iv_gx : gx x; iv_ok : okB (ep x) (fc_c2 y) (fc_dlt y); iv_okb : okB B (fc_c2b y) (fc_dltb y) }.
Definition clr (x : fmst) : fmst := mkfmst (fx_pt x) (fx_gn x) (fx_st x) (fx_ms x) (fx_lock x) nil.
(** not worse than a balanced separator of load [c2] and imbalance [d] *)
Definition qual (c2 d : Z) (y : fmsc) : Prop := ab d <= mat -> ab (fc_dltb y) <= mat /\ (fc_c2b y < c2 \/ fc_c2b y = c2 /\ ab (fc_dltb y) <= ab d).

Lemma keep_spec y : let '(y', kp) := fmKeep ab mat y in
  fc_c2 y' = fc_c2 y /\ fc_dlt y' = fc_dlt y /\ (if kp : bool then fc_c2b y' = fc_c2 y /\ fc_dltb y' = fc_dlt y /\ fc_ms y < fc_ms y' else fc_c2b y' = fc_c2b y /\ fc_dltb y' = fc_dltb y /\ fc_ms y' = fc_ms y) /\
  (forall c d, qual c d y -> qual c d y').
Proof.
  destruct y as [c2 dlt c2b dltb mx mv fl mn k]. unfold fmKeep, qual. cbn [fc_c2 fc_dlt fc_c2b fc_dltb fc_max fc_move fc_flag fc_ms fc_k].
  destruct (Z.ltb_spec (ab dlt) mat), (Z.ltb_spec mat (ab dltb)); cbn [orb];
  destruct (Z.ltb_spec c2 c2b), (Z.eqb_spec c2 c2b), (Z.ltb_spec (ab dlt) (ab dltb)), (Z.eqb_spec (ab dlt) (ab dltb)); try lia; cbv iota beta zeta;
  destruct (Z.ltb_spec mx (ab dlt)); try (destruct (Z.ltb_spec mat mx)); try (destruct (Z.ltb_spec (Z.max mat (ab dlt)) mx)); cbn [andb]; cbv iota beta;
  cbn [fc_c2 fc_dlt fc_c2b fc_dltb fc_max fc_move fc_flag fc_ms fc_k]; (split; [reflexivity|]; split; [reflexivity|]; split; [lia|]); intros c d Q HQ; specialize (Q HQ); lia.
Qed.

Lemma SI_new x mn mn' : (forall u, isvert s u -> MS x u <= mn) -> mn < mn' -> K None nil x -> gx x -> SI (ep x) mn' (clr x).
Proof.
  intros H1 H2 KK GX. constructor; cbn [clr fx_save map].
  - constructor.
  - intros u Hu. specialize (H1 u Hu). change (MS (clr x) u) with (MS x u). lia.
  - intros u Hu. specialize (H1 u Hu). change (MS (clr x) u) with (MS x u). split; [lia | intros []].
  - intros u p a c [].
  - intros u Hu _. split; [reflexivity|]. intros E. pose proof (ep2 x u KK Hu E) as E2. split; [apply (GX u 0 Hu E2); lia | apply (GX u 1 Hu E2); lia].
Qed.
Lemma clr_K x : K None nil x -> K None nil (clr x). Proof. intros [Q1 Q2 Q3 Q4 Q5 Q6 Q7 Q8 Q9]. constructor; auto. Qed.
Lemma clr_wf x : wf x -> wf (clr x). Proof. intros [Q1 Q2 Q3 Q4]. constructor; auto. Qed.

Lemma step_ok pass B x y : INV B x y -> exists r, fmStep s part ab tb ord gmax w0 w1 mat movemax pass (x, y) = Ok r /\
  match r with
  | inr z => z = (x, y)
  | inl (x', y') => fc_move y < movemax /\ (exists B', INV B' x' y') /\ exists c2 d k kp, fmKeep ab mat (mkfmsc c2 d (fc_c2b y) (fc_dltb y) (fc_max y) (fc_move y + 1) (fc_flag y) (fc_ms y) k) = (y', kp)
  end.
Proof.
  intros I. unfold fmStep. destruct (Z.ltb_spec (fc_move y) movemax) as [HM|]; [|eexists; split; [reflexivity | reflexivity]]. pose proof I as [W S KK GX O OB].
  destruct (get_ok x (fc_dlt y) (fc_max y) (Z.land pass 1) (ord (fc_k y) x) W) with (best := @None (Z * Z * Z)) as (r & -> & Hr); [|exact Logic.I|].
  { apply Forall_forall. intros (v, sd) Hi. apply (HO (fc_k y) x v sd Hi). }
  cbn [bind]. destruct r as [((v & p) & g)|]; [|eexists; split; [reflexivity | reflexivity]]. destruct Hr as (L1 & L2 & L3 & L4). cbn [fst snd] in *.
  destruct (move_ok s R V part HP HP0 w0 w1 B (fc_ms y) v p x W S KK GX (ob_rng _ _ _ _ _ _ O) (ob_sep _ _ _ _ _ _ O) L1 L4 L3 L2) as (x' & -> & W' & S' & K' & GX' & EP'). cbn [bind].
  assert (Ev : ep x v = 2). { destruct (k_st _ _ _ _ _ KK v L1 L3) as (_ & X). unfold P_VgraphFm.ep. rewrite (X L4). reflexivity. }
  pose proof (okB_ext s V w0 w1 _ (ep x') _ _ (fun w Hw => eq_sym (EP' w Hw)) (mvd_okB s V part HP0 w0 w1 (ep x) _ _ v p O L1 Ev L2)) as O'.
  match goal with |- context [fmKeep ab mat ?z] => set (y1 := z) end. pose proof (keep_spec y1) as KS. destruct (fmKeep ab mat y1) as [y' kp] eqn:EK. destruct KS as (E1 & E2 & E3 & E4). eexists. split; [reflexivity|]. cbv beta iota.
  split; [exact HM|]. split; [|unfold y1 in EK; eauto].
  destruct kp; destruct E3 as (E5 & E6 & E7).
  - exists (ep x'). constructor; [exact (clr_wf _ W') | apply (SI_new x' (fc_ms y)); auto; apply S' | exact (clr_K _ K') | exact GX' | rewrite E1, E2; exact O' | rewrite E5, E6; exact O'].
  - exists B. constructor; auto; [rewrite E7; exact S' | rewrite E1, E2; exact O' | rewrite E5, E6; exact OB].
Qed.

Lemma moves_ok fuel pass c d B x y : INV B x y -> qual c d y ->
  wpf (fmMoves s part ab tb ord gmax w0 w1 mat movemax fuel pass x y) (fun '(x', y') => qual c d y' /\ exists B', INV B' x' y').
Proof.
  intros I0 Q0. unfold fmMoves. apply wpf_loop with (I := fun '(x, y) => qual c d y /\ exists B, INV B x y); [eauto|].
  clear B x y I0 Q0. intros [x y] (Q & B & I). destruct (step_ok pass B x y I) as (r & -> & H). cbn [wpf]. destruct r as [[x' y']|z]; [|subst z; eauto].
  destruct H as (_ & HI & c2 & d' & k & kp & EK). split; [|exact HI]. match type of EK with fmKeep ab mat ?z = _ => pose proof (keep_spec z) as KS end. rewrite EK in KS. destruct KS as (_ & _ & _ & E4). apply E4. exact Q.
Qed.

(** ** Termination, from a balanced separator *)
Hypothesis HA : forall d, 0 <= ab d.
Definition bal (y : fmsc) : Prop := ab (fc_dltb y) <= mat.
Definition TT (y : fmsc) : Z := fc_c2b y * (mat + 1) + ab (fc_dltb y).
Lemma keep_term y y' kp : fmKeep ab mat y = (y', kp) -> bal y -> bal y' /\ (TT y' < TT y /\ fc_move y' = 0 /\ fc_flag y' = true \/ TT y' = TT y /\ fc_move y' = fc_move y /\ fc_flag y' = fc_flag y).
Proof.
  destruct y as [c2 dlt c2b dltb mx mv fl mn k]. unfold fmKeep, bal, TT. cbn [fc_c2 fc_dlt fc_c2b fc_dltb fc_max fc_move fc_flag fc_ms fc_k]. pose proof (HA dlt) as A1. pose proof (HA dltb) as A2. intros EK Hb. revert EK.
  destruct (Z.ltb_spec mat (ab dltb)); [lia|]. rewrite orb_false_r. cbn [andb].
  destruct (Z.ltb_spec (ab dlt) mat); [destruct (Z.ltb_spec c2 c2b); [|destruct (Z.eqb_spec c2 c2b); [destruct (Z.ltb_spec (ab dlt) (ab dltb)); [|destruct (Z.eqb_spec (ab dlt) (ab dltb))]|]]|]; cbv iota beta zeta;
  destruct (mx <? ab dlt); try destruct (mat <? mx); intros EK; injection EK as <- _; cbn [fc_c2b fc_dltb fc_move fc_flag]; (split; [lia|]);
  (left; split; [nia | auto]) || (right; split; [congruence || (subst; lia) | auto]).
Qed.
Definition mvM : Z := Z.max 0 movemax.
Lemma TT_nonneg B y : okB B (fc_c2b y) (fc_dltb y) -> bal y -> 0 <= fc_c2b y /\ 0 <= TT y.
Proof.
  intros O Hb. pose proof (ob_c2 _ _ _ _ _ _ O) as E. assert (0 <= fc_c2b y). { rewrite E. apply zsum_nonneg. intros i Hi. destruct (_ =? 2); [|lia]. specialize (HV i Hi). lia. }
  split; [assumption|]. unfold TT, bal in *. pose proof (HA (fc_dltb y)). nia.
Qed.
Lemma moves_term fuel pass B x y : INV B x y -> bal y -> 0 <= fc_move y -> fc_flag y = false -> TT y * (mvM + 1) + mvM < Z.of_nat fuel ->
  exists x' y', fmMoves s part ab tb ord gmax w0 w1 mat movemax fuel pass x y = Ok (x', y') /\ bal y' /\ TT y' <= TT y /\ (fc_flag y' = true -> TT y' < TT y) /\ exists B', INV B' x' y'.
Proof.
  intros I0 Hb Hm Hf HF. unfold fmMoves.
  match goal with |- exists x' y', loop ?a ?f ?i = _ /\ _ => destruct (wp_ok_inv (loop a f i) (fun '(x', y') => bal y' /\ TT y' <= TT y /\ (fc_flag y' = true -> TT y' < TT y) /\ exists B', INV B' x' y')) as ([x' y'] & E & Q) end; [|exists x', y'; auto].
  apply wp_loop with (I := fun '(x', y') => bal y' /\ TT y' <= TT y /\ (fc_flag y' = true -> TT y' < TT y) /\ 0 <= fc_move y' /\ exists B', INV B' x' y') (m := fun '(x', y') => TT y' * (mvM + 1) + Z.max 0 (mvM - fc_move y')).
  - split; [exact Hb|]. split; [lia|]. split; [congruence|]. split; [exact Hm | eauto].
  - destruct (TT_nonneg B y (iv_okb _ _ _ I0) Hb). unfold mvM in *. nia.
  - intros [x1 y1] (J1 & J2 & J3 & J4 & B1 & J5). destruct (step_ok pass B1 x1 y1 J5) as (r & -> & H). cbn [wp]. destruct r as [[x2 y2]|z]; [|subst z; eauto 7].
    destruct H as (HM & HI & c2 & d' & k & kp & EK). destruct (keep_term _ _ _ EK J1) as (Hb2 & HT). unfold TT in HT. cbn [fc_c2b fc_dltb fc_move fc_flag] in HT. fold (TT y2) in HT. fold (TT y1) in HT.
    destruct HI as (B2 & HI). destruct (TT_nonneg B2 y2 (iv_okb _ _ _ HI) Hb2) as (_ & T2). assert (0 <= mvM) by (unfold mvM; lia). assert (fc_move y1 < mvM) by (unfold mvM; lia).
    split; [|destruct HT as [(U1 & U2 & _)|(U1 & U2 & _)]; rewrite U2, ?U1; [nia | lia]].
    split; [exact Hb2|]. split; [lia|]. split; [destruct HT as [(U1 & U2 & U3)|(U1 & U2 & U3)]; [lia | rewrite U3, U1; exact J3]|]. split; [lia | eauto].
Qed.

(** ** Undoing moves *)
Record SB (B : Z -> Z) (l : list (Z * Z * Z * Z)) (x : fmst) : Prop := {
  sb_nd : NoDup (map key l);
  sb_in : forall u p a c, In (u, p, a, c) l -> isvert s u /\ PT x u <> -1 /\ p = B u /\ (B u = 2 -> a = exg s B u 0 /\ c = exg s B u 1);
  sb_out : forall u, isvert s u -> ~ In u (map key l) -> ep x u = B u /\ (B u = 2 -> G x u 0 = exg s B u 0 /\ G x u 1 = exg s B u 1) }.
Lemma SI_SB B mn x : SI B mn x -> SB B (fx_save x) x.
Proof. clear HA. intros [S1 S2 S3 S4 S5]. constructor; auto. intros u Hu Hn. apply S5; auto. intros X. apply Hn. now apply S3. Qed.

Lemma back_ok B l : (forall w, isvert s w -> 0 <= B w <= 2) -> forall x, wf x -> K None nil x -> SB B l x ->
  exists x', fmBack s l x = Ok x' /\ wf x' /\ K None nil x' /\ SB B nil x' /\ fx_ms x' = fx_ms x /\ fmUndo s l (fx_pt x) = Ok (fx_pt x').
Proof. clear HA.
  intros HB. induction l as [|[[[v p] a] c] l IH]; intros x W KK [S1 S2 S3]; cbn [fmBack fmUndo].
  - exists x. split; [reflexivity|]. split; [exact W|]. split; [exact KK|]. split; [constructor; auto|]. auto.
  - destruct (S2 v p a c (or_introl eq_refl)) as (Hv & Pv & Ep & Eg). cbn [map] in S1. change (key (v, p, a, c)) with v in S1. apply NoDup_cons_iff in S1; destruct S1 as (N1 & N2). subst p. pose proof (HB v Hv) as Bv.
    rewrite (wr_pt s V) by auto. cbn [bind]. rewrite (wr_gn s V x) by (auto; lia). cbn [bind].
    set (x0 := setgn x (upd 0 (fx_gn x) (gi s v 0) a)). assert (W0 : wf x0) by (destruct W; constructor; cbn [x0 setgn fx_pt fx_gn fx_st fx_ms]; rewrite ?zlen_upd; auto).
    change (upd 0 (fx_gn x) (gi s v 0) a) with (fx_gn x0). rewrite (wr_gn s V x0) by (auto; lia). cbn [bind]. cbv zeta. set (x1 := setgn (setpt x (upd b (fx_pt x) v (B v))) (upd 0 (fx_gn x0) (gi s v 1) c)).
    assert (W1 : wf x1) by (destruct W, W0; constructor; cbn [x1 setgn setpt fx_pt fx_gn fx_st fx_ms]; rewrite ?zlen_upd; auto).
    assert (PT1 : forall w, isvert s w -> PT x1 w = if v =? w then B v else PT x w) by (intros w Hw; cbn [x1 setgn setpt fx_pt]; apply (at_n s V); auto; apply W).
    assert (G1 : forall w sd, isvert s w -> 0 <= sd <= 1 -> G x1 w sd = if v =? w then (if sd =? 0 then a else c) else G x w sd).
    { intros w sd Hw Hsd. unfold P_VgraphFm.G at 1. cbn [x1 setgn fx_gn]. rewrite (G_upd s V) by (auto; try lia; apply W0). cbn [x0 setgn fx_gn]. rewrite (G_upd s V) by (auto; try lia; apply W).
      change (at_ 0 (fx_gn x) (gi s w sd)) with (G x w sd). destruct (v =? w); cbn [andb]; [|reflexivity]. assert (Hc : sd = 0 \/ sd = 1) by lia. destruct Hc as [-> | ->]; reflexivity. }
    rewrite (rd_st s V x1 v) by auto. cbn [bind]. change (ST x1 v) with (ST x v). change (fx_st x1) with (fx_st x).
    destruct (k_st _ _ _ _ _ KK v Hv Pv) as (T1 & T2).
    assert (T3 : ST x v <> 1). { intros X. destruct (k_one _ _ _ _ _ KK v Hv Pv X) as [|[]]. discriminate. }
    assert (KX : forall t, (t = 3 -> B v = 2) -> (ST x v = 2 <-> t = 2) -> (t = 0 \/ t = 2 \/ t = 3) -> K None nil (setst x1 (upd b (fx_st x) v t))).
    { intros t Ht3 Ht2 Ht. assert (ST1 : forall w, isvert s w -> ST (setst x1 (upd b (fx_st x) v t)) w = if v =? w then t else ST x w) by (intros w Hw; cbn [setst fx_st]; apply (at_n s V); auto; apply W).
      assert (PT1' : forall w, isvert s w -> PT (setst x1 (upd b (fx_st x) v t)) w = if v =? w then B v else PT x w) by exact PT1.
      destruct KK as [Q1 Q2 Q3 Q4 Q5 Q6 Q7 Q8 Q9]. constructor; auto.
      - intros u Hu. rewrite PT1' by auto. destruct (v =? u); [lia | auto].
      - intros u Hu X. rewrite PT1' by auto. destruct (v =? u); [lia | auto].
      - intros u Hu. rewrite PT1', ST1 by auto. destruct (Z.eqb_spec v u) as [<-|]; [|auto]. lia.
      - intros u [].
      - intros u Hu. rewrite PT1', ST1 by auto. destruct (v =? u); [lia | auto].
      - intros u. change (fx_lock (setst x1 _)) with (fx_lock x). rewrite Q8. split; intros (Y1 & Y2 & Y3); (split; [exact Y1|]); revert Y2 Y3; rewrite PT1', ST1 by auto; destruct (Z.eqb_spec v u) as [<-|]; intros; lia.
      - intros u X. discriminate. }
    assert (FIN : forall t, K None nil (setst x1 (upd b (fx_st x) v t)) -> exists x', fmBack s l (setst x1 (upd b (fx_st x) v t)) = Ok x' /\ wf x' /\ K None nil x' /\ SB B nil x' /\ fx_ms x' = fx_ms x /\ fmUndo s l (upd b (fx_pt x) v (B v)) = Ok (fx_pt x')).
    { intros t Kt. apply (IH (setst x1 (upd b (fx_st x) v t))); [exact (wf_st' s x1 v t (fx_lock x1) W1) | exact Kt|]. constructor.
      - exact N2.
      - intros u p' a' c' Hi. destruct (S2 u p' a' c' (or_intror Hi)) as (Y1 & Y2 & Y3). split; [exact Y1|]. split; [|exact Y3]. change (PT x1 u <> -1). rewrite PT1 by auto. destruct (v =? u); [lia | auto].
      - intros u Hu Hn. change (ep x1 u = B u /\ (B u = 2 -> G x1 u 0 = exg s B u 0 /\ G x1 u 1 = exg s B u 1)). rewrite !G1 by (auto; lia). unfold P_VgraphFm.ep. rewrite PT1 by auto.
        destruct (Z.eqb_spec v u) as [<-|Hne]; [split; [destruct (Z.eqb_spec (B v) (-1)); lia | exact Eg]|]. apply (S3 u Hu). cbn [map]. intros [X|X]; [now apply Hne | now apply Hn]. }
    assert (SELF : upd b (fx_st x) v (ST x v) = fx_st x).
    { pose proof (nn s V). pose proof (wf_st _ _ W). apply (at_ext b); [now rewrite zlen_upd|]. rewrite zlen_upd. intros i Hi. unfold isvert in Hv. rewrite at_upd by lia. destruct (Z.eqb_spec v i) as [->|]; reflexivity. }
    destruct (Z.leb_spec 3 (ST x v)) as [H3|H3].
    + rewrite (wr_st s V) by auto. cbn [bind]. set (x2 := setst x1 (upd b (fx_st x) v 0)). assert (W2 : wf x2) by exact (wf_st' s x1 v 0 (fx_lock x1) W1).
      rewrite (rd_st s V x2 v) by auto. cbn [bind]. assert (T0 : ST x2 v = 0) by (cbn [x2 setst fx_st]; rewrite (at_n s V) by (auto; apply W); now rewrite Z.eqb_refl). rewrite T0. change (0 =? 0) with true. cbn [andb].
      destruct (Z.eqb_spec (B v) 2) as [E2|E2].
      * rewrite (add_ok s V part HP0) by (auto; lia). cbn [bind]. replace (setst x2 (upd b (fx_st x2) v 3)) with (setst x1 (upd b (fx_st x) v 3)) by (unfold x2; cbn [setst fx_pt fx_gn fx_st fx_ms fx_lock fx_save]; rewrite (upd_upd s V part HP0) by (auto; apply W); reflexivity).
        apply FIN, KX; lia.
      * cbn [bind]. apply FIN, KX; lia.
    + cbn [bind]. rewrite (rd_st s V x1 v) by auto. cbn [bind]. change (ST x1 v) with (ST x v). destruct ((ST x v =? 0) && (B v =? 2)) eqn:E.
      * apply andb_true_iff in E. destruct E as (E0 & E2). apply Z.eqb_eq in E0, E2. rewrite (add_ok s V part HP0) by (auto; change (ST x1 v) with (ST x v); lia). cbn [bind]. change (fx_st x1) with (fx_st x). apply FIN, KX; lia.
      * cbn [bind]. replace x1 with (setst x1 (upd b (fx_st x) v (ST x v))) by (rewrite SELF; reflexivity). apply FIN, KX; lia.
Qed.

Lemma unlock_ok l : forall x, wf x -> K None nil (setlk x l) ->
  exists x', fmUnlock s l x = Ok x' /\ wf x' /\ K None nil (setlk x' nil) /\ fx_pt x' = fx_pt x /\ fx_gn x' = fx_gn x /\ fx_ms x' = fx_ms x.
Proof. clear HA.
  induction l as [|v l IH]; intros x W KK; cbn [fmUnlock].
  - exists x. auto 7.
  - pose proof (k_lock _ _ _ _ _ KK v) as (KL & _). destruct (KL (or_introl eq_refl)) as (Hv & Pv & Tv). change (PT (setlk x (v :: l)) v) with (PT x v) in Pv. change (ST (setlk x (v :: l)) v) with (ST x v) in Tv.
    rewrite (rd_pt s V) by auto. cbn [bind].
    assert (GO : forall t, (t = 0 \/ t = 3) -> (t = 3 -> PT x v = 2) -> exists x', fmUnlock s l (setst x (upd b (fx_st x) v t)) = Ok x' /\ wf x' /\ K None nil (setlk x' nil) /\ fx_pt x' = fx_pt x /\ fx_gn x' = fx_gn x /\ fx_ms x' = fx_ms x).
    { intros t Ht H3. apply (IH (setst x (upd b (fx_st x) v t))); [exact (wf_st' s x v t (fx_lock x) W)|].
      assert (ST1 : forall w, isvert s w -> at_ b (upd b (fx_st x) v t) w = if v =? w then t else ST x w) by (intros w Hw; apply (at_n s V); auto; apply W).
      destruct KK as [Q1 Q2 Q3 Q4 Q5 Q6 Q7 Q8 Q9]. cbn [setlk setst fx_pt fx_st fx_lock] in *. apply NoDup_cons_iff in Q7; destruct Q7 as (N1 & N2). constructor; cbn [setlk setst fx_pt fx_st fx_lock]; auto.
      - intros u Hu X. rewrite ST1 by auto. destruct (Z.eqb_spec v u) as [<-|]; [lia | auto].
      - intros u [].
      - intros u Hu X. rewrite ST1 by auto. destruct (Z.eqb_spec v u) as [<-|]; [lia | auto].
      - intros u. split.
        + intros X. destruct (proj1 (Q8 u) (or_intror X)) as (Y1 & Y2 & Y3). rewrite ST1 by auto. destruct (Z.eqb_spec v u) as [<-|]; [contradiction | auto].
        + intros (Y1 & Y2 & Y3). rewrite ST1 in Y3 by auto. destruct (Z.eqb_spec v u) as [<-|]; [lia|]. destruct (proj2 (Q8 u) (conj Y1 (conj Y2 Y3))); [contradiction | assumption].
      - intros u X. discriminate. }
    destruct (Z.eqb_spec (PT x v) 2) as [E|E].
    + rewrite (add_ok s V part HP0) by (auto; lia). cbn [bind]. apply GO; auto.
    + rewrite (wr_st s V) by auto. cbn [bind]. apply GO; [auto | lia].
Qed.

Record PINV (B : Z -> Z) (x : fmst) (y : fmsc) : Prop := {
  pv_wf : wf x; pv_sb : SB B (fx_save x) x; pv_k : K None nil x; pv_ms : forall u, isvert s u -> MS x u <= fc_ms y; pv_okb : okB B (fc_c2b y) (fc_dltb y) }.
Definition y3 (y : fmsc) : fmsc := mkfmsc (fc_c2b y) (fc_dltb y) (fc_c2b y) (fc_dltb y) (if fc_max y <? ab (fc_dltb y) then ab (fc_dltb y) else fc_max y) 0 false (fc_ms y + 1) (fc_k y).
Definition x3 (x : fmst) : fmst := mkfmst (fx_pt x) (fx_gn x) (fx_st x) (fx_ms x) nil nil.
Lemma pre_ok B x y : PINV B x y -> exists x1 x2, fmBack s (fx_save x) x = Ok x1 /\ fmUnlock s (fx_lock x1) x1 = Ok x2 /\ exists B', INV B' (x3 x2) (y3 y).
Proof. clear HA.
  intros [W S KK MM OB].
  destruct (back_ok B (fx_save x) (ob_rng _ _ _ _ _ _ OB) x W KK S) as (x1 & E0 & W1 & K1 & S1 & E1 & _). exists x1.
  assert (Elk : setlk x1 (fx_lock x1) = x1) by (destruct x1; reflexivity).
  destruct (unlock_ok (fx_lock x1) x1 W1 ltac:(now rewrite Elk)) as (x2 & E2 & W2 & K2 & F1 & F2 & F3). exists x2. split; [exact E0|]. split; [exact E2|].
  assert (EP3 : forall u, isvert s u -> ep (x3 x2) u = B u). { intros u Hu. destruct (sb_out _ _ _ S1 u Hu ltac:(intros [])) as (X & _). rewrite <- X. unfold P_VgraphFm.ep. cbn [x3 fx_pt]. rewrite F1. reflexivity. }
  assert (K3 : K None nil (x3 x2)) by (destruct K2 as [Q1 Q2 Q3 Q4 Q5 Q6 Q7 Q8 Q9]; constructor; auto).
  assert (GX : gx (x3 x2)).
  { intros w sd Hw H2 Hsd. assert (Bw : B w = 2) by (rewrite <- EP3 by auto; unfold P_VgraphFm.ep; rewrite H2; reflexivity). destruct (sb_out _ _ _ S1 w Hw ltac:(intros [])) as (_ & X). destruct (X Bw) as (X0 & X1).
    rewrite (nb_ext s V (ep (x3 x2)) B w (1 - sd) Hw) by (intros; now rewrite EP3). assert (Hc : sd = 0 \/ sd = 1) by lia. unfold P_VgraphFm.G in *. cbn [x3 fx_gn]. rewrite F2. unfold exg in *. destruct Hc as [-> | ->]; assumption. }
  assert (O3 : okB (ep (x3 x2)) (fc_c2b y) (fc_dltb y)) by (apply (okB_ext s V w0 w1 B); [intros; now rewrite EP3 | exact OB]).
  exists (ep (x3 x2)). constructor; auto; [destruct W2; constructor; auto|]. apply (SI_new (x3 x2) (fc_ms y)); auto; [|cbn [y3 fc_ms]; lia]. intros u Hu. cbn [x3 fx_ms]. rewrite F3, E1. auto.
Qed.
Lemma PINV_of B x y : INV B x y -> PINV B x y.
Proof. clear HA. intros [W4 S4 KK4 GX4 O4 OB4]. constructor; auto; [exact (SI_SB _ _ _ S4) | apply S4]. Qed.
Lemma passes_ok fuel pass c d B x y : PINV B x y -> qual c d y ->
  wpf (fmPasses s part ab tb ord gmax w0 w1 mat movemax fuel pass x y) (fun '(x', y') => qual c d y' /\ exists B', PINV B' x' y').
Proof. clear HA.
  intros I0 Q0. unfold fmPasses. apply wpf_loop with (I := fun '(x, y, _) => qual c d y /\ exists B, PINV B x y); [eauto|].
  clear B x y pass I0 Q0. intros [[x y] pass] (Q & B & I). destruct (pre_ok B x y I) as (x1 & x2 & E1 & E2 & B3 & I3). rewrite E1. cbn [bind]. rewrite E2. cbn [bind]. cbv zeta.
  change (mkfmst (fx_pt x2) _ _ _ nil nil) with (x3 x2). change (mkfmsc (fc_c2b y) _ _ _ _ _ _ _ _) with (y3 y).
  apply wpf_bind. eapply wpf_mono; [apply (moves_ok fuel pass c d B3 (x3 x2) (y3 y) I3 Q)|]. intros [x4 y4] (Q4 & B4 & I4). apply PINV_of in I4.
  destruct (_ && _); cbn [wpf]; split; eauto.
Qed.
Lemma passes_term fuel pass B x y : PINV B x y -> bal y -> TT y * (mvM + 1) + mvM < Z.of_nat fuel ->
  exists z, fmPasses s part ab tb ord gmax w0 w1 mat movemax fuel pass x y = Ok z.
Proof.
  intros I0 Hb HF. unfold fmPasses.
  match goal with |- exists z, loop ?a ?f ?i = _ => destruct (wp_ok_inv (loop a f i) (fun _ => True)) as (z & E & _) end; [|eauto].
  assert (M0 : 0 <= mvM) by (unfold mvM; lia).
  apply wp_loop with (I := fun '(x', y', _) => bal y' /\ TT y' <= TT y /\ exists B', PINV B' x' y') (m := fun '(x', y', _) => TT y').
  - split; [exact Hb|]. split; [lia | eauto].
  - destruct (TT_nonneg B y (pv_okb _ _ _ I0) Hb). nia.
  - intros [[x1 y1] pass1] (J1 & J2 & B1 & J3). destruct (pre_ok B1 x1 y1 J3) as (x2 & x2' & -> & E2 & B3 & I3). cbn [bind]. rewrite E2. cbn [bind]. cbv zeta.
    change (mkfmst (fx_pt x2') _ _ _ nil nil) with (x3 x2'). change (mkfmsc (fc_c2b y1) _ _ _ _ _ _ _ _) with (y3 y1).
    destruct (TT_nonneg B1 y1 (pv_okb _ _ _ J3) J1) as (_ & T1).
    destruct (moves_term fuel pass1 B3 (x3 x2') (y3 y1) I3 J1 ltac:(cbn [y3 fc_move]; lia) eq_refl) as (x4 & y4 & -> & U1 & U2 & U3 & B4 & U4); [change (TT (y3 y1)) with (TT y1); nia|]. change (TT (y3 y1)) with (TT y1) in *. cbn [bind].
    destruct (TT_nonneg B4 y4 (iv_okb _ _ _ U4) U1) as (_ & T4).
    destruct (fc_flag y4) eqn:Ef; cbn [andb]; [|exact Logic.I]. specialize (U3 eq_refl). destruct (negb _); cbn [wp]; [|exact Logic.I]. split; [|lia]. split; [exact U1|]. split; [lia|]. exists B4. now apply PINV_of.
Qed.
End Fm3.
