(** Proofs about partitioning with overlap: methods and strategies. *)
From Verif Require Import Base Mem M_Graph M_Vgraph M_VgraphSt M_Induce M_Wgraph S_Graph S_Induce S_Vgraph S_VgraphSt S_KgraphMap S_Wgraph
  P_Graph P_Vgraph P_VgraphSt P_KgraphMap P_KgraphMap2 P_Gain P_Wgraph P_WgraphRb P_WgraphRb2.

Lemma wsame_refl g : wsame g g.
Proof. constructor; reflexivity. Qed.
Lemma wsame_trans g h k : wsame g h -> wsame h k -> wsame g k.
Proof. intros [A1 A2 A3 A4 A5 A6] [B1 B2 B3 B4 B5 B6]. constructor; congruence. Qed.
Lemma wsame_state g h : wsame g h -> wstate g -> wstate h.
Proof. intros [A1 A2 A3 A4 A5 A6] [V B Vn N [R L1 L2 L3 L4]]. constructor; rewrite ?A1, ?A2; auto. constructor; rewrite ?A1, ?A2, ?A3, ?A4, ?A5, ?A6; auto. Qed.

(** From the frontier as a list *)
Lemma fron_of_list g L : wfronnbr g = zlen L -> wfronnbr g <= vertnbr (ws g) -> wfronnbr g <= zlen (wfron g) -> firstn (Z.to_nat (wfronnbr g)) (wfron g) = L -> NoDup L ->
  (forall w, isvert (ws g) w -> In w L <-> wpt g w = -1) -> (forall w, In w L -> isvert (ws g) w) -> wfron_exact g.
Proof.
  intros EN LV LF EL ND HL HV. pose proof (zlen_nonneg L). assert (AT : forall i, 0 <= i < wfronnbr g -> wfr g i = at_ 0 L i) by (intros i Hi; rewrite <- EL; unfold wfr; symmetry; apply at_firstn; lia).
  split; [lia|]. split; [|split].
  - intros i Hi. rewrite AT by exact Hi. assert (Hin : In (at_ 0 L i) L) by (apply at_In; lia). split; [now apply HV|]. apply HL; [now apply HV|exact Hin].
  - intros i j Hi Hj E. rewrite !AT in E by assumption. unfold at_ in E. rewrite !Z.sub_0_r in E. assert (Z.to_nat i = Z.to_nat j); [|lia]. eapply (proj1 (NoDup_nth L dflt)); eauto; unfold zlen in *; lia.
  - intros v Hv E. apply HL in E; [|exact Hv]. apply (In_at 0) in E. destruct E as (i & Hi & E). exists i. split; [lia|]. rewrite AT by lia. exact E.
Qed.

Lemma Rb_spec jk al sep sched tot g : 1 <= al <= 2 -> vgood tot sep -> wstate g ->
  wpu (~ pow2 (wnbr g)) (wgraphPartRb jk al sep sched g) (fun '(rc, h) => wsame g h /\ (rc = 0 -> wgood h) /\ (tot = true -> rc = 0)).
Proof.
  intros AL SG [V B0 Vn N1 [R LP LF LL LS]]. unfold wgraphPartRb. pose proof (gv_nnd _ V) as Nn. pose proof (gv_size _ V) as Zn. destruct (Z.leb_spec (wnbr g) 1) as [Hn|Hn].
  { destruct (wp_ok_inv _ _ (wgraphZero_spec g V B0 N1 ltac:(constructor; assumption))) as (h & -> & Sm & Gh & _). left. exists (0, h). cbn [bind]. auto. }
  set (org := ws g) in *. assert (S : subg org org) by (apply subg_refl; auto).
  assert (OR : forall v, orig org v = v) by (intros v; unfold orig; now rewrite Vn).
  assert (RA : forall w, resp org [] 0 None 1 w <-> isvert org w).
  { intros w. unfold resp, rsep, job. split; [intros [[? _]|(v & Hv & _ & <-)]; [lia|now rewrite OR] | intros Hw; right; exists w; split; [exact Hw|]; split; [exact Logic.I|apply OR]]. }
  apply wpu_bind. eapply wpu_mono; [eapply (Rb2_spec jk al sep sched tot org AL SG V _ (~ pow2 (wnbr g)))|auto|]; auto; try lia.
  - split; [split; [cbn; lia|]; split; intros; lia|]. split; [reflexivity|discriminate].
  - split; [exact LP|]. split; [exact LF|]. split; [pose proof (zlen_nonneg (wfron g)); lia|]. split; [constructor|]. intros w [].
  - intros [rc [[pt fl] k]] [(L & [H1 H2 H3 [H4 H4'] H5 H6 H7 H8 H9 H10 H11]) Ht]. cbn [fst snd] in *. rewrite Z.add_0_l in *. cbn [Z.to_nat firstn app] in H5.
    destruct (Z.eqb_spec rc 0) as [->|Hne]; cbn [negb].
    2: { left. eexists (1, _). split; [reflexivity|]. split; [constructor; cbn [ws wnbr wpart wfron wcload wcsize]; auto|]. split; [discriminate|]. intros T. exfalso. auto. }
    set (g' := mkwgraph org (wnbr g) pt fl k (wfronload g) (wcload g) (wcsize g)).
    assert (PT : forall w, isvert org w -> (In w L /\ wpt g' w = -1) \/ (~ In w L /\ 0 <= wpt g' w < wnbr g)) by (intros w Hw; apply H9; [reflexivity|now apply RA]).
    assert (RG : forall v, isvert (ws g') v -> -1 <= wpt g' v < wnbr g') by (intros v Hv; cbn [g' ws wnbr] in *; fold g'; destruct (PT v Hv) as [[_ E]|[_ E]]; lia).
    destruct (wp_ok_inv _ _ (Cost_spec g' V R B0 ltac:(cbn [g' wnbr]; lia) ltac:(cbn [g' ws wpart]; fold org; lia) RG jk LL LS)) as (h & -> & Sm & E1 & E2 & E3 & C). cbn [bind].
    left. exists (0, h). split; [reflexivity|]. destruct Sm as [M1 M2 M3 M4 M5 M6]. cbn [g' ws wnbr wpart wfron wcload wcsize] in M1, M2, M3, M4, M5, M6.
    split; [constructor; try exact M1; congruence|]. split; [|auto]. intros _.
    assert (PE : forall w, wpt h w = wpt g' w) by (intros w; unfold wpt; rewrite M1, E1; reflexivity).
    constructor; [| |exact C].
    + constructor; rewrite ?M1, ?M2.
      * intros v Hv. rewrite PE. now apply RG.
      * intros v e A. rewrite !PE. pose proof (gv_end _ V v e A) as Hw. destruct (H11 eq_refl v (edge org e)) as [E|[E|E]]; auto; try (apply RA; auto; apply A). exists e. auto.
    + apply (fron_of_list h L); rewrite ?M1, ?E2, ?E3; cbn [g' wfron wfronnbr]; auto; try lia.
      * rewrite H4. assert (Inc : incl L (zseq (baseval org) (vertnbr org))) by (intros w Hw; apply In_zseq; apply H7, RA in Hw; unfold isvert in Hw; lia).
        pose proof (NoDup_incl_length H6 Inc). assert (zlen L <= zlen (zseq (baseval org) (vertnbr org))) by (unfold zlen; lia). rewrite zlen_zseq in H0 by lia. lia.
      * intros w Hw. rewrite PE. destruct (PT w Hw) as [[I E]|[I E]]; split; auto; [contradiction|lia].
      * intros w Hw. now apply RA, H7.
Qed.

Lemma Rb_init jk al sep sched tot n : 1 <= al <= 2 -> vgood tot sep -> pow2 n -> wminit tot n (wgraphPartRb jk al sep sched).
Proof. intros AL SG P g S <-. destruct (Rb_spec jk al sep sched tot g AL SG S) as [([rc h] & E & A & B & C)|[_ N]]; [exists rc, h; auto|contradiction]. Qed.

Lemma Zr_good tot n : wmgood tot n wgraphPartZr.
Proof.
  intros g [V B0 Vn N1 R] _ G. unfold wgraphPartZr. pose proof (wr_size _ R). rewrite rd_ok by lia. cbn [bind]. destruct (negb _).
  - destruct (wp_ok_inv _ _ (wgraphZero_spec g V B0 N1 R)) as (h & -> & Sm & Gh & _). exists 0, h. auto.
  - exists 0, g. split; [reflexivity|]. split; [apply wsame_refl|]. auto.
Qed.

Lemma near_ext s pt pt' v p : (forall e, vert s v <= e < vend s v -> pt (edge s e) = pt' (edge s e)) -> near s pt v p = near s pt' v p.
Proof.
  intros H. unfold near. assert (X : forall l, (forall e, In e l -> pt (edge s e) = pt' (edge s e)) -> existsb (fun e => pt (edge s e) =? p) l = existsb (fun e => pt' (edge s e) =? p) l).
  { clear H. induction l as [|a l IHl]; intros Hl; [reflexivity|]. cbn [existsb]. rewrite IHl by (intros e He; apply Hl; now right). rewrite Hl by now left. reflexivity. }
  apply X. intros e He. apply In_zseq in He. apply H. lia.
Qed.
Lemma wequiv_good g h : graph_valid (ws g) -> wequiv g h -> wgood g -> wgood h.
Proof.
  intros V [[M1 M2 M3 M4 M5 M6] Qp Qn Qf Ql Qc Qs] [[O1 O2] (F1 & F2 & F3 & F4) [C1 C2 C3]].
  assert (IP : forall v p, isvert (ws g) v -> inpart (ws g) (wpt h) v p = inpart (ws g) (wpt g) v p).
  { intros v p Hv. unfold inpart. rewrite Qp by exact Hv. do 2 f_equal. apply near_ext. intros e He. apply Qp. apply (gv_end _ V v). split; auto. }
  constructor.
  - constructor; rewrite ?M1, ?M2.
    + intros v Hv. rewrite Qp by exact Hv. auto.
    + intros v e A. rewrite !Qp; auto; [now apply (gv_end _ V v)|apply A].
  - unfold wfron_exact. rewrite Qn, M1. split; [exact F1|]. split; [|split].
    + intros i Hi. rewrite Qf by exact Hi. destruct (F2 i Hi) as [A E]. split; [exact A|]. rewrite Qp by exact A. exact E.
    + intros i j Hi Hj E. rewrite !Qf in E by assumption. auto.
    + intros v Hv E. rewrite Qp in E by exact Hv. destruct (F4 v Hv E) as (i & Hi & Ei). exists i. split; [exact Hi|]. now rewrite Qf.
  - constructor; rewrite ?M1, ?M2.
    + intros p Hp. rewrite Qc, C1 by exact Hp. unfold oload. apply zsum_ext. intros v Hv. now rewrite IP.
    + intros p Hp. rewrite Qs, C2 by exact Hp. unfold osize, zcount. apply zsum_ext. intros v Hv. now rewrite IP.
    + rewrite Ql, C3. apply zsum_ext. intros v Hv. now rewrite Qp.
Qed.

Lemma takeb_ok n l : 0 <= n <= zlen l -> takeb n l = Ok (firstn (Z.to_nat n) l).
Proof. intros H. unfold takeb. now replace ((0 <=? n) && (n <=? zlen l)) with true by lia. Qed.
Lemma overb_ok l (x : list Z) : zlen x <= zlen l -> exists r, overb l x = Ok r /\ zlen r = zlen l /\ forall b i, b <= i < b + zlen x -> at_ b r i = at_ b x i.
Proof.
  intros H. unfold overb. destruct (Z.leb_spec (zlen x) (zlen l)); [|lia]. eexists. split; [reflexivity|]. split.
  - rewrite zlen_app. unfold zlen in *. rewrite skipn_length. lia.
  - intros b i Hi. unfold at_. rewrite app_nth1; [reflexivity|]. unfold zlen in Hi. lia.
Qed.
Lemma store_save g : wstate g -> 0 <= wfronnbr g <= vertnbr (ws g) -> exists t, wgraphStoreSave g = Ok t /\ wst_fronload t = wfronload g /\
  forall h, wsame g h -> exists h', wgraphStoreUpdt h t = Ok h' /\ wequiv g h'.
Proof.
  intros [V B0 Vn N1 [R LP LF LL LS]] HF. unfold wgraphStoreSave. pose proof (gv_nnd _ V) as Nn. replace ((wfronnbr g <? 0) || (vertnbr (ws g) <? wfronnbr g)) with false by lia.
  rewrite !takeb_ok by lia. cbn [bind]. eexists. split; [reflexivity|]. split; [reflexivity|]. intros h [M1 M2 M3 M4 M5 M6]. unfold wgraphStoreUpdt. cbn [wst_cload wst_csize wst_fron wst_part wst_nbr wst_fronnbr wst_fronload].
  destruct (overb_ok (wcload h) (firstn (Z.to_nat (wnbr g)) (wcload g))) as (cl & -> & Lc & Ac); [rewrite zlen_firstn; lia|]. cbn [bind].
  destruct (overb_ok (wcsize h) (firstn (Z.to_nat (wnbr g)) (wcsize g))) as (cs & -> & Ls & As); [rewrite zlen_firstn; lia|]. cbn [bind].
  destruct (overb_ok (wfron h) (firstn (Z.to_nat (wfronnbr g)) (wfron g))) as (fr & -> & Lf & Af); [rewrite zlen_firstn; lia|]. cbn [bind].
  destruct (overb_ok (wpart h) (firstn (Z.to_nat (vertnbr (ws g))) (wpart g))) as (pt & -> & Lp & Ap); [rewrite zlen_firstn; pose proof (gv_size _ V); lia|]. cbn [bind].
  eexists. split; [reflexivity|]. pose proof (gv_size _ V) as Zn. rewrite zlen_firstn in Ac, As, Af, Ap by lia. constructor; cbn [ws wnbr wpart wfron wfronnbr wfronload wcload wcsize]; auto.
  - constructor; cbn [ws wnbr wpart wfron wcload wcsize]; auto; lia.
  - intros v Hv. unfold wpt. cbn [ws wpart]. rewrite M1. unfold isvert in Hv. rewrite Ap by lia. apply at_firstn. lia.
  - intros i Hi. unfold wfr. cbn [wfron]. rewrite Af by lia. apply at_firstn. lia.
  - intros p Hp. rewrite Ac by lia. apply at_firstn. lia.
  - intros p Hp. rewrite As by lia. apply at_firstn. lia.
Qed.

Lemma St_good : forall s tot g, wsgood tot (wnbr g) s -> wstate g -> wgood g -> wout tot g (wgraphPartSt s g).
Proof.
  fix IH 1. intros [s1 s2|test s els| |s1 s2|m] tot g Hs St G; cbn [wgraphPartSt wsgood] in *.
  - destruct Hs as [H1 H2]. destruct (IH s1 tot g H1 St G) as (rc & h & -> & Sm & Gd & T). cbn [bind]. destruct (Z.eqb_spec rc 0) as [->|Hne].
    + destruct (IH s2 tot h ltac:(rewrite (wm_nbr _ _ Sm); exact H2) (wsame_state _ _ Sm St) (Gd eq_refl)) as (rc' & h' & -> & Sm' & Gd' & T'). exists rc', h'. split; [reflexivity|]. split; [eapply wsame_trans; eauto|]. auto.
    + exists rc, h. auto.
  - destruct Hs as (Ht & H1 & H2). destruct (test g) as [[|]|] eqn:Et.
    + now apply IH.
    + destruct els as [s'|]; [now apply IH|]. exists 0, g. split; [reflexivity|]. split; [apply wsame_refl|]. auto.
    + exists 1, g. split; [reflexivity|]. split; [apply wsame_refl|]. split; [discriminate|]. intros T. destruct (Ht T g Et).
  - exists 0, g. split; [reflexivity|]. split; [apply wsame_refl|]. auto.
  - destruct Hs as [H1 H2]. destruct (store_save g St) as (t1 & -> & _ & U1); [apply G|]. cbn [bind].
    destruct (IH s1 true g H1 St G) as (rc & h & -> & Sm & Gd & T). rewrite (T eq_refl) in *. specialize (Gd eq_refl). cbn [bind].
    pose proof (wsame_state _ _ Sm St) as Sth. destruct (store_save h Sth) as (t0 & -> & El & U0); [apply Gd|]. cbn [bind].
    destruct (U1 h Sm) as (g1 & -> & Q1). cbn [bind]. pose proof (wequiv_good _ _ (wt_valid _ St) Q1 G) as G1. pose proof (wsame_state _ _ (wq_same _ _ Q1) St) as St1.
    destruct (IH s2 true g1 ltac:(rewrite (wm_nbr _ _ (wq_same _ _ Q1)); exact H2) St1 G1) as (rc2 & h2 & -> & Sm2 & Gd2 & T2). rewrite (T2 eq_refl) in *. specialize (Gd2 eq_refl). cbn [bind].
    assert (Sg2 : wsame g h2) by (eapply wsame_trans; [exact (wq_same _ _ Q1)|exact Sm2]). destruct (_ && _).
    + assert (Sh2 : wsame h h2) by (destruct Sm as [A1 A2 A3 A4 A5 A6], Sg2 as [B1 B2 B3 B4 B5 B6]; constructor; congruence).
      destruct (U0 h2 Sh2) as (h3 & -> & Q3). exists 0, h3. cbn [bind]. split; [reflexivity|]. split; [eapply wsame_trans; [exact Sm|exact (wq_same _ _ Q3)]|]. split; [|auto]. intros _. eapply wequiv_good; eauto. exact (wt_valid _ Sth).
    + exists 0, h2. cbn [bind]. auto.
  - now apply Hs.
Qed.

Lemma St_init : forall s tot g, wsinit tot (wnbr g) s -> wstate g -> wout tot g (wgraphPartSt s g).
Proof.
  fix IH 1. intros [s1 s2|test s els| |s1 s2|m] tot g Hs St; cbn [wgraphPartSt wsinit] in *; try contradiction.
  - destruct Hs as [H1 H2]. destruct (IH s1 tot g H1 St) as (rc & h & -> & Sm & Gd & T). cbn [bind]. destruct (Z.eqb_spec rc 0) as [->|Hne].
    + destruct (St_good s2 tot h ltac:(rewrite (wm_nbr _ _ Sm); exact H2) (wsame_state _ _ Sm St) (Gd eq_refl)) as (rc' & h' & -> & Sm' & Gd' & T'). exists rc', h'. split; [reflexivity|]. split; [eapply wsame_trans; eauto|]. auto.
    + exists rc, h. auto.
  - destruct Hs as (Ht & H1 & H2). destruct (test g) as [[|]|] eqn:Et.
    + now apply IH.
    + destruct els as [s'|]; [now apply IH|contradiction].
    + exists 1, g. split; [reflexivity|]. split; [apply wsame_refl|]. split; [discriminate|]. intros T. destruct (Ht T g Et).
  - now apply Hs.
Qed.

(** A selection keeps the partition of least frontier load *)
Lemma Select_best s1 s2 g : wsgood true (wnbr g) s1 -> wsgood true (wnbr g) s2 -> wstate g -> wgood g ->
  exists h1 g1 h2 h, wgraphPartSt s1 g = Ok (0, h1) /\ wequiv g g1 /\ wgraphPartSt s2 g1 = Ok (0, h2) /\ wgraphPartSt (WSelect s1 s2) g = Ok (0, h) /\
    ((wfronload h1 < wfronload h2 /\ wequiv h1 h) \/ (wfronload h2 <= wfronload h1 /\ h = h2)).
Proof.
  intros H1 H2 St G. cbn [wgraphPartSt]. destruct (store_save g St) as (t1 & -> & _ & U1); [apply G|]. cbn [bind].
  destruct (St_good s1 true g H1 St G) as (rc & h & E1 & Sm & Gd & T). rewrite (T eq_refl) in *. specialize (Gd eq_refl). rewrite E1. cbn [bind].
  pose proof (wsame_state _ _ Sm St) as Sth. destruct (store_save h Sth) as (t0 & -> & El & U0); [apply Gd|]. cbn [bind].
  destruct (U1 h Sm) as (g1 & -> & Q1). cbn [bind]. pose proof (wequiv_good _ _ (wt_valid _ St) Q1 G) as G1. pose proof (wsame_state _ _ (wq_same _ _ Q1) St) as St1.
  destruct (St_good s2 true g1 ltac:(rewrite (wm_nbr _ _ (wq_same _ _ Q1)); exact H2) St1 G1) as (rc2 & h2 & E2 & Sm2 & Gd2 & T2). rewrite (T2 eq_refl) in *. rewrite E2. cbn [bind]. change (0 =? 0) with true. cbn [orb andb].
  assert (Sg2 : wsame g h2) by (eapply wsame_trans; [exact (wq_same _ _ Q1)|exact Sm2]). rewrite El. destruct (Z.ltb_spec (wfronload h) (wfronload h2)) as [Hl|Hl].
  - assert (Sh2 : wsame h h2) by (destruct Sm as [A1 A2 A3 A4 A5 A6], Sg2 as [B1 B2 B3 B4 B5 B6]; constructor; congruence).
    destruct (U0 h2 Sh2) as (h3 & -> & Q3). cbn [bind]. exists h, g1, h2, h3. auto 10.
  - cbn [bind]. exists h, g1, h2, h2. do 4 (split; [auto|]). auto.
Qed.

Lemma Ovl_state jk s n pt : graph_valid s -> graph_readable s -> 0 <= baseval s -> vnumtab s = None -> 1 <= n -> vertnbr s <= zlen pt ->
  wstate (mkwgraph s n pt (repeat jk (Z.to_nat (vertnbr s))) jk jk (repeat jk (Z.to_nat n)) (repeat jk (Z.to_nat n))).
Proof.
  intros V R B Vn N L. pose proof (gv_size _ V). constructor; auto. constructor; cbn [ws wnbr wpart wfron wcload wcsize]; auto; unfold zlen; rewrite repeat_length; lia.
Qed.
Lemma Ovl_ok jk s n st pt tot : graph_valid s -> graph_readable s -> 0 <= baseval s -> vnumtab s = None -> 1 <= n -> vertnbr s <= zlen pt -> wsinit tot n st ->
  exists rc pt', SCOTCH_graphPartOvl jk s n st pt = Ok (rc, pt') /\ zlen pt' = zlen pt /\ (rc = 0 -> ovl s n (at_ (baseval s) pt')) /\ (tot = true -> rc = 0).
Proof.
  intros V R B Vn N L I. pose proof (Ovl_state jk s n pt V R B Vn N L) as St. destruct (St_init st tot (mkwgraph s n pt (repeat jk (Z.to_nat (vertnbr s))) jk jk (repeat jk (Z.to_nat n)) (repeat jk (Z.to_nat n))) I St) as (rc & h & E & Sm & G & T).
  unfold SCOTCH_graphPartOvl. rewrite E. cbn [bind]. exists rc, (wpart h). split; [reflexivity|]. split; [apply (wm_part _ _ Sm)|]. split; [|exact T]. intros E0.
  pose proof (wo_ovl _ (G E0)) as O. rewrite (wm_graph _ _ Sm), (wm_nbr _ _ Sm) in O. cbn [ws wnbr] in O. unfold wpt in O. rewrite (wm_graph _ _ Sm) in O. exact O.
Qed.
Lemma Ovl_rb jk al sep sched tot s n pt : 1 <= al <= 2 -> vgood tot sep -> graph_valid s -> graph_readable s -> 0 <= baseval s -> vnumtab s = None -> 1 <= n -> vertnbr s <= zlen pt ->
  (exists rc pt', SCOTCH_graphPartOvl jk s n (WMeth (wgraphPartRb jk al sep sched)) pt = Ok (rc, pt') /\ zlen pt' = zlen pt /\ (rc = 0 -> ovl s n (at_ (baseval s) pt')) /\ (tot = true -> rc = 0)) \/
  (SCOTCH_graphPartOvl jk s n (WMeth (wgraphPartRb jk al sep sched)) pt = UB /\ ~ pow2 n).
Proof.
  intros AL SG V R B Vn N L. pose proof (Ovl_state jk s n pt V R B Vn N L) as St. unfold SCOTCH_graphPartOvl. cbn [wgraphPartSt].
  destruct (Rb_spec jk al sep sched tot _ AL SG St) as [([rc h] & E & Sm & G & T)|[E P]]; rewrite E; cbn [bind]; [left|right; auto].
  exists rc, (wpart h). split; [reflexivity|]. split; [apply (wm_part _ _ Sm)|]. split; [|exact T]. intros E0.
  pose proof (wo_ovl _ (G E0)) as O. rewrite (wm_graph _ _ Sm), (wm_nbr _ _ Sm) in O. cbn [ws wnbr] in O. unfold wpt in O. rewrite (wm_graph _ _ Sm) in O. exact O.
Qed.
