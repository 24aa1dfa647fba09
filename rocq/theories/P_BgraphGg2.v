(** Proofs about bipartitioning by greedy graph growing: the frontier, and the method. *)
From Verif Require Import Base Mem M_Graph M_Bgraph M_Vgraph M_BgraphSt M_VgraphGg M_BgraphGg S_Graph S_Bgraph S_BgraphSt S_Color S_VgraphGg S_BgraphGg P_Graph P_Vgraph P_Bgraph P_Bgraph2 P_BgraphSt P_VgraphGp P_BgraphGp P_VgraphGg P_BgraphGg.

Section Front.
Variable s : graph.
Hypothesis R : graph_readable s.
Hypothesis V : graph_valid s.
Variable vx : option (list Z).
Hypothesis Zvx : forall t, vx = Some t -> vertnbr s <= zlen t.
Notation b := (baseval s).
Notation n := (vertnbr s).
Notation nnd := (vertnnd s).
Notation S_ st v := (at_ b st v).
Notation F fr j := (at_ 0 fr j).
Variables (pt0 fr0 : list Z).
Hypothesis Zpt : n <= zlen pt0.
Hypothesis Zfr : n <= zlen fr0.
Hypothesis Val : forall u, isvert s u -> 0 <= S_ pt0 u <= 2.
Hypothesis Adj : forall u w, adjacent s u w -> S_ pt0 u = 1 -> S_ pt0 w <> 0.
Definition PP (v : Z) : Z := if S_ pt0 v =? 1 then 1 else 0.
Definition hfo (v : Z) : Prop := exists e, arc s v e /\ PP (edge s e) <> PP v.

Lemma PP01 v : PP v = 0 \/ PP v = 1.
Proof. unfold PP. destruct (_ =? 1); auto. Qed.

Record HI (m : Z) (fr fl : list Z) (k : Z) : Prop := {
  q_len : zlen fr = zlen fr0;
  q_fl : zlen fl = n;
  q_k : 0 <= k;
  q_in : forall j, 0 <= j < k -> isvert s (F fr j) /\ hfo (F fr j) /\ (PP (F fr j) = 0 -> F fr j < m) /\ (PP (F fr j) = 1 -> S_ fl (F fr j) = 0);
  q_inj : forall j j', 0 <= j < k -> 0 <= j' < k -> F fr j = F fr j' -> j = j';
  q_0 : forall u, b <= u < m -> PP u = 0 -> hfo u -> exists j, 0 <= j < k /\ F fr j = u;
  q_m : forall w, isvert s w -> S_ fl w = 0 -> exists j, 0 <= j < k /\ F fr j = w }.

Lemma hi_bound m fr fl k w : HI m fr fl k -> isvert s w -> (forall j, 0 <= j < k -> F fr j <> w) -> k < n.
Proof.
  intros [_ _ Hk I1 I2 _ _] Hw Hn. pose proof (gv_nnd _ V) as Nn. pose proof (gv_size _ V) as Ns.
  assert (k + 1 <= nnd - b); [|lia]. apply (inj_count _ b nnd (fun j => if j =? k then w else F fr j)); try lia.
  - intros j Hj. destruct (Z.eqb_spec j k); [exact Hw|]. apply (I1 j). lia.
  - intros j j' Hj Hj'. destruct (Z.eqb_spec j k), (Z.eqb_spec j' k); intros E; first [lia | exfalso; symmetry in E; revert E; apply Hn; lia | exfalso; revert E; apply Hn; lia | apply I2; auto; lia].
Qed.
Lemma hi_add m m' fr fl fl' k w : HI m fr fl k -> isvert s w -> hfo w -> (forall j, 0 <= j < k -> F fr j <> w) -> m <= m' -> zlen fl' = n ->
  (forall u, isvert s u -> S_ fl u = 0 -> S_ fl' u = 0) -> (PP w = 0 -> w < m') -> (PP w = 1 -> S_ fl' w = 0) ->
  (forall u, m <= u < m' -> u = w) -> (forall u, isvert s u -> S_ fl' u = 0 -> u = w \/ S_ fl u = 0) -> HI m' (upd 0 fr k w) fl' (k + 1).
Proof.
  intros I Hw Fw Hn Hm Z1 Hf H0 H1 Hmm Hf'. pose proof (hi_bound m fr fl k w I Hw Hn) as Hb. destruct I as [I1 I2 I3 I4 I5 I6 I7].
  assert (A : forall j, 0 <= j -> F (upd 0 fr k w) j = if k =? j then w else F fr j) by (intros j Hj; rewrite at_upd by lia; reflexivity).
  assert (Old : forall u, (exists j, 0 <= j < k /\ F fr j = u) -> exists j, 0 <= j < k + 1 /\ F (upd 0 fr k w) j = u).
  { intros u (j & Hj & E). exists j. split; [lia|]. rewrite A by lia. destruct (Z.eqb_spec k j); [lia | exact E]. }
  assert (New : exists j, 0 <= j < k + 1 /\ F (upd 0 fr k w) j = w) by (exists k; split; [lia | now rewrite A, Z.eqb_refl by lia]).
  constructor.
  - now rewrite zlen_upd.
  - exact Z1.
  - lia.
  - intros j Hj. rewrite A by lia. destruct (Z.eqb_spec k j); [auto|]. destruct (I4 j ltac:(lia)) as (X1 & X2 & X3 & X4). split; [exact X1|]. split; [exact X2|]. split; intros X; [specialize (X3 X); lia | auto].
  - intros j j' Hj Hj'. rewrite !A by lia. destruct (Z.eqb_spec k j), (Z.eqb_spec k j'); intros E; first [lia | exfalso; symmetry in E; revert E; apply Hn; lia | exfalso; revert E; apply Hn; lia | apply I5; auto; lia].
  - intros u Hu Pu Fu. destruct (Z_lt_le_dec u m) as [Hl|Hl]; [apply Old, I6; auto; lia|]. rewrite (Hmm u ltac:(lia)). exact New.
  - intros u Hu Eu. destruct (Hf' u Hu Eu) as [->|X]; [exact New | apply Old, I7; auto].
Qed.

Definition marked (m : Z) (fl : list Z) : Prop := forall u w, b <= u < m -> adjacent s u w -> PP u = 0 -> PP w = 1 -> S_ fl w = 0.
(** Arcs of a vertex of part 0 which has neighbours in part 1 *)
Lemma harcs v pt fr fl k : isvert s v -> PP v = 0 -> hfo v -> zlen pt = zlen pt0 -> (forall u, isvert s u -> (S_ pt u =? 1) = (PP u =? 1)) ->
  HI (v + 1) fr fl k -> marked v fl ->
  exists fr' k' fl', for_ (vert s v) (vend s v) (hgFrontArc s pt) (fr, k, fl, 1) = Ok (fr', k', fl', 0) /\ HI (v + 1) fr' fl' k' /\ marked (v + 1) fl'.
Proof.
  intros Hv Pv Fv Zp EP I M. pose proof (gv_nnd _ V) as Nn. pose proof (gv_range _ V v Hv) as Hr.
  match goal with |- context [for_ ?lo ?hi ?f ?i] => destruct (wp_ok_inv (for_ lo hi f i) (fun '(fr', k', fl', tmp) => HI (v + 1) fr' fl' k' /\ marked v fl' /\
    (forall e', vert s v <= e' < vend s v -> PP (edge s e') = 1 -> S_ fl' (edge s e') = 0) /\ (tmp = 1 -> forall e', vert s v <= e' < vend s v -> PP (edge s e') <> 1) /\ (tmp = 0 \/ tmp = 1))) as ((((fr' & k') & fl') & tmp) & E & Q1 & Q2 & Q3 & Q4 & Q5) end.
  - apply wp_for with (I := fun e '(fr', k', fl', tmp) => HI (v + 1) fr' fl' k' /\ marked v fl' /\
    (forall e', vert s v <= e' < e -> PP (edge s e') = 1 -> S_ fl' (edge s e') = 0) /\ (tmp = 1 -> forall e', vert s v <= e' < e -> PP (edge s e') <> 1) /\ (tmp = 0 \/ tmp = 1)); [lia| | |].
    + split; [exact I|]. split; [exact M|]. split; [intros; lia|]. split; [intros; lia | now right].
    + clear fr fl k I M. intros e [[[fr k] fl] tmp] He (I & M & M2 & T1 & T2). pose proof (q_len _ _ _ _ I) as Zl. pose proof (q_k _ _ _ _ I) as Hk. pose proof (q_fl _ _ _ _ I) as Zf.
      assert (Ha : arc s v e) by (split; auto). unfold hgFrontArc. rewrite (redge_ok s v e R Ha). cbn [bind]. pose proof (gv_end _ V v e Ha) as Vw. set (w := edge s e) in *. pose proof Vw as Vw'. unfold isvert in Vw'.
      rewrite rd_ok by lia. cbn [bind]. rewrite EP by exact Vw. destruct (Z.eqb_spec (PP w) 1) as [Pw|Pw].
      * rewrite rd_ok by lia. cbn [bind]. destruct (Z.eqb_spec (S_ fl w) 0) as [Dw|Dw]; cbn [negb].
        -- cbn [wp]. split; [exact I|]. split; [exact M|]. split; [|split; [discriminate | auto]]. intros e' He' Pe. destruct (Z.eq_dec e' e) as [->|]; [exact Dw | apply M2; [lia | exact Pe]].
        -- assert (Nw : forall j, 0 <= j < k -> F fr j <> w).
           { intros j Hj E. destruct (q_in _ _ _ _ I j Hj) as (_ & _ & _ & X). rewrite E in X. now apply X in Pw. }
           pose proof (hi_bound _ _ _ _ _ I Vw Nw) as Hb. rewrite wr_ok by lia. cbn [bind]. rewrite wr_ok by lia. cbn [bind wp].
           assert (DU : forall u, isvert s u -> S_ (upd b fl w 0) u = if w =? u then 0 else S_ fl u) by (intros u Hu; unfold isvert in Hu; rewrite at_upd by lia; reflexivity).
           assert (Fw : hfo w). { destruct (gv_sym _ V v e Ha) as (e' & Ha' & Ee & _). exists e'. split; [exact Ha'|]. fold w. rewrite Ee. lia. }
           split; [|split; [|split; [|split; [discriminate | auto]]]].
           ++ apply (hi_add (v + 1) (v + 1) fr fl (upd b fl w 0) k w); auto; try lia.
              ** rewrite zlen_upd. exact Zf.
              ** intros u Hu Du. rewrite DU by exact Hu. now destruct (w =? u).
              ** intros _. rewrite DU, Z.eqb_refl by exact Vw. reflexivity.
              ** intros u Hu. rewrite DU by exact Hu. destruct (Z.eqb_spec w u); auto.
           ++ intros u t Hu Au Pu Pt. rewrite DU by (apply (adj_vert s V _ _ Au)). destruct (w =? t); [reflexivity|]. exact (M u t Hu Au Pu Pt).
           ++ intros e' He' Pe. assert (Ve : isvert s (edge s e')) by (apply (gv_end _ V v); split; [exact Hv | lia]). rewrite DU by exact Ve. destruct (Z.eqb_spec w (edge s e')) as [|Hne]; [reflexivity|]. apply M2; [|exact Pe]. destruct (Z.eq_dec e' e) as [->|]; [contradiction | lia].
      * cbn [wp]. split; [exact I|]. split; [exact M|]. split; [|split; [|exact T2]].
        -- intros e' He' Pe. destruct (Z.eq_dec e' e) as [->|]; [contradiction | apply M2; [lia | exact Pe]].
        -- intros Ht e' He'. destruct (Z.eq_dec e' e) as [->|]; [exact Pw | apply T1; [exact Ht | lia]].
    + intros [[[fr' k'] fl'] tmp] H. exact H.
  - assert (tmp = 0) as ->. { destruct Q5 as [|Ht]; [assumption|]. destruct Fv as (e & (_ & He) & Hn). destruct (Q4 Ht e He). pose proof (PP01 (edge s e)). lia. }
    exists fr', k', fl'. split; [exact E|]. split; [exact Q1|]. intros u w Hu Au Pu Pw. destruct (Z.eq_dec u v) as [->|]; [|apply (Q2 u w); auto; lia]. destruct Au as (e & (_ & He) & <-). now apply Q3.
Qed.

Lemma hfront_ok ge0 : exists pt fr k fl sz1 ge, hgFront s vx pt0 fr0 ge0 = Ok (pt, fr, k, fl, sz1, ge) /\
  zlen pt = zlen pt0 /\ (forall u, isvert s u -> S_ pt u = PP u) /\ zlen fr = zlen fr0 /\ 0 <= k /\
  (forall j, 0 <= j < k -> isvert s (F fr j) /\ hfo (F fr j)) /\ (forall j j', 0 <= j < k -> 0 <= j' < k -> F fr j = F fr j' -> j = j') /\
  (forall v, isvert s v -> hfo v -> exists j, 0 <= j < k /\ F fr j = v) /\
  sz1 = zcount b nnd (fun u => PP u =? 1) /\ ge = ge0 - 2 * zsum b nnd (fun u => if PP u =? 1 then hvex s vx u else 0).
Proof.
  pose proof (gv_nnd _ V) as Nn. pose proof (gv_size _ V) as Ns. unfold hgFront. cbv zeta.
  assert (P1 : forall u, (PP u =? 1) = (S_ pt0 u =? 1)) by (intros u; unfold PP; destruct (S_ pt0 u =? 1); reflexivity).
  match goal with |- context [for_ ?lo ?hi ?f ?i] => destruct (wp_ok_inv (for_ lo hi f i) (fun '(pt, fr, k, fl, sz1, ge) => zlen pt = zlen pt0 /\ (forall u, isvert s u -> S_ pt u = PP u) /\ HI nnd fr fl k /\ marked nnd fl /\
     sz1 = zcount b nnd (fun u => PP u =? 1) /\ ge = ge0 - 2 * zsum b nnd (fun u => if PP u =? 1 then hvex s vx u else 0))) as ((((((pt & fr) & k) & fl) & sz1) & ge) & E & Q1 & Q2 & Q3 & Q4 & Q5 & Q6) end.
  - apply wp_for with (I := fun v '(pt, fr, k, fl, sz1, ge) => zlen pt = zlen pt0 /\ (forall u, isvert s u -> S_ pt u = if u <? v then PP u else S_ pt0 u) /\ HI v fr fl k /\ marked v fl /\
     sz1 = zcount b v (fun u => PP u =? 1) /\ ge = ge0 - 2 * zsum b v (fun u => if PP u =? 1 then hvex s vx u else 0)); [lia| | |].
    + assert (FL : forall u, isvert s u -> S_ (repeat 255 (Z.to_nat n)) u = 255) by (intros u Hu; unfold isvert in Hu; apply at_repeat; lia).
      split; [reflexivity|]. split; [intros u Hu; unfold isvert in Hu; destruct (Z.ltb_spec u b); [lia | reflexivity]|]. split; [|split; [|split]].
      * constructor; [reflexivity | rewrite zlen_repeat; lia | lia | intros; lia | intros; lia | intros; lia |]. intros w Hw E. rewrite FL in E by auto. lia.
      * intros u w Hu. lia.
      * rewrite zcount_nil by lia. reflexivity.
      * rewrite zsum_nil by lia. lia.
    + intros v [[[[[pt fr] k] fl] sz1] ge] Hv (I1 & I2 & I3 & I4 & I5 & I6). assert (Hv2 : isvert s v) by exact Hv.
      rewrite rd_ok by lia. cbn [bind]. rewrite (I2 v Hv2). destruct (Z.ltb_spec v v) as [|_]; [lia|]. pose proof (Val v Hv2) as Vv.
      assert (SZ : zcount b (v + 1) (fun u => PP u =? 1) = zcount b v (fun u => PP u =? 1) + PP v) by (rewrite zcount_snoc by lia; destruct (PP01 v) as [-> | ->]; reflexivity).
      assert (LA : Z.land (S_ pt0 v) 1 = PP v).
      { unfold PP. assert (S_ pt0 v = 0 \/ S_ pt0 v = 1 \/ S_ pt0 v = 2) as [-> | [-> | ->]] by lia; reflexivity. }
      assert (TAIL : forall pt' fr' k' fl', zlen pt' = zlen pt0 -> (forall u, isvert s u -> S_ pt' u = if u <? v + 1 then PP u else S_ pt0 u) -> HI (v + 1) fr' fl' k' -> marked (v + 1) fl' ->
        wp (let p := Z.land (S_ pt0 v) 1 in do ge <- match vx with None => Ok ge | Some t => do x <- rd b t v; Ok (ge - p * 2 * x) end; Ok (pt', fr', k', fl', sz1 + p, ge)) (fun '(pt, fr, k, fl, sz1, ge) => zlen pt = zlen pt0 /\ (forall u, isvert s u -> S_ pt u = if u <? v + 1 then PP u else S_ pt0 u) /\ HI (v + 1) fr fl k /\ marked (v + 1) fl /\
     sz1 = zcount b (v + 1) (fun u => PP u =? 1) /\ ge = ge0 - 2 * zsum b (v + 1) (fun u => if PP u =? 1 then hvex s vx u else 0)) (fun _ => False)).
      { intros pt' fr' k' fl' T1 T2 T3 T4. cbv zeta. rewrite LA.
        assert (EG : match vx with None => Ok ge | Some t => do x <- rd b t v; Ok (ge - PP v * 2 * x) end = Ok (ge - 2 * (if PP v =? 1 then hvex s vx v else 0))).
        { unfold hvex. destruct vx as [t|]; [|destruct (PP v =? 1); f_equal; lia]. rewrite rd_ok by (specialize (Zvx t eq_refl); lia). cbn [bind]. f_equal. destruct (PP01 v) as [-> | ->]; [change (0 =? 1) with false | change (1 =? 1) with true]; cbv iota; lia. }
        rewrite EG. cbn [bind wp]. split; [auto|]. split; [auto|]. split; [auto|]. split; [auto|]. split; [rewrite SZ; lia|]. rewrite zsum_snoc by lia. rewrite I6. lia. }
      assert (NOFO : PP v = 0 -> ~ hfo v -> HI (v + 1) fr fl k /\ marked (v + 1) fl).
      { intros Pv Nf. split.
        - destruct I3 as [J1 J2 J3 J4 J5 J6 J7]. constructor; auto.
          + intros j Hj. destruct (J4 j Hj) as (X1 & X2 & X3 & X4). split; [auto|]. split; [auto|]. split; [intros X; specialize (X3 X); lia | auto].
          + intros u Hu Pu Fu. destruct (Z.eq_dec u v) as [->|]; [contradiction | apply J6; auto; lia].
        - intros u w Hu Au Pu Pw. destruct (Z.eq_dec u v) as [->|]; [|apply (I4 u w); auto; lia]. exfalso. apply Nf. destruct Au as (e & Ha & <-). exists e. split; [exact Ha | lia]. }
      destruct (Z.ltb_spec 1 (S_ pt0 v)) as [H2|H2].
      * assert (Pv : PP v = 0) by (unfold PP; destruct (Z.eqb_spec (S_ pt0 v) 1); [lia | reflexivity]).
        assert (Nv : forall j, 0 <= j < k -> F fr j <> v).
        { intros j Hj E. destruct (q_in _ _ _ _ I3 j Hj) as (_ & _ & X & _). rewrite E in X. specialize (X Pv). lia. }
        pose proof (hi_bound _ _ _ _ _ I3 Hv2 Nv) as Hb. pose proof (q_len _ _ _ _ I3) as Zl. pose proof (q_k _ _ _ _ I3) as Hk. rewrite wr_ok by lia. cbn [bind]. rewrite wr_ok by lia. cbn [bind].
        rewrite (rvert_ok s v R V Hv2), (rvend_ok s v R V Hv2). cbn [bind]. set (pt' := upd b pt v 0).
        assert (A : forall u, isvert s u -> S_ pt' u = if u <? v + 1 then PP u else S_ pt0 u).
        { intros u Hu. unfold pt'. pose proof Hu as Hu'. unfold isvert in Hu'. rewrite at_upd by lia. destruct (Z.eqb_spec v u) as [<-|Hn].
          - destruct (Z.ltb_spec v (v + 1)); lia.
          - rewrite I2 by exact Hu. destruct (Z.ltb_spec u v), (Z.ltb_spec u (v + 1)); lia. }
        assert (Zp' : zlen pt' = zlen pt0) by (unfold pt'; now rewrite zlen_upd).
        assert (EP : forall u, isvert s u -> (S_ pt' u =? 1) = (PP u =? 1)) by (intros u Hu; rewrite A by exact Hu; destruct (u <? v + 1); [reflexivity | now rewrite P1]).
        pose proof (gv_range _ V v Hv2) as Hr.
        assert (DEC : hfo v \/ forall e, vert s v <= e < vend s v -> PP (edge s e) <> 1).
        { destruct (Z_le_gt_dec (zcount (vert s v) (vend s v) (fun e => PP (edge s e) =? 1)) 0) as [Hc|Hc].
          - right. intros e He X. pose proof (zcount_nonneg (vert s v) (vend s v) (fun e => PP (edge s e) =? 1)). assert (Y : zcount (vert s v) (vend s v) (fun e => PP (edge s e) =? 1) = 0) by lia.
            apply (proj1 (zcount_0 _ _ _) Y) in He. cbv beta in He. lia.
          - left. destruct (zsum_nz (vert s v) (vend s v) (fun e => b2z (PP (edge s e) =? 1))) as (e & He & X); [unfold zcount in Hc; lia|]. exists e. split; [split; auto|]. destruct (Z.eqb_spec (PP (edge s e)) 1); [lia | now destruct X]. }
        destruct DEC as [Fv|Nf].
        -- assert (IV : HI (v + 1) (upd 0 fr k v) fl (k + 1)).
           { apply (hi_add v (v + 1) fr fl fl k v); auto; try lia. apply (q_fl _ _ _ _ I3). }
           destruct (harcs v pt' (upd 0 fr k v) fl (k + 1) Hv2 Pv Fv Zp' EP IV I4) as (fr' & k' & fl' & -> & H1 & H3). cbn [bind]. rewrite Z.sub_0_r. exact (TAIL pt' fr' k' fl' Zp' A H1 H3).
        -- match goal with |- context [for_ ?lo ?hi ?f ?i] => assert (EF : for_ lo hi f i = Ok i) end.
           { match goal with |- for_ ?lo ?hi ?f ?i = _ => destruct (wp_ok_inv (for_ lo hi f i) (fun x => x = i)) as (x & -> & ->); [|reflexivity] end.
             apply wp_for with (I := fun _ x => x = (upd 0 fr k v, k + 1, fl, 1)); [lia | reflexivity | | auto]. intros e x He ->. unfold hgFrontArc. assert (Ha : arc s v e) by (split; auto). rewrite (redge_ok s v e R Ha). cbn [bind].
             pose proof (gv_end _ V v e Ha) as Vw. pose proof Vw as Vw'. unfold isvert in Vw'. rewrite rd_ok by lia. cbn [bind]. rewrite EP by exact Vw. destruct (Z.eqb_spec (PP (edge s e)) 1) as [X|]; [destruct (Nf e He X) | reflexivity]. }
           rewrite EF. cbn [bind]. replace (k + 1 - 1) with k by lia.
           destruct NOFO as (N1 & N2); auto. { intros (e & (_ & He) & Hne). apply (Nf e He). pose proof (PP01 (edge s e)). lia. }
           apply TAIL; auto. destruct N1 as [J1 J2 J3 J4 J5 J6 J7].
           assert (FE : forall j, 0 <= j < k -> F (upd 0 fr k v) j = F fr j) by (intros j Hj; rewrite at_upd by lia; destruct (Z.eqb_spec k j); [lia | reflexivity]).
           constructor; auto.
           ++ now rewrite zlen_upd.
           ++ intros j Hj. rewrite FE by lia. auto.
           ++ intros j j' Hj Hj'. rewrite !FE by lia. auto.
           ++ intros u Hu Pu Fu. destruct (J6 u Hu Pu Fu) as (j & Hj & Ej). exists j. rewrite FE by lia. auto.
           ++ intros w Hw Ew. destruct (J7 w Hw Ew) as (j & Hj & Ej). exists j. rewrite FE by lia. auto.
      * cbn [bind]. assert (A : forall u, isvert s u -> S_ pt u = if u <? v + 1 then PP u else S_ pt0 u).
        { intros u Hu. rewrite I2 by exact Hu. destruct (Z.eq_dec u v) as [->|].
          - destruct (Z.ltb_spec v v), (Z.ltb_spec v (v + 1)); try lia. unfold PP. destruct (Z.eqb_spec (S_ pt0 v) 1); lia.
          - destruct (Z.ltb_spec u v), (Z.ltb_spec u (v + 1)); lia. }
        assert (X : HI (v + 1) fr fl k /\ marked (v + 1) fl).
        { destruct (PP01 v) as [Pv|Pv].
          - apply NOFO; [exact Pv|]. intros (e & Ha & Hne). assert (E0 : S_ pt0 v = 0) by (unfold PP in Pv; destruct (Z.eqb_spec (S_ pt0 v) 1); lia).
            apply (Adj (edge s e) v); [apply (adj_sym s V); exists e; auto | | exact E0]. pose proof (PP01 (edge s e)). assert (Y : PP (edge s e) =? 1 = true) by lia. rewrite P1 in Y. lia.
          - split.
            + destruct I3 as [J1 J2 J3 J4 J5 J6 J7]. constructor; auto.
              * intros j Hj. destruct (J4 j Hj) as (X1 & X2 & X3 & X4). split; [auto|]. split; [auto|]. split; [intros X; specialize (X3 X); lia | auto].
              * intros u Hu Pu Fu. destruct (Z.eq_dec u v) as [->|]; [lia | apply J6; auto; lia].
            + intros u w Hu Au Pu Pw. destruct (Z.eq_dec u v) as [->|]; [lia | apply (I4 u w); auto; lia]. }
        destruct X as (X1 & X2). apply TAIL; auto.
    + intros [[[[[pt fr] k] fl] sz1] ge] (I1 & I2 & I3 & I4 & I5 & I6). split; [auto|]. split; [|auto]. intros u Hu. rewrite I2 by exact Hu. unfold isvert in Hu. destruct (Z.ltb_spec u nnd); [reflexivity | lia].
  - exists pt, fr, k, fl, sz1, ge. split; [exact E|]. split; [auto|]. split; [auto|]. destruct Q3 as [J1 J2 J3 J4 J5 J6 J7]. split; [auto|]. split; [auto|]. split; [intros j Hj; destruct (J4 j Hj) as (X1 & X2 & _); auto|]. split; [auto|]. split; [|auto].
    intros v Hv Fv. destruct (PP01 v) as [Pv|Pv]; [now apply J6|]. apply J7; [exact Hv|]. destruct Fv as (e & Ha & Hne). pose proof (gv_end _ V v e Ha) as Hw.
    apply (Q4 (edge s e) v); auto; [apply (adj_sym s V); exists e; auto|]. pose proof (PP01 (edge s e)). lia.
Qed.
End Front.

Section Meth.
Variables (avg : Z -> Z -> Z -> Z) (ab : Z -> Z) (frst : nat -> list Z -> list Z -> option Z) (rnd : Z -> Z) (prm : Z -> list Z) (jk : Z).

Lemma hfinish passnbr g gn0 pt dlt cml k : bstate avg g -> hgGain0 jk (bs g) (bveex g) (bdist g) = Ok gn0 ->
  hgPasses (bs g) ab frst rnd prm passnbr (bdist g) (bavg g) (bcmle0 g) gn0 (bpart g, bdlt g, bcml g, O) = Ok (pt, dlt, cml, k) ->
  pgg (bs g) (bveex g) (bdist g) (bavg g) (bcmle0 g) ab (zlen (bpart g)) pt dlt cml ->
  exists h, bgraphBipartGg jk ab frst rnd prm passnbr g = Ok (0, h) /\ bsame g h /\ bstate avg h /\ bg_valid avg h /\ bcml h = cml /\ bdlt h = dlt /\
    ((forall v, isvert (bs g) v -> bp h v = 1) \/ refused ab h) /\ ab (bdlt h) <= ab (velosum (bs g) - bavg g).
Proof.
  intros ST EG EP [Q1 Q2 Q3 (Q4 & Q5) Q6 Q7]. pose proof ST as [V B R G0 _]. unfold bgraphBipartGg. cbv zeta. rewrite EG. cbn [bind]. rewrite EP. cbn [bind].
  destruct (hfront_ok (bs g) (br_graph _ R) V (bveex g) (br_veex _ R) pt (bfron g)) with (ge0 := bcmge0 g) as (pt' & fr & k' & fl & sz1 & ge & -> & F1 & F2 & F3 & F4 & F5 & F6 & F7 & F8 & F9); auto.
  { rewrite Q1. apply (br_part _ R). }
  { apply (br_fron _ R). }
  cbn [bind]. eexists. split; [reflexivity|]. match goal with |- bsame _ ?z /\ _ => set (h := z) end.
  pose proof (gv_nnd _ V) as N1. pose proof (gv_size _ V) as N0.
  assert (BP : forall v, isvert (bs g) v -> bp h v = PP (bs g) pt v) by (intros v Hv; apply (F2 v Hv)).
  assert (P1 : forall u, (PP (bs g) pt u =? 1) = (at_ (baseval (bs g)) pt u =? 1)) by (intros u; unfold PP; destruct (at_ (baseval (bs g)) pt u =? 1); reflexivity).
  assert (P0 : forall u, (PP (bs g) pt u =? 0) = negb (at_ (baseval (bs g)) pt u =? 1)) by (intros u; unfold PP; destruct (at_ (baseval (bs g)) pt u =? 1); reflexivity).
  assert (X1 : bext h 1 = ext1 (bs g) (bveex g) pt).
  { apply zsum_ext. intros v Hv. rewrite BP by exact Hv. rewrite P1. reflexivity. }
  assert (X0 : bext h 0 + bext h 1 = bcmge0 g).
  { rewrite G0. unfold bext. rewrite <- zsum_add. apply zsum_ext. intros v Hv. change (veex h v) with (veex g v). rewrite BP by exact Hv. destruct (PP01 (bs g) pt v) as [-> | ->]; [change (0 =? 0) with true; change (0 =? 1) with false | change (1 =? 0) with false; change (1 =? 1) with true]; cbv iota; lia. }
  assert (FO : forall v, isvert (bs g) v -> (onfront h v <-> hfo (bs g) pt v)).
  { intros v Hv. unfold onfront, hfo. change (bs h) with (bs g). split; intros (e & Ha & Hn); exists e; (split; [exact Ha|]); rewrite ?BP in *; auto; apply (gv_end _ V v e Ha). }
  assert (VH : bg_valid avg h).
  { constructor.
    - intros v Hv. rewrite BP by exact Hv. apply PP01.
    - exact (bstate_avg avg g ST).
    - reflexivity.
    - cbn [h bsz0]. unfold bsize. change (bs h) with (bs g).
      assert (zcount (baseval (bs g)) (vertnnd (bs g)) (fun v => bp h v =? 0) + sz1 = vertnbr (bs g)); [|lia]. rewrite F8. unfold zcount. rewrite <- zsum_add.
      rewrite (zsum_ext _ _ _ (fun _ => 1)); [rewrite zsum_const by lia; lia|]. intros v Hv. rewrite BP by exact Hv. destruct (PP01 (bs g) pt v) as [-> | ->]; reflexivity.
    - cbn [h bld0]. rewrite Q4. unfold out1, bload. change (bs h) with (bs g). apply zsum_ext. intros v Hv. rewrite BP by exact Hv. rewrite P0. destruct (_ =? 1); reflexivity.
    - rewrite X1. cbn [h bcml bcmle0 bdist]. rewrite Q5.
      assert (bcut h = CUT (bs g) pt) as ->; [|ring]. unfold bcut, CUT. change (bs h) with (bs g). apply zsum_ext. intros v Hv. rewrite BP by exact Hv. rewrite P0. destruct (at_ (baseval (bs g)) pt v =? 1); cbn [negb andb].
      + apply zsum_zero. auto.
      + unfold WW. apply zsum_ext. intros e He. rewrite BP by (apply (gv_end _ V v e); split; auto). now rewrite P1.
    - cbn [h bcmge]. rewrite F9. assert (zsum (baseval (bs g)) (vertnnd (bs g)) (fun u => if PP (bs g) pt u =? 1 then hvex (bs g) (bveex g) u else 0) = bext h 1) as ->; [|lia]. rewrite X1. apply zsum_ext. intros v _. now rewrite P1.
    - split; [exact F4|]. change (bfronnbr h) with k'. change (bs h) with (bs g). change (bfr h) with (fun i => at_ 0 fr i). cbv beta. split; [|split; [exact F6|]].
      + intros i Hi. destruct (F5 i Hi) as (Y1 & Y2). split; [exact Y1 | now apply FO].
      + intros v Hv Fv. apply F7; [exact Hv | now apply FO]. }
  split; [constructor; cbn [h bs bveex bpart bfron bmin bmax bavg bcmle0 bcmge0 bdist bwg0 bwg1 bfx0 bfx1]; auto; lia|]. split; [|split; [exact VH|split; [reflexivity|split; [reflexivity|split]]]].
  - constructor; auto.
    + destruct R as [R1 R2 R3 R4 R5]. constructor; cbn [h bs bpart bfron bveex]; auto; try lia; intros v Hv; destruct (bv_part _ _ VH v Hv) as [-> | ->]; lia.
    + exists 0. split; [now left|]. replace (unfix 0 h) with h; [exact VH|]. unfold unfix. rewrite !Z.sub_0_r. reflexivity.
  - destruct Q6 as [X|(v & H1 & H2 & H3 & H4)]; [left|right].
    + intros v Hv. rewrite BP by exact Hv. unfold PP. now rewrite (X v Hv).
    + exists v. change (bs h) with (bs g). change (bdlt h) with dlt. split; [exact H1|]. split; [|auto]. rewrite BP by exact H1. unfold PP. destruct (Z.eqb_spec (at_ (baseval (bs g)) pt v) 1); [contradiction | reflexivity].
  - exact Q7.
Qed.

Lemma bGg_ok passnbr g : bstate avg g -> 0 < vertnbr (bs g) -> tabl_ok (bs g) frst -> (forall p, perm_ok (bs g) (prm p)) -> 1 <= passnbr ->
  exists h, bgraphBipartGg jk ab frst rnd prm passnbr g = Ok (0, h) /\ bsame g h /\ bstate avg h /\ bg_valid avg h /\
    ((forall v, isvert (bs g) v -> bp h v = 1) \/ refused ab h) /\ ab (bdlt h) <= ab (velosum (bs g) - bavg g).
Proof.
  intros ST Hn HF HP Hp. pose proof ST as [V B R G0 _].
  destruct (hgain0_ok (bs g) (br_graph _ R) V (bveex g) (br_veex _ R) (bdist g) jk) as (gn0 & EG & Zg & Hg).
  destruct (hpasses_ok (bs g) (br_graph _ R) V (bveex g) (br_veex _ R) (bdist g) (bavg g) (bcmle0 g) ab frst HF (zlen (bpart g)) (br_part _ R) rnd prm gn0 HP Zg Hg passnbr (bpart g) (bdlt g) (bcml g) O Hn Hp eq_refl) as (pt & dlt & cml & k & E & PS).
  destruct (hfinish passnbr g gn0 pt dlt cml k ST EG E PS) as (h & Eh & H1 & H2 & H3 & _ & _ & H4). exists h. auto 10.
Qed.

Lemma bGg_better passnbr g : bstate avg g -> 0 < vertnbr (bs g) -> tabl_ok (bs g) frst -> (forall p, perm_ok (bs g) (prm p)) -> 1 <= passnbr ->
  exists h h', bgraphBipartGg jk ab frst rnd prm passnbr g = Ok (0, h) /\ bgraphBipartGg jk ab frst rnd prm (passnbr + 1) g = Ok (0, h') /\
    (bcml h' < bcml h \/ bcml h' = bcml h /\ ab (bdlt h') <= ab (bdlt h)).
Proof.
  intros ST Hn HF HP Hp. pose proof ST as [V B R G0 _].
  destruct (hgain0_ok (bs g) (br_graph _ R) V (bveex g) (br_veex _ R) (bdist g) jk) as (gn0 & EG & Zg & Hg).
  destruct (hpasses_ok (bs g) (br_graph _ R) V (bveex g) (br_veex _ R) (bdist g) (bavg g) (bcmle0 g) ab frst HF (zlen (bpart g)) (br_part _ R) rnd prm gn0 HP Zg Hg passnbr (bpart g) (bdlt g) (bcml g) O Hn Hp eq_refl) as (pt & dlt & cml & k & E & PS).
  destruct (hstep_ok (bs g) (br_graph _ R) V (bveex g) (br_veex _ R) (bdist g) (bavg g) (bcmle0 g) ab frst HF (zlen (bpart g)) (br_part _ R) rnd prm gn0 HP Zg Hg passnbr pt dlt cml k Hn (pg_len _ _ _ _ _ _ _ _ _ _ PS) (fun _ => PS)) as (y & pt' & dlt' & cml' & k' & E1 & EK & PS' & BT).
  pose proof (hpasses_S (bs g) (bdist g) (bavg g) (bcmle0 g) ab frst rnd prm gn0 passnbr (bpart g, bdlt g, bcml g, O) ltac:(lia)) as ES. rewrite E in ES. cbn [bind] in ES. rewrite E1 in ES. cbn [bind] in ES. rewrite EK in ES.
  destruct (hfinish passnbr g gn0 pt dlt cml k ST EG E PS) as (h & Eh & _ & _ & _ & <- & <- & _). destruct (hfinish (passnbr + 1) g gn0 pt' dlt' cml' k' ST EG ES PS') as (h' & Eh' & _ & _ & _ & <- & <- & _).
  exists h, h'. split; [exact Eh|]. split; [exact Eh'|]. apply BT. lia.
Qed.
End Meth.
