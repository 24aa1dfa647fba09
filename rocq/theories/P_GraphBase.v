(** Proofs about graphBase. *)
From Verif Require Import Base M_Graph S_Graph P_Graph.

Lemma shift_range b adj lo hi (et : list Z) :
  b <= lo -> lo <= hi -> hi <= b + zlen et ->
  wp (for_ lo hi (fun e et => do x <- rd b et e; wr b et e (x + adj)) et)
     (fun et' => zlen et' = zlen et /\
        forall e, b <= e -> at_ b et' e = if (lo <=? e) && (e <? hi) then at_ b et e + adj else at_ b et e) noerr.
Proof.
  intros Hb Hlh Hh.
  apply wp_for with (I := fun i et' => zlen et' = zlen et /\
        forall e, b <= e -> at_ b et' e = if (lo <=? e) && (e <? i) then at_ b et e + adj else at_ b et e); auto.
  - split; auto. intros e He. now replace ((lo <=? e) && (e <? lo)) with false by lia.
  - intros i et1 Hi [L E]. rewrite rd_ok by lia. cbn [bind]. apply wp_wr; [lia|].
    rewrite zlen_upd. split; auto. intros e He. rewrite at_upd by lia.
    destruct (Z.eqb_spec i e) as [<-|].
    + rewrite E by lia. replace ((lo <=? i) && (i <? i)) with false by lia.
      now replace ((lo <=? i) && (i <? i + 1)) with true by lia.
    + rewrite E by lia. now replace ((lo <=? e) && (e <? i + 1)) with ((lo <=? e) && (e <? i)) by lia.
Qed.

Record shifted_raw (adj : Z) (g g' : graph) : Prop := {
  sr_base : baseval g' = baseval g + adj;
  sr_nbr : vertnbr g' = vertnbr g;
  sr_nnd : vertnnd g' = vertnnd g + adj;
  sr_verttab : zlen (verttab g') = zlen (verttab g) /\ forall v, baseval g <= v ->
     at_ (baseval g) (verttab g') v =
       if v <? vertnnd g + (match vendtab g with None => 1 | Some _ => 0 end) then at_ (baseval g) (verttab g) v + adj else at_ (baseval g) (verttab g) v;
  sr_vendtab : match vendtab g, vendtab g' with
    | None, None => True
    | Some t, Some t' => zlen t' = zlen t /\ forall v, baseval g <= v ->
        at_ (baseval g) t' v = if v <? vertnnd g then at_ (baseval g) t v + adj else at_ (baseval g) t v
    | _, _ => False end;
  sr_edgelen : zlen (edgetab g') = zlen (edgetab g);
  sr_edge1 : forall u e, arc g u e -> at_ (baseval g) (edgetab g') e = edge g e + adj;
  sr_edge2 : forall e, baseval g <= e -> (forall u, ~ arc g u e) -> at_ (baseval g) (edgetab g') e = edge g e;
  sr_same : velotab g' = velotab g /\ edlotab g' = edlotab g /\ vlbltab g' = vlbltab g /\ vnumtab g' = vnumtab g /\
            edgenbr g' = edgenbr g /\ velosum g' = velosum g /\ edlosum g' = edlosum g /\ degrmax g' = degrmax g }.

Lemma vend_len g v : graph_readable g -> graph_valid g -> isvert g v ->
  vend g v <= baseval g + zlen (edgetab g) \/ vert g v = vend g v.
Proof.
  intros R V Hv. pose proof (gv_range g V v Hv).
  destruct (Z.eq_dec (vert g v) (vend g v)); auto. left.
  assert (A : arc g v (vend g v - 1)) by (split; auto; lia). pose proof (gr_edge g R _ _ A). lia.
Qed.

Lemma graphBase_raw g b' :
  graph_valid g -> graph_readable g -> disjoint_ranges g ->
  (vendtab g = None -> vertnbr g + 1 <= zlen (verttab g)) ->
  baseval g <> b' ->
  wp (graphBase g b') (fun '(old, g') => old = baseval g /\ shifted_raw (b' - baseval g) g g') noerr.
Proof.
  intros V R D HC Hne. unfold graphBase. replace (baseval g =? b') with false by lia.
  set (adj := b' - baseval g). set (b := baseval g).
  pose proof (gv_size g V) as Hn. pose proof (gv_nnd g V) as Hnd. fold b in Hnd.
  pose proof (gr_vert g R) as Hvl.
  eapply wp_bind, wp_mono; [apply wp_for with (I := fun v '(vt, et) =>
     zlen vt = zlen (verttab g) /\ (forall i, b <= i -> at_ b vt i = if i <? v then at_ b (verttab g) i + adj else at_ b (verttab g) i) /\
     zlen et = zlen (edgetab g) /\
     (forall u e, u < v -> arc g u e -> at_ b et e = edge g e + adj) /\
     (forall e, b <= e -> (forall u, u < v -> ~ arc g u e) -> at_ b et e = edge g e)); [lia| | |]|].
  - split; auto. split; [intros i Hi; now replace (i <? b) with false by lia|]. split; auto. split.
    + intros u e Hu [[Hb _] _]. fold b in Hb. lia.
    + intros e He _. reflexivity.
  - intros v [vt et] Hv (L1 & E1 & L2 & E2 & E3).
    assert (Iv : isvert g v) by (unfold isvert; fold b; lia).
    pose proof (rvert_ok g v R V Iv) as Rv. unfold rvert in Rv. fold b in Rv. apply rd_inv in Rv as [Rv Ev].
    rewrite rd_ok by lia. cbn [bind]. rewrite E1 by lia. replace (v <? v) with false by lia. rewrite <- Ev.
    assert (HH : (match vendtab g with Some t => rd b t v | None => rd b vt (v + 1) end) = Ok (vend g v)).
    { pose proof (rvend_ok g v R V Iv) as Re. unfold rvend in Re. fold b in Re. destruct (vendtab g) as [t|] eqn:Et; auto.
      apply rd_inv in Re as [Re Ee]. rewrite rd_ok by lia. rewrite E1 by lia. replace (v + 1 <? v) with false by lia.
      now rewrite <- Ee. }
    rewrite HH. cbn [bind]. pose proof (gv_range g V v Iv) as Hr. fold b in Hr.
    apply wp_bind.
    destruct (Z.eq_dec (vert g v) (vend g v)) as [Heq|Hneq].
    + rewrite for_nil by lia. cbn [wp]. apply wp_bind, wp_wr; [lia|]. cbn [wp].
      rewrite zlen_upd. split; auto. split; [|split; [auto|split]].
      * intros i Hi. rewrite at_upd by lia. destruct (Z.eqb_spec v i) as [<-|].
        -- now replace (v <? v + 1) with true by lia.
        -- rewrite E1 by lia. now replace (i <? v + 1) with (i <? v) by lia.
      * intros u e Hu A. destruct (Z.eq_dec u v) as [->|]; [destruct A; lia|apply (E2 u); auto; lia].
      * intros e He N. apply E3; auto. intros u Hu. apply N. lia.
    + assert (Hlen : vend g v <= b + zlen et) by (destruct (vend_len g v R V Iv); unfold b in *; lia).
      eapply wp_mono; [apply shift_range; lia|]. cbv beta. intros et' [L3 E4].
      apply wp_bind, wp_wr; [lia|]. cbn [wp].
      rewrite zlen_upd. split; auto. split; [|split; [lia|split]].
      * intros i Hi. rewrite at_upd by lia. destruct (Z.eqb_spec v i) as [<-|].
        -- now replace (v <? v + 1) with true by lia.
        -- rewrite E1 by lia. now replace (i <? v + 1) with (i <? v) by lia.
      * intros u e Hu A. assert (He : b <= e). { pose proof (gr_edge g R u e A). unfold b in *; lia. }
        rewrite E4 by auto.
        destruct ((vert g v <=? e) && (e <? vend g v)) eqn:C.
        -- assert (A' : arc g v e) by (split; auto; lia).
           rewrite E3; auto.
           intros w Hw Aw. pose proof (D w v e Aw A'). lia.
        -- destruct (Z.eq_dec u v) as [->|]; [destruct A; lia|]. apply (E2 u); auto; lia.
      * intros e He N. rewrite E4 by auto.
        destruct ((vert g v <=? e) && (e <? vend g v)) eqn:C.
        -- exfalso. apply (N v); [lia|]. split; auto; lia.
        -- apply E3; auto. intros u Hu. apply N. lia.
  - intros s Hs; exact Hs.
  - intros [vt et] (L1 & E1 & L2 & E2 & E3).
    assert (Harc : forall u e, arc g u e -> u < vertnnd g) by (intros u e [[_ H] _]; auto).
    destruct (vendtab g) as [t|] eqn:Et.
    + pose proof (gr_vend g R t Et) as Htl.
      apply wp_bind. apply wp_bind.
      eapply wp_mono; [apply shift_range; lia|]. cbv beta. intros t' [L3 E4]. cbn [wp].
      split; auto. constructor; cbn [baseval vertnbr vertnnd verttab vendtab velotab velosum vnumtab vlbltab edgenbr edgetab edlotab edlosum degrmax]; fold b; rewrite ?Et; auto.
      * unfold adj, b; lia.
      * split; auto. intros v Hv. rewrite Z.add_0_r. auto.
      * split; auto. intros v Hv. rewrite E4 by auto. now replace ((b <=? v) && (v <? vertnnd g)) with (v <? vertnnd g) by lia.
      * intros u e A. apply (E2 u); eauto.
      * repeat split; auto.
    + specialize (HC eq_refl).
      apply wp_bind. rewrite rd_ok by lia. cbn [bind]. apply wp_bind, wp_wr; [lia|]. cbn [wp].
      split; auto. constructor; cbn [baseval vertnbr vertnnd verttab vendtab velotab velosum vnumtab vlbltab edgenbr edgetab edlotab edlosum degrmax]; fold b; rewrite ?Et; auto.
      * unfold adj, b; lia.
      * rewrite zlen_upd. split; auto. intros v Hv. rewrite at_upd by lia.
        destruct (Z.eqb_spec (vertnnd g) v) as [<-|].
        -- rewrite E1 by lia. replace (vertnnd g <? vertnnd g) with false by lia.
           now replace (vertnnd g <? vertnnd g + 1) with true by lia.
        -- rewrite E1 by lia. now replace (v <? vertnnd g + 1) with (v <? vertnnd g) by lia.
      * intros u e A. apply (E2 u); eauto.
      * repeat split; auto.
Qed.

Lemma shifted_raw_shifted adj g g' : graph_valid g -> graph_readable g -> shifted_raw adj g g' -> graph_shifted adj g g'.
Proof.
  intros V R S. destruct S as [S1 S2 S3 [S4 S4'] S5 S6 S7 S8 S9].
  destruct S9 as (T1 & T2 & T3 & T4 & T5 & T6 & T7 & T8).
  assert (SA : forall (l : list Z) i, at_ (baseval g') l (i + adj) = at_ (baseval g) l i) by (intros; rewrite S1; apply at_shift).
  pose proof (gv_nnd g V).
  constructor; auto.
  - intros v [Hv1 Hv2]. unfold vert. rewrite SA, S4' by auto. destruct (vendtab g); now replace (v <? _) with true by lia.
  - intros v [Hv1 Hv2]. unfold vend. destruct (vendtab g), (vendtab g'); try contradiction.
    + destruct S5 as [_ S5]. rewrite SA, S5 by auto. now replace (v <? vertnnd g) with true by lia.
    + replace (v + adj + 1) with (v + 1 + adj) by lia. rewrite SA, S4' by lia.
      now replace (v + 1 <? vertnnd g + 1) with true by lia.
  - intros v e A. unfold edge. rewrite SA. apply (S7 v e A).
  - intros v. unfold velo. rewrite T1. destruct (velotab g); auto.
  - intros e. unfold edlo. rewrite T2. destruct (edlotab g); auto.
  - destruct (vendtab g), (vendtab g'); try contradiction; split; discriminate || auto.
  - repeat split; auto.
Qed.

Section Shift.
Context (adj : Z) (g g' : graph) (S : graph_shifted adj g g').

Lemma gs_isvert v : isvert g' (v + adj) <-> isvert g v.
Proof. unfold isvert. rewrite (gs_base _ _ _ S), (gs_nnd _ _ _ S). lia. Qed.
Lemma gs_isvert' v : isvert g' v <-> isvert g (v - adj).
Proof. unfold isvert. rewrite (gs_base _ _ _ S), (gs_nnd _ _ _ S). lia. Qed.
Lemma gs_arc v e : arc g' v e <-> arc g (v - adj) (e - adj).
Proof.
  unfold arc. rewrite gs_isvert'. split; intros [Hv He]; split; auto.
  - replace v with (v - adj + adj) in He by lia. rewrite (gs_vert _ _ _ S), (gs_vend _ _ _ S) in He by auto. lia.
  - replace v with (v - adj + adj) by lia. rewrite (gs_vert _ _ _ S), (gs_vend _ _ _ S) by auto. lia.
Qed.
Lemma gs_edge' v e : arc g' v e -> edge g' e = edge g (e - adj) + adj.
Proof.
  intros A%gs_arc. pose proof (gs_edge _ _ _ S _ _ A) as E. now replace (e - adj + adj) with e in E by lia.
Qed.
Lemma gs_vert' v : isvert g' v -> vert g' v = vert g (v - adj) + adj.
Proof. intros A%gs_isvert'. pose proof (gs_vert _ _ _ S _ A) as E. now replace (v - adj + adj) with v in E by lia. Qed.
Lemma gs_vend' v : isvert g' v -> vend g' v = vend g (v - adj) + adj.
Proof. intros A%gs_isvert'. pose proof (gs_vend _ _ _ S _ A) as E. now replace (v - adj + adj) with v in E by lia. Qed.
Lemma gs_velo' v : velo g' v = velo g (v - adj).
Proof. pose proof (gs_velo _ _ _ S (v - adj)) as E. now replace (v - adj + adj) with v in E by lia. Qed.
Lemma gs_edlo' v : edlo g' v = edlo g (v - adj).
Proof. pose proof (gs_edlo _ _ _ S (v - adj)) as E. now replace (v - adj + adj) with v in E by lia. Qed.

Lemma shifted_valid : graph_valid g -> graph_valid g'.
Proof.
  intros V. destruct (gs_same _ _ _ S) as (T1 & T2 & T3 & T4 & T5 & T6 & T7 & T8 & _).
  pose proof (gs_base _ _ _ S) as B. pose proof (gs_nnd _ _ _ S) as N. pose proof (gs_nbr _ _ _ S) as Nb.
  constructor.
  - rewrite Nb. apply gv_size; auto.
  - rewrite N, B, Nb, (gv_nnd g V). lia.
  - intros v Hv. rewrite gs_vert', gs_vend', B by auto. apply gs_isvert' in Hv. pose proof (gv_range g V _ Hv). lia.
  - intros v e A. rewrite (gs_edge' v e A). apply gs_isvert. apply gs_arc in A. eapply gv_end; eauto.
  - intros v e A. rewrite (gs_edge' v e A). apply gs_arc in A. pose proof (gv_loop g V _ _ A). lia.
  - intros v e e' A A' E. rewrite (gs_edge' v e A), (gs_edge' v e' A') in E. apply gs_arc in A, A'.
    pose proof (gv_simple g V _ _ _ A A' ltac:(lia)). lia.
  - intros v e A. rewrite (gs_edge' v e A). apply gs_arc in A. destruct (gv_sym g V _ _ A) as (r & Ar & Er & El).
    exists (r + adj).
    assert (A2 : arc g' (edge g (e - adj) + adj) (r + adj)).
    { apply gs_arc. replace (edge g (e - adj) + adj - adj) with (edge g (e - adj)) by lia. now replace (r + adj - adj) with r by lia. }
    split; auto. rewrite (gs_edge' _ _ A2), !gs_edlo'. replace (r + adj - adj) with r by lia. split; [lia|auto].
  - rewrite T5, (gv_edgenbr g V), B, N, <- zsum_shift. apply zsum_ext. intros v Hv.
    rewrite (gs_vert _ _ _ S), (gs_vend _ _ _ S) by auto. lia.
  - intros v Hv. rewrite gs_velo'. apply gv_velo; auto. now apply gs_isvert'.
  - rewrite T6, (gv_velosum g V), B, N, <- zsum_shift. apply zsum_ext. intros v Hv. now rewrite (gs_velo _ _ _ S).
  - intros v e A. rewrite gs_edlo'. apply gs_arc in A. eapply gv_edlo; eauto.
  - rewrite T7, (gv_edlosum g V), B, N, <- zsum_shift. apply zsum_ext. intros v Hv.
    rewrite (gs_vert _ _ _ S), (gs_vend _ _ _ S) by auto. rewrite <- zsum_shift. apply zsum_ext. intros; now rewrite (gs_edlo _ _ _ S).
  - rewrite T8. apply gv_degr0; auto.
  - intros v Hv. rewrite gs_vert', gs_vend', T8 by auto. apply gs_isvert' in Hv. pose proof (gv_degr g V _ Hv). lia.
Qed.

Lemma shifted_disjoint : disjoint_ranges g -> disjoint_ranges g'.
Proof.
  intros D v w e A A'. apply gs_arc in A, A'. pose proof (D _ _ _ A A'). lia.
Qed.
End Shift.

Lemma shifted_readable adj g g' : graph_valid g -> graph_readable g -> shifted_raw adj g g' -> graph_readable g'.
Proof.
  intros V R S0. pose proof (shifted_raw_shifted _ _ _ V R S0) as S.
  destruct (gs_same _ _ _ S) as (T1 & T2 & T3 & T4 & T5 & T6 & T7 & T8 & T9 & T10).
  constructor.
  - rewrite (gs_nbr _ _ _ S), T9. pose proof (gr_vert g R). pose proof (sr_vendtab _ _ _ S0).
    destruct (vendtab g), (vendtab g'); try contradiction; auto.
  - intros t Et. rewrite (gs_nbr _ _ _ S). pose proof (sr_vendtab _ _ _ S0) as Q. rewrite Et in Q.
    destruct (vendtab g) eqn:Eg; try contradiction. destruct Q as [-> _]. now apply (gr_vend g R).
  - intros t Et. rewrite (gs_nbr _ _ _ S). apply (gr_velo g R). congruence.
  - intros v e A. rewrite T10, (gs_base _ _ _ S). apply (gs_arc _ _ _ S) in A. pose proof (gr_edge g R _ _ A). lia.
  - intros t v e Et A. rewrite (gs_base _ _ _ S). apply (gs_arc _ _ _ S) in A. rewrite T2 in Et. pose proof (gr_edlo g R _ _ _ Et A). lia.
Qed.

Lemma arc_dec_any g e : graph_valid g -> (exists v, arc g v e) \/ (forall v, ~ arc g v e).
Proof.
  intros V.
  assert (G : forall hi, baseval g <= hi -> (exists v, v < hi /\ arc g v e) \/ forall v, v < hi -> ~ arc g v e).
  { apply zrange_ind.
    - right. intros v Hv [[H _] _]. lia.
    - intros hi Hhi [(v & Hv & A)|N]; [left; exists v; split; auto; lia|].
      destruct (Z_lt_dec hi (vertnnd g)), (Z_le_dec (vert g hi) e), (Z_lt_dec e (vend g hi));
        try (right; intros v Hv A; destruct (Z.eq_dec v hi) as [->|]; [destruct A as [[? ?] ?]; lia|apply (N v); auto; lia]).
      left. exists hi. split; [lia|]. split; [split; auto|lia]. }
  pose proof (gv_size g V). pose proof (gv_nnd g V).
  destruct (G (vertnnd g) ltac:(lia)) as [(v & _ & A)|N]; [left; eauto|].
  right. intros v A. apply (N v); auto. apply A.
Qed.

Lemma graph_eq g g' :
  baseval g = baseval g' -> vertnbr g = vertnbr g' -> vertnnd g = vertnnd g' -> verttab g = verttab g' ->
  vendtab g = vendtab g' -> velotab g = velotab g' -> velosum g = velosum g' -> vnumtab g = vnumtab g' ->
  vlbltab g = vlbltab g' -> edgenbr g = edgenbr g' -> edgetab g = edgetab g' -> edlotab g = edlotab g' ->
  edlosum g = edlosum g' -> degrmax g = degrmax g' -> g = g'.
Proof. destruct g, g'; cbn; intros; subst; auto. Qed.

Lemma shifted_raw_inverse adj g g' g'' : graph_valid g -> graph_readable g ->
  shifted_raw adj g g' -> shifted_raw (- adj) g' g'' -> g'' = g.
Proof.
  intros V R S1 S2. pose proof (shifted_raw_shifted _ _ _ V R S1) as SS.
  destruct (sr_same _ _ _ S1) as (T1 & T2 & T3 & T4 & T5 & T6 & T7 & T8).
  destruct (sr_same _ _ _ S2) as (U1 & U2 & U3 & U4 & U5 & U6 & U7 & U8).
  pose proof (sr_base _ _ _ S1) as B1. pose proof (sr_base _ _ _ S2) as B2.
  pose proof (sr_nnd _ _ _ S1) as N1. pose proof (sr_nnd _ _ _ S2) as N2.
  assert (SA : forall (l : list Z) i, at_ (baseval g) l i = at_ (baseval g') l (i + adj)) by (intros; rewrite B1; symmetry; apply at_shift).
  pose proof (sr_vendtab _ _ _ S1) as VD1. pose proof (sr_vendtab _ _ _ S2) as VD2.
  apply graph_eq; try congruence; try lia.
  - rewrite (sr_nbr _ _ _ S2). apply (sr_nbr _ _ _ S1).
  - destruct (sr_verttab _ _ _ S1) as [L1 E1], (sr_verttab _ _ _ S2) as [L2 E2].
    apply (at_ext (baseval g)); [lia|]. intros i Hi. rewrite SA, E2 by lia. rewrite <- SA, E1 by lia.
    destruct (vendtab g), (vendtab g'); try contradiction;
    match goal with |- (if ?a then _ else _) = _ => destruct a eqn:? end;
    match goal with |- context [if ?a then _ else _] => destruct a eqn:? end; lia.
  - destruct (vendtab g) as [t|], (vendtab g') as [t'|], (vendtab g'') as [t''|]; try contradiction; auto.
    f_equal. destruct VD1 as [L1 E1], VD2 as [L2 E2].
    apply (at_ext (baseval g)); [lia|]. intros i Hi. rewrite SA, E2 by lia. rewrite <- SA, E1 by lia.
    match goal with |- (if ?a then _ else _) = _ => destruct a eqn:? end;
    match goal with |- context [if ?a then _ else _] => destruct a eqn:? end; lia.
  - pose proof (sr_edgelen _ _ _ S1). pose proof (sr_edgelen _ _ _ S2).
    apply (at_ext (baseval g)); [lia|]. intros e He. rewrite SA.
    destruct (arc_dec_any g e V) as [(v & A)|N].
    + assert (A' : arc g' (v + adj) (e + adj)).
      { apply (gs_arc _ _ _ SS). replace (v + adj - adj) with v by lia. now replace (e + adj - adj) with e by lia. }
      rewrite (sr_edge1 _ _ _ S2 _ _ A'). unfold edge. rewrite <- SA, (sr_edge1 _ _ _ S1 _ _ A). unfold edge. lia.
    + rewrite (sr_edge2 _ _ _ S2); [|lia|].
      * unfold edge. rewrite <- SA. apply (sr_edge2 _ _ _ S1); auto. lia.
      * intros u A. apply (gs_arc _ _ _ SS) in A. replace (e + adj - adj) with e in A by lia. apply (N _ A).
Qed.

Lemma compact_disjoint g : graph_valid g -> vendtab g = None -> disjoint_ranges g.
Proof.
  intros V C.
  assert (E : forall v, vend g v = vert g (v + 1)) by (intros; unfold vend, vert; now rewrite C).
  assert (M : forall v w, isvert g v -> v <= w -> isvert g w -> vert g v <= vert g w).
  { intros v w Hv Hle. revert w Hle. apply (zrange_ind (fun w => isvert g w -> vert g v <= vert g w)); [lia|].
    intros w Hw IH Hw1. rewrite <- E. assert (isvert g w) by (destruct Hv, Hw1; unfold isvert; lia).
    pose proof (gv_range g V w H). specialize (IH H). lia. }
  assert (K : forall v w e, v < w -> arc g v e -> arc g w e -> False).
  { intros v w e Hvw [Hv He] [Hw He']. rewrite E in He.
    pose proof (M (v + 1) w). assert (isvert g (v + 1)) by (destruct Hv, Hw; unfold isvert; lia).
    specialize (H H0 ltac:(lia) Hw). lia. }
  intros v w e A A'. destruct (Z.lt_trichotomy v w) as [H|[H|H]]; auto; exfalso; eauto.
Qed.

Lemma graphBase_spec g b' :
  graph_valid g -> graph_readable g -> disjoint_ranges g ->
  (vendtab g = None -> vertnbr g + 1 <= zlen (verttab g)) ->
  exists g', graphBase g b' = Ok (baseval g, g') /\ baseval g' = b' /\
    graph_shifted (b' - baseval g) g g' /\ graph_valid g' /\ graph_readable g' /\
    graphBase g' (baseval g) = Ok (b', g).
Proof.
  intros V R D HC. destruct (Z.eq_dec (baseval g) b') as [E|Hne].
  - exists g. subst b'. unfold graphBase. rewrite Z.eqb_refl. split; auto. split; auto. split; auto.
    rewrite Z.sub_diag. constructor; intros; rewrite ?Z.add_0_r; auto; try reflexivity. repeat split; auto.
  - pose proof (wp_ok_inv _ _ (graphBase_raw g b' V R D HC Hne)) as ([old g'] & E1 & -> & S1).
    pose proof (shifted_raw_shifted _ _ _ V R S1) as SS.
    pose proof (shifted_valid _ _ _ SS V) as V'. pose proof (shifted_readable _ _ _ V R S1) as R'.
    pose proof (shifted_disjoint _ _ _ SS D) as D'. pose proof (sr_base _ _ _ S1) as B.
    exists g'. split; auto. split; [lia|]. split; auto. split; auto. split; auto.
    assert (HC' : vendtab g' = None -> vertnbr g' + 1 <= zlen (verttab g')).
    { intros E%(gs_compact _ _ _ SS). rewrite (sr_nbr _ _ _ S1). destruct (sr_verttab _ _ _ S1) as [-> _]. auto. }
    pose proof (wp_ok_inv _ _ (graphBase_raw g' (baseval g) V' R' D' HC' ltac:(lia))) as ([old g''] & E2 & -> & S2).
    rewrite E2. f_equal. f_equal; [lia|].
    replace (baseval g - baseval g') with (- (b' - baseval g)) in S2 by lia.
    apply (shifted_raw_inverse _ _ _ _ V R S1 S2).
Qed.
