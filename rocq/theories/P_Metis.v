(** Proofs: building of graphs, cut and volume of METIS partitions. *)
From Verif Require Import Base Mem M_Graph M_Metis S_Graph S_Metis P_Graph P_Bgraph.

(** ** Graph building *)
Lemma sums_ok g : graph_readable g -> consistent g -> edgenbr g = zsum (baseval g) (vertnnd g) (fun v => vend g v - vert g v) ->
  wp (buildSums g) (fun '(sum, d) => sum = zsum (baseval g) (vertnnd g) (fun v => zsum (vert g v) (vend g v) (edlo g)) /\
    0 <= d /\ (forall v, isvert g v -> vend g v - vert g v <= d) /\ (d = 0 \/ exists v, isvert g v /\ vend g v - vert g v = d)) noerr.
Proof.
  intros R C En. pose proof (cn_nnd _ C) as N. pose proof (cn_size _ C) as Sz. unfold buildSums.
  set (init := match edlotab g with None => edgenbr g | Some _ => 0 end).
  apply wp_for with (I := fun i '(sum, d) => sum = (match edlotab g with None => edgenbr g | Some _ => zsum (baseval g) i (fun v => zsum (vert g v) (vend g v) (edlo g)) end) /\
    0 <= d /\ (forall v, baseval g <= v < i -> vend g v - vert g v <= d) /\ (d = 0 \/ exists v, isvert g v /\ vend g v - vert g v = d)); [lia| | |].
  - subst init. destruct (edlotab g); [rewrite zsum_nil by lia|]; (split; [reflexivity|]); (split; [lia|]); (split; [intros; lia | now left]).
  - intros v [sum d] Hv (Es & D0 & D1 & D2). assert (Iv : isvert g v) by (unfold isvert; lia). pose proof (cn_range _ C v Iv) as Rg.
    assert (E1 : rvend g v = Ok (vend g v)). { pose proof (gr_vert _ R) as Q. unfold rvend, vend. destruct (vendtab g) as [t|] eqn:Ev; apply rd_ok; [pose proof (gr_vend _ R t Ev); lia|]. replace (0 <? vertnbr g) with true in Q by (symmetry; apply Z.ltb_lt; lia). cbn [b2z] in Q. lia. }
    assert (E2 : rvert g v = Ok (vert g v)). { pose proof (gr_vert _ R) as Q. unfold rvert, vert. apply rd_ok. destruct (vendtab g); [lia|]. destruct (0 <? vertnbr g); cbn [b2z] in Q; lia. }
    rewrite E1, E2. cbn [bind]. apply wp_bind.
    apply wp_mono with (Q := fun s' => s' = match edlotab g with None => edgenbr g | Some _ => zsum (baseval g) (v + 1) (fun v => zsum (vert g v) (vend g v) (edlo g)) end).
    + destruct (edlotab g) as [t|] eqn:Ee; [|cbn [wp]; exact Es].
      apply wp_for with (I := fun e s' => s' = sum + zsum (vert g v) e (edlo g)); [lia|rewrite zsum_nil by lia; lia| |].
      * intros e s' He Hs. rewrite (rd_ok (baseval g) t e) by (eapply (gr_edlo _ R); [exact Ee|]; split; [exact Iv | exact He]). cbn [bind wp]. rewrite zsum_snoc by lia. unfold edlo at 2. rewrite Ee. lia.
      * intros s' ->. rewrite zsum_snoc by lia. lia.
    + intros s' Hs. cbn [wp]. split; [exact Hs|]. destruct (Z.ltb_spec d (vend g v - vert g v)).
      * split; [lia|]. split; [|right; eauto]. intros w Hw. destruct (Z.eq_dec w v); [subst; lia|]. specialize (D1 w ltac:(lia)). lia.
      * split; [lia|]. split; [|exact D2]. intros w Hw. destruct (Z.eq_dec w v); [subst; lia|]. apply D1. lia.
  - intros [sum d] (Es & D). split; [|exact D]. subst sum. destruct (edlotab g) eqn:Ee; [reflexivity|]. rewrite En. apply zsum_ext. intros v Hv. pose proof (cn_range _ C v Hv).
    rewrite (zsum_ext _ _ (edlo g) (fun _ => 1)) by (intros; unfold edlo; now rewrite Ee). rewrite zsum_const by lia. lia.
Qed.

Lemma build_ok base n vt vd vl lb en et el : let g0 := mkgraph base n (n + base) vt vd vl 0 None lb en et el 0 0 in
  graph_readable g0 -> consistent g0 -> en = zsum base (n + base) (fun v => vend g0 v - vert g0 v) ->
  exists vs es d, graphBuild base n vt vd vl lb en et el = Ok (mkgraph base n (n + base) vt vd vl vs None lb en et el es d) /\
    graph_valid (mkgraph base n (n + base) vt vd vl vs None lb en et el es d) /\ graph_readable (mkgraph base n (n + base) vt vd vl vs None lb en et el es d) /\
    (d = 0 \/ exists v, base <= v < base + n /\ vend g0 v - vert g0 v = d).
Proof.
  intros g0 R C En. pose proof (cn_size _ C) as Sz. cbn in Sz. unfold graphBuild.
  assert (exists s, match vl with None => Ok n | Some t => for_ base (n + base) (fun v sum => do l <- rd base t v; Ok (sum + l)) 0 end = Ok s /\ s = zsum base (n + base) (velo g0)) as (s & -> & Es).
  { destruct vl as [t|] eqn:Ev.
    - apply wp_ok_inv. apply wp_for with (I := fun i s => s = zsum base i (velo g0)); [lia|now rewrite zsum_nil by lia| |auto].
      intros v s Hv Hs. pose proof (gr_velo _ R t eq_refl) as L. cbn in L. rewrite rd_ok by lia. cbn [bind wp]. rewrite zsum_snoc by lia. unfold velo at 2. cbn. lia.
    - exists n. split; [reflexivity|]. unfold velo. cbn. rewrite zsum_const by lia. lia. }
  cbn [bind].
  set (g1 := mkgraph base n (n + base) vt vd vl s None lb en et el 0 0).
  assert (R1 : graph_readable g1) by (destruct R; constructor; assumption). assert (C1 : consistent g1) by (destruct C; constructor; assumption).
  destruct (wp_ok_inv _ _ (sums_ok g1 R1 C1 En)) as ([es d] & -> & S1 & S2 & S3 & S4). cbn [bind]. exists s, es, d. split; [reflexivity|].
  split; [|split; [destruct R; constructor; assumption|]].
  - destruct C. constructor; try assumption; cbn [edgenbr velosum edlosum degrmax baseval vertnnd]; assumption.
  - destruct S4 as [S4|(v & Hv & S4)]; [now left|]. right. exists v. unfold isvert in Hv. cbn in Hv. split; [lia | exact S4].
Qed.

(** ** The cut *)
Lemma cut_half g P : graph_valid g ->
  zsum (baseval g) (vertnnd g) (fun v => zsum (vert g v) (vend g v) (fun e => if negb (P (edge g e) =? P v) then edlo g e else 0)) = 2 * cut_load g P.
Proof.
  intros V. set (F := fun v u => b2z ((v <? u) && negb (P v =? P u))).
  assert (E1 : cut_load g P = zsum (baseval g) (vertnnd g) (fun v => zsum (vert g v) (vend g v) (fun e => F v (edge g e) * edlo g e))).
  { apply zsum_ext. intros v Hv. apply zsum_ext. intros e He. unfold F. destruct (_ && _); unfold b2z; lia. }
  pose proof (arcs_reverse g F V) as E2.
  transitivity (zsum (baseval g) (vertnnd g) (fun v => zsum (vert g v) (vend g v) (fun e => F v (edge g e) * edlo g e)) + zsum (baseval g) (vertnnd g) (fun v => zsum (vert g v) (vend g v) (fun e => F (edge g e) v * edlo g e))); [|lia].
  apply zsum_split_eq. intros v Hv. apply zsum_split_eq. intros e He. pose proof (gv_loop _ V v e (conj Hv He)) as Hl. unfold F. rewrite (Z.eqb_sym (P v)).
  destruct (negb (P (edge g e) =? P v)); rewrite ?andb_true_r, ?andb_false_r; cbn [b2z]; [|lia]. destruct (Z.ltb_spec v (edge g e)), (Z.ltb_spec (edge g e) v); cbn [b2z]; lia.
Qed.

(** The loops over arcs that follow one another *)
Section Loops.
Variable g : graph.
Hypothesis V : graph_valid g.
Hypothesis R : graph_readable g.
Hypothesis NV : vendtab g = None.
Hypothesis L : vertnbr g + 1 <= zlen (verttab g).
Hypothesis X0 : at_ (baseval g) (verttab g) (baseval g) = baseval g.
Let b := baseval g.
Lemma vend_next v : vend g v = at_ b (verttab g) (v + 1).
Proof. unfold vend. now rewrite NV. Qed.

Lemma Cut_ok part : (forall v, isvert g v -> b <= v < b + zlen part) ->
  metisOutputCut b (vertnnd g) (verttab g) (edgetab g) (edlotab g) part = Ok (cut_load g (at_ b part)).
Proof.
  intros Lp. pose proof (gv_nnd _ V) as N. pose proof (gv_size _ V) as Sz. unfold metisOutputCut. set (P := at_ b part).
  set (f := fun v e => if negb (P (edge g e) =? P v) then edlo g e else 0).
  match goal with |- (do '(_, sum) <- ?r; _) = _ => assert (W : wp r (fun '(_, sum) => sum = zsum b (vertnnd g) (fun v => zsum (vert g v) (vend g v) (f v))) noerr) end.
  { apply wp_for with (I := fun i '(e, sum) => e = at_ b (verttab g) i /\ sum = zsum b i (fun v => zsum (vert g v) (vend g v) (f v))); [lia|split; [symmetry; exact X0 | now rewrite zsum_nil by lia]| |intros [e sum] (_ & H); exact H].
    intros v [e0 sum] Hv (-> & Hs). assert (Iv : isvert g v) by exact Hv. pose proof (gv_range _ V v Iv) as Rg. rewrite (rd_ok b part v) by (apply Lp; exact Iv). cbn [bind]. rewrite (rd_ok b (verttab g) (v + 1)) by (unfold b in *; lia). cbn [bind].
    rewrite <- vend_next. change (at_ b (verttab g) v) with (vert g v). apply wp_bind.
    apply wp_for with (I := fun e s' => s' = sum + zsum (vert g v) e (f v)); [lia|rewrite zsum_nil by lia; lia| |].
    - intros e s' He Hs'. assert (A : arc g v e) by (split; [exact Iv | exact He]). change (rd b (edgetab g) e) with (redge g e). rewrite (redge_ok g v e R A). cbn [bind]. rewrite (rd_ok b part (edge g e)) by (apply Lp, (gv_end _ V v e A)). cbn [bind].
      rewrite zsum_snoc by lia. fold P. unfold f at 2. fold (P (edge g e)). destruct (negb (P (edge g e) =? P v)); [|cbn [wp]; lia].
      unfold edlo. destruct (edlotab g) as [t|] eqn:Ee; [|cbn [wp]; lia]. rewrite rd_ok by (eapply (gr_edlo _ R); eauto). cbn [bind wp]. unfold b. lia.
    - intros s' ->. cbn [wp]. split; [rewrite Z.max_r by lia; reflexivity|]. rewrite zsum_snoc by (unfold b; lia). lia. }
  destruct (wp_ok_inv _ _ W) as ([e sum] & -> & ->). cbn [bind]. unfold f, b. rewrite (cut_half g P V). f_equal. rewrite Z.mul_comm. apply Z.quot_mul. lia.
Qed.

Definition seen (P : Z -> Z) (v e q : Z) : bool := existsb (fun e' => P (edge g e') =? q) (zseq (vert g v) (e - vert g v)).
Lemma seen_snoc P v e q : vert g v <= e -> seen P v (e + 1) q = seen P v e q || (P (edge g e) =? q).
Proof.
  intros H. unfold seen. replace (e + 1 - vert g v) with (e - vert g v + 1) by lia. rewrite zseq_snoc by lia. rewrite existsb_app. cbn [existsb]. rewrite orb_false_r.
  replace (vert g v + (e - vert g v)) with e by lia. reflexivity.
Qed.
Lemma Vol_ok part vsize np : 0 <= b -> (forall v, isvert g v -> b <= v < b + zlen part /\ b <= at_ b part v < b + np) -> (forall t v, vsize = Some t -> isvert g v -> b <= v < b + zlen t) ->
  metisOutputVol b (vertnnd g) (verttab g) (edgetab g) vsize np part = Ok (comm_volume g (fun v => match vsize with None => 1 | Some t => at_ b t v end) b np (at_ b part)).
Proof.
  intros B0 Lp Lv. pose proof (gv_nnd _ V) as N. pose proof (gv_size _ V) as Sz. unfold metisOutputVol. set (P := at_ b part). set (size := fun v => match vsize with None => 1 | Some t => at_ b t v end).
  set (cnt := fun v e => zsum b (b + np) (fun q => b2z (negb (q =? P v) && seen P v e q))).
  match goal with |- bind ?r _ = _ => assert (W : wp r (fun '(_, _, sum) => sum = zsum b (vertnnd g) (fun v => size v * cnt v (vend g v))) noerr) end.
  { apply wp_for with (I := fun i '(e, ngh, sum) => e = at_ b (verttab g) i /\ zlen ngh = Z.max 0 np /\ (forall q, b <= q < b + np -> at_ b ngh q < i) /\ sum = zsum b i (fun v => size v * cnt v (vend g v)));
      [lia| | |intros [[e ngh] sum] (_ & _ & _ & H); exact H].
    { split; [symmetry; exact X0|]. split; [unfold zlen; rewrite repeat_length; lia|]. split; [|now rewrite zsum_nil by lia]. intros q Hq. rewrite at_repeat by lia. lia. }
    intros v [[e0 ngh] sum] Hv (-> & Ln & Hn & Hs). assert (Iv : isvert g v) by exact Hv. pose proof (gv_range _ V v Iv) as Rg. destruct (Lp v Iv) as (Lp1 & Lp2). rewrite (rd_ok b part v) by exact Lp1. cbn [bind]. fold P in Lp2 |- *. fold (P v) in Lp2 |- *.
    rewrite wr_ok by lia. cbn [bind].
    assert (E : match vsize with None => Ok 1 | Some t => rd b t v end = Ok (size v)). { unfold size. destruct vsize as [t|]; [|reflexivity]. apply rd_ok. apply (Lv t v eq_refl Iv). }
    rewrite E. cbn [bind]. rewrite (rd_ok b (verttab g) (v + 1)) by (unfold b in *; lia). cbn [bind]. rewrite <- vend_next. change (at_ b (verttab g) v) with (vert g v). apply wp_bind.
    apply wp_for with (I := fun e '(ngh, s') => zlen ngh = Z.max 0 np /\ (forall q, b <= q < b + np -> at_ b ngh q <= v /\ (at_ b ngh q = v <-> (q =? P v) || seen P v e q = true)) /\ s' = sum + size v * cnt v e); [lia| | |].
    - split; [now rewrite zlen_upd|]. split.
      + intros q Hq. rewrite at_upd by lia. unfold seen. rewrite Z.sub_diag. cbn [zseq Z.to_nat seq map existsb]. rewrite orb_false_r. specialize (Hn q Hq). destruct (Z.eqb_spec (P v) q); [subst q; rewrite Z.eqb_refl; intuition lia|]. split; [lia|]. destruct (Z.eqb_spec q (P v)); [congruence|]. split; [lia | discriminate].
      + unfold cnt. rewrite zsum_zero; [lia|]. intros q _. unfold seen. rewrite Z.sub_diag. cbn [zseq Z.to_nat seq map existsb]. now rewrite andb_false_r.
    - intros e [ng s'] He (Ln' & Hn' & Hs'). assert (A : arc g v e) by (split; [exact Iv | exact He]). change (rd b (edgetab g) e) with (redge g e). rewrite (redge_ok g v e R A). cbn [bind].
      destruct (Lp (edge g e) (gv_end _ V v e A)) as (Lu1 & Lu2). rewrite (rd_ok b part (edge g e)) by exact Lu1. cbn [bind]. fold P in Lu2 |- *. fold (P (edge g e)) in Lu2 |- *. set (pu := P (edge g e)) in *.
      rewrite (rd_ok b ng pu) by lia. cbn [bind]. destruct (Hn' pu Lu2) as (H1 & H2).
      assert (CN : cnt v (e + 1) = cnt v e - b2z (negb (pu =? P v) && seen P v e pu) + b2z (negb (pu =? P v) && seen P v (e + 1) pu)).
      { unfold cnt. apply zsum_upd with (k := pu); [exact Lu2|]. intros q Hq Hne. rewrite seen_snoc by lia. fold pu. destruct (Z.eqb_spec pu q); [congruence|]. now rewrite orb_false_r. }
      rewrite seen_snoc in CN by lia. fold pu in CN. rewrite Z.eqb_refl, orb_true_r, andb_true_r in CN.
      destruct (Z.eqb_spec (at_ b ng pu) v) as [Ev|Nv]; cbn [negb].
      + cbn [wp]. apply H2 in Ev. split; [exact Ln'|]. split.
        * intros q Hq. rewrite seen_snoc by lia. fold pu. destruct (Hn' q Hq) as (G1 & G2). split; [exact G1|]. rewrite G2. destruct (Z.eqb_spec pu q); [subst q; rewrite Ev, orb_true_r, orb_true_r; tauto | now rewrite orb_false_r].
        * rewrite CN. destruct (pu =? P v), (seen P v e pu); cbn [negb andb b2z orb] in *; try discriminate; lia.
      + rewrite wr_ok by lia. cbn [bind wp]. assert (Ef : (pu =? P v) || seen P v e pu = false). { destruct (_ || _); [|reflexivity]. exfalso. tauto. } apply orb_false_iff in Ef as (Ef1 & Ef2). rewrite Ef1, Ef2 in CN. cbn [negb andb b2z] in CN.
        split; [now rewrite zlen_upd|]. split; [|rewrite CN; lia].
        intros q Hq. rewrite at_upd by lia. rewrite seen_snoc by lia. fold pu. destruct (Z.eqb_spec pu q) as [<-|Hne]; [rewrite !orb_true_r; split; [lia | tauto]|]. rewrite orb_false_r. apply Hn'. exact Hq.
    - intros [ng s'] (Ln' & Hn' & ->). cbn [wp]. split; [rewrite Z.max_r by lia; reflexivity|]. split; [exact Ln'|]. split; [intros q Hq; destruct (Hn' q Hq); lia|]. rewrite zsum_snoc by (unfold b; lia). lia. }
  destruct (wp_ok_inv _ _ W) as ([[e ngh] sum] & -> & ->). cbn [bind]. reflexivity.
Qed.
End Loops.
