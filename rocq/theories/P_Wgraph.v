(** Proofs about partitions with overlap: costs and their check. *)
From Verif Require Import Base Mem M_Graph M_Vgraph M_Wgraph S_Graph S_Vgraph S_Wgraph P_Graph P_Vgraph P_Match2.

Lemma addat_ok l i x : 0 <= i < zlen l -> addat l i x = Ok (upd 0 l i (at_ 0 l i + x)).
Proof. intros H. unfold addat. rewrite rd_ok by lia. cbn [bind]. apply wr_ok. lia. Qed.
Lemma rvelo_ok2 s v : graph_readable s -> graph_valid s -> isvert s v -> rvelo s v = Ok (velo s v).
Proof.
  intros R V Hv. unfold rvelo, velo. pose proof (gr_velo _ R). pose proof (gv_nnd _ V). unfold isvert in Hv. destruct (velotab s); [|reflexivity].
  specialize (H _ eq_refl). apply rd_ok. lia.
Qed.
Lemma arc_isvert s v e : graph_valid s -> arc s v e -> isvert s (edge s e).
Proof. intros V A. exact (gv_end _ V v e A). Qed.

Definition nearto (s : graph) (pt : Z -> Z) (lo e p : Z) : bool := existsb (fun e => pt (edge s e) =? p) (zseq lo (e - lo)).
Lemma nearto_snoc s pt lo e p : lo <= e -> nearto s pt lo (e + 1) p = nearto s pt lo e p || (pt (edge s e) =? p).
Proof.
  intros H. unfold nearto. replace (e + 1 - lo) with (e - lo + 1) by lia. rewrite zseq_snoc by lia. rewrite existsb_app. cbn [existsb]. rewrite orb_false_r. do 4 f_equal. lia.
Qed.
Lemma nearto_nil s pt lo p : nearto s pt lo lo p = false.
Proof. unfold nearto. rewrite Z.sub_diag. reflexivity. Qed.

Section Cost.
Variable g : wgraph.
Notation s := (ws g).
Notation b := (baseval (ws g)).
Notation n := (wnbr g).
Hypothesis V : graph_valid s.
Hypothesis R : graph_readable s.
Hypothesis B0 : 0 <= b.
Hypothesis N0 : 0 <= n.
Hypothesis LP : vertnbr s <= zlen (wpart g).
Hypothesis RG : forall v, isvert s v -> -1 <= wpt g v < n.

Lemma rdpart v : isvert s v -> rd b (wpart g) v = Ok (wpt g v).
Proof using V LP. clear B0 N0 RG R. intros Hv. pose proof (gv_nnd _ V). unfold isvert in Hv. rewrite rd_ok by lia. reflexivity. Qed.

Lemma costArcs v l fl cl cs : isvert s v -> zlen fl = n + 1 -> n <= zlen cl -> n <= zlen cs -> at_ (-1) fl (-1) = v -> (forall p, 0 <= p < n -> at_ (-1) fl p < v) ->
  wp (wcostArcs g v l (vert s v) (vend s v) (fl, cl, cs)) (fun '(fl', cl', cs') => zlen fl' = n + 1 /\ zlen cl' = zlen cl /\ zlen cs' = zlen cs /\
    forall p, 0 <= p < n -> at_ (-1) fl' p <= v /\ at_ 0 cl' p = at_ 0 cl p + (if near s (wpt g) v p then l else 0) /\ at_ 0 cs' p = at_ 0 cs p + (if near s (wpt g) v p then 1 else 0)) noerr.
Proof.
  intros Hv Lf Lc Ls Fv Fp. unfold wcostArcs. pose proof (gv_range _ V v Hv) as Hr.
  apply wp_for with (I := fun e '(fl', cl', cs') => zlen fl' = n + 1 /\ zlen cl' = zlen cl /\ zlen cs' = zlen cs /\ at_ (-1) fl' (-1) = v /\
    forall p, 0 <= p < n -> let nr := nearto s (wpt g) (vert s v) e p in
      at_ (-1) fl' p = (if nr then v else at_ (-1) fl p) /\ at_ 0 cl' p = at_ 0 cl p + (if nr then l else 0) /\ at_ 0 cs' p = at_ 0 cs p + (if nr then 1 else 0)).
  - lia.
  - do 4 (split; [auto|]). intros p Hp. rewrite nearto_nil. cbv zeta. repeat split; lia.
  - intros e [[fl1 cl1] cs1] He (L1 & L2 & L3 & F1 & I1). assert (A : arc s v e) by (split; [exact Hv|lia]). pose proof (arc_isvert _ _ _ V A) as Hw.
    rewrite (redge_ok _ v) by auto. cbn [bind]. rewrite rdpart by exact Hw. cbn [bind]. pose proof (RG _ Hw) as Hp. set (p := wpt g (edge s e)) in *.
    rewrite rd_ok by lia. cbn [bind].
    assert (NS : forall q, nearto s (wpt g) (vert s v) (e + 1) q = nearto s (wpt g) (vert s v) e q || (p =? q)) by (intros q; apply nearto_snoc; lia).
    destruct (Z.eqb_spec (at_ (-1) fl1 p) v) as [Ef|Ef]; cbn [negb].
    + cbn [wp]. do 4 (split; [assumption|]). intros q Hq. cbv zeta. rewrite NS. destruct (I1 q Hq) as (J1 & J2 & J3).
      destruct (Z.eqb_spec p q) as [<-|Hne]; [|rewrite orb_false_r; auto].
      destruct (nearto s (wpt g) (vert s v) e p); [auto|]. exfalso. specialize (Fp p Hq). lia.
    + assert (p <> -1) by (intros E; apply Ef; rewrite E; exact F1). rewrite wr_ok by lia. cbn [bind]. rewrite addat_ok by lia. cbn [bind]. rewrite addat_ok by lia. cbn [bind wp].
      rewrite !zlen_upd. do 3 (split; [assumption|]). split; [rewrite at_upd by lia; destruct (Z.eqb_spec p (-1)); [lia|assumption]|].
      intros q Hq. cbv zeta. rewrite NS. rewrite !at_upd by lia. destruct (I1 q Hq) as (J1 & J2 & J3).
      destruct (Z.eqb_spec p q) as [<-|Hne]; [|rewrite orb_false_r; auto]. rewrite orb_true_r.
      destruct (nearto s (wpt g) (vert s v) e p); [congruence|]. repeat split; lia.
  - intros [[fl1 cl1] cs1] (L1 & L2 & L3 & F1 & I1). do 3 (split; [assumption|]). intros p Hp. destruct (I1 p Hp) as (J1 & J2 & J3). fold (near s (wpt g) v p) in J1, J2, J3.
    unfold nearto in J1, J2, J3. fold (near s (wpt g) v p) in J1, J2, J3. split; [|auto]. rewrite J1. destruct (near s (wpt g) v p); [lia|]. specialize (Fp p Hp). lia.
Qed.

Definition ldto (k p : Z) : Z := zsum b k (fun v => if inpart s (wpt g) v p then velo s v else 0).
Definition szto (k p : Z) : Z := zcount b k (fun v => inpart s (wpt g) v p).
Definition frto (k : Z) : Z := zsum b k (fun v => if wpt g v =? -1 then velo s v else 0).

Lemma Cost_spec jk : n <= zlen (wcload g) -> n <= zlen (wcsize g) ->
  wp (wgraphCost jk g) (fun h => wsame g h /\ wpart h = wpart g /\ wfron h = wfron g /\ wfronnbr h = wfronnbr g /\ wg_counts h) noerr.
Proof.
  intros Lc Ls. unfold wgraphCost. destruct (Z.ltb_spec n 0); [lia|]. pose proof (gv_nnd _ V) as Nn. pose proof (gv_size _ V) as Zn.
  destruct (memst_spec 0 (wcload g) n 0) as (cl & -> & Zc & Ac); [lia|]. cbn [bind]. destruct (memst_spec 0 (wcsize g) n 0) as (cs & -> & Zs & As); [lia|]. cbn [bind].
  apply wp_bind. apply wp_for with (I := fun k '(fl, cl', cs', fs) => zlen fl = n + 1 /\ zlen cl' = zlen cl /\ zlen cs' = zlen cs /\ fs = frto k /\
    forall p, 0 <= p < n -> at_ (-1) fl p < k /\ at_ 0 cl' p = ldto k p /\ at_ 0 cs' p = szto k p).
  - lia.
  - split; [rewrite zlen_cons, zlen_repeat; lia|]. do 2 (split; [reflexivity|]). split; [unfold frto; now rewrite zsum_nil by lia|].
    intros p Hp. split; [|split].
    + unfold at_. replace (Z.to_nat (p - -1)) with (S (Z.to_nat p)) by lia. cbn [nth]. change (nth (Z.to_nat p) (repeat (-1) (Z.to_nat n)) dflt) with (nth (Z.to_nat p) (repeat (-1) (Z.to_nat n)) dflt).
      pose proof (at_repeat 0 (-1) (Z.to_nat n) p ltac:(lia)) as E. unfold at_ in E. rewrite Z.sub_0_r in E. rewrite E. lia.
    + rewrite Ac by lia. unfold ldto. rewrite zsum_nil by lia. destruct (Z.ltb_spec p (0 + n)); lia.
    + rewrite As by lia. unfold szto. rewrite zcount_nil by lia. destruct (Z.ltb_spec p (0 + n)); lia.
  - intros v [[[fl cl1] cs1] fs] Hv (L1 & L2 & L3 & -> & I1). assert (Hv' : isvert s v) by exact Hv. unfold wcostVert. rewrite rvelo_ok2 by auto. cbn [bind]. rewrite rdpart by exact Hv'. cbn [bind].
    pose proof (RG _ Hv') as Hp.
    assert (SL : forall q, ldto (v + 1) q = ldto v q + (if inpart s (wpt g) v q then velo s v else 0)) by (intros q; unfold ldto; now rewrite zsum_snoc by lia).
    assert (SC : forall q, szto (v + 1) q = szto v q + (if inpart s (wpt g) v q then 1 else 0)) by (intros q; unfold szto; rewrite zcount_snoc by lia; destruct (inpart _ _ _ _); reflexivity).
    assert (SF : frto (v + 1) = frto v + (if wpt g v =? -1 then velo s v else 0)) by (unfold frto; now rewrite zsum_snoc by lia).
    destruct (Z.leb_spec 0 (wpt g v)) as [Hg|Hg].
    + rewrite addat_ok by lia. cbn [bind]. rewrite addat_ok by lia. cbn [bind wp]. rewrite !zlen_upd. do 3 (split; [assumption|]).
      split; [rewrite SF; destruct (Z.eqb_spec (wpt g v) (-1)); lia|].
      intros q Hq. destruct (I1 q Hq) as (J1 & J2 & J3). split; [lia|]. rewrite SL, SC, !at_upd by lia. unfold inpart.
      destruct (Z.eqb_spec (wpt g v) (-1)); [lia|]. cbn [andb]. rewrite orb_false_r. destruct (Z.eqb_spec (wpt g v) q) as [Eq|Eq]; [rewrite Eq; split; lia|]. lia.
    + assert (Ev : wpt g v = -1) by lia. rewrite wr_ok by lia. cbn [bind]. rewrite rvert_ok by auto. cbn [bind]. rewrite rvend_ok by auto. cbn [bind]. apply wp_bind.
      eapply wp_mono; [apply costArcs; auto; rewrite ?zlen_upd; try lia|].
      * rewrite at_upd by lia. now rewrite Z.eqb_refl.
      * intros p Hp'. rewrite at_upd by lia. destruct (Z.eqb_spec (-1) p); [lia|]. apply I1; lia.
      * intros [[fl2 cl2] cs2] (M1 & M2 & M3 & M4). cbn [wp]. split; [assumption|]. split; [lia|]. split; [lia|]. split; [rewrite SF, Ev; cbn; lia|].
        intros q Hq. destruct (I1 q Hq) as (J1 & J2 & J3). destruct (M4 q Hq) as (K1 & K2 & K3). split; [lia|]. rewrite SL, SC. unfold inpart. rewrite Ev.
        destruct (Z.eqb_spec (-1) q); [lia|]. rewrite K2, K3, J2, J3. change (Z.eqb (-1) (-1)) with true. cbn [orb andb]. split; reflexivity.
  - intros [[[fl cl1] cs1] fs] (L1 & L2 & L3 & -> & I1). cbn [wp]. split; [constructor; cbn [ws wnbr wpart wfron wcload wcsize]; auto; lia|].
    do 3 (split; [reflexivity|]). constructor; cbn [ws wnbr wpart wcload wcsize wfronload].
    + intros p Hp. apply I1; auto.
    + intros p Hp. apply I1; auto.
    + reflexivity.
Qed.

Lemma checkArcs v l fl cl cs : isvert s v -> zlen fl = n -> n <= zlen cl -> n <= zlen cs -> (forall p, 0 <= p < n -> at_ 0 fl p < v) ->
  wp (wcheckArcs g v l (vert s v) (vend s v) (fl, cl, cs)) (fun '(fl', cl', cs') => zlen fl' = n /\ zlen cl' = zlen cl /\ zlen cs' = zlen cs /\
    forall p, 0 <= p < n -> at_ 0 fl' p <= v /\ at_ 0 cl' p = at_ 0 cl p + (if near s (wpt g) v p then l else 0) /\ at_ 0 cs' p = at_ 0 cs p + (if near s (wpt g) v p then 1 else 0)) noerr.
Proof.
  intros Hv Lf Lc Ls Fp. unfold wcheckArcs. pose proof (gv_range _ V v Hv) as Hr.
  apply wp_for with (I := fun e '(fl', cl', cs') => zlen fl' = n /\ zlen cl' = zlen cl /\ zlen cs' = zlen cs /\
    forall p, 0 <= p < n -> let nr := nearto s (wpt g) (vert s v) e p in
      at_ 0 fl' p = (if nr then v else at_ 0 fl p) /\ at_ 0 cl' p = at_ 0 cl p + (if nr then l else 0) /\ at_ 0 cs' p = at_ 0 cs p + (if nr then 1 else 0)).
  - lia.
  - do 3 (split; [auto|]). intros p Hp. rewrite nearto_nil. cbv zeta. repeat split; lia.
  - intros e [[fl1 cl1] cs1] He (L1 & L2 & L3 & I1). assert (A : arc s v e) by (split; [exact Hv|lia]). pose proof (arc_isvert _ _ _ V A) as Hw.
    rewrite (redge_ok _ v) by auto. cbn [bind]. rewrite rdpart by exact Hw. cbn [bind]. pose proof (RG _ Hw) as Hp. set (p := wpt g (edge s e)) in *.
    assert (NS : forall q, nearto s (wpt g) (vert s v) (e + 1) q = nearto s (wpt g) (vert s v) e q || (p =? q)) by (intros q; apply nearto_snoc; lia).
    destruct (Z.eqb_spec p (-1)) as [Ep|Ep]; cbn [negb].
    { cbn [wp]. do 3 (split; [assumption|]). intros q Hq. cbv zeta. rewrite NS. destruct (Z.eqb_spec p q); [lia|]. rewrite orb_false_r. auto. }
    rewrite rd_ok by lia. cbn [bind]. destruct (Z.eqb_spec (at_ 0 fl1 p) v) as [Ef|Ef]; cbn [negb].
    + cbn [wp]. do 3 (split; [assumption|]). intros q Hq. cbv zeta. rewrite NS. destruct (I1 q Hq) as (J1 & J2 & J3).
      destruct (Z.eqb_spec p q) as [<-|Hne]; [|rewrite orb_false_r; auto].
      destruct (nearto s (wpt g) (vert s v) e p); [auto|]. exfalso. specialize (Fp p Hq). lia.
    + rewrite addat_ok by lia. cbn [bind]. rewrite addat_ok by lia. cbn [bind]. rewrite wr_ok by lia. cbn [bind wp].
      rewrite !zlen_upd. do 3 (split; [assumption|]).
      intros q Hq. cbv zeta. rewrite NS. rewrite !at_upd by lia. destruct (I1 q Hq) as (J1 & J2 & J3).
      destruct (Z.eqb_spec p q) as [<-|Hne]; [|rewrite orb_false_r; auto]. rewrite orb_true_r.
      destruct (nearto s (wpt g) (vert s v) e p); [congruence|]. repeat split; lia.
  - intros [[fl1 cl1] cs1] (L1 & L2 & L3 & I1). do 3 (split; [assumption|]). intros p Hp. destruct (I1 p Hp) as (J1 & J2 & J3).
    unfold nearto in J1, J2, J3. fold (near s (wpt g) v p) in J1, J2, J3. split; [|auto]. rewrite J1. destruct (near s (wpt g) v p); [lia|]. specialize (Fp p Hp). lia.
Qed.

Lemma checkVerts : wp (for_ b (vertnnd s) (wcheckVert g) (repeat (-1) (Z.to_nat n), repeat 0 (Z.to_nat n), repeat 0 (Z.to_nat n), 0, 0))
  (fun '(fl, cl, cs, fs, fn) => zlen cl = n /\ zlen cs = n /\ fs = frto (vertnnd s) /\ fn = zcount b (vertnnd s) (fun v => wpt g v =? -1) /\
    forall p, 0 <= p < n -> at_ 0 cl p = oload s (wpt g) p /\ at_ 0 cs p = osize s (wpt g) p) noerr.
Proof.
  pose proof (gv_nnd _ V) as Nn. pose proof (gv_size _ V) as Zn.
  apply wp_for with (I := fun k '(fl, cl', cs', fs, fn) => zlen fl = n /\ zlen cl' = n /\ zlen cs' = n /\ fs = frto k /\ fn = zcount b k (fun v => wpt g v =? -1) /\
    forall p, 0 <= p < n -> at_ 0 fl p < k /\ at_ 0 cl' p = ldto k p /\ at_ 0 cs' p = szto k p).
  - lia.
  - rewrite !zlen_repeat. do 3 (split; [lia|]). split; [unfold frto; now rewrite zsum_nil by lia|]. split; [now rewrite zcount_nil by lia|].
    intros p Hp. rewrite !at_repeat by lia. unfold ldto, szto. rewrite zsum_nil, zcount_nil by lia. repeat split; lia.
  - intros v [[[[fl cl1] cs1] fs] fn] Hv (L1 & L2 & L3 & -> & -> & I1). assert (Hv' : isvert s v) by exact Hv. unfold wcheckVert. rewrite rvelo_ok2 by auto. cbn [bind]. rewrite rdpart by exact Hv'. cbn [bind].
    pose proof (RG _ Hv') as Hp.
    assert (SL : forall q, ldto (v + 1) q = ldto v q + (if inpart s (wpt g) v q then velo s v else 0)) by (intros q; unfold ldto; now rewrite zsum_snoc by lia).
    assert (SC : forall q, szto (v + 1) q = szto v q + (if inpart s (wpt g) v q then 1 else 0)) by (intros q; unfold szto; rewrite zcount_snoc by lia; destruct (inpart _ _ _ _); reflexivity).
    assert (SF : frto (v + 1) = frto v + (if wpt g v =? -1 then velo s v else 0)) by (unfold frto; now rewrite zsum_snoc by lia).
    rewrite zcount_snoc, SF by lia.
    destruct (Z.eqb_spec (wpt g v) (-1)) as [Ev|Ev].
    + rewrite rvert_ok by auto. cbn [bind]. rewrite rvend_ok by auto. cbn [bind]. apply wp_bind.
      eapply wp_mono; [apply checkArcs; auto; try lia; intros p Hp'; apply I1; lia|].
      intros [[fl2 cl2] cs2] (M1 & M2 & M3 & M4). cbn [wp]. split; [assumption|]. do 2 (split; [lia|]). do 2 (split; [reflexivity|]).
        intros q Hq. destruct (I1 q Hq) as (J1 & J2 & J3). destruct (M4 q Hq) as (K1 & K2 & K3). split; [lia|]. rewrite SL, SC. unfold inpart. rewrite Ev.
        destruct (Z.eqb_spec (-1) q); [lia|]. rewrite K2, K3, J2, J3. change (Z.eqb (-1) (-1)) with true. cbn [orb andb]. split; reflexivity.
    + rewrite addat_ok by lia. cbn [bind]. rewrite addat_ok by lia. cbn [bind wp]. rewrite !zlen_upd. do 3 (split; [assumption|]).
      split; [lia|]. split; [cbn [b2z]; lia|].
      intros q Hq. destruct (I1 q Hq) as (J1 & J2 & J3). split; [lia|]. rewrite SL, SC, !at_upd by lia. unfold inpart.
      destruct (Z.eqb_spec (wpt g v) (-1)); [lia|]. cbn [andb]. rewrite orb_false_r. destruct (Z.eqb_spec (wpt g v) q) as [Eq|Eq]; [rewrite Eq; split; lia|]. lia.
  - intros [[[[fl cl1] cs1] fs] fn] (L1 & L2 & L3 & -> & -> & I1). do 4 (split; [auto|]). intros p Hp. apply I1; auto.
Qed.
End Cost.

Lemma NoDup_zcount_fron g : 0 <= wfronnbr g -> wfronnbr g <= zlen (wfron g) ->
  (forall i, 0 <= i < wfronnbr g -> isvert (ws g) (wfr g i) /\ wpt g (wfr g i) = -1) ->
  (forall i j, 0 <= i < wfronnbr g -> 0 <= j < wfronnbr g -> wfr g i = wfr g j -> i = j) ->
  (forall v, isvert (ws g) v -> wpt g v = -1 -> exists i, 0 <= i < wfronnbr g /\ wfr g i = v) ->
  wfronnbr g = zcount (baseval (ws g)) (vertnnd (ws g)) (fun v => wpt g v =? -1).
Proof.
  intros N0 L H1 H2 H3. set (l := map (wfr g) (zseq 0 (wfronnbr g))).
  assert (Ll : zlen l = wfronnbr g) by (unfold l, zlen; rewrite map_length; fold (zlen (zseq 0 (wfronnbr g))); now rewrite zlen_zseq).
  rewrite <- Ll. symmetry. apply zcount_list.
  - unfold l. apply (proj2 (NoDup_nth _ 0)). intros i j Hi Hj E. unfold l in *. rewrite map_length in Hi, Hj. 
    assert (X : forall k, (k < length (zseq 0 (wfronnbr g)))%nat -> nth k (map (wfr g) (zseq 0 (wfronnbr g))) 0 = wfr g (Z.of_nat k)).
    { intros k Hk. rewrite (nth_indep _ 0 (wfr g 0)) by (rewrite map_length; exact Hk). rewrite map_nth. f_equal. unfold zseq in *. rewrite map_length, seq_length in Hk.
      rewrite (nth_indep _ 0 (0 + Z.of_nat 0)) by (rewrite map_length, seq_length; exact Hk). rewrite (map_nth (fun k => 0 + Z.of_nat k)), seq_nth by exact Hk. lia. }
    rewrite !X in E by assumption. unfold zseq in Hi, Hj. rewrite map_length, seq_length in Hi, Hj. apply H2 in E; lia.
  - intros v. unfold l. rewrite in_map_iff. split.
    + intros (i & <- & Hi). apply In_zseq in Hi. destruct (H1 i) as [A B]; [lia|]. split; [exact A|]. now apply Z.eqb_eq.
    + intros [A B]. apply Z.eqb_eq in B. destruct (H3 v A B) as (i & Hi & <-). exists i. split; [reflexivity|]. apply In_zseq. lia.
Qed.

Lemma Check_complete g : graph_valid (ws g) -> 0 <= baseval (ws g) -> 0 <= wnbr g -> wg_readable g -> wgood g -> wgraphCheck g = Ok tt.
Proof.
  intros V B0 N0 [R LP LF LL LS] [[RG _] (Fn & F1 & F2 & F3) [CL CS CF]]. pose proof (gv_nnd _ V) as Nn. pose proof (gv_size _ V) as Zn.
  assert (W : wp (wgraphCheck g) (fun u => u = tt) noerr). 2: { destruct (wp_ok_inv _ _ W) as (u & -> & ->). reflexivity. }
  unfold wgraphCheck. destruct (Z.ltb_spec (wnbr g) 0); [lia|]. apply wp_bind. apply wp_for with (I := fun _ _ => True); auto; [lia| |].
  { intros v [] Hv _. rewrite rdpart by auto. cbn [bind]. pose proof (RG v Hv). replace ((wnbr g <=? wpt g v) || (wpt g v <? -1)) with false by lia. exact Logic.I. }
  intros _ _. destruct (Z.ltb_spec (wfronnbr g) 0); [lia|]. apply wp_bind. apply wp_for with (I := fun _ _ => True); auto.
  { intros i [] Hi _. rewrite rd_ok by lia. cbn [bind]. fold (wfr g i). destruct (F1 i Hi) as [A E]. rewrite rdpart by auto. cbn [bind]. rewrite E. exact Logic.I. }
  intros _ _. apply wp_bind. eapply wp_mono; [apply checkVerts; auto|]. intros [[[[fl cl] cs] fs] fn] (L1 & L2 & -> & -> & I1). cbn [bind]. apply wp_bind. apply wp_for with (I := fun _ _ => True); auto.
  { intros p [] Hp _. destruct (I1 p Hp) as (E1 & E2). rewrite !rd_ok by lia. cbn [bind]. rewrite CS, E2, Z.eqb_refl by exact Hp. cbn [negb]. rewrite CL, E1, Z.eqb_refl by exact Hp. exact Logic.I. }
  intros _ _. rewrite CF. unfold frto. rewrite Z.eqb_refl. cbn [negb]. rewrite <- NoDup_zcount_fron by (auto; lia). rewrite Z.eqb_refl. reflexivity.
Qed.

Lemma Check_sound g : graph_valid (ws g) -> 0 <= baseval (ws g) -> wg_readable g -> wgraphCheck g = Ok tt ->
  (forall v, isvert (ws g) v -> -1 <= wpt g v < wnbr g) /\ wg_counts g /\ wfronnbr g = zcount (baseval (ws g)) (vertnnd (ws g)) (fun v => wpt g v =? -1) /\
  forall i, 0 <= i < wfronnbr g -> wpt g (wfr g i) = -1.
Proof.
  intros V B0 [R LP LF LL LS] H. pose proof (gv_nnd _ V) as Nn. pose proof (gv_size _ V) as Zn. unfold wgraphCheck in H.
  destruct (Z.ltb_spec (wnbr g) 0) as [|N0]; [discriminate|]. apply bind_ok_inv in H. destruct H as (u1 & H1 & H).
  assert (RG : forall v, isvert (ws g) v -> -1 <= wpt g v < wnbr g).
  { refine (wlp_elim _ (fun _ => _) u1 _ H1). apply wlp_for with (I := fun k _ => forall v, baseval (ws g) <= v < k -> -1 <= wpt g v < wnbr g); try (intros; lia); auto.
    intros k u Hk Hi. apply wlp_intro. intros u' Hu. rewrite rdpart in Hu by first [exact Hk | assumption]. cbn [bind] in Hu. destruct ((wnbr g <=? wpt g k) || (wpt g k <? -1)) eqn:E; [discriminate|].
    intros v Hv. destruct (Z.eq_dec v k) as [->|]; [lia | apply Hi; lia]. }
  destruct (Z.ltb_spec (wfronnbr g) 0) as [|F0]; [discriminate|]. apply bind_ok_inv in H. destruct H as (u2 & H2 & H).
  assert (FR : forall i, 0 <= i < wfronnbr g -> wpt g (wfr g i) = -1).
  { refine (wlp_elim _ (fun _ => _) u2 _ H2). apply wlp_for with (I := fun k _ => forall i, 0 <= i < k -> wpt g (wfr g i) = -1); try (intros; lia); auto.
    intros k u Hk Hi. apply wlp_intro. intros u' Hu. apply bind_ok_inv in Hu. destruct Hu as (v & Hv & Hu). apply rd_inv in Hv. destruct Hv as (_ & ->).
    apply bind_ok_inv in Hu. destruct Hu as (p & Hp & Hu). apply rd_inv in Hp. destruct Hp as (_ & ->). fold (wfr g k) in Hu. fold (wpt g (wfr g k)) in Hu.
    destruct (Z.eqb_spec (wpt g (wfr g k)) (-1)) as [E2|]; [|discriminate]. intros i Hi'. destruct (Z.eq_dec i k) as [->|]; [exact E2 | apply Hi; lia]. }
  destruct (wp_ok_inv _ _ (checkVerts g V R B0 N0 LP RG)) as ([[[[fl cl] cs] fs] fn] & E & L1 & L2 & -> & -> & I1). rewrite E in H. cbn [bind] in H.
  apply bind_ok_inv in H. destruct H as (u3 & H3 & H).
  assert (EQ : forall p, 0 <= p < wnbr g -> at_ 0 (wcload g) p = oload (ws g) (wpt g) p /\ at_ 0 (wcsize g) p = osize (ws g) (wpt g) p).
  { refine (wlp_elim _ (fun _ => _) u3 _ H3). apply wlp_for with (I := fun k _ => forall p, 0 <= p < k -> at_ 0 (wcload g) p = oload (ws g) (wpt g) p /\ at_ 0 (wcsize g) p = osize (ws g) (wpt g) p); try (intros; lia); auto.
    intros k u Hk Hi. apply wlp_intro. intros u' Hu. rewrite !rd_ok in Hu by lia. cbn [bind] in Hu. destruct (I1 k Hk) as (E1 & E2).
    destruct (Z.eqb_spec (at_ 0 (wcsize g) k) (at_ 0 cs k)) as [Q1|]; [|discriminate]. cbn [negb] in Hu.
    destruct (Z.eqb_spec (at_ 0 (wcload g) k) (at_ 0 cl k)) as [Q2|]; [|discriminate].
    intros i Hi'. destruct (Z.eq_dec i k) as [->|]; [split; congruence | apply Hi; lia]. }
  destruct (Z.eqb_spec (wfronload g) (frto g (vertnnd (ws g)))) as [Q3|]; [|discriminate]. cbn [negb] in H.
  destruct (Z.eqb_spec (wfronnbr g) (zcount (baseval (ws g)) (vertnnd (ws g)) (fun v => wpt g v =? -1))) as [Q4|]; [|discriminate].
  split; [exact RG|]. split; [|split; [exact Q4|exact FR]]. constructor; [intros p Hp; now apply EQ|intros p Hp; now apply EQ|exact Q3].
Qed.

Lemma wgraphZero_spec g : graph_valid (ws g) -> 0 <= baseval (ws g) -> 1 <= wnbr g -> wg_readable g ->
  wp (wgraphZero g) (fun h => wsame g h /\ wgood h /\ forall v, isvert (ws g) v -> wpt h v = 0) noerr.
Proof.
  intros V B0 N1 [R LP LF LL LS]. unfold wgraphZero. destruct (Z.ltb_spec (wnbr g) 1); [lia|]. pose proof (gv_nnd _ V) as Nn. pose proof (gv_size _ V) as Zn.
  assert (M : forall l : list Z, wnbr g <= zlen l -> wp (memst 0 l 1 (wnbr g - 1) 0) (fun l' => zlen l' = zlen l /\ forall p, 1 <= p < wnbr g -> at_ 0 l' p = 0) noerr).
  { intros l Hl. unfold memst. apply wp_for with (I := fun k l' => zlen l' = zlen l /\ forall p, 1 <= p < k -> at_ 0 l' p = 0).
    - lia.
    - split; [reflexivity|]. intros; lia.
    - intros i l' Hi [E I1]. rewrite wr_ok by lia. cbn [wp]. rewrite zlen_upd. split; [exact E|]. intros p Hp. rewrite at_upd by lia. destruct (Z.eqb_spec i p); [reflexivity|]. apply I1. lia.
    - intros l' [E I1]. split; [exact E|]. intros p Hp. apply I1. lia. }
  destruct (wp_ok_inv _ _ (M _ LL)) as (cl & -> & Lc & Ac). cbn [bind]. destruct (wp_ok_inv _ _ (M _ LS)) as (cs & -> & Ls & As). cbn [bind].
  rewrite !wr_ok by lia. cbn [bind]. destruct (memst_spec (baseval (ws g)) (wpart g) (vertnbr (ws g)) 0) as (pt & -> & Zp & Ap); [lia|]. cbn [bind wp].
  set (h := mkwgraph _ _ _ _ _ _ _ _).
  assert (P0 : forall v, isvert (ws g) v -> wpt h v = 0).
  { intros v Hv. unfold wpt, h. cbn [ws wpart]. unfold isvert in Hv. rewrite Ap by lia. destruct (Z.ltb_spec v (baseval (ws g) + vertnbr (ws g))); lia. }
  assert (NR : forall v p, isvert (ws g) v -> inpart (ws g) (wpt h) v p = (0 =? p)).
  { intros v p Hv. unfold inpart. rewrite P0 by exact Hv. change (0 =? -1) with false. cbn [andb]. apply orb_false_r. }
  split; [constructor; cbn [h ws wnbr wpart wfron wcload wcsize]; rewrite ?zlen_upd; auto|]. split; [|exact P0]. constructor.
  - constructor.
    + intros v Hv. cbn [h ws wnbr] in *. rewrite P0 by exact Hv. lia.
    + intros v e A. left. cbn [h ws] in *. pose proof (arc_isvert _ _ _ V A). rewrite !P0; auto. apply A.
  - unfold wfron_exact. cbn [h ws wfronnbr]. split; [lia|]. split; [intros; lia|]. split; [intros; lia|]. intros v Hv E. fold h in E. rewrite P0 in E by exact Hv. lia.
  - constructor; cbn [h ws wnbr wcload wcsize wfronload]; fold h.
    + intros p Hp. rewrite at_upd by lia. unfold oload. destruct (Z.eqb_spec 0 p) as [<-|Hne].
      * rewrite (gv_velosum _ V). apply zsum_ext. intros v Hv. now rewrite NR.
      * rewrite Ac by lia. symmetry. apply zsum_zero. intros v Hv. rewrite NR by exact Hv. destruct (Z.eqb_spec 0 p); [lia|reflexivity].
    + intros p Hp. rewrite at_upd by lia. unfold osize. destruct (Z.eqb_spec 0 p) as [<-|Hne].
      * rewrite zcount_all; [lia|lia|]. intros v Hv. now rewrite NR.
      * rewrite As by lia. symmetry. apply zcount_0. intros v Hv. rewrite NR by exact Hv. now apply Z.eqb_neq.
    + symmetry. apply zsum_zero. intros v Hv. rewrite P0 by exact Hv. reflexivity.
Qed.
