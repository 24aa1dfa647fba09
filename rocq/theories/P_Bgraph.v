(** Proofs about bipartitions. *)
From Verif Require Import Base Mem M_Graph M_Vgraph M_Bgraph S_Graph S_Bgraph P_Graph P_Vgraph P_Vgraph2.

(** ** Sums over arcs can be taken from either end *)
Definition wmul (g : graph) (v w : Z) : Z := zsum (vert g v) (vend g v) (fun e => if edge g e =? w then edlo g e else 0).

Lemma wmul_arc g v w e : graph_valid g -> arc g v e -> edge g e = w -> wmul g v w = edlo g e.
Proof.
  intros V A E. unfold wmul. rewrite (zsum_single _ _ _ e); [|apply A|].
  - now rewrite E, Z.eqb_refl.
  - intros i Hi Hne. destruct (Z.eqb_spec (edge g i) w); auto. exfalso. apply Hne. apply (gv_simple g V v); auto; [split; [apply A | auto] | congruence].
Qed.
Lemma wmul_none g v w : (forall e, arc g v e -> edge g e <> w) -> isvert g v -> wmul g v w = 0.
Proof.
  intros N Hv. apply zsum_zero. intros e He. destruct (Z.eqb_spec (edge g e) w) as [E|]; auto. exfalso. apply (N e); auto. split; auto.
Qed.
Lemma wmul_sym g v w : graph_valid g -> isvert g v -> isvert g w -> wmul g v w = wmul g w v.
Proof.
  intros V Hv Hw.
  destruct (mult_01 g v w V Hv) as [(_ & e & A & Ee)|(_ & N1)].
  - destruct (gv_sym g V v e A) as (r & Ar & Er & El). rewrite Ee in Ar. rewrite (wmul_arc g v w e), (wmul_arc g w v r); auto.
  - rewrite (wmul_none g v w) by auto. destruct (mult_01 g w v V Hw) as [(_ & e' & A' & Ee')|(_ & N2)].
    + destruct (gv_sym g V w e' A') as (r & Ar & Er & _). rewrite Ee' in Ar. destruct (N1 r Ar Er).
    + now rewrite wmul_none.
Qed.
Lemma arcs_wmul g v F : graph_valid g -> isvert g v ->
  zsum (vert g v) (vend g v) (fun e => F (edge g e) * edlo g e) = zsum (baseval g) (vertnnd g) (fun w => F w * wmul g v w).
Proof.
  intros V Hv. unfold wmul. transitivity (zsum (baseval g) (vertnnd g) (fun w => zsum (vert g v) (vend g v) (fun e => F w * (if edge g e =? w then edlo g e else 0)))).
  - rewrite (zsum_swap (baseval g) (vertnnd g)). apply zsum_ext. intros e He. assert (A : arc g v e) by (split; auto).
    rewrite (zsum_single _ _ _ (edge g e)); [now rewrite Z.eqb_refl | apply (gv_end g V v e A)|].
    intros i _ Hi. destruct (Z.eqb_spec (edge g e) i); [congruence | lia].
  - apply zsum_ext. intros w _. now rewrite zsum_scale.
Qed.
(** Reversal of all arcs *)
Lemma arcs_reverse g (F : Z -> Z -> Z) : graph_valid g ->
  zsum (baseval g) (vertnnd g) (fun v => zsum (vert g v) (vend g v) (fun e => F v (edge g e) * edlo g e)) =
  zsum (baseval g) (vertnnd g) (fun v => zsum (vert g v) (vend g v) (fun e => F (edge g e) v * edlo g e)).
Proof.
  intros V.
  rewrite (zsum_ext _ _ _ (fun v => zsum (baseval g) (vertnnd g) (fun w => F v w * wmul g v w))) by (intros v Hv; apply (arcs_wmul g v (F v) V Hv)).
  rewrite (zsum_ext _ _ (fun v => zsum (vert g v) (vend g v) (fun e => F (edge g e) v * edlo g e)) (fun v => zsum (baseval g) (vertnnd g) (fun w => F w v * wmul g v w))) by (intros v Hv; apply (arcs_wmul g v (fun w => F w v) V Hv)).
  rewrite zsum_swap. apply zsum_ext. intros v Hv. apply zsum_ext. intros w Hw. rewrite (wmul_sym g v w); auto.
Qed.

(** ** Bit tricks *)
Lemma lxor01 p q : p = 0 \/ p = 1 -> q = 0 \/ q = 1 -> Z.lxor p q = b2z (negb (p =? q)).
Proof. intros [->| ->] [->| ->]; reflexivity. Qed.
Lemma land_msk l p : p = 0 \/ p = 1 -> Z.land l (- p) = if p =? 1 then l else 0.
Proof. intros [->| ->]; cbn [Z.eqb Pos.eqb Z.opp]; [apply Z.land_0_r | apply Z.land_m1_r]. Qed.
Lemma lor01 p q : p = 0 \/ p = 1 -> q = 0 \/ q = 1 -> Z.lor p q = 0 \/ Z.lor p q = 1.
Proof. intros [->| ->] [->| ->]; cbn; auto. Qed.

Lemma zsum_split_eq lo hi f g h : (forall i, lo <= i < hi -> f i = g i + h i) -> zsum lo hi f = zsum lo hi g + zsum lo hi h.
Proof. intros H. rewrite <- zsum_add. now apply zsum_ext. Qed.

Section Bip.
Variable g : bgraph.
Hypothesis R : bg_readable g.
Hypothesis V : graph_valid (bs g).
Notation s := (bs g).
Notation b := (baseval (bs g)).
Notation e_ := (vertnnd (bs g)).

(** Reading of the arrays *)
Lemma bpart_rd v : isvert s v -> rd b (bpart g) v = Ok (bp g v).
Proof. intros Hv. apply rd_ok. pose proof (br_part _ R). pose proof (gv_nnd _ V). unfold isvert in Hv. lia. Qed.
Lemma brvelo v : isvert s v -> rvelo s v = Ok (velo s v).
Proof.
  intros Hv. unfold rvelo, velo. pose proof (gr_velo _ (br_graph _ R)) as G1. pose proof (gv_nnd _ V). unfold isvert in Hv.
  destruct (velotab s) as [t|]; [|reflexivity]. apply rd_ok. specialize (G1 t eq_refl). lia.
Qed.
Lemma bredlo v e : arc s v e -> (match edlotab s with None => Ok 1 | Some t => rd b t e end) = Ok (edlo s e).
Proof.
  intros A. unfold edlo. pose proof (gr_edlo _ (br_graph _ R)) as G1. destruct (edlotab s) as [t|]; [|reflexivity]. apply rd_ok. eapply G1; eauto.
Qed.

(** Bit-or over the arcs of a vertex is non-zero exactly on the frontier *)
Lemma checkFlag_spec v : isvert s v -> (forall w, isvert s w -> bp g w = 0 \/ bp g w = 1) ->
  exists f, checkFlag s (bpart g) v = Ok f /\ (f = 0 <-> ~ onfront g v).
Proof.
  intros Hv P01. unfold checkFlag. rewrite bpart_rd by auto. cbn [bind]. rewrite (rvert_ok s v (br_graph _ R) V Hv), (rvend_ok s v (br_graph _ R) V Hv). cbn [bind].
  pose proof (gv_range _ V v Hv) as Hr.
  match goal with |- exists f, ?r = _ /\ _ => destruct (wp_ok_inv r (fun f => (f = 0 \/ f = 1) /\ (f = 0 <-> forall e, vert s v <= e < vend s v -> bp g (edge s e) = bp g v))) as (f & -> & F1 & F2) end.
  - apply wp_for with (I := fun k f => (f = 0 \/ f = 1) /\ (f = 0 <-> forall e, vert s v <= e < k -> bp g (edge s e) = bp g v)); auto.
    + lia.
    + split; [auto|]. split; [intros; lia | auto].
    + intros k f Hk (F1 & F2). assert (A : arc s v k) by (split; auto). rewrite (redge_ok s v k (br_graph _ R) A). cbn [bind]. pose proof (gv_end _ V v k A) as Hw.
      rewrite bpart_rd by auto. cbn [bind wp]. rewrite lxor01 by auto.
      destruct (Z.eqb_spec (bp g (edge s k)) (bp g v)) as [E|E]; cbn [negb b2z].
      * rewrite Z.lor_0_r. split; [auto|]. rewrite F2. split; intros H e He; [destruct (Z.eq_dec e k) as [->|]; [auto | apply H; lia] | apply H; lia].
      * destruct F1 as [->| ->]; (split; [auto|]); (split; [discriminate | intros H; exfalso; apply E; apply H; lia]).
  - exists f. split; [reflexivity|]. rewrite F2. split.
    + intros H (e & (_ & He) & Hn). apply Hn. auto.
    + intros H e He. destruct (Z.eq_dec (bp g (edge s e)) (bp g v)); auto. exfalso. apply H. exists e. split; [split; auto | auto].
Qed.

(** ** Cost computation *)
Hypothesis P01 : forall w, isvert s w -> bp g w = 0 \/ bp g w = 1.

Definition cutd (v : Z) : Z := zsum (vert s v) (vend s v) (fun e => if bp g (edge s e) =? bp g v then 0 else edlo s e).
Definition isf (v : Z) : bool := existsb (fun e => negb (bp g (edge s e) =? bp g v)) (zseq (vert s v) (vend s v - vert s v)).

Lemma isf_spec v : isvert s v -> (isf v = true <-> onfront g v).
Proof.
  intros Hv. unfold isf. rewrite existsb_exists. split.
  - intros (e & He & Hn). rewrite In_zseq in He. exists e. split; [split; [auto | lia] | lia].
  - intros (e & (_ & He) & Hn). exists e. rewrite In_zseq. split; [lia | lia].
Qed.

Lemma costArcs_spec v cml : isvert s v -> exists f, costArcs s (bpart g) (bp g v) (vert s v) (vend s v) (cml, 0) = Ok (cml + cutd v, f) /\ negb (f =? 0) = isf v.
Proof.
  intros Hv. unfold costArcs. pose proof (gv_range _ V v Hv) as Hr.
  match goal with |- exists f, ?r = _ /\ _ => destruct (wp_ok_inv r (fun '(c, f) => c = cml + cutd v /\ (f = 0 \/ f = 1) /\ (f = 0 <-> forall e, vert s v <= e < vend s v -> bp g (edge s e) = bp g v))) as ((c & f) & -> & -> & F1 & F2) end.
  - apply wp_for with (I := fun k '(c, f) => c = cml + zsum (vert s v) k (fun e => if bp g (edge s e) =? bp g v then 0 else edlo s e) /\ (f = 0 \/ f = 1) /\ (f = 0 <-> forall e, vert s v <= e < k -> bp g (edge s e) = bp g v)).
    + lia.
    + rewrite zsum_nil by lia. split; [lia|]. split; [auto|]. split; [intros; lia | auto].
    + intros k (c, f) Hk (-> & F1 & F2). assert (A : arc s v k) by (split; auto). rewrite (bredlo v k A). cbn [bind]. rewrite (redge_ok s v k (br_graph _ R) A). cbn [bind]. pose proof (gv_end _ V v k A) as Hw.
      rewrite bpart_rd by auto. cbn [bind wp]. rewrite zsum_snoc by lia. rewrite lxor01 by auto.
      destruct (Z.eqb_spec (bp g (edge s k)) (bp g v)) as [E|E].
      * rewrite (proj2 (Z.eqb_eq (bp g v) (bp g (edge s k)))) by auto. cbn [negb b2z Z.opp]. rewrite Z.land_0_r, Z.lor_0_r. split; [lia|]. split; [auto|].
        rewrite F2. split; intros H e He; [destruct (Z.eq_dec e k) as [->|]; [auto | apply H; lia] | apply H; lia].
      * rewrite (proj2 (Z.eqb_neq (bp g v) (bp g (edge s k)))) by auto. cbn [negb b2z]. change (- (1)) with (-1). rewrite Z.land_m1_r. split; [lia|].
        destruct F1 as [->| ->]; (split; [auto|]); (split; [discriminate | intros H; exfalso; apply E; apply H; lia]).
    + intros (c, f) H. exact H.
  - exists f. split; [reflexivity|]. destruct (isf v) eqn:Ei.
    + apply (isf_spec v Hv) in Ei. destruct Ei as (e & (_ & He) & Hn). destruct F1 as [->| ->]; [|reflexivity]. exfalso. apply Hn. apply F2; auto.
    + destruct F1 as [->| ->]; [reflexivity|]. exfalso. assert (1 = 0); [|lia]. apply F2. intros e He. destruct (Z.eq_dec (bp g (edge s e)) (bp g v)) as [|Hn]; auto.
      assert (isf v = true); [|congruence]. apply (isf_spec v Hv). exists e. split; [split; auto | auto].
Qed.

Definition frs (k : Z) : list Z := filter isf (zseq b (k - b)).
Lemma frs_snoc k : b <= k -> frs (k + 1) = frs k ++ (if isf k then [k] else []).
Proof.
  intros. unfold frs. replace (k + 1 - b) with (k - b + 1) by lia. rewrite zseq_snoc by lia. rewrite filter_app. f_equal. replace (b + (k - b)) with k by lia. reflexivity.
Qed.
Lemma frs_len k : b <= k -> zlen (frs k) <= k - b.
Proof. revert k. apply zrange_ind; [unfold frs; rewrite zseq_0 by lia; cbn; lia|]. intros k Hk IH. rewrite frs_snoc by auto. rewrite zlen_app. destruct (isf k); [rewrite zlen_one | change (zlen (@nil Z)) with 0]; lia. Qed.

Definition costInv (fron : option (list Z)) (k : Z) (c : bcost) : Prop :=
  k_ld1 c = zsum b k (fun v => if bp g v =? 1 then velo s v else 0) /\
  k_sz1 c = zcount b k (fun v => bp g v =? 1) /\
  k_int c = zsum b k cutd /\
  k_ext c = bcmle0 g + zsum b k (fun v => if bp g v =? 1 then veex g v else 0) /\
  k_gain c = zsum b k (fun v => veex g v * (1 - 2 * bp g v)) /\
  match fron with
  | None => k_fron c = None
  | Some fr0 => exists fr, k_fron c = Some fr /\ zlen fr = zlen fr0 /\ k_nbr c = zlen (frs k) /\ (forall i, 0 <= i < zlen (frs k) -> at_ 0 fr i = at_ 0 (frs k) i)
  end.

Lemma costLoop_spec fron : (forall fr, fron = Some fr -> vertnbr s <= zlen fr) ->
  exists c, for_ b e_ (costVert g (bpart g)) (mkbcost fron 0 0 0 0 (bcmle0 g) 0) = Ok c /\ costInv fron e_ c.
Proof.
  intros Hfr. pose proof (gv_nnd _ V) as Hn. pose proof (gv_size _ V) as H0.
  match goal with |- exists c, ?r = _ /\ _ => destruct (wp_ok_inv r (costInv fron e_)) as (c & -> & Hc) end; [|eauto].
  apply wp_for with (I := costInv fron); auto.
  - lia.
  - unfold costInv. cbn [k_ld1 k_sz1 k_int k_ext k_gain k_fron k_nbr]. rewrite !zsum_nil, zcount_nil by lia. repeat (split; [lia|]).
    destruct fron as [fr|]; [|reflexivity]. exists fr. unfold frs. rewrite zseq_0 by lia. cbn. repeat split; auto. intros; lia.
  - intros v c Hv (C1 & C2 & C3 & C4 & C5 & C6). unfold costVert. rewrite bpart_rd by exact Hv. cbn [bind]. rewrite brvelo by exact Hv. cbn [bind].
    match goal with |- wp (bind ?r _) _ _ => assert (E : r = Ok (k_ext c + (if bp g v =? 1 then veex g v else 0), k_gain c + veex g v * (1 - 2 * bp g v))) end.
    { unfold veex. pose proof (br_veex _ R) as G. destruct (bveex g) as [t|].
      - rewrite rd_ok by (specialize (G t eq_refl); lia). cbn [bind]. rewrite land_msk by (apply P01; exact Hv). reflexivity.
      - f_equal. f_equal; [destruct (bp g v =? 1)|]; lia. }
    rewrite E. cbn [bind]. rewrite (rvert_ok s v (br_graph _ R) V Hv), (rvend_ok s v (br_graph _ R) V Hv). cbn [bind].
    destruct (costArcs_spec v (k_int c) Hv) as (f & -> & Ef). cbn [bind]. rewrite Ef.
    assert (C6' : exists fr nbr, (match k_fron c with
      | Some fr => if isf v then do fr <- wr 0 fr (k_nbr c) v; Ok (Some fr, k_nbr c + 1) else Ok (Some fr, k_nbr c)
      | None => Ok (None, k_nbr c) end) = Ok (fr, nbr) /\ match fron with
        | None => fr = None
        | Some fr0 => exists fr', fr = Some fr' /\ zlen fr' = zlen fr0 /\ nbr = zlen (frs (v + 1)) /\ (forall i, 0 <= i < zlen (frs (v + 1)) -> at_ 0 fr' i = at_ 0 (frs (v + 1)) i) end).
    { destruct fron as [fr0|].
      - destruct C6 as (fr & -> & Zf & Nf & Af). specialize (Hfr fr0 eq_refl). pose proof (frs_len v ltac:(lia)). destruct (isf v) eqn:Ei.
        + assert (Hz := zlen_nonneg (frs v)). rewrite wr_ok by lia. cbn [bind]. eexists _, _. split; [reflexivity|]. rewrite frs_snoc, Ei by lia. rewrite zlen_app, zlen_one. exists (upd 0 fr (k_nbr c) v).
          split; [reflexivity|]. split; [now rewrite zlen_upd|]. split; [lia|]. intros i Hi. rewrite at_upd by lia. destruct (Z.eqb_spec (k_nbr c) i) as [<-|].
          * rewrite Nf, at_app2 by lia. rewrite Z.sub_diag. reflexivity.
          * rewrite at_app1 by lia. apply Af. lia.
        + eexists _, _. split; [reflexivity|]. rewrite frs_snoc, Ei, app_nil_r by lia. exists fr. auto.
      - rewrite C6. eexists _, _. split; [reflexivity|]. reflexivity. }
    destruct C6' as (fr & nbr & -> & C6'). cbn [bind wp]. unfold costInv. cbn [k_ld1 k_sz1 k_int k_ext k_gain k_fron k_nbr].
    rewrite !zsum_snoc, zcount_snoc by lia. rewrite land_msk by (apply P01; exact Hv). split; [lia|].
    split; [rewrite C2; destruct (P01 v Hv) as [->| ->]; cbn [Z.eqb Pos.eqb b2z]; lia|]. split; [lia|]. split; [lia|]. split; [lia|].
    destruct fron; [|exact C6']. destruct C6' as (fr' & -> & H). exists fr'. auto.
Qed.

Lemma cutd_bcut : zsum b e_ cutd = 2 * bcut g.
Proof.
  unfold bcut.
  set (F := fun v w => if (bp g v =? 0) && (bp g w =? 1) then 1 else 0).
  assert (E1 : bcut g = zsum b e_ (fun v => zsum (vert s v) (vend s v) (fun e => F v (edge s e) * edlo s e))).
  { unfold bcut. apply zsum_ext. intros v _. apply zsum_ext. intros e _. unfold F. destruct (_ && _); lia. }
  fold (bcut g). replace (2 * bcut g) with (bcut g + bcut g) by lia. rewrite E1 at 2. rewrite (arcs_reverse s F V), E1.
  apply zsum_split_eq. intros v Hv. unfold cutd. apply zsum_split_eq. intros e He.
  assert (A : arc s v e) by (split; auto). unfold F. destruct (P01 v Hv) as [->| ->], (P01 _ (gv_end _ V v e A)) as [->| ->]; cbn [Z.eqb Pos.eqb andb]; lia.
Qed.

Lemma bsum (f : Z -> Z) : zsum b e_ f = zsum b e_ (fun v => if bp g v =? 0 then f v else 0) + zsum b e_ (fun v => if bp g v =? 1 then f v else 0).
Proof. apply zsum_split_eq. intros v Hv. destruct (P01 v Hv) as [->| ->]; cbn [Z.eqb Pos.eqb]; lia. Qed.

Lemma bgraphCost2_spec fron : (forall fr, fron = Some fr -> vertnbr s <= zlen fr) ->
  exists c, bgraphCost2 g (bpart g) fron = Ok c /\
    vertnbr s - k_sz1 c = bsize g 0 /\ velosum s - k_ld1 c = bload g 0 /\ k_int c = bcut g /\ k_ext c = bcmle0 g + bext g 1 /\ k_gain c = bext g 0 - bext g 1 /\
    match fron with
    | None => k_fron c = None
    | Some fr0 => exists fr, k_fron c = Some fr /\ zlen fr = zlen fr0 /\ k_nbr c = zlen (frs e_) /\ (forall i, 0 <= i < zlen (frs e_) -> at_ 0 fr i = at_ 0 (frs e_) i)
    end.
Proof.
  intros Hfr. unfold bgraphCost2. destruct (costLoop_spec fron Hfr) as (c & -> & C1 & C2 & C3 & C4 & C5 & C6). cbn [bind]. eexists. split; [reflexivity|].
  cbn [k_ld1 k_sz1 k_int k_ext k_gain k_fron k_nbr]. pose proof (gv_nnd _ V) as Hn. pose proof (gv_size _ V) as H0. repeat split.
  - rewrite C2. unfold bsize. pose proof (bsum (fun _ => 1)) as B. rewrite zsum_const in B by lia. unfold zcount, b2z in *. lia.
  - rewrite C1, (gv_velosum _ V). unfold bload. pose proof (bsum (velo s)). lia.
  - rewrite C3, cutd_bcut. rewrite Z.mul_comm. apply Z.quot_mul. lia.
  - rewrite C4. reflexivity.
  - rewrite C5. unfold bext. rewrite (zsum_ext b e_ (fun v => veex g v * (1 - 2 * bp g v)) (fun v => (if bp g v =? 0 then veex g v else 0) + -1 * (if bp g v =? 1 then veex g v else 0))).
    + rewrite zsum_add, zsum_scale. lia.
    + intros v Hv. destruct (P01 v Hv) as [->| ->]; cbn [Z.eqb Pos.eqb]; lia.
  - exact C6.
Qed.

Lemma frs_In v : In v (frs e_) <-> isvert s v /\ onfront g v.
Proof.
  unfold frs. rewrite filter_In, In_zseq. pose proof (gv_nnd _ V) as Hn. split.
  - intros (H1 & H2). assert (Hv : isvert s v) by (unfold isvert; lia). split; auto. now apply isf_spec.
  - intros (H1 & H2). split; [unfold isvert in H1; lia | now apply isf_spec].
Qed.
Lemma frs_NoDup : NoDup (frs e_).
Proof. apply NoDup_filter, NoDup_zseq. Qed.
End Bip.
