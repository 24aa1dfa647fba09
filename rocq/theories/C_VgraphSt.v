(** Properties C49, C50 and C51: vertex separation strategies. *)
From Verif Require Import Base Mem M_Graph M_Vgraph M_Coarsen M_Order M_HgraphOrder M_VgraphSt S_Graph S_Vgraph S_Match S_Coarsen S_Order S_HgraphOrder S_VgraphSt.
From Verif Require Import P_Vgraph P_VgraphSt P_VgraphSt2 P_VgraphMl P_VgraphMl2 P_VgraphGp3 C_Graph C_Vgraph C_HgraphOrder.

Lemma vstate_checked g : vstate g -> vgraphCheck g = Ok tt.
Proof. intros [V B R D C F S]. apply C28_vgraphCheck_complete; auto. now apply vupto_struct. Qed.

(** C49: whatever the strategy, from a consistent separation, there is no memory error, and a null return value comes with a consistent
    separation of the same graph, which the checking routine accepts.  The value is null if no method can fail. *)
Theorem C49_strategy :
  forall gs ab s tot g, 0 < gs -> vsgood tot s -> vstate g ->
    exists rc h, vgraphSeparateSt gs ab s g = Ok (rc, h) /\ (tot = true -> rc = 0) /\ vs h = vs g /\
      (rc = 0 -> vstate h /\ vgraphCheck h = Ok tt).
Proof.
  intros gs ab s tot g Hg Hs Sg. destruct (St_good gs ab Hg s tot Hs g Sg) as (rc & h & E & Sm & Hz & Ht). exists rc, h.
  split; [exact E|]. split; [exact Ht|]. split; [exact (vm_graph _ _ Sm)|]. intros Z0. split; [auto | apply vstate_checked; auto].
Qed.
Print Assumptions C49_strategy.

(** C49: selection.  Both strategies start from the same separation, the result is what one of them gives, and
    none gives better, when abs is exact on Gnum's. *)
Theorem C49_select :
  forall gs s1 s2 g, 0 < gs -> vsgood false s1 -> vsgood false s2 -> vstate g ->
    exists h g1 c1 c2, vgraphSeparateSt gs abs_int32 (VSelect s1 s2) g = Ok (0, h) /\ vstate h /\ vequiv g g1 /\
      voutcome gs abs_int32 s1 g c1 /\ voutcome gs abs_int32 s2 g1 c2 /\ (vequiv c1 h \/ vequiv c2 h) /\
      ~ vbetter c1 h /\ ~ vbetter c2 h.
Proof.
  intros gs s1 s2 g Hg H1 H2 Sg. destruct (St_select gs abs_int32 s1 s2 g Hg (St_good gs abs_int32 Hg s1 false H1) (St_good gs abs_int32 Hg s2 false H2) Sg) as (h & g1 & c1 & c2 & E & Sh & Sm & Q & O1 & O2 & S1 & S2 & B).
  exists h, g1, c1, c2. split; [exact E|]. split; [exact Sh|]. split; [exact Q|]. split; [exact O1|]. split; [exact O2|].
  unfold abs_int32, vbetter in *. destruct (Z.ltb_spec (vcld2 c1) (vcld2 c2)) as [L|L]; cbn [orb] in B.
  - split; [now left|]. destruct B as [_ _ _ _ _ _ _ _ -> ->]. lia.
  - destruct (Z.eqb_spec (vcld2 c1) (vcld2 c2)) as [Eq|Ne]; cbn [andb] in B.
    + destruct (Z.ltb_spec (Z.abs (vdlt c1)) (Z.abs (vdlt c2))); (split; [tauto|]); destruct B as [_ _ _ _ _ _ _ _ -> ->]; lia.
    + split; [tauto|]. destruct B as [_ _ _ _ _ _ _ _ -> ->]. lia.
Qed.
Print Assumptions C49_select.

(** C49: methods Z and T never fail *)
Theorem C49_methods : vgood true vgraphSeparateZr /\ vgood true vgraphSeparateThMeth.
Proof. split; [exact Zr_good | exact Th_good]. Qed.
Print Assumptions C49_methods.

(** C49: when Gnum is a 64-bit type, abs only keeps the low-order bits of the imbalance, and the worse separation may be kept. *)
Definition ex_heavy : vgraph :=
  mkvgraph (mkgraph 0 2 2 [0; 0; 0] None (Some [2 ^ 31 + 1; 2 ^ 31 - 1]) (2 ^ 32) None None 0 [] None 0 0) [0; 1] [0; 0] 0 1 1 (2 ^ 31 + 1) (2 ^ 31 - 1) 0 2 1 1.
Lemma checked_state gm g : 0 <= baseval (vs g) -> graphCheck gm (vs g) = Ok tt -> vgraphCheck g = Ok tt -> 0 <= vdw0 g /\ 0 <= vdw1 g /\ 0 < vdw0 g + vdw1 g ->
  vertnbr (vs g) <= zlen (vpart g) -> vertnbr (vs g) <= zlen (vfron g) -> vertnbr (vs g) = zlen (vpart g) -> forallb (fun p => (0 <=? p) && (p <=? 255)) (vpart g) = true -> NoDup (firstn (Z.to_nat (vfronnbr g)) (vfron g)) -> vstate g.
Proof.
  intros Hb GC VC D Hp Hf He Hy Nd. destruct (C09_graphCheck_sound gm _ GC) as (GV & GR). pose proof (gv_nnd _ GV) as N. pose proof (gv_size _ GV) as N0.
  assert (By : forall v, isvert (vs g) v -> 0 <= part g v <= 255).
  { intros v Hv. unfold isvert in Hv. rewrite forallb_forall in Hy. specialize (Hy (part g v)). rewrite Bool.andb_true_iff, !Z.leb_le in Hy. apply Hy. unfold part. apply at_In. lia. }
  destruct (C28_vgraphCheck_sound g N0 N) as (A & B & C & E & F); [intros v Hv; specialize (By v Hv); lia | exact VC |].
  assert (V : valid_upto_sum (vs g)). { exists (edlosum (vs g)). replace (setsum (edlosum (vs g)) (vs g)) with (vs g); [exact GV|]. now destruct (vs g). }
  constructor; auto.
  - constructor; auto.
  - apply F. intros i j Hi Hj Eq. unfold fron in Eq. rewrite NoDup_nth_error in Nd. destruct C as (C0 & _).
    assert (Hm : vfronnbr g <= zlen (vfron g)). { pose proof (zcount_nonneg (baseval (vs g)) (vertnnd (vs g)) (fun v => part g v =? 0)) as X0. pose proof (zcount_nonneg (baseval (vs g)) (vertnnd (vs g)) (fun v => part g v =? 1)) as X1. assert (Rg : vg_readable g) by (constructor; auto). pose proof (psize_all g Rg (vc_part _ B)) as X2. unfold psize in *. lia. }
    assert (K : forall k, 0 <= k < vfronnbr g -> nth_error (firstn (Z.to_nat (vfronnbr g)) (vfron g)) (Z.to_nat k) = Some (at_ 0 (vfron g) k)).
    { intros k Hk. rewrite <- (at_firstn 0 (vfron g) (vfronnbr g) k) by lia. unfold at_. rewrite Z.sub_0_r. apply nth_error_nth'. rewrite firstn_length. unfold zlen in *. lia. }
    assert (X : Z.to_nat i = Z.to_nat j); [|lia]. apply Nd.
    + rewrite firstn_length. unfold zlen in *. lia.
    + rewrite !K by lia. congruence.
Qed.
Theorem C49_select_wide_refuted :
  exists g h, vstate g /\ vgraphSeparateSt 8 abs_int64 (VSelect VEmpty (VMeth vgraphSeparateZr)) g = Ok (0, h) /\ vbetter g h.
Proof.
  exists ex_heavy. eexists. split; [|split; [vm_compute; reflexivity | right; vm_compute; split; reflexivity]].
  apply (checked_state (2 ^ 62)); try (vm_compute; first [reflexivity | discriminate | repeat split; first [reflexivity|discriminate]]). cbn. constructor.
Qed.
Print Assumptions C49_select_wide_refuted.

(** C49: these strategies meet the requirements of nested dissection, when started the way it starts them *)
Theorem C49_dissection :
  forall gs ab s tot, 0 < gs -> vsgood tot s -> sep_good tot (sepOf (vgraphSeparateSt gs ab s)).
Proof. intros gs ab s tot Hg Hs. apply sepOf_good. now apply St_good. Qed.
Print Assumptions C49_dissection.

(** C50: projecting a separation to the finer graph.  Each vertex gets the part of its coarse vertex; the result is
    consistent, with the same loads and imbalance. *)
Theorem C50_project :
  forall g ch mate fc mult, vg_readable g -> valid_upto_sum (vs g) -> 0 <= baseval (vs g) -> 0 <= vdw0 g /\ 0 <= vdw1 g /\ 0 < vdw0 g + vdw1 g ->
    vstate ch -> vdw0 ch = vdw0 g /\ vdw1 ch = vdw1 g -> is_matching (vs g) mate -> is_coarse (vs g) (vs ch) mate fc mult ->
    exists h, mlUncoarsen g ch mult = Ok h /\ vs h = vs g /\ vstate h /\ (forall v, isvert (vs g) v -> part h v = part ch (at_ (baseval (vs g)) fc v)) /\
      vcld0 h = vcld0 ch /\ vcld1 h = vcld1 ch /\ vcld2 h = vcld2 ch /\ vdlt h = vdlt ch.
Proof.
  intros g ch mate fc mult R V B D S Dw M C. destruct (mlUncoarsen_spec g ch mate fc mult) as (h & E & Sm & Sh & P & L); auto.
  exists h. split; [exact E|]. split; [exact (vm_graph _ _ Sm)|]. auto.
Qed.
Print Assumptions C50_project.

(** C50: multilevel separation, with the sequential coarsening of graphs.  Any number of levels, any memory contents. *)
Theorem C50_multilevel :
  forall jk cmax cmin low asc tot g, 0 <= jk <= 255 -> (forall s, cmax s <= vertnbr s) -> vgood tot low -> vgood tot asc -> vstate g ->
    exists rc h, vgraphSeparateMl jk (mlCoarsen cmax cmin) low asc g = Ok (rc, h) /\ (tot = true -> rc = 0) /\ vs h = vs g /\
      (rc = 0 -> vstate h /\ vgraphCheck h = Ok tt).
Proof.
  intros jk cmax cmin low asc tot g Hj Hc L A Sg. destruct (Ml_good jk _ low asc tot Hj (mlCoarsen_good cmax cmin Hc) L A g Sg) as (rc & h & E & Sm & Hz & Ht).
  exists rc, h. split; [exact E|]. split; [exact Ht|]. split; [exact (vm_graph _ _ Sm)|]. intros Z0. split; [auto | apply vstate_checked; auto].
Qed.
Print Assumptions C50_multilevel.

(** C51: the greedy method never fails; its separation is consistent, and part 0 does not weigh more than its share *)
Theorem C51_greedy :
  forall jk passnbr g, vstate g ->
    exists h, vgraphSeparateGp jk passnbr g = Ok (0, h) /\ vs h = vs g /\ vdw0 h = vdw0 g /\ vdw1 h = vdw1 g /\ vstate h /\ vgraphCheck h = Ok tt /\
      vcld0 h * vdw1 h <= vcld1 h * vdw0 h.
Proof.
  intros jk ps g Sg. destruct (Gp_state jk ps g Sg) as (h & E & Sm & Sh & Hd). exists h. split; [exact E|]. split; [exact (vm_graph _ _ Sm)|]. split; [exact (vm_dw0 _ _ Sm)|]. split; [exact (vm_dw1 _ _ Sm)|]. split; [exact Sh|]. split; [now apply vstate_checked|].
  pose proof (vc_dlt _ (vt_counts _ Sh)) as X. lia.
Qed.
Print Assumptions C51_greedy.

(** ** Examples *)
(** Multilevel separation: greedy method on the coarsest graph, thinning of the separator at each level *)
Definition ex_low : vstrat := VConcat (VMeth (vgraphSeparateGp 9 5)) (VMeth vgraphSeparateThMeth).
Definition ex_ml (cmin : Z) : vmeth := vgraphSeparateMl 9 (mlCoarsen (fun s => vertnbr s - 1) cmin) (vgraphSeparateSt 8 abs_int64 ex_low) vgraphSeparateThMeth.
Lemma ex_ml_good cmin : vgood true (ex_ml cmin).
Proof.
  apply Ml_good; [lia | apply mlCoarsen_good; intros; lia | | exact Th_good].
  apply St_good; [lia|]. cbn [vsgood ex_low]. split; [exact (Gp_good 9 5) | exact Th_good].
Qed.
Lemma ex_sep_state : vstate ex_sep.
Proof.
  destruct ex_sep_valid as (A & B & C & D). destruct ex_p5_ok as (V & _).
  constructor; auto; try (cbn; lia); [exists 8; exact V | exact ex_sep_readable].
Qed.
(** A cycle of nine vertices, all of them in part 0 *)
Definition ex_cycle : graph := mkgraph 1 9 10 [1; 3; 5; 7; 9; 11; 13; 15; 17; 19] None None 9 None None 18 [2; 9; 1; 3; 2; 4; 3; 5; 4; 6; 5; 7; 6; 8; 7; 9; 8; 1] None 18 2.
Definition ex_c9 : vgraph := vgraph0 3 ex_cycle.
Lemma ex_c9_state : vstate ex_c9.
Proof.
  apply vgraph0_state; [|cbn; lia]. split; [reflexivity|]. change (unload ex_cycle) with ex_cycle.
  destruct (C09_graphCheck_sound 100 ex_cycle ltac:(vm_compute; reflexivity)) as (V & R). split; [exact V|]. split; [exact R | cbn; lia].
Qed.
Definition ex_pick : vstrat := VSelect (VMeth (ex_ml 5)) (VMeth (vgraphSeparateGp 9 1)).
Example C49_example :
  vsgood true ex_pick /\ vstate ex_sep /\ vstate ex_c9 /\
  exists h, vgraphSeparateSt 8 abs_int64 ex_pick ex_sep = Ok (0, h) /\ vpart h = [0; 0; 2; 1; 1] /\ vfronnbr h = 1 /\ vcld2 h = 3 /\ vdlt h = -6.
Proof.
  split; [split; intros g Hg; [destruct (ex_ml_good 5 g Hg) as (rc & h & ? & ? & ? & ?) | destruct (Gp_good 9 1 g Hg) as (rc & h & ? & ? & ? & ?)]; exists rc, h; auto|].
  split; [exact ex_sep_state|]. split; [exact ex_c9_state|]. eexists. split; [vm_compute; reflexivity|]. vm_compute. auto.
Qed.
Example C50_example :
  vstate ex_c9 /\ vgood true (ex_ml 5) /\
  (exists cg fc, mlCoarsen (fun s => vertnbr s - 1) 5 ex_cycle = Ok (cg, fc, [(1, 2); (3, 4); (5, 6); (7, 8); (9, 9)])) /\
  exists h, ex_ml 5 ex_c9 = Ok (0, h) /\ 0 < vcsz0 h /\ 0 < vcsz1 h /\ vcld2 h < 4.
Proof.
  split; [exact ex_c9_state|]. split; [exact (ex_ml_good 5)|]. split; [do 2 eexists; vm_compute; reflexivity|].
  eexists. split; [vm_compute; reflexivity|]. vm_compute. auto.
Qed.
Example C51_example :
  vstate ex_c9 /\ exists h, vgraphSeparateGp 9 5 ex_c9 = Ok (0, h) /\ vpart h = [0; 2; 1; 1; 1; 1; 2; 0; 0] /\ vdlt h = -1.
Proof. split; [exact ex_c9_state|]. eexists. split; [vm_compute; reflexivity|]. vm_compute. auto. Qed.
(** Nested dissection with these separations *)
Example C49_dissection_example :
  sep_good true (sepOf (ex_ml 5)) /\
  graphOrder (-7) 1 ex_og (SCc (SNd (sepOf (ex_ml 5)) SSi SEmpty)) (repeat 0 8) (repeat 0 8) (repeat 0 9) (repeat 0 8) =
    Ok (0, ([1; 2; 4; 5; 3; 6; 7; 8], [1; 2; 5; 3; 4; 6; 7; 8], 4, [1; 3; 5; 6; 9; 0; 0; 0; 0], [3; 3; -1; -1; 0; 0; 0; 0])).
Proof. split; [apply sepOf_good, ex_ml_good | vm_compute; reflexivity]. Qed.
