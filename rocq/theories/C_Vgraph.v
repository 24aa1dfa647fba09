(** Properties C28, C29 and C30: vertex separations. *)
From Verif Require Import Base Mem M_Graph M_Vgraph S_Graph S_Vgraph P_Graph C_Graph P_Vgraph P_Vgraph2.

(** C28: what acceptance means.  Only the arithmetic shape of the vertex range
    is assumed of the graph, and that part values are bytes. *)
Theorem C28_vgraphCheck_sound :
  forall g, 0 <= vertnbr (vs g) -> vertnnd (vs g) = baseval (vs g) + vertnbr (vs g) ->
    (forall v, isvert (vs g) v -> 0 <= part g v) ->
    vgraphCheck g = Ok tt ->
    vg_struct (vs g) /\ vg_counts g /\ fron_counted g /\ separated g /\
    ((forall i j, 0 <= i < vfronnbr g -> 0 <= j < vfronnbr g -> fron g i = fron g j -> i = j) -> fron_exact g).
Proof.
  intros g Hn He Hb H. destruct (vgraphCheck_sound g Hn He Hb H) as (A & B & C & D).
  repeat (split; [assumption|]). intros Hi. now apply fron_counted_exact.
Qed.
Print Assumptions C28_vgraphCheck_sound.

(** C28: every consistent separation is accepted. *)
Theorem C28_vgraphCheck_complete :
  forall g, vg_readable g -> vg_struct (vs g) -> vg_counts g -> fron_exact g -> separated g -> vgraphCheck g = Ok tt.
Proof.
  intros g R S C F P. apply vgraphCheck_complete; auto. pose proof (vr_nnd _ R) as (N1 & N2). now apply fron_exact_counted.
Qed.
Print Assumptions C28_vgraphCheck_complete.

(** C28: resetting gives an accepted separation with everything in part 0. *)
Theorem C28_vgraphZero :
  forall g, vg_readable g -> vg_struct (vs g) -> velosum (vs g) = zsum (baseval (vs g)) (vertnnd (vs g)) (velo (vs g)) ->
    exists h, vgraphZero g = Ok h /\ vs h = vs g /\ (forall v, isvert (vs g) v -> part h v = 0) /\
      vg_counts h /\ fron_exact h /\ separated h /\ vgraphCheck h = Ok tt.
Proof.
  intros g R S V. destruct (vgraphZero_spec g R S V) as (h & E & Es & Rh & Ch & Fh & Sh & P0 & _).
  exists h. repeat (split; [assumption|]). apply C28_vgraphCheck_complete; auto. now rewrite Es.
Qed.
Print Assumptions C28_vgraphZero.

(** A path 1 - 2 - 3 - 4 - 5 with loads 1 to 5. *)
Definition ex_p5 : graph :=
  mkgraph 1 5 6 [1; 2; 4; 6; 8; 9] None (Some [1; 2; 3; 4; 5]) 15 None None 8 [2; 1; 3; 2; 4; 3; 5; 4] None 8 2.
Definition ex_sep : vgraph := mkvgraph ex_p5 [0; 2; 2; 1; 1] [2; 3; 0; 0; 0] 2 1 2 1 9 5 (-8) 1 1.

Lemma ex_p5_ok : graph_valid ex_p5 /\ graph_readable ex_p5.
Proof. apply (C09_graphCheck_sound 100). vm_compute. reflexivity. Qed.
Lemma ex_sep_ok : vgraphCheck ex_sep = Ok tt.
Proof. vm_compute. reflexivity. Qed.
Lemma ex_sep_readable : vg_readable ex_sep.
Proof.
  constructor; try (cbn; lia); [apply ex_p5_ok|]. intros v Hv. unfold isvert in Hv. cbn in Hv.
  assert (C : v = 1 \/ v = 2 \/ v = 3 \/ v = 4 \/ v = 5) by lia. destruct C as [->|[->|[->|[->| ->]]]]; vm_compute; split; discriminate.
Qed.
Lemma ex_sep_valid : vg_struct (vs ex_sep) /\ vg_counts ex_sep /\ fron_exact ex_sep /\ separated ex_sep.
Proof.
  destruct (C28_vgraphCheck_sound ex_sep) as (A & B & C & D & E); try (cbn; lia).
  - intros v Hv. pose proof (vr_byte _ ex_sep_readable v Hv). lia.
  - exact ex_sep_ok.
  - repeat (split; [assumption|]). split; [|assumption]. apply E. intros i j Hi Hj. cbn in Hi, Hj.
    assert (Ci : i = 0 \/ i = 1) by lia. assert (Cj : j = 0 \/ j = 1) by lia. destruct Ci as [->| ->], Cj as [->| ->]; vm_compute; intros X; first [reflexivity | discriminate X].
Qed.
Example C28_example :
  vgraphCheck ex_sep = Ok tt /\ vg_readable ex_sep /\ vg_struct (vs ex_sep) /\ vg_counts ex_sep /\ fron_exact ex_sep /\ separated ex_sep /\
  vgraphZero ex_sep = Ok (mkvgraph ex_p5 [0; 0; 0; 0; 0] [2; 3; 0; 0; 0] 0 5 0 15 0 0 15 1 1) /\
  (* part 0 next to part 1; wrong frontier size; wrong load *)
  vgraphCheck (mkvgraph ex_p5 [0; 1; 2; 1; 1] [3; 0; 0; 0; 0] 1 1 3 1 11 3 (-10) 1 1) = Err 1 /\
  vgraphCheck (mkvgraph ex_p5 [0; 2; 2; 1; 1] [2; 3; 0; 0; 0] 1 1 2 1 9 5 (-8) 1 1) = Err 1 /\
  vgraphCheck (mkvgraph ex_p5 [0; 2; 2; 1; 1] [2; 3; 0; 0; 0] 2 1 2 1 8 6 (-7) 1 1) = Err 1.
Proof.
  split; [exact ex_sep_ok|]. split; [exact ex_sep_readable|]. destruct ex_sep_valid as (A & B & C & D).
  repeat (split; [assumption|]). repeat split; vm_compute; reflexivity.
Qed.

(** C28, negative: acceptance does not make the recorded frontier the separator.
    Duplicate entries are not looked for: here the separator is {2, 3} and the
    frontier is [2; 2]. *)
Theorem C28_frontier_exact_refuted :
  exists g, vg_readable g /\ vgraphCheck g = Ok tt /\ ~ fron_exact g.
Proof.
  exists (mkvgraph ex_p5 [0; 2; 2; 1; 1] [2; 2; 0; 0; 0] 2 1 2 1 9 5 (-8) 1 1). split; [|split; [vm_compute; reflexivity|]].
  - destruct ex_sep_readable as [A B C D E]. constructor; auto.
  - intros (_ & _ & F & _). specialize (F 0 1). cbn in F. assert (0 = 1) by (apply F; [lia | lia | reflexivity]). lia.
Qed.
Print Assumptions C28_frontier_exact_refuted.

(** C29: saving, then restoring into any state [h] of the same graph with arrays
    of the same use.  [gs] is sizeof (Gnum); [data] is the arbitrary contents of
    the allocated save area. *)
Theorem C29_save_restore :
  forall gs g data,
    0 < gs -> vg_readable g -> graph_valid (vs g) -> vg_counts g -> fron_exact g -> zlen data = zlen (vgraphStoreInit gs g) ->
    exists t, vgraphStoreSave gs g data = Ok t /\
      forall h, vs h = vs g -> vdw0 h = vdw0 g -> vdw1 h = vdw1 g -> vertnbr (vs g) <= zlen (vpart h) -> vertnbr (vs g) <= zlen (vfron h) ->
      exists h', vgraphStoreUpdt gs h t = Ok h' /\ vs h' = vs g /\
        (forall v, isvert (vs g) v -> part h' v = part g v) /\
        vfronnbr h' = vfronnbr g /\ (forall i, 0 <= i < vfronnbr g -> fron h' i = fron g i) /\
        vcsz0 h' = vcsz0 g /\ vcsz1 h' = vcsz1 g /\ vcld0 h' = vcld0 g /\ vcld1 h' = vcld1 g /\ vcld2 h' = vcld2 g /\ vdlt h' = vdlt g /\
        vdw0 h' = vdw0 g /\ vdw1 h' = vdw1 g.
Proof.
  intros gs g data Hg R V C F Hd. pose proof (vr_nnd _ R) as (N1 & N2). destruct (fron_exact_counted g N1 N2 F) as (Fc & _).
  assert (Sz : psize g 0 + psize g 1 + psize g 2 = vertnbr (vs g)).
  { unfold psize. replace (vertnbr (vs g)) with (zcount (baseval (vs g)) (vertnnd (vs g)) (fun _ => true)) by (rewrite zcount_all by (auto; lia); lia).
    unfold zcount. rewrite <- !zsum_add. apply zsum_ext. intros v Hv. pose proof (vc_part _ C v Hv).
    destruct (Z.eqb_spec (part g v) 0), (Z.eqb_spec (part g v) 1), (Z.eqb_spec (part g v) 2); cbn [b2z]; lia. }
  pose proof (psum_all g V g eq_refl (vc_part _ C)) as Ld. destruct C as [C1 C2 C3 C4 C5 C6 C7].
  assert (Hk : 0 <= vfronnbr g <= vertnbr (vs g)).
  { rewrite Fc. split; [apply zcount_nonneg|]. pose proof (zcount_nonneg (baseval (vs g)) (vertnnd (vs g)) (fun v => part g v =? 0)).
    pose proof (zcount_nonneg (baseval (vs g)) (vertnnd (vs g)) (fun v => part g v =? 1)). unfold psize in *. lia. }
  destruct (vgraphStore_round gs g data Hg R Hk Hd) as (t & Et & Hu); [lia | lia|].
  exists t. split; [exact Et|]. intros h A1 A2 A3 A4 A5.
  destruct (Hu h A1 A2 A3 A4 ltac:(lia)) as (h' & B1 & B2 & B3 & B4 & B5 & B6 & B7 & B8 & B9 & B10 & B11 & B12 & B13 & B14 & B15).
  exists h'. repeat (split; [assumption|]). assumption.
Qed.
Print Assumptions C29_save_restore.

(** Saving the separation above, resetting, restoring. *)
Example C29_example :
  (do t <- vgraphStoreSave 4 ex_sep (vgraphStoreInit 4 ex_sep); do z <- vgraphZero ex_sep; vgraphStoreUpdt 4 z t) = Ok ex_sep /\
  vg_readable ex_sep /\ graph_valid (vs ex_sep) /\ vg_counts ex_sep /\ fron_exact ex_sep.
Proof.
  split; [vm_compute; reflexivity|]. split; [exact ex_sep_readable|]. split; [apply ex_p5_ok|]. destruct ex_sep_valid as (A & B & C & D). auto.
Qed.

(** C30: thinning. *)
Theorem C30_thinning :
  forall g, vg_readable g -> graph_valid (vs g) -> vg_counts g -> fron_exact g -> separated g ->
    exists h, vgraphSeparateTh g = Ok h /\ vs h = vs g /\ vdw0 h = vdw0 g /\ vdw1 h = vdw1 g /\
      vg_counts h /\ fron_exact h /\ separated h /\ vgraphCheck h = Ok tt /\
      (forall v, isvert (vs g) v -> part h v = 2 -> part g v = 2) /\
      (forall v, isvert (vs g) v -> part g v <> 2 -> part h v = part g v) /\
      (forall v, isvert (vs g) v -> part h v = 2 -> touches h v 0 /\ touches h v 1).
Proof.
  intros g R V C F P. destruct (vgraphSeparateTh_spec g R V C F P) as (h & E & [I1 I2 I3 I4 I5 I6 I7 I8 I9 I10] & E0 & E1).
  exists h. repeat (split; [assumption|]). split; [|split; [|split; [exact I9|]]].
  - apply C28_vgraphCheck_complete; auto.
    + destruct R as [R1 R2 R3 R4 R5]. constructor; rewrite ?I1; auto; try lia. intros v Hv. pose proof (vc_part _ I6 v). rewrite I1 in H. specialize (H Hv). lia.
    + rewrite I1. constructor; [apply (gv_range _ V) | apply (gv_end _ V)].
  - intros v Hv Ph. destruct (Z.eq_dec (part g v) 2); auto. rewrite I9 in Ph; auto.
  - intros v Hv Ph. destruct I7 as (_ & _ & _ & F3). rewrite I1 in F3. destruct (F3 v Hv Ph) as (i & Hi & <-). now apply I10.
Qed.
Print Assumptions C30_thinning.

(** Vertex 2 of the separation above is useless and joins part 0. *)
Example C30_example :
  vgraphSeparateTh ex_sep = Ok (mkvgraph ex_p5 [0; 0; 2; 1; 1] [3; 3; 0; 0; 0] 1 2 2 3 9 3 (-6) 1 1) /\
  vg_readable ex_sep /\ graph_valid (vs ex_sep) /\ vg_counts ex_sep /\ fron_exact ex_sep /\ separated ex_sep.
Proof.
  split; [vm_compute; reflexivity|]. split; [exact ex_sep_readable|]. split; [apply ex_p5_ok|]. destruct ex_sep_valid as (A & B & C & D). auto.
Qed.
