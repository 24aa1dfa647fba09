(** Properties C31 and C32: bipartitions. *)
From Verif Require Import Base Mem M_Graph M_Vgraph M_Bgraph S_Graph S_Bgraph P_Graph C_Graph C_Vgraph P_Bgraph P_Bgraph2.

(** C31: what acceptance means, and that every consistent state is accepted.
    [avg] is the rounding of the target average; see bgraphAvg. *)
Theorem C31_bgraphCheck :
  forall avg g, bg_readable g -> graph_valid (bs g) -> (bgraphCheck avg g = Ok tt <-> bg_valid avg g).
Proof.
  intros avg g R V. split; [now apply bgraphCheck_sound|]. intros H. apply bgraphCheck_complete; auto. eapply bg_fronnbr; eauto.
Qed.
Print Assumptions C31_bgraphCheck.

(** C31: recomputing from the part array. *)
Theorem C31_bgraphCost :
  forall avg g, bg_readable g -> graph_valid (bs g) -> (forall v, isvert (bs g) v -> bp g v = 0 \/ bp g v = 1) ->
    bavg g = bgraphAvg avg (bs g) (bwg0 g) (bwg1 g) (bfx0 g) (bfx1 g) ->
    exists h, bgraphCost g = Ok h /\ bs h = bs g /\ bpart h = bpart g /\ bveex h = bveex g /\ bdist h = bdist g /\ bcmle0 h = bcmle0 g /\
      bg_valid avg h /\ bgraphCheck avg h = Ok tt.
Proof.
  intros avg g R V P A. destruct (bgraphCost_spec avg g R V P A) as (h & E & H1 & H2 & H3 & H4 & H5 & H6). injection H6 as H6 H7 _ _ _ _ _ _.
  exists h. repeat (split; [assumption|]). apply C31_bgraphCheck; rewrite ?H1; auto. destruct R as [R1 R2 R3 R4 R5]. constructor; rewrite ?H1, ?H2, ?H3; auto; [|lia].
  intros v Hv. unfold bp. rewrite H1, H3. apply R3. auto.
Qed.
Print Assumptions C31_bgraphCost.

(** C31: initial state. *)
Theorem C31_bgraphInit :
  forall avg g dist w0 w1 f0 f1, bg_readable g -> graph_valid (bs g) -> bveex g = None ->
    exists h, bgraphInit2 avg g dist w0 w1 f0 f1 = Ok h /\ bs h = bs g /\ bdist h = dist /\ bwg0 h = w0 /\ bwg1 h = w1 /\ bfx0 h = f0 /\ bfx1 h = f1 /\
      (forall v, isvert (bs g) v -> bp h v = 0) /\ bg_valid avg h /\ bgraphCheck avg h = Ok tt.
Proof.
  intros avg g dist w0 w1 f0 f1 R V X. destruct (bgraphInit2_spec avg g dist w0 w1 f0 f1 R V X) as (h & E & H1 & H2 & H3 & H4 & H5 & H6 & H7 & H8 & H9 & H10 & _ & H11).
  exists h. repeat (split; [assumption|]). apply C31_bgraphCheck; rewrite ?H1; auto. destruct R as [R1 R2 R3 R4 R5]. constructor; rewrite ?H1, ?H10; auto; try lia; try discriminate.
Qed.
Print Assumptions C31_bgraphInit.

(** C31: reset.  Without load fixed in part 0. *)
Theorem C31_bgraphZero :
  forall avg g, bg_readable g -> graph_valid (bs g) ->
    bavg g = bgraphAvg avg (bs g) (bwg0 g) (bwg1 g) (bfx0 g) (bfx1 g) -> bfx0 g = 0 -> bcmge0 g = zsum (baseval (bs g)) (vertnnd (bs g)) (veex g) ->
    exists h, bgraphZero g = Ok h /\ bs h = bs g /\ (forall v, isvert (bs g) v -> bp h v = 0) /\ bg_valid avg h /\ bgraphCheck avg h = Ok tt.
Proof.
  intros avg g R V A F G. destruct (bgraphZero_spec avg g R V A F G) as (h & E & H1 & H2 & H3 & H4 & H5 & H6).
  exists h. repeat (split; [assumption|]). apply C31_bgraphCheck; rewrite ?H1; auto. destruct R as [R1 R2 R3 R4 R5]. constructor; rewrite ?H1, ?H2; auto; try lia.
Qed.
Print Assumptions C31_bgraphZero.

(** C31: exchange of the parts.  Without fixed load. *)
Theorem C31_bgraphSwal :
  forall avg g, bg_readable g -> graph_valid (bs g) -> bg_valid avg g -> bfx0 g = 0 -> bfx1 g = 0 ->
    exists h, bgraphSwal g = Ok h /\ bs h = bs g /\ (forall v, isvert (bs g) v -> bp h v = 1 - bp g v) /\
      bfronnbr h = bfronnbr g /\ bfron h = bfron g /\ bg_valid avg h /\ bgraphCheck avg h = Ok tt.
Proof.
  intros avg g R V W F0 F1. destruct (bgraphSwal_spec avg g R V W ltac:(lia)) as (h & E & H1 & H2 & H3 & H4 & H5 & H6 & H7).
  exists h. repeat (split; [assumption|]). apply C31_bgraphCheck; rewrite ?H1; auto. destruct R as [R1 R2 R3 R4 R5]. constructor; rewrite ?H1, ?H2, ?H5; auto; try lia.
  intros v Hv. rewrite H3 by auto. destruct (bv_part _ _ W v Hv); lia.
Qed.
Print Assumptions C31_bgraphSwal.

(** The path 1 - 2 - 3 - 4 - 5 of C28 cut between 2 and 3, with external gains. *)
Definition ex_avg (sum w0 w : Z) : Z := Z.quot (sum * w0) w.
Definition ex_bip : bgraph :=
  mkbgraph ex_p5 (Some [1; -1; 2; 0; 3]) [0; 0; 1; 1; 1] [2; 3; 9; 9; 9] 2 0 15 7 (-4) 3 2 12 5 5 (-5) (4, 7) 2 1 1 0 0.
Lemma ex_bip_readable : bg_readable ex_bip.
Proof.
  constructor; try (cbn; lia); [apply ex_p5_ok| |].
  - intros v Hv. unfold isvert in Hv. cbn in Hv. assert (C : v = 1 \/ v = 2 \/ v = 3 \/ v = 4 \/ v = 5) by lia. destruct C as [->|[->|[->|[->| ->]]]]; vm_compute; split; discriminate.
  - intros t [= <-]. vm_compute. discriminate.
Qed.
Example C31_example :
  bg_readable ex_bip /\ graph_valid (bs ex_bip) /\ bgraphCheck ex_avg ex_bip = Ok tt /\ bg_valid ex_avg ex_bip /\
  bgraphCost (mkbgraph ex_p5 (Some [1; -1; 2; 0; 3]) [0; 0; 1; 1; 1] [2; 3; 9; 9; 9] 0 0 15 7 0 0 0 0 5 5 0 (4, 7) 2 1 1 0 0) = Ok ex_bip /\
  bgraphSwal ex_bip = Ok (mkbgraph ex_p5 (Some [1; -1; 2; 0; 3]) [1; 1; 0; 0; 0] [2; 3; 9; 9; 9] 2 0 15 7 5 12 3 7 5 5 5 (4, 7) 2 1 1 0 0) /\
  bgraphZero ex_bip = Ok (mkbgraph ex_p5 (Some [1; -1; 2; 0; 3]) [0; 0; 0; 0; 0] [2; 3; 9; 9; 9] 0 0 15 7 8 15 5 5 5 5 5 (8, 7) 2 1 1 0 0) /\
  bcmge0 ex_bip = zsum 1 6 (veex ex_bip) /\
  (* duplicate frontier entry; missing frontier vertex; wrong communication load *)
  bgraphCheck ex_avg (mkbgraph ex_p5 (Some [1; -1; 2; 0; 3]) [0; 0; 1; 1; 1] [2; 2; 9; 9; 9] 2 0 15 7 (-4) 3 2 12 5 5 (-5) (4, 7) 2 1 1 0 0) = Err 1 /\
  bgraphCheck ex_avg (mkbgraph ex_p5 (Some [1; -1; 2; 0; 3]) [0; 0; 1; 1; 1] [2; 3; 9; 9; 9] 1 0 15 7 (-4) 3 2 12 5 5 (-5) (4, 7) 2 1 1 0 0) = Err 1 /\
  bgraphCheck ex_avg (mkbgraph ex_p5 (Some [1; -1; 2; 0; 3]) [0; 0; 1; 1; 1] [2; 3; 9; 9; 9] 2 0 15 7 (-4) 3 2 11 5 5 (-5) (4, 7) 2 1 1 0 0) = Err 1.
Proof.
  split; [exact ex_bip_readable|]. split; [apply ex_p5_ok|]. split; [vm_compute; reflexivity|]. split.
  - apply C31_bgraphCheck; [exact ex_bip_readable | apply ex_p5_ok | vm_compute; reflexivity].
  - repeat split; vm_compute; reflexivity.
Qed.

(** C31, negative: resetting a bipartition with fixed load in part 0 gives a
    state that the check refuses (bgraph.c:242 adds the fixed load, which
    bgraph_check.c:185 does not). *)
Theorem C31_bgraphZero_fixed_load_refuted :
  exists avg g h, bg_readable g /\ graph_valid (bs g) /\ bg_valid avg g /\ bgraphZero g = Ok h /\ bgraphCheck avg h = Err 1.
Proof.
  exists ex_avg, (mkbgraph ex_p5 None [0; 0; 1; 1; 1] [2; 3; 9; 9; 9] 2 0 15 6 (-3) 3 2 1 0 0 0 (4, 7) 1 1 1 2 0). eexists.
  assert (R : bg_readable (mkbgraph ex_p5 None [0; 0; 1; 1; 1] [2; 3; 9; 9; 9] 2 0 15 6 (-3) 3 2 1 0 0 0 (4, 7) 1 1 1 2 0)).
  { destruct ex_bip_readable as [A B C D E]. constructor; auto. discriminate. }
  split; [exact R|]. split; [apply ex_p5_ok|]. split; [|split; [vm_compute; reflexivity | vm_compute; reflexivity]].
  apply C31_bgraphCheck; [exact R | apply ex_p5_ok | vm_compute; reflexivity].
Qed.
Print Assumptions C31_bgraphZero_fixed_load_refuted.

(** C31, negative: the same for the exchange of the parts (bgraph.c:225-227). *)
Theorem C31_bgraphSwal_fixed_load_refuted :
  exists avg g h, bg_readable g /\ graph_valid (bs g) /\ bg_valid avg g /\ bgraphSwal g = Ok h /\ bgraphCheck avg h = Err 1.
Proof.
  exists ex_avg, (mkbgraph ex_p5 None [0; 0; 1; 1; 1] [2; 3; 9; 9; 9] 2 0 15 6 (-3) 3 2 1 0 0 0 (4, 7) 1 1 1 2 0). eexists.
  assert (R : bg_readable (mkbgraph ex_p5 None [0; 0; 1; 1; 1] [2; 3; 9; 9; 9] 2 0 15 6 (-3) 3 2 1 0 0 0 (4, 7) 1 1 1 2 0)).
  { destruct ex_bip_readable as [A B C D E]. constructor; auto. discriminate. }
  split; [exact R|]. split; [apply ex_p5_ok|]. split; [|split; [vm_compute; reflexivity | vm_compute; reflexivity]].
  apply C31_bgraphCheck; [exact R | apply ex_p5_ok | vm_compute; reflexivity].
Qed.
Print Assumptions C31_bgraphSwal_fixed_load_refuted.

(** C32: saving, then restoring into any state [h] of the same bipartition
    problem.  [gs] is sizeof (Gnum); [data] is the arbitrary contents of the
    allocated save area. *)
Theorem C32_save_restore :
  forall gs avg g data,
    0 < gs -> bg_readable g -> graph_valid (bs g) -> bg_valid avg g -> zlen data = zlen (bgraphStoreInit gs g) ->
    exists t, bgraphStoreSave gs g data = Ok t /\
      forall h, bs h = bs g -> bveex h = bveex g -> bavg h = bavg g -> bcmle0 h = bcmle0 g -> bdist h = bdist g ->
        (bwg0 h, bwg1 h, bfx0 h, bfx1 h) = (bwg0 g, bwg1 g, bfx0 g, bfx1 g) ->
        vertnbr (bs g) <= zlen (bpart h) -> vertnbr (bs g) <= zlen (bfron h) ->
      exists h', bgraphStoreUpdt gs h t = Ok h' /\ bs h' = bs g /\
        (forall v, isvert (bs g) v -> bp h' v = bp g v) /\
        bfronnbr h' = bfronnbr g /\ (forall i, 0 <= i < bfronnbr g -> bfr h' i = bfr g i) /\
        bdlt h' = bdlt g /\ bld0 h' = bld0 g /\ bsz0 h' = bsz0 g /\ bcml h' = bcml g /\ bcmge h' = bcmge g /\
        bbal h' = (Z.abs (bdlt g), bavg g) /\ bgraphCheck avg h' = Ok tt.
Proof.
  intros gs avg g data Hg R V W Hd. pose proof (bg_fronnbr _ _ V W) as Fn. pose proof (bv_fron _ _ W) as (F0 & F1 & F2 & F3).
  destruct (bgraphStore_round gs g data Hg R V ltac:(lia) Hd (bv_dlt _ _ W)) as (t & Et & Hu). exists t. split; [exact Et|].
  intros h A1 A2 A3 A4 A5 A6 A7 A8.
  destruct (Hu h A1 A3 A7 A8) as (h' & B1 & B2 & B3 & B4 & B5 & B6 & B7 & B8 & B9 & B10 & B11 & B12 & B13 & B14 & B15 & B16).
  exists h'. repeat (split; [assumption|]). injection B16 as _ _ D1 _ D2 D3 D4 D5 D6. injection A6 as G1 G2 G3 G4.
  assert (Vv : forall v, veex h' v = veex g v) by (intros v; unfold veex; rewrite B14, A2, B2; reflexivity).
  assert (On : forall v, isvert (bs g) v -> (onfront h' v <-> onfront g v)).
  { intros v Hv. unfold onfront. rewrite B2. split; intros (e & A & N); exists e; (split; [exact A|]); pose proof (gv_end _ V v e A); [rewrite <- !B3 by auto | rewrite !B3 by auto]; exact N. }
  apply C31_bgraphCheck.
  - destruct R as [R1 R2 R3 R4 R5]. constructor; rewrite ?B2, ?B14, ?A2; auto; try lia. intros v Hv. rewrite B3; auto.
  - now rewrite B2.
  - destruct W as [W1 W2 W3 W4 W5 W6 W7 W8].
    assert (Xe : forall p, bext h' p = bext g p) by (intros p; unfold bext; rewrite B2; apply zsum_ext; intros v Hv; rewrite B3 by exact Hv; now rewrite Vv).
    constructor; rewrite ?B2.
    + intros v Hv. rewrite B3; auto.
    + congruence.
    + congruence.
    + rewrite B10, W4. unfold bsize, zcount. rewrite B2. apply zsum_ext. intros v Hv. now rewrite B3 by exact Hv.
    + rewrite B9, W5. unfold bload. rewrite B2. apply zsum_ext. intros v Hv. now rewrite B3 by exact Hv.
    + rewrite B11, W6, D1, D2, A4, A5, Xe. assert (E : bcut h' = bcut g); [|now rewrite E].
      unfold bcut. rewrite B2. apply zsum_ext. intros v Hv. apply zsum_ext. intros e He. rewrite !B3; [reflexivity | apply (gv_end _ V v e); split; auto | exact Hv].
    + rewrite B12, W7, !Xe. reflexivity.
    + rewrite B4. split; [auto|]. split; [|split].
      * intros i Hi. rewrite B5 by auto. destruct (F1 i Hi). split; auto. now apply On.
      * intros i j Hi Hj. rewrite !B5 by auto. now apply F2.
      * intros v Hv Hf. apply On in Hf; auto. destruct (F3 v Hv Hf) as (i & Hi & E). exists i. split; auto. now rewrite B5.
Qed.
Print Assumptions C32_save_restore.

(** Saving the bipartition above, resetting, restoring. *)
Example C32_example :
  (do t <- bgraphStoreSave 4 ex_bip (bgraphStoreInit 4 ex_bip); do z <- bgraphZero ex_bip; bgraphStoreUpdt 4 z t) = Ok ex_bip /\
  bg_readable ex_bip /\ graph_valid (bs ex_bip) /\ bg_valid ex_avg ex_bip.
Proof.
  split; [vm_compute; reflexivity|]. destruct C31_example as (A & B & _ & C & _). auto.
Qed.
