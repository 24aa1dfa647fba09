(** Properties C33 and C40: grouped allocation, and memory footprint accounting. *)
From Verif Require Import Base M_Memory S_Memory P_Memory.

(** For every list of sizes, as long as the sizes with at most 7 bytes of padding
    each do not exceed the range of size_t: the allocator is asked once; if
    it fails the routine fails; if it yields an area aligned on 8 bytes, the
    blocks are aligned, in order, disjoint and inside that area. *)
Theorem C33_group_allocation :
  forall alloc sizes, Forall (fun s => 0 <= s) sizes -> need sizes < 2 ^ 64 ->
    exists ask,
      (alloc ask = None -> memAllocGroup alloc sizes = None) /\
      (forall blk, alloc ask = Some blk -> blk mod 8 = 0 ->
         exists addrs, memAllocGroup alloc sizes = Some (blk, addrs) /\ laid blk (blk + ask) addrs sizes).
Proof.
  intros alloc sizes HF Hn. destruct (memAllocGroup_spec alloc sizes HF Hn) as (ask & E & H). exists ask. split.
  - intros EA. now rewrite E, EA.
  - intros blk EA Hb. rewrite E, EA. eexists. split; [reflexivity|]. now apply H.
Qed.
Print Assumptions C33_group_allocation.

(** [laid] does mean pairwise disjoint blocks inside the area. *)
Theorem C33_laid_disjoint :
  forall addrs sizes lo hi, Forall (fun s => 0 <= s) sizes -> laid lo hi addrs sizes ->
    zlen addrs = zlen sizes /\
    (forall i, 0 <= i < zlen addrs -> lo <= at_ 0 addrs i /\ at_ 0 addrs i + at_ 0 sizes i <= hi /\ at_ 0 addrs i mod 8 = 0) /\
    (forall i j, 0 <= i < j -> j < zlen addrs -> at_ 0 addrs i + at_ 0 sizes i <= at_ 0 addrs j).
Proof.
  induction addrs as [|a ar IH]; intros [|s sr] lo hi HF H; cbn [laid] in H; try tauto.
  { split; [reflexivity|]. change (zlen (@nil Z)) with 0. split; intros; lia. }
  destruct H as (H1 & H2 & H3). inversion HF as [|? ? Hs HF']; subst. destruct (IH sr (a + s) hi HF' H3) as (I1 & I2 & I3).
  rewrite !zlen_cons. pose proof (zlen_nonneg ar).
  assert (HI : forall lo' l l', laid lo' hi l l' -> Forall (fun s => 0 <= s) l' -> lo' <= hi).
  { clear. intros lo' l. revert lo'. induction l as [|x l IH]; intros lo' [|y l'] H HF; cbn [laid] in H; try tauto; auto.
    destruct H as (? & ? & H). inversion HF; subst. apply IH in H; auto. lia. }
  pose proof (HI _ _ _ H3 HF').
  split; [lia|]. split.
  - intros i Hi. destruct (Z.eq_dec i 0) as [->|].
    + rewrite !at_cons_0. lia.
    + rewrite !at_cons_S by lia. destruct (I2 (i - 1) ltac:(lia)) as (J1 & J2 & J3). split; [lia|]. auto.
  - intros i j Hi Hj. rewrite (at_cons_S 0 a ar j) by lia. destruct (Z.eq_dec i 0) as [->|].
    + rewrite !at_cons_0. destruct (I2 (j - 1) ltac:(lia)) as (J1 & _). lia.
    + rewrite !at_cons_S by lia. apply I3; lia.
Qed.
Print Assumptions C33_laid_disjoint.

(** The routine that lays blocks out in a given area. *)
Theorem C33_group_offsets :
  forall base sizes, Forall (fun s => 0 <= s) sizes -> need sizes < 2 ^ 64 -> base mod 8 = 0 ->
    laid base (snd (memOffset base sizes)) (fst (memOffset base sizes)) sizes.
Proof.
  intros base sizes HF Hn Hb. unfold memOffset. destruct (grpoffs_spec sizes 0 HF ltac:(lia) ltac:(unfold W64; lia)) as [_ P2].
  specialize (P2 base Hb). rewrite Z.add_0_r in P2. destruct (grpoffs 0 sizes) as [l e]. exact P2.
Qed.
Print Assumptions C33_group_offsets.

(** When the sizes overflow size_t, the allocation succeeds although the blocks
    do not fit: 2^64-8 and 16 bytes are served from an area of 8 bytes. *)
Theorem C33_size_overflow_refuted :
  exists sizes, Forall (fun s => 0 <= s < 2 ^ 64) sizes /\
    exists addrs, memAllocGroup (fun _ => Some 4096) sizes = Some (4096, addrs) /\ groupAsk sizes = 8 /\
      ~ laid 4096 (4096 + 8) addrs sizes.
Proof.
  exists [2 ^ 64 - 8; 16]. split; [repeat constructor; lia|]. eexists. split; [vm_compute; reflexivity|]. split; [vm_compute; reflexivity|].
  cbn [laid]. intros (_ & _ & _ & _ & H). apply H. vm_compute. reflexivity.
Qed.
Print Assumptions C33_size_overflow_refuted.

Example C33_ex : memAllocGroup (fun n => if n =? 61 then Some 4096 else None) [3; 8; 0; 37] = Some (4096, [4096; 4104; 4112; 4112])
  /\ need [3; 8; 0; 37] < 2 ^ 64.
Proof. split; [vm_compute; reflexivity|reflexivity]. Qed.

(** For every history of allocations, reallocations and releases made with live
    blocks only, the footprint reported is the total of the sizes of the live
    blocks, and the maximum reported is the largest such total ever reached. *)
Theorem C40_footprint :
  forall h, legal (fun _ => None) h -> fits h ->
    exists s, mrun ms0 h = Ok s /\ livesum (lrun h) (memCur s) /\ peak h (memMax s).
Proof.
  intros h LG FT. destruct (mrun_spec h LG FT) as (s & E & SIM & _ & PK). exists s. split; [auto|]. split; [|auto]. now apply msim_sum.
Qed.
Print Assumptions C40_footprint.

(** With accounting enabled, reallocating a null pointer is not equivalent to an
    allocation, unlike the C library routine: it is undefined. *)
Theorem C40_realloc_null_refuted :
  exists s z o, memReallocRecord s 0 z o = UB.
Proof. exists ms0, 16, (Some 4096). reflexivity. Qed.
Print Assumptions C40_realloc_null_refuted.

Example C40_ex :
  let h := [MAlloc 24 (Some 64); MAlloc 100 (Some 128); MFree 64; MRealloc 128 16 (Some 64); MAlloc 7 None] in
  exists s, mrun ms0 h = Ok s /\ memCur s = 24 /\ memMax s = 132.
Proof. eexists. split; [vm_compute; reflexivity|]. split; reflexivity. Qed.
Example C40_hypotheses :
  let h := [MAlloc 24 (Some 64); MRealloc 64 100 (Some 128)] in legal (fun _ => None) h /\ fits h.
Proof.
  split.
  - cbn. split; [split; [lia|auto]|]. split; [|auto]. split; [lia|]. split; [discriminate|]. intros p E. right. now injection E as <-.
  - assert (L : forall l p v, (forall q, l q <> None <-> q = p) -> l p = Some v -> livesum l v).
    { intros l p v H E. exists [p]. split; [repeat constructor; cbn; tauto|]. split; [|cbn [fold_right]; rewrite E; lia].
      intros q. rewrite H. cbn [In]. intuition congruence. }
    intros h1 h2 E t HL. destruct h1 as [|x [|y [|z h1]]].
    + enough (t = 0) by lia. eapply livesum_fun; [exact HL|]. exists []. split; [constructor|]. split; [|reflexivity]. cbn. tauto.
    + injection E as <- E. enough (t = 24) by lia. eapply livesum_fun; [exact HL|]. apply (L _ 64); [|reflexivity].
      intros q. unfold lrun. cbn [fold_left lstep]. unfold lset. destruct (Z.eqb_spec q 64); intuition congruence.
    + injection E as <- <- E. enough (t = 108) by lia. eapply livesum_fun; [exact HL|]. apply (L _ 128); [|reflexivity].
      intros q. unfold lrun. cbn [fold_left lstep]. unfold lset. destruct (Z.eqb_spec q 128), (Z.eqb_spec q 64); intuition congruence.
    + discriminate.
Qed.
