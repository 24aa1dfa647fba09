(** Proofs about vertex separation strategies: use by nested dissection. *)
From Verif Require Import Base Mem M_Graph M_Vgraph M_VgraphSt M_Hgraph M_HgraphOrder S_Graph S_Vgraph S_VgraphSt S_HgraphOrder P_Graph P_Vgraph P_VgraphSt.

Lemma vgraph0_state jk s : graph_ok s -> 1 <= vertnbr s -> vstate (vgraph0 jk s).
Proof.
  intros (El & G & Rd & Hb) Hn. pose proof (gv_nnd _ G) as Gn. cbn [unload baseval vertnbr vertnnd] in Gn.
  assert (Es : setsum (edgenbr s) s = unload s) by (unfold setsum, unload; now rewrite El).
  assert (VU : valid_upto_sum s) by (exists (edgenbr s); rewrite Es; exact G).
  assert (R' : graph_readable s).
  { destruct Rd as [A1 A2 A3 A4 A5]. constructor; [exact A1|exact A2|exact A3|exact A4|]. intros t v e X. rewrite El in X. discriminate. }
  assert (P0 : forall v, isvert s v -> part (vgraph0 jk s) v = 0).
  { intros v Hv. unfold part, vgraph0. cbn [vs vpart]. unfold isvert in Hv. rewrite at_repeat; lia. }
  constructor; cbn [vgraph0 vs vdw0 vdw1]; auto; try lia.
  - constructor; cbn [vgraph0 vs vpart vfron]; auto; try lia; rewrite ?zlen_repeat; try lia; try (intros v Hv; rewrite P0 by exact Hv; lia).
  - constructor; unfold psize, pload; cbn [vgraph0 vs vcsz0 vcsz1 vcld0 vcld1 vcld2 vdlt vdw0 vdw1].
    + intros v Hv. rewrite P0 by exact Hv. lia.
    + rewrite zcount_all by (try lia; intros v Hv; rewrite P0 by exact Hv; reflexivity). lia.
    + symmetry. apply zcount_0. intros v Hv. rewrite P0 by exact Hv. reflexivity.
    + rewrite (vupto_sum _ VU). apply zsum_ext. intros v Hv. rewrite P0 by exact Hv. reflexivity.
    + symmetry. apply zsum_zero. intros v Hv. rewrite P0 by exact Hv. reflexivity.
    + symmetry. apply zsum_zero. intros v Hv. rewrite P0 by exact Hv. reflexivity.
    + lia.
  - split; [cbn; lia|]. split; [cbn; intros; lia|]. split; [cbn; intros; lia|]. intros v Hv. rewrite P0 by exact Hv. intros; lia.
  - intros v e Ha. pose proof (vt_end _ (vupto_struct _ VU) v e Ha) as Hw. destruct Ha as (Hv & _). rewrite (P0 v Hv). cbn [vgraph0 vs]. rewrite P0 by exact Hw. lia.
Qed.

Lemma sepOf_good tot m : vgood tot m -> sep_good tot (sepOf m).
Proof.
  intros G jk s Hs Hn. pose proof (vgraph0_state jk s Hs Hn) as S0. destruct (G _ S0) as (rc & h & E & Sm & Hz & Ht). unfold sepOf. rewrite E. cbn [bind].
  destruct (Z.eqb_spec rc 0) as [->|Hne].
  - left. exists h. split; [reflexivity|]. specialize (Hz eq_refl). pose proof (vm_graph _ _ Sm) as Eg. change (vs (vgraph0 jk s)) with s in Eg.
    destruct Hz as [V B R D C F S]. pose proof (vr_nnd _ R) as (N1 & N2). destruct (fron_exact_counted h N1 N2 F) as (Fc & _).
    destruct C as [C1 C2 C3 C4 C5 C6 C7]. destruct R as [R1 R2 R3 R4 R5]. rewrite Eg in *. constructor; auto.
  - right. split; [|eauto]. destruct tot; [exfalso; apply Hne; auto | reflexivity].
Qed.
