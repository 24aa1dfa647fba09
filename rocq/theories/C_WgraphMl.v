(** Property C66: multilevel partitioning with overlap. *)
From Verif Require Import Base Mem M_Graph M_Vgraph M_VgraphSt M_Wgraph M_WgraphMl S_Graph S_Vgraph S_Match S_Coarsen S_VgraphSt S_Wgraph S_WgraphMl.
From Verif Require Import P_Wgraph P_WgraphSt P_WgraphMl2 P_VgraphGp3 C_Graph C_VgraphSt C_Wgraph.

(** C66: projection to the fine graph of a consistent partition: fine vertices have the part of their coarse vertex, and the partition is
    consistent, hence counts and frontier are exact, and the separator has the same load *)
Theorem C66_project :
  forall jk g ch mate fc mult, wstate g -> wstate ch -> wgood ch -> wnbr ch = wnbr g -> is_matching (ws g) mate -> is_coarse (ws g) (ws ch) mate fc mult ->
    exists h, wgraphPartMlUncoarsen jk g ch mult = Ok h /\ wsame g h /\ wgood h /\ wfronload h = wfronload ch /\
      forall v, isvert (ws g) v -> wpt h v = wpt ch (at_ (baseval (ws g)) fc v).
Proof. exact wUncoarsen_spec. Qed.
Print Assumptions C66_project.

(** C66: multilevel partitioning can be used first, for any number of parts, if its low and ascending strategies improve consistent partitions *)
Theorem C66_multilevel :
  forall jk cmax coarnbr low asc tot n, (forall s, cmax s <= vertnbr s) -> wsgood tot n low -> wsgood tot n asc ->
    wminit tot n (wgraphPartMl jk (wmlCoarsen cmax coarnbr) (wgraphPartSt low) (wgraphPartSt asc)).
Proof.
  intros jk cmax coarnbr low asc tot n Hc HL HA. apply Ml_init; [now apply wmlCoarsen_good| |]; intros g St En G; apply St_good; auto; now rewrite En.
Qed.
Print Assumptions C66_multilevel.

(** C66: hence the multilevel strategy that partitions the smallest graph by recursive bipartitioning, as the default strategy does, gives
    partitions with overlap if the number of parts is a power of two *)
Theorem C66_graphPartOvl_partial :
  forall jk al sep sched cmax coarnbr asc tot s k pt, (forall s, cmax s <= vertnbr s) -> 1 <= al <= 2 -> vgood tot sep -> 0 <= k -> wsgood tot (2 ^ k) asc ->
    graph_valid s -> graph_readable s -> 0 <= baseval s -> vnumtab s = None -> vertnbr s <= zlen pt ->
    exists rc pt', SCOTCH_graphPartOvl jk s (2 ^ k) (WMeth (wgraphPartMl jk (wmlCoarsen cmax coarnbr) (wgraphPartRb jk al sep sched) (wgraphPartSt asc))) pt = Ok (rc, pt') /\
      zlen pt' = zlen pt /\ (rc = 0 -> ovl s (2 ^ k) (at_ (baseval s) pt')) /\ (tot = true -> rc = 0).
Proof.
  intros jk al sep sched cmax coarnbr asc tot s k pt Hc AL SG Hk HA V R B Vn L. pose proof (Z.pow_pos_nonneg 2 k ltac:(lia) Hk) as Hp. apply C64_strategy_partial; auto; try lia. cbn [wsinit].
  apply Ml_init; [now apply wmlCoarsen_good| |].
  - intros g St En G. apply (Rb_init jk al sep sched tot (2 ^ k)); auto. exists k. auto.
  - intros g St En G. apply St_good; auto. now rewrite En.
Qed.
Print Assumptions C66_graphPartOvl_partial.

Definition ex_wml : wmeth := wgraphPartMl 77 (wmlCoarsen (fun s => vertnbr s - 1) 3) ex_rb (wgraphPartSt WEmpty).
Example C66_example :
  wminit true 2 ex_wml /\ wminit true 4 ex_wml /\
  SCOTCH_graphPartOvl 77 ex_cycle 2 (WMeth ex_wml) (repeat 55 9) = Ok (0, [0; 0; -1; -1; 1; 1; 1; 1; -1]).
Proof.
  assert (M : forall k, 0 <= k -> wminit true (2 ^ k) ex_wml).
  { intros k Hk. apply Ml_init; [apply wmlCoarsen_good; intros s; lia| |]; intros g St En G.
    - apply (Rb_init 77 1 ex_sep ex_sched true (2 ^ k)); auto; [lia|apply Gp_good|]. exists k. auto.
    - apply St_good; auto. exact Logic.I. }
  split; [exact (M 1 ltac:(lia))|]. split; [exact (M 2 ltac:(lia))|]. vm_compute. reflexivity.
Qed.
