(** Properties C64 and C65: partitioning with overlap. *)
From Verif Require Import Base Mem M_Graph M_Vgraph M_VgraphSt M_Wgraph S_Graph S_Vgraph S_VgraphSt S_Wgraph.
From Verif Require Import P_Wgraph P_WgraphRb2 P_WgraphSt P_VgraphGp3 C_Graph C_VgraphSt.

(** C64: for any strategy that begins with a method that can be used first, no memory error; on success, every vertex has a part or is in
    the separator, and no edge joins two parts *)
Theorem C64_strategy_partial :
  forall jk s n st pt tot, graph_valid s -> graph_readable s -> 0 <= baseval s -> vnumtab s = None -> 1 <= n -> vertnbr s <= zlen pt -> wsinit tot n st ->
    exists rc pt', SCOTCH_graphPartOvl jk s n st pt = Ok (rc, pt') /\ zlen pt' = zlen pt /\ (rc = 0 -> ovl s n (at_ (baseval s) pt')) /\ (tot = true -> rc = 0).
Proof. exact Ovl_ok. Qed.
Print Assumptions C64_strategy_partial.

(** C64: recursive bipartitioning, whatever the separation strategy and the schedule of the two branches, is such a method when the
    number of parts is a power of two *)
Theorem C64_recursive :
  forall jk al sep sched tot n, 1 <= al <= 2 -> vgood tot sep -> (exists k, 0 <= k /\ n = 2 ^ k) -> wminit tot n (wgraphPartRb jk al sep sched).
Proof. exact Rb_init. Qed.
Print Assumptions C64_recursive.

(** C64: for any number of parts, recursive bipartitioning either is right or makes a memory error, and the latter needs a number of parts
    that is not a power of two *)
Theorem C64_recursive_partial :
  forall jk al sep sched tot s n pt, 1 <= al <= 2 -> vgood tot sep -> graph_valid s -> graph_readable s -> 0 <= baseval s -> vnumtab s = None -> 1 <= n -> vertnbr s <= zlen pt ->
  (exists rc pt', SCOTCH_graphPartOvl jk s n (WMeth (wgraphPartRb jk al sep sched)) pt = Ok (rc, pt') /\ zlen pt' = zlen pt /\ (rc = 0 -> ovl s n (at_ (baseval s) pt')) /\ (tot = true -> rc = 0)) \/
  (SCOTCH_graphPartOvl jk s n (WMeth (wgraphPartRb jk al sep sched)) pt = UB /\ ~ exists k, 0 <= k /\ n = 2 ^ k).
Proof. exact Ovl_rb. Qed.
Print Assumptions C64_recursive_partial.

Definition ex_sep : vmeth := vgraphSeparateGp 9 5.
Definition ex_sched : graph -> option bool := fun _ => Some true.
Definition ex_rb : wmeth := wgraphPartRb 77 1 ex_sep ex_sched.
Example C64_example :
  graph_valid ex_cycle /\ vgood true ex_sep /\ wsinit true 4 (WConcat (WMeth ex_rb) (WSelect WEmpty (WMeth wgraphPartZr))) /\
  SCOTCH_graphPartOvl 77 ex_cycle 4 (WMeth ex_rb) (repeat 55 9) = Ok (0, [0; -1; 2; -1; 3; 3; -1; 1; -1]) /\
  SCOTCH_graphPartOvl 77 ex_cycle 3 (WMeth ex_rb) (repeat 55 9) = Ok (0, [0; -1; 1; 1; -1; 2; 2; -1; 0]).
Proof.
  split; [exact (proj1 (C09_graphCheck_sound 100 ex_cycle ltac:(vm_compute; reflexivity)))|]. split; [apply Gp_good|]. split.
  { split; [apply Rb_init; [lia|apply Gp_good|exists 2; split; [lia|reflexivity]]|]. split; [exact Logic.I|apply Zr_good]. }
  split; vm_compute; reflexivity.
Qed.

(** C64: the separation strategy that moves everything to the first part never fails, yet makes recursive bipartitioning into three parts
    dereference a null pointer (wgraph_part_rb.c:355-368) *)
Theorem C64_three_parts_refuted :
  exists jk s pt, graph_valid s /\ graph_readable s /\ 0 <= baseval s /\ vnumtab s = None /\ vertnbr s <= zlen pt /\ vgood true vgraphSeparateZr /\
    SCOTCH_graphPartOvl jk s 3 (WMeth (wgraphPartRb jk 1 vgraphSeparateZr ex_sched)) pt = UB.
Proof.
  exists 77, ex_cycle, (repeat 55 9). destruct (C09_graphCheck_sound 100 ex_cycle ltac:(vm_compute; reflexivity)) as [A B].
  split; [exact A|]. split; [exact B|]. split; [vm_compute; discriminate|]. split; [reflexivity|]. split; [vm_compute; discriminate|]. split; [apply C49_methods|]. vm_compute. reflexivity.
Qed.
Print Assumptions C64_three_parts_refuted.

(** C64: an induced graph remembers the numbers of its vertices in its father, which are used as indices of the part array *)
Definition ex_induced : graph := mkgraph 0 2 2 [0; 1; 2] None None 2 (Some [6; 7]) None 2 [1; 0] None 2 1.
Theorem C64_induced_refuted :
  exists jk s pt, graph_valid s /\ graph_readable s /\ 0 <= baseval s /\ vertnbr s = zlen pt /\ vgood true ex_sep /\
    SCOTCH_graphPartOvl jk s 2 (WMeth (wgraphPartRb jk 1 ex_sep ex_sched)) pt = UB.
Proof.
  exists 77, ex_induced, [0; 0]. destruct (C09_graphCheck_sound 100 ex_induced ltac:(vm_compute; reflexivity)) as [A B].
  split; [exact A|]. split; [exact B|]. split; [vm_compute; discriminate|]. split; [reflexivity|]. split; [apply Gp_good|]. vm_compute. reflexivity.
Qed.
Print Assumptions C64_induced_refuted.

(** C64: the initial partition is not set, so that strategies that do not begin with such a method read fresh memory.  Method Z may return
    0 and leave the part array as it was; so does the empty strategy; a selection may read beyond the frontier array. *)
Theorem C64_first_method_refuted :
  exists jk s n pt, graph_valid s /\ graph_readable s /\ 0 <= baseval s /\ vnumtab s = None /\ 1 <= n /\ vertnbr s <= zlen pt /\
    (forall m, wmgood true m wgraphPartZr) /\ ~ ovl s n (at_ (baseval s) pt) /\
    SCOTCH_graphPartOvl jk s n (WMeth wgraphPartZr) pt = Ok (0, pt) /\
    SCOTCH_graphPartOvl jk s n WEmpty pt = Ok (0, pt) /\
    exists jk', SCOTCH_graphPartOvl jk' s n (WSelect (WMeth ex_rb) (WMeth ex_rb)) pt = UB.
Proof.
  exists 9, ex_cycle, 4, (repeat 55 9). destruct (C09_graphCheck_sound 100 ex_cycle ltac:(vm_compute; reflexivity)) as [A B].
  split; [exact A|]. split; [exact B|]. split; [vm_compute; discriminate|]. split; [reflexivity|]. split; [lia|]. split; [vm_compute; discriminate|]. split; [apply Zr_good|].
  split. { intros [H _]. assert (I : isvert ex_cycle 1) by (split; [apply Z.le_refl|reflexivity]). specialize (H 1 I). vm_compute in H. destruct H as [_ H]. discriminate H. }
  split; [vm_compute; reflexivity|]. split; [reflexivity|]. exists 77. vm_compute. reflexivity.
Qed.
Print Assumptions C64_first_method_refuted.

(** C65: recorded loads and sizes are those of the overlapped parts, whatever fresh memory contains *)
Theorem C65_cost :
  forall g jk, graph_valid (ws g) -> graph_readable (ws g) -> 0 <= baseval (ws g) -> 0 <= wnbr g -> wg_readable g ->
    (forall v, isvert (ws g) v -> -1 <= wpt g v < wnbr g) ->
    exists h, wgraphCost jk g = Ok h /\ wsame g h /\ wpart h = wpart g /\ wfron h = wfron g /\ wfronnbr h = wfronnbr g /\ wg_counts h.
Proof.
  intros g jk V R B N W RG. destruct (wp_ok_inv _ _ (Cost_spec g V R B N (wr_part _ W) RG jk (wr_load _ W) (wr_size _ W))) as (h & E & H). exists h. auto.
Qed.
Print Assumptions C65_cost.

(** C65: the checking routine accepts consistent partitions; what it accepts has exact counts, and frontier entries in the separator *)
Theorem C65_check_complete :
  forall g, graph_valid (ws g) -> 0 <= baseval (ws g) -> 0 <= wnbr g -> wg_readable g -> wgood g -> wgraphCheck g = Ok tt.
Proof. exact Check_complete. Qed.
Print Assumptions C65_check_complete.

Theorem C65_check_sound_partial :
  forall g, graph_valid (ws g) -> 0 <= baseval (ws g) -> wg_readable g -> wgraphCheck g = Ok tt ->
    (forall v, isvert (ws g) v -> -1 <= wpt g v < wnbr g) /\ wg_counts g /\ wfronnbr g = zcount (baseval (ws g)) (vertnnd (ws g)) (fun v => wpt g v =? -1) /\
    forall i, 0 <= i < wfronnbr g -> wpt g (wfr g i) = -1.
Proof. exact Check_sound. Qed.
Print Assumptions C65_check_sound_partial.

(** C65: but it accepts partitions in which an edge joins two parts, and frontiers with duplicates *)
Definition ex_path : graph := mkgraph 0 2 2 [0; 1; 2] None None 2 None None 2 [1; 0] None 2 1.
Theorem C65_check_separation_refuted :
  exists g, wstate g /\ wgraphCheck g = Ok tt /\ ~ ovl (ws g) (wnbr g) (wpt g).
Proof.
  destruct (C09_graphCheck_sound 100 ex_path ltac:(vm_compute; reflexivity)) as [A B].
  exists (mkwgraph ex_path 2 [0; 1] [0; 0] 0 0 [1; 1] [1; 1]). split.
  { constructor; cbn [ws wnbr]; [exact A|vm_compute; discriminate|reflexivity|lia|]. constructor; cbn [ws wnbr wpart wfron wcload wcsize]; [exact B|..]; vm_compute; discriminate. }
  split; [vm_compute; reflexivity|]. intros [_ H]. destruct (H 0 0) as [E|[E|E]]; [|vm_compute in E; discriminate E..].
  split; vm_compute; split; congruence.
Qed.
Print Assumptions C65_check_separation_refuted.

Theorem C65_check_frontier_refuted :
  exists g, wstate g /\ wgraphCheck g = Ok tt /\ ~ wfron_exact g.
Proof.
  destruct (C09_graphCheck_sound 100 ex_path ltac:(vm_compute; reflexivity)) as [A B].
  exists (mkwgraph ex_path 2 [-1; -1] [0; 0] 2 2 [0; 0] [0; 0]). split.
  { constructor; cbn [ws wnbr]; [exact A|vm_compute; discriminate|reflexivity|lia|]. constructor; cbn [ws wnbr wpart wfron wcload wcsize]; [exact B|..]; vm_compute; discriminate. }
  split; [vm_compute; reflexivity|]. intros (_ & _ & H & _). specialize (H 0 1). cbn [wfronnbr] in H. assert (0 = 1); [|discriminate]. apply H; [lia|lia|reflexivity].
Qed.
Print Assumptions C65_check_frontier_refuted.

(** C65: strategies keep partitions consistent *)
Theorem C65_strategy :
  forall s tot g, wsgood tot (wnbr g) s -> wstate g -> wgood g ->
    exists rc h, wgraphPartSt s g = Ok (rc, h) /\ wsame g h /\ (tot = true -> rc = 0) /\ (rc = 0 -> wgood h /\ wgraphCheck h = Ok tt).
Proof.
  intros s tot g Hs St G. destruct (St_good s tot g Hs St G) as (rc & h & E & Sm & Gd & T). exists rc, h. split; [exact E|]. split; [exact Sm|]. split; [exact T|]. intros E0. split; [auto|].
  destruct (wsame_state _ _ Sm St) as [V B Vn N R]. apply Check_complete; auto. lia.
Qed.
Print Assumptions C65_strategy.

(** C65: a selection starts both strategies from the same partition, and keeps a result of least separator load *)
Theorem C65_select :
  forall s1 s2 g, wsgood true (wnbr g) s1 -> wsgood true (wnbr g) s2 -> wstate g -> wgood g ->
  exists h1 g1 h2 h, wgraphPartSt s1 g = Ok (0, h1) /\ wequiv g g1 /\ wgraphPartSt s2 g1 = Ok (0, h2) /\ wgraphPartSt (WSelect s1 s2) g = Ok (0, h) /\
    ((wfronload h1 < wfronload h2 /\ wequiv h1 h) \/ (wfronload h2 <= wfronload h1 /\ h = h2)).
Proof. exact Select_best. Qed.
Print Assumptions C65_select.

Definition ex_w : wgraph := mkwgraph ex_cycle 4 [0; -1; 2; -1; 3; 3; -1; 1; -1] [2; 7; 9; 4; 55; 55; 55; 55; 55] 4 4 [3; 3; 3; 4] [3; 3; 3; 4].
Example C65_example :
  wstate ex_w /\ wgood ex_w /\ wgraphCheck ex_w = Ok tt /\ wsgood true (wnbr ex_w) (WSelect (WMeth ex_rb) (WMeth wgraphPartZr)) /\
  match wgraphPartSt (WSelect (WMeth ex_rb) (WMeth wgraphPartZr)) ex_w with Ok (0, h) => wfronload h = 0 | _ => False end.
Proof.
  destruct (C09_graphCheck_sound 100 ex_cycle ltac:(vm_compute; reflexivity)) as [A B].
  assert (S0 : wstate (mkwgraph ex_cycle 4 (repeat 55 9) (repeat 55 9) 77 77 (repeat 77 4) (repeat 77 4))).
  { constructor; cbn [ws wnbr]; [exact A|vm_compute; discriminate|reflexivity|lia|]. constructor; cbn [ws wnbr wpart wfron wcload wcsize]; [exact B|..]; vm_compute; discriminate. }
  assert (RI : wminit true 4 ex_rb) by (apply Rb_init; [lia|apply Gp_good|exists 2; split; [lia|reflexivity]]).
  destruct (RI _ S0 eq_refl) as (rc & h & E & Sm & G & T). assert (E1 : h = ex_w). { vm_compute in E. injection E as _ <-. reflexivity. } subst h.
  split; [exact (wsame_state _ _ Sm S0)|]. split; [exact (G (T eq_refl))|]. split; [vm_compute; reflexivity|]. split; [|vm_compute; reflexivity].
  split; [intros g Sg Ng _; now apply RI|apply Zr_good].
Qed.
