(** Properties C09, C10, C11: graph checking and rebasing. *)
From Verif Require Import Base M_Graph S_Graph P_Graph P_GraphBase.

(** A weighted path 1 - 2 - 3, base 1, non-compact with a hole in the edge array. *)
Definition ex_path : graph :=
  mkgraph 1 3 4 [1; 4; 2] (Some [2; 6; 3]) (Some [5; 0; 2]) 7 None (Some [10; 20; 30])
    4 [2; 2; 99; 1; 3] (Some [7; 8; 0; 7; 8]) 30 2.
(** A compact triangle, base 0. *)
Definition ex_tri : graph :=
  mkgraph 0 3 3 [0; 2; 4; 6] None None 3 None None 6 [1; 2; 0; 2; 0; 1] None 6 2.

(** C09: what graphCheck accepts is a consistent graph with large enough arrays. *)
Theorem C09_graphCheck_sound :
  forall gmax g, graphCheck gmax g = Ok tt -> graph_valid g /\ graph_readable g.
Proof. intros gmax g H. exact (wlp_elim _ _ _ (graphCheck_wlp gmax g) H). Qed.
Print Assumptions C09_graphCheck_sound.

Example C09_example :
  graphCheck 2147483647 ex_path = Ok tt /\ graphCheck 2147483647 ex_tri = Ok tt /\
  graphCheck 2147483647 (mkgraph 0 2 2 [0; 1; 1] None None 2 None None 1 [1] None 1 1) = Err 1.
Proof. vm_compute. auto. Qed.

(** C10: every consistent graph whose load sums fit is accepted, and no cell
    outside the arrays is read on the way. *)
Theorem C10_graphCheck_complete :
  forall gmax g, graph_valid g -> graph_readable g -> velosum g <= gmax -> edlosum g <= gmax ->
    graphCheck gmax g = Ok tt.
Proof. exact graphCheck_complete. Qed.
Print Assumptions C10_graphCheck_complete.

Example C10_example : graph_valid ex_path /\ graph_readable ex_path /\ velosum ex_path <= 100 /\ edlosum ex_path <= 100.
Proof.
  destruct (C09_graphCheck_sound 100 ex_path) as [V R]; [vm_compute; auto|].
  split; auto. split; auto. vm_compute. split; discriminate.
Qed.

(** C11: rebasing. *)
Theorem C11_graphBase_shifts_and_reverts :
  forall g b', graph_valid g -> graph_readable g -> disjoint_ranges g ->
    (vendtab g = None -> vertnbr g + 1 <= zlen (verttab g)) ->
    exists g', graphBase g b' = Ok (baseval g, g') /\ baseval g' = b' /\
      graph_shifted (b' - baseval g) g g' /\ graph_valid g' /\ graph_readable g' /\
      graphBase g' (baseval g) = Ok (b', g).
Proof. exact graphBase_spec. Qed.
Print Assumptions C11_graphBase_shifts_and_reverts.

(** On compact graphs the ranges are disjoint for free. *)
Theorem C11_compact_graphs_qualify :
  forall g, graph_valid g -> vendtab g = None -> disjoint_ranges g.
Proof. exact compact_disjoint. Qed.
Print Assumptions C11_compact_graphs_qualify.

Example C11_example :
  exists g', graphBase ex_path 0 = Ok (1, g') /\ verttab g' = [0; 3; 1] /\ edgetab g' = [1; 1; 99; 0; 2] /\
             graphBase g' 1 = Ok (0, ex_path).
Proof.
  exists (mkgraph 0 3 3 [0; 3; 1] (Some [1; 5; 2]) (Some [5; 0; 2]) 7 None (Some [10; 20; 30])
    4 [1; 1; 99; 0; 2] (Some [7; 8; 0; 7; 8]) 30 2).
  vm_compute. auto.
Qed.

Example C11_disjoint_example : disjoint_ranges ex_path.
Proof.
  assert (E : forall v, isvert ex_path v -> v = 1 \/ v = 2 \/ v = 3) by (unfold isvert; cbn; lia).
  assert (V : vert ex_path 1 = 1 /\ vend ex_path 1 = 2 /\ vert ex_path 2 = 4 /\ vend ex_path 2 = 6 /\
              vert ex_path 3 = 2 /\ vend ex_path 3 = 3) by (vm_compute; tauto).
  intros v w e [Hv He] [Hw He'].
  destruct (E v Hv) as [Ev|[Ev|Ev]], (E w Hw) as [Ew|[Ew|Ew]]; rewrite Ev in He; rewrite Ew in He'; lia.
Qed.

(** Without disjoint ranges (two vertices sharing one neighbour list, which
    graphCheck accepts) rebasing breaks the graph. *)
Theorem C11_shared_ranges_refuted :
  exists g g', graphCheck 2147483647 g = Ok tt /\ graphBase g 1 = Ok (0, g') /\
    graphCheck 2147483647 g' = Err 1.
Proof.
  exists (mkgraph 0 4 4 [0; 2; 0; 2] (Some [2; 4; 2; 4]) None 4 None None 8 [1; 3; 0; 2] None 8 2).
  exists (mkgraph 1 4 5 [1; 3; 1; 3] (Some [3; 5; 3; 5]) None 4 None None 8 [3; 5; 2; 4] None 8 2).
  vm_compute. auto.
Qed.
Print Assumptions C11_shared_ranges_refuted.
