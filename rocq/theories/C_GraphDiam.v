(** Property theorems: pseudo-diameter of graphs. *)
From Verif Require Import Base M_Graph S_Graph M_GraphDiam S_GraphDiam P_GraphDiam C_Graph.

(** C75: SCOTCH_graphDiamPV, whatever the random number and the choices of the heap.  For a connected graph, it gives the
    distance between two vertices, such that none is farther from the second one; else, the largest number. *)
Theorem C75_diameter :
  forall gmax fuel picks rn g,
    graph_valid g -> graph_readable g -> 1 <= vertnbr g -> velosum g + edlosum g < gmax -> velosum g + edlosum g < Z.of_nat fuel ->
    (forall i, least (baseval g) (picks i)) -> 0 <= rn < vertnbr g ->
    exists d, graphDiamPV fuel gmax picks rn g = Ok d /\
      ((d < gmax /\ connected g /\ exists u v, isvert g u /\ isvert g v /\ distance g u v d /\ forall w d', distance g v w d' -> d' <= d) \/
       (d = gmax /\ ~ connected g)).
Proof. intros gmax fuel picks rn g G R Hn HS F L Hr. exact (diam_ok g gmax G R Hn HS fuel picks rn F L Hr). Qed.
Print Assumptions C75_diameter.

(** The first vertex of least distance of the list *)
Definition ex_pick (b : Z) : heappick := fun _ dist heap => fold_left (fun a w => if at_ b dist w <? at_ b dist a then w else a) (tl heap) (hd 0 heap).
Lemma ex_pick_least b : least b (ex_pick b).
Proof.
  intros k dist heap Ne. destruct heap as [|a l]; [contradiction|]. unfold ex_pick. cbn [tl hd]. clear Ne. revert a. induction l as [|w l IH]; intros a; cbn [fold_left].
  - split; [now left|]. intros w [<-|[]]. lia.
  - destruct (IH (if at_ b dist w <? at_ b dist a then w else a)) as (I1 & I2). split.
    + destruct I1 as [I1|I1]; [|right; now right]. rewrite <- I1. destruct (_ <? _); [right; now left|now left].
    + intros x Hx. assert (Q : at_ b dist (if at_ b dist w <? at_ b dist a then w else a) <= at_ b dist w /\ at_ b dist (if at_ b dist w <? at_ b dist a then w else a) <= at_ b dist a) by (destruct (_ <? _) eqn:E; lia).
      specialize (I2 _ (or_introl eq_refl)) as I3. destruct Hx as [<-|[<-|Hx]]; [lia|lia|]. apply I2. now right.
Qed.

(** A cycle of four vertices with a tail, with loads; and the same without the last edge *)
Definition ex_diam : graph := mkgraph 1 5 6 [1; 3; 5; 8; 10; 11] None (Some [1; 2; 1; 3; 1]) 8 None None 10 [2; 4; 1; 3; 2; 4; 5; 1; 3; 3] (Some [4; 1; 4; 1; 1; 2; 7; 1; 2; 7]) 30 3.
Definition ex_disc : graph := mkgraph 1 5 6 [1; 3; 5; 7; 9; 9] None (Some [1; 2; 1; 3; 1]) 8 None None 8 [2; 4; 1; 3; 2; 4; 1; 3] (Some [4; 1; 4; 1; 1; 2; 1; 2]) 16 2.
Example C75_example :
  graph_valid ex_diam /\ graph_readable ex_diam /\ graph_valid ex_disc /\ graph_readable ex_disc /\
  graphDiamPV 50 100 (fun _ => ex_pick 1) 2 ex_diam = Ok 15 /\ graphDiamPV 50 100 (fun _ => ex_pick 1) 2 ex_disc = Ok 100.
Proof. do 4 (split; [apply (C09_graphCheck_sound 100); vm_compute; reflexivity|]). split; vm_compute; reflexivity. Qed.

(** C75: vertex and edge loads the sums of which are valid may make distances overflow *)
Theorem C75_overflow_refuted :
  exists g gmax picks, graph_valid g /\ graph_readable g /\ gmax = 2 ^ 31 - 1 /\ velosum g <= gmax /\ edlosum g <= gmax /\ (forall i, least (baseval g) (picks i)) /\
    forall fuel, graphDiamPV (S fuel) gmax picks 0 g = UB.
Proof.
  exists (mkgraph 0 3 3 [0; 1; 3; 4] None (Some [1000000000; 1000000000; 0]) 2000000000 None None 4 [1; 0; 2; 1] (Some [500000000; 500000000; 500000000; 500000000]) 2000000000 2), (2 ^ 31 - 1), (fun _ => ex_pick 0).
  split; [apply (C09_graphCheck_sound (2 ^ 31 - 1)); vm_compute; reflexivity|]. split; [apply (C09_graphCheck_sound (2 ^ 31 - 1)); vm_compute; reflexivity|].
  split; [reflexivity|]. split; [vm_compute; discriminate|]. split; [vm_compute; discriminate|]. split; [intros; apply ex_pick_least|]. intros fuel. vm_compute. reflexivity.
Qed.
Print Assumptions C75_overflow_refuted.
