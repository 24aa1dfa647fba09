(** Property C15: graph colouring. *)
From Verif Require Import Base M_Int M_Graph M_Color S_Graph S_Color P_GraphList P_Color.

(** C15, what holds: for every valid graph and generator state the routine ends
    within its arrays, gives every vertex a colour between 0 and the returned
    number minus one, uses every one of these colours, and two neighbours
    [v < w] can share a colour only when the random value drawn for [v] is the
    larger one.  Missing: no two neighbours share a colour; this is false. *)
Theorem C15_graphColor_partial :
  forall w r g que0, 0 <= w -> graph_valid g -> graph_readable g -> zlen que0 = vertnbr g ->
  exists rnd r' col cn, colorRand w r g = Ok (rnd, r') /\ graphColor w r g que0 = Ok (col, cn, r') /\ colours g col cn /\ cn <= vertnbr g /\
    (forall v w, adjacent g v w -> at_ (baseval g) col v = at_ (baseval g) col w -> v < w -> at_ (baseval g) rnd w < at_ (baseval g) rnd v).
Proof. exact graphColor_spec. Qed.
Print Assumptions C15_graphColor_partial.

(** two vertices joined by an edge *)
Definition ex_pair : graph := mkgraph 0 2 2 [0; 1; 2] None None 2 None None 2 [1; 0] None 2 1.
Lemma ex_pair_valid : graph_valid ex_pair.
Proof.
  assert (HV : forall v, isvert ex_pair v -> v = 0 \/ v = 1) by (unfold isvert; cbn [ex_pair baseval vertnnd]; lia).
  apply valid_of_nbr; try (vm_compute; congruence).
  - intros v Hv. destruct (HV v Hv) as [-> | ->]; vm_compute; split; congruence.
  - intros v w l Hv I. destruct (HV v Hv) as [-> | ->]; vm_compute in I; unfold isvert; cbn [ex_pair baseval vertnnd];
      destruct I as [I|[]]; injection I as <- <-; repeat split; try lia; vm_compute; tauto.
  - intros v Hv. destruct (HV v Hv) as [-> | ->]; vm_compute; repeat constructor; intros [].
  - intros v Hv. destruct (HV v Hv) as [-> | ->]; vm_compute; congruence.
Qed.
Lemma ex_pair_readable : graph_readable ex_pair.
Proof.
  constructor; cbn [ex_pair vendtab velotab edlotab]; try discriminate.
  intros v e ((H1 & H2) & H3). cbn [ex_pair baseval vertnnd] in H1, H2. assert (E : v = 0 \/ v = 1) by lia. destruct E as [-> | ->]; 
  match type of H3 with ?a <= _ < ?c => let x := eval vm_compute in a in let y := eval vm_compute in c in change (x <= e < y) in H3 end; cbn [ex_pair baseval edgetab]; change (zlen [1; 0]) with 2; lia.
Qed.

(** Finding: a vertex coloured earlier in the same pass is taken for one
    coloured in a former pass (library_graph_color.c:145), so that its
    neighbour may get the same colour. *)
Theorem C15_graphColor_proper_refuted :
  exists g r que0, graph_valid g /\ graph_readable g /\ zlen que0 = vertnbr g /\
    exists col cn r', graphColor 64 r g que0 = Ok (col, cn, r') /\ ~ proper g col.
Proof.
  exists ex_pair, (intRandSeed 64 (mkrand 0 0 0 0 0) 1001), [0; 0]. split; [apply ex_pair_valid|]. split; [apply ex_pair_readable|]. split; [reflexivity|].
  eexists _, _, _. split; [vm_compute; reflexivity|].
  intros H. apply (H 0 1); [|reflexivity]. exists 0. split; [|reflexivity]. split; [split; vm_compute; congruence|]. vm_compute. split; congruence.
Qed.
Print Assumptions C15_graphColor_proper_refuted.

(** a path of four vertices: hypotheses and outcome *)
Example C15_example :
  (graph_valid ex_pair /\ graph_readable ex_pair) /\
  exists r', graphColor 64 (intRandSeed 64 (mkrand 0 0 0 0 0) 1) (mkgraph 1 4 5 [1; 2; 4; 6; 7] None None 4 None None 6 [2; 1; 3; 2; 4; 3] None 6 2) [9; 9; 9; 9] = Ok ([3; 2; 1; 0], 4, r').
Proof. split; [split; [apply ex_pair_valid | apply ex_pair_readable]|]. eexists. vm_compute. reflexivity. Qed.
