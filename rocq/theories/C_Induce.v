(** Property C12: induced subgraphs. *)
From Verif Require Import Base M_Graph S_Graph P_Graph C_Graph M_Induce S_Induce P_Induce.

(** C12: inducing by a list.  [jk] is the arbitrary contents of fresh memory,
    [al] the number of Gnums per alignment unit. *)
Theorem C12_induce_list :
  forall jk al gmax g l,
    graph_valid g -> graph_readable g -> 0 <= baseval g -> 1 <= al <= 2 ->
    (forall t, vnumtab g = Some t -> vertnbr g <= zlen t) ->
    velosum g <= gmax -> edlosum g <= gmax ->
    NoDup l -> (forall w, In w l -> isvert g w) ->
    exists h, graphInduceList jk al g l = Ok h /\ induced g l h /\
      graph_valid h /\ graph_readable h /\ graphCheck gmax h = Ok tt.
Proof.
  intros jk al gmax g l V R B0 Hal HVn Hv He ND HL.
  destruct (wp_ok_inv _ _ (induceList_spec jk al g l V R B0 Hal HVn ND HL)) as (h & E & I & VH & RH).
  exists h. split; auto. split; auto. split; auto. split; auto. apply (induced_check gmax g l h); auto.
Qed.
Print Assumptions C12_induce_list.

(** C12: inducing by a part number; the list is the vertices of that part in increasing order. *)
Theorem C12_induce_part :
  forall jk al gmax g part n p,
    graph_valid g -> graph_readable g -> 0 <= baseval g -> 1 <= al <= 2 ->
    (forall t, vnumtab g = Some t -> vertnbr g <= zlen t) ->
    velosum g <= gmax -> edlosum g <= gmax ->
    vertnbr g <= zlen part -> n = zlen (part_list g part p) ->
    exists h, graphInducePart jk al g part n p = Ok h /\ induced g (part_list g part p) h /\
      graph_valid h /\ graph_readable h /\ graphCheck gmax h = Ok tt.
Proof.
  intros jk al gmax g part n p V R B0 Hal HVn Hv He HP Hn.
  destruct (wp_ok_inv _ _ (inducePart_spec jk al g part n p V R B0 Hal HVn HP Hn)) as (h & E & I & VH & RH).
  exists h. split; auto. split; auto. split; auto. split; auto. apply (induced_check gmax g (part_list g part p) h); auto.
  - apply NoDup_filter, NoDup_zseq.
  - intros w Hw. apply filter_In in Hw as [Hw _]. apply In_zseq in Hw. pose proof (gv_nnd g V). unfold isvert. lia.
Qed.
Print Assumptions C12_induce_part.

(** Vertices 3 and 2 of the weighted path 1 - 2 - 3, in that order; and part 1 of [1;0;1]. *)
Example C12_example :
  graphInduceList 77 2 ex_path [3; 2] =
    Ok (mkgraph 1 2 3 [1; 2; 3] None (Some [2; 0]) 2 (Some [3; 2]) None 2 [2; 1] (Some [8; 8]) 16 2) /\
  graphInducePart 77 2 ex_path [1; 0; 1] 2 1 =
    Ok (mkgraph 1 2 3 [1; 1; 1] None (Some [5; 2]) 7 (Some [1; 3]) None 0 [] (Some []) 0 2) /\
  graph_valid ex_path /\ graph_readable ex_path.
Proof.
  split; [vm_compute; reflexivity|]. split; [vm_compute; reflexivity|].
  apply (C09_graphCheck_sound 100). vm_compute. reflexivity.
Qed.
