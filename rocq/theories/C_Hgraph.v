(** Property C48: subgraphs given to ordering methods. *)
From Verif Require Import Base M_Graph M_Hgraph S_Graph S_Induce S_Hgraph P_Hgraph C_Graph.

(** C48: inducing a halo graph gives a consistent halo graph, which is the subgraph of the list with all of the neighbours of
    the list around it.  The halo array must be large enough for these neighbours. *)
Theorem C48_halo_induce :
  forall jk h l H hn,
    graph_valid (hs h) -> graph_readable (hs h) -> 0 <= baseval (hs h) -> edlotab (hs h) = None ->
    (forall t, vnumtab (hs h) = Some t -> vertnbr (hs h) <= zlen t) ->
    NoDup l -> (forall w, In w l -> isvert (hs h) w) ->
    (forall v w, In v l -> In w (map fst (nbr (hs h) v)) -> ~ In w l -> In w H) -> zlen H <= hn ->
    exists h' hl, hgraphInduceList jk h l hn = Ok h' /\ hinduced h l hl h' /\ hgraph_valid h'.
Proof. exact hgraphInduceList_spec. Qed.
Print Assumptions C48_halo_induce.

(** A path of 6 vertices with loads; the halo of its middle is its two neighbours, which keep one arc each *)
Definition ex_path6 : graph :=
  mkgraph 1 6 7 [1; 2; 4; 6; 8; 10; 11] None (Some [1; 2; 3; 4; 5; 6]) 21 None None 10 [2; 1; 3; 2; 4; 3; 5; 4; 6; 5] None 10 2.
Definition ex_h6 : hgraph := mkhgraph ex_path6 6 7 [2; 4; 6; 8; 10; 11] 21 10 10 0.
Example C48_example :
  graph_valid ex_path6 /\ graph_readable ex_path6 /\
  hgraphInduceList (-7) ex_h6 [4; 3] 2 =
    Ok (mkhgraph (mkgraph 1 4 5 [1; 3; 5; 6; 7] None (Some [4; 3; 5; 2]) 14 (Some [4; 3; 5; 2]) None 6 [2; 3; 1; 4; 1; 2] None 6 2)
          2 3 [2; 4] 7 2 2 1).
Proof.
  split; [apply (C09_graphCheck_sound 100); vm_compute; reflexivity|]. split; [apply (C09_graphCheck_sound 100); vm_compute; reflexivity|]. vm_compute. reflexivity.
Qed.
(** An array which is too small is overrun. *)
Example C48_small_halo : hgraphInduceList (-7) ex_h6 [4; 3] 1 = UB.
Proof. vm_compute. reflexivity. Qed.
