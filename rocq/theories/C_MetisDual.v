(** * C73: dual graphs of meshes through the METIS interface *)
From Verif Require Import Base M_Graph S_Graph S_Color M_MetisDual S_MetisDual S_Metis P_MetisDual P_MetisDual2.

(** When there is at least one node, METIS_MeshToDual succeeds on arrays that describe
    elements.  The arrays that it returns have exactly the cells they need and describe a
    consistent graph with one vertex per element.  Two elements are joined, by a single
    edge, when they share at least one node and at least the number asked for, or all
    nodes but one of either of them if this is less. *)
Theorem C73_dual : forall base nn ne eptr eind ncommon, elements base nn ne eptr eind -> 1 <= nn ->
  exists xadj adjncy, metisMeshToDual base nn ne eptr eind ncommon = Ok (xadj, adjncy) /\
    zlen xadj = ne + 1 /\ at_ base xadj base = base /\ zlen adjncy = at_ base xadj (base + ne) - base /\
    let g := csr base ne xadj adjncy None None in consistent g /\ graph_readable g /\
    forall e e', base <= e < base + ne -> base <= e' < base + ne ->
      (adjacent g e e' <-> e <> e' /\ exists k, sharing base eptr eind e e' k /\ 1 <= k /\ Z.min ncommon (Z.min (node_count base eptr e - 1) (node_count base eptr e' - 1)) <= k).
Proof. exact meshToDual_ok. Qed.
Print Assumptions C73_dual.

(** Two triangles that share a side, numbered from one; a third one that shares one node *)
Definition ex_ptr : list Z := [1; 4; 7; 10].
Definition ex_ind : list Z := [1; 2; 3; 3; 2; 4; 5; 4; 6].
Lemma ex_elements : elements 1 6 3 ex_ptr ex_ind.
Proof.
  constructor; try (vm_compute; congruence); try reflexivity.
  - intros e He. assert (e = 1 \/ e = 2 \/ e = 3) as [-> | [-> | ->]] by lia; vm_compute; congruence.
  - intros i Hi. change (1 <= i < 10) in Hi. assert (X : i = 1 \/ i = 2 \/ i = 3 \/ i = 4 \/ i = 5 \/ i = 6 \/ i = 7 \/ i = 8 \/ i = 9) by lia.
    repeat (destruct X as [-> | X]; [vm_compute; split; congruence|]). subst i. vm_compute; split; congruence.
  - intros e i i' He Hi Hi'. assert (e = 1 \/ e = 2 \/ e = 3) as [-> | [-> | ->]] by lia.
    + change (1 <= i < 4) in Hi. change (1 <= i' < 4) in Hi'. assert (i = 1 \/ i = 2 \/ i = 3) as [-> | [-> | ->]] by lia; assert (i' = 1 \/ i' = 2 \/ i' = 3) as [-> | [-> | ->]] by lia; vm_compute; congruence.
    + change (4 <= i < 7) in Hi. change (4 <= i' < 7) in Hi'. assert (i = 4 \/ i = 5 \/ i = 6) as [-> | [-> | ->]] by lia; assert (i' = 4 \/ i' = 5 \/ i' = 6) as [-> | [-> | ->]] by lia; vm_compute; congruence.
    + change (7 <= i < 10) in Hi. change (7 <= i' < 10) in Hi'. assert (i = 7 \/ i = 8 \/ i = 9) as [-> | [-> | ->]] by lia; assert (i' = 7 \/ i' = 8 \/ i' = 9) as [-> | [-> | ->]] by lia; vm_compute; congruence.
Qed.

Example C73_example : elements 1 6 3 ex_ptr ex_ind /\
  metisMeshToDual 1 6 3 ex_ptr ex_ind 1 = Ok ([1; 2; 4; 5], [2; 1; 3; 2]) /\ metisMeshToDual 1 6 3 ex_ptr ex_ind 2 = Ok ([1; 2; 3; 3], [2; 1]).
Proof. split; [exact ex_elements|]. split; vm_compute; reflexivity. Qed.

(** Without nodes, the size of the last move of the vertex array is negative, that is,
    huge: elements may be empty, but there must be a node. *)
Theorem C73_nonodes_refuted : exists base ne eptr eind, elements base 0 ne eptr eind /\ forall ncommon, metisMeshToDual base 0 ne eptr eind ncommon = UB.
Proof.
  exists 0, 1, [0; 0], []. split; [|reflexivity]. constructor; try (vm_compute; congruence); try reflexivity.
  - intros e He. assert (e = 0) as -> by lia. vm_compute. congruence.
  - intros i Hi. change (0 <= i < 0) in Hi. lia.
  - intros e i i' He Hi. assert (e = 0) as -> by lia. change (0 <= i < 0) in Hi. lia.
Qed.
Print Assumptions C73_nonodes_refuted.

(** The node lists must start at the base.  There is code for lists that start later, but
    it adds the shift instead of removing it, and node lists are written past the end of
    the array. *)
Theorem C73_offset_refuted : exists base nn ne eptr eind, elements base nn ne eptr eind /\ 1 <= nn /\
  forall junk ncommon, metisMeshToDual base nn ne (map (Z.add 1) eptr) (junk :: eind) ncommon = UB.
Proof.
  exists 1, 6, 3, ex_ptr, ex_ind. split; [exact ex_elements|]. split; [lia|]. intros junk nc. unfold metisMeshToDual.
  replace (metisMesh 1 6 3 (map (Z.add 1) ex_ptr) (junk :: ex_ind)) with (UB (A := M_Mesh.mesh)); [reflexivity|]. vm_compute. reflexivity.
Qed.
Print Assumptions C73_offset_refuted.
