(** Specification of coarsening, as used by multilevel partitioning with overlap. *)
From Verif Require Import Base M_Graph S_Graph S_Match S_Coarsen.

(** Either fails, or merges matched vertices into a smaller graph *)
Definition wcoar_good (coar : Z -> graph -> res (graph * list Z * list (Z * Z))) : Prop :=
  forall n s, graph_valid s -> graph_readable s -> 0 <= baseval s ->
    (exists e, coar n s = Err e) \/
    exists cg fc mult mate, coar n s = Ok (cg, fc, mult) /\ graph_valid cg /\ graph_readable cg /\ vnumtab cg = None /\ is_matching s mate /\
      is_coarse s cg mate fc mult /\ vertnbr cg < vertnbr s.
