(** Specification of the refinement of vertex separators. *)
From Verif Require Import Base M_Graph M_Vgraph M_VgraphSt M_VgraphFm S_Graph S_Vgraph S_VgraphSt.

(** The gain table gives links of vertices that it holds: they have a slot, and their state is 3 *)
Definition ord_ok (s : graph) (ord : nat -> fmst -> list (Z * Z)) : Prop :=
  forall k x v sd, In (v, sd) (ord k x) -> isvert s v /\ 0 <= sd <= 1 /\ at_ (baseval s) (fx_pt x) v <> -1 /\ at_ (baseval s) (fx_st x) v = 3.
(** No vertex has a null load *)
Definition pos_loads (s : graph) : Prop := forall v, isvert s v -> 0 < velo s v.
