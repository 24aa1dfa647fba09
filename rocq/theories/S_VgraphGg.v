(** Specification of vertex separation by greedy graph growing. *)
From Verif Require Import Base M_Graph M_Vgraph M_VgraphSt S_Graph S_Vgraph S_VgraphSt.

(** The gain table gives one of its vertices (state 3), or none if it is empty *)
Definition frst_ok (s : graph) (frst : nat -> list Z -> list Z -> option Z) : Prop :=
  forall k st gn, match frst k st gn with
    | Some v => isvert s v /\ at_ (baseval s) st v = 3
    | None => forall v, isvert s v -> at_ (baseval s) st v <> 3
    end.
(** An array with all the vertices, in any order *)
Definition perm_ok (s : graph) (prm : list Z) : Prop :=
  zlen prm = vertnbr s /\ (forall i, 0 <= i < vertnbr s -> isvert s (at_ 0 prm i)) /\
  (forall v, isvert s v -> exists i, 0 <= i < vertnbr s /\ at_ 0 prm i = v).
