(** Specification of bipartitioning by greedy graph growing. *)
From Verif Require Import Base M_Graph M_Bgraph S_Graph S_Bgraph.

(** The gain table gives one of its vertices (state 2), or none if it is empty *)
Definition tabl_ok (s : graph) (frst : nat -> list Z -> list Z -> option Z) : Prop :=
  forall k st gn, match frst k st gn with
    | Some v => isvert s v /\ at_ (baseval s) st v = 2
    | None => forall v, isvert s v -> at_ (baseval s) st v <> 2
    end.
(** Moving some vertex of part 0, of positive load, would not reduce the imbalance *)
Definition refused (ab : Z -> Z) (g : bgraph) : Prop :=
  exists v, isvert (bs g) v /\ bp g v = 0 /\ 0 < velo (bs g) v /\ ab (bdlt g) <= ab (bdlt g - velo (bs g) v).
(** Strictly smaller communication load or, if it is the same, closer to the target load *)
Definition closer (a b : bgraph) : Prop := bcml a < bcml b \/ (bcml a = bcml b /\ Z.abs (bdlt a) < Z.abs (bdlt b)).
