(** Specification of vertex colourings. *)
From Verif Require Import Base M_Graph S_Graph.

(** [w] is a neighbour of [v] *)
Definition adjacent (g : graph) (v w : Z) : Prop := exists e, arc g v e /\ edge g e = w.

(** every vertex has one of the colours [0 .. k-1], every colour is used *)
Definition colours (g : graph) (col : list Z) (k : Z) : Prop :=
  zlen col = vertnbr g /\ (forall v, isvert g v -> 0 <= at_ (baseval g) col v < k) /\
  (forall c, 0 <= c < k -> exists v, isvert g v /\ at_ (baseval g) col v = c).

(** no two neighbours have the same colour *)
Definition proper (g : graph) (col : list Z) : Prop :=
  forall v w, adjacent g v w -> at_ (baseval g) col v <> at_ (baseval g) col w.
