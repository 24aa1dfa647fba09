(** Specification of orderings that keep connected components together. *)
From Verif Require Import Base M_Graph S_Graph.

(** There is a path from [u] to [v] *)
Inductive linked (g : graph) (u : Z) : Z -> Prop :=
| lk_here : linked g u u
| lk_arc v w : linked g u v -> In w (map fst (nbr g v)) -> linked g u w.
(** Vertices placed between two linked vertices are linked to them; [perm]: positions of the vertices *)
Definition together (g : graph) (perm : list Z) : Prop :=
  forall u v w, isvert g u -> isvert g v -> isvert g w ->
    at_ (baseval g) perm u <= at_ (baseval g) perm v <= at_ (baseval g) perm w -> linked g u w -> linked g u v.
