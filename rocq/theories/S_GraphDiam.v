(** Specification of distances and pseudo-diameters. *)
From Verif Require Import Base M_Graph S_Graph.

(** Cost of leaving a vertex: its load, if vertices are weighted *)
Definition leave (g : graph) (v : Z) : Z := match velotab g with None => 0 | Some _ => velo g v end.
(** Walks from [u], with their lengths: loads of edges, and of vertices but the last one *)
Inductive walk (g : graph) (u : Z) : Z -> Z -> Prop :=
| wk_here : walk g u u 0
| wk_arc v e d : walk g u v d -> arc g v e -> walk g u (edge g e) (d + leave g v + edlo g e).
(** [d] is the distance from [u] to [v] *)
Definition distance (g : graph) (u v d : Z) : Prop := walk g u v d /\ forall d', walk g u v d' -> d <= d'.
Definition connected (g : graph) : Prop := forall u v, isvert g u -> isvert g v -> exists d, walk g u v d.

(** [pick] gives a vertex of the heap of least distance *)
Definition least (b : Z) (pick : Z -> list Z -> list Z -> Z) : Prop :=
  forall k dist heap, heap <> [] -> In (pick k dist heap) heap /\ forall w, In w heap -> at_ b dist (pick k dist heap) <= at_ b dist w.
