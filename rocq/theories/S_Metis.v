(** Specification of graph building and of the METIS interface. *)
From Verif Require Import Base M_Graph S_Graph.

(** Consistent arrays: those of a graph, whatever the recorded totals (sums of loads, number of arcs, maximum degree) *)
Record consistent (g : graph) : Prop := {
  cn_size : 0 <= vertnbr g;
  cn_nnd : vertnnd g = baseval g + vertnbr g;
  cn_range : forall v, isvert g v -> baseval g <= vert g v <= vend g v;
  cn_end : forall v e, arc g v e -> isvert g (edge g e);
  cn_loop : forall v e, arc g v e -> edge g e <> v;
  cn_simple : forall v e e', arc g v e -> arc g v e' -> edge g e = edge g e' -> e = e';
  cn_sym : forall v e, arc g v e -> exists e', arc g (edge g e) e' /\ edge g e' = v /\ edlo g e' = edlo g e;
  cn_velo : forall v, isvert g v -> 0 <= velo g v;
  cn_edlo : forall v e, arc g v e -> 0 <= edlo g e }.

(** The graph described by METIS arrays; totals are left out *)
Definition csr (base n : Z) (xadj adjncy : list Z) (vwgt adjwgt : option (list Z)) : graph :=
  mkgraph base n (n + base) xadj None vwgt 0 None None 0 adjncy adjwgt 0 0.

(** Load of the edges between different parts; each edge is counted from its smaller end *)
Definition cut_load (g : graph) (part : Z -> Z) : Z :=
  zsum (baseval g) (vertnnd g) (fun v => zsum (vert g v) (vend g v) (fun e =>
    if (v <? edge g e) && negb (part v =? part (edge g e)) then edlo g e else 0)).

(** Some neighbour of [v] is in part [q] *)
Definition near (g : graph) (part : Z -> Z) (v q : Z) : bool :=
  existsb (fun e => part (edge g e) =? q) (zseq (vert g v) (vend g v - vert g v)).
(** Total communication volume: each vertex sends its data, of size [size v], once to every other part among the [n] ones from [b] on where it has neighbours *)
Definition comm_volume (g : graph) (size : Z -> Z) (b n : Z) (part : Z -> Z) : Z :=
  zsum (baseval g) (vertnnd g) (fun v => size v * zsum b (b + n) (fun q => b2z (negb (q =? part v) && near g part v q))).
