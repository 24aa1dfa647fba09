(** Specification of induced subgraphs. *)
From Verif Require Import Base M_Graph S_Graph.

(** Position of [w] in the list of selected vertices. *)
Fixpoint posn (l : list Z) (w : Z) : option Z :=
  match l with
  | [] => None
  | x :: l' => if x =? w then Some 0 else match posn l' w with Some k => Some (k + 1) | None => None end
  end.

(** A neighbour list restricted to the selected vertices and renumbered. *)
Definition restrict (b : Z) (l : list Z) (nb : list (Z * Z)) : list (Z * Z) :=
  flat_map (fun '(w, ld) => match posn l w with Some k => [(b + k, ld)] | None => [] end) nb.

(** [h] is the subgraph of [g] induced by the vertices of [l], in that order. *)
Record induced (g : graph) (l : list Z) (h : graph) : Prop := {
  in_base : baseval h = baseval g;
  in_nbr : vertnbr h = zlen l;
  in_nnd : vertnnd h = baseval g + zlen l;
  in_arcs : forall i, 0 <= i < zlen l ->
    nbr h (baseval g + i) = restrict (baseval g) l (nbr g (at_ 0 l i));
  in_velo : forall i, 0 <= i < zlen l -> velo h (baseval g + i) = velo g (at_ 0 l i);
  in_vnum : exists vn, vnumtab h = Some vn /\ zlen vn = zlen l /\
    forall i, 0 <= i < zlen l -> at_ 0 vn i =
      match vnumtab g with Some t => at_ (baseval g) t (at_ 0 l i) | None => at_ 0 l i end;
  in_weights : (velotab h = None <-> velotab g = None) /\ (edlotab h = None <-> edlotab g = None) }.

(** The list of vertices of part [p], in increasing order. *)
Definition part_list (g : graph) (part : list Z) (p : Z) : list Z :=
  filter (fun v => at_ (baseval g) part v =? p) (zseq (baseval g) (vertnbr g)).
