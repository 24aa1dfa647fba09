(** Specification of well-formed graphs, in terms of the C-level arrays. *)
From Verif Require Import Base M_Graph.

(** Total views of the arrays ([1] for absent loads, as documented in graph.h). *)
Definition vert (g : graph) (v : Z) : Z := at_ (baseval g) (verttab g) v.
Definition vend (g : graph) (v : Z) : Z :=
  match vendtab g with Some t => at_ (baseval g) t v | None => at_ (baseval g) (verttab g) (v + 1) end.
Definition edge (g : graph) (e : Z) : Z := at_ (baseval g) (edgetab g) e.
Definition velo (g : graph) (v : Z) : Z :=
  match velotab g with Some t => at_ (baseval g) t v | None => 1 end.
Definition edlo (g : graph) (e : Z) : Z :=
  match edlotab g with Some t => at_ (baseval g) t e | None => 1 end.

(** [v] is a vertex number; [e] is (the index of) an arc leaving vertex [v]. *)
Definition isvert (g : graph) (v : Z) : Prop := baseval g <= v < vertnnd g.
Definition arc (g : graph) (v e : Z) : Prop := isvert g v /\ vert g v <= e < vend g v.

(** All arrays are large enough for the sizes and indices they hold. *)
Record graph_readable (g : graph) : Prop := {
  gr_vert : vertnbr g + (match vendtab g with None => b2z (0 <? vertnbr g) | Some _ => 0 end) <= zlen (verttab g);
  gr_vend : forall t, vendtab g = Some t -> vertnbr g <= zlen t;
  gr_velo : forall t, velotab g = Some t -> vertnbr g <= zlen t;
  gr_edge : forall v e, arc g v e -> baseval g <= e < baseval g + zlen (edgetab g);
  gr_edlo : forall t v e, edlotab g = Some t -> arc g v e -> baseval g <= e < baseval g + zlen t }.

(** Consistent undirected graph. *)
Record graph_valid (g : graph) : Prop := {
  gv_size : 0 <= vertnbr g;
  gv_nnd : vertnnd g = baseval g + vertnbr g;
  gv_range : forall v, isvert g v -> baseval g <= vert g v <= vend g v;
  gv_end : forall v e, arc g v e -> isvert g (edge g e);           (* arc ends are vertices *)
  gv_loop : forall v e, arc g v e -> edge g e <> v;                (* no loops *)
  gv_simple : forall v e e', arc g v e -> arc g v e' -> edge g e = edge g e' -> e = e';
  gv_sym : forall v e, arc g v e ->                                (* reverse arc, same load *)
    exists e', arc g (edge g e) e' /\ edge g e' = v /\ edlo g e' = edlo g e;
  gv_edgenbr : edgenbr g = zsum (baseval g) (vertnnd g) (fun v => vend g v - vert g v);
  gv_velo : forall v, isvert g v -> 0 <= velo g v;
  gv_velosum : velosum g = zsum (baseval g) (vertnnd g) (velo g);
  gv_edlo : forall v e, arc g v e -> 0 <= edlo g e;
  gv_edlosum : edlosum g = zsum (baseval g) (vertnnd g) (fun v => zsum (vert g v) (vend g v) (edlo g));
  gv_degr0 : 0 <= degrmax g;
  gv_degr : forall v, isvert g v -> vend g v - vert g v <= degrmax g }.

(** No two vertices share cells of the edge array. *)
Definition disjoint_ranges (g : graph) : Prop :=
  forall v w e, arc g v e -> arc g w e -> v = w.

(** [g'] is [g] with all numbers shifted by [adj]: same relation, same loads,
    same labels, same recorded totals. *)
Record graph_shifted (adj : Z) (g g' : graph) : Prop := {
  gs_base : baseval g' = baseval g + adj;
  gs_nbr : vertnbr g' = vertnbr g;
  gs_nnd : vertnnd g' = vertnnd g + adj;
  gs_vert : forall v, isvert g v -> vert g' (v + adj) = vert g v + adj;
  gs_vend : forall v, isvert g v -> vend g' (v + adj) = vend g v + adj;
  gs_edge : forall v e, arc g v e -> edge g' (e + adj) = edge g e + adj;
  gs_velo : forall v, velo g' (v + adj) = velo g v;
  gs_edlo : forall e, edlo g' (e + adj) = edlo g e;
  gs_compact : vendtab g = None <-> vendtab g' = None;
  gs_same : velotab g' = velotab g /\ edlotab g' = edlotab g /\ vlbltab g' = vlbltab g /\ vnumtab g' = vnumtab g /\
            edgenbr g' = edgenbr g /\ velosum g' = velosum g /\ edlosum g' = edlosum g /\ degrmax g' = degrmax g /\
            zlen (verttab g') = zlen (verttab g) /\ zlen (edgetab g') = zlen (edgetab g) }.

(** Neighbour list of a vertex: (end vertex, load) for each arc, in order. *)
Definition nbr (g : graph) (v : Z) : list (Z * Z) :=
  map (fun e => (edge g e, edlo g e)) (zseq (vert g v) (vend g v - vert g v)).
