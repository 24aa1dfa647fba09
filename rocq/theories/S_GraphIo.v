(** Specification of graph and list files. *)
From Verif Require Import Base M_Graph S_Graph.

(** Vertex labels are usable: distinct, not negative, and smaller than the
    largest integer *)
Definition labels_ok (imax : Z) (g : graph) : Prop :=
  forall t, vlbltab g = Some t -> vertnbr g <= zlen t /\
    (forall v, isvert g v -> 0 <= at_ (baseval g) t v < imax) /\
    (forall v w, isvert g v -> isvert g w -> at_ (baseval g) t v = at_ (baseval g) t w -> v = w).

(** Every number written to the file fits an integer *)
Definition fits (imax : Z) (g : graph) : Prop :=
  0 <= baseval g /\ vertnnd g <= imax /\ edgenbr g <= imax /\
  (forall v, isvert g v -> velo g v <= imax) /\ (forall v e, arc g v e -> edlo g e <= imax).

(** [h] is [g] read back with numbers shifted by [adj]; [nv], [ne]: vertex or
    edge loads not wanted *)
Record loaded (nv ne : bool) (adj : Z) (g h : graph) : Prop := {
  ld_base : baseval h = baseval g + adj;
  ld_nbr : vertnbr h = vertnbr g;
  ld_edgenbr : edgenbr h = edgenbr g;
  ld_compact : vendtab h = None;
  ld_nbrs : forall v, isvert g v -> nbr h (v + adj) = map (fun '(w, l) => (w + adj, if ne then 1 else l)) (nbr g v);
  ld_velo : forall v, isvert g v -> velo h (v + adj) = if nv then 1 else velo g v;
  ld_lbl : vertnbr g = 0 \/
    match vlbltab g with
    | None => vlbltab h = None
    | Some t => exists u, vlbltab h = Some u /\ zlen u = vertnbr g /\ forall v, isvert g v -> at_ (baseval h) u (v + adj) = at_ (baseval g) t v
    end;
  ld_readable : graph_readable h;
  ld_valid : graph_valid h }.

(** What any accepted file gives: a compact graph whose arrays have the sizes
    and whose recorded sums are those of the arrays *)
Record counted (h : graph) : Prop := {
  ct_size : 0 <= vertnbr h;
  ct_nnd : vertnnd h = baseval h + vertnbr h;
  ct_compact : vendtab h = None;
  ct_first : vert h (baseval h) = baseval h;
  ct_last : vert h (vertnnd h) = baseval h + edgenbr h;
  ct_incr : forall v, isvert h v -> vert h v <= vend h v;
  ct_edges : zlen (edgetab h) = edgenbr h;
  ct_verts : zlen (verttab h) = vertnbr h + 1;
  ct_velo : forall t, velotab h = Some t -> zlen t = vertnbr h;
  ct_edlo : forall t, edlotab h = Some t -> zlen t = edgenbr h;
  ct_lbl : forall t, vlbltab h = Some t -> zlen t = vertnbr h;
  ct_velosum : velosum h = zsum (baseval h) (vertnnd h) (velo h);
  ct_edlosum : edlosum h = zsum (baseval h) (baseval h + edgenbr h) (edlo h);
  ct_degr0 : 0 <= degrmax h;
  ct_degr : forall v, isvert h v -> vend h v - vert h v <= degrmax h }.

(** ** Vertex lists *)
From Verif Require Import M_GraphIo.
(** well formed list structure; its contents *)
Definition list_ok (l : vlist) : Prop := match vl_tab l with Some t => zlen t = vl_nbr l | None => vl_nbr l = 0 end.
Definition items (l : vlist) : list Z := match vl_tab l with Some t => t | None => [] end.
Definition increasing (l : list Z) : Prop := forall i j, 0 <= i < j -> j < zlen l -> at_ 0 l i < at_ 0 l j.
