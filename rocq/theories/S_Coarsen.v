(** Specification of coarse graphs. *)
From Verif Require Import Base M_Graph S_Graph S_Color S_Match.

(** load of the fine vertices of coarse vertex [c] *)
Definition fine_load (g : graph) (fc : list Z) (c : Z) : Z :=
  zsum (baseval g) (vertnnd g) (fun v => if at_ (baseval g) fc v =? c then velo g v else 0).
(** load of the fine arcs from the group of [c] to the group of [d] *)
Definition fine_arcs_load (g : graph) (fc : list Z) (c d : Z) : Z :=
  zsum (baseval g) (vertnnd g) (fun v =>
    zsum (vert g v) (vend g v) (fun e =>
      if (at_ (baseval g) fc v =? c) && (at_ (baseval g) fc (edge g e) =? d) then edlo g e else 0)).

(** [cg] is the coarse graph of [g] for the matching [mate], with fine-to-coarse
    array [fc] and multinode array [mult]. *)
Record is_coarse (g cg : graph) (mate fc : list Z) (mult : list (Z * Z)) : Prop := {
  ic_base : baseval cg = baseval g;
  ic_nbr : vertnbr cg = groups g mate;
  (* one coarse vertex per group *)
  ic_fc : zlen fc = vertnbr g /\ forall v, isvert g v -> isvert cg (at_ (baseval g) fc v);
  ic_group : forall v w, isvert g v -> isvert g w ->
    (at_ (baseval g) fc v = at_ (baseval g) fc w <-> w = v \/ w = at_ (baseval g) mate v);
  ic_mult : zlen mult = vertnbr cg /\ forall c, isvert cg c -> exists v w, at_ (baseval g) mult c = (v, w) /\
    isvert g v /\ v <= w /\ at_ (baseval g) mate v = w /\ at_ (baseval g) fc v = c;
  (* loads *)
  ic_velo : forall c, isvert cg c -> velo cg c = fine_load g fc c;
  ic_velosum : velosum cg = velosum g;
  (* edges: those of the fine graph that join distinct groups *)
  ic_adj : forall c d, adjacent cg c d <->
    c <> d /\ exists v w, adjacent g v w /\ at_ (baseval g) fc v = c /\ at_ (baseval g) fc w = d;
  ic_edlo : forall c e, arc cg c e -> edlo cg e = fine_arcs_load g fc c (edge cg e) }.
