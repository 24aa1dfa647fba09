(** Specification of vertex separations. *)
From Verif Require Import Base M_Graph M_Vgraph S_Graph.

Definition part (g : vgraph) (v : Z) : Z := at_ (baseval (vs g)) (vpart g) v.
Definition fron (g : vgraph) (i : Z) : Z := at_ 0 (vfron g) i.
(** Number and load of the vertices of a part *)
Definition psize (g : vgraph) (p : Z) : Z := zcount (baseval (vs g)) (vertnnd (vs g)) (fun v => part g v =? p).
Definition pload (g : vgraph) (p : Z) : Z := zsum (baseval (vs g)) (vertnnd (vs g)) (fun v => if part g v =? p then velo (vs g) v else 0).

(** Arrays are large enough, part values are bytes *)
Record vg_readable (g : vgraph) : Prop := {
  vr_graph : graph_readable (vs g);
  vr_nnd : vertnnd (vs g) = baseval (vs g) + vertnbr (vs g) /\ 0 <= vertnbr (vs g);
  vr_part : vertnbr (vs g) <= zlen (vpart g);
  vr_byte : forall v, isvert (vs g) v -> 0 <= part g v <= 255;
  vr_fron : vertnbr (vs g) <= zlen (vfron g) }.

(** No arc joins part 0 and part 1 *)
Definition separated (g : vgraph) : Prop :=
  forall v e, arc (vs g) v e -> ~ (part g v = 0 /\ part g (edge (vs g) e) = 1) /\ ~ (part g v = 1 /\ part g (edge (vs g) e) = 0).

(** The recorded frontier holds vertices of the separator, as many as there are *)
Definition fron_counted (g : vgraph) : Prop :=
  vfronnbr g = psize g 2 /\ forall i, 0 <= i < vfronnbr g -> isvert (vs g) (fron g i) /\ part g (fron g i) = 2.
(** The recorded frontier is the separator: each vertex once *)
Definition fron_exact (g : vgraph) : Prop :=
  0 <= vfronnbr g /\
  (forall i, 0 <= i < vfronnbr g -> isvert (vs g) (fron g i) /\ part g (fron g i) = 2) /\
  (forall i j, 0 <= i < vfronnbr g -> 0 <= j < vfronnbr g -> fron g i = fron g j -> i = j) /\
  (forall v, isvert (vs g) v -> part g v = 2 -> exists i, 0 <= i < vfronnbr g /\ fron g i = v).

(** Recorded sizes and loads are those of the part array *)
Record vg_counts (g : vgraph) : Prop := {
  vc_part : forall v, isvert (vs g) v -> 0 <= part g v <= 2;
  vc_size0 : vcsz0 g = psize g 0;
  vc_size1 : vcsz1 g = psize g 1;
  vc_load0 : vcld0 g = pload g 0;
  vc_load1 : vcld1 g = pload g 1;
  vc_load2 : vcld2 g = pload g 2;
  vc_dlt : vdlt g = vcld0 g * vdw1 g - vcld1 g * vdw0 g }.

(** The graph part of a separation, as far as it matters here: consistent index ranges *)
Record vg_struct (s : graph) : Prop := {
  vt_range : forall v, isvert s v -> baseval s <= vert s v <= vend s v;
  vt_end : forall v e, arc s v e -> isvert s (edge s e) }.

(** A vertex has a neighbour in a part *)
Definition touches (g : vgraph) (v p : Z) : Prop := exists e, arc (vs g) v e /\ part g (edge (vs g) e) = p.
