(** Specification of mapping files. *)
From Verif Require Import Base M_Int S_Int M_Graph.

(** [numbers imax s l rest]: stream [s] is the text of the integers [l], which fit
    the integer type, followed by [rest]. *)
Inductive numbers (imax : Z) : list Z -> list Z -> list Z -> Prop :=
| nums_nil s : numbers imax s [] s
| nums_cons s neg ds s' l rest : literal s neg ds s' -> - imax - 1 <= litval neg ds <= imax -> numbers imax s' l rest ->
    numbers imax s (litval neg ds :: l) rest.

(** the integers of a mapping file made of these pairs *)
Definition file_of (ps : list (Z * Z)) : list Z := zlen ps :: flat_map (fun p => [fst p; snd p]) ps.

(** label of a vertex: its number if there are no labels *)
Definition label (g : graph) (v : Z) : Z := match vlbltab g with Some t => at_ (baseval g) t v | None => v end.

(** vertices have distinct labels *)
Definition labels_ok (g : graph) : Prop :=
  (forall v w, baseval g <= v < vertnnd g -> baseval g <= w < vertnnd g -> label g v = label g w -> v = w) /\
  (forall t, vlbltab g = Some t -> vertnbr g <= zlen t).

(** [part] gives to each vertex the part the pairs give to its label, or -1 *)
Definition mapped_by (g : graph) (ps : list (Z * Z)) (part : list Z) : Prop :=
  zlen part = vertnbr g /\
  forall v, baseval g <= v < vertnnd g ->
    (forall p, In (label g v, p) ps -> at_ (baseval g) part v = p) /\
    ((forall p, ~ In (label g v, p) ps) -> at_ (baseval g) part v = -1).
