(** Specification of element arrays of the METIS interface. *)
From Verif Require Import Base.

(** Element [e] has node [x] *)
Definition has_node (base : Z) (eptr eind : list Z) (e x : Z) : Prop :=
  exists i, at_ base eptr e <= i < at_ base eptr (e + 1) /\ at_ base eind i = x.

(** Number of nodes of element [e] *)
Definition node_count (base : Z) (eptr : list Z) (e : Z) : Z := at_ base eptr (e + 1) - at_ base eptr e.

(** Elements [e] and [e'] share [k] nodes *)
Definition sharing (base : Z) (eptr eind : list Z) (e e' k : Z) : Prop :=
  exists l : list Z, NoDup l /\ zlen l = k /\ forall x, In x l <-> has_node base eptr eind e x /\ has_node base eptr eind e' x.

(** Arrays that describe [ne] elements and [nn] nodes, numbered from [base] on.  Node
    lists follow each other from the base on, and none has the same node twice. *)
Record elements (base nn ne : Z) (eptr eind : list Z) : Prop := {
  el_base : 0 <= base;
  el_nn : 0 <= nn;
  el_ne : 0 <= ne;
  el_len : ne + 1 <= zlen eptr;
  el_first : at_ base eptr base = base;
  el_mono : forall e, base <= e < base + ne -> at_ base eptr e <= at_ base eptr (e + 1);
  el_room : at_ base eptr (base + ne) <= base + zlen eind;
  el_node : forall i, base <= i < at_ base eptr (base + ne) -> base <= at_ base eind i < base + nn;
  el_once : forall e i i', base <= e < base + ne -> at_ base eptr e <= i < at_ base eptr (e + 1) -> at_ base eptr e <= i' < at_ base eptr (e + 1) ->
    at_ base eind i = at_ base eind i' -> i = i' }.
