(** Specification vocabulary for sorting. *)
From Verif Require Import Base.

(** Strict weak order given by a "less than" test. *)
Definition strict_weak_order {A} (lt : A -> A -> bool) : Prop :=
  (forall x, lt x x = false) /\
  (forall x y, lt x y = true -> lt y x = false) /\
  (forall x y z, lt x y = false -> lt y z = false -> lt x z = false).

(** [sorted_by lt l]: no element is less than an earlier one. *)
Definition sorted_by {A} (lt : A -> A -> bool) (l : list A) : Prop :=
  forall i j x y, (i < j)%nat -> nth_error l i = Some x -> nth_error l j = Some y -> lt y x = false.

(** [cut_by lt l]: the list splits into two non-empty parts such that nothing
    in the second part is less than anything in the first one. *)
Definition cut_by {A} (lt : A -> A -> bool) (l : list A) : Prop :=
  exists l1 l2, l = l1 ++ l2 /\ l1 <> [] /\ l2 <> [] /\
    forall x y, In x l1 -> In y l2 -> lt y x = false.

(** [near_sorted_by d lt l]: two elements more than [d] places apart are in order. *)
Definition near_sorted_by {A} (d : nat) (lt : A -> A -> bool) (l : list A) : Prop :=
  forall i j x y, (i + d < j)%nat -> nth_error l i = Some x -> nth_error l j = Some y -> lt y x = false.

(** Key orders of the five sort flavours. *)
Definition lt_key1 {B} (x y : Z * B) : bool := fst x <? fst y.
Definition lt_lex2 (x y : Z * Z) : bool := (fst x <? fst y) || ((fst x =? fst y) && (snd x <? snd y)).
Definition lt_lex3 (x y : Z * (Z * Z)) : bool := lt_lex2 (fst x, fst (snd x)) (fst y, fst (snd y)).
