(** Specification of string substitution. *)
From Verif Require Import Base.

(** [subst p r s t] : [t] is [s] with every non-overlapping occurrence of [p],
    taken from left to right, replaced by [r]. *)
Inductive subst (p r : list Z) : list Z -> list Z -> Prop :=
| subst_none s : (forall a b, s <> a ++ p ++ b) -> subst p r s s
| subst_some a b t :
    (forall a' b', a ++ p ++ b = a' ++ p ++ b' -> zlen a <= zlen a') ->
    subst p r b t -> subst p r (a ++ p ++ b) (a ++ r ++ t).

Definition cstring (s : list Z) : Prop := Forall (fun c => c <> 0) s.
(** memory [b] holds the zero-terminated string [s] at its beginning *)
Definition holds (b s : list Z) : Prop := exists rest, b = s ++ 0 :: rest.
