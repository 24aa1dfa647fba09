(** Specification of weighted complete graph architectures. *)
From Verif Require Import Base M_Cmpltw S_Arch.

Fixpoint sumz (l : list Z) : Z := match l with [] => 0 | x :: l' => x + sumz l' end.

(** The table of the architecture built for processor loads [loads] is some
    rearrangement of the processors with their loads. *)
Definition wtable (loads : list Z) (a : cmpltw) : Prop :=
  w_nbr a = zlen loads /\ w_sum a = sumz loads /\
  Permutation (combine loads (zseq 0 (zlen loads))) (w_tab a).

(** A domain is a range of the table, with its weight. *)
Definition wwf (a : cmpltw) (d : wdom) : Prop :=
  0 <= wd_min d /\ 1 <= wd_nbr d /\ wd_min d + wd_nbr d <= w_nbr a /\
  wd_vel d = zsum (wd_min d) (wd_min d + wd_nbr d) (fun i => fst (at_ 0 (w_tab a) i)).
(** its processors *)
Definition wmem (a : cmpltw) (d : wdom) (t : Z) : Prop :=
  exists i, wd_min d <= i < wd_min d + wd_nbr d /\ snd (at_ 0 (w_tab a) i) = t.
(** [w] is the total load of the processors in [P] *)
Definition total (loads : list Z) (P : Z -> Prop) (w : Z) : Prop :=
  exists l, NoDup l /\ (forall t, In t l <-> P t) /\ w = sumz (map (at_ 0 loads) l).
