(** Specification vocabulary for integer text and permutations, independent of
    the model of the code. *)
From Verif Require Import Base M_Int.

(** ASCII classes *)
Definition blank_char (c : Z) : Prop := (9 <= c <= 13) \/ c = 32.
Definition digit_char (c : Z) : Prop := 48 <= c <= 57.

(** Value of a string of decimal digits, most significant first. *)
Definition decval (ds : list Z) : Z := fold_left (fun v c => v * 10 + (c - 48)) ds 0.

(** [literal s neg ds rest]: stream [s] is blanks, an optional sign ([neg] tells
    whether it is a minus), a non-empty maximal run of digits [ds], and [rest]. *)
Definition literal (s : list Z) (neg : bool) (ds rest : list Z) : Prop :=
  exists ws sg,
    s = ws ++ sg ++ ds ++ rest /\
    Forall blank_char ws /\
    ((sg = [45] /\ neg = true) \/ ((sg = [43] \/ sg = []) /\ neg = false)) /\
    ds <> [] /\ Forall digit_char ds /\
    match rest with [] => True | c :: _ => ~ digit_char c end.

Definition litval (neg : bool) (ds : list Z) : Z := if neg then - decval ds else decval ds.

(** ** Pseudo-random generator *)

(** A context whose fields are in the range of their C types. *)
Definition rand_typed (r : randctx) : Prop :=
  - 2 ^ 31 <= r_proc r < 2 ^ 31 /\ 0 <= r_seed r < 2 ^ 64 /\
  0 <= r_s0 r < 2 ^ 64 /\ 0 <= r_s1 r < 2 ^ 64.

(** A history of calls: draw below the given bounds, one after the other. *)
Fixpoint draws (w : Z) (r : randctx) (ms : list Z) : res (list Z * randctx) :=
  match ms with
  | [] => Ok ([], r)
  | m :: ms' =>
      do '(v, r1) <- intRandVal w r m;
      do '(vs, r2) <- draws w r1 ms';
      Ok (v :: vs, r2)
  end.

