(** Specification of the thread system, in terms of what is observed. *)
From Verif Require Import Base M_Thread.
From Coq Require Import Arith.

(** Number of barriers entered by thread [i], and values it got from the barriers
    it left, in order. *)
Definition entered (i : nat) (log : list event) : nat :=
  length (filter (fun e => match e with Enter j => Nat.eqb j i | _ => false end) log).
Definition rets (i : nat) (log : list event) : list bool :=
  flat_map (fun e => match e with Leave j v => if Nat.eqb j i then [v] else [] | _ => [] end) log.

(** Functions run by thread [i], in order: starts and ends. *)
Definition runs (i : nat) (log : list event) : list (bool * nat) :=
  flat_map (fun e => match e with
                     | FStart j f => if Nat.eqb j i then [(true, f)] else []
                     | FEnd j f => if Nat.eqb j i then [(false, f)] else []
                     | _ => [] end) log.

(** Functions [1], ..., [d], run one after the other. *)
Definition in_turn (d : nat) : list (bool * nat) := flat_map (fun f => [(true, f); (false, f)]) (seq 1 d).

(** Calls of threadLaunch (true) and returns from it (false), in order; number of
    the latter. *)
Definition calls (log : list event) : list (bool * nat) :=
  flat_map (fun e => match e with Launch f => [(true, f)] | Return f => [(false, f)] | _ => [] end) log.
Definition returns (log : list event) : nat := length (filter (fun e => match e with Return _ => true | _ => false end) log).

(** A sequence of [a] moves and [b] spurious wake-ups, in which thread 0 neither
    launches a function nor exits.  A turn of a busy wait that changes nothing is
    not a move. *)
Inductive moves (n : nat) (W : Z) (K : nat -> nat) : tstate -> nat -> nat -> tstate -> Prop :=
| moves_0 st : moves n W K st 0 0 st
| moves_go st i c st1 a b st2 :
    gstep n W K st (Go i c) = Some st1 -> st1 <> st -> ~ (i = O /\ nth_error (snd (fst st)) 0 = Some PIdle) ->
    moves n W K st1 a b st2 -> moves n W K st (S a) b st2
| moves_spur st i st1 a b st2 :
    gstep n W K st (Spur i) = Some st1 -> moves n W K st1 a b st2 -> moves n W K st a (S b) st2.

(** Thread 0 has the choice between launching a function and exiting; the context
    is destroyed; thread [i] has ended. *)
Definition at_rest (st : tstate) : Prop := nth_error (snd (fst st)) 0 = Some PIdle.
Definition destroyed (st : tstate) : Prop := nth_error (snd (fst st)) 0 = Some PExit.
Definition ended (i : nat) (st : tstate) : Prop := nth_error (snd (fst st)) i = Some PDone.
