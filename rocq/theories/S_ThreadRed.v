(** Specification of reductions and scans. *)
From Verif Require Import Base M_ThreadRed.
From Coq Require Import Arith.
Local Open Scope nat_scope.

(** combination of the values of all threads, from the root on, cyclically *)
Definition total {A} (op : A -> A -> A) (n root : nat) (x : nat -> A) : A :=
  fold_left op (map (fun t => x ((root + t) mod n)) (seq 1 (n - 1))) (x root).

(** combination of the values of threads [i], [i - 1], ..., [0] *)
Fixpoint prefix {A} (op : A -> A -> A) (x : nat -> A) (i : nat) : A :=
  match i with O => x O | S i' => op (x i) (prefix op x i') end.

(** number of calls of the barrier *)
Definition bars (p : list instr) : nat := length (filter (fun i => match i with Bar => true | _ => false end) p).

(** two calls made at the same time by two threads are harmless: neither writes
    what the other reads or writes *)
Definition touches (c : call) : list nat := cdst c :: csrc c :: match crem c with Some b => [b] | None => [] end.
Definition harmless (c c' : call) : Prop := ~ In (cdst c) (touches c') /\ ~ In (cdst c') (touches c).

(** calls made after [k] barriers *)
Fixpoint after (k : nat) (p : list instr) : list call :=
  match p with
  | [] => []
  | Bar :: p => match k with O => [] | S k => after k p end
  | Do c :: p => match k with O => c :: after O p | _ => after k p end
  end.
