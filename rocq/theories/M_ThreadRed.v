(** Model of threadReduce and threadScan (common_thread.c). *)
From Verif Require Import Base M_Thread.
From Coq Require Import Arith.
Local Open Scope nat_scope.

(** One call of the user function: cell [cdst] receives the value of [csrc],
    combined with the one of [crem] if any. *)
Record call := mkcall { cdst : nat; csrc : nat; crem : option nat }.

(** What a thread does: calls of the barrier, calls of the user function. *)
Inductive instr := Bar | Do (c : call).

Section Red.
Context {A : Type} (op : A -> A -> A).
Definition mem := nat -> A.
Definition exec1 (m : mem) (c : call) : mem :=
  fun l => if Nat.eqb l (cdst c) then match crem c with Some b => op (m (csrc c)) (m b) | None => m (csrc c) end else m l.

(** All executions of threads that wait for each other at barriers (C34), where
    calls are interleaved in any way. *)
Inductive pexec : list (list instr) -> mem -> mem -> Prop :=
| pexec_done ths m : (forall i p, nth_error ths i = Some p -> p = []) -> pexec ths m m
| pexec_do ths m m' i c p : nth_error ths i = Some (Do c :: p) -> pexec (updn ths i p) (exec1 m c) m' -> pexec ths m m'
| pexec_bar ths m m' : (forall i p, nth_error ths i = Some p -> exists p', p = Bar :: p') -> pexec (map (@tl instr) ths) m m' -> pexec ths m m'.
End Red.

(** threadReduce: cell [i] is the block of thread [i]; the user function combines
    its first argument with its second, into the first. *)

(** common_thread.c:476-481, [t]: thrdtmp; [k]: turns left *)
Fixpoint redLoop (n root t k : nat) : list instr :=
  match k with
  | O => []
  | S k => Do (mkcall root root (Some ((root + t) mod n))) :: redLoop n root (S t) k
  end.

(** common_thread.c:448-485 *)
Definition threadReduce (n root num : nat) : list instr :=
  if (n <=? 1)%nat then [] else
  Bar :: (if Nat.eqb num root then redLoop n root 1 (n - 1) else []) ++ [Bar].

(** common_thread.c:424-443, with COMMON_PTHREAD_REDUCE_CANONICAL; ints that do not overflow *)
Fixpoint redcLoop (fuel n root num nsk msk : nat) : res (list instr) :=
  if (msk <? n)%nat then
    match fuel with
    | O => Fuel
    | S fuel =>
      let esk := Nat.lxor nsk msk in
      let '(cs, nsk) :=
        if (esk <? n)%nat then
          if (nsk <? esk)%nat then ([Do (mkcall num num (Some ((esk + root) mod n)))], nsk)
          else ([], nsk + n)%nat
        else ([], nsk) in
      do rest <- redcLoop fuel n root num nsk (2 * msk);
      Ok (Bar :: cs ++ rest)
    end
  else Ok [Bar].

(** common_thread.c:397-446 *)
Definition threadReduceC (n root num : nat) : res (list instr) :=
  if (n <=? 1)%nat then Ok [] else redcLoop n n root num ((num + n - root) mod n) 1.

(** threadScan: cells [2 * i] and [2 * i + 1] are the two areas of thread [i], of
    phases 0 and 1; the user function combines areas of the source phase into the
    area of the destination phase (e.g. graph_coarsen.c:137-145). *)

(** common_thread.c:569-571, [k]: thrdtmp *)
Fixpoint scanLoop (i k : nat) : list instr :=
  match k with
  | O => []
  | S k => Do (mkcall (2 * S i) (2 * S i) (Some (2 * i)%nat)) :: scanLoop (S i) k
  end.

(** common_thread.c:548-575 *)
Definition threadScan (n num : nat) : list instr :=
  if (n <=? 1)%nat then [] else
  Bar :: (if Nat.eqb num 0 then scanLoop 0 (n - 1) else []) ++ [Bar].

(** common_thread.c:523-545, with COMMON_PTHREAD_SCAN_CANONICAL; [act]: cellptr is
    not NULL *)
Fixpoint scancLoop (fuel n num : nat) (act : bool) (phas msk : nat) : res (list instr) :=
  if (msk <? n)%nat then
    match fuel with
    | O => Fuel
    | S fuel =>
      let '(cs, act, phas) :=
        if act then
          if (msk <=? num)%nat then
            ([Do (mkcall (2 * num + (1 - phas)) (2 * num + phas) (Some (2 * (num - msk) + phas)%nat))], true, (1 - phas)%nat)
          else ([Do (mkcall (2 * num + (1 - phas)) (2 * num + phas) None)], false, O)
        else ([], false, phas) in
      do rest <- scancLoop fuel n num act phas (2 * msk);
      Ok (Bar :: cs ++ rest)
    end
  else if Nat.eqb phas 0 then Ok [Bar]
  else if act then Ok [Do (mkcall (2 * num) (2 * num + phas) None); Bar]
  else UB.

(** common_thread.c:502-546 *)
Definition threadScanC (n num : nat) : res (list instr) :=
  if (n <=? 1)%nat then Ok [] else scancLoop n n num true 0 1.
