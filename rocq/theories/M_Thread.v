(** Model of the thread system: common_thread.c (with pthreads). *)
From Verif Require Import Base.
From Coq Require Import Arith.

(** common_thread.h:73-77 *)
Inductive status := Rdy | Run | Dwn.

(** common_thread.h:81-101, the fields that change while threads run.  [bnbr],
    [bnum]: barrnbr, bainnum; [fptr] stands for funcptr and paraptr: the number
    of the last launch, 0 before any. *)
Record shr := mkshr { stat : status; bnbr : nat; bnum : Z; fptr : nat }.

(** Where a thread is.  All accesses to the shared fields are made between
    locking and unlocking (or waiting), one such section is one step; the only
    access outside, the read of funcptr at line 332, is a step of its own. *)
Inductive pc :=
| PInit                       (* to call the barrier of line 159 or 321 *)
| PIdle                       (* thread 0: between launches; others: line 324 *)
| PIdleW (asleep : bool)      (* line 326, in pthread_cond_wait *)
| PRead                       (* line 332, before the call *)
| PBody (f k : nat)           (* in function [f], which has [k] calls of the barrier to make *)
| PRet (f : nat)              (* [f] has returned; to call threadWaitBarrier, line 334 or 381 *)
| PBack (f : nat)             (* threadWaitBarrier has returned *)
| PWait (b : Z) (asleep : bool) (nxt : pc) (* lines 254-256 or 297-299; [b]: local bainnum; [nxt]: where to go after *)
| PSpin                       (* thread 0, lines 192-196 *)
| PExit                       (* thread 0, line 198 *)
| PAck                        (* others, line 342 *)
| PDone.                      (* others, line 346 *)

(** What can be observed. *)
Inductive event :=
| Launch (f : nat)            (* thread 0 calls threadLaunch, for the [f]-th time *)
| Return (f : nat)            (* this call returns *)
| FStart (i f : nat)          (* thread [i] starts running function [f] *)
| FEnd (i f : nat)            (* it ends *)
| Enter (i : nat)             (* thread [i] enters a barrier *)
| Leave (i : nat) (last : bool). (* it leaves it; [last]: special return value, line 250 *)

Section Thread.
(** number of threads; number of values of an unsigned int; number of calls of
    threadContextBarrier that each thread makes in the [f]-th function launched *)
Context (n : nat) (W : Z) (K : nat -> nat).

(** common_thread.c:239-259 threadContextBarrier and 280-302 threadWaitBarrier
    ([reset]): new shared fields, whether there is a broadcast, next place *)
Definition enter (reset : bool) (i : nat) (sh : shr) (nxt : pc) : shr * bool * pc * list event :=
  if Nat.eqb (S (bnbr sh)) n then
    (mkshr (if reset then Rdy else stat sh) 0 ((bnum sh + 1) mod W) (fptr sh), true, nxt, [Enter i; Leave i true])
  else (mkshr (stat sh) (S (bnbr sh)) (bnum sh) (fptr sh), false, PWait (bnum sh) true nxt, [Enter i]).

(** common_thread.c:325-330 *)
Definition idle (sh : shr) : shr * bool * pc * list event :=
  (sh, false, match stat sh with Rdy => PIdleW true | Run => PRead | Dwn => PAck end, []).

(** One step of thread [i]; [None] when it cannot move.  [c]: thread 0 launches a
    function (true) or exits the context (false).  A thread asleep in
    pthread_cond_wait does not move. *)
Definition tstep (i : nat) (c : bool) (sh : shr) (p : pc) : option (shr * bool * pc * list event) :=
  match p with
  | PInit => Some (enter false i sh PIdle)
  | PIdle =>
    if Nat.eqb i 0 then
      if c then (* lines 372-379 *)
        let f := S (fptr sh) in Some (mkshr Run (bnbr sh) (bnum sh) f, true, PBody f (K f), [Launch f; FStart 0 f])
      else (* lines 186-189 *) Some (mkshr Dwn (bnbr sh) (bnum sh) (fptr sh), true, PSpin, [])
    else Some (idle sh)
  | PIdleW false => Some (idle sh)
  | PIdleW true => None
  | PRead => Some (sh, false, PBody (fptr sh) (K (fptr sh)), [FStart i (fptr sh)])
  | PBody f (S k) => Some (enter false i sh (PBody f k))
  | PBody f 0 => Some (sh, false, PRet f, [FEnd i f])
  | PRet f => Some (enter true i sh (PBack f))
  | PBack f => Some (sh, false, PIdle, if Nat.eqb i 0 then [Return f] else [])
  | PWait b true nxt => None
  | PWait b false nxt =>
    Some (if bnum sh =? b then (sh, false, PWait b true nxt, []) else (sh, false, nxt, [Leave i false]))
  | PSpin => Some (sh, false, if Nat.eqb (bnbr sh) (n - 1) then PExit else PSpin, [])
  | PAck => Some (mkshr (stat sh) (S (bnbr sh)) (bnum sh) (fptr sh), false, PDone, [])
  | PExit | PDone => None
  end.

(** pthread_cond_broadcast wakes up all the threads that sleep *)
Definition wake (p : pc) : pc :=
  match p with PIdleW _ => PIdleW false | PWait b _ nxt => PWait b false nxt | _ => p end.

(** state: shared fields, threads, what has been observed so far *)
Definition tstate : Type := shr * list pc * list event.

(** A schedule says which thread moves, or which sleeping thread has a spurious
    wake-up. *)
Inductive label := Go (i : nat) (c : bool) | Spur (i : nat).

Definition gstep (st : tstate) (l : label) : option tstate :=
  let '(sh, ths, log) := st in
  match l with
  | Go i c =>
    match nth_error ths i with
    | None => None
    | Some p =>
      match tstep i c sh p with
      | None => None
      | Some (sh', bc, p', evs) => Some (sh', updn (if bc then map wake ths else ths) i p', log ++ evs)
      end
    end
  | Spur i =>
    match nth_error ths i with
    | None => None
    | Some p => Some (sh, updn ths i (wake p), log)
    end
  end.

(** common_thread.c:122-126, 140-159: all the threads are created, none has
    reached the first barrier.  (Affinity and creation failures are left out.) *)
Definition tinit : tstate := (mkshr Rdy 0 0 0, repeat PInit n, []).

(** The state reached by a schedule; moves that are not possible are skipped. *)
Fixpoint trun (sched : list label) (st : tstate) : tstate :=
  match sched with
  | [] => st
  | l :: sched => trun sched (match gstep st l with Some st' => st' | None => st end)
  end.
End Thread.
