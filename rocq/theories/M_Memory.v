(** Model of grouped allocation and of memory footprint accounting
    (common_memory.c, common.h).  Sizes are [size_t] values, taken modulo 2^64;
    addresses are integers.  The system allocator is an argument: it yields an
    address, or nothing. *)
From Verif Require Import Base.

Definition W64 : Z := 2 ^ 64.

(** common_memory.c:502, 517, 551, 563, 591: padding of the current offset *)
Definition padoff (m : Z) : Z := Z.land ((m + 7) mod W64) (W64 - 8).

(** One pass over the argument list (common_memory.c:501-505, 514-521): the
    offset of each array, and the final offset. *)
Fixpoint grpoffs (m : Z) (sizes : list Z) : list Z * Z :=
  match sizes with
  | [] => ([], m)
  | s :: r => let o := padoff m in let '(l, e) := grpoffs ((o + s) mod W64) r in (o :: l, e)
  end.

(** common_memory.c:488-525, 539-569: size asked from the allocator (the
    memAlloc and memRealloc macros of common.h:164-169 set bit 3 of the size), and
    array addresses.  [None] is the NULL return. *)
Definition groupAsk (sizes : list Z) : Z := Z.lor (snd (grpoffs 0 sizes)) 8.
Definition memAllocGroup (alloc : Z -> option Z) (sizes : list Z) : option (Z * list Z) :=
  match alloc (groupAsk sizes) with
  | None => None
  | Some blk => Some (blk, map (fun o => blk + o) (fst (grpoffs 0 sizes)))
  end.

(** common_memory.c:582-602: addresses within a given area, and its end *)
Definition memOffset (base : Z) (sizes : list Z) : list Z * Z :=
  let '(l, e) := grpoffs 0 sizes in (map (fun o => base + o) l, base + e).

(** ** Footprint accounting (COMMON_MEMORY_TRACE) *)

(** [blks] is the memory holding the size header of every block handed out
    (common_memory.c:315, 363), indexed by block address. *)
Record MS := { msiz : Z; mmax : Z; blks : list (Z * Z) }.
Definition ms0 : MS := {| msiz := 0; mmax := 0; blks := [] |}.

Fixpoint hdr (p : Z) (l : list (Z * Z)) : option Z :=
  match l with [] => None | (q, s) :: r => if q =? p then Some s else hdr p r end.
Fixpoint drop (p : Z) (l : list (Z * Z)) : list (Z * Z) :=
  match l with [] => [] | (q, s) :: r => if q =? p then r else (q, s) :: drop p r end.

(** [intptr_t] additions; overflow is undefined *)
Definition ipt (x : Z) : res Z := if (- 2 ^ 63 <=? x) && (x <? 2 ^ 63) then Ok x else UB.

(** common_memory.c:293-324; [o] is what malloc returns *)
Definition memAllocRecord (s : MS) (newsiz : Z) (o : option Z) : res (MS * option Z) :=
  match o with
  | None => Ok (s, None)
  | Some p =>
      do z <- ipt (msiz s + newsiz);
      Ok ({| msiz := z; mmax := if mmax s <? z then z else mmax s; blks := (p, newsiz) :: blks s |}, Some p)
  end.
(** common_memory.c:334-372 *)
Definition memReallocRecord (s : MS) (old newsiz : Z) (o : option Z) : res (MS * option Z) :=
  match hdr old (blks s) with
  | None => UB
  | Some oldsiz =>
      match o with
      | None => Ok (s, None)
      | Some p =>
          do z <- ipt (msiz s - oldsiz);
          do z <- ipt (z + newsiz);
          Ok ({| msiz := z; mmax := if mmax s <? z then z else mmax s; blks := (p, newsiz) :: drop old (blks s) |}, Some p)
      end
  end.
(** common_memory.c:381-405 *)
Definition memFreeRecord (s : MS) (old : Z) : res MS :=
  match hdr old (blks s) with
  | None => UB
  | Some oldsiz =>
      do z <- ipt (msiz s - oldsiz);
      Ok {| msiz := z; mmax := mmax s; blks := drop old (blks s) |}
  end.
Definition memCur (s : MS) : Z := msiz s.
Definition memMax (s : MS) : Z := mmax s.

(** Calls made by a program, with the answers of the system allocator.  The size
    given by the program is adjusted by the macros of common.h:164-166. *)
Inductive mop :=
| MAlloc (siz : Z) (o : option Z)
| MRealloc (p siz : Z) (o : option Z)
| MFree (p : Z).
Definition mstep (s : MS) (op : mop) : res MS :=
  match op with
  | MAlloc z o => do '(s, _) <- memAllocRecord s (Z.lor z 8) o; Ok s
  | MRealloc p z o => do '(s, _) <- memReallocRecord s p (Z.lor z 8) o; Ok s
  | MFree p => memFreeRecord s p
  end.
Fixpoint mrun (s : MS) (h : list mop) : res MS :=
  match h with [] => Ok s | op :: r => do s <- mstep s op; mrun s r end.
