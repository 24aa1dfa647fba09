(** Model of src/libscotch/common_integer.c (integer text I/O, permutations,
    pseudo-random generator, gcd) and of the distribution macros of common.h. *)
From Verif Require Import Base.

(** Streams: the remaining bytes of a FILE opened for reading.  The model
    of a read routine returns the value and the remaining bytes. *)
Definition stream := list Z.

(** [getc]: -1 is EOF. *)
Definition getc (s : stream) : Z * stream :=
  match s with [] => (-1, []) | c :: s' => (c, s') end.

(** [isspace] in the C locale. *)
Definition isspace (c : Z) : bool := ((9 <=? c) && (c <=? 13)) || (c =? 32).
Definition isdigit (c : Z) : bool := (48 <=? c) && (c <=? 57).
Global Arguments isspace : simpl never.
Global Arguments isdigit : simpl never.

(** [imax] is INTVALMAX (common.h:264); INT ranges over [-imax-1 .. imax].
    Signed arithmetic result: undefined outside the INT range. *)
Definition ckint (imax z : Z) : res Z :=
  if (- imax - 1 <=? z) && (z <=? imax) then Ok z else UB.

(** common_integer.c:108-115, digit accumulation loop.  The digit that is
    not accepted is pushed back by ungetc, hence it stays in the stream. *)
Fixpoint intLoadDigits (imax : Z) (s : stream) (val : Z) : res (Z * stream) :=
  match s with
  | [] => Ok (val, [])
  | c :: s' =>
      if isdigit c then
        do v10 <- ckint imax (val * 10);
        do v <- ckint imax (v10 + (c - 48));
        intLoadDigits imax s' v
      else Ok (val, s)
  end.

(** common_integer.c:105-118: from the first character after white space and
    sign; [neg] is the sign flag. *)
Definition intLoadTail (imax : Z) (neg : bool) (s : stream) : res (Z * stream) :=
  match s with
  | [] => Err 0
  | c :: s' =>
      if isdigit c then
        do '(v, s'') <- intLoadDigits imax s' (c - 48);
        Ok ((if neg then - v else v), s'')
      else Err 0
  end.

(** common_integer.c:78-119 intLoad.  [Err 0] models the return value 0. *)
Fixpoint intLoad (imax : Z) (s : stream) : res (Z * stream) :=
  match s with
  | [] => Err 0
  | c :: s' =>
      if isspace c then intLoad imax s'
      else if isdigit c then intLoadTail imax false s
      else if c =? 45 then intLoadTail imax true s'
      else if c =? 43 then intLoadTail imax false s'
      else Err 0
  end.

(** Decimal digits of a non-negative number (what printf does for %d, %ld,
    PRIu64); [fuel] bounds the number of digits. *)
Fixpoint decdigs (fuel : nat) (n : Z) : list Z :=
  match fuel with
  | O => []
  | S f => if n <? 10 then [48 + n] else decdigs f (n / 10) ++ [48 + n mod 10]
  end.

Definition decnat (n : Z) : list Z := decdigs (S (Z.to_nat (Z.log2 n))) n.

(** common_integer.c:127-133 intSave: fprintf (stream, "%d", val); output
    errors of the C library are not modelled. *)
Definition intSave (v : Z) : list Z :=
  if v <? 0 then 45 :: decnat (- v) else decnat v.

(** common_integer.c:148-161 intAscn *)
Definition intAscn (permtab : list Z) (permnbr baseval : Z) : res (list Z) :=
  for_ baseval (baseval + permnbr) (fun permnum t => wr baseval t permnum permnum) permtab.

(** ** Pseudo-random generator (xorshift128+), common_integer.c:196-466.
    [w] is the number of bits of UINT (32 or 64). *)
Definition u64 (x : Z) : Z := x mod 2 ^ 64.
Definition uintw (w x : Z) : Z := x mod 2 ^ w.

(** common.h:283-294 IntRandState, IntRandContext *)
Record randctx := mkrand {
  r_flag : Z;     (* flagval *)
  r_proc : Z;     (* procval, an int *)
  r_seed : Z;     (* seedval, a UINT64 *)
  r_s0 : Z; r_s1 : Z }. (* statdat.randtab *)

(** common_integer.c:208-214 intRandProc *)
Definition intRandProc (r : randctx) (procnum : Z) : randctx :=
  mkrand (r_flag r) procnum (r_seed r) (r_s0 r) (r_s1 r).

(** common_integer.c:222-236 intRandSeed2; [randval] is a UINT. *)
Definition intRandSeed2 (w randval : Z) : Z * Z :=
  let seedval := Z.lor (uintw w randval) 1 in
  (Z.lxor seedval (u64 (Z.shiftl seedval 15)),
   Z.lxor seedval (u64 (Z.shiftl seedval 24))).

(** common_integer.c:238-248 intRandReset; conversions to INT and then to
    UINT are value modulo 2^w. *)
Definition intRandReset (w : Z) (r : randctx) : randctx :=
  let randval := u64 (Z.lor (u64 (r_seed r)) 1 * u64 (u64 (r_proc r) + 1)) in
  let '(a, b) := intRandSeed2 w randval in
  mkrand 1 (r_proc r) (r_seed r) a b.

(** common_integer.c:250-258 intRandSeed; the INT argument is converted to
    UINT64. *)
Definition intRandSeed (w : Z) (r : randctx) (seedval : Z) : randctx :=
  intRandReset w (mkrand (r_flag r) (r_proc r) (u64 seedval) (r_s0 r) (r_s1 r)).

(** (INT) conversion of a UINT64 value, sign-extended back. *)
Definition sintw (w x : Z) : Z :=
  let y := x mod 2 ^ w in if y <? 2 ^ (w - 1) then y else y - 2 ^ w.

(** common_integer.c:273-286 intRandSpawn *)
Definition intRandSpawn (w : Z) (rold : randctx) (procnum : Z) (rnew : randctx) : randctx :=
  intRandSeed w (intRandProc rnew procnum) (sintw w (r_s0 rold)).

(** common_integer.c:299-311 intRandInit; [time] is the value used as seed. *)
Definition intRandInit (w : Z) (time : Z) (r : randctx) : randctx :=
  if r_flag r =? 0 then
    intRandReset w (mkrand (r_flag r) (r_proc r) (u64 time) (r_s0 r) (r_s1 r))
  else r.

(** common_integer.c:420-436 intRandVal3 *)
Definition intRandVal3 (w : Z) (r : randctx) : Z * randctx :=
  let x := r_s0 r in
  let y := r_s1 r in
  let x1 := Z.lxor x (u64 (Z.shiftl x 23)) in
  let x2 := Z.lxor (Z.lxor (Z.lxor x1 y) (Z.shiftr x1 17)) (Z.shiftr y 26) in
  (uintw w (u64 (x2 + y)), mkrand (r_flag r) (r_proc r) (r_seed r) y x2).

(** common_integer.c:446-459 intRandVal (without COMMON_DEBUG); modulo by
    zero is undefined. *)
Definition intRandVal (w : Z) (r : randctx) (randmax : Z) : res (Z * randctx) :=
  let '(v, r') := intRandVal3 w r in
  if randmax =? 0 then UB else Ok (v mod randmax, r').

(** common_integer.c:461-466 intRandVal2 *)
Definition intRandVal2 (w : Z) (r : randctx) : Z * randctx := intRandVal3 w r.

(** common_integer.c:169-188 intPerm: [permnbr] is converted to UINT. *)
Definition intPerm (w : Z) (permtab : list Z) (permnbr : Z) (r : randctx) : res (list Z * randctx) :=
  let n := uintw w permnbr in
  for_ 0 n (fun k '(t, r) =>
    do '(permnum, r') <- intRandVal w r (n - k);
    do permtmp <- rd 0 t k;
    do x <- rd 0 t (k + permnum);
    do t1 <- wr 0 t k x;
    do t2 <- wr 0 t1 (k + permnum) permtmp;
    Ok (t2, r')) (permtab, r).

(** fscanf conversions "%d" and "%" PRIu64 (common_integer.c:325, 351):
    skip white space, optional sign, digits, stop at the first non-digit.
    Simplification: values that do not fit the target type are [UB]; a minus
    sign in front of an unsigned conversion negates modulo 2^64. *)
Fixpoint scanDigits (s : stream) (val : Z) : Z * stream :=
  match s with
  | [] => (val, [])
  | c :: s' => if isdigit c then scanDigits s' (val * 10 + (c - 48)) else (val, s)
  end.

Definition scanTail (neg : bool) (s : stream) : res (Z * stream) :=
  match s with
  | [] => Err 0
  | c :: _ =>
      if isdigit c then
        let '(v, s') := scanDigits s 0 in Ok ((if neg then - v else v), s')
      else Err 0
  end.

Fixpoint scanInt (s : stream) : res (Z * stream) :=
  match s with
  | [] => Err 0
  | c :: s' =>
      if isspace c then scanInt s'
      else if isdigit c then scanTail false s
      else if c =? 45 then scanTail true s'
      else if c =? 43 then scanTail false s'
      else Err 0
  end.

Definition scanD (s : stream) : res (Z * stream) :=
  do '(v, s') <- scanInt s;
  if (- 2 ^ 31 <=? v) && (v <? 2 ^ 31) then Ok (v, s') else UB.

Definition scanU64 (s : stream) : res (Z * stream) :=
  do '(v, s') <- scanInt s;
  if (- 2 ^ 64 <? v) && (v <? 2 ^ 64) then Ok (u64 v, s') else UB.

(** Turns any failure of [r] into error code [e]. *)
Definition orerr {A} (r : res A) (e : Z) : res A :=
  match r with Err _ => Err e | x => x end.

(** common_integer.c:319-361 intRandLoad2, intRandLoad *)
Definition intRandLoad (imax : Z) (s : stream) : res (randctx * stream) :=
  do '(versval, s) <- orerr (intLoad imax s) 2;
  if negb (versval =? 1) then Err 2 else
  do '(procval, s) <- orerr (scanD s) 2;
  do '(seedval, s) <- orerr (scanU64 s) 2;
  do '(a, s) <- orerr (scanU64 s) 2;
  do '(b, s) <- orerr (scanU64 s) 2;
  Ok (mkrand 1 procval seedval a b, s).

(** common_integer.c:370-404 intRandSave2, intRandSave *)
Definition intRandSave (r : randctx) : res (list Z) :=
  if r_flag r =? 0 then Err 1 else
  Ok ([49; 10] ++ intSave (r_proc r) ++ [9] ++ decnat (r_seed r) ++ [10]
      ++ decnat (r_s0 r) ++ [9] ++ decnat (r_s1 r) ++ [10]).

(** common_integer.c:592-612 intGcd.  C's [%] truncates ([Z.rem]). *)
Definition intGcd (u v : Z) : res Z :=
  let '(u, v) := if v <? u then (v, u) else (u, v) in
  loop (S (S (Z.to_nat (Z.abs v))))
    (fun '(u, v) => if negb (v =? 0) then Ok (inl (v, Z.rem u v)) else Ok (inr u)) (u, v).

(** common.h:501 DATASIZE; C division of non-negative numbers. *)
Definition datasize (n p i : Z) : Z := Z.quot (n + (p - 1 - i)) p.
(** common.h:502 DATASCAN *)
Definition datascan (n p i : Z) : Z :=
  i * Z.quot n p + (if Z.rem n p <? i then Z.rem n p else i).
