(** Model of the Fibonacci heap: fibo.h 60-215, fibo.c 81-330.

    A node is designated by a number; number 0 is the dummy root node of the heap
    (FiboHeap.rootdat), numbers 1, ..., [fnbr - 1] are the nodes of the user.  The
    memory is one map per field of FiboNode (fibo.h 91-96); before a node is
    inserted its fields hold arbitrary values.  Following a pointer that is not
    the number of a node, the null pointer included, is [UB].  The allocation of
    the degree array is assumed to succeed (fiboHeapInit, fibo.c 86-87). *)
From Verif Require Import Base.

(** The null pointer. *)
Definition FNULL : Z := -1.

(** FiboNode (fibo.h 91-96) and FiboHeap (fibo.h 103-107).  The comparison routine
    is passed to the functions that call it. *)
Record fheap := mkF {
  fnbr : Z;
  pare : Z -> Z;
  chld : Z -> Z;
  prev : Z -> Z;
  next : Z -> Z;
  defl : Z -> Z;
  degr : list Z
}.

Definition okp (h : fheap) (x : Z) : bool := (0 <=? x) && (x <? fnbr h).

Definition fset (f : Z -> Z) (x v : Z) : Z -> Z := fun y => if y =? x then v else f y.

(** Reading and writing one field through a pointer. *)
Definition fget (f : fheap -> Z -> Z) (h : fheap) (x : Z) : res Z := if okp h x then Ok (f h x) else UB.
Definition set_pare (h : fheap) (x v : Z) : res fheap :=
  if okp h x then Ok (mkF (fnbr h) (fset (pare h) x v) (chld h) (prev h) (next h) (defl h) (degr h)) else UB.
Definition set_chld (h : fheap) (x v : Z) : res fheap :=
  if okp h x then Ok (mkF (fnbr h) (pare h) (fset (chld h) x v) (prev h) (next h) (defl h) (degr h)) else UB.
Definition set_prev (h : fheap) (x v : Z) : res fheap :=
  if okp h x then Ok (mkF (fnbr h) (pare h) (chld h) (fset (prev h) x v) (next h) (defl h) (degr h)) else UB.
Definition set_next (h : fheap) (x v : Z) : res fheap :=
  if okp h x then Ok (mkF (fnbr h) (pare h) (chld h) (prev h) (fset (next h) x v) (defl h) (degr h)) else UB.
Definition set_defl (h : fheap) (x v : Z) : res fheap :=
  if okp h x then Ok (mkF (fnbr h) (pare h) (chld h) (prev h) (next h) (fset (defl h) x v) (degr h)) else UB.
Definition set_degr (h : fheap) (d v : Z) : res fheap :=
  do t <- wr 0 (degr h) d v;
  Ok (mkF (fnbr h) (pare h) (chld h) (prev h) (next h) (defl h) t).

(** fiboHeapLinkAfter (fibo.h 113-120). *)
Definition fiboHeapLinkAfter (h : fheap) (o n : Z) : res fheap :=
  do nextptr <- fget next h o;
  do h <- set_next h n nextptr;
  do h <- set_prev h n o;
  do h <- set_prev h nextptr n;
  set_next h o n.

(** fiboHeapUnlink (fibo.h 122-125). *)
Definition fiboHeapUnlink (h : fheap) (n : Z) : res fheap :=
  do p <- fget prev h n;
  do q <- fget next h n;
  do h <- set_next h p q;
  do q <- fget next h n;
  do p <- fget prev h n;
  set_prev h q p.

(** fiboHeapInit (fibo.c 81-96).  The node fields other than the links of the dummy
    root are those of the memory given. *)
Definition fiboHeapInit (dmax : Z) (h : fheap) : res fheap :=
  do h <- set_next h 0 0;
  do h <- set_prev h 0 0;
  Ok (mkF (fnbr h) (pare h) (chld h) (prev h) (next h) (defl h) (repeat FNULL (Z.to_nat dmax))).

(** fiboHeapFree (fibo.c 118-124). *)
Definition fiboHeapFree (h : fheap) : res fheap :=
  do h <- set_next h 0 0;
  set_prev h 0 0.

(** fiboHeapAddMacro (fibo.h 127-132). *)
Definition fiboHeapAdd (h : fheap) (n : Z) : res fheap :=
  do h <- set_pare h n FNULL;
  do h <- set_chld h n FNULL;
  do h <- set_defl h n 0;
  fiboHeapLinkAfter h 0 n.

(** fiboHeapMoveToRoot (fibo.h 136-147). *)
Definition fiboHeapMoveToRoot (h : fheap) (n p : Z) : res fheap :=
  do rghtptr <- fget next h n;
  do h <- fiboHeapUnlink h n;
  do h <- set_pare h n FNULL;
  do d <- fget defl h n;
  do h <- set_defl h n (Z.land d (-2));
  do d <- fget defl h p;
  do h <- set_defl h p (d - 2);
  do h <- set_chld h p (if d - 2 <=? 1 then FNULL else rghtptr);
  fiboHeapLinkAfter h 0 n.

(** fiboHeapDecreaseMacro (fibo.h 149-167).  State of the loop: heap, [pareptr],
    [gdpaptr]. *)
Definition fiboDecrBody (st : fheap * Z * Z) : res ((fheap * Z * Z) + fheap) :=
  let '(h, pareptr, gdpaptr) := st in
  if gdpaptr =? FNULL then Ok (inr h) else
  do d <- fget defl h pareptr;
  if Z.land d 1 =? 0 then
    do h <- set_defl h pareptr (Z.lor d 1);
    Ok (inr h)
  else
    do h <- fiboHeapMoveToRoot h pareptr gdpaptr;
    do g <- fget pare h gdpaptr;
    Ok (inl (h, gdpaptr, g)).

Definition fiboHeapDecrease (fuel : nat) (cmp : Z -> Z -> Z) (h : fheap) (n : Z) : res fheap :=
  do pareptr <- fget pare h n;
  if negb (pareptr =? FNULL) && (cmp n pareptr <? 0) then
    do h <- fiboHeapMoveToRoot h n pareptr;
    do gdpaptr <- fget pare h pareptr;
    loop fuel fiboDecrBody (h, pareptr, gdpaptr)
  else Ok h.

(** fiboHeapCutChildren (fibo.h 169-183).  State of the loop: heap, [chldptr]. *)
Definition fiboCutBody (cendptr : Z) (st : fheap * Z) : res ((fheap * Z) + fheap) :=
  let '(h, chldptr) := st in
  do nextptr <- fget next h chldptr;
  do h <- set_pare h chldptr FNULL;
  do h <- fiboHeapLinkAfter h 0 chldptr;
  if nextptr =? cendptr then Ok (inr h) else Ok (inl (h, nextptr)).

Definition fiboHeapCutChildren (fuel : nat) (h : fheap) (n : Z) : res fheap :=
  do chldptr <- fget chld h n;
  if chldptr =? FNULL then Ok h else loop fuel (fiboCutBody chldptr) (h, chldptr).

(** fiboHeapDelMacro (fibo.h 185-209).  State of the loop: heap, [pareptr],
    [rghtptr]. *)
Definition fiboDelBody (st : fheap * Z * Z) : res ((fheap * Z * Z) + fheap) :=
  let '(h, pareptr, rghtptr) := st in
  do d <- fget defl h pareptr;
  let deflval := d - 2 in
  do h <- set_defl h pareptr (Z.lor deflval 1);
  do gdpaptr <- fget pare h pareptr;
  do h <- set_chld h pareptr (if deflval <=? 1 then FNULL else rghtptr);
  if (Z.land deflval 1 =? 0) || (gdpaptr =? FNULL) then Ok (inr h) else
  do rghtptr <- fget next h pareptr;
  do h <- fiboHeapUnlink h pareptr;
  do h <- set_pare h pareptr FNULL;
  do h <- fiboHeapLinkAfter h 0 pareptr;
  Ok (inl (h, gdpaptr, rghtptr)).

Definition fiboHeapDel (fuel : nat) (h : fheap) (n : Z) : res fheap :=
  do pareptr <- fget pare h n;
  do h <- fiboHeapUnlink h n;
  do h <- fiboHeapCutChildren fuel h n;
  if pareptr =? FNULL then Ok h else
  do rghtptr <- fget next h n;
  loop fuel fiboDelBody (h, pareptr, rghtptr).

(** Linking of two roots of the same degree in fiboHeapConsolidate (fibo.c 169-191):
    [oldrptr] becomes a child of [rootptr]. *)
Definition fiboLink (h : fheap) (oldrptr rootptr : Z) : res fheap :=
  do h <- fiboHeapUnlink h oldrptr;
  do d <- fget defl h oldrptr;
  do h <- set_defl h oldrptr (Z.land d (-2));
  do h <- set_pare h oldrptr rootptr;
  do chldptr <- fget chld h rootptr;
  if negb (chldptr =? FNULL) then
    do d <- fget defl h rootptr;
    do h <- set_defl h rootptr (d + 2);
    fiboHeapLinkAfter h chldptr oldrptr
  else
    do h <- set_defl h rootptr 2;
    do h <- set_chld h rootptr oldrptr;
    do h <- set_next h oldrptr oldrptr;
    set_prev h oldrptr oldrptr.

(** First loop of fiboHeapConsolidate (fibo.c 148-192).  State of the loop: heap,
    [rootptr], [nextptr], [degrmax]. *)
Definition fiboConsBody (cmp : Z -> Z -> Z) (st : fheap * Z * Z * Z) : res ((fheap * Z * Z * Z) + (fheap * Z)) :=
  let '(h, rootptr, nextptr, degrmax) := st in
  if rootptr =? 0 then Ok (inr (h, degrmax)) else
  do d <- fget defl h rootptr;
  let degrval := Z.shiftr d 1 in
  do t <- rd 0 (degr h) degrval;
  if t =? FNULL then
    let degrmax := if degrval >? degrmax then degrval else degrmax in
    do h <- set_degr h degrval rootptr;
    do nn <- fget next h nextptr;
    Ok (inl (h, nextptr, nn, degrmax))
  else
    let '(oldrptr, rootptr) := if cmp t rootptr <=? 0 then (rootptr, t) else (t, rootptr) in
    do h <- set_degr h degrval FNULL;
    do h <- fiboLink h oldrptr rootptr;
    Ok (inl (h, rootptr, nextptr, degrmax)).

(** Search for the first recorded root (fibo.c 194-202).  State of the loop: heap,
    [degrval]; result: heap, [degrval], [bestptr]. *)
Definition fiboBest1Body (degrmax : Z) (st : fheap * Z) : res ((fheap * Z) + (fheap * Z * Z)) :=
  let '(h, degrval) := st in
  if degrval >? degrmax then Ok (inr (h, degrval, FNULL)) else
  do t <- rd 0 (degr h) degrval;
  if negb (t =? FNULL) then
    do h <- set_degr h degrval FNULL;
    Ok (inr (h, degrval + 1, t))
  else Ok (inl (h, degrval + 1)).

(** Search for the best root (fibo.c 203-209). *)
Definition fiboBest2Body (cmp : Z -> Z -> Z) (degrmax : Z) (st : fheap * Z * Z) : res ((fheap * Z * Z) + (fheap * Z)) :=
  let '(h, degrval, bestptr) := st in
  if degrval >? degrmax then Ok (inr (h, bestptr)) else
  do t <- rd 0 (degr h) degrval;
  if negb (t =? FNULL) then
    let bestptr := if cmp t bestptr <? 0 then t else bestptr in
    do h <- set_degr h degrval FNULL;
    Ok (inl (h, degrval + 1, bestptr))
  else Ok (inl (h, degrval + 1, bestptr)).

(** fiboHeapConsolidate (fibo.c 135-221), which is fiboHeapMin (fibo.h 134).  The
    tests of SCOTCH_DEBUG_FIBO2 are not compiled in. *)
Definition fiboHeapMin (fuel : nat) (cmp : Z -> Z -> Z) (h : fheap) : res (fheap * Z) :=
  do rootptr <- fget next h 0;
  do nextptr <- fget next h rootptr;
  do ' (h, degrmax) <- loop fuel (fiboConsBody cmp) (h, rootptr, nextptr, 0);
  do ' (h, degrval, bestptr) <- loop fuel (fiboBest1Body degrmax) (h, 0);
  loop fuel (fiboBest2Body cmp degrmax) (h, degrval, bestptr).
