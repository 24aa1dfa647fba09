(** Model of src/libscotch/common_sort.c and common_psort.c, the generic
    sorting routines instantiated in common_integer.c:481-582.

    Records are elements of [A]; pointers into the array are record indices
    from [base_ptr] (all pointer values in the C code are multiples of
    INTSORTSIZE away from base_ptr).  Reading or writing a record outside the
    array is [UB], and so is pushing on the full partition stack.  The
    byte-by-byte rotation of common_sort.c:243-252 is modelled record by
    record. *)
From Verif Require Import Base.

(** common_sort.c:51 *)
Definition MAX_THRESH : Z := 6.

(** INTSORTSWAP (common_integer.c:483...) *)
Definition sswap {A} `{Dflt A} (a : list A) (i j : Z) : res (list A) :=
  do x <- rd 0 a i; do y <- rd 0 a j; do a1 <- wr 0 a i y; wr 0 a1 j x.

(** INTSORTCMP applied to two pointers *)
Definition scmp {A} `{Dflt A} (cmp : A -> A -> bool) (a : list A) (i j : Z) : res bool :=
  do x <- rd 0 a i; do y <- rd 0 a j; Ok (cmp x y).

(** common_sort.c:130-139 (= common_psort.c:129-138), median of three *)
Definition median3 {A} `{Dflt A} (cmp : A -> A -> bool) (a : list A) (lo hi : Z) : res (list A * Z) :=
  let mid := lo + Z.shiftr (hi - lo) 1 in
  do c <- scmp cmp a mid lo;
  do a <- (if c : bool then sswap a mid lo else Ok a);
  do c <- scmp cmp a hi mid;
  if c : bool then
    do a <- sswap a mid hi;
    do c <- scmp cmp a mid lo;
    do a <- (if c : bool then sswap a mid lo else Ok a);
    Ok (a, mid)
  else Ok (a, mid).

(** common_sort.c:149-150 *)
Definition scanL {A} `{Dflt A} (cmp : A -> A -> bool) (a : list A) (mid lft : Z) : res Z :=
  loop (S (length a)) (fun l => do c <- scmp cmp a l mid; if c : bool then Ok (inl (l + 1)) else Ok (inr l)) lft.
(** common_sort.c:152-153 *)
Definition scanR {A} `{Dflt A} (cmp : A -> A -> bool) (a : list A) (mid rgt : Z) : res Z :=
  loop (S (length a)) (fun r => do c <- scmp cmp a mid r; if c : bool then Ok (inl (r - 1)) else Ok (inr r)) rgt.

(** common_sort.c:147-172 (= common_psort.c:146-171), "collapse the walls" *)
Definition collapse {A} `{Dflt A} (cmp : A -> A -> bool) (a : list A) (mid lft rgt : Z)
  : res (list A * Z * Z) :=
  loop (S (length a)) (fun '(a, mid, lft, rgt) =>
    do lft <- scanL cmp a mid lft;
    do rgt <- scanR cmp a mid rgt;
    if lft <? rgt then
      do a <- sswap a lft rgt;
      let mid := if mid =? lft then rgt else if mid =? rgt then lft else mid in
      let lft := lft + 1 in
      let rgt := rgt - 1 in
      if lft <=? rgt then Ok (inl (a, mid, lft, rgt)) else Ok (inr (a, lft, rgt))
    else if lft =? rgt then
      Ok (inr (a, lft + 1, rgt - 1))
    else
      if lft <=? rgt then Ok (inl (a, mid, lft, rgt)) else Ok (inr (a, lft, rgt)))
    (a, mid, lft, rgt).

(** common_sort.c:130-172, one partitioning pass over [lo..hi] *)
Definition partition {A} `{Dflt A} (cmp : A -> A -> bool) (a : list A) (lo hi : Z) : res (list A * Z * Z) :=
  do '(a, mid) <- median3 cmp a lo hi;
  collapse cmp a mid (lo + 1) (hi - 1).

(** Partition stack: the NULL sentinel pushed first (common_sort.c:117) is the
    bottom of the list and is represented by [None]; [stksiz] is STACK_SIZE. *)
Definition push {T} (stksiz : Z) (stk : list T) (x : T) : res (list T) :=
  if zlen stk <? stksiz then Ok (x :: stk) else UB.

(** common_sort.c:119-203; [(size_t) (x) <= max_thresh] is false for negative x. *)
Definition small (d : Z) : bool := (0 <=? d) && (d <=? MAX_THRESH).

Definition qstep {A} `{Dflt A} (cmp : A -> A -> bool) (stksiz : Z)
  (st : list A * Z * Z * list (option (Z * Z))) : res ((list A * Z * Z * list (option (Z * Z))) + list A) :=
  let '(a, lo, hi, stk) := st in
  do '(a, lft, rgt) <- partition cmp a lo hi;
  if small (rgt - lo) then
    if small (hi - lft) then
      match stk with
      | [] => UB                                  (* POP on an empty stack *)
      | None :: _ => Ok (inr a)                   (* sentinel: loop ends   *)
      | Some (lo, hi) :: stk => Ok (inl (a, lo, hi, stk))
      end
    else Ok (inl (a, lft, hi, stk))
  else if small (hi - lft) then Ok (inl (a, lo, rgt, stk))
  else if hi - lft <? rgt - lo then
    do stk <- push stksiz stk (Some (lo, rgt));
    Ok (inl (a, lft, hi, stk))
  else
    do stk <- push stksiz stk (Some (lft, hi));
    Ok (inl (a, lo, rgt, stk)).

Definition quick {A} `{Dflt A} (cmp : A -> A -> bool) (stksiz : Z) (a : list A) (n : Z) : res (list A) :=
  do stk <- push stksiz [] None;
  loop (S (S (2 * length a))) (qstep cmp stksiz) (a, 0, n - 1, stk).

(** common_sort.c:222-224: index of a smallest record among the first ones *)
Definition findmin {A} `{Dflt A} (cmp : A -> A -> bool) (a : list A) (thresh : Z) : res Z :=
  for_ 1 (thresh + 1) (fun run tmp => do c <- scmp cmp a run tmp; Ok (if c : bool then run else tmp)) 0.

(** common_sort.c:235-236 *)
Definition scanI {A} `{Dflt A} (cmp : A -> A -> bool) (a : list A) (run tmp : Z) : res Z :=
  loop (S (length a)) (fun t => do c <- scmp cmp a run t; if c : bool then Ok (inl (t - 1)) else Ok (inr t)) tmp.

(** common_sort.c:241-253, record-level rotation of [tmp..run] to the rgt *)
Definition rotate {A} `{Dflt A} (a : list A) (tmp run : Z) : res (list A) :=
  do c <- rd 0 a run;
  do a <- for_ 0 (run - tmp) (fun k a => do x <- rd 0 a (run - k - 1); wr 0 a (run - k) x) a;
  wr 0 a tmp c.

(** common_sort.c:231-254 *)
Definition insertion {A} `{Dflt A} (cmp : A -> A -> bool) (a : list A) (n : Z) : res (list A) :=
  for_ 2 n (fun run a =>
    do tmp <- scanI cmp a run (run - 1);
    let tmp := tmp + 1 in
    if tmp =? run then Ok a else rotate a tmp run) a.

(** common_sort.c:99-256 INTSORTNAME *)
Definition intSort {A} `{Dflt A} (cmp : A -> A -> bool) (stksiz : Z) (a : list A) (n : Z) : res (list A) :=
  if n =? 0 then Ok a else
  do a <- (if MAX_THRESH <? n then quick cmp stksiz a n else Ok a);
  let thresh := Z.min (n - 1) MAX_THRESH in
  do tmp <- findmin cmp a thresh;
  do a <- (if negb (tmp =? 0) then sswap a tmp 0 else Ok a);
  insertion cmp a n.

(** Comparison macros of common_integer.c; records of 1, 2 or 3 INTs.
    common_integer.c:481-484 intSort1asc1 *)
Definition cmp1 (x y : Z) : bool := x <? y.
(** common_integer.c:498-501 (intSort2asc1), 533-536 (intSort3asc1): first value *)
Definition cmp_fst {B} (x y : Z * B) : bool := fst x <? fst y.
(** common_integer.c:516-519 (intSort2asc2) *)
Definition cmp2 (x y : Z * Z) : bool := (fst x <? fst y) || ((fst x =? fst y) && (snd x <? snd y)).
(** common_integer.c:551-554 (intSort3asc2) *)
Definition cmp3 (x y : Z * (Z * Z)) : bool :=
  (fst x <? fst y) || ((fst x =? fst y) && (fst (snd x) <? fst (snd y))).

Definition intSort1asc1 := intSort cmp1.
Definition intSort2asc1 := intSort (@cmp_fst Z).
Definition intSort2asc2 := intSort cmp2.
Definition intSort3asc1 := intSort (@cmp_fst (Z * Z)).
Definition intSort3asc2 := intSort cmp3.

(** ** common_psort.c:118-209: same, with a level bound and no insertion sort *)
Definition pstep {A} `{Dflt A} (cmp : A -> A -> bool) (stksiz maxlvl : Z)
  (st : list A * Z * Z * Z * list (option (Z * Z * Z))) : res ((list A * Z * Z * Z * list (option (Z * Z * Z))) + list A) :=
  let '(a, lo, hi, lvl, stk) := st in
  do '(a, lft, rgt) <- partition cmp a lo hi;
  let lvl := lvl + 1 in
  let '(lo, hi) := if maxlvl <=? lvl then (rgt, lft) else (lo, hi) in
  if small (rgt - lo) then
    if small (hi - lft) then
      match stk with
      | [] => UB
      | None :: _ => Ok (inr a)
      | Some (lo, hi, lvl) :: stk => Ok (inl (a, lo, hi, lvl, stk))
      end
    else Ok (inl (a, lft, hi, lvl, stk))
  else if small (hi - lft) then Ok (inl (a, lo, rgt, lvl, stk))
  else if hi - lft <? rgt - lo then
    do stk <- push stksiz stk (Some (lo, rgt, lvl));
    Ok (inl (a, lft, hi, lvl, stk))
  else
    do stk <- push stksiz stk (Some (lft, hi, lvl));
    Ok (inl (a, lo, rgt, lvl, stk)).

(** common_psort.c:100-211 INTSORTNAME *)
Definition intPsort {A} `{Dflt A} (cmp : A -> A -> bool) (stksiz : Z) (a : list A) (n maxlvl : Z) : res (list A) :=
  if MAX_THRESH <? n then
    do stk <- push stksiz [] None;
    loop (S (S (2 * length a))) (pstep cmp stksiz maxlvl) (a, 0, n - 1, 0, stk)
  else Ok a.

(** common_integer.c:574-577 *)
Definition intPsort2asc1 := intPsort (@cmp_fst Z).
