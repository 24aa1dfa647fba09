(** Model of context option values (common_values.c, context.c,
    library_context.c, common_context.c).  Value areas are lists of cells in a
    heap; a cell holds an integer, or the code of a floating-point number.
    Simplification: offsets and sizes are counted in cells rather than bytes. *)
From Verif Require Import Base.

(** struct ValuesContext_ (common_values.h:52-60); [dain] and [data] are the
    heap indices of the initial and current areas *)
Record VC := { dain : Z; data : Z; datasiz : Z; vintnbr : Z; ointval : Z; vdblnbr : Z; odblval : Z }.
#[global] Instance Dflt_VC : Dflt VC :=
  {| dain := 0; data := 0; datasiz := 0; vintnbr := 0; ointval := 0; vdblnbr := 0; odblval := 0 |}.
Record VS := { heap : list (list Z); ctxs : list VC }.

(** common_values.c:68-98 for a new context; its structure is allocated
    successfully *)
Definition contextValuesInit (s : VS) (a siz vi oi vd od : Z) : VS :=
  {| heap := heap s; ctxs := ctxs s ++ [{| dain := a; data := a; datasiz := siz; vintnbr := vi; ointval := oi; vdblnbr := vd; odblval := od |}] |}.

(** common_values.c:107-140: return code and value *)
Definition getval (s : VS) (c n : Z) (nbr off : VC -> Z) : res (Z * Z) :=
  do v <- rd 0 (ctxs s) c;
  if (n <? 0) || (nbr v <=? n) then Ok (1, 0) else
  do d <- rd 0 (heap s) (data v);
  do x <- rd 0 d (off v + n);
  Ok (0, x).
Definition contextValuesGetDbl (s : VS) (c n : Z) : res (Z * Z) := getval s c n vdblnbr odblval.
Definition contextValuesGetInt (s : VS) (c n : Z) : res (Z * Z) := getval s c n vintnbr ointval.

Definition set_data (v : VC) (a : Z) : VC :=
  {| dain := dain v; data := a; datasiz := datasiz v; vintnbr := vintnbr v; ointval := ointval v; vdblnbr := vdblnbr v; odblval := odblval v |}.

(** common_values.c:148-167; [alloc] tells whether memory is available *)
Definition contextValuesAllocate (alloc : bool) (s : VS) (c : Z) : res (Z * VS) :=
  do v <- rd 0 (ctxs s) c;
  if data v =? dain v then
    if alloc then
      do d <- rd 0 (heap s) (dain v);
      if (datasiz v <? 0) || (zlen d <? datasiz v) then UB else
      let h := heap s ++ [firstn (Z.to_nat (datasiz v)) d] in
      do cs <- wr 0 (ctxs s) c (set_data v (zlen (heap s)));
      Ok (0, {| heap := h; ctxs := cs |})
    else Ok (1, s)
  else Ok (0, s).

(** common_values.c:169-211; [eqv] is the comparison of cells: integer equality,
    or the floating-point == operator *)
Definition setval (eqv : Z -> Z -> bool) (alloc : bool) (s : VS) (c n x : Z) (nbr off : VC -> Z) : res (Z * VS) :=
  do v <- rd 0 (ctxs s) c;
  if (n <? 0) || (nbr v <=? n) then Ok (1, s) else
  do d <- rd 0 (heap s) (data v);
  do y <- rd 0 d (off v + n);
  if eqv y x then Ok (0, s) else
  do '(o, s) <- contextValuesAllocate alloc s c;
  if negb (o =? 0) then Ok (1, s) else
  do v <- rd 0 (ctxs s) c;
  do d <- rd 0 (heap s) (data v);
  do d <- wr 0 d (off v + n) x;
  do h <- wr 0 (heap s) (data v) d;
  Ok (0, {| heap := h; ctxs := ctxs s |}).
Definition contextValuesSetInt (alloc : bool) (s : VS) (c n x : Z) : res (Z * VS) := setval Z.eqb alloc s c n x vintnbr ointval.
Definition contextValuesSetDbl (deq : Z -> Z -> bool) (alloc : bool) (s : VS) (c n x : Z) : res (Z * VS) := setval deq alloc s c n x vdblnbr odblval.

(** context.h:63-67 *)
Definition OPTDETERMINISTIC : Z := 0.
Definition OPTRANDOMFIXEDSEED : Z := 1.

(** library_context.c:293-327.  The switch is on the value, not on the option
    number. *)
Definition contextOptionSetNum (alloc : bool) (s : VS) (c optinum optival : Z) : res (Z * VS) :=
  if optival =? OPTRANDOMFIXEDSEED then
    let optitmp := if negb (optival =? 0) then 1 else optival in
    contextValuesSetInt alloc s c optinum optitmp
  else if optival =? OPTDETERMINISTIC then
    if negb (optival =? 0) then
      do '(o, s) <- contextValuesSetInt alloc s c OPTRANDOMFIXEDSEED 1;
      if negb (o =? 0) then Ok (1, s) else contextValuesSetInt alloc s c optinum 1
    else contextValuesSetInt alloc s c optinum optival
  else Ok (1, s).

(** C library character classes, "C" locale *)
Definition isspace (c : Z) : bool := (c =? 32) || ((9 <=? c) && (c <=? 13)).
Definition isalpha (c : Z) : bool := ((65 <=? c) && (c <=? 90)) || ((97 <=? c) && (c <=? 122)).

(** library_context.c:338-343: the table of option letters d, u, f, r *)
Definition contextOptionTab : list (Z * (Z * Z)) :=
  [(100, (OPTDETERMINISTIC, 1)); (117, (OPTDETERMINISTIC, 0)); (102, (OPTRANDOMFIXEDSEED, 1)); (114, (OPTRANDOMFIXEDSEED, 0))].
Fixpoint optfind (c : Z) (t : list (Z * (Z * Z))) : option (Z * Z) :=
  match t with [] => None | (k, a) :: r => if k =? c then Some a else optfind c r end.

(** library_context.c:345-386; the string is the list of its characters, its
    terminator being the end of the list.  The result of each setting is
    ignored by the code. *)
Fixpoint skipsp (l : list Z) : list Z :=
  match l with c :: r => if isspace c then skipsp r else l | [] => [] end.
Fixpoint contextOptionParse (fuel : nat) (alloc : bool) (s : VS) (c : Z) (str : list Z) : res (Z * VS) :=
  match fuel with
  | O => Fuel
  | S f =>
      match str with
      | [] => Ok (0, s)
      | _ =>
          match skipsp str with
          | [] => Ok (1, s)
          | k :: r =>
              if negb (isalpha k) then Ok (1, s) else
              match optfind k contextOptionTab with
              | None => Ok (1, s)
              | Some (num, val) =>
                  do '(_, s) <- contextOptionSetNum alloc s c num val;
                  match skipsp r with
                  | [] => Ok (0, s)
                  | k' :: r' => contextOptionParse f alloc s c (if k' =? 44 then r' else k' :: r')
                  end
              end
          end
      end
  end.
