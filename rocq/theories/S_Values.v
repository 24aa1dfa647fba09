(** Specification of context option values: each context has its own arrays of
    integer and floating-point values. *)
From Verif Require Import Base M_Values.

Record ctx := { ints : list Z; dbls : list Z }.
#[global] Instance Dflt_ctx : Dflt ctx := {| ints := []; dbls := [] |}.

Inductive vop :=
| VSetInt (alloc : bool) (c n x : Z)
| VSetDbl (alloc : bool) (c n x : Z)
| VGetInt (c n : Z)
| VGetDbl (c n : Z).
Definition vctx (op : vop) : Z := match op with VSetInt _ c _ _ | VSetDbl _ c _ _ | VGetInt c _ | VGetDbl c _ => c end.

(** [vspec deq l op r v l'] : on contexts [l], call [op] may return code [r] and
    value [v], and leave contexts [l'].  [deq] is floating-point equality. *)
Definition vspec (deq : Z -> Z -> bool) (l : list ctx) (op : vop) (r v : Z) (l' : list ctx) : Prop :=
  match op with
  | VSetInt alloc c n x =>
      let t := at_ 0 l c in
      if (0 <=? n) && (n <? zlen (ints t))
      then (r = 0 /\ l' = upd 0 l c {| ints := upd 0 (ints t) n x; dbls := dbls t |}) \/ (r = 1 /\ alloc = false /\ l' = l)
      else r = 1 /\ l' = l
  | VSetDbl alloc c n x =>
      let t := at_ 0 l c in
      if (0 <=? n) && (n <? zlen (dbls t))
      then (r = 0 /\ (l' = upd 0 l c {| ints := ints t; dbls := upd 0 (dbls t) n x |} \/ (deq (at_ 0 (dbls t) n) x = true /\ l' = l)))
           \/ (r = 1 /\ alloc = false /\ l' = l)
      else r = 1 /\ l' = l
  | VGetInt c n =>
      let t := at_ 0 l c in
      l' = l /\ if (0 <=? n) && (n <? zlen (ints t)) then r = 0 /\ v = at_ 0 (ints t) n else r = 1
  | VGetDbl c n =>
      let t := at_ 0 l c in
      l' = l /\ if (0 <=? n) && (n <? zlen (dbls t)) then r = 0 /\ v = at_ 0 (dbls t) n else r = 1
  end.
(** a whole history, with the codes and values returned by its calls *)
Inductive vhist (deq : Z -> Z -> bool) : list ctx -> list vop -> list (Z * Z) -> list ctx -> Prop :=
| vh_nil l : vhist deq l [] [] l
| vh_cons l op r v l1 h rs l' : vspec deq l op r v l1 -> vhist deq l1 h rs l' -> vhist deq l (op :: h) ((r, v) :: rs) l'.

(** the library performing the same calls *)
Definition vstep (deq : Z -> Z -> bool) (s : VS) (op : vop) : res (Z * Z * VS) :=
  match op with
  | VSetInt a c n x => do '(r, s) <- contextValuesSetInt a s c n x; Ok (r, 0, s)
  | VSetDbl a c n x => do '(r, s) <- contextValuesSetDbl deq a s c n x; Ok (r, 0, s)
  | VGetInt c n => do '(r, v) <- contextValuesGetInt s c n; Ok (r, v, s)
  | VGetDbl c n => do '(r, v) <- contextValuesGetDbl s c n; Ok (r, v, s)
  end.
Fixpoint vrun (deq : Z -> Z -> bool) (s : VS) (h : list vop) : res (list (Z * Z) * VS) :=
  match h with
  | [] => Ok ([], s)
  | op :: h => do '(r, v, s) <- vstep deq s op; do '(rs, s) <- vrun deq s h; Ok ((r, v) :: rs, s)
  end.

(** A number of contexts sharing one default area, laid out as a structure with
    two separate arrays. *)
Definition layout (def : list Z) (vi oi vd od : Z) : Prop :=
  0 <= vi /\ 0 <= vd /\ 0 <= oi /\ 0 <= od /\ oi + vi <= zlen def /\ od + vd <= zlen def /\
  (oi + vi <= od \/ od + vd <= oi \/ vi = 0 \/ vd = 0).
Definition fresh (def : list Z) (vi oi vd od : Z) (k : nat) : VS :=
  Nat.iter k (fun s => contextValuesInit s 0 (zlen def) vi oi vd od) {| heap := [def]; ctxs := [] |}.
Definition slice (d : list Z) (o n : Z) : list Z := map (fun k => at_ 0 d (o + k)) (zseq 0 n).

(** what a user can observe of the contexts *)
Definition absc (vi oi vd od : Z) (h : list (list Z)) (v : VC) : ctx :=
  {| ints := slice (at_ 0 h (data v)) oi vi; dbls := slice (at_ 0 h (data v)) od vd |}.
Definition abs (vi oi vd od : Z) (s : VS) : list ctx := map (absc vi oi vd od (heap s)) (ctxs s).

(** Option strings: letters d, u (option 0, on or off), f, r (option 1, on or
    off), with optional white space around them and commas between them. *)
Definition letter (k : Z) (a : Z * Z) : Prop :=
  (k = 100 /\ a = (0, 1)) \/ (k = 117 /\ a = (0, 0)) \/ (k = 102 /\ a = (1, 1)) \/ (k = 114 /\ a = (1, 0)).
Inductive optstr : list Z -> list (Z * Z) -> Prop :=
| os_nil : optstr [] []
| os_last ws k ws' a : Forall (fun c => isspace c = true) ws -> Forall (fun c => isspace c = true) ws' -> letter k a -> optstr (ws ++ k :: ws') [a]
| os_cons ws k ws' sep rest a l :
    Forall (fun c => isspace c = true) ws -> Forall (fun c => isspace c = true) ws' -> letter k a ->
    (sep = [44] \/ (sep = [] /\ rest <> [])) -> optstr rest l ->
    optstr (ws ++ k :: ws' ++ sep ++ rest) (a :: l).

(** the options set in turn *)
Fixpoint setall (alloc : bool) (s : VS) (c : Z) (l : list (Z * Z)) : res VS :=
  match l with
  | [] => Ok s
  | (num, val) :: r => do '(_, s) <- contextOptionSetNum alloc s c num val; setall alloc s c r
  end.
