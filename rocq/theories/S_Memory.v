(** Specification of grouped allocation and footprint accounting. *)
From Verif Require Import Base M_Memory.

(** Blocks of the given sizes at the given addresses are aligned on 8 bytes, in
    order without overlap, and within [lo, hi). *)
Fixpoint laid (lo hi : Z) (addrs sizes : list Z) : Prop :=
  match addrs, sizes with
  | [], [] => lo <= hi
  | a :: ar, s :: sr => lo <= a /\ a mod 8 = 0 /\ laid (a + s) hi ar sr
  | _, _ => False
  end.
(** bytes needed with at most 7 bytes of padding per block *)
Definition need (sizes : list Z) : Z := fold_right (fun s acc => s + 7 + acc) 0 sizes.

(** The blocks that are live after a history of successful requests, as a
    function from addresses to requested sizes. *)
Definition live := Z -> option Z.
Definition lset (l : live) (p : Z) (v : option Z) : live := fun q => if q =? p then v else l q.
Definition lstep (l : live) (op : mop) : live :=
  match op with
  | MAlloc z (Some p) => lset l p (Some (Z.lor z 8))
  | MRealloc q z (Some p) => lset (lset l q None) p (Some (Z.lor z 8))
  | MFree q => lset l q None
  | _ => l
  end.
Definition lrun (h : list mop) : live := fold_left lstep h (fun _ => None).

(** total of the sizes of the live blocks *)
Definition livesum (l : live) (t : Z) : Prop :=
  exists ps, NoDup ps /\ (forall p, In p ps <-> l p <> None) /\
    t = fold_right (fun p acc => match l p with Some s => s | None => 0 end + acc) 0 ps.

(** The program only passes live blocks, and the system allocator never returns
    the address of a live block. *)
Fixpoint legal (l : live) (h : list mop) : Prop :=
  match h with
  | [] => True
  | op :: r =>
      (match op with
       | MAlloc z o => 0 <= z /\ (forall p, o = Some p -> l p = None)
       | MRealloc q z o => 0 <= z /\ l q <> None /\ (forall p, o = Some p -> p = q \/ l p = None)
       | MFree q => l q <> None
       end) /\ legal (lstep l op) r
  end.
(** no total exceeds the range of the counter *)
Definition fits (h : list mop) : Prop :=
  forall h1 h2, h = h1 ++ h2 -> forall t, livesum (lrun h1) t -> t < 2 ^ 63.

(** [m] is the largest total reached during the history *)
Definition peak (h : list mop) (m : Z) : Prop :=
  (forall h1 h2 t, h = h1 ++ h2 -> livesum (lrun h1) t -> t <= m) /\
  exists h1 h2, h = h1 ++ h2 /\ livesum (lrun h1) m.
