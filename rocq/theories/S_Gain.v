(** Specification of a gain table: a list of (element, gain) pairs, the most
    recently added first, with no reference to buckets or links. *)
From Verif Require Import Base M_Gain.

Definition gtable := list (Z * Z).
Definition elems (t : gtable) : list Z := map fst t.

(** Buckets of gains.  [bk] maps gains to buckets 0 .. n-1. *)
Definition inbk (bk : Z -> Z) (t : gtable) (b : Z) : list Z :=
  map fst (filter (fun p => bk (snd p) =? b) t).
(** Elements by increasing bucket *)
Fixpoint bylist (bk : Z -> Z) (t : gtable) (bs : list Z) : list Z :=
  match bs with [] => [] | b :: r => inbk bk t b ++ bylist bk t r end.
Definition ordered (bk : Z -> Z) (n : Z) (t : gtable) : list Z := bylist bk t (zseq 0 n).

(** What the enumeration yields: all elements by increasing bucket, except
    those of the last bucket if there is something before it. *)
Definition visited (bk : Z -> Z) (n : Z) (t : gtable) : list Z :=
  match ordered bk (n - 1) t with [] => inbk bk t (n - 1) | l => l end.

Definition without (k : Z) (t : gtable) : gtable := filter (fun p => negb (fst p =? k)) t.
Fixpoint after (k : Z) (l : list Z) : option Z :=
  match l with [] => None | a :: r => if a =? k then hd_error r else after k r end.

(** Client obligations: an element is not added twice, only elements of the
    table are removed or used to find their successor; gains are INT values. *)
Definition gpre (w nlink : Z) (t : gtable) (o : gop) : Prop :=
  match o with
  | GAdd k g => 0 <= k < nlink /\ ~ In k (elems t) /\ - 2 ^ (w - 1) <= g < 2 ^ (w - 1)
  | GDel k | GNext k => In k (elems t)
  | GFrst | GFree | GMove _ | GList => True
  end.
Definition gpost (t : gtable) (o : gop) : gtable :=
  match o with
  | GAdd k g => (k, g) :: t
  | GDel k => without k t
  | GFree => []
  | GFrst | GNext _ | GMove _ | GList => t
  end.
Definition gres (bk : Z -> Z) (n : Z) (t : gtable) (o : gop) : gout :=
  match o with
  | GFrst => OLink (hd_error (ordered bk n t))
  | GNext k => OLink (if in_dec Z.eq_dec k (inbk bk t (n - 1)) then after k (inbk bk t (n - 1)) else after k (ordered bk (n - 1) t))
  | GList => OList (visited bk n t)
  | _ => ODone
  end.
Fixpoint gvalid (w nlink : Z) (t : gtable) (l : list gop) : Prop :=
  match l with [] => True | o :: r => gpre w nlink t o /\ gvalid w nlink (gpost t o) r end.
Fixpoint gfinal (t : gtable) (l : list gop) : gtable :=
  match l with [] => t | o :: r => gfinal (gpost t o) r end.
Fixpoint gouts (bk : Z -> Z) (n : Z) (t : gtable) (l : list gop) : list gout :=
  match l with [] => [] | o :: r => gres bk n t o :: gouts bk n (gpost t o) r end.

(** The bucket of a gain.  Linear tables: one bucket per gain, clamped to the
    table.  Logarithmic tables with [s] sub-bits: gains up to 2^(s+1) have their own
    bucket, and there are 2^s buckets per power of two above. *)
Definition linbk (n g : Z) : Z := Z.max 0 (Z.min (n - 1) (n / 2 + g)).
Definition logidx (s j : Z) : Z := let i := Z.max 0 (Z.log2 j - s) in i * 2 ^ s + j / 2 ^ i.
Definition logbk (n s g : Z) : Z := if 0 <=? g then n / 2 + logidx s g else n / 2 - 1 - logidx s (- 1 - g).
