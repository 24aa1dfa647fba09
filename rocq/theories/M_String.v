(** Model of in-place string substitution (common_string.c).  Strings are
    zero-terminated lists of byte values within a memory area; accesses outside
    the area are [UB]. *)
From Verif Require Import Base Mem.

(** C library strstr and strlen, on memory [b] from index [i]; [p] is the
    pattern without its terminator. *)
Fixpoint matchat (b : list Z) (i : Z) (p : list Z) : res bool :=
  match p with
  | [] => Ok true
  | c :: p' => do x <- rd 0 b i; if x =? c then matchat b (i + 1) p' else Ok false
  end.
Definition strstr (b : list Z) (i : Z) (p : list Z) : res (option Z) :=
  loop (S (length b)) (fun i =>
    do m <- matchat b i p;
    if m then Ok (inr (Some i)) else
    do x <- rd 0 b i;
    if x =? 0 then Ok (inr None) else Ok (inl (i + 1))) i.
Definition strlen (b : list Z) (i : Z) : res Z :=
  loop (S (length b)) (fun j => do x <- rd 0 b j; if x =? 0 then Ok (inr (j - i)) else Ok (inl (j + 1))) i.

(** common_string.c:63-90; [fuel] bounds the recursion depth *)
Fixpoint stringSubst2 (fuel : nat) (b : list Z) (src dst : Z) (p r : list Z) : res (list Z) :=
  match fuel with
  | O => Fuel
  | S f =>
      let ps := zlen p in
      let rs := zlen r in
      do o <- strstr b src p;
      do idx <- (match o with None => do l <- strlen b src; Ok (l + 1) | Some q => Ok (q - src) end);
      do b <- (if rs <? ps then memcp b b src dst idx else Ok b);
      do b <- (match o with Some q => stringSubst2 f b (q + ps) (dst + idx + rs) p r | None => Ok b end);
      do b <- (if ps <? rs then memcp b b src dst idx else Ok b);
      match o with Some _ => memcp r b 0 (dst + idx) rs | None => Ok b end
  end.

(** common_string.c:92-105 *)
Definition stringSubst (fuel : nat) (b p r : list Z) : res (list Z) := stringSubst2 fuel b 0 0 p r.
