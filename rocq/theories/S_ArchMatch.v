(** Specification of the coarsening of target architectures by matching. *)
From Verif Require Import Base.

(** The first [cnt] cells of the array put each of the vertices [0..n-1] in exactly one
    coarse vertex, which holds it alone or with one other. *)
Definition groups (n : Z) (mt : list (Z * Z)) (cnt : Z) : Prop :=
  0 <= cnt <= zlen mt /\
  (forall c, 0 <= c < cnt -> let '(a, b) := at_ 0 mt c in 0 <= a < n /\ 0 <= b < n) /\
  (forall v, 0 <= v < n -> exists c, 0 <= c < cnt /\ (fst (at_ 0 mt c) = v \/ snd (at_ 0 mt c) = v) /\
     forall c', 0 <= c' < cnt -> (fst (at_ 0 mt c') = v \/ snd (at_ 0 mt c') = v) -> c' = c).

(** Repeated calls, until the routine returns a negative value: what each call yields. *)
Fixpoint rounds {S : Type} (mate : S -> res (Z * S)) (mt : S -> list (Z * Z)) (st : S) (k : nat) : res (list (Z * list (Z * Z))) :=
  match k with
  | O => Fuel
  | S k' =>
      match mate st with
      | Ok (c, st) => do l <- rounds mate mt st k'; Ok ((c, mt st) :: l)
      | Err (-1) => Ok []
      | Err e => Err e
      | UB => UB
      | Fuel => Fuel
      end
  end.

(** From [n] vertices, the calls group the vertices left by the previous one; there are
    fewer and fewer of them, never less than half, until a single one is left. *)
Fixpoint chain (n : Z) (ms : list (Z * list (Z * Z))) : Prop :=
  match ms with
  | [] => n = 1
  | (c, mt) :: ms' => groups n mt c /\ c < n <= 2 * c /\ chain c ms'
  end.

(** Coarsening of one coordinate of [n] values: coarse value [i] stands for the fine
    values of [mates n first i].  When [n] is odd one value is left alone, the first one
    or the last one. *)
Definition mates (n : Z) (first : bool) (i : Z) : Z * Z :=
  if Z.odd n && first then if i =? 0 then (0, 0) else (2 * i - 1, 2 * i)
  else if Z.odd n && (i =? n / 2) then (n - 1, n - 1) else (2 * i, 2 * i + 1).

(** The fine vertices are numbered [(u * n + i) * d + r], where [i] is the coordinate
    coarsened; so are the coarse ones, with [n'] in place of [n]. *)
Definition grid_mating (U n d : Z) (first : bool) (mt : list (Z * Z)) (cnt : Z) : Prop :=
  let n' := (n + 1) / 2 in
  cnt = U * n' * d /\
  forall u i r, 0 <= u < U -> 0 <= i < n' -> 0 <= r < d ->
    at_ 0 mt ((u * n' + i) * d + r) = ((u * n + fst (mates n first i)) * d + r, (u * n + snd (mates n first i)) * d + r).

(** States reached from [st0] by successful calls. *)
Inductive reach {S : Type} (mate : S -> res (Z * S)) (st0 : S) : S -> Prop :=
| reach_0 : reach mate st0 st0
| reach_S st c st' : reach mate st0 st -> mate st = Ok (c, st') -> reach mate st0 st'.
