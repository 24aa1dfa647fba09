(** Model of vertex separation by greedy graph growing (vgraph_separate_gg.c). *)
From Verif Require Import Base M_Graph M_Vgraph M_VgraphSt.

(** vgraph_separate_gg.h:60-84: the working data of the vertices.  State of a vertex: 0 or 1, in that part; 2, in the
    separator and chained; 3, in the separator and in the gain table (the field [next] is then an address, above 3).
    Simplified: the gain table, modelled and proved on its own, is here the set of the vertices of state 3; which of
    them [gainTablFrst] gives is left to an arbitrary function of the number of the query, the states and the gains;
    [gg_k] is that number.  The chain through the fields [prev] is a list. *)
Record ggst := mkggst { gg_st : list Z; gg_gn : list Z; gg_dlt : Z; gg_c2 : Z; gg_k : nat }.

(** 205-221: arc from a vertex of load [lx] that enters the separator *)
Definition ggArc2 (s : graph) (lx e : Z) (x : list Z * list Z * list Z * Z) : res (list Z * list Z * list Z * Z) :=
  let b := baseval s in
  let '(st, gn, sep, acc) := x in
  do u <- redge s e;
  do su <- rd b st u;
  if su =? 0 then do lu <- rvelo s u; Ok (st, gn, sep, acc + lu)
  else if 2 <=? su then
    do gu <- rd b gn u;
    do gn <- wr b gn u (gu - lx);
    if 3 <=? su then do st <- wr b st u 2; Ok (st, gn, u :: sep, acc) else Ok (st, gn, sep, acc)
  else Ok (st, gn, sep, acc).
(** 186-224: arc from the vertex that leaves the separator *)
Definition ggArc (s : graph) (e : Z) (x : list Z * list Z * list Z) : res (list Z * list Z * list Z) :=
  let b := baseval s in
  let '(st, gn, sep) := x in
  do w <- redge s e;
  do sw <- rd b st w;
  if sw =? 0 then
    do st <- wr b st w 2;
    do lw <- rvelo s w;
    do lo <- rvert s w; do hi <- rvend s w;
    do '(st, gn, sep, acc) <- for_ lo hi (ggArc2 s lw) (st, gn, w :: sep, - lw);
    do gn <- wr b gn w acc;
    Ok (st, gn, sep)
  else Ok (st, gn, sep).
(** 225-229: chained vertices go back to the gain table *)
Fixpoint ggRelink (b : Z) (sep st : list Z) : res (list Z) :=
  match sep with
  | nil => Ok st
  | u :: sep => do st <- wr b st u 3; ggRelink b sep st
  end.
(** 162-229: the vertex moves to part 1, or nothing is done as the imbalance would grow *)
Definition ggMove (s : graph) (ab : Z -> Z) (w0 w1 v : Z) (x : ggst) : res (option ggst) :=
  let b := baseval s in
  do l <- rvelo s v;
  let cmp := gg_dlt x - l * w0 in
  if gg_dlt x <? ab cmp then Ok None else
  do st <- wr b (gg_st x) v 1;
  do gv <- rd b (gg_gn x) v;
  do lo <- rvert s v; do hi <- rvend s v;
  do '(st, gn, sep) <- for_ lo hi (ggArc s) (st, gg_gn x, nil);
  do st <- ggRelink b sep st;
  Ok (Some (mkggst st gn (cmp - (gv + l) * w1) (gg_c2 x + gv) (gg_k x))).
(** 155-230: moves from one root; tells if they were stopped *)
Definition ggMoves (fuel : nat) (s : graph) (ab : Z -> Z) (frst : nat -> list Z -> list Z -> option Z) (w0 w1 v : Z) (x : ggst) : res (ggst * bool) :=
  loop fuel (fun '(v, x) =>
    do r <- ggMove s ab w0 w1 v x;
    match r with
    | None => Ok (inr (x, true))
    | Some y =>
      let y' := mkggst (gg_st y) (gg_gn y) (gg_dlt y) (gg_c2 y) (S (gg_k y)) in
      match frst (gg_k y) (gg_st y) (gg_gn y) with
      | Some v => Ok (inl (v, y'))
      | None => Ok (inr (y', false))
      end
    end) (v, x).
(** 134-153: a root enters the separator *)
Definition ggRoot (s : graph) (w1 v : Z) (x : ggst) : res ggst :=
  let b := baseval s in
  do st <- wr b (gg_st x) v 3;
  do lo <- rvert s v; do hi <- rvend s v;
  do '(l, gv) <- match velotab s with
    | None => Ok (1, hi - lo - 1)
    | Some _ =>
      do l <- rvelo s v;
      do gv <- for_ lo hi (fun e gv => do u <- redge s e; do lu <- rvelo s u; Ok (gv + lu)) (- l);
      Ok (l, gv)
    end;
  do gn <- wr b (gg_gn x) v gv;
  Ok (mkggst st gn (gg_dlt x - l * w1) (gg_c2 x + l) (gg_k x)).
(** 245-250: next root, from rank [i] of the permutation, and rank after it *)
Definition ggNext (fuel : nat) (s : graph) (prm st : list Z) (i : Z) : res (option (Z * Z)) :=
  loop fuel (fun i =>
    if i <? vertnbr s then
      do v <- rd 0 prm i;
      do sv <- rd (baseval s) st v;
      if sv =? 0 then Ok (inr (Some (v, i + 1))) else Ok (inl (i + 1))
    else Ok (inr None)) i.
(** 117-251: one pass.  [rnd] is the random number whose remainder gives the first root (the division by zero
    is undefined), [prm] the permuted array of the vertices. *)
Definition ggPass (fuel : nat) (s : graph) (ab : Z -> Z) (frst : nat -> list Z -> list Z -> option Z) (w0 w1 rnd : Z) (prm : list Z) (k : nat) : res ggst :=
  let n := vertnbr s in
  let x := mkggst (repeat 0 (Z.to_nat n)) (repeat 0 (Z.to_nat n)) (velosum s * w1) 0 k in
  if n =? 0 then UB else
  loop fuel (fun '(v, i, x) =>
    do x <- ggRoot s w1 v x;
    do '(x, stop) <- ggMoves fuel s ab frst w0 w1 v x;
    if stop : bool then Ok (inr x) else
    do r <- ggNext fuel s prm (gg_st x) i;
    match r with
    | Some (v, i) => Ok (inl (v, i, x))
    | None => Ok (inr x)
    end) (baseval s + rnd mod n, 0, x).
(** 261-262 *)
Definition ggCopy (s : graph) (st pt : list Z) : res (list Z) :=
  for_ (baseval s) (vertnnd s) (fun v pt => do sv <- rd (baseval s) st v; wr (baseval s) pt v (if sv <=? 2 then sv else 2)) pt.
(** 253-263: the state is part array, imbalance, load of the separator and number of the next query *)
Definition ggKeep (s : graph) (ab : Z -> Z) (passnum : Z) (x : ggst) (t : list Z * Z * Z * nat) : res (list Z * Z * Z * nat) :=
  let '(pt, dlt, c2, _) := t in
  if (passnum =? 0) || ((gg_c2 x <? c2) || ((c2 =? gg_c2 x) && (ab (gg_dlt x) <? ab dlt))) then
    do pt <- ggCopy s (gg_st x) pt; Ok (pt, gg_dlt x, gg_c2 x, gg_k x)
  else Ok (pt, dlt, c2, gg_k x).
(** 114-264.  [rnd p] and [prm p] are the random number and the permutation of pass [p]. *)
Definition ggPasses (s : graph) (ab : Z -> Z) (frst : nat -> list Z -> list Z -> option Z) (rnd : Z -> Z) (prm : Z -> list Z) (passnbr w0 w1 : Z) (t : list Z * Z * Z * nat) : res (list Z * Z * Z * nat) :=
  for_ 0 passnbr (fun p t =>
    let '(_, _, _, k) := t in
    do x <- ggPass (S (S (Z.to_nat (vertnbr s)))) s ab frst w0 w1 (rnd p) (prm p) k;
    ggKeep s ab p x t) t.
(** vgraph_separate_gg.c:90-308, memory being available *)
Definition vgraphSeparateGg (ab : Z -> Z) (frst : nat -> list Z -> list Z -> option Z) (rnd : Z -> Z) (prm : Z -> list Z) (passnbr : Z) : vmeth := fun g =>
  let s := vs g in let b := baseval s in let n := vertnbr s in
  do '(pt, dlt, c2, _) <- ggPasses s ab frst rnd prm passnbr (vdw0 g) (vdw1 g) (vpart g, vdlt g, vcld2 g, O);
  if vdw0 g + vdw1 g =? 0 then UB else
  let c0 := Z.quot (dlt + (velosum s - c2) * vdw0 g) (vdw0 g + vdw1 g) in
  do '(fr, k, sz1, sz2) <- for_ b (vertnnd s) (fun v '(fr, k, sz1, sz2) =>           (* 276-287 *)
    do p <- rd b pt v;
    let sz1 := sz1 + Z.land p 1 in let sz2 := sz2 + Z.shiftr p 1 in
    if p =? 2 then do fr <- wr 0 fr k v; Ok (fr, k + 1, sz1, sz2) else Ok (fr, k, sz1, sz2)) (vfron g, 0, 0, 0);
  Ok (0, mkvgraph s pt fr sz2 (n - sz1 - sz2) sz1 c0 (velosum s - c2 - c0) c2 dlt (vdw0 g) (vdw1 g)).
