(** Model of bipartitioning by greedy graph growing (bgraph_bipart_gg.c). *)
From Verif Require Import Base M_Graph M_Bgraph M_Vgraph M_BgraphSt M_VgraphGg.

(** bgraph_bipart_gg.h:85-89: the working data of the vertices.  State of a vertex: 0, free; 1, moved to part 1; 2, in the gain
    table (or refused because of its load), hence in part 0 (the field [next] is then an address, at least 2).
    Simplified: the gain table (Fibonacci heap or table of doubly linked lists, both modelled and proved on their own) is here the set of the
    vertices of state 2; which of them comes first is left to an arbitrary function of the number of the query, the
    states and the gains; [hg_k] is that number. *)
Record hgst := mkhgst { hg_st : list Z; hg_gn : list Z; hg_dlt : Z; hg_cml : Z; hg_k : nat }.

(** bgraph_bipart_gg.c:163-196: gains of all vertices when all of them are in part 0 *)
Definition hgGain0 (jk : Z) (s : graph) (veex : option (list Z)) (dist : Z) : res (list Z) :=
  let b := baseval s in
  for_ b (vertnnd s) (fun v gn =>
    do lo <- rvert s v; do hi <- rvend s v;
    do c <- match edlotab s with
      | None => Ok ((hi - lo) * dist)
      | Some t => do c <- for_ lo hi (fun e c => do l <- rd b t e; Ok (c + l)) 0; Ok (c * dist)
      end;
    do x <- match veex with None => Ok 0 | Some t => rd b t v end;
    wr b gn v (c + x)) (repeat jk (Z.to_nat (vertnbr s))).
(** 259-272: arc from the vertex that moves *)
Definition hgArc (s : graph) (dist2 e : Z) (x : list Z * list Z) : res (list Z * list Z) :=
  let b := baseval s in
  let '(st, gn) := x in
  do u <- redge s e;
  do su <- rd b st u;
  if negb (su =? 1) then
    do l <- match edlotab s with None => Ok 1 | Some t => rd b t e end;
    do gu <- rd b gn u;
    do gn <- wr b gn u (gu - l * dist2);
    do st <- wr b st u 2;
    Ok (st, gn)
  else Ok (st, gn).
(** 238-272: the vertex moves to part 1; or not, if the imbalance would not decrease: the flag is then set *)
Definition hgMove (s : graph) (ab : Z -> Z) (dist v : Z) (x : hgst) : res (hgst * bool) :=
  let b := baseval s in
  do l <- rvelo s v;
  if (ab (hg_dlt x) <=? ab (hg_dlt x - l)) && (0 <? l) then
    do st <- wr b (hg_st x) v 2;
    Ok (mkhgst st (hg_gn x) (hg_dlt x) (hg_cml x) (hg_k x), true)
  else
    do st <- wr b (hg_st x) v 1;
    do gv <- rd b (hg_gn x) v;
    do lo <- rvert s v; do hi <- rvend s v;
    do '(st, gn) <- for_ lo hi (hgArc s (dist * 2)) (st, hg_gn x);
    Ok (mkhgst st gn (hg_dlt x - l) (hg_cml x + gv) (hg_k x), false).
(** 231-273: moves from one root *)
Definition hgMoves (fuel : nat) (s : graph) (ab : Z -> Z) (frst : nat -> list Z -> list Z -> option Z) (dist v : Z) (x : hgst) : res (hgst * bool) :=
  loop fuel (fun '(v, x) =>
    do '(y, stop) <- hgMove s ab dist v x;
    if stop : bool then Ok (inr (y, true)) else
    let y' := mkhgst (hg_st y) (hg_gn y) (hg_dlt y) (hg_cml y) (S (hg_k y)) in
    match frst (hg_k y) (hg_st y) (hg_gn y) with
    | Some v => Ok (inl (v, y'))
    | None => Ok (inr (y', false))
    end) (v, x).
(** 211-293: one pass.  [rnd] is the random number whose remainder gives the first root (the division by zero is undefined), [prm] the
    permuted array of the vertices.  The next root is searched for as in vgraph_separate_gg.c ([ggNext]). *)
Definition hgPass (fuel : nat) (s : graph) (ab : Z -> Z) (frst : nat -> list Z -> list Z -> option Z) (dist av extn0 rnd : Z) (gn0 prm : list Z) (k : nat) : res hgst :=
  let n := vertnbr s in
  let x := mkhgst (repeat 0 (Z.to_nat n)) gn0 (velosum s - av) extn0 k in
  if n =? 0 then UB else
  loop fuel (fun '(v, i, x) =>
    do '(x, stop) <- hgMoves fuel s ab frst dist v x;
    if stop : bool then Ok (inr x) else
    do r <- ggNext fuel s prm (hg_st x) i;
    match r with
    | Some (v, i) => Ok (inl (v, i, x))
    | None => Ok (inr x)
    end) (baseval s + rnd mod n, 0, x).
(** 304-305 *)
Definition hgCopy (s : graph) (st pt : list Z) : res (list Z) :=
  for_ (baseval s) (vertnnd s) (fun v pt => do sv <- rd (baseval s) st v; wr (baseval s) pt v (if 2 <=? sv then 2 else sv)) pt.
(** 295-306: the state is part array, imbalance, communication load and number of the next query *)
Definition hgKeep (s : graph) (ab : Z -> Z) (passnum : Z) (x : hgst) (t : list Z * Z * Z * nat) : res (list Z * Z * Z * nat) :=
  let '(pt, dlt, cml, _) := t in
  if (passnum =? 0) || ((hg_cml x <? cml) || ((cml =? hg_cml x) && (ab (hg_dlt x) <? ab dlt))) then
    do pt <- hgCopy s (hg_st x) pt; Ok (pt, hg_dlt x, hg_cml x, hg_k x)
  else Ok (pt, dlt, cml, hg_k x).
(** 206-307; [rnd p] and [prm p] are the random number and the permutation of pass [p] *)
Definition hgPasses (s : graph) (ab : Z -> Z) (frst : nat -> list Z -> list Z -> option Z) (rnd : Z -> Z) (prm : Z -> list Z) (passnbr dist av extn0 : Z) (gn0 : list Z) (t : list Z * Z * Z * nat) : res (list Z * Z * Z * nat) :=
  for_ 0 passnbr (fun p t =>
    let '(_, _, _, k) := t in
    do x <- hgPass (S (S (Z.to_nat (vertnbr s)))) s ab frst dist av extn0 (rnd p) gn0 (prm p) k;
    hgKeep s ab p x t) t.
(** 322-334: arc of a vertex of the frontier of part 0; state: frontier, its size, flags, whether the vertex is useless *)
Definition hgFrontArc (s : graph) (pt : list Z) (e : Z) (x : list Z * Z * list Z * Z) : res (list Z * Z * list Z * Z) :=
  let b := baseval s in
  let '(fr, k, fl, tmp) := x in
  do u <- redge s e;
  do pu <- rd b pt u;
  if pu =? 1 then
    do fu <- rd b fl u;
    if negb (fu =? 0) then
      do fr <- wr 0 fr k u;
      do fl <- wr b fl u 0;
      Ok (fr, k + 1, fl, 0)
    else Ok (fr, k, fl, 0)
  else Ok (fr, k, fl, tmp).
(** 309-341; state: part array, frontier, its size, flags, size of part 1, external gain *)
Definition hgFront (s : graph) (veex : option (list Z)) (pt fr : list Z) (cmge0 : Z) : res (list Z * list Z * Z * list Z * Z * Z) :=
  let b := baseval s in
  for_ b (vertnnd s) (fun v '(pt, fr, k, fl, sz1, ge) =>
    do p <- rd b pt v;
    do '(pt, fr, k, fl) <- (if 1 <? p then
        do fr <- wr 0 fr k v;
        do pt <- wr b pt v 0;
        do lo <- rvert s v; do hi <- rvend s v;
        do '(fr, k, fl, tmp) <- for_ lo hi (hgFrontArc s pt) (fr, k + 1, fl, 1);
        Ok (pt, fr, k - tmp, fl)
      else Ok (pt, fr, k, fl));
    let p := Z.land p 1 in
    do ge <- match veex with None => Ok ge | Some t => do x <- rd b t v; Ok (ge - p * 2 * x) end;
    Ok (pt, fr, k, fl, sz1 + p, ge)) (pt, fr, 0, repeat 255 (Z.to_nat (vertnbr s)), 0, cmge0).
(** bgraph_bipart_gg.c:125-361, memory being available; [jk] is the contents of fresh memory *)
Definition bgraphBipartGg (jk : Z) (ab : Z -> Z) (frst : nat -> list Z -> list Z -> option Z) (rnd : Z -> Z) (prm : Z -> list Z) (passnbr : Z) : bmeth := fun g =>
  let s := bs g in
  do gn0 <- hgGain0 jk s (bveex g) (bdist g);
  do '(pt, dlt, cml, _) <- hgPasses s ab frst rnd prm passnbr (bdist g) (bavg g) (bcmle0 g) gn0 (bpart g, bdlt g, bcml g, O);
  do '(pt, fr, k, _, sz1, ge) <- hgFront s (bveex g) pt (bfron g) (bcmge0 g);
  Ok (0, mkbgraph s (bveex g) pt fr k (bmin g) (bmax g) (bavg g) dlt (bavg g + dlt) (vertnbr s - sz1)
           cml (bcmle0 g) (bcmge0 g) ge (if dlt <? 0 then - dlt else dlt, bavg g) (bdist g) (bwg0 g) (bwg1 g) (bfx0 g) (bfx1 g)).
