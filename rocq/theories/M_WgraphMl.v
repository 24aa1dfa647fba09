(** Model of multilevel partitioning with overlap (wgraph_part_ml.c). *)
From Verif Require Import Base Mem M_Graph M_Vgraph M_Coarsen M_VgraphSt M_Wgraph.

(** wgraph_part_ml.c:184-210: part and frontier arrays of the fine graph; state: part array, frontier array, number of frontier vertices *)
Definition wmlProject (b : Z) (ch : wgraph) (mult : list (Z * Z)) (pt fr : list Z) : res (list Z * list Z * Z) :=
  for_ 0 (vertnbr (ws ch)) (fun c '(pt, fr, k) =>
    do p <- rd 0 (wpart ch) c;
    do '(v0, v1) <- rd 0 mult c;
    do pt <- wr b pt v0 p;
    if 0 <=? p then
      if negb (v0 =? v1) then do pt <- wr b pt v1 p; Ok (pt, fr, k) else Ok (pt, fr, k)
    else
      do fr <- wr 0 fr k v0;
      if negb (v0 =? v1) then do pt <- wr b pt v1 p; do fr <- wr 0 fr (k + 1) v1; Ok (pt, fr, k + 2)
      else Ok (pt, fr, k + 1)) (pt, fr, 0).

(** 227-241: chains the parts next to separator vertex [v]; state: vertnum and nextidx fields of the list array, from index -1, and head
    of the list *)
Definition wmlChain (g : wgraph) (v lo hi : Z) (vn nx : list Z) : res (list Z * list Z * Z) :=
  for_ lo hi (fun e '(vn, nx, hd) =>
    do w <- redge (ws g) e;
    do p <- rd (baseval (ws g)) (wpart g) w;
    do x <- rd (-1) vn p;
    if negb (x =? v) then
      do vn <- wr (-1) vn p v;
      do nx <- wr (-1) nx p hd;
      Ok (vn, nx, p)
    else Ok (vn, nx, hd)) (vn, nx, -1).
(** 245-249: adds load [l] to the parts of the list; a list holds at most all of the parts *)
Definition wmlWalk (n l hd : Z) (nx cl cs : list Z) : res (list Z * list Z) :=
  loop (S (Z.to_nat n)) (fun '(hd, cl, cs) =>
    if hd =? -1 then Ok (inr (cl, cs)) else
    do cl <- addat cl hd l;
    do cs <- addat cs hd 1;
    do hd <- rd (-1) nx hd;
    Ok (inl (hd, cl, cs))) (hd, cl, cs).
(** 215-250; state: list array, loads, sizes *)
Definition wmlVert (g : wgraph) (v : Z) (st : list Z * list Z * list Z * list Z) : res (list Z * list Z * list Z * list Z) :=
  let '(vn, nx, cl, cs) := st in
  do p <- rd (baseval (ws g)) (wpart g) v;
  if 0 <=? p then
    do l <- rvelo (ws g) v;
    do cl <- addat cl p l;
    do cs <- addat cs p 1;
    Ok (vn, nx, cl, cs)
  else
    do vn <- wr (-1) vn (-1) v;
    do lo <- rvert (ws g) v;
    do hi <- rvend (ws g) v;
    do '(vn, nx, hd) <- wmlChain g v lo hi vn nx;
    do l <- rvelo (ws g) v;
    do '(cl, cs) <- wmlWalk (wnbr g) l hd nx cl cs;
    Ok (vn, nx, cl, cs).
(** 162-262 wgraphPartMlUncoarsen, with a coarse graph; [jk] is the contents of the cell of index -1 of the list array.  Allocation succeeds. *)
Definition wgraphPartMlUncoarsen (jk : Z) (g ch : wgraph) (mult : list (Z * Z)) : res wgraph :=
  let s := ws g in
  let n := wnbr g in
  if n <? 0 then UB else
  do cl <- memst 0 (wcload g) 0 n 0;
  do cs <- memst 0 (wcsize g) 0 n 0;
  do '(pt, fr, k) <- wmlProject (baseval s) ch mult (wpart g) (wfron g);
  let g := mkwgraph s n pt fr k (wfronload ch) cl cs in
  let tab := jk :: repeat (-1) (Z.to_nat n) in
  do '(_, _, cl, cs) <- for_ (baseval s) (vertnnd s) (wmlVert g) (tab, tab, cl, cs);
  Ok (mkwgraph s n pt fr k (wfronload ch) cl cs).

(** 281-294 wgraphPartMl2, with 101-113 and, without a coarse graph, 157-160 of wgraphPartMlUncoarsen.  [coar] is graphCoarsen: coarse graph,
    fine-to-coarse and multinode arrays; [low] and [asc] are wgraphPartSt for the low and ascending strategies.  The arrays of coarse graphs
    are allocated with contents [jk] (151-155, wgraph.c:116-137), here before the recursive call which, at its end, allocates them
    before any use. *)
Fixpoint wgraphPartMl2 (jk : Z) (coar : Z -> graph -> res (graph * list Z * list (Z * Z))) (low asc : wmeth) (fuel : nat) (g : wgraph) : res (Z * wgraph) :=
  match fuel with
  | O => Fuel
  | S fuel =>
    match coar (wnbr g) (ws g) with
    | UB => UB
    | Fuel => Fuel
    | Err _ => do g <- wgraphZero g; low g
    | Ok (cg, _, mult) =>
        let arr n := repeat jk (Z.to_nat n) in
        do '(rc, ch) <- wgraphPartMl2 jk coar low asc fuel (mkwgraph cg (wnbr g) (arr (vertnbr cg)) (arr (vertnbr cg)) jk jk (arr (wnbr g)) (arr (wnbr g)));
        if negb (rc =? 0) then Ok (rc, g) else
        do g <- wgraphPartMlUncoarsen jk g ch mult;
        asc g
    end
  end.
(** 317-322 wgraphPartMl: at most one level per vertex *)
Definition wgraphPartMl (jk : Z) (coar : Z -> graph -> res (graph * list Z * list (Z * Z))) (low asc : wmeth) : wmeth := fun g =>
  wgraphPartMl2 jk coar low asc (S (Z.to_nat (vertnbr (ws g)))) g.
(** 102-104: the threshold is [coarnbr] times the number of parts *)
Definition wmlCoarsen (cmax : graph -> Z) (coarnbr n : Z) (s : graph) : res (graph * list Z * list (Z * Z)) := mlCoarsen cmax (coarnbr * n) s.
