(** Model of halo graphs: hgraph.h, hgraph.c, hgraph_check.c, hgraph_induce.c,
    hgraph_induce_edge.c.  Halo graphs with edge loads are not modelled: the ordering
    routines drop the edge loads (library_graph_order.c:295), and none of the graphs
    induced afterwards has any. *)
From Verif Require Import Base M_Graph.

(** hgraph.h:71-81.  The execution context is not modelled. *)
Record hgraph := mkhgraph {
  hs : graph; vnohnbr : Z; vnohnnd : Z; vnhdtab : list Z; vnlosum : Z; enohnbr : Z; enlosum : Z; hlevl : Z }.

(** End array of a graph: in compact form, the vertex array without its first cell (graph.h:57-60). *)
Definition vendlist (g : graph) : list Z := match vendtab g with Some t => t | None => tl (verttab g) end.

(** hgraph.c:118-141: non-halo part of a halo graph *)
Definition hgraphUnhalo (h : hgraph) : graph :=
  let s := hs h in
  mkgraph (baseval s) (vnohnbr h) (vnohnnd h) (verttab s) (Some (vnhdtab h)) (velotab s) (vnlosum h) (vnumtab s) None
    (enohnbr h) (edgetab s) (edlotab s) (enlosum h) (degrmax s).

(** hgraph_check.c:72-128, without edge loads; [gmax]: largest Gnum *)
Definition hgraphCheck (gmax : Z) (h : hgraph) : res unit :=
  let s := hs h in let b := baseval s in
  do _ <- graphCheck gmax s;
  if (vnohnbr h <? 0) || (vertnbr s <? vnohnbr h) || negb (vnohnnd h =? vnohnbr h + b) ||
     (velosum s <? vnlosum h) || (edgenbr s <? enohnbr h) || (enlosum h <? enohnbr h) then Err 1 else
  match edlotab s with Some _ => UB (* not modelled *) | None =>
  do _ <- for_ b (vnohnnd h) (fun v u =>
    do x <- rd b (vnhdtab h) v; do lo <- rvert s v;
    if x <? lo then Err 1 else
    do hi <- rvend s v;
    if hi <? x then Err 1 else Ok u) tt;
  if negb (enlosum h =? enohnbr h) then Err 1 else
  for_ (vnohnnd h) (vertnnd s) (fun v u =>
    do lo <- rvert s v; do hi <- rvend s v;
    for_ lo hi (fun e u => do w <- redge s e; if vnohnnd h <=? w then Err 1 else Ok u) u) tt
  end.

(** hgraph_induce_edge.c:112-133, body of the arc loop of non-halo vertices; state:
    number array, index array, edge array, first free halo number, next non-halo and
    halo arc positions *)
Definition hindArc (g : graph) (nnd : Z) (e : Z) (st : list Z * list Z * list Z * Z * Z * Z)
  : res (list Z * list Z * list Z * Z * Z * Z) :=
  let b := baseval g in
  let '(vn, ix, ed, fn, en, hd) := st in
  do w <- redge g e;
  do x <- rd b ix w;
  do '(vn, ix, fn, x) <- (if x =? -1 then do vn <- wr b vn fn w; do ix <- wr b ix w fn; Ok (vn, ix, fn + 1, fn)
                          else Ok (vn, ix, fn, x));
  if nnd <=? x then do ed <- wr b ed (hd - 1) x; Ok (vn, ix, ed, fn, en, hd - 1)
  else do ed <- wr b ed en x; Ok (vn, ix, ed, fn, en + 1, hd).

(** State of hgraph_induce_edge.c:55-214 *)
Record hind := mkhind {
  i_vn : list Z; i_ix : list Z; i_ed : list Z; i_vt : list Z; i_vl : option (list Z); i_nh : list Z;
  i_fn : Z; i_en : Z; i_vsum : Z; i_enoh : Z; i_dmax : Z }.

(** vertex loads: 102-105 and 175-178 *)
Definition hindVelo (g : graph) (v i : Z) (vl : option (list Z)) (vsum : Z) : res (option (list Z) * Z) :=
  match vl, velotab g with
  | Some t, Some ot => do l <- rd (baseval g) ot v; do t <- wr (baseval g) t i l; Ok (Some t, vsum + l)
  | None, None => Ok (None, vsum)
  | _, _ => UB
  end.

(** hgraph_induce_edge.c:94-143, body of the loop on non-halo vertices *)
Definition hindVert (g : graph) (nnd : Z) (i : Z) (st : hind) : res hind :=
  let b := baseval g in
  do v <- rd b (i_vn st) i;
  do vt <- wr b (i_vt st) i (i_en st);
  do '(vl, vsum) <- hindVelo g v i (i_vl st) (i_vsum st);
  do hi <- rvend g v;
  do lo <- rvert g v;
  let ennd := i_en st + (hi - lo) in
  do '(vn, ix, ed, fn, en, hd) <- for_ lo hi (hindArc g nnd) (i_vn st, i_ix st, i_ed st, i_fn st, i_en st, ennd);
  do nh <- wr b (i_nh st) i hd;
  Ok (mkhind vn ix ed vt vl nh fn ennd vsum (i_enoh st - i_en st + hd) (if i_dmax st <? hi - lo then hi - lo else i_dmax st)).

(** hgraph_induce_edge.c:185-194, body of the arc loop of halo vertices; state: edge array, next position *)
Definition hindHArc (g : graph) (nnd : Z) (ix : list Z) (e : Z) (st : list Z * Z) : res (list Z * Z) :=
  let b := baseval g in
  let '(ed, en) := st in
  do w <- redge g e;
  do x <- rd b ix w;
  if negb (x =? -1) && (x <? nnd) then do ed <- wr b ed en x; Ok (ed, en + 1) else Ok (ed, en).

(** hgraph_induce_edge.c:169-197, body of the loop on halo vertices *)
Definition hindHVert (g : graph) (nnd : Z) (i : Z) (st : hind) : res hind :=
  let b := baseval g in
  do v <- rd b (i_vn st) i;
  do vt <- wr b (i_vt st) i (i_en st);
  do '(vl, vsum) <- hindVelo g v i (i_vl st) (i_vsum st);
  do hi <- rvend g v;
  do lo <- rvert g v;
  do '(ed, en) <- for_ lo hi (hindHArc g nnd (i_ix st)) (i_ed st, i_en st);
  let d := en - i_en st in
  Ok (mkhind (i_vn st) (i_ix st) ed vt vl (i_nh st) (i_fn st) en vsum (i_enoh st) (if i_dmax st <? d then d else i_dmax st)).

(** hgraph_induce.c:84-153 hgraphInduceList, 163-241 hgraphInduce2 and
    hgraph_induce_edge.c (without edge loads).  Allocated memory holds [jk]; the arrays of
    a group are separate (C33); allocation succeeds. *)
Definition hgraphInduceList (jk : Z) (h : hgraph) (l : list Z) (halonbr : Z) : res hgraph :=
  let g := hs h in let b := baseval g in
  match edlotab g with Some _ => UB (* not modelled *) | None =>
  let n := zlen l in
  let vmax := n + halonbr in
  let mem k := repeat jk (Z.to_nat k) in
  let vn := l ++ mem halonbr in
  let nnd := n + b in
  let cap := if (0 <? degrmax g) && (vmax <? Z.quot (edgenbr g) (degrmax g)) then vmax * degrmax g else edgenbr g in
  do ix <- for_ b nnd (fun i ix => do v <- rd b vn i; wr b ix v i) (repeat (-1) (Z.to_nat (vertnbr g)));
  let st := mkhind vn ix (mem cap) (mem (vmax + 1)) (match velotab g with Some _ => Some (mem vmax) | None => None end) (mem n)
              nnd b 0 0 0 in
  do st <- for_ b nnd (hindVert g nnd) st;
  let vnlo := match velotab g with Some _ => i_vsum st | None => n end in
  let vertnnd := i_fn st in
  do st <- for_ nnd vertnnd (hindHVert g nnd) st;
  do vt <- wr b (i_vt st) vertnnd (i_en st);
  let nbr := vertnnd - b in
  let enbr := i_en st - b in
  do vn <- (match vnumtab g with
     | None => Ok (i_vn st)
     | Some t => for_ b vertnnd (fun i vn => do x <- rd b vn i; do y <- rd b t x; wr b vn i y) (i_vn st)
     end);
  Ok (mkhgraph
        (mkgraph b nbr vertnnd vt None (i_vl st) (match velotab g with Some _ => i_vsum st | None => nbr end) (Some vn) None
           enbr (firstn (Z.to_nat enbr) (i_ed st)) None enbr (i_dmax st))
        n nnd (i_nh st) vnlo (i_enoh st) (i_enoh st) (hlevl h + 1))
  end.
