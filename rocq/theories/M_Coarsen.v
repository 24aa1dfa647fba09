(** Model of coarse graph building: graph_coarsen.c, graph_coarsen_edge.c. *)
From Verif Require Import Base M_Int M_Graph M_Match.

(** graph_coarsen.c:344-356, run by one thread: fine-to-coarse array, which
    takes the place of the mate array, and multinode array.  The cells of the
    latter hold no meaning before they are written. *)
Definition coarMult (g : graph) (mate : list Z) (coarvertnbr : Z) : res (list Z * list (Z * Z)) :=
  let b := baseval g in
  do '(fc, mult, _) <- for_ b (vertnnd g) (fun v '(fc, mult, c) =>
    do m <- rd b fc v;
    if v <=? m then
      do mult <- wr b mult c (v, m);
      do fc <- wr b fc v c;
      do fc <- wr b fc m c;
      Ok (fc, mult, c + 1)
    else Ok (fc, mult, c)) (mate, repeat (0, 0) (Z.to_nat coarvertnbr), b);
  Ok (fc, mult).

(** graph_coarsen.c:509-510, mask of the hash table *)
Definition coarHashMsk (degrmax : Z) : res Z :=
  do m <- loop (S (Z.to_nat degrmax)) (fun m => if m <? degrmax then Ok (inl (m * 2 + 1)) else Ok (inr m)) 31;
  Ok (m * 4 + 3).

(** What the edge routine changes: hash table (graph_coarsen.h:92-97, the three
    fields apart), coarse edge and edge load arrays, next free edge index. *)
Record cedg := mkcedg { horg : list Z; hend : list Z; hnum : list Z; cedge : list Z; cedlo : list Z; cnxt : Z }.

Section Edge.
Context (g : graph) (msk : Z) (fc : list Z) (mult : list (Z * Z)).
Notation b := (baseval g).

(** graph_coarsen_edge.c:124-150, one fine arc of load [l] from coarse vertex
    [c] to coarse vertex [d].  The product of line 124 may wrap around in C, which
    leaves its low bits, those kept by the mask, as they are here. *)
Definition coarHash (c d l : Z) (s : cedg) : res cedg :=
  loop (S (length (horg s))) (fun h =>
    do o <- rd 0 (horg s) h;
    if negb (o =? c) then
      do org <- wr 0 (horg s) h c;
      do en <- wr 0 (hend s) h d;
      do nm <- wr 0 (hnum s) h (cnxt s);
      do edg <- wr b (cedge s) (cnxt s) d;
      do elo <- wr b (cedlo s) (cnxt s) l;
      Ok (inr (mkcedg org en nm edg elo (cnxt s + 1)))
    else
      do d' <- rd 0 (hend s) h;
      if d' =? d then
        do e <- rd 0 (hnum s) h;
        do x <- rd b (cedlo s) e;
        do elo <- wr b (cedlo s) e (x + l);
        Ok (inr (mkcedg (horg s) (hend s) (hnum s) (cedge s) elo (cnxt s)))
      else Ok (inl (Z.land (h + 1) msk))) (Z.land (d * 1049) msk).

(** graph_coarsen_edge.c:112-161, the arcs of fine vertex [v] of multinode [c];
    [adj] is coaredloadj *)
Definition coarArcs (c v : Z) (s : cedg) (adj : Z) : res (cedg * Z) :=
  do lo <- rvert g v;
  do hi <- rvend g v;
  for_ lo hi (fun e '(s, adj) =>
    do w <- redge g e;
    do d <- rd b fc w;
    do l <- (match edlotab g with None => Ok 1 | Some t => rd b t e end);
    if negb (d =? c) then do s <- coarHash c d l s; Ok (s, adj)
    else Ok (s, adj - l)) (s, adj).

(** graph_coarsen_edge.c:114 *)
Definition fineLoad (v : Z) : res Z := match velotab g with None => Ok 1 | Some t => rd b t v end.

(** graph_coarsen_edge.c:94-174 for the coarse vertices [lo..hi-1], from edge
    index [cnxt s] on; [vt], [vd], [vl]: coarse vertex arrays, [vd] for
    non-compact graphs only (lines 170-171).  Results: arrays, edge state, load
    adjustment, maximum degree. *)
Definition coarEdges (lo hi : Z) (vt : list Z) (vd : option (list Z)) (vl : list Z) (s : cedg) :
  res (list Z * option (list Z) * list Z * cedg * Z * Z) :=
  for_ lo hi (fun c '(vt, vd, vl, s, adj, dgm) =>
    let e0 := cnxt s in
    do vt <- wr b vt c e0;
    do '(v0, v1) <- rd b mult c;
    do l0 <- fineLoad v0;
    do '(s, adj) <- coarArcs c v0 s adj;
    do '(s, adj, ld) <- (if v0 =? v1 then Ok (s, adj, l0) else
                         do l1 <- fineLoad v1;
                         do '(s, adj) <- coarArcs c v1 s adj;
                         Ok (s, adj, l0 + l1));
    do vl <- wr b vl c ld;
    let dg := cnxt s - e0 in
    let dgm := if dgm <? dg then dg else dgm in
    do vd <- (match vd with None => Ok None | Some t => do t <- wr b t c (cnxt s); Ok (Some t) end);
    Ok (vt, vd, vl, s, adj, dgm)) (vt, vd, vl, s, 0, 0).
End Edge.

(** graph_coarsen.c:380, 414: fresh hash table *)
Definition cedg0 (msk : Z) (edg elo : list Z) (e0 : Z) : cedg :=
  let t := repeat (-1) (Z.to_nat (msk + 1)) in mkcedg t t t edg elo e0.

(** graph_coarsen.c:694-725 graphCoarsenBuild, that is 214-275, 331-366, 434-473, run by one thread, from a mate
    array and a number of coarse vertices: coarse graph, fine-to-coarse array and
    multinode array.  New array cells hold no meaning before they are written. *)
Definition coarBuild (g : graph) (mate : list Z) (coarvertnbr : Z) : res (graph * list Z * list (Z * Z)) :=
  let b := baseval g in
  do msk <- coarHashMsk (degrmax g);
  do '(fc, mult) <- coarMult g mate coarvertnbr;
  let arr n := repeat 0 (Z.to_nat n) in
  do '(vt, _, vl, s, adj, dgm) <- coarEdges g msk fc mult b (b + coarvertnbr) (arr (coarvertnbr + 1)) None (arr coarvertnbr)
                                    (cedg0 msk (arr (edgenbr g)) (arr (edgenbr g)) b);
  let enbr := cnxt s - b in
  do vt <- wr b vt (b + coarvertnbr) (enbr + b);
  Ok (mkgraph b coarvertnbr (b + coarvertnbr) vt None (Some vl) (velosum g) None None
        enbr (firstn (Z.to_nat enbr) (cedge s)) (Some (firstn (Z.to_nat enbr) (cedlo s))) (adj + edlosum g) dgm, fc, mult).

(** graph_coarsen.c:579-630 graphCoarsen, run by one thread; [coarvertmax] is
    the value of the floating-point expression of line 601. *)
Definition graphCoarsen (stksiz : Z) (nomerge : bool) (g : graph) (fix_ par : option (list Z)) (vfixnbr : Z)
  (coarvertmax coarvertmin : Z) : res (graph * list Z * list (Z * Z)) :=
  if coarvertmax <? coarvertmin then Err 1 else
  do '(mate, coarvertnbr) <- graphMatchSeq stksiz nomerge g fix_ par vfixnbr;
  if coarvertmax <=? coarvertnbr then Err 1 else coarBuild g mate coarvertnbr.
