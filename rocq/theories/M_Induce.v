(** Model of graph_induce.c.

    The block allocated for the induced edge arrays (graph_induce.c:253-255) is
    modelled as one array [blk] of Gnums, in which the edge array starts at 0,
    the edge load array at the offset given by memOffset (line 302-304) and the
    index array [orgindxtax] at the offset given by memAllocGroup; [al] is the
    number of Gnums per 8-byte alignment unit (1 for 64-bit Gnums, 2 for 32-bit
    ones).  Freshly allocated memory holds the arbitrary value [jk].
    Not modelled: allocation failure, overflow of the size computations. *)
From Verif Require Import Base M_Graph.

(** common_memory.c:520-525, 588-593: offsets are rounded up to 8 bytes *)
Definition ralign (al x : Z) : Z := (x + al - 1) / al * al.

(** graph_induce.c:247-251: capacity of the edge area *)
Definition induceCap (g : graph) (indvertnbr : Z) : Z :=
  let m := if (0 <? degrmax g) && (indvertnbr <? Z.quot (edgenbr g) (degrmax g))
           then indvertnbr * degrmax g else edgenbr g in
  match edlotab g with Some _ => m * 2 | None => m end.

(** graph_induce.c:209-264 graphInduce2: (vnum array, edge block, index offset) *)
Definition graphInduce2 (jk al : Z) (g : graph) (indvertnbr : Z) : list Z * list Z * Z :=
  let idxoff := ralign al (induceCap g indvertnbr) in
  (repeat jk (Z.to_nat indvertnbr), repeat jk (Z.to_nat (idxoff + vertnbr g)), idxoff).

(** graph_induce.c:323-331 and 334-340, body of the arc loop;
    state: (edge block, edge load sum, indedgenum) *)
Definition induceArc (g : graph) (idxoff : Z) (edlooff : option Z) (e : Z)
  (st : list Z * Z * Z) : res (list Z * Z * Z) :=
  let b := baseval g in
  let '(blk, edlosum, en) := st in
  do w <- redge g e;
  do x <- rd (b - idxoff) blk w;                        (* orgindxtax[w] *)
  if x =? -1 then Ok st else
  do '(blk, edlosum) <- (match edlooff, edlotab g with
     | Some off, Some t =>
         do l <- rd b t e;
         do blk <- wr (b - off) blk en l;               (* indedlotax[indedgenum] *)
         Ok (blk, edlosum + l)
     | None, None => Ok (blk, edlosum)
     | _, _ => UB end);
  do x <- rd (b - idxoff) blk w;
  do blk <- wr b blk en x;                              (* indedgetax[indedgenum] *)
  Ok (blk, edlosum, en + 1).

(** graph_induce.c:313-342, body of the vertex loop;
    state: (verttab, velotab, edge block, velosum, edlosum, indedgenum) *)
Definition induceVert (g : graph) (idxoff : Z) (edlooff : option Z) (vnumtab : list Z) (i : Z)
  (st : list Z * option (list Z) * list Z * Z * Z * Z) : res (list Z * option (list Z) * list Z * Z * Z * Z) :=
  let b := baseval g in
  let '(vt, vl, blk, velosum, edlosum, en) := st in
  do v <- rd b vnumtab i;
  do vt <- wr b vt i en;
  do '(vl, velosum) <- (match vl, velotab g with
     | Some t, Some ot => do l <- rd b ot v; do t <- wr b t i l; Ok (Some t, velosum + l)
     | None, None => Ok (None, velosum)
     | _, _ => UB end);
  do lo <- rvert g v;
  do hi <- rvend g v;
  do '(blk, edlosum, en) <- for_ lo hi (induceArc g idxoff edlooff) (blk, edlosum, en);
  Ok (vt, vl, blk, velosum, edlosum, en).

(** graph_induce.c:273-381 graphInduce3 *)
Definition graphInduce3 (jk al : Z) (g : graph) (idxoff : Z) (vnumtab blk : list Z) (indvertnbr indedgenbr : Z) : res graph :=
  let b := baseval g in
  let edlooff := match edlotab g with Some _ => Some (ralign al indedgenbr) | None => None end in
  do '(vt, vl, blk, velosum, edlosum, en) <-
    for_ b (b + indvertnbr) (induceVert g idxoff edlooff vnumtab)
      (repeat jk (Z.to_nat (indvertnbr + 1)),
       match velotab g with Some _ => Some (repeat jk (Z.to_nat indvertnbr)) | None => None end,
       blk, match velotab g with Some _ => 0 | None => indvertnbr end, 0, b);
  do vt <- wr b vt (b + indvertnbr) en;
  do vnumtab <- (match M_Graph.vnumtab g with
     | None => Ok vnumtab
     | Some t => for_ b (b + indvertnbr) (fun i vn =>
         do x <- rd b vn i; do y <- rd b t x; wr b vn i y) vnumtab
     end);
  let enbr := en - b in
  Ok (mkgraph b indvertnbr (b + indvertnbr) vt None vl velosum (Some vnumtab) None
        enbr (firstn (Z.to_nat enbr) blk)
        (match edlooff with Some off => Some (firstn (Z.to_nat enbr) (skipn (Z.to_nat off) blk)) | None => None end)
        (match edlooff with Some _ => edlosum | None => enbr end)
        (degrmax g)).

(** graph_induce.c:103-142 graphInduceList; [list] is indvnumtab *)
Definition graphInduceList (jk al : Z) (g : graph) (indvnumtab : list Z) : res graph :=
  let b := baseval g in
  let n := zlen indvnumtab in
  let '(_, blk, idxoff) := graphInduce2 jk al g n in
  do blk <- for_ b (b + vertnbr g) (fun v blk => wr (b - idxoff) blk v (-1)) blk;
  do '(blk, indedgenbr) <- for_ b (b + n) (fun i '(blk, s) =>
      do v <- rd b indvnumtab i;
      (* orgindxtax has vertnbr cells: a list entry out of range is an overrun *)
      do blk <- (if (b <=? v) && (v <? b + vertnbr g) then wr (b - idxoff) blk v i else UB);
      do hi <- rvend g v;
      do lo <- rvert g v;
      Ok (blk, s + (hi - lo))) (blk, 0);
  graphInduce3 jk al g idxoff indvnumtab blk n indedgenbr.

(** graph_induce.c:156-200 graphInducePart; [part] is the (unbased) part array *)
Definition graphInducePart (jk al : Z) (g : graph) (part : list Z) (indvnumnbr indpartval : Z) : res graph :=
  let b := baseval g in
  let '(vnum, blk, idxoff) := graphInduce2 jk al g indvnumnbr in
  do '(blk, vnum, iv, indedgenbr) <- for_ b (vertnnd g) (fun v '(blk, vnum, iv, s) =>
      do p <- rd b part v;
      if p =? indpartval then
        do blk <- wr (b - idxoff) blk v iv;
        do vnum <- wr b vnum iv v;
        do hi <- rvend g v;
        do lo <- rvert g v;
        Ok (blk, vnum, iv + 1, s + (hi - lo))
      else
        do blk <- wr (b - idxoff) blk v (-1);
        Ok (blk, vnum, iv, s)) (blk, vnum, b, 0);
  graphInduce3 jk al g idxoff vnum blk indvnumnbr indedgenbr.
