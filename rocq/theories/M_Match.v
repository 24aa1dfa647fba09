(** Model of sequential graph matching: graph_match.c, graph_match_scan.c. *)
From Verif Require Import Base M_Graph M_Sort.

(** graph_match_scan.c:134-135 and 158-159 (compiled in when [fx]): same fixed
    value and same old part, for the arrays that are present *)
Definition rcompat (fx : bool) (b : Z) (fix_ par : option (list Z)) (v w : Z) : res bool :=
  let same (o : option (list Z)) :=
    match o with None => Ok true | Some t => do x <- rd b t w; do y <- rd b t v; Ok (x =? y) end in
  if fx then do c <- same fix_; if c : bool then same par else Ok false else Ok true.

(** graph_match_scan.c:123-125: discard vertices already matched at the end of
    the queue *)
Definition matchTrim (b : Z) (que mate : list Z) (dlt num nnd : Z) : res Z :=
  loop (S (length que)) (fun nnd =>
    if num <? nnd then
      do w <- rd 0 que (nnd - dlt);
      do m <- rd b mate w;
      if 0 <=? m then Ok (inl (nnd - dlt)) else Ok (inr nnd)
    else Ok (inr nnd)) nnd.

(** graph_match_scan.c:127-147: last unmatched, compatible vertex of the queue;
    returns it (or [v]) and the new end of the queue *)
Definition matchLast (fx : bool) (b : Z) (fix_ par : option (list Z)) (que mate : list Z) (dlt num nnd v : Z) : res (Z * Z) :=
  loop (S (length que)) (fun q =>
    if num <? q then
      do w <- rd 0 que (q - dlt);
      let q := q - dlt in
      do m <- rd b mate w;
      if m <? 0 then
        do c <- rcompat fx b fix_ par v w;
        if c : bool then Ok (inr (w, if fx then nnd else q)) else Ok (inl q)
      else Ok (inl q)
    else Ok (inr (v, nnd))) nnd.

(** graph_match_scan.c:151-172: first ([el = false]) or heaviest ([el = true])
    unmatched, compatible neighbour, else [v]; [fineedlobst] starts at -1 *)
Definition matchNbr (fx el : bool) (g : graph) (fix_ par : option (list Z)) (mate : list Z) (v lo hi : Z) : res Z :=
  loop (S (Z.to_nat (hi - lo))) (fun '(e, bst, lbst) =>
    do w <- redge g e;
    do m <- rd (baseval g) mate w;
    do c <- (if m <? 0 then rcompat fx (baseval g) fix_ par v w else Ok false);
    do '(c, l) <- (if (c : bool) && el then
                     match edlotab g with
                     | None => UB
                     | Some t => do l <- rd (baseval g) t e; Ok (lbst <? l, l)
                     end
                   else Ok (c, lbst));
    if (c : bool) && negb el then Ok (inr w) else
    let '(bst, lbst) := if c : bool then (w, l) else (bst, lbst) in
    if e + 1 <? hi then Ok (inl (e + 1, bst, lbst)) else Ok (inr bst)) (lo, v, -1).

(** graph_match_scan.c:115-173: choice of the mate of [v] and new queue end *)
Definition matchPick (fx el nomerge : bool) (g : graph) (fix_ par : option (list Z))
  (que mate : list Z) (dlt num nnd v : Z) : res (Z * Z) :=
  do lo <- rvert g v;
  do hi <- rvend g v;
  if lo =? hi then
    if nomerge then Ok (v, nnd) else
    do nnd <- matchTrim (baseval g) que mate dlt num nnd;
    matchLast fx (baseval g) fix_ par que mate dlt num nnd v
  else
    do bst <- matchNbr fx el g fix_ par mate v lo hi;
    Ok (bst, nnd).

(** graph_match_scan.c:69-197 with GRAPHMATCHSCANSEQ: the four routines
    graphMatchSeq{Nf,Fx}{Ne,El}.  [que] is the queue array, [dlt] the distance
    between two vertex numbers in it, [qnbr] the number of queued vertices. *)
Definition matchSeq (fx el nomerge : bool) (g : graph) (fix_ par : option (list Z))
  (que : list Z) (dlt qnbr : Z) (mate : list Z) (coarvertnbr : Z) : res (list Z * Z) :=
  let num0 := Z.shiftr dlt 1 in
  loop (S (S (length que))) (fun '(num, nnd, mate, cnt) =>
    if num <? nnd then
      do v <- rd 0 que num;
      do m <- rd (baseval g) mate v;
      if 0 <=? m then Ok (inl (num + dlt, nnd, mate, cnt)) else
      do '(bst, nnd) <- matchPick fx el nomerge g fix_ par que mate dlt num nnd v;
      do mate <- wr (baseval g) mate bst v;
      do mate <- wr (baseval g) mate v bst;
      Ok (inl (num + dlt, nnd, mate, cnt + 1))
    else Ok (inr (mate, cnt))) (num0, num0 + qnbr * dlt, mate, coarvertnbr).

(** graph_match.c:154-178 graphMatchQueueSort on the vertices [lo..hi-1]; pairs
    (degree, vertex), laid flat *)
Definition matchQueue (stksiz : Z) (g : graph) (lo hi : Z) : res (list Z) :=
  do ps <- for_ lo hi (fun v ps =>
    do a <- rvert g v; do z <- rvend g v; Ok (ps ++ [(z - a, v)])) [];
  do ps <- intPsort2asc1 stksiz ps (hi - lo) 3;
  Ok (flat_map (fun p => [fst p; snd p]) ps).

(** graph_match.c:207-209 (graphMatchInit): which routine is called *)
Definition matchFx (vfixnbr : Z) (par : option (list Z)) : bool :=
  (0 <? vfixnbr) || (match par with Some _ => true | None => false end).
Definition matchEl (g : graph) : bool := match edlotab g with Some _ => true | None => false end.

(** graph_match.c:267-377 graphMatch when [finelocktax == NULL] (sequential,
    thread 0): mate array and number of coarse vertices *)
Definition graphMatchSeq (stksiz : Z) (nomerge : bool) (g : graph) (fix_ par : option (list Z)) (vfixnbr : Z) : res (list Z * Z) :=
  let mate := repeat (-1) (Z.to_nat (vertnnd g - baseval g)) in
  do que <- matchQueue stksiz g (baseval g) (vertnnd g);
  matchSeq (matchFx vfixnbr par) (matchEl g) nomerge g fix_ par que 2 (vertnnd g - baseval g) mate 0.

(** graph_coarsen.c:642-684 graphCoarsenMatch, run by one thread: [coarvertmax]
    is the value of the floating-point expression of line 662, [coarvertmin]
    the content of [*coarvertptr] on entry.  [Err] is a non-zero return.
    graphCoarsen3 returns at line 189-190, before the test of line 193, since no
    coarse graph is wanted; graphCoarsen2 then returns [retuval], 0, at 549-553. *)
Definition graphCoarsenMatch (stksiz : Z) (nomerge : bool) (g : graph) (fix_ par : option (list Z)) (vfixnbr : Z)
  (coarvertmax coarvertmin : Z) : res (list Z * Z) :=
  if coarvertmax <? coarvertmin then Err 1 else
  graphMatchSeq stksiz nomerge g fix_ par vfixnbr.
