(** Model of graph partitioning with overlap: wgraph.h, wgraph.c, wgraph_check.c, wgraph_store.c, wgraph_part_zr.c,
    wgraph_part_rb.c, wgraph_part_st.c, library_graph_part_ovl.c.  Methods "f" (wgraph_part_fm.c) and "m" (wgraph_part_ml.c)
    are black boxes.  Memory allocation never fails; Gnum's and Anum's are unbounded, and so is the int [indvertnbr] of
    wgraph_part_rb.c:293. *)
From Verif Require Import Base Mem M_Graph M_Vgraph M_VgraphSt M_Induce.

(** wgraph.h:61-72: graph, number of parts, part array, frontier array, number of frontier vertices, load of frontier vertices,
    load and size of each part *)
Record wgraph := mkwgraph {
  ws : graph; wnbr : Z; wpart : list Z; wfron : list Z; wfronnbr : Z; wfronload : Z; wcload : list Z; wcsize : list Z }.

(** wgraph.c:145-157.  A negative size is a very large one for memset. *)
Definition wgraphZero (g : wgraph) : res wgraph :=
  let s := ws g in
  if wnbr g <? 1 then UB else
  do cl <- memst 0 (wcload g) 1 (wnbr g - 1) 0;
  do cs <- memst 0 (wcsize g) 1 (wnbr g - 1) 0;
  do cl <- wr 0 cl 0 (velosum s);
  do cs <- wr 0 cs 0 (vertnbr s);
  do pt <- memst (baseval s) (wpart g) (baseval s) (vertnbr s) 0;
  Ok (mkwgraph s (wnbr g) pt (wfron g) 0 0 cl cs).

(** [tab[i] += x] *)
Definition addat (l : list Z) (i x : Z) : res (list Z) := do y <- rd 0 l i; wr 0 l i (y + x).

(** wgraph.c:209-220: arcs of a separator vertex; state: flags, from index -1, loads, sizes *)
Definition wcostArcs (g : wgraph) (v l lo hi : Z) (st : list Z * list Z * list Z) : res (list Z * list Z * list Z) :=
  for_ lo hi (fun e '(fl, cl, cs) =>
    do w <- redge (ws g) e;
    do p <- rd (baseval (ws g)) (wpart g) w;
    do f <- rd (-1) fl p;
    if negb (f =? v) then
      do fl <- wr (-1) fl p v;
      do cl <- addat cl p l;
      do cs <- addat cs p 1;
      Ok (fl, cl, cs)
    else Ok (fl, cl, cs)) st.
(** wgraph.c:193-222; state: flags, loads, sizes, load of the frontier *)
Definition wcostVert (g : wgraph) (v : Z) (st : list Z * list Z * list Z * Z) : res (list Z * list Z * list Z * Z) :=
  let '(fl, cl, cs, fs) := st in
  do l <- rvelo (ws g) v;
  do p <- rd (baseval (ws g)) (wpart g) v;
  if 0 <=? p then
    do cl <- addat cl p l;
    do cs <- addat cs p 1;
    Ok (fl, cl, cs, fs)
  else
    do fl <- wr (-1) fl (-1) v;
    do lo <- rvert (ws g) v;
    do hi <- rvend (ws g) v;
    do '(fl, cl, cs) <- wcostArcs g v l lo hi (fl, cl, cs);
    Ok (fl, cl, cs, fs + l).
(** wgraph.c:166-228; [jk] is the contents of the flag of index -1 *)
Definition wgraphCost (jk : Z) (g : wgraph) : res wgraph :=
  let s := ws g in
  if wnbr g <? 0 then UB else
  do cl <- memst 0 (wcload g) 0 (wnbr g) 0;
  do cs <- memst 0 (wcsize g) 0 (wnbr g) 0;
  do '(_, cl, cs, fs) <- for_ (baseval s) (vertnnd s) (wcostVert g) (jk :: repeat (-1) (Z.to_nat (wnbr g)), cl, cs, 0);
  Ok (mkwgraph s (wnbr g) (wpart g) (wfron g) (wfronnbr g) fs cl cs).

(** wgraph_check.c:147-160; state: flags, loads, sizes *)
Definition wcheckArcs (g : wgraph) (v l lo hi : Z) (st : list Z * list Z * list Z) : res (list Z * list Z * list Z) :=
  for_ lo hi (fun e '(fl, cl, cs) =>
    do w <- redge (ws g) e;
    do p <- rd (baseval (ws g)) (wpart g) w;
    if negb (p =? -1) then
      do f <- rd 0 fl p;
      if negb (f =? v) then
        do cl <- addat cl p l;
        do cs <- addat cs p 1;
        do fl <- wr 0 fl p v;
        Ok (fl, cl, cs)
      else Ok (fl, cl, cs)
    else Ok (fl, cl, cs)) st.
(** wgraph_check.c:134-166; state: flags, loads, sizes, load and size of the frontier *)
Definition wcheckVert (g : wgraph) (v : Z) (st : list Z * list Z * list Z * Z * Z) : res (list Z * list Z * list Z * Z * Z) :=
  let '(fl, cl, cs, fs, fn) := st in
  do l <- rvelo (ws g) v;
  do p <- rd (baseval (ws g)) (wpart g) v;
  if p =? -1 then
    do lo <- rvert (ws g) v;
    do hi <- rvend (ws g) v;
    do '(fl, cl, cs) <- wcheckArcs g v l lo hi (fl, cl, cs);
    Ok (fl, cl, cs, fs + l, fn + 1)
  else
    do cl <- addat cl p l;
    do cs <- addat cs p 1;
    Ok (fl, cl, cs, fs, fn).
(** wgraph_check.c:79-193 *)
Definition wgraphCheck (g : wgraph) : res unit :=
  let s := ws g in
  if wnbr g <? 0 then UB else
  let n := Z.to_nat (wnbr g) in
  do _ <- for_ (baseval s) (vertnnd s) (fun v u =>
    do p <- rd (baseval s) (wpart g) v; if (wnbr g <=? p) || (p <? -1) then Err 1 else Ok u) tt;
  if wfronnbr g <? 0 then Err 1 else
  do _ <- for_ 0 (wfronnbr g) (fun i u =>
    do v <- rd 0 (wfron g) i;
    do p <- rd (baseval s) (wpart g) v;
    if negb (p =? -1) then Err 1 else Ok u) tt;
  do '(_, cl, cs, fs, fn) <- for_ (baseval s) (vertnnd s) (wcheckVert g) (repeat (-1) n, repeat 0 n, repeat 0 n, 0, 0);
  do _ <- for_ 0 (wnbr g) (fun p u =>
    do x <- rd 0 (wcsize g) p; do y <- rd 0 cs p;
    if negb (x =? y) then Err 1 else
    do x <- rd 0 (wcload g) p; do y <- rd 0 cl p;
    if negb (x =? y) then Err 1 else Ok u) tt;
  if negb (wfronload g =? fs) then Err 1 else
  if negb (wfronnbr g =? fn) then Err 1 else
  Ok tt.

(** wgraph.h:76-81, wgraph_store.c:75-91: the save area has room for two arrays of [wnbr g] cells and two arrays of [vertnbr (ws g)]
    cells; the frontier array takes as many cells as it has vertices *)
Record wstore := mkwstore { wst_nbr : Z; wst_fronnbr : Z; wst_fronload : Z; wst_cload : list Z; wst_csize : list Z; wst_fron : list Z; wst_part : list Z }.
(** The [n] first cells of an array *)
Definition takeb (n : Z) (l : list Z) : res (list Z) := if (0 <=? n) && (n <=? zlen l) then Ok (firstn (Z.to_nat n) l) else UB.
(** Array whose first cells are overwritten *)
Definition overb (l x : list Z) : res (list Z) := if zlen x <=? zlen l then Ok (x ++ skipn (length x) l) else UB.
(** wgraph_store.c:114-137 *)
Definition wgraphStoreSave (g : wgraph) : res wstore :=
  if (wfronnbr g <? 0) || (vertnbr (ws g) <? wfronnbr g) then UB else
  do cl <- takeb (wnbr g) (wcload g);
  do cs <- takeb (wnbr g) (wcsize g);
  do fr <- takeb (wfronnbr g) (wfron g);
  do pt <- takeb (vertnbr (ws g)) (wpart g);
  Ok (mkwstore (wnbr g) (wfronnbr g) (wfronload g) cl cs fr pt).
(** wgraph_store.c:145-173 *)
Definition wgraphStoreUpdt (g : wgraph) (t : wstore) : res wgraph :=
  do cl <- overb (wcload g) (wst_cload t);
  do cs <- overb (wcsize g) (wst_csize t);
  do fr <- overb (wfron g) (wst_fron t);
  do pt <- overb (wpart g) (wst_part t);
  Ok (mkwgraph (ws g) (wst_nbr t) pt fr (wst_fronnbr t) (wst_fronload t) cl cs).

(** Partitioning method: return value, zero on success, and partition *)
Definition wmeth := wgraph -> res (Z * wgraph).

(** wgraph_part_zr.c:78-86 *)
Definition wgraphPartZr : wmeth := fun g =>
  do x <- rd 0 (wcsize g) 0;
  if negb (x =? vertnbr (ws g)) then do h <- wgraphZero g; Ok (0, h) else Ok (0, g).

(** wgraph_part_rb.h:69-78, the data shared by all jobs: part array, frontier array, number of frontier vertices *)
Definition wdata := (list Z * list Z * Z)%type.
(** Number, in the original graph, of a vertex of a subgraph *)
Definition vnumOf (g : graph) (v : Z) : res Z := match vnumtab g with None => Ok v | Some t => rd (baseval g) t v end.

(** wgraph_part_rb.c:84-113.  The memCpy when there is no original graph is the same loop. *)
Definition rb3Fron (d : wdata) (g : graph) (fr : list Z) (n : Z) : res wdata :=
  let '(pt, fl, k) := d in
  do fl <- for_ 0 n (fun i fl => do v <- rd 0 fr i; do w <- vnumOf g v; wr 0 fl (k + i) w) fl;
  Ok (pt, fl, k + n).
(** wgraph_part_rb.c:122-171 *)
Definition rb3SepFron (d : wdata) (g : graph) (fr : list Z) (n : Z) : res wdata :=
  let '(pt, fl, k) := d in
  do '(pt, fl) <- for_ 0 n (fun i '(pt, fl) =>
    do v <- rd 0 fr i; do w <- vnumOf g v;
    do fl <- wr 0 fl (k + i) w;
    do pt <- wr (baseval g) pt w (-1);
    Ok (pt, fl)) (pt, fl);
  Ok (pt, fl, k + n).
(** wgraph_part_rb.c:180-221; the part array may be a null pointer, then reading it is an error *)
Definition rb3One (d : wdata) (g : graph) (op : option (list Z)) (ip dn : Z) : res wdata :=
  let '(pt, fl, k) := d in
  do pt <- for_ (baseval g) (vertnnd g) (fun v pt =>
    match op with
    | None => UB
    | Some o =>
        do p <- rd (baseval g) o v;
        if negb (p =? 1 - ip) then
          do w <- vnumOf g v; wr (baseval g) pt w (if p =? ip then dn else -1)
        else Ok pt
    end) pt;
  Ok (pt, fl, k).
(** wgraph_part_rb.c:230-266 *)
Definition rb3Both (d : wdata) (g : graph) (o : list Z) (dn : Z) : res wdata :=
  let '(pt, fl, k) := d in
  do pt <- for_ (baseval g) (vertnnd g) (fun v pt =>
    do p <- rd (baseval g) o v;
    do w <- vnumOf g v;
    wr (baseval g) pt w (if p <? 2 then dn + p else -1)) pt;
  Ok (pt, fl, k).

(** wgraph_part_rb.c:307-309: clone of a graph, without labels *)
Definition unlabel (g : graph) : graph :=
  mkgraph (baseval g) (vertnbr g) (vertnnd g) (verttab g) (vendtab g) (velotab g) (velosum g) (vnumtab g) None
    (edgenbr g) (edgetab g) (edlotab g) (edlosum g) (degrmax g).

Section Rb.
(** Contents of fresh memory; room of the arrays of induced subgraphs (see M_Induce.v); separation method; how the two halves of a
    split job on the given graph are run: [None] if the context cannot be split, in which case they run in sequence and the second one
    only if the first one succeeds, else both run, [Some true] if half 0 runs first.  The halves of concurrent jobs are not
    interleaved. *)
Variables (jk al : Z) (sep : vmeth) (sched : graph -> option bool).

(** wgraph_part_rb.c:318-332 *)
Definition rbVgraph (s : graph) (siz : Z) : res vgraph :=
  let n := Z.to_nat (vertnbr s) in
  vgraphZero (mkvgraph s (repeat (jk mod 256) n) (repeat jk n) jk jk jk jk jk jk jk (siz / 2) (siz - siz / 2)).

(** wgraph_part_rb.c:275-398 wgraphPartRb2.  Arguments: shared data; father graph, its frontier array and number of frontier vertices,
    its part array, or None for a null pointer; part to consider; number of vertices, first domain and number of domains of the job.  Result: 0 if success, 1 if
    the error flag is set. *)
Fixpoint wgraphPartRb2 (fuel : nat) (d : wdata) (g : graph) (fr : list Z) (n : Z) (op : option (list Z)) (ip : Z) (vn dn siz : Z) {struct fuel} : res (Z * wdata) :=
  match fuel with O => Fuel | S fuel =>
    if (ip =? 0) && (siz <=? 1) then                                          (* 297-302 *)
      do d <- rb3Fron d g fr n;
      do d <- rb3One d g op ip dn;
      Ok (0, d)
    else
      do d <- (if ip =? 0 then rb3SepFron d g fr n else Ok d);                  (* 303 *)
      do act <- match op with                                                 (* 306-316 *)
        | None => Ok (unlabel g)
        | Some p => graphInducePart jk al g p vn ip
        end;
      do v0 <- rbVgraph act siz;
      do '(rc, v) <- sep v0;                                                  (* 333-337 *)
      if negb (rc =? 0) then Ok (1, d) else
      if siz <=? 2 then                                                       (* 339-344 *)
        do d <- rb3Fron d (vs v) (vfron v) (vfronnbr v);
        do d <- rb3Both d (vs v) (vpart v) dn;
        Ok (0, d)
      else
        let siz0 := siz / 2 in
        let siz1 := siz - siz0 in
        if vcsz0 v <=? 0 then                                                 (* 355-368, [partval] is 1 *)
          wgraphPartRb2 fuel d (vs v) [] 0 None 1 (vertnbr (vs v)) (dn + siz0) siz1
        else if vcsz1 v <=? 0 then                                            (* 355-368, [partval] is 0 *)
          wgraphPartRb2 fuel d (vs v) [] 0 None 0 (vertnbr (vs v)) dn siz0
        else
          let job0 d := wgraphPartRb2 fuel d (vs v) (vfron v) (vfronnbr v) (Some (vpart v)) 0 (vcsz0 v) dn siz0 in
          let job1 d := wgraphPartRb2 fuel d (vs v) (vfron v) (vfronnbr v) (Some (vpart v)) 1 (vcsz1 v) (dn + siz0) siz1 in
          match sched (vs v) with                                             (* 376-388 *)
          | None => do '(rc0, d) <- job0 d; if rc0 =? 0 then job1 d else Ok (1, d)
          | Some true => do '(rc0, d) <- job0 d; do '(rc1, d) <- job1 d; Ok (if rc0 =? 0 then rc1 else 1, d)
          | Some false => do '(rc1, d) <- job1 d; do '(rc0, d) <- job0 d; Ok (if rc0 =? 0 then rc1 else 1, d)
          end
  end.

(** wgraph_part_rb.c:408-464 *)
Definition wgraphPartRb : wmeth := fun g =>
  if wnbr g <=? 1 then do h <- wgraphZero g; Ok (0, h) else
  do '(rc, (pt, fl, k)) <- wgraphPartRb2 (S (Z.to_nat (wnbr g))) (wpart g, wfron g, 0) (ws g) [] 0 None 1 (vertnbr (ws g)) 0 (wnbr g);
  if negb (rc =? 0) then Ok (1, mkwgraph (ws g) (wnbr g) pt fl (wfronnbr g) (wfronload g) (wcload g) (wcsize g)) else
  do h <- wgraphCost jk (mkwgraph (ws g) (wnbr g) pt fl k (wfronload g) (wcload g) (wcsize g));
  Ok (0, h).
End Rb.

(** Partitioning strategies.  Tests give [None] if their evaluation fails. *)
Inductive wstrat :=
| WConcat (s1 s2 : wstrat)
| WCond (test : wgraph -> option bool) (s : wstrat) (els : option wstrat)
| WEmpty
| WSelect (s1 s2 : wstrat)
| WMeth (m : wmeth).

(** wgraph_part_st.c:188-282 *)
Fixpoint wgraphPartSt (s : wstrat) (g : wgraph) {struct s} : res (Z * wgraph) :=
  match s with
  | WConcat s1 s2 =>
      do '(rc, g) <- wgraphPartSt s1 g;
      if rc =? 0 then wgraphPartSt s2 g else Ok (rc, g)
  | WCond test s els =>
      match test g with
      | None => Ok (1, g)
      | Some true => wgraphPartSt s g
      | Some false => match els with Some s' => wgraphPartSt s' g | None => Ok (0, g) end
      end
  | WEmpty => Ok (0, g)
  | WSelect s1 s2 =>
      do t1 <- wgraphStoreSave g;
      do '(rc, g) <- wgraphPartSt s1 g;
      do t0 <- wgraphStoreSave g;
      do g <- wgraphStoreUpdt g t1;
      do '(rc2, g) <- wgraphPartSt s2 g;
      do g <- (if ((rc =? 0) || (rc2 =? 0)) && (wst_fronload t0 <? wfronload g) then wgraphStoreUpdt g t0 else Ok g);
      Ok (rc, g)
  | WMeth m => m g
  end.

(** library_graph_part_ovl.c:80-125 SCOTCH_graphPartOvl, with wgraph.c:77-88, 116-137; [jk] is the contents of fresh memory, and of
    the fields of the local structure that are not set.  Result: return value and part array. *)
Definition SCOTCH_graphPartOvl (jk : Z) (s : graph) (partnbr : Z) (st : wstrat) (parttab : list Z) : res (Z * list Z) :=
  let n := Z.to_nat partnbr in
  do '(rc, h) <- wgraphPartSt st (mkwgraph s partnbr parttab (repeat jk (Z.to_nat (vertnbr s))) jk jk (repeat jk n) (repeat jk n));
  Ok (rc, wpart h).
