(** Model of mapping files: library_graph_map_io.c. *)
From Verif Require Import Base M_Int M_Sort M_Graph M_Order.

(** fscanf with GNUMSTRING; as [scanD], for integers of at most [imax] *)
Definition scanG (imax : Z) (s : stream) : res (Z * stream) :=
  do '(v, s') <- scanInt s;
  if (- imax - 1 <=? v) && (v <=? imax) then Ok (v, s') else UB.

(** library_graph_map_io.c:198-225 SCOTCH_graphTabSave (and 269-284
    SCOTCH_graphMapSave); output errors are not modelled. *)
Definition graphTabSave (g : graph) (parttab : list Z) : res (list Z) :=
  for_ (baseval g) (vertnnd g) (fun v out =>
    do l <- (match vlbltab g with Some t => rd (baseval g) t v | None => Ok v end);
    do p <- rd (baseval g) parttab v;
    Ok (out ++ line2 l p)) (line1 (vertnbr g)).

(** library_graph_map_io.c:117-133: the pairs read, whether they come sorted by
    label, and the last label; the array has one cell per pair and is filled in
    order. *)
Definition tabPairs (imax nbr : Z) (s : stream) : res (list (Z * Z) * bool * Z * stream) :=
  for_ 0 nbr (fun _ '(tab, flag, lbl, s) =>
    do '(l, s) <- orerr (scanG imax s) 1;
    do '(t, s) <- orerr (scanG imax s) 1;
    Ok (tab ++ [(l, t)], if l <? lbl then false else flag, l, s)) ([], true, - imax - 1, s).

(** library_graph_map_io.c:137-143 *)
Definition tabDup (tab : list (Z * Z)) (nbr : Z) : res unit :=
  for_ 1 nbr (fun k _ =>
    do x <- rd 0 tab k; do y <- rd 0 tab (k - 1);
    if fst x =? fst y then Err 1 else Ok tt) tt.

(** library_graph_map_io.c:150-159: labels are read at indices that start from 0,
    from an array whose first index is the base of the graph *)
Definition tabVert (imax : Z) (g : graph) (vlbl : list Z) : res (list (Z * Z) * bool * Z) :=
  for_ 0 (vertnbr g) (fun k '(tab, flag, lbl) =>
    do l <- rd (baseval g) vlbl k;
    Ok (tab ++ [(l, k)], if l <? lbl then false else flag, l)) ([], true, - imax - 1).

(** library_graph_map_io.c:163-171.  Both arrays belong to the same memory block,
    one after the other: the read of line 164 may be of the first cell of the
    second one.  The state is (mappfilenum, parttab, whether line 167 has left the
    loop). *)
Definition tabMerge (mapp vert : list (Z * Z)) (nbr : Z) (part : list Z) : res (list Z) :=
  do '(_, part, _) <- for_ 0 (zlen vert) (fun i '(j, part, fin) =>
    if (fin : bool) then Ok (j, part, fin) else
    do v <- rd 0 vert i;
    do '(j, fin) <- loop (S (S (length mapp))) (fun j =>
      do x <- rd 0 (mapp ++ vert) j;
      if fst x <? fst v then
        if nbr <=? j + 1 then Ok (inr (j + 1, true)) else Ok (inl (j + 1))
      else Ok (inr (j, false))) j;
    if (fin : bool) then Ok (j, part, fin) else
    do x <- rd 0 (mapp ++ vert) j;
    if fst x =? fst v then do part <- wr 0 part (snd v) (snd x); Ok (j + 1, part, false)
    else Ok (j, part, false)) (0, part, false);
  Ok part.

(** library_graph_map_io.c:77-189 SCOTCH_graphTabLoad (and 235-259
    SCOTCH_graphMapLoad); [part] is the array given, of vertnbr cells.  The outcome
    is the array and the rest of the stream.  Memory allocation does not fail. *)
Definition graphTabLoad (imax stksiz : Z) (g : graph) (part : list Z) (s : stream) : res (list Z * stream) :=
  do part <- for_ 0 (vertnbr g) (fun k part => wr 0 part k (-1)) part;
  do '(nbr, s) <- orerr (scanG imax s) 1;
  if nbr <? 1 then Err 1 else
  do '(mapp, flag, _, s) <- tabPairs imax nbr s;
  do mapp <- (if flag then Ok mapp else intSort2asc1 stksiz mapp nbr);
  do _ <- tabDup mapp nbr;
  match vlbltab g with
  | Some vlbl =>
      do '(vert, flag, _) <- tabVert imax g vlbl;
      do vert <- (if flag then Ok vert else intSort2asc1 stksiz vert (vertnbr g));
      do part <- tabMerge mapp vert nbr part;
      Ok (part, s)
  | None =>
      do part <- for_ 0 nbr (fun k part =>
        do x <- rd 0 mapp k;
        let v := fst x - baseval g in
        if (0 <=? v) && (v <? vertnbr g) then wr 0 part v (snd x) else Ok part) part;
      Ok (part, s)
  end.
