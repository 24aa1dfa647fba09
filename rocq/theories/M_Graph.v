(** Model of the sequential graph structure and of graph_check.c, graph_base.c. *)
From Verif Require Import Base.

(** graph.h:128-144, struct Graph_.  Arrays are lists of their actual contents;
    [verttax[i]] is element [i - baseval] of [verttab], etc.  [vendtab = None]
    models the compact form [vendtax == verttax + 1] (graph.h:57-60), in which the
    end array is the vertex array shifted by one; the other options model NULL
    pointers.  The flag word (memory ownership) is not modelled. *)
Record graph := mkgraph {
  baseval : Z; vertnbr : Z; vertnnd : Z;
  verttab : list Z; vendtab : option (list Z);
  velotab : option (list Z); velosum : Z;
  vnumtab : option (list Z); vlbltab : option (list Z);
  edgenbr : Z; edgetab : list Z; edlotab : option (list Z); edlosum : Z;
  degrmax : Z }.

(** C reads of the arrays of a graph *)
Definition rvert (g : graph) (v : Z) : res Z := rd (baseval g) (verttab g) v.
Definition rvend (g : graph) (v : Z) : res Z :=
  match vendtab g with Some t => rd (baseval g) t v | None => rd (baseval g) (verttab g) (v + 1) end.
Definition redge (g : graph) (e : Z) : res Z := rd (baseval g) (edgetab g) e.

(** Signed addition of Gnum values; overflow is undefined behaviour in C.
    [gmax] is the largest Gnum. *)
Definition gadd (gmax x y : Z) : res Z :=
  if (- gmax - 1 <=? x + y) && (x + y <=? gmax) then Ok (x + y) else UB.

(** graph_check.c:158-160 and 166-168, search for an arc to [v] in [from..hi-1] *)
Definition arcsearch (g : graph) (hi v from : Z) : res Z :=
  loop (S (Z.to_nat (hi - from))) (fun e =>
    if e <? hi then
      do w <- redge g e;
      if w =? v then Ok (inr e) else Ok (inl (e + 1))
    else Ok (inr e)) from.

(** graph_check.c:134-173, body of the arc loop; state is the edge load sum *)
Definition checkArc (gmax : Z) (g : graph) (v e : Z) (edlosum : Z) : res Z :=
  do w <- redge g e;
  do edlosum <- (match edlotab g with
                 | None => Ok edlosum
                 | Some t =>
                     do l <- rd (baseval g) t e;
                     do tmp <- gadd gmax edlosum l;
                     if tmp <? edlosum then Err 1 else Ok tmp
                 end);
  if (w <? baseval g) || (vertnnd g <=? w) then Err 1 else
  if w =? v then Err 1 else
  do lo <- rvert g w;
  do hi <- rvend g w;
  do ee <- arcsearch g hi v lo;
  if hi <=? ee then Err 1 else
  do ok <- (match edlotab g with
            | None => Ok true
            | Some t => do l <- rd (baseval g) t e; do l' <- rd (baseval g) t ee; Ok (l =? l')
            end);
  if negb ok then Err 1 else
  do ee <- arcsearch g hi v (ee + 1);
  if ee <? hi then Err 1 else Ok edlosum.

(** graph_check.c:120-188, body of the vertex loop;
    state: (degrmax, edgenbr, edlosum, velosum) *)
Definition checkVert (gmax : Z) (g : graph) (v : Z) (st : Z * Z * Z * Z) : res (Z * Z * Z * Z) :=
  let '(degrmax, edgenbr, edlosum, velosum) := st in
  do lo <- rvert g v;
  do hi <- rvend g v;
  if (lo <? baseval g) || (hi <? lo) then Err 1 else
  let degrval := hi - lo in
  let degrmax := if degrmax <? degrval then degrval else degrmax in
  let edgenbr := edgenbr + degrval in
  do edlosum <- for_ lo hi (checkArc gmax g v) edlosum;
  do velosum <- (match velotab g with
                 | None => Ok velosum
                 | Some t =>
                     do l <- rd (baseval g) t v;
                     if l <? 0 then Err 1 else
                     do tmp <- gadd gmax velosum l;
                     if tmp <? velosum then Err 1 else Ok tmp
                 end);
  Ok (degrmax, edgenbr, edlosum, velosum).

(** graph_check.c:87-207 graphCheck; [Ok tt] is return value 0, [Err 1] is 1.
    Index arithmetic is not bounded, the two load sums are. *)
Definition graphCheck (gmax : Z) (g : graph) : res unit :=
  if (vertnbr g <? 0) || negb (vertnbr g =? vertnnd g - baseval g) then Err 1 else
  if (edgenbr g <? 0) || negb (Z.land (edgenbr g) 1 =? 0) then Err 1 else
  do st <- for_ (baseval g) (vertnnd g) (checkVert gmax g)
    (0, 0, (match edlotab g with None => edgenbr g | Some _ => 0 end),
           (match velotab g with None => vertnbr g | Some _ => 0 end));
  let '(dmax, enbr, esum, vsum) := st in
  if negb (edgenbr g =? enbr) then Err 1 else
  if negb (velosum g =? vsum) then Err 1 else
  if negb (edlosum g =? esum) then Err 1 else
  if degrmax g <? dmax then Err 1 else
  Ok tt.

(** graph_base.c:85-130 graphBase; returns the old base and the new graph.
    Pointer adjustments (lines 113-124) are implicit, since arrays are accessed
    relatively to the [baseval] field. *)
Definition graphBase (g : graph) (newbase : Z) : res (Z * graph) :=
  if baseval g =? newbase then Ok (newbase, g) else
  let b := baseval g in
  let adj := newbase - b in
  do '(vt, et) <- for_ b (vertnnd g) (fun v '(vt, et) =>
      do lo <- rd b vt v;
      do hi <- (match vendtab g with Some t => rd b t v | None => rd b vt (v + 1) end);
      do et <- for_ lo hi (fun e et => do x <- rd b et e; wr b et e (x + adj)) et;
      do vt <- wr b vt v (lo + adj);
      Ok (vt, et)) (verttab g, edgetab g);
  do '(vt, vd) <- (match vendtab g with
      | Some t =>
          do t <- for_ b (vertnnd g) (fun v t => do x <- rd b t v; wr b t v (x + adj)) t;
          Ok (vt, Some t)
      | None =>
          do x <- rd b vt (vertnnd g);
          do vt <- wr b vt (vertnnd g) (x + adj);
          Ok (vt, None)
      end);
  Ok (b, mkgraph newbase (vertnbr g) (vertnnd g + adj) vt vd (velotab g) (velosum g)
           (vnumtab g) (vlbltab g) (edgenbr g) et (edlotab g) (edlosum g) (degrmax g)).
