(** Model of bipartitioning strategies: bgraph_bipart_st.c, bgraph_bipart_zr.c, bgraph_bipart_ml.c, bgraph_bipart_gp.c.
    The other methods are black boxes. *)
From Verif Require Import Base Mem M_Graph M_Bgraph M_Vgraph M_Coarsen M_VgraphSt.

(** Bipartitioning method: return value, zero on success, and bipartition *)
Definition bmeth := bgraph -> res (Z * bgraph).

(** bgraph_bipart_zr.c:79-94 *)
Definition bgraphBipartZr : bmeth := fun g =>
  if negb (bld0 g =? velosum (bs g)) then do h <- bgraphZero g; Ok (0, h) else Ok (0, g).

(** Bipartitioning strategies.  Tests give [None] if their evaluation fails. *)
Inductive bstrat :=
| BConcat (s1 s2 : bstrat)
| BCond (test : bgraph -> option bool) (s : bstrat) (els : option bstrat)
| BEmpty
| BSelect (s1 s2 : bstrat)
| BMeth (m : bmeth).

(** bgraph_bipart_st.c:328-351: whether the second result is kept.  [o] and [o2] are the return values, [d0] and [c0] the imbalance and
    communication load of the first result, [ab] is abs on Gnum's *)
Definition stKeep (ab : Z -> Z) (g : bgraph) (o o2 d0 c0 : Z) : bool :=
  let out := fun d => (bavg g + d <? bmin g) || (bmax g <? bavg g + d) in
  let b0 := if out d0 then 1 else o in
  let b1 := if out (bdlt g) then 1 else o2 in
  if b1 <? b0 then true else
  if b0 =? b1 then
    if b0 =? 0 then (bcml g <? c0) || ((c0 =? bcml g) && (ab (bdlt g) <? ab d0))
    else (ab (bdlt g) <? ab d0) || ((ab d0 =? ab (bdlt g)) && (bcml g <? c0))
  else false.

(** bgraph_bipart_st.c:252-376; [gs] is sizeof (Gnum).  Allocation succeeds. *)
Fixpoint bgraphBipartSt (gs : Z) (ab : Z -> Z) (s : bstrat) (g : bgraph) {struct s} : res (Z * bgraph) :=
  match s with
  | BConcat s1 s2 =>                                                        (* 283-287 *)
      do '(o, g) <- bgraphBipartSt gs ab s1 g;
      if o =? 0 then bgraphBipartSt gs ab s2 g else Ok (o, g)
  | BCond test s els =>                                                     (* 288-306 *)
      match test g with
      | None => Ok (1, g)
      | Some true => bgraphBipartSt gs ab s g
      | Some false => match els with Some s' => bgraphBipartSt gs ab s' g | None => Ok (0, g) end
      end
  | BEmpty => Ok (0, g)
  | BSelect s1 s2 =>                                                        (* 309-361 *)
      let area := bgraphStoreInit gs g in
      do t1 <- bgraphStoreSave gs g area;
      do '(o, g) <- bgraphBipartSt gs ab s1 g;
      do t0 <- bgraphStoreSave gs g area;
      do g <- bgraphStoreUpdt gs g t1;
      do '(o2, g) <- bgraphBipartSt gs ab s2 g;
      do g <- (if (o =? 0) || (o2 =? 0) then
          if stKeep ab g o o2 (bt_dlt t0) (bt_cml t0) then Ok g else bgraphStoreUpdt gs g t0
        else Ok g);
      Ok (if o2 <? o then o2 else o, g)
  | BMeth m => m g
  end.

(** ** Multilevel bipartitioning *)
(** bgraph_bipart_ml.c:111-164: bipartition structure of coarse graph [cg], of level [levl + 1].  [rl] is the floating-point product by 0.05,
    converted to Gnum.  The frontier array is shared by all graphs; the part array of the coarse graph is allocated later (200-206),
    with contents [jk]; the other fields, not set yet, also hold [jk].  Allocation succeeds. *)
Definition mlbCoarsen (jk : Z) (rl : Z -> Z) (levl : Z) (g : bgraph) (cg : graph) (mult : list (Z * Z)) : res bgraph :=
  let b := baseval (bs g) in
  do vx <- match bveex g with
    | Some t =>
        do ct <- for_ 0 (vertnbr cg) (fun c ct =>                           (* 126-136 *)
          do '(v0, v1) <- rd 0 mult c;
          do x <- (if negb (v0 =? v1) then do x0 <- rd b t v0; do x1 <- rd b t v1; Ok (x0 + x1) else rd b t v0);
          wr 0 ct c x) (repeat jk (Z.to_nat (vertnbr cg)));
        Ok (Some ct)
    | None => Ok None
    end;
  let tmp := (levl + 1) + rl (Z.min (bmax g - bavg g) (bavg g - bmin g)) in
  Ok (mkbgraph cg vx (repeat jk (Z.to_nat (vertnbr cg))) (bfron g) jk (bmin g - tmp) (bmax g + tmp) (bavg g) jk jk jk
       jk (bcmle0 g) (bcmge0 g) jk (jk, jk) (bdist g) (bwg0 g) (bwg1 g) (bfx0 g) (bfx1 g)).

(** 262-268, 274-280: whether a vertex has a neighbour which is not in part [p] *)
Definition mlbOther (s : graph) (pt : list Z) (p v : Z) : res bool :=
  do lo <- rvert s v; do hi <- rvend s v;
  for_ lo hi (fun e f => if f : bool then Ok true else do w <- redge s e; do q <- rd (baseval s) pt w; Ok (negb (q =? p))) false.

(** 213-302, without the debugging instructions; [bfron g] is the shared frontier array *)
Definition mlbUncoarsen (g ch : bgraph) (mult : list (Z * Z)) : res bgraph :=
  let s := bs g in let b := baseval s in
  do '(pt, sz1) <- for_ (baseval (bs ch)) (vertnnd (bs ch)) (fun c '(pt, sz1) =>       (* 218-233 *)
    do '(v0, v1) <- rd b mult c;
    do p <- rd (baseval (bs ch)) (bpart ch) c;
    do pt <- wr b pt v0 p;
    if negb (v0 =? v1) then do pt <- wr b pt v1 p; Ok (pt, sz1 + p) else Ok (pt, sz1)) (bpart g, vertnbr (bs ch) - bsz0 ch);
  do '(fr, k) <- for_ 0 (bfronnbr ch) (fun i '(fr, k) =>                               (* 242-291 *)
    do c <- rd 0 fr i;
    do '(v0, v1) <- rd b mult c;
    if negb (v0 =? v1) then
      do p <- rd (baseval (bs ch)) (bpart ch) c;
      do f0 <- mlbOther s pt p v0;
      if f0 : bool then
        do fr <- wr 0 fr i v0;
        do f1 <- mlbOther s pt p v1;
        if f1 : bool then do fr <- wr 0 fr k v1; Ok (fr, k + 1) else Ok (fr, k)
      else do fr <- wr 0 fr i v1; Ok (fr, k)
    else do fr <- wr 0 fr i v0; Ok (fr, k)) (bfron g, bfronnbr ch);
  Ok (mkbgraph s (bveex g) pt fr k (bmin g) (bmax g) (bavg g) (bdlt ch) (bld0 ch) (vertnbr s - sz1)
       (bcml ch) (bcmle0 g) (bcmge0 g) (bcmge ch) (bbal ch) (bdist g) (bwg0 g) (bwg1 g) (bfx0 g) (bfx1 g)).

Definition bsetfron (g : bgraph) (fr : list Z) : bgraph :=
  mkbgraph (bs g) (bveex g) (bpart g) fr (bfronnbr g) (bmin g) (bmax g) (bavg g) (bdlt g) (bld0 g) (bsz0 g)
    (bcml g) (bcmle0 g) (bcmge0 g) (bcmge g) (bbal g) (bdist g) (bwg0 g) (bwg1 g) (bfx0 g) (bfx1 g).

(** 311-335, and 103-109.  [coar] is graphCoarsen: coarse graph, fine-to-coarse and multinode arrays; [low] and [asc] are bgraphBipartSt for
    the low and ascending strategies, on graphs of a given level (tests of strategies may read it). *)
Fixpoint bgraphBipartMl2 (jk : Z) (rl : Z -> Z) (coar : graph -> res (graph * list Z * list (Z * Z))) (low asc : Z -> bmeth) (fuel : nat)
    (levl : Z) (g : bgraph) : res (Z * bgraph) :=
  match fuel with
  | O => Fuel
  | S fuel =>
    match coar (bs g) with
    | UB => UB
    | Fuel => Fuel
    | Err _ => do g <- bgraphZero g; low levl g
    | Ok (cg, _, mult) =>
        do cv <- mlbCoarsen jk rl levl g cg mult;
        do '(rc, ch) <- bgraphBipartMl2 jk rl coar low asc fuel (levl + 1) cv;
        let g := bsetfron g (bfron ch) in
        if negb (rc =? 0) then Ok (rc, g) else
        do g <- mlbUncoarsen g ch mult;
        asc levl g
    end
  end.
(** 349-363: at most one level per vertex *)
Definition bgraphBipartMl (jk : Z) (rl : Z -> Z) (coar : graph -> res (graph * list Z * list (Z * Z))) (low asc : Z -> bmeth) : bmeth := fun g =>
  bgraphBipartMl2 jk rl coar low asc (S (Z.to_nat (vertnbr (bs g)))) 0 g.

(** ** Gibbs-Poole-Stockmeyer-like bipartitioning *)
(** bgraph_bipart_gp.c:177-200; state: search, part array, imbalance, size of part 0, external load.  The search for a vertex of large
    eccentricity, lines 134-175, is the same code as in vgraph_separate_gp.c: see M_VgraphSt.v. *)
Definition bgpGrow (fuel : nat) (s : graph) (vx : option (list Z)) (pass : Z) (st : gpst * list Z * Z * Z * Z) : res (gpst * list Z * Z * Z * Z) :=
  let b := baseval s in
  loop fuel (fun '(st, pt, dlt, sz0, extn) =>
    do v <- rd 0 (gp_qu st) (gp_qh st);
    let st := mkgpst (gp_pass st) (gp_dist st) (gp_qu st) (gp_qh st + 1) (gp_qt st) in
    do pt <- wr b pt v 1;
    do l <- rvelo s v;
    do x <- match vx with Some t => rd b t v | None => Ok 0 end;
    do d <- rd b (gp_dist st) v;
    do lo <- rvert s v; do hi <- rvend s v;
    do st <- for_ lo hi (gpArc s pass (d + 1)) st;
    let st' := (st, pt, dlt - l, sz0 - 1, extn + x) in
    if (0 <? dlt - l) && negb (gp_qh st =? gp_qt st) then Ok (inl st') else Ok (inr st')) st.

(** 221-234; state: frontier array, number of frontier vertices, distances, cut load *)
Definition bgpFrontArc (s : graph) (pt : list Z) (e : Z) (st : list Z * Z * list Z * Z) : res (list Z * Z * list Z * Z) :=
  let b := baseval s in
  let '(fr, k, ds, intn) := st in
  do w <- redge s e;
  do p <- rd b pt w;
  if p =? 1 then
    do l <- match edlotab s with None => Ok 1 | Some t => rd b t e end;
    do d <- rd b ds w;
    if negb (d =? -1) then
      do fr <- wr 0 fr k w;
      do ds <- wr b ds w (-1);
      Ok (fr, k + 1, ds, intn + l)
    else Ok (fr, k, ds, intn + l)
  else Ok st.
(** 206-235: vertices left in the queue, and their neighbours of part 1 *)
Definition bgpFront (s : graph) (pt : list Z) (st : gpst) (fr : list Z) (intn : Z) : res (list Z * Z * list Z * Z) :=
  for_ (gp_qh st) (gp_qt st) (fun i '(fr, k, ds, intn) =>
    do v <- rd 0 (gp_qu st) i;
    do fr <- wr 0 fr k v;
    do lo <- rvert s v; do hi <- rvend s v;
    for_ lo hi (bgpFrontArc s pt) (fr, k + 1, ds, intn)) (fr, 0, gp_dist st, intn).

(** bgraph_bipart_gp.c:86-258.  The arrays allocated have one cell per vertex; the pass numbers and distances are zero, the
    queue holds [jk].  Allocation succeeds. *)
Definition bgraphBipartGp (jk passnbr : Z) : bmeth := fun g =>
  let s := bs g in let b := baseval s in let n := vertnbr s in
  let fuel := S (S (Z.to_nat n)) in
  do g <- (if negb (bsz0 g =? n) then bgraphZero g else Ok g);
  let st := mkgpst (repeat 0 (Z.to_nat n)) (repeat 0 (Z.to_nat n)) (repeat jk (Z.to_nat n)) 0 0 in
  do '(pt, fr, nbr, dlt, sz0, intn, extn) <- loop fuel (fun '(root, (st, pt, dlt, sz0, extn)) =>     (* 123-239 *)
    if (root <? vertnnd s) && (0 <? dlt) then
      do root <- loop fuel (fun r => do p <- rd b (gp_pass st) r; if negb (p =? 0) then Ok (inl (r + 1)) else Ok (inr r)) root;
      do '(st, dn, pass) <- gpPasses fuel s passnbr root st;
      do st <- gpStart s pass dn st;
      do '(st, pt, dlt, sz0, extn) <- bgpGrow fuel s (bveex g) pass (st, pt, dlt, sz0, extn);
      if negb (gp_qh st =? gp_qt st) then
        do '(fr, k, _, intn) <- bgpFront s pt st (bfron g) 0;
        Ok (inr (pt, fr, k, dlt, sz0, intn, extn))
      else Ok (inl (root + 1, (st, pt, dlt, sz0, extn)))
    else Ok (inr (pt, bfron g, bfronnbr g, dlt, sz0, 0, extn))) (b, (st, bpart g, velosum s - bavg g, n, 0));
  Ok (0, mkbgraph s (bveex g) pt fr nbr (bmin g) (bmax g) (bavg g) dlt (bavg g + dlt) sz0
           (bcmle0 g + extn + intn * bdist g) (bcmle0 g) (bcmge0 g) (bcmge0 g - extn * 2)
           (if dlt <? 0 then - dlt else dlt, bavg g) (bdist g) (bwg0 g) (bwg1 g) (bfx0 g) (bfx1 g)).
