(** Model of vertex separation strategies: vgraph_separate_st.c, vgraph_separate_zr.c,
    vgraph_separate_ml.c, vgraph_separate_gp.c.  The other methods are black boxes. *)
From Verif Require Import Base Mem M_Graph M_Vgraph M_Coarsen.

(** Separation method: return value, zero on success, and separation *)
Definition vmeth := vgraph -> res (Z * vgraph).

(** vgraph_separate_zr.c:75-83 *)
Definition vgraphSeparateZr : vmeth := fun g =>
  if negb (vcsz0 g =? vertnbr (vs g)) then do h <- vgraphZero g; Ok (0, h) else Ok (0, g).
(** vgraph_separate_th.c:73-119; the routine itself is in M_Vgraph.v *)
Definition vgraphSeparateThMeth : vmeth := fun g => do h <- vgraphSeparateTh g; Ok (0, h).

(** Function abs of the C library applied to a Gnum: exact if Gnum is int; else the argument is converted to int, that is, keeps its
    low-order bits only.  Its value for the least int, strictly speaking undefined, is that of usual processors. *)
Definition abs_int32 (z : Z) : Z := Z.abs z.
Definition abs_int64 (z : Z) : Z := let w := (z + 2 ^ 31) mod 2 ^ 32 - 2 ^ 31 in if w =? - 2 ^ 31 then w else Z.abs w.

(** Separation strategies.  Tests give [None] if their evaluation fails. *)
Inductive vstrat :=
| VConcat (s1 s2 : vstrat)
| VCond (test : vgraph -> option bool) (s : vstrat) (els : option vstrat)
| VEmpty
| VSelect (s1 s2 : vstrat)
| VMeth (m : vmeth).

(** vgraph_separate_st.c:235-337; [gs] is sizeof (Gnum), [ab] is abs on Gnum's *)
Fixpoint vgraphSeparateSt (gs : Z) (ab : Z -> Z) (s : vstrat) (g : vgraph) {struct s} : res (Z * vgraph) :=
  match s with
  | VConcat s1 s2 =>                                                        (* 268-272 *)
      do '(rc, g) <- vgraphSeparateSt gs ab s1 g;
      if rc =? 0 then vgraphSeparateSt gs ab s2 g else Ok (rc, g)
  | VCond test s els =>                                                     (* 273-291 *)
      match test g with
      | None => Ok (1, g)
      | Some true => vgraphSeparateSt gs ab s g
      | Some false => match els with Some s' => vgraphSeparateSt gs ab s' g | None => Ok (0, g) end
      end
  | VEmpty => Ok (0, g)
  | VSelect s1 s2 =>                                                        (* 294-322 *)
      let area := vgraphStoreInit gs g in
      do t1 <- vgraphStoreSave gs g area;
      do '(rc, g) <- vgraphSeparateSt gs ab s1 g;
      do '(t0, g) <- (if negb (rc =? 0) then
          do g <- vgraphStoreUpdt gs g t1; do t0 <- vgraphStoreSave gs g area; Ok (t0, g)
        else do t0 <- vgraphStoreSave gs g area; do g <- vgraphStoreUpdt gs g t1; Ok (t0, g));
      do '(rc, g) <- vgraphSeparateSt gs ab s2 g;
      do g <- (if negb (rc =? 0) then vgraphStoreUpdt gs g t1 else Ok g);
      let compload2 := velosum (vs g) - st_cld0 t0 - st_cld1 t0 in
      let better := if compload2 <? vcld2 g then true
                    else if compload2 =? vcld2 g then ab (st_dlt t0) <? ab (vdlt g)
                    else false in
      do g <- (if better then vgraphStoreUpdt gs g t0 else Ok g);
      Ok (0, g)
  | VMeth m => m g
  end.

(** vgraph_separate_ml.c:154-188; state: part array, frontier array, number of frontier vertices, size of part 1 *)
Definition mlUncoarsen (g ch : vgraph) (mult : list (Z * Z)) : res vgraph :=
  let b := baseval (vs g) in
  do '(pt, fr, k, sz1) <- for_ 0 (vertnbr (vs ch)) (fun c '(pt, fr, k, sz1) =>
    do '(v0, v1) <- rd 0 mult c;
    do p <- rd 0 (vpart ch) c;
    do pt <- wr b pt v0 p;
    if negb (p =? 2) then
      if negb (v0 =? v1) then do pt <- wr b pt v1 p; Ok (pt, fr, k, sz1 + p) else Ok (pt, fr, k, sz1)
    else
      do fr <- wr 0 fr k v0;
      if negb (v0 =? v1) then do pt <- wr b pt v1 p; do fr <- wr 0 fr (k + 1) v1; Ok (pt, fr, k + 2, sz1)
      else Ok (pt, fr, k + 1, sz1)) (vpart g, vfron g, 0, vcsz1 ch);
  Ok (mkvgraph (vs g) pt fr k (vertnbr (vs g) - k - sz1) sz1 (vcld0 ch) (vcld1 ch) (vcld2 ch) (vdlt ch) (vdw0 g) (vdw1 g)).

(** vgraph_separate_ml.c:210-234 (93-114 for coarse graphs).  [coar] is graphCoarsen: coarse graph, fine-to-coarse and multinode arrays;
    [low] and [asc] are vgraphSeparateSt for the low and ascending strategies.  The frontier array is shared by all graphs; the part
    arrays of coarse graphs are allocated with contents [jk], and so are their other fields.  Allocation succeeds. *)
Fixpoint vgraphSeparateMl2 (jk : Z) (coar : graph -> res (graph * list Z * list (Z * Z))) (low asc : vmeth) (fuel : nat) (g : vgraph) : res (Z * vgraph) :=
  match fuel with
  | O => Fuel
  | S fuel =>
    match coar (vs g) with
    | UB => UB
    | Fuel => Fuel
    | Err _ => do g <- vgraphZero g; low g
    | Ok (cg, _, mult) =>
        let cv := mkvgraph cg (repeat jk (Z.to_nat (vertnbr cg))) (vfron g) jk jk jk jk jk jk jk (vdw0 g) (vdw1 g) in
        do '(rc, ch) <- vgraphSeparateMl2 jk coar low asc fuel cv;
        let g := mkvgraph (vs g) (vpart g) (vfron ch) (vfronnbr g) (vcsz0 g) (vcsz1 g) (vcld0 g) (vcld1 g) (vcld2 g) (vdlt g) (vdw0 g) (vdw1 g) in
        if negb (rc =? 0) then Ok (rc, g) else
        do g <- mlUncoarsen g ch mult;
        asc g
    end
  end.
(** 248-262: at most one level per vertex *)
Definition vgraphSeparateMl (jk : Z) (coar : graph -> res (graph * list Z * list (Z * Z))) (low asc : vmeth) : vmeth := fun g =>
  vgraphSeparateMl2 jk coar low asc (S (Z.to_nat (vertnbr (vs g)))) g.

(** ** Gibbs-Poole-Stockmeyer-like separation *)
(** vgraph_separate_gp.c:137-165: breadth-first search of pass [pass]; state: pass numbers, distances, queue, its head and tail, and
    the vertex retained, its distance and degree, flag of an improvement *)
Record gpst := mkgpst { gp_pass : list Z; gp_dist : list Z; gp_qu : list Z; gp_qh : Z; gp_qt : Z }.
(** 155-164 *)
Definition gpArc (s : graph) (pass dist e : Z) (st : gpst) : res gpst :=
  let b := baseval s in
  do w <- redge s e;
  do p <- rd b (gp_pass st) w;
  if p <? pass then
    do qu <- wr 0 (gp_qu st) (gp_qt st) w;
    do ps <- wr b (gp_pass st) w pass;
    do ds <- wr b (gp_dist st) w dist;
    Ok (mkgpst ps ds qu (gp_qh st) (gp_qt st + 1))
  else Ok st.
(** 132-135, 168-171 *)
Definition gpStart (s : graph) (pass root : Z) (st : gpst) : res gpst :=
  do qu <- wr 0 (gp_qu st) 0 root;
  do ps <- wr (baseval s) (gp_pass st) root pass;
  do ds <- wr (baseval s) (gp_dist st) root 0;
  Ok (mkgpst ps ds qu 0 1).
Definition gpScan (fuel : nat) (s : graph) (pass : Z) (st : gpst) (diam : Z * Z * Z * bool) : res (gpst * (Z * Z * Z * bool)) :=
  let b := baseval s in
  loop fuel (fun '(st, (dn, dv, dd, fl)) =>
    do v <- rd 0 (gp_qu st) (gp_qh st);
    let st := mkgpst (gp_pass st) (gp_dist st) (gp_qu st) (gp_qh st + 1) (gp_qt st) in
    do d <- rd b (gp_dist st) v;
    do lo <- rvert s v; do hi <- rvend s v;
    let diam := if (dv <? d) || ((d =? dv) && (hi - lo <? dd)) then (v, d, hi - lo, true) else (dn, dv, dd, fl) in
    do st <- for_ lo hi (gpArc s pass (d + 1)) st;
    if gp_qh st =? gp_qt st then Ok (inr (st, diam)) else Ok (inl (st, diam))) (st, diam).
(** 130-166: vertex at one end of a large diameter, and number of the next pass *)
Definition gpPasses (fuel : nat) (s : graph) (passnbr root : Z) (st : gpst) : res (gpst * Z * Z) :=
  loop (S (Z.to_nat passnbr)) (fun '(st, pass, (dn, dv, dd, fl)) =>
    if (pass <? passnbr) && fl then
      do st <- gpStart s pass dn st;
      do '(st, diam) <- gpScan fuel s pass st (dn, dv, dd, false);
      Ok (inl (st, pass + 1, diam))
    else Ok (inr (st, dn, pass))) (st, 1, (root, 0, 0, true)).

(** 177-205; state: also part array, imbalance and load of the separator *)
Definition gpGrowArc (s : graph) (w1 pass dist e : Z) (st : gpst * list Z * Z * Z) : res (gpst * list Z * Z * Z) :=
  let b := baseval s in
  let '(st, pt, dlt, c2) := st in
  do w <- redge s e;
  do l <- rvelo s w;
  do p <- rd b (gp_pass st) w;
  if p <? pass then
    do qu <- wr 0 (gp_qu st) (gp_qt st) w;
    do ps <- wr b (gp_pass st) w pass;
    do ds <- wr b (gp_dist st) w dist;
    do pt <- wr b pt w 2;
    Ok (mkgpst ps ds qu (gp_qh st) (gp_qt st + 1), pt, dlt - l * w1, c2 + l)
  else Ok (st, pt, dlt, c2).
Definition gpGrow (fuel : nat) (s : graph) (w0 w1 pass : Z) (st : gpst * list Z * Z * Z) : res (gpst * list Z * Z * Z) :=
  let b := baseval s in
  loop fuel (fun '(st, pt, dlt, c2) =>
    do v <- rd 0 (gp_qu st) (gp_qh st);
    let st := mkgpst (gp_pass st) (gp_dist st) (gp_qu st) (gp_qh st + 1) (gp_qt st) in
    do l <- rvelo s v;
    do d <- rd b (gp_dist st) v;
    do pt <- wr b pt v 1;
    do lo <- rvert s v; do hi <- rvend s v;
    do '(st, pt, dlt, c2) <- for_ lo hi (gpGrowArc s w1 pass (d + 1)) (st, pt, dlt - l * w0, c2 - l);
    if (0 <? dlt) && negb (gp_qh st =? gp_qt st) then Ok (inl (st, pt, dlt, c2)) else Ok (inr (st, pt, dlt, c2))) st.

(** vgraph_separate_gp.c:75-238.  The arrays allocated have one cell per vertex; the pass numbers are zero, the others hold [jk]. *)
Definition vgraphSeparateGp (jk passnbr : Z) : vmeth := fun g =>
  let s := vs g in let b := baseval s in let n := vertnbr s in
  let fuel := S (S (Z.to_nat n)) in
  do g <- (if negb (vcsz0 g =? n) then vgraphZero g else Ok g);
  let st := mkgpst (repeat 0 (Z.to_nat n)) (repeat jk (Z.to_nat n)) (repeat jk (Z.to_nat n)) 0 0 in
  do '(pt, dlt, c2) <- loop fuel (fun '(root, (st, pt, dlt, c2)) =>                  (* 118-206 *)
    if (root <? vertnnd s) && (0 <? dlt) then
      do root <- loop fuel (fun r => do p <- rd b (gp_pass st) r; if negb (p =? 0) then Ok (inl (r + 1)) else Ok (inr r)) root;
      do '(st, dn, pass) <- gpPasses fuel s passnbr root st;
      do st <- gpStart s pass dn st;
      do l <- rvelo s dn;
      do pt <- wr b pt dn 2;
      do st4 <- gpGrow fuel s (vdw0 g) (vdw1 g) pass (st, pt, dlt - l * vdw1 g, c2 + l);
      Ok (inl (root + 1, st4))
    else Ok (inr (pt, dlt, c2))) (b, (st, vpart g, velosum s * vdw1 g, 0));
  if vdw0 g + vdw1 g =? 0 then UB else
  let c0 := Z.quot (dlt + (velosum s - c2) * vdw0 g) (vdw0 g + vdw1 g) in
  do '(fr, k, sz1, sz2) <- for_ b (vertnnd s) (fun v '(fr, k, sz1, sz2) =>           (* 214-225 *)
    do p <- rd b pt v;
    let sz1 := sz1 + Z.land p 1 in let sz2 := sz2 + Z.shiftr p 1 in
    if p =? 2 then do fr <- wr 0 fr k v; Ok (fr, k + 1, sz1, sz2) else Ok (fr, k, sz1, sz2)) (vfron g, 0, 0, 0);
  Ok (0, mkvgraph s pt fr sz2 (n - sz1 - sz2) sz1 c0 (velosum s - c2 - c0) c2 dlt (vdw0 g) (vdw1 g)).

(** vgraph_separate_ml.c:93-107: coarsening, run by one thread.  [cmax] is the value of the floating-point expression of graph_coarsen.c:601,
    [cmin] is parameter coarnbr; the stack of the sorting routine has 64 cells for all graphs whose size fits in a 64-bit integer, which is always
    the case. *)
Definition mlCoarsen (cmax : graph -> Z) (cmin : Z) (s : graph) : res (graph * list Z * list (Z * Z)) :=
  graphCoarsen (if vertnbr s <? 2 ^ 63 then 64 else vertnbr s + 1) false s None None 0 (cmax s) cmin.

(** hgraph_order_nd.c:168-172: separation strategy used by nested dissection *)
Definition sepOf (m : vmeth) (g : vgraph) : res vgraph := do '(rc, h) <- m g; if rc =? 0 then Ok h else Err rc.
