(** Model of Gibbs-Poole-Stockmeyer ordering: hgraph_order_gp.c and hgraph_order_gp.h.  Memory is
    supposed to be available. *)
From Verif Require Import Base M_Graph M_Hgraph M_Order M_HgraphOrder.

(** Queue (hgraph_order_gp.h:80-94): array, index of the first free cell ([head]), index of the next cell to read
    ([tail]); with it, the two fields of the vertex array (hgraph_order_gp.h:73-76): pass numbers and distances. *)
Record gpst := mkgpst { gp_qu : list Z; gp_head : Z; gp_tail : Z; gp_pass : list Z; gp_dist : list Z }.

(** hgraph_order_gp.h:94, 93 *)
Definition gpPut (v : Z) (s : gpst) : res gpst :=
  do qu <- wr 0 (gp_qu s) (gp_head s) v;
  Ok (mkgpst qu (gp_head s + 1) (gp_tail s) (gp_pass s) (gp_dist s)).
Definition gpGet (s : gpst) : res (Z * gpst) :=
  do v <- rd 0 (gp_qu s) (gp_tail s);
  Ok (v, mkgpst (gp_qu s) (gp_head s) (gp_tail s + 1) (gp_pass s) (gp_dist s)).
(** hgraph_order_gp.h:91 *)
Definition gpFlush (s : gpst) : gpst := mkgpst (gp_qu s) 0 0 (gp_pass s) (gp_dist s).
Definition gpSetPass (b v p : Z) (s : gpst) : res gpst :=
  do t <- wr b (gp_pass s) v p;
  Ok (mkgpst (gp_qu s) (gp_head s) (gp_tail s) t (gp_dist s)).
Definition gpSetDist (b v d : Z) (s : gpst) : res gpst :=
  do t <- wr b (gp_dist s) v d;
  Ok (mkgpst (gp_qu s) (gp_head s) (gp_tail s) (gp_pass s) t).

(** hgraph_order_gp.c:166-183, body of the arc loop; [d]: distance of the neighbours *)
Definition gpArc1 (g : graph) (pass d e : Z) (s : gpst) : res gpst :=
  let b := baseval g in
  do w <- redge g e;
  do p <- rd b (gp_pass s) w;
  if p <? pass then
    do s <- gpPut w s;
    do s <- gpSetPass b w pass s;
    gpSetDist b w d s
  else Ok s.

(** 145-184: one search from the queue; state: queue, then diameter vertex, distance, degree, flag *)
Definition gpScan (fuel : nat) (h : hgraph) (pass : Z) (st : gpst * (Z * Z * Z * Z)) : res (gpst * (Z * Z * Z * Z)) :=
  let g := hs h in let b := baseval g in
  loop fuel (fun '(s, (dv, dd, dg, fl)) =>
    do '(v, s) <- gpGet s;
    do d <- rd b (gp_dist s) v;
    do lo <- rvert g v; do hi <- rd b (vnhdtab h) v;
    let diam := if (dd <? d) || ((d =? dd) && (hi - lo <? dg)) then (v, d, hi - lo, 0) else (dv, dd, dg, fl) in
    do s <- for_ lo hi (gpArc1 g pass (d + 1)) s;
    if gp_head s <=? gp_tail s then Ok (inr (s, diam)) else Ok (inl (s, diam))) st.

(** 133-185: searches from vertices that are farther and farther; result: queue, diameter vertex, pass number *)
Definition gpPasses (fuel : nat) (h : hgraph) (passnbr root : Z) (s : gpst) : res (gpst * Z * Z) :=
  let g := hs h in let b := baseval g in
  loop (S (Z.to_nat passnbr)) (fun '(s, dv, dd, fl, pass) =>
    if (fl =? 0) && (pass <=? passnbr) then
      do s <- gpPut dv (gpFlush s);
      do s <- gpSetPass b dv pass s;
      do s <- gpSetDist b dv 0 s;
      do lo <- rvert g dv; do hi <- rd b (vnhdtab h) dv;
      do '(s, (dv, dd, _, fl)) <- gpScan fuel h pass (s, (dv, dd, hi - lo, fl + 1));
      Ok (inl (s, dv, dd, fl, pass + 1))
    else Ok (inr (s, dv, pass))) (s, root, 0, 0, 1).

(** 216-219 and 226-229: a neighbour is put in the queue if it has not been put yet *)
Definition gpEnq (b pass w : Z) (s : gpst) : res gpst :=
  do p <- rd b (gp_pass s) w;
  if p <? pass then
    do s <- gpPut w s;
    gpSetPass b w pass s
  else Ok s.
(** 204-220: first neighbour of the same layer that is not ordered yet, -1 if none, and the next arc *)
Definition gpNext (g : graph) (pass d lo hi : Z) (s : gpst) : res (Z * Z * gpst) :=
  let b := baseval g in
  loop (S (Z.to_nat (hi - lo))) (fun '(e, s) =>
    if e <? hi then
      do w <- redge g e;
      do dw <- rd b (gp_dist s) w;
      do p <- rd b (gp_pass s) w;
      if (dw =? d) && (p <=? pass) then Ok (inr (w, e + 1, s)) else
      do s <- gpEnq b pass w s;
      Ok (inl (e + 1, s))
    else Ok (inr (-1, e, s))) (lo, s).
(** 198-231: the vertices of a layer, from [v] on; state: vertex, queue, inverse permutation, position *)
Definition gpChain (fuel : nat) (h : hgraph) (pass d : Z) (st : Z * gpst * list Z * Z) : res (gpst * list Z * Z) :=
  let g := hs h in let b := baseval g in
  loop fuel (fun '(v, s, peri, ord) =>
    do x <- (match vnumtab g with None => Ok v | Some t => rd b t v end);
    do peri <- wr 0 peri ord x;
    do s <- gpSetPass b v (pass + 1) s;
    do lo <- rvert g v; do hi <- rd b (vnhdtab h) v;
    do '(w, e, s) <- gpNext g pass d lo hi s;
    do s <- for_ e hi (fun e s => do u <- redge g e; gpEnq b pass u s) s;
    if w =? -1 then Ok (inr (s, peri, ord + 1)) else Ok (inl (w, s, peri, ord + 1))) st.
(** 191-232; state: queue, inverse permutation, position *)
Definition gpLevels (fuel : nat) (h : hgraph) (pass : Z) (st : gpst * list Z * Z) : res (gpst * list Z * Z) :=
  let b := baseval (hs h) in
  loop fuel (fun '(s, peri, ord) =>
    do '(v, s) <- gpGet s;
    do p <- rd b (gp_pass s) v;
    do '(s, peri, ord) <- (if pass <? p then Ok (s, peri, ord) else
      do d <- rd b (gp_dist s) v;
      gpChain fuel h pass d (v, s, peri, ord));
    if gp_head s <=? gp_tail s then Ok (inr (s, peri, ord)) else Ok (inl (s, peri, ord))) st.
(** hgraph_order_gp.c:80-248.  [jk]: contents of fresh memory; the column block is left as it is. *)
Definition hgraphOrderGp (jk passnbr : Z) : ometh := fun h st o cb =>
  let b := baseval (hs h) in let n := vnohnbr h in
  let fuel := S (S (Z.to_nat n)) in
  do peri <- loop fuel (fun '(s, root, peri, ord) =>
    if ord <? o + n then
      do root <- loop fuel (fun r => do p <- rd b (gp_pass s) r; if p =? 0 then Ok (inr r) else Ok (inl (r + 1))) root;
      do '(s, dv, pass) <- gpPasses fuel h passnbr root s;
      do s <- gpPut dv (gpFlush s);
      do s <- gpSetPass b dv pass s;
      do '(s, peri, ord) <- gpLevels fuel h pass (s, peri, ord);
      Ok (inl (s, root, peri, ord))
    else Ok (inr peri))
    (mkgpst (repeat jk (Z.to_nat n)) 0 0 (repeat 0 (Z.to_nat n)) (repeat 0 (Z.to_nat n)), b, os_peri st, o);
  Ok (0, mkost peri (os_cblk st) (os_tree st), cb).
