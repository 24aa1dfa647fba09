(** Model of the graph ordering driver: hgraph_order_st.c, hgraph_order_si.c, hgraph_order_nd.c,
    hgraph_order_cc.c, and of library_graph_order.c.  The other ordering methods
    (minimum degree and fill, compression, k-way) are black boxes here, as are Gibbs-Poole-Stockmeyer and block splitting,
    which are modelled in M_HgraphOrderGp and M_HgraphOrderBl; so are vertex separation strategies. *)
From Verif Require Import Base M_Graph M_Vgraph M_Induce M_Hgraph M_Order.

(** Part of the ordering structure (order.h:129-140) that methods update, besides the tree node they are given *)
Record ost := mkost { os_peri : list Z; os_cblk : Z; os_tree : Z }.
(** Ordering method: halo graph, ordering, first position, tree node; gives the return value, zero on
    success, and the updated ordering and node.  A method is a function of its arguments:
    pseudo-random choices are among those of the strategy. *)
Definition ometh := hgraph -> ost -> Z -> cblk -> res (Z * ost * cblk).
Definition leaf (n : Z) : cblk := Cblk ORDERCBLKLEAF n 0 None.

(** hgraph_order_si.c:77-104 *)
Definition hgraphOrderSi : ometh := fun h st o cb =>
  let b := baseval (hs h) in
  do '(peri, _) <- for_ b (vnohnnd h) (fun v '(peri, k) =>
    do x <- (match vnumtab (hs h) with None => Ok v | Some t => rd b t v end);
    do peri <- wr 0 peri k x;
    Ok (peri, k + 1)) (os_peri st, o);
  Ok (0, mkost peri (os_cblk st) (os_tree st), cb).

(** hgraph_order_nd.c:145-168: separation graph before the separation; arrays of vertnbr cells, holding [jk] if not set *)
Definition vgraph0 (jk : Z) (s : graph) : vgraph :=
  mkvgraph s (repeat 0 (Z.to_nat (vertnbr s))) (repeat jk (Z.to_nat (vertnbr s))) 0 (vertnbr s) 0 (velosum s) 0 0 (velosum s) 1 1.

(** hgraph_order_nd.c:182-192: lists of the vertices of the parts, in the frontier array *)
Definition ndLists (vg : vgraph) : res (list Z) :=
  let b := baseval (vs vg) in
  do '(fr, _, _, _) <- for_ b (vertnnd (vs vg)) (fun v '(fr, p0, p1, p2) =>
    do p <- rpart vg v;
    if p =? 0 then do fr <- wr 0 fr p0 v; Ok (fr, p0 + 1, p1, p2) else
    if p =? 1 then do fr <- wr 0 fr p1 v; Ok (fr, p0, p1 + 1, p2) else
    if p =? 2 then do fr <- wr 0 fr p2 v; Ok (fr, p0, p1, p2 + 1) else UB)
    (vfron vg, vfronnbr vg, vfronnbr vg + vcsz0 vg, 0);
  Ok fr.
(** [n] cells from cell [k] *)
Definition sublist (l : list Z) (k n : Z) : res (list Z) :=
  if (0 <=? k) && (0 <=? n) && (k + n <=? zlen l) then Ok (firstn (Z.to_nat n) (skipn (Z.to_nat k) l)) else UB.

(** A graph without a halo as a halo graph: hgraph_order_nd.c:261-268, library_graph_order.c:294-301 *)
Definition nohalo (s : graph) (levl : Z) : hgraph :=
  mkhgraph s (vertnbr s) (vertnnd s) (vendlist s) (velosum s) (edgenbr s) (edlosum s) levl.

(** hgraph_order_nd.c:131-317, and 83-117 for the two recursive calls, which are run in sequence:
    their concurrent execution is not modelled.  [sep] is vgraphSeparateSt for the separation
    strategy, [lea] and [ose] are hgraphOrderSt for the strategies of leaves and separators. *)
Fixpoint hgraphOrderNd (jk al : Z) (sep : vgraph -> res vgraph) (lea ose : ometh) (fuel : nat) (h : hgraph) (st : ost) (o : Z) (cb : cblk)
  : res (Z * ost * cblk) :=
  match fuel with
  | O => Fuel
  | S fuel =>
    match sep (vgraph0 jk (hgraphUnhalo h)) with
    | UB => UB
    | Fuel => Fuel
    | Err _ => Ok (1, st, cb)
    | Ok vg =>
      if (vcsz0 vg =? 0) || (vcsz1 vg =? 0) then do '(_, st, cb) <- lea h st o cb; Ok (0, st, cb) else
      let n0 := vcsz0 vg in let n1 := vcsz1 vg in let n2 := vfronnbr vg in
      do fr <- ndLists vg;
      do l0 <- sublist fr n2 n0;
      do l1 <- sublist fr (n2 + n0) n1;
      do l2 <- sublist fr 0 n2;
      let node l := Cblk ORDERCBLKNEDI (c_vnod cb) (zlen l) (Some l) in
      do '(rc, st, seps) <- (
        if n2 =? 0 then Ok (0, mkost (os_peri st) (os_cblk st + 1) (os_tree st + 2), [])
        else
          let st := mkost (os_peri st) (os_cblk st + 2) (os_tree st + 3) in
          match graphInduceList jk al (hs h) l2 with
          | UB => UB
          | Fuel => Fuel
          | Err _ => Ok (1, st, [leaf n2])
          | Ok ind => do '(rc, st, c2) <- ose (nohalo ind (hlevl h)) st (o + n0 + n1) (leaf n2); Ok (rc, st, [c2])
          end);
      let son l o st c :=                                        (* 94-107 *)
        match hgraphInduceList jk h l (n2 + vertnbr (hs h) - vnohnbr h) with
        | UB => UB
        | Fuel => Fuel
        | Err _ => Ok (1, st, c)
        | Ok ind => hgraphOrderNd jk al sep lea ose fuel ind st o c
        end in
      if negb (rc =? 0) then Ok (rc, st, node ([leaf n0; leaf n1] ++ seps)) else
      do '(rc, st, c0) <- son l0 o st (leaf n0);
      if negb (rc =? 0) then Ok (1, st, node ([c0; leaf n1] ++ seps)) else
      do '(rc, st, c1) <- son l1 (o + n0) st (leaf n1);
      Ok (if rc =? 0 then 0 else 1, st, node ([c0; c1] ++ seps))
    end
  end.

(** hgraph_order_cc.c:130-146, body of the arc loop; state: flags, queue, queue tail *)
Definition ccArc (g : graph) (root : Z) (e : Z) (st : list Z * list Z * Z) : res (list Z * list Z * Z) :=
  let '(fl, qu, qt) := st in
  do w <- redge g e;
  do f <- rd (baseval g) fl w;
  if f <? 0 then do fl <- wr (baseval g) fl w root; do qu <- wr 0 qu qt w; Ok (fl, qu, qt + 1) else Ok (fl, qu, qt).
(** 118-147 *)
Definition ccScan (fuel : nat) (h : hgraph) (root : Z) (st : list Z * list Z * Z * Z) : res (list Z * list Z * Z * Z) :=
  let g := hs h in let b := baseval g in
  loop fuel (fun '(fl, qu, qt, qh) =>
    if qh <? qt then
      do v <- rd 0 qu qh;
      do lo <- rvert g v; do hi <- rd b (vnhdtab h) v;
      do '(fl, qu, qt) <- for_ lo hi (ccArc g root) (fl, qu, qt);
      Ok (inl (fl, qu, qt, qh + 1))
    else Ok (inr (fl, qu, qt, qh))) st.
(** 107-151: vertices grouped by connected components, start of each component in that array, number of components *)
Definition ccComps (jk : Z) (h : hgraph) : res (list Z * list Z * Z) :=
  let g := hs h in let b := baseval g in let n := vnohnbr h in
  let fuel := S (S (Z.to_nat n)) in
  do '(qu, rt, rn, qt) <- loop fuel (fun '(fl, qu, rt, rn, qt, qh, vr) =>
    if qt <? n then
      do vr <- loop fuel (fun vr => do f <- rd b fl vr; if 0 <=? f then Ok (inl (vr + 1)) else Ok (inr vr)) vr;
      do rt <- wr 0 rt rn qt;
      do fl <- wr b fl vr rn;
      do qu <- wr 0 qu qt vr;
      do '(fl, qu, qt, qh) <- ccScan fuel h rn (fl, qu, qt + 1, qh);
      Ok (inl (fl, qu, rt, rn + 1, qt, qh, vr))
    else Ok (inr (qu, rt, rn, qt)))
    (repeat (-1) (Z.to_nat n), repeat jk (Z.to_nat n), repeat jk (Z.to_nat (n + 1)), 0, 0, 0, b);
  do rt <- wr 0 rt rn qt;
  Ok (qu, rt, rn).
(** hgraph_order_cc.c:74-208; [sub] is hgraphOrderSt for the strategy of components *)
Definition hgraphOrderCc (jk : Z) (sub : ometh) : ometh := fun h st o cb =>
  do '(qu, rt, rn) <- ccComps jk h;
  if rn =? 1 then sub h st o cb else
  let st := mkost (os_peri st) (os_cblk st + (rn - 1)) (os_tree st + rn) in
  do sons <- for_ 0 rn (fun r l => do lo <- rd 0 rt r; do hi <- rd 0 rt (r + 1); Ok (l ++ [leaf (hi - lo)])) [];
  loop (S (Z.to_nat rn)) (fun '(r, io, st, done, todo) =>
    let node := Cblk ORDERCBLKDICO (c_vnod cb) rn (Some (done ++ todo)) in
    match todo with
    | [] => Ok (inr (0, st, node))
    | c :: todo =>
        do lo <- rd 0 rt r; do hi <- rd 0 rt (r + 1);
        do l <- sublist qu lo (hi - lo);
        match hgraphInduceList jk h l (vertnbr (hs h) - vnohnbr h) with
        | UB => UB
        | Fuel => Fuel
        | Err _ => Ok (inr (1, st, node))
        | Ok ind =>
            do '(rc, st, c) <- sub ind st io c;
            if negb (rc =? 0) then Ok (inr (1, st, Cblk ORDERCBLKDICO (c_vnod cb) rn (Some (done ++ c :: todo)))) else
            Ok (inl (r + 1, io + (hi - lo), st, done ++ [c], todo))
        end
    end) (0, 0, st, [], sons).

(** Ordering strategies (hgraph_order_st.c:100-240).  Tests give [None] if their evaluation fails. *)
Inductive strat :=
| SEmpty
| SConcat
| SSelect
| SCond (test : hgraph -> option bool) (s : strat) (els : option strat)
| SSi
| SNd (sep : vgraph -> res vgraph) (lea ose : strat)
| SCc (s : strat)
| SMeth (m : ometh).

(** hgraph_order_st.c:261-319; [al]: allocation alignment, [jk]: contents of fresh memory *)
Fixpoint hgraphOrderSt (jk al : Z) (s : strat) (h : hgraph) (st : ost) (o : Z) (cb : cblk) {struct s} : res (Z * ost * cblk) :=
  if vnohnbr h =? 0 then Ok (0, st, cb) else
  match s with
  | SEmpty => hgraphOrderSi h st o cb
  | SConcat => Ok (1, st, cb)
  | SSelect => Ok (1, st, cb)
  | SCond test s els =>
      match test h with
      | None => Ok (1, st, cb)
      | Some true => hgraphOrderSt jk al s h st o cb
      | Some false => match els with Some s' => hgraphOrderSt jk al s' h st o cb | None => Ok (0, st, cb) end
      end
  | SSi => hgraphOrderSi h st o cb
  | SNd sep lea ose => hgraphOrderNd jk al sep (hgraphOrderSt jk al lea) (hgraphOrderSt jk al ose) (S (Z.to_nat (vnohnbr h))) h st o cb
  | SCc s => hgraphOrderCc jk (hgraphOrderSt jk al s) h st o cb
  | SMeth m => m h st o cb
  end.

(** library_graph_order.c:333-348: the vertices which are not in the list, at the end of the inverse permutation *)
Definition listMarks (g : graph) (l : list Z) (peri : list Z) : res (list Z) :=
  let b := baseval g in
  do peri <- for_ 0 (vertnbr g) (fun k p => wr 0 p k 0) peri;
  do peri <- for_ 0 (zlen l) (fun k p => do v <- rd 0 l k; wr b p v (-1)) peri;
  do '(peri, _) <- for_ 0 (vertnbr g) (fun k '(p, ha) =>
    let v := vertnnd g - 1 - k in
    do x <- rd b p v;
    if x =? 0 then do p <- wr b p ha v; Ok (p, ha - 1) else Ok (p, ha)) (peri, vertnnd g - 1);
  Ok peri.

(** library_graph_order.c:291-301: the edge loads are dropped, not their sum *)
Definition halgraf (g : graph) : hgraph :=
  nohalo (mkgraph (baseval g) (vertnbr g) (vertnnd g) (verttab g) (vendtab g) (velotab g) (velosum g) (vnumtab g) (vlbltab g)
            (edgenbr g) (edgetab g) None (edlosum g) (degrmax g)) 0.

(** library_graph_order.c:238-388: return value and ordering; [l]: [None] for the whole graph
    (SCOTCH_graphOrderCompute, 220-227).  The strategy is an ordering strategy. *)
Definition graphOrderComputeList (jk al : Z) (g : graph) (o : order) (l : option (list Z)) (s : strat) : res (Z * order) :=
  let listnbr := match l with Some l => zlen l | None => vertnbr g end in
  let mk st t := mkorder (o_base o) (o_vnod o) (os_tree st) (os_cblk st) t (os_peri st) in
  if listnbr =? 0 then                                              (* 277-280 *)
    do peri <- for_ 0 (vertnbr g) (fun k p => wr 0 p k (baseval g + k)) (o_peri o);
    Ok (1, mkorder (o_base o) (o_vnod o) (o_treenbr o) (o_cblknbr o) (o_tree o) peri)
  else if listnbr =? vertnbr g then
    do '(rc, st, t) <- hgraphOrderSt jk al s (halgraf g) (mkost (o_peri o) (o_cblknbr o) (o_treenbr o)) 0 (o_tree o);
    Ok (rc, mk st t)
  else match l with
  | None => UB
  | Some l =>
      do peri <- listMarks g l (o_peri o);
      let st := mkost peri 2 3 in
      let c1 := leaf (vertnbr g - listnbr) in
      match hgraphInduceList jk (halgraf g) l (vertnbr g - listnbr) with
      | UB => UB
      | Fuel => Fuel
      | Err _ => Ok (1, mk st (Cblk ORDERCBLKDICO (vertnbr g) 2 (Some [leaf listnbr; c1])))
      | Ok h =>
          do '(rc, st, c0) <- hgraphOrderSt jk al s h st 0 (leaf listnbr);
          Ok (rc, mk st (Cblk ORDERCBLKDICO (vertnbr g) 2 (Some [c0; c1])))
      end
  end.

(** library_graph_order.c:376-381: direct permutation, range and tree arrays, of the given initial contents *)
Definition orderArrays (g : graph) (o : order) (perm rang tree : list Z) : res (list Z * list Z * list Z) :=
  do perm <- orderPeri (o_peri o) (baseval g) (o_vnod o) perm (baseval g);
  do rang <- orderRang o rang;
  do tree <- orderTree o tree;
  Ok (perm, rang, tree).

(** library_graph_order.c:398-418 SCOTCH_graphOrder, with all the arrays given: SCOTCH_graphOrderInit
    (58-104) calls orderInit with the given inverse permutation array.  Gives the return value, the inverse and
    direct permutations, the number of blocks, the range and tree arrays. *)
Definition graphOrder (jk al : Z) (g : graph) (s : strat) (perm peri rang tree : list Z) : res (Z * (list Z * list Z * Z * list Z * list Z)) :=
  do '(rc, o) <- graphOrderComputeList jk al g (orderInit (baseval g) (vertnbr g) peri) None s;
  if negb (rc =? 0) then Ok (rc, (o_peri o, perm, 0, rang, tree)) else
  do '(perm, rang, tree) <- orderArrays g o perm rang tree;
  Ok (0, (o_peri o, perm, o_cblknbr o, rang, tree)).
