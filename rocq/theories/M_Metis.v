(** Model of SCOTCH_graphBuild (library_graph.c) and of the METIS interface: metis_graph_part.c, metis_graph_order.c.
    Memory is supposed to be available. *)
From Verif Require Import Base Mem M_Graph M_Order M_Bgraph M_Arch M_KgraphMap M_HgraphOrder.

(** library_graph.c:272-299: degrees and sum of edge loads *)
Definition buildSums (g : graph) : res (Z * Z) :=
  let b := baseval g in
  for_ b (vertnnd g) (fun v '(sum, degrmax) =>
    do hi <- rvend g v; do lo <- rvert g v;
    let degr := hi - lo in
    do sum <- match edlotab g with
      | None => Ok sum
      | Some t => for_ lo hi (fun e sum => do l <- rd b t e; Ok (sum + l)) sum
      end;
    Ok (sum, if degrmax <? degr then degr else degrmax)) (match edlotab g with None => edgenbr g | Some _ => 0 end, 0).
(** library_graph.c:222-303 SCOTCH_graphBuild.  [None] is a NULL array, or one that is equal to verttab (edgetab for
    edge loads); for vendtab, it is also verttab + 1, which gives the same pointer. *)
Definition graphBuild (base n : Z) (verttab : list Z) (vendtab velotab vlbltab : option (list Z)) (edgenbr : Z) (edgetab : list Z) (edlotab : option (list Z)) : res graph :=
  do velosum <- match velotab with
    | None => Ok n
    | Some t => for_ base (n + base) (fun v sum => do l <- rd base t v; Ok (sum + l)) 0
    end;
  do '(edlosum, degrmax) <- buildSums (mkgraph base n (n + base) verttab vendtab velotab velosum None vlbltab edgenbr edgetab edlotab 0 0);
  Ok (mkgraph base n (n + base) verttab vendtab velotab velosum None vlbltab edgenbr edgetab edlotab edlosum degrmax).

(** metis_graph_part.c:79-130 _SCOTCH_METIS_OutputCut; state: current arc, sum *)
Definition metisOutputCut (base vertnnd : Z) (xadj adjncy : list Z) (adjwgt : option (list Z)) (part : list Z) : res Z :=
  do '(_, sum) <- for_ base vertnnd (fun v '(edgenum, sum) =>
    do p <- rd base part v;
    do edgennd <- rd base xadj (v + 1);
    do sum <- for_ edgenum edgennd (fun e sum =>
      do u <- rd base adjncy e;
      do pu <- rd base part u;
      if negb (pu =? p) then match adjwgt with None => Ok (sum + 1) | Some t => do l <- rd base t e; Ok (sum + l) end else Ok sum) sum;
    Ok (Z.max edgenum edgennd, sum)) (base, 0);
  Ok (Z.quot sum 2).
(** metis_graph_part.c:138-190 _SCOTCH_METIS_OutputVol; state: current arc, flag array, sum *)
Definition metisOutputVol (base vertnnd : Z) (xadj adjncy : list Z) (vsize : option (list Z)) (nparts : Z) (part : list Z) : res Z :=
  do '(_, _, sum) <- for_ base vertnnd (fun v '(edgenum, ngh, sum) =>
    do p <- rd base part v;
    do ngh <- wr base ngh p v;
    do vsiz <- match vsize with None => Ok 1 | Some t => rd base t v end;
    do edgennd <- rd base xadj (v + 1);
    do '(ngh, sum) <- for_ edgenum edgennd (fun e '(ngh, sum) =>
      do u <- rd base adjncy e;
      do pu <- rd base part u;
      do q <- rd base ngh pu;
      if negb (q =? v) then do ngh <- wr base ngh pu v; Ok (ngh, sum + vsiz) else Ok (ngh, sum)) (ngh, sum);
    Ok (Z.max edgenum edgennd, ngh, sum)) (base, repeat (-1) (Z.to_nat nparts), 0);
  Ok sum.

(** The partitioning strategy is recursive bipartitioning, as in [graphPart]; target weights are not given (tpwgts = NULL) *)
Section Part.
Context (jkd : cdom) (jk al : Z) (avg kavg : Z -> Z -> Z -> Z) (lim : bgraph -> cdom -> Z * Z) (bip : bgraph -> res (Z * bgraph)).
(** metis_graph_part.c:240-326 _SCOTCH_METIS_PartGraph2 *)
Definition metisPart2 (base n : Z) (xadj adjncy : list Z) (vwgt adjwgt : option (list Z)) (nparts : Z) (part : list Z) : res (Z * list Z) :=
  do last <- rd 0 xadj n;
  do g <- graphBuild base n xadj None vwgt None (last - base) adjncy adjwgt;
  do '(o, part) <- graphPart jkd jk al avg kavg lim bip g nparts part;
  if negb (o =? 0) then Ok (1, part) else
  if base =? 0 then Ok (0, part) else
  do part <- for_ 0 n (fun i part => do p <- rd 0 part i; wr 0 part i (p + base)) part;
  Ok (0, part).
(** metis_graph_part.c:332-357 _SCOTCH_METIS_PartGraph: return value (METIS_OK is 1, METIS_ERROR -4), cut and part array *)
Definition metisPartGraph (base n : Z) (xadj adjncy : list Z) (vwgt adjwgt : option (list Z)) (nparts : Z) (part : list Z) : res (Z * Z * list Z) :=
  do '(o, part) <- metisPart2 base n xadj adjncy vwgt adjwgt nparts part;
  if negb (o =? 0) then Ok (-4, -1, part) else
  do cut <- metisOutputCut base (n + base) xadj adjncy adjwgt part;
  Ok (1, cut, part).
(** metis_graph_part.c:405-423: edge loads from the communication sizes of vertices; [jk] is the contents of fresh memory *)
Definition metisEdlo (base n : Z) (xadj adjncy vsize : list Z) (edgenbr : Z) : res (list Z) :=
  do '(_, t) <- for_ 0 n (fun v '(edgenum, t) =>
    do s <- rd 0 vsize v;
    do edgennd <- rd 0 xadj (v + 1);
    do t <- for_ edgenum edgennd (fun e t => do u <- rd base adjncy e; do su <- rd base vsize u; wr base t e (s + su)) t;
    Ok (Z.max edgenum edgennd, t)) (base, repeat jk (Z.to_nat edgenbr));
  Ok t.
(** metis_graph_part.c:366-435 _SCOTCH_METIS_PartGraph_Volume; [vol] is the former value of the variable for the volume, kept on errors *)
Definition metisPartVolume (base n : Z) (xadj adjncy : list Z) (vwgt vsize : option (list Z)) (nparts vol : Z) (part : list Z) : res (Z * Z * list Z) :=
  do '(o, part) <- match vsize with
    | None => metisPart2 base n xadj adjncy vwgt None nparts part
    | Some t =>
      do last <- rd 0 xadj n;
      do edlo <- metisEdlo base n xadj adjncy t (last - base);
      metisPart2 base n xadj adjncy vwgt (Some edlo) nparts part
    end;
  if negb (o =? 0) then Ok (-4, vol, part) else
  do vol <- metisOutputVol base (n + base) xadj adjncy vsize nparts part;
  Ok (1, vol, part).
End Part.

(** metis_graph_order.c:72-113 _SCOTCH_METIS_Node, with ordering strategy [s]: return value, perm and iperm. Without range and tree arrays,
    SCOTCH_graphOrderCompute fills the direct permutation only (library_graph_order.c:376-383). *)
Definition metisNode (jk al : Z) (s : strat) (base n : Z) (xadj adjncy : list Z) (vwgt : option (list Z)) (perm iperm : list Z) : res (Z * list Z * list Z) :=
  do last <- rd 0 xadj n;
  do g <- graphBuild base n xadj None vwgt None (last - base) adjncy None;
  do '(rc, o) <- graphOrderComputeList jk al g (orderInit base n perm) None s;
  if negb (rc =? 0) then Ok (-4, o_peri o, iperm) else
  do iperm <- orderPeri (o_peri o) base (o_vnod o) iperm base;
  Ok (1, o_peri o, iperm).
