(** Model of the construction of dual graphs of meshes through the METIS interface:
    metis_graph_dual.c. *)
From Verif Require Import Base M_Graph M_Mesh.

(** Node of an arc of the user's element array, metis_graph_dual.c:138, 178, 184.
    The only cells of the new vertex array that have a meaning at that time are
    those of the nodes (line 122): other numbers lead to a cell that is not
    initialized, or outside. *)
Definition dualNode (base nn : Z) (eind : list Z) (e : Z) : res Z :=
  do x <- rd base eind e;
  if (x <? base) || (base + nn <=? x) then UB else Ok x.

(** metis_graph_dual.c:127-144; state: vertex array, maximum degree, arcs *)
Definition dualCount (base nn ne : Z) (eptr eind : list Z) (v : Z) (st : list Z * Z * Z) : res (list Z * Z * Z) :=
  let '(vt, dm, en) := st in
  do lo <- rd base eptr v;
  do hi <- rd base eptr (v + 1);
  let d := hi - lo in
  do vt <- for_ lo hi (fun e vt =>
    do x <- dualNode base nn eind e;
    do c <- rd base vt (ne + x);
    wr base vt (ne + x) (c + 1)) vt;
  Ok (vt, (if dm <? d then d else dm), en + d).

(** metis_graph_dual.c:147-155: the copy of line 148 and the loop of line 153 *)
Definition dualElems (base ne : Z) (eptr vt : list Z) : res (list Z) :=
  do e0 <- rd base eptr base;
  for_ base (ne + base) (fun v vt =>
    do k <- rd base eptr v;
    wr base vt v (if e0 =? base then k else k + (e0 - base))) vt.

(** metis_graph_dual.c:157-166; state: vertex array, maximum degree, edge number *)
Definition dualStarts (base : Z) (v : Z) (st : list Z * Z * Z) : res (list Z * Z * Z) :=
  let '(vt, dm, e) := st in
  do d <- rd base vt v;
  do vt <- wr base vt v e;
  Ok (vt, (if dm <? d then d else dm), e + d).

(** metis_graph_dual.c:181-186; state: vertex array, edge array *)
Definition dualFill (base nn ne : Z) (eptr eind : list Z) (v : Z) (st : list Z * list Z) : res (list Z * list Z) :=
  do lo <- rd base eptr v;
  do hi <- rd base eptr (v + 1);
  for_ lo hi (fun e '(vt, ed) =>
    do x <- dualNode base nn eind e;
    do k <- rd base vt (x + ne);
    do vt <- wr base vt (x + ne) (k + 1);
    do ed <- wr base ed k v;
    Ok (vt, ed)) st.

(** metis_graph_dual.c:71-192 _SCOTCH_METIS_MeshToDual2, on a mesh that has been
    initialized (meshInit sets [veisnbr], [vnumtax], [vlbltax] to zero or NULL, and
    this routine leaves them so).  [eptr] and [eind] are the arrays of the user; the
    debug checks of lines 93-110 are not compiled in.  Memory allocation does not
    fail; new cells hold no meaning before they are written.  The size of the move of
    line 188 is unsigned: it is huge when there is no node. *)
Definition metisMesh (base nn ne : Z) (eptr eind : list Z) : res mesh :=
  let nnd := ne + base in
  do '(vt, dm, en) <- for_ base nnd (dualCount base nn ne eptr eind) (repeat 0 (Z.to_nat (ne + nn + 1)), 0, 0);
  let enbr := en * 2 in
  do vt <- dualElems base ne eptr vt;
  do e0 <- rd base eptr nnd;
  do '(vt, dm, e1) <- for_ nnd (nnd + nn) (dualStarts base) (vt, dm, e0);
  do vt <- wr base vt (nnd + nn) e1;
  do ed <- for_ base e0 (fun e ed =>
    do x <- rd base eind e;
    wr base ed e (x + ne)) (repeat 0 (Z.to_nat enbr));
  do '(vt, ed) <- for_ base nnd (dualFill base nn ne eptr eind) (vt, ed);
  if nn <? 1 then UB else
  do vt' <- for_ (nnd + 1) (nnd + nn) (fun v t =>
    do k <- rd base vt (v - 1);
    wr base t v k) vt;
  do vt' <- wr base vt' nnd e0;
  Ok (mkmesh base ne base nnd 0 nn nnd (nn + nnd) vt' None None None ne nn None None enbr ed dm).

(** Copy of the first [n] cells of an array, metis_graph_dual.c:242-243 *)
Definition dualCopy (n : Z) (l : list Z) : res (list Z) :=
  if zlen l <? n then UB else Ok (firstn (Z.to_nat n) l).

(** metis_graph_dual.c:198-247 METIS_MeshToDual: the arrays [xadj] and [adjncy] *)
Definition metisMeshToDual (base nn ne : Z) (eptr eind : list Z) (ncommon : Z) : res (list Z * list Z) :=
  do m <- metisMesh base nn ne eptr eind;
  do gr <- meshGraphDual m ncommon;
  do xadj <- dualCopy (vertnbr gr + 1) (verttab gr);
  do adjncy <- dualCopy (edgenbr gr) (edgetab gr);
  Ok (xadj, adjncy).
