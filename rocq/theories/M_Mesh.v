(** Model of source meshes: mesh.h, mesh.c, mesh_check.c, mesh_graph.c and the
    building routine of library_mesh.c. *)
From Verif Require Import Base M_Graph.

(** mesh.h:80-102, struct Mesh_.  [vendtax], [verttax], [edgetax] and [vlbltax]
    are based on [baseval], as in a graph; the load and number arrays have a base
    of their own (mesh.h:90-96), the index of their first cell, which is kept
    beside their contents.  [mvend = None] models [vendtax == verttax + 1]; other
    options model NULL pointers.  The flag word is not modelled. *)
Record mesh := mkmesh {
  mbase : Z;
  velmnbr : Z; velmbas : Z; velmnnd : Z; veisnbr : Z;
  vnodnbr : Z; vnodbas : Z; vnodnnd : Z;
  mvert : list Z; mvend : option (list Z);
  mvelo : option (Z * list Z); mvnlo : option (Z * list Z); mvelosum : Z; mvnlosum : Z;
  mvnum : option (Z * list Z); mvlbl : option (list Z);
  medgenbr : Z; medge : list Z; mdegrmax : Z }.

(** The vertex and edge arrays of a mesh, which are laid out as those of a graph:
    gives access to [verttax], [vendtax] and [edgetax] through [rvert], [rvend],
    [redge].  Not a function of the code. *)
Definition mgraph (m : mesh) : graph :=
  let n := velmnbr m + vnodnbr m in
  mkgraph (mbase m) n (n + mbase m) (mvert m) (mvend m) None n None (mvlbl m)
    (medgenbr m) (medge m) None (medgenbr m) (mdegrmax m).

(** Read of a load array *)
Definition rload (t : Z * list Z) (v : Z) : res Z := rd (fst t) (snd t) v.

(** library_mesh.c:241-251 and 252-262, sum of a load array over [bas..bas+nbr-1] *)
Definition meshLoadSum (gmax : Z) (t : option (Z * list Z)) (bas nbr : Z) : res Z :=
  match t with
  | None => Ok nbr
  | Some t => for_ bas (bas + nbr) (fun v s => do l <- rload t v; gadd gmax s l) 0
  end.

(** library_mesh.c:264-273; state: maximum degree, number of isolated elements *)
Definition meshDegrElm (g : graph) (v : Z) (st : Z * Z) : res (Z * Z) :=
  let '(dm, is) := st in
  do hi <- rvend g v;
  do lo <- rvert g v;
  let d := hi - lo in
  if dm <? d then Ok (d, is) else if d =? 0 then Ok (dm, is + 1) else Ok (dm, is).

(** library_mesh.c:276-283; state: maximum degree *)
Definition meshDegrNod (g : graph) (v dm : Z) : res Z :=
  do hi <- rvend g v;
  do lo <- rvert g v;
  let d := hi - lo in
  Ok (if dm <? d then d else dm).

(** library_mesh.c:184-294 SCOTCH_meshBuild, applied to an initialized mesh.
    Vertex arrays that are passed for absent ones ([velotab == verttab], ...) are
    taken as absent ([None]).  The sums of lines 210-217 are not bounded. *)
Definition meshBuild (gmax velmbas vnodbas velmnbr vnodnbr : Z) (verttab : list Z) (vendtab velotab vnlotab vlbltab : option (list Z))
    (edgenbr : Z) (edgetab : list Z) : res mesh :=
  if (velmbas <? 0) || (vnodbas <? 0) || ((1 <? velmbas) && (1 <? vnodbas)) then Err 1 else
  if negb (velmbas + velmnbr =? vnodbas) && negb (vnodbas + vnodnbr =? velmbas) then Err 1 else
  let b := Z.min velmbas vnodbas in
  let velo := match velotab with None => None | Some t => Some (velmbas, t) end in
  let vnlo := match vnlotab with None => None | Some t => Some (vnodbas, t) end in
  let mk es ns is dm := mkmesh b velmnbr velmbas (velmbas + velmnbr) is vnodnbr vnodbas (vnodbas + vnodnbr)
                          verttab vendtab velo vnlo es ns None vlbltab edgenbr edgetab dm in
  do es <- meshLoadSum gmax velo velmbas velmnbr;
  do ns <- meshLoadSum gmax vnlo vnodbas vnodnbr;
  let g := mgraph (mk es ns 0 0) in
  do '(dm, is) <- for_ velmbas (velmbas + velmnbr) (meshDegrElm g) (0, 0);
  do dm <- for_ vnodbas (vnodbas + vnodnbr) (meshDegrNod g) dm;
  Ok (mk es ns is dm).

(** mesh_check.c:112-142 and 160-190, body of the arc loops: the end of arc [e]
    of vertex [v] must not be in [bas..nnd-1], the range of [v] itself *)
Definition meshCheckArc (m : mesh) (bas nnd v e : Z) : res unit :=
  let g := mgraph m in
  do w <- redge g e;
  if (w <? mbase m) || (velmnbr m + vnodnbr m + mbase m <=? w) then Err 1 else
  if (bas <=? w) && (w <? nnd) then Err 1 else
  do lo <- rvert g w;
  do hi <- rvend g w;
  do ee <- arcsearch g hi v lo;
  if hi <=? ee then Err 1 else
  do ee <- arcsearch g hi v (ee + 1);
  if ee <? hi then Err 1 else Ok tt.

(** mesh_check.c:96-143, body of the element loop; state: degrmax, veisnbr *)
Definition meshCheckElm (m : mesh) (v : Z) (st : Z * Z) : res (Z * Z) :=
  let g := mgraph m in
  let '(dm, is) := st in
  do lo <- rvert g v;
  if lo <? mbase m then Err 1 else
  do hi <- rvend g v;
  if hi <? lo then Err 1 else
  let d := hi - lo in
  let st := if dm <? d then (d, is) else if d =? 0 then (dm, is + 1) else (dm, is) in
  do _ <- for_ lo hi (fun e _ => meshCheckArc m (velmbas m) (velmnnd m) v e) tt;
  Ok st.

(** mesh_check.c:149-191, body of the node loop; state: degrmax *)
Definition meshCheckNod (m : mesh) (v dm : Z) : res Z :=
  let g := mgraph m in
  do lo <- rvert g v;
  if lo <? mbase m then Err 1 else
  do hi <- rvend g v;
  if hi <? lo then Err 1 else
  let dm := if dm <? hi - lo then hi - lo else dm in
  do _ <- for_ lo hi (fun e _ => meshCheckArc m (vnodbas m) (vnodnnd m) v e) tt;
  Ok dm.

(** mesh_check.c:193-204 and 210-221, load sum over [bas..nnd-1] *)
Definition meshCheckLoad (gmax : Z) (t : option (Z * list Z)) (bas nnd : Z) : res Z :=
  match t with
  | None => Ok (nnd - bas)
  | Some t => for_ bas nnd (fun v s => do l <- rload t v; if l <? 1 then Err 1 else gadd gmax s l) 0
  end.

(** mesh_check.c:72-233 meshCheck *)
Definition meshCheck (gmax : Z) (m : mesh) : res unit :=
  if (velmnnd m <? velmbas m) || (vnodnnd m <? vnodbas m) ||
     negb (velmnnd m =? velmbas m + velmnbr m) || negb (vnodnnd m =? vnodbas m + vnodnbr m) ||
     (negb (velmnnd m =? vnodbas m) && negb (vnodnnd m =? velmbas m)) then Err 1 else
  do '(dm, is) <- for_ (velmbas m) (velmnnd m) (meshCheckElm m) (0, 0);
  if negb (is =? veisnbr m) then Err 1 else
  do dm <- for_ (vnodbas m) (vnodnnd m) (meshCheckNod m) dm;
  do es <- meshCheckLoad gmax (mvelo m) (velmbas m) (velmnnd m);
  if negb (es =? mvelosum m) then Err 1 else
  do ns <- meshCheckLoad gmax (mvnlo m) (vnodbas m) (vnodnnd m);
  if negb (ns =? mvnlosum m) then Err 1 else
  if mdegrmax m <? dm then Err 1 else
  Ok tt.

(** mesh.c:147-191 meshBase; returns the old base and the new mesh.  Lines
    157-177 are those of graph_base.c:94-124 but for the structure they apply to.
    Line 180 moves [vnumtax]; nothing moves [velotax] and [vnlotax]. *)
Definition meshBase (m : mesh) (newbase : Z) : res (Z * mesh) :=
  let adj := newbase - mbase m in
  do '(old, g) <- graphBase (mgraph m) newbase;
  Ok (old, mkmesh newbase (velmnbr m) (velmbas m + adj) (velmnnd m + adj) (veisnbr m)
             (vnodnbr m) (vnodbas m + adj) (vnodnnd m + adj) (verttab g) (vendtab g)
             (mvelo m) (mvnlo m) (mvelosum m) (mvnlosum m)
             (match mvnum m with None => None | Some (o, t) => Some (o + adj, t) end) (mvlbl m)
             (medgenbr m) (edgetab g) (mdegrmax m)).

(** ** Graphs built from meshes *)

(** mesh_graph.c:111-112 and 253-254.  The product is not bounded. *)
Definition meshHashSiz (degrmax : Z) : res Z :=
  let n := degrmax * degrmax * 2 in
  loop (S (Z.to_nat n)) (fun s => if s <? n then Ok (inl (s * 2)) else Ok (inr s)) 32.

(** State of the edge loops: hash table, edge array, its size, next edge.
    [edgennd] is [mnd]. *)
Record mst (H : Type) := mkmst { mhs : H; med : list Z; mnd : Z; mnx : Z }.
Arguments mkmst {H}. Arguments mhs {H}. Arguments med {H}. Arguments mnd {H}. Arguments mnx {H}.

(** mesh_graph.c:172-188, 192 and 323-341: appends [w] to the edge array, which
    is enlarged by a fourth when it is full.  Memory allocation does not fail.
    The new cells hold no meaning before they are written. *)
Definition meshEdgeAdd {H} (b w : Z) (st : mst H) : res (mst H) :=
  let '(ed, nd) := if mnx st =? mnd st then
                     let mx := mnd st - b in
                     let mx' := mx + Z.shiftr mx 2 in
                     (med st ++ repeat 0 (Z.to_nat (mx' - mx)), mx' + b)
                   else (med st, mnd st) in
  do ed <- wr b ed (mnx st) w;
  Ok (mkmst (mhs st) ed nd (mnx st + 1)).

(** mesh_graph.c:154-156: slot of the loop edge; MESHGRAPHHASHPRIME is 37 *)
Definition meshStart (msk u : Z) (hs : list (Z * Z)) : res (list (Z * Z)) :=
  wr 0 hs (Z.land (u * 37) msk) (u, u).

(** mesh_graph.c:168-197: vertex [w] is met from vertex [u]; [adj] is
    [vnodbas - baseval] *)
Definition meshStep (b adj msk u w : Z) (st : mst (list (Z * Z))) : res (mst (list (Z * Z))) :=
  loop (S (length (mhs st))) (fun h =>
    do '(o, t) <- rd 0 (mhs st) h;
    if negb (o =? u) then
      do hs <- wr 0 (mhs st) h (u, w);
      do st <- meshEdgeAdd b (w - adj) (mkmst hs (med st) (mnd st) (mnx st));
      Ok (inr st)
    else if t =? w then Ok (inr st)
    else Ok (inl (Z.land (h + 1) msk))) (Z.land (w * 37) msk).

(** mesh_graph.c:145-203 and 280-351: the vertices of the range of [nbr] vertices
    that starts at [bas], [start] and [step] being the parts in which the two
    routines differ.  State: vertex array, maximum degree, edge state. *)
Definition meshRows {H} (m : mesh) (bas nbr : Z) (start : Z -> H -> res H) (step : Z -> Z -> mst H -> res (mst H))
    (st : list Z * Z * mst H) : res (list Z * Z * mst H) :=
  let g := mgraph m in
  for_ (mbase m) (nbr + mbase m) (fun v '(vt, dm, st) =>
    let e0 := mnx st in
    do vt <- wr (mbase m) vt v e0;
    let u := v + (bas - mbase m) in
    do hs <- start u (mhs st);
    do lo <- rvert g u;
    do hi <- rvend g u;
    do st <- for_ lo hi (fun e st =>
      do x <- redge g e;
      do lo <- rvert g x;
      do hi <- rvend g x;
      for_ lo hi (fun e st =>
        do w <- redge g e;
        step u w st) st) (mkmst hs (med st) (mnd st) (mnx st));
    let d := mnx st - e0 in
    Ok (vt, (if dm <? d then d else dm), st)) st.

(** mesh_graph.c:91-220 meshGraph.  Lines 125-127 make the node loads, from the
    first node on, the loads of the graph; a load array that starts after the first
    node, if there is one, has no cell for it. *)
Definition meshGraph (m : mesh) : res graph :=
  let b := mbase m in
  do siz <- meshHashSiz (mdegrmax m);
  do velo <- (match mvnlo m with
              | None => Ok None
              | Some (o, t) => if (vnodbas m <? o) && (0 <? vnodnbr m) then UB else Ok (Some (skipn (Z.to_nat (vnodbas m - o)) t))
              end);
  let emax := 2 * medgenbr m in
  do '(vt, dm, st) <- meshRows m (vnodbas m) (vnodnbr m) (meshStart (siz - 1)) (meshStep b (vnodbas m - b) (siz - 1))
    (repeat 0 (Z.to_nat (vnodnbr m + 1)), 0, mkmst (repeat (-1, -1) (Z.to_nat siz)) (repeat 0 (Z.to_nat emax)) (emax + b) b);
  do vt <- wr b vt (vnodnbr m + b) (mnx st);
  let enbr := mnx st - b in
  Ok (mkgraph b (vnodnbr m) (vnodnbr m + b) vt None velo (mvnlosum m) None None enbr (med st) None enbr dm).

(** mesh_graph.c:290-293 *)
Definition dualStart (msk u : Z) (hs : list (Z * Z * Z)) : res (list (Z * Z * Z)) :=
  wr 0 hs (Z.land (u * 37) msk) (u, u, 0).

(** mesh_graph.c:294: degree of an element, minus one *)
Definition dualDegr (g : graph) (v : Z) : res Z :=
  do hi <- rvend g v;
  do lo <- rvert g v;
  Ok (hi - lo - 1).

(** mesh_graph.c:306-346; [veconbr] is computed again for each arc *)
Definition dualStep (g : graph) (noconbr b adj msk u w : Z) (st : mst (list (Z * Z * Z))) : res (mst (list (Z * Z * Z))) :=
  do du <- dualDegr g u;
  let veconbr := Z.min noconbr du in
  let test n h hs :=
    do hs <- wr 0 hs h (u, w, n);
    let st := mkmst hs (med st) (mnd st) (mnx st) in
    if n <=? 0 then do st <- meshEdgeAdd b (w - adj) st; Ok (inr st) else Ok (inr st) in
  loop (S (length (mhs st))) (fun h =>
    do '(o, t, n) <- rd 0 (mhs st) h;
    if negb (o =? u) then
      do dw <- dualDegr g w;
      test (Z.min veconbr dw - 1) h (mhs st)
    else if t =? w then
      if 0 <? n then test (n - 1) h (mhs st) else Ok (inr st)
    else Ok (inl (Z.land (h + 1) msk))) (Z.land (w * 37) msk).

(** mesh_graph.c:232-368 meshGraphDual *)
Definition meshGraphDual (m : mesh) (noconbr : Z) : res graph :=
  let b := mbase m in
  do siz <- meshHashSiz (mdegrmax m);
  let emax := 2 * medgenbr m in
  do '(vt, dm, st) <- meshRows m (velmbas m) (velmnbr m) (dualStart (siz - 1)) (dualStep (mgraph m) noconbr b (velmbas m - b) (siz - 1))
    (repeat 0 (Z.to_nat (velmnbr m + 1)), 0, mkmst (repeat (-1, -1, -1) (Z.to_nat siz)) (repeat 0 (Z.to_nat emax)) (emax + b) b);
  do vt <- wr b vt (velmnbr m + b) (mnx st);
  let enbr := mnx st - b in
  Ok (mkgraph b (velmnbr m) (velmnbr m + b) vt None None (mvelosum m) None None enbr (med st) None enbr dm).
