(** Model of the graph and vertex list files: graph_io.c, graph_list.c. *)
From Verif Require Import Base M_Int M_Graph M_Sort.

(** A failed read (return value of intLoad other than 1) makes the callers
    return 1; a number which does not fit is undefined (signed overflow). *)
Definition ild (imax : Z) (s : stream) : res (Z * stream) :=
  match intLoad imax s with Ok x => Ok x | Err _ => Err 1 | UB => UB | Fuel => Fuel end.

(** Arrays filled in increasing order are modelled by the list of the cells
    written so far; writing past the allocated size [n] is undefined. *)
Definition push {A} (n : Z) (l : list A) (x : A) : res (list A) := if zlen l <? n then Ok (l ++ [x]) else UB.
Definition pusho (n : Z) (o : option (list Z)) (x : Z) : res (option (list Z)) :=
  match o with None => Ok None | Some l => do l <- push n l x; Ok (Some l) end.

(** graph_io.c:282-330 graphLoad2, on a compact graph: [vt] is the vertex
    array, [et] the edge array.  Allocation fails for negative sizes only. *)
Definition graphLoad2 (imax b nnd : Z) (vt et : list Z) (vlblmax : Z) (lb : list Z) : res (list Z) :=
  do siz <- ckint imax (vlblmax + 1);
  if siz <? 0 then Err 1 else
  do indx <- for_ b nnd (fun v indx =>
    do l <- rd b lb v;
    do x <- rd 0 indx l;
    if negb (x =? -1) then Err 1 else
    wr 0 indx l v) (repeat (-1) (Z.to_nat siz));
  for_ b nnd (fun v et =>
    do lo <- rd b vt v;
    do hi <- rd b vt (v + 1);
    for_ lo hi (fun e et =>
      do w <- rd b et e;
      if vlblmax <? w then Err 1 else
      do x <- rd 0 indx w;
      if x =? -1 then Err 1 else
      wr b et e x) et) et.

(** State of the vertex loop, graph_io.c:188-251 *)
Record ldst := mkld {
  ls : stream; lvt : list Z; lve : option (list Z); lvl : option (list Z);
  lenum : Z; let_ : list Z; lel : option (list Z);
  lvsum : Z; lesum : Z; ldmax : Z; llmax : Z }.

(** graph_io.c:231-250, one arc; [pe]: edge loads in the file *)
Definition loadArc (imax edgenbr adj : Z) (pe : bool) (st : stream * list Z * option (list Z) * Z) : res (stream * list Z * option (list Z) * Z) :=
  let '(s, et, el, esum) := st in
  do '(s, el, esum) <- (if pe then
      do '(x, s) <- ild imax s;
      match el with
      | Some l => do l <- push edgenbr l x; Ok (s, Some l, esum + x)
      | None => Ok (s, None, esum)
      end
    else Ok (s, el, esum));
  do '(w, s) <- ild imax s;
  do et <- push edgenbr et (w + adj);
  Ok (s, et, el, esum).

(** graph_io.c:188-251, one vertex; [pv]: vertex loads in the file.  Additions
    of Gnum values are not bounded, except for the size of the label table. *)
Definition loadVert (imax vertnbr edgenbr edgennd adj : Z) (pv pe : bool) (st : ldst) : res ldst :=
  do '(s, vl, lmax) <- (match lvl st with
      | Some l => do '(x, s) <- ild imax (ls st); do l <- push vertnbr l x; Ok (s, Some l, if llmax st <? x then x else llmax st)
      | None => Ok (ls st, None, llmax st)
      end);
  do '(s, ve, vsum) <- (if pv then
      do '(x, s) <- ild imax s;
      match lve st with
      | Some l => do l <- push vertnbr l x; Ok (s, Some l, lvsum st + x)
      | None => Ok (s, None, lvsum st)
      end
    else Ok (s, lve st, lvsum st));
  do '(degrval, s) <- ild imax s;
  let dmax := if ldmax st <? degrval then degrval else ldmax st in
  do vt <- push (vertnbr + 1) (lvt st) (lenum st);
  let hi := degrval + lenum st in
  if edgennd <? hi then Err 1 else
  do '(s, et, el, esum) <- for_ (lenum st) hi (fun _ => loadArc imax edgenbr adj pe) (s, let_ st, lel st, lesum st);
  Ok (mkld s vt ve vl (Z.max (lenum st) hi) et el vsum esum dmax lmax).

(** graph_io.c:88-280 graphLoad; [nv], [ne]: flags GRAPHIONOLOADVERT and
    GRAPHIONOLOADEDGE.  Allocation succeeds.  The check at 271-277 is compiled
    in debug mode only. *)
Definition graphLoad (imax : Z) (s : stream) (bv : Z) (nv ne : bool) : res (graph * stream) :=
  do '(vers, s) <- ild imax s;
  if negb (vers =? 0) then Err 1 else
  do '(n, s) <- ild imax s;
  do '(m, s) <- ild imax s;
  do '(fb, s) <- ild imax s;
  do '(prop, s) <- ild imax s;
  if (prop <? 0) || (111 <? prop) then Err 1 else
  if n <? 0 then Err 1 else
  if (m <? 0) || negb (Z.land m 1 =? 0) then Err 1 else
  (* 140-143: the three digits of the property number *)
  let p0 := negb (prop / 100 =? 0) in
  let p1 := negb (prop / 10 mod 10 =? 0) in
  let p2 := negb (prop mod 10 =? 0) in
  let b := if bv =? -1 then fb else bv in
  let adj := if p0 then 0 else if bv =? -1 then 0 else bv - fb in
  let velosiz := if p2 && negb nv then n else 0 in
  let vlblsiz := if p0 then n else 0 in
  let edlosiz := if p1 && negb ne then m else 0 in
  let opt (siz : Z) : option (list Z) := if siz =? 0 then None else Some [] in
  let nnd := n + b in
  let st := mkld s [] (opt velosiz) (opt vlblsiz) b [] (opt edlosiz)
                 (if velosiz =? 0 then n else 0) (if edlosiz =? 0 then m else 0) 0 (nnd - 1) in
  do st <- for_ b nnd (fun _ => loadVert imax n m (m + b) adj p2 p1) st;
  do vt <- push (n + 1) (lvt st) (lenum st);
  if negb (lenum st =? m + b) then Err 1 else
  do et <- (match lvl st with
    | Some lb => graphLoad2 imax b nnd vt (let_ st) (llmax st) lb
    | None => Ok (let_ st)
    end);
  Ok (mkgraph b n nnd vt None (lve st) (lvsum st) None (lvl st) m et (lel st) (lesum st) (ldmax st), ls st).

(** graph_io.c:340-391 graphSave; output errors are not modelled *)
Definition isome {A} (o : option A) : bool := match o with Some _ => true | None => false end.
Definition graphSave (g : graph) : res (list Z) :=
  let hdr := [48; 10] ++ intSave (vertnbr g) ++ [9] ++ intSave (edgenbr g) ++ [10] ++ intSave (baseval g) ++ [9] ++
             [48 + b2z (isome (vlbltab g)); 48 + b2z (isome (edlotab g)); 48 + b2z (isome (velotab g)); 10] in
  for_ (baseval g) (vertnnd g) (fun v out =>
    do out <- (match vlbltab g with Some t => do x <- rd (baseval g) t v; Ok (out ++ intSave x ++ [9]) | None => Ok out end);
    do out <- (match velotab g with Some t => do x <- rd (baseval g) t v; Ok (out ++ intSave x ++ [9]) | None => Ok out end);
    do lo <- rvert g v;
    do hi <- rvend g v;
    do out <- for_ lo hi (fun e out =>
      do out <- (match edlotab g with Some t => do x <- rd (baseval g) t e; Ok (out ++ [9] ++ intSave x ++ [9]) | None => Ok (out ++ [9]) end);
      do w <- redge g e;
      do x <- (match vlbltab g with Some t => rd (baseval g) t w | None => Ok w end);
      Ok (out ++ intSave x)) (out ++ intSave (hi - lo));
    Ok (out ++ [10])) hdr.

(** ** Vertex lists.  [None]: null array *)
Record vlist := mkvl { vl_nbr : Z; vl_tab : option (list Z) }.

(** graph_list.c:116-134 listAlloc, 142-153 listFree; [junk n] gives the
    contents of an allocated array of [n] cells *)
Definition listAlloc (junk : Z -> list Z) (l : vlist) (n : Z) : vlist :=
  if n =? vl_nbr l then l else
  if 0 <? n then mkvl n (Some (junk n)) else mkvl 0 None.

Definition tabof (l : vlist) : res (list Z) := match vl_tab l with Some t => Ok t | None => UB end.

(** graph_list.c:164-198 listLoad *)
Definition listLoad (imax stksiz : Z) (junk : Z -> list Z) (l : vlist) (s : stream) : res (vlist * stream) :=
  do '(n, s) <- ild imax s;
  let l := listAlloc junk l n in
  do '(l, s) <- for_ 0 n (fun k '(l, s) =>
    do '(x, s) <- ild imax s;
    do t <- tabof l;
    do t <- wr 0 t k x;
    Ok (mkvl (vl_nbr l) (Some t), s)) (l, s);
  (* 189, 206-211: sort of an empty list does not touch the array *)
  do l <- (match vl_tab l with
    | Some t => do t <- intSort1asc1 stksiz t (vl_nbr l); Ok (mkvl (vl_nbr l) (Some t))
    | None => do _ <- intSort1asc1 stksiz [] (vl_nbr l); Ok l
    end);
  do _ <- for_ 1 n (fun k u =>
    do t <- tabof l;
    do x <- rd 0 t k;
    do y <- rd 0 t (k - 1);
    if x =? y then Err 1 else Ok u) tt;
  Ok (l, s).

(** graph_list.c:220-240 listSave *)
Definition listSave (l : vlist) : res (list Z) :=
  do out <- for_ 0 (vl_nbr l) (fun k out =>
    do t <- tabof l;
    do x <- rd 0 t k;
    Ok (out ++ [if k mod 8 =? 0 then 10 else 9] ++ intSave x)) (intSave (vl_nbr l));
  Ok (out ++ [10]).

(** graph_list.c:249-263 listCopy: copy of the first cells of [src] over those of [dst] *)
Definition listCopy (junk : Z -> list Z) (dst src : vlist) : res vlist :=
  let dst := listAlloc junk dst (vl_nbr dst) in
  if vl_nbr src =? 0 then Ok dst else
  do t <- tabof dst;
  do u <- tabof src;
  if (zlen t <? vl_nbr src) || (zlen u <? vl_nbr src) then UB else
  Ok (mkvl (vl_nbr dst) (Some (firstn (Z.to_nat (vl_nbr src)) u ++ skipn (Z.to_nat (vl_nbr src)) t))).
