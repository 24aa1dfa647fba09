(** Model of vertex-separated graphs: vgraph.h, vgraph.c, vgraph_check.c,
    vgraph_store.c, vgraph_separate_th.c. *)
From Verif Require Import Base Mem M_Graph.

(** vgraph.h:74-85.  The part array is a list of byte values.  Level number and
    context are not modelled. *)
Record vgraph := mkvgraph {
  vs : graph; vpart : list Z; vfron : list Z; vfronnbr : Z;
  vcsz0 : Z; vcsz1 : Z; vcld0 : Z; vcld1 : Z; vcld2 : Z; vdlt : Z; vdw0 : Z; vdw1 : Z }.

Definition rpart (g : vgraph) (v : Z) : res Z := rd (baseval (vs g)) (vpart g) v.
Definition rvelo (s : graph) (v : Z) : res Z :=
  match velotab s with None => Ok 1 | Some t => rd (baseval s) t v end.

(** [tab[p] += x] on an array of three cells *)
Definition add3 (p x : Z) (t : Z * Z * Z) : res (Z * Z * Z) :=
  let '(a, b, c) := t in
  if p =? 0 then Ok (a + x, b, c) else if p =? 1 then Ok (a, b + x, c) else if p =? 2 then Ok (a, b, c + x) else UB.
Definition get3 (p : Z) (t : Z * Z * Z) : res Z :=
  let '(a, b, c) := t in
  if p =? 0 then Ok a else if p =? 1 then Ok b else if p =? 2 then Ok c else UB.

(** vgraph_check.c:138-148 *)
Definition vcheckArcs (g : vgraph) (lo hi : Z) : res (Z * Z * Z) :=
  for_ lo hi (fun e cut =>
    do w <- redge (vs g) e;
    if (w <? baseval (vs g)) || (vertnnd (vs g) <=? w) then Err 1 else
    do p <- rpart g w; add3 p 1 cut) (0, 0, 0).

(** vgraph_check.c:121-167; state: loads, sizes.  Sums are not bounded. *)
Definition vcheckVert (g : vgraph) (v : Z) (st : (Z * Z * Z) * (Z * Z * Z)) : res ((Z * Z * Z) * (Z * Z * Z)) :=
  let '(ld, sz) := st in
  do p <- rpart g v;
  do l <- rvelo (vs g) v;
  do ld <- add3 p l ld;
  do sz <- add3 p 1 sz;
  do lo <- rvert (vs g) v;
  do hi <- rvend (vs g) v;
  if (lo <? baseval (vs g)) || (hi <? lo) then Err 1 else
  do cut <- vcheckArcs g lo hi;
  if negb (p =? 2) then
    do c <- get3 (1 - p) cut;
    if negb (c =? 0) then Err 1 else Ok (ld, sz)
  else Ok (ld, sz).

(** vgraph_check.c:79-187 *)
Definition vgraphCheck (g : vgraph) : res unit :=
  let s := vs g in
  do _ <- for_ (baseval s) (vertnnd s) (fun v u => do p <- rpart g v; if 2 <? p then Err 1 else Ok u) tt;
  if (vfronnbr g <? 0) || (vertnbr s <? vfronnbr g) then Err 1 else
  do _ <- for_ 0 (vfronnbr g) (fun i u =>
    do v <- rd 0 (vfron g) i;
    if (v <? baseval s) || (vertnnd s <=? v) then Err 1 else
    do p <- rpart g v;
    if negb (p =? 2) then Err 1 else Ok u) tt;
  do '((l0, l1, l2), (s0, s1, s2)) <- for_ (baseval s) (vertnnd s) (vcheckVert g) ((0, 0, 0), (0, 0, 0));
  if negb (vcsz0 g =? s0) || negb (vcsz1 g =? s1) || negb (vfronnbr g =? s2) then Err 1 else
  if negb (vcld0 g =? l0) || negb (vcld1 g =? l1) || negb (vcld2 g =? l2) then Err 1 else
  if negb (vdlt g =? vcld0 g * vdw1 g - vcld1 g * vdw0 g) then Err 1 else
  Ok tt.

(** [memset] of [n] cells from index [i] *)
Definition memst {A} (b : Z) (a : list A) (i n : Z) (x : A) : res (list A) :=
  for_ i (i + n) (fun k a => wr b a k x) a.

(** vgraph.c:98-111 *)
Definition vgraphZero (g : vgraph) : res vgraph :=
  let s := vs g in
  do pt <- memst (baseval s) (vpart g) (baseval s) (vertnbr s) 0;
  Ok (mkvgraph s pt (vfron g) 0 (vertnbr s) 0 (velosum s) 0 0 (velosum s * vdw1 g) (vdw0 g) (vdw1 g)).

(** vgraph_separate_th.c:88-113; state: part array, frontier array, number of
    frontier vertices, current index, loads and sizes of the two parts *)
Definition thLoop (g : vgraph) : res (list Z * list Z * Z * (Z * Z * Z * Z)) :=
  let s := vs g in let b := baseval s in
  loop (S (Z.to_nat (vfronnbr g))) (fun '(pt, fr, nbr, i, (l0, l1, s0, s1)) =>
    if i <? nbr then
      do v <- rd 0 fr i;
      do lo <- rvert s v;
      do hi <- rvend s v;
      do '(c0, c1, c2) <- for_ lo hi (fun e cut => do w <- redge s e; do p <- rd b pt w; add3 p 1 cut) (0, 0, 0);
      if c0 =? 0 then
        do pt <- wr b pt v 1;
        do l <- rvelo s v;
        do x <- rd 0 fr (nbr - 1);
        do fr <- wr 0 fr i x;
        Ok (inl (pt, fr, nbr - 1, i, (l0, l1 + l, s0, s1 + 1)))
      else if c1 =? 0 then
        do pt <- wr b pt v 0;
        do l <- rvelo s v;
        do x <- rd 0 fr (nbr - 1);
        do fr <- wr 0 fr i x;
        Ok (inl (pt, fr, nbr - 1, i, (l0 + l, l1, s0 + 1, s1)))
      else Ok (inl (pt, fr, nbr, i + 1, (l0, l1, s0, s1)))
    else Ok (inr (pt, fr, nbr, (l0, l1, s0, s1))))
    (vpart g, vfron g, vfronnbr g, 0, (vcld0 g, vcld1 g, vcsz0 g, vcsz1 g)).

(** vgraph_separate_th.c:73-119 *)
Definition vgraphSeparateTh (g : vgraph) : res vgraph :=
  do '(pt, fr, nbr, (l0, l1, s0, s1)) <- thLoop g;
  Ok (mkvgraph (vs g) pt fr nbr s0 s1 l0 l1 (velosum (vs g) - (l0 + l1)) (l0 * vdw1 g - l1 * vdw0 g) (vdw0 g) (vdw1 g)).

(** ** Save structures.  The data area holds bytes: the [i]-th byte of a Gnum, or
    a part value. *)
Inductive frag : Set := FGnum (z i : Z) | FByte (p : Z) | FJunk.
Global Instance dflt_frag : Dflt frag := FJunk.
Definition frag_eqb (a b : frag) : bool :=
  match a, b with FGnum z i, FGnum z' i' => (z =? z') && (i =? i') | FByte p, FByte q => p =? q | _, _ => false end.

(** Representation of arrays as bytes; [gs] is sizeof (Gnum). *)
Definition gbytes (gs : Z) (l : list Z) : list frag := flat_map (fun z => map (FGnum z) (zseq 0 gs)) l.
Definition pbytes (l : list Z) : list frag := map FByte l.
(** Reading them back *)
Definition gnumAt (gs : Z) (d : list frag) (o : Z) : res Z :=
  do x <- rd 0 d o;
  match x with
  | FGnum z 0 => do _ <- for_ 0 gs (fun i u => do y <- rd 0 d (o + i); if frag_eqb y (FGnum z i) then Ok u else UB) tt; Ok z
  | _ => UB
  end.
Definition partAt (d : list frag) (o : Z) : res Z :=
  do x <- rd 0 d o; match x with FByte p => Ok p | _ => UB end.

(** vgraph.h:89-95 *)
Record vstore := mkvstore { st_fronnbr : Z; st_dlt : Z; st_cld0 : Z; st_cld1 : Z; st_csz0 : Z; st_data : list frag }.

(** vgraph_store.c:75-90; allocation succeeds (with undefined contents) *)
Definition vgraphStoreInit (gs : Z) (g : vgraph) : list frag := repeat FJunk (Z.to_nat (vertnbr (vs g) * (1 + gs))).

(** vgraph_store.c:127-131, bgraph_store.c:129-134: copies of the frontier and part arrays *)
Definition storeSave (gs b n : Z) (part fron : list Z) (fronnbr : Z) (data : list frag) : res (list frag) :=
  do d <- memcp (gbytes gs fron) data 0 0 (fronnbr * gs);
  memcp (pbytes part) d 0 (fronnbr * gs) n.
(** vgraph_store.c:156-160, bgraph_store.c:160-165 *)
Definition storeUpdt (gs b n : Z) (part fron : list Z) (fronnbr : Z) (data : list frag) : res (list Z * list Z) :=
  do fr <- for_ 0 fronnbr (fun i fr => do z <- gnumAt gs data (i * gs); wr 0 fr i z) fron;
  do pt <- for_ 0 n (fun i pt => do p <- partAt data (fronnbr * gs + i); wr b pt (b + i) p) part;
  Ok (pt, fr).

(** vgraph_store.c:113-132 *)
Definition vgraphStoreSave (gs : Z) (g : vgraph) (data : list frag) : res vstore :=
  do d <- storeSave gs (baseval (vs g)) (vertnbr (vs g)) (vpart g) (vfron g) (vfronnbr g) data;
  Ok (mkvstore (vfronnbr g) (vdlt g) (vcld0 g) (vcld1 g) (vcsz0 g) d).
(** vgraph_store.c:140-166 *)
Definition vgraphStoreUpdt (gs : Z) (g : vgraph) (t : vstore) : res vgraph :=
  let s := vs g in
  do '(pt, fr) <- storeUpdt gs (baseval s) (vertnbr s) (vpart g) (vfron g) (st_fronnbr t) (st_data t);
  Ok (mkvgraph s pt fr (st_fronnbr t) (st_csz0 t) (vertnbr s - (st_csz0 t + st_fronnbr t))
        (st_cld0 t) (st_cld1 t) (velosum s - (st_cld0 t + st_cld1 t)) (st_dlt t) (vdw0 g) (vdw1 g)).
