(** Model of bipartitioned graphs: bgraph.h, bgraph.c, bgraph_check.c,
    bgraph_cost.c, bgraph_store.c. *)
From Verif Require Import Base Mem M_Graph M_Vgraph.

(** bgraph.h:91-113.  The part array is a list of byte values.  The imbalance
    ratio bbalval is kept as (numerator, denominator).  Level number and context
    are not modelled; sums are not bounded. *)
Record bgraph := mkbgraph {
  bs : graph; bveex : option (list Z); bpart : list Z; bfron : list Z; bfronnbr : Z;
  bmin : Z; bmax : Z; bavg : Z; bdlt : Z; bld0 : Z; bsz0 : Z;
  bcml : Z; bcmle0 : Z; bcmge0 : Z; bcmge : Z; bbal : Z * Z;
  bdist : Z; bwg0 : Z; bwg1 : Z; bfx0 : Z; bfx1 : Z }.

(** The rounding of (sum * wght0) / (wght0 + wght1) from double to Gnum, as
    written in bgraph.c:159 and bgraph_check.c:98-99, is an arbitrary function
    [avg] of the three operands. *)
Definition bgraphAvg (avg : Z -> Z -> Z -> Z) (s : graph) (w0 w1 f0 f1 : Z) : Z := avg (velosum s + f0 + f1) w0 (w0 + w1) - f0.

(** bgraph_cost.c:127-137: arcs of a vertex of part [p]; state: cut load, frontier flag *)
Definition costArcs (s : graph) (pt : list Z) (p lo hi : Z) (st : Z * Z) : res (Z * Z) :=
  for_ lo hi (fun e '(cml, f) =>
    do l <- (match edlotab s with None => Ok 1 | Some t => rd (baseval s) t e end);
    do w <- redge s e;
    do q <- rd (baseval s) pt w;
    let d := Z.lxor p q in
    Ok (cml + Z.land l (- d), Z.lor f d)) st.

(** Results of bgraphCost2: frontier array (if wanted) and size, load and size
    of part 1, internal load, external load, external gain *)
Record bcost := mkbcost { k_fron : option (list Z); k_nbr : Z; k_ld1 : Z; k_sz1 : Z; k_int : Z; k_ext : Z; k_gain : Z }.

(** bgraph_cost.c:102-141 *)
Definition costVert (g : bgraph) (pt : list Z) (v : Z) (k : bcost) : res bcost :=
  let s := bs g in
  do p <- rd (baseval s) pt v;
  let msk := - p in
  do l <- rvelo s v;
  do '(ext, gain) <- (match bveex g with
    | None => Ok (k_ext k, k_gain k)
    | Some t => do x <- rd (baseval s) t v; Ok (k_ext k + Z.land x msk, k_gain k + x * (1 - 2 * p))
    end);
  do lo <- rvert s v;
  do hi <- rvend s v;
  do '(cml, f) <- costArcs s pt p lo hi (k_int k, 0);
  do '(fr, nbr) <- (match k_fron k with
    | Some fr => if negb (f =? 0) then do fr <- wr 0 fr (k_nbr k) v; Ok (Some fr, k_nbr k + 1) else Ok (Some fr, k_nbr k)
    | None => Ok (None, k_nbr k)
    end);
  Ok (mkbcost fr nbr (k_ld1 k + Z.land l msk) (k_sz1 k + p) cml ext gain).

(** bgraph_cost.c:69-150; [fron] is the frontier array to fill, if any *)
Definition bgraphCost2 (g : bgraph) (pt : list Z) (fron : option (list Z)) : res bcost :=
  do k <- for_ (baseval (bs g)) (vertnnd (bs g)) (costVert g pt) (mkbcost fron 0 0 0 0 (bcmle0 g) 0);
  Ok (mkbcost (k_fron k) (k_nbr k) (k_ld1 k) (k_sz1 k) (Z.quot (k_int k) 2) (k_ext k) (k_gain k)).

(** bgraph_cost.c:158-176 *)
Definition bgraphCost (g : bgraph) : res bgraph :=
  do k <- bgraphCost2 g (bpart g) (Some (bfron g));
  match k_fron k with
  | None => UB
  | Some fr =>
      let ld0 := velosum (bs g) - k_ld1 k in
      Ok (mkbgraph (bs g) (bveex g) (bpart g) fr (k_nbr k) (bmin g) (bmax g) (bavg g) (ld0 - bavg g) ld0 (vertnbr (bs g) - k_sz1 k)
           (k_int k * bdist g + k_ext k) (bcmle0 g) (bcmge0 g) (k_gain k) (bbal g) (bdist g) (bwg0 g) (bwg1 g) (bfx0 g) (bfx1 g))
  end.

(** bgraph_check.c:148-150, 165-167 *)
Definition checkFlag (s : graph) (pt : list Z) (v : Z) : res Z :=
  do p <- rd (baseval s) pt v;
  do lo <- rvert s v;
  do hi <- rvend s v;
  for_ lo hi (fun e f => do w <- redge s e; do q <- rd (baseval s) pt w; Ok (Z.lor f (Z.lxor q p))) 0.

(** bgraph_check.c:76-201; allocation of the flag array succeeds *)
Definition bgraphCheck (avg : Z -> Z -> Z -> Z) (g : bgraph) : res unit :=
  let s := bs g in let b := baseval s in
  if negb (bavg g =? bgraphAvg avg s (bwg0 g) (bwg1 g) (bfx0 g) (bfx1 g)) then Err 1 else
  if negb (bld0 g =? bavg g + bdlt g) then Err 1 else
  do _ <- for_ b (vertnnd s) (fun v u => do p <- rd b (bpart g) v; if negb (Z.lor p 1 =? 1) then Err 1 else Ok u) tt;
  if (bfronnbr g <? 0) || (vertnbr s <? bfronnbr g) then Err 1 else
  do flg <- for_ 0 (bfronnbr g) (fun i flg =>
    do v <- rd 0 (bfron g) i;
    if (v <? b) || (vertnnd s <=? v) then Err 1 else
    do x <- rd b flg v;
    if negb (x =? -1) then Err 1 else
    do flg <- wr b flg v 0;
    do f <- checkFlag s (bpart g) v;
    if f =? 0 then Err 1 else Ok flg) (repeat (-1) (Z.to_nat (vertnbr s)));
  do _ <- for_ b (vertnnd s) (fun v u =>
    do f <- checkFlag s (bpart g) v;
    do x <- (if negb (f =? 0) then rd b flg v else Ok 0);
    if negb (x =? 0) then Err 1 else Ok u) tt;
  do k <- bgraphCost2 g (bpart g) None;
  if negb (vertnbr s - k_sz1 k =? bsz0 g) then Err 1 else
  if negb (velosum s - k_ld1 k =? bld0 g) then Err 1 else
  if negb (k_int k * bdist g + k_ext k =? bcml g) then Err 1 else
  if negb (k_gain k =? bcmge g) then Err 1 else
  Ok tt.

(** bgraph.c:147-176 *)
Definition bgraphInit2 (avg : Z -> Z -> Z -> Z) (g : bgraph) (dist w0 w1 f0 f1 : Z) : res bgraph :=
  let s := bs g in
  let av := bgraphAvg avg s w0 w1 f0 f1 in
  do pt <- memst (baseval s) (bpart g) (baseval s) (vertnbr s) 0;
  Ok (mkbgraph s (bveex g) pt (bfron g) 0 0 (velosum s) av (velosum s - av) (velosum s) (vertnbr s) 0 0 0 0 (velosum s - av, av) dist w0 w1 f0 f1).

(** bgraph.c:212-231 *)
Definition bgraphSwal (g : bgraph) : res bgraph :=
  let s := bs g in
  do pt <- for_ (baseval s) (vertnnd s) (fun v pt => do p <- rd (baseval s) pt v; wr (baseval s) pt v (Z.lxor p 1)) (bpart g);
  let sum := velosum s + bfx0 g + bfx1 g in
  Ok (mkbgraph s (bveex g) pt (bfron g) (bfronnbr g) (bmin g) (bmax g) (bavg g) (sum - bdlt g - 2 * bavg g) (sum - bld0 g) (vertnbr s - bsz0 g)
       (bcml g + bcmge g) (bcmle0 g) (bcmge0 g) (- bcmge g) (bbal g) (bdist g) (bwg0 g) (bwg1 g) (bfx0 g) (bfx1 g)).

(** bgraph.c:240-256 *)
Definition bgraphZero (g : bgraph) : res bgraph :=
  let s := bs g in
  let ld0 := velosum s + bfx0 g in
  do pt <- memst (baseval s) (bpart g) (baseval s) (vertnbr s) 0;
  Ok (mkbgraph s (bveex g) pt (bfron g) 0 (bmin g) (bmax g) (bavg g) (ld0 - bavg g) ld0 (vertnbr s)
       (bcmle0 g) (bcmle0 g) (bcmge0 g) (bcmge0 g) (ld0 - bavg g, bavg g) (bdist g) (bwg0 g) (bwg1 g) (bfx0 g) (bfx1 g)).

(** bgraph.h:117-124 *)
Record bstore := mkbstore { bt_fronnbr : Z; bt_dlt : Z; bt_sz0 : Z; bt_cml : Z; bt_cmge : Z; bt_data : list frag }.
(** bgraph_store.c:76-91; allocation succeeds (with undefined contents) *)
Definition bgraphStoreInit (gs : Z) (g : bgraph) : list frag := repeat FJunk (Z.to_nat ((vertnnd (bs g) - baseval (bs g)) * (1 + gs))).
(** bgraph_store.c:114-135 *)
Definition bgraphStoreSave (gs : Z) (g : bgraph) (data : list frag) : res bstore :=
  let s := bs g in
  do d <- storeSave gs (baseval s) (vertnnd s - baseval s) (bpart g) (bfron g) (bfronnbr g) data;
  Ok (mkbstore (bfronnbr g) (bdlt g) (bsz0 g) (bcml g) (bcmge g) d).
(** bgraph_store.c:143-171 *)
Definition bgraphStoreUpdt (gs : Z) (g : bgraph) (t : bstore) : res bgraph :=
  let s := bs g in
  do '(pt, fr) <- storeUpdt gs (baseval s) (vertnnd s - baseval s) (bpart g) (bfron g) (bt_fronnbr t) (bt_data t);
  Ok (mkbgraph s (bveex g) pt fr (bt_fronnbr t) (bmin g) (bmax g) (bavg g) (bt_dlt t) (bt_dlt t + bavg g) (bt_sz0 t)
       (bt_cml t) (bcmle0 g) (bcmge0 g) (bt_cmge t) (if bt_dlt t <? 0 then - bt_dlt t else bt_dlt t, bavg g)
       (bdist g) (bwg0 g) (bwg1 g) (bfx0 g) (bfx1 g)).
