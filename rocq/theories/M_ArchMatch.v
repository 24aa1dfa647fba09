(** Model of the matching routines of target architectures (arch_hcub.c, arch_mesh.c,
    arch_tleaf.c; that of arch_cmplt.c is in M_Arch.v).  The multinode array is a list of
    pairs; cells hold no meaning before they are written.  Allocation succeeds; products
    of Anum are not bounded. *)
From Verif Require Import Base M_Arch.

Notation multi := (list (Z * Z)).
Definition mult0 (n : Z) : multi := repeat (0, 0) (Z.to_nat n).

(** arch_hcub.c:151-168; state: multtab, vertnbr *)
Definition archHcubMatchInit (n : Z) : res (multi * Z) :=
  do v <- shl1 n;
  Ok (mult0 (Z.shiftr v 1), v).
(** arch_hcub.c:189-213; [Err (-1)] is the negative return value *)
Definition archHcubMatchMate (st : multi * Z) : res (Z * (multi * Z)) :=
  let '(mt, vertnbr) := st in
  let coarvertnbr := Z.shiftr vertnbr 1 in
  if coarvertnbr <=? 0 then Err (-1) else
  do '(mt, _) <- for_ 0 coarvertnbr (fun i '(mt, f) => do mt <- wr 0 mt i (f, f + 1); Ok (mt, f + 2)) (mt, 0);
  Ok (coarvertnbr, (mt, coarvertnbr)).

(** arch_tleaf.c:229-260; state: multtab, passnum, levlnum, levlsiz, vertnbr *)
Record tmatch := mktm { tm_mt : multi; tm_pass : Z; tm_levl : Z; tm_siz : Z; tm_vert : Z }.
Definition archTleafMatchInit (a : tleaf) : res tmatch :=
  let nnd := t_levlnbr a - 1 in
  do vertnbr <- for_ 0 nnd (fun k s => do z <- rd 0 (t_size a) k; Ok (s * z)) 1;
  do z <- rd 0 (t_size a) nnd;
  Ok (mktm (mult0 (vertnbr * Z.shiftr (z + 1) 1)) 0 nnd z (vertnbr * z)).
(** arch_tleaf.c:297-308: change of level; state: passnum, levlnum, levlsiz *)
Definition tleafLevel (a : tleaf) (st : Z * Z * Z) : res (Z * Z * Z) :=
  loop (S (S (length (t_size a)))) (fun '(pass, levl, siz) =>
    if siz =? 1 then
      let levl := levl - 1 in
      if levl <? 0 then Err (-1) else
      do siz <- rd 0 (t_size a) levl;
      Ok (inl (0, levl, siz))
    else Ok (inr (pass, levl, siz))) st.
(** arch_tleaf.c:281-355 *)
Definition archTleafMatchMate (a : tleaf) (st : tmatch) : res (Z * tmatch) :=
  do '(pass, levl, siz) <- tleafLevel a (tm_pass st, tm_levl st, tm_siz st);
  let bloknbr := Z.quot (tm_vert st) siz in
  let '(mpass, pass) := if negb (Z.land siz 1 =? 0) then (Z.lxor pass 1, Z.lxor pass 1) else (pass, -1) in
  let bloksiz := Z.shiftr siz 1 in
  let siz := Z.shiftr (siz + 1) 1 in
  do '(mt, f, c) <- for_ 0 bloknbr (fun _ '(mt, f, c) =>
    do '(mt, f, c) <- (if pass =? 0 then do mt <- wr 0 mt c (f, f); Ok (mt, f + 1, c + 1) else Ok (mt, f, c));
    do '(mt, f, c) <- for_ 0 bloksiz (fun _ '(mt, f, c) => do mt <- wr 0 mt c (f, f + 1); Ok (mt, f + 2, c + 1)) (mt, f, c);
    if pass =? 1 then do mt <- wr 0 mt c (f, f); Ok (mt, f + 1, c + 1) else Ok (mt, f, c)) (tm_mt st, 0, 0);
  Ok (c, mktm mt mpass levl siz (siz * bloknbr)).

(** arch_mesh.c:704-732; state: multtab, dimnnum, dimntab, passtab *)
Record xmatch := mkxm { xm_mt : multi; xm_num : Z; xm_dim : list Z; xm_pass : list Z }.
Definition archMeshXMatchInit (c : list Z) : res xmatch :=
  do d0 <- rd 0 c 0;
  do multnbr <- for_ 1 (zlen c) (fun k s => do z <- rd 0 c k; Ok (s * z)) (Z.shiftr (d0 + 1) 1);
  Ok (mkxm (mult0 multnbr) 0 c (repeat 0 (length c))).
(** arch_mesh.c:776-780: dimension to coarsen *)
Definition meshMatchDim (st : xmatch) : res Z :=
  let n := zlen (xm_dim st) in
  if n =? 0 then UB else
  let tmp := Z.rem (xm_num st + n - 1) n in
  loop (S (length (xm_dim st))) (fun k =>
    do d <- rd 0 (xm_dim st) k;
    if d <=? 1 then if k =? tmp then Err (-1) else Ok (inl (Z.rem (k + 1) n)) else Ok (inr k)) (xm_num st).
(** arch_mesh.c:753-833 *)
Definition archMeshXMatchMate (st : xmatch) : res (Z * xmatch) :=
  let n := zlen (xm_dim st) in
  do k <- meshMatchDim st;
  let num := Z.rem (k + 1) n in
  do dlt <- for_ 0 k (fun i s => do z <- rd 0 (xm_dim st) i; Ok (s * z)) 1;
  do nbr <- for_ k n (fun i s => do z <- rd 0 (xm_dim st) i; Ok (s * z)) dlt;
  do indxnbr <- rd 0 (xm_dim st) k;
  do dim <- wr 0 (xm_dim st) k (Z.shiftr (indxnbr + 1) 1);
  do '(pt, pass, ival) <- (if negb (Z.land indxnbr 1 =? 0) then
      do p <- rd 0 (xm_pass st) k;
      let p := Z.lxor p 1 in
      do pt <- wr 0 (xm_pass st) k p;
      Ok (pt, p, if negb (p =? 0) then 0 else indxnbr - 1)
    else Ok (xm_pass st, 0, -1));
  do '(mt, c, _, _) <- for_ 0 nbr (fun f '(mt, c, indx, tmp) =>
    do '(mt, c) <- (if indx =? ival then do mt <- wr 0 mt c (f, f); Ok (mt, c + 1)
                    else if Z.land indx 1 =? pass then do mt <- wr 0 mt c (f, f + dlt); Ok (mt, c + 1)
                    else Ok (mt, c));
    if f =? tmp then if indxnbr =? 0 then UB else Ok (mt, c, Z.rem (indx + 1) indxnbr, tmp + dlt)
    else Ok (mt, c, indx, tmp)) (xm_mt st, 0, 0, dlt - 1);
  Ok (c, mkxm mt num dim pt).
