(** Model of block splitting: hgraph_order_bl.c.  Memory is supposed to be available. *)
From Verif Require Import Base M_Int M_Graph M_Hgraph M_Order M_HgraphOrder.

(** hgraph_order_bl.c:119-128: blocks of a graph without vertex loads *)
Definition blEven (vnlosum cblknbr cblksiz : Z) : list cblk :=
  map (fun i => leaf (datasize vnlosum cblknbr i)) (zseq 0 cblksiz).

(** 150-159: next bound which is higher than the load [lo] of the blocks made so far, and its index *)
Definition blBound (vnlosum cblknbr lo idx : Z) : res (Z * Z) :=
  loop (S (S (Z.to_nat cblknbr))) (fun idx =>
    let mx := datascan vnlosum cblknbr (idx + 1) in
    if mx <=? lo then Ok (inl (idx + 1)) else Ok (inr (idx + 1, mx))) idx.
(** 161-164: vertices are added to the block, from position [k] of the inverse permutation, until the bound is reached *)
Definition blFill (fuel : nat) (b : Z) (velo peri : list Z) (mx lo k : Z) : res (Z * Z) :=
  loop fuel (fun '(lo, k) =>
    do x <- rd 0 peri k;
    do l <- rd b velo x;
    if lo + l <? mx then Ok (inl (lo + l, k + 1)) else Ok (inr (lo + l, k + 1))) (lo, k).
(** 129-175: blocks of a graph with vertex loads; state: load of the blocks, number of their vertices, index of the last
    bound, blocks.  The debug checks (144-149, 152-157) are not compiled: a block in excess is a write past the array. *)
Definition blLoads (h : hgraph) (velo peri : list Z) (cblknbr cblksiz : Z) : res (list cblk) :=
  loop (S (length peri)) (fun '(lo, k, idx, l) =>
    do '(idx, mx) <- blBound (vnlosum h) cblknbr lo idx;
    do '(lo, k') <- blFill (S (length peri)) (baseval (hs h)) velo peri mx lo k;
    if cblksiz <=? zlen l then UB else
    let l := l ++ [leaf (k' - k)] in
    if lo <? vnlosum h then Ok (inl (lo, k', idx, l)) else Ok (inr l)) (0, 0, 0, []).

(** 80-198; [sub] is hgraphOrderSt for the strategy of the method.  The sons of a block are as many as is recorded. *)
Fixpoint hgraphOrderBl (fuel : nat) (blkmin : Z) (sub : ometh) (h : hgraph) (st : ost) (o : Z) (cb : cblk) : res (Z * ost * cblk) :=
  match fuel with
  | O => Fuel
  | S fuel =>
    if blkmin <=? 0 then Ok (1, st, cb) else
    do '(rc, st, cb) <- sub h st o cb;
    if negb (rc =? 0) then Ok (1, st, cb) else
    match c_tab cb with
    | None =>
        if (c_vnod cb <=? 1) || (vnlosum h <? 2 * blkmin) then Ok (0, st, cb) else
        let cblknbr := Z.quot (vnlosum h) blkmin in
        let cblksiz := Z.min cblknbr (vnohnbr h) in
        do '(l, k) <- (match velotab (hs h) with
          | None => Ok (blEven (vnlosum h) cblknbr cblksiz, cblknbr)
          | Some velo => do l <- blLoads h velo (os_peri st) cblknbr cblksiz; Ok (l, zlen l)
          end);
        Ok (0, mkost (os_peri st) (os_cblk st + k - 1) (os_tree st + k), Cblk ORDERCBLKSEQU (c_vnod cb) k (Some l))
    | Some sons =>
        (fix go (bef aft : list cblk) (st : ost) : res (Z * ost * cblk) :=
          match aft with
          | [] => Ok (0, st, Cblk (c_typ cb) (c_vnod cb) (c_nbr cb) (Some bef))
          | c :: aft =>
              do '(rc, st, c) <- hgraphOrderBl fuel blkmin sub h st o c;
              if negb (rc =? 0) then Ok (1, st, Cblk (c_typ cb) (c_vnod cb) (c_nbr cb) (Some (bef ++ c :: aft))) else
              go (bef ++ [c]) aft st
          end) [] sons st
    end
  end.
