(** Model of the refinement of vertex separators by moves (vgraph_separate_fm.c). *)
From Verif Require Import Base M_Graph M_Vgraph M_VgraphSt M_VgraphGg.

(** vgraph_separate_fm.h:100-109: the slots of the hash table.  Simplified: the open addressing hash table, with its
    resizings, is a partial map from vertices to slots: the fields of the slot of a vertex are at the index of the
    vertex; [fx_pt] is -1 if the vertex has no slot, else its part.  [fx_gn] holds the two gains of each vertex.
    [fx_st] is the state (field gainlink0.next): 0 free, 1 used and chained, 2 used, 3 linked in the gain table (an
    address, above 3); [fx_ms] the sweep at which the vertex was recorded.  The list of locked vertices, chained both
    ways through gainlink1, is [fx_lock]; [fx_save] is the move array, last move first.  The gain table, modelled and
    proved on its own, is the set of the vertices of state 3. *)
Record fmst := mkfmst { fx_pt : list Z; fx_gn : list Z; fx_st : list Z; fx_ms : list Z; fx_lock : list Z; fx_save : list (Z * Z * Z * Z) }.
Definition gi (s : graph) (v side : Z) : Z := 2 * (v - baseval s) + side.
Definition setpt (x : fmst) l := mkfmst l (fx_gn x) (fx_st x) (fx_ms x) (fx_lock x) (fx_save x).
Definition setgn (x : fmst) l := mkfmst (fx_pt x) l (fx_st x) (fx_ms x) (fx_lock x) (fx_save x).
Definition setst (x : fmst) l := mkfmst (fx_pt x) (fx_gn x) l (fx_ms x) (fx_lock x) (fx_save x).
Definition setlk (x : fmst) l := mkfmst (fx_pt x) (fx_gn x) (fx_st x) (fx_ms x) l (fx_save x).

(** vgraph_separate_fm.c:403-410, 448-455, 474-481, 515-522: the vertex is recorded once per sweep [mn] *)
Definition fmRec (s : graph) (mn u p a c : Z) (x : fmst) : res fmst :=
  do m <- rd (baseval s) (fx_ms x) u;
  if m =? mn then Ok x else
  do ms <- wr (baseval s) (fx_ms x) u mn;
  Ok (mkfmst (fx_pt x) (fx_gn x) (fx_st x) ms (fx_lock x) ((u, p, a, c) :: fx_save x)).
(** vgraph_separate_fm.c:447-469 and 514-537: a gain of a separator vertex changes *)
Definition fmSep (s : graph) (mn side amt u : Z) (y : fmst * list Z) : res (fmst * list Z) :=
  let '(x, ch) := y in
  do a <- rd 0 (fx_gn x) (gi s u 0);
  do c <- rd 0 (fx_gn x) (gi s u 1);
  do x <- fmRec s mn u 2 a c x;
  do g <- rd 0 (fx_gn x) (gi s u side);
  do gn <- wr 0 (fx_gn x) (gi s u side) (g + amt);
  let x := setgn x gn in
  do t <- rd (baseval s) (fx_st x) u;
  if 3 <=? t then do st <- wr (baseval s) (fx_st x) u 0; Ok (setst x st, u :: ch)
  else if t =? 2 then do st <- wr (baseval s) (fx_st x) u 1; Ok (setst x st, u :: ch)
  else Ok (x, ch).
(** vgraph_separate_fm.c:487-543: arc from a vertex of load [lu], that leaves part 1 - [p] for the separator *)
Definition fmArc2 (s : graph) (mn p lu e : Z) (y : fmst * list Z * Z) : res (fmst * list Z * Z) :=
  let '(x, ch, acc) := y in
  do w <- redge s e;
  do pw <- rd (baseval s) (fx_pt x) w;
  if pw =? 2 then do '(x, ch) <- fmSep s mn p (- lu) w (x, ch); Ok (x, ch, acc)
  else do lw <- rvelo s w; Ok (x, ch, acc + lw).
(** vgraph_separate_fm.c:414-553: arc from a vertex of load [lv], that leaves the separator for part [p] *)
Definition fmArc (s : graph) (part : list Z) (mn p lv e : Z) (y : fmst * list Z) : res (fmst * list Z) :=
  let b := baseval s in let q := 1 - p in
  let '(x, ch) := y in
  do u <- redge s e;
  do pu <- rd b (fx_pt x) u;
  do o <- (if pu =? -1 then                                                  (* 424-445 *)
             do po <- rd b part u;
             if po =? p then Ok None else
             do pt <- wr b (fx_pt x) u q;
             do st <- wr b (fx_st x) u 0;
             Ok (Some (setst (setpt x pt) st, q))
           else Ok (Some (x, pu)));
  match o with
  | None => Ok (x, ch)
  | Some (x, pu) =>
    if pu =? 2 then fmSep s mn q lv u (x, ch)
    else if pu =? q then
      do x <- fmRec s mn u q 0 0 x;
      do lu <- rvelo s u;
      do pt <- wr b (fx_pt x) u 2;
      do gn <- wr 0 (fx_gn x) (gi s u p) (- lu);
      do gn <- wr 0 gn (gi s u q) (- lu + lv);
      do lo <- rvert s u; do hi <- rvend s u;
      do '(x, ch, acc) <- for_ lo hi (fmArc2 s mn p lu) (setgn (setpt x pt) gn, ch, 0);
      do g <- rd 0 (fx_gn x) (gi s u p);
      do gn <- wr 0 (fx_gn x) (gi s u p) (g + acc);
      do t <- rd b (fx_st x) u;
      do st <- (if t =? 2 then wr b (fx_st x) u 1 else Ok (fx_st x));
      Ok (setst (setgn x gn) st, u :: ch)
    else Ok (x, ch)
  end.
(** vgraph_separate_fm.c:567-568, 575-576, gainTablAdd of both links: the vertex must not be in the gain table *)
Definition fmAdd (s : graph) (u : Z) (x : fmst) : res fmst :=
  do t <- rd (baseval s) (fx_st x) u;
  if 3 <=? t then UB else
  do st <- wr (baseval s) (fx_st x) u 3; Ok (setst x st).
(** vgraph_separate_fm.c:556-579: chained vertices go back to the gain table, or stay locked.  Taking a vertex that is not
    there out of the list of locked vertices is undefined. *)
Definition fmRelink (s : graph) (p : Z) : list Z -> fmst -> res fmst := fix fmRelink (ch : list Z) (x : fmst) : res fmst :=
  match ch with
  | nil => Ok x
  | u :: ch =>
    do t <- rd (baseval s) (fx_st x) u;
    do x <- (if t =? 0 then fmAdd s u x else
      do st <- wr (baseval s) (fx_st x) u 2;
      let x := setst x st in
      do g <- rd 0 (fx_gn x) (gi s u p);
      do l <- rvelo s u;
      if g =? - l then
        if in_dec Z.eq_dec u (fx_lock x) then fmAdd s u (setlk x (remove Z.eq_dec u (fx_lock x))) else UB
      else Ok x);
    fmRelink ch x
  end.
(** vgraph_separate_fm.c:391-579: a vertex moves from the separator to part [p]; gives the change of the load of the separator and of the imbalance *)
Definition fmMove (s : graph) (part : list Z) (w0 w1 mn v p : Z) (x : fmst) : res (fmst * Z * Z) :=
  let b := baseval s in
  do t <- rd b (fx_st x) v;
  if negb (3 <=? t) then UB else                                             (* gainTablDel *)
  do st <- wr b (fx_st x) v 1;
  let x := setlk (setst x st) (v :: fx_lock x) in
  do g <- rd 0 (fx_gn x) (gi s v p);
  do lv <- rvelo s v;
  let dlt := (1 - 2 * p) * (g * (if p =? 0 then w0 else w1) + lv * (w0 + w1)) in
  do a <- rd 0 (fx_gn x) (gi s v 0);
  do c <- rd 0 (fx_gn x) (gi s v 1);
  do x <- fmRec s mn v 2 a c x;
  do lo <- rvert s v; do hi <- rvend s v;
  do '(x, ch) <- for_ lo hi (fmArc s part mn p lv) (x, nil);
  do st <- wr b (fx_st x) v 2;
  do pt <- wr b (fx_pt x) v p;
  do x <- fmRelink s p ch (setpt (setst x st) pt);
  Ok (x, g, dlt).

(** vgraph_separate_fm.c:96-144 vgraphSeparateFmTablGet.  [links] are the links in the order in which the gain table gives them, [tb] gives
    the entry of the table for a gain, [gmax] is the largest gain.  The first link of a vertex is told from the second by
    the sign of the integer that follows it, the opposite of the load: for a null load, the routine reads before the slot. *)
Definition fmGet (s : graph) (ab tb : Z -> Z) (gmax w0 w1 : Z) (gn : list Z) (dlt dmax pv : Z) : option (Z * Z * Z) -> list (Z * Z) -> res (option (Z * Z * Z)) :=
  fix fmGet (best : option (Z * Z * Z)) (links : list (Z * Z)) : res (option (Z * Z * Z)) :=
  match links with
  | nil => Ok best
  | (v, side) :: links =>
    do g <- rd 0 gn (gi s v side);
    if match best with Some (_, _, gb) => tb gb <? tb g | None => false end then Ok best else
    do l <- rvelo s v;
    if (side =? 0) && (l <=? 0) then UB else
    if g =? - l then Ok (Some (v, side, g)) else
    let gb := match best with Some (_, _, gb) => gb | None => gmax end in
    let best := if (ab (dlt + (1 - 2 * side) * (g * (if side =? 0 then w0 else w1) + l * (w0 + w1))) <=? dmax) && ((g <? gb) || ((g =? gb) && (pv =? side)))
                then Some (v, side, g) else best in
    fmGet best links
  end.

(** vgraph_separate_fm.c:158-179, scalars: load of the separator and imbalance, current and best; largest imbalance allowed; moves since the
    last effective one; effective moves made; sweep; number of queries of the gain table *)
Record fmsc := mkfmsc { fc_c2 : Z; fc_dlt : Z; fc_c2b : Z; fc_dltb : Z; fc_max : Z; fc_move : Z; fc_flag : bool; fc_ms : Z; fc_k : nat }.
(** vgraph_separate_fm.c:594-636: what is recorded after a move: scalars, and whether the moves done are kept *)
Definition fmKeep (ab : Z -> Z) (mat : Z) (y : fmsc) : fmsc * bool :=
  let '(mkfmsc c2 dlt c2b dltb mx mv fl mn k) := y in
  let adb := ab dltb in let ad := ab dlt in
  let '(mkfmsc c2 dlt c2b dltb mx mv fl mn k, kp) :=
    if (ad <? mat) || (mat <? adb) then
      if c2 <? c2b then (mkfmsc c2 dlt c2 dlt mx 0 true (mn + 1) k, true)
      else if c2 =? c2b then
        if ad <? adb then (mkfmsc c2 dlt c2b dlt mx 0 true (mn + 1) k, true)
        else if ad =? adb then (mkfmsc c2 dlt c2b dlt mx mv fl (mn + 1) k, true)
        else (y, false)
      else (y, false)
    else (y, false) in
  if mx <? ad then (mkfmsc c2 dlt c2b dltb ad mv fl mn k, kp)
  else if mat <? mx then
    let mx' := Z.max mat ad in
    if (mat <? adb) && (mx' <? mx) then (mkfmsc c2 dlt c2 dlt mx' 0 fl (mn + 1) k, true)
    else (mkfmsc c2 dlt c2b dltb mx' mv fl mn k, kp)
  else (mkfmsc c2 dlt c2b dltb mx mv fl mn k, kp).

Section Fm.
Context (s : graph) (part : list Z) (ab tb : Z -> Z) (ord : nat -> fmst -> list (Z * Z)) (gmax w0 w1 mat movemax : Z).
(** vgraph_separate_fm.c:373-637: one iteration of the loop on moves *)
Definition fmStep (pass : Z) (z : fmst * fmsc) : res (fmst * fmsc + fmst * fmsc) :=
  let '(x, y) := z in
  if fc_move y <? movemax then
    do r <- fmGet s ab tb gmax w0 w1 (fx_gn x) (fc_dlt y) (fc_max y) (Z.land pass 1) None (ord (fc_k y) x);
    match r with
    | None => Ok (inr (x, y))
    | Some (v, p, _) =>
      do '(x, g, d) <- fmMove s part w0 w1 (fc_ms y) v p x;
      let '(y, kp) := fmKeep ab mat (mkfmsc (fc_c2 y + g) (fc_dlt y + d) (fc_c2b y) (fc_dltb y) (fc_max y) (fc_move y + 1) (fc_flag y) (fc_ms y) (S (fc_k y))) in
      Ok (inl (if kp : bool then mkfmst (fx_pt x) (fx_gn x) (fx_st x) (fx_ms x) (fx_lock x) nil else x, y))
    end
  else Ok (inr (x, y)).
(** vgraph_separate_fm.c:373-637: moves of a pass *)
Definition fmMoves (fuel : nat) (pass : Z) (x : fmst) (y : fmsc) : res (fmst * fmsc) := loop fuel (fmStep pass) (x, y).
(** vgraph_separate_fm.c:314-333: moves are undone, last first *)
Fixpoint fmBack (l : list (Z * Z * Z * Z)) (x : fmst) : res fmst :=
  match l with
  | nil => Ok x
  | (v, p, a, c) :: l =>
    do pt <- wr (baseval s) (fx_pt x) v p;
    do gn <- wr 0 (fx_gn x) (gi s v 0) a;
    do gn <- wr 0 gn (gi s v 1) c;
    let x := setgn (setpt x pt) gn in
    do t <- rd (baseval s) (fx_st x) v;
    do x <- (if 3 <=? t then do st <- wr (baseval s) (fx_st x) v 0; Ok (setst x st) else Ok x);
    do t <- rd (baseval s) (fx_st x) v;
    do x <- (if (t =? 0) && (p =? 2) then fmAdd s v x else Ok x);
    fmBack l x
  end.
(** vgraph_separate_fm.c:349-368: locked vertices are unlocked *)
Fixpoint fmUnlock (l : list Z) (x : fmst) : res fmst :=
  match l with
  | nil => Ok x
  | v :: l =>
    do p <- rd (baseval s) (fx_pt x) v;
    do x <- (if p =? 2 then fmAdd s v x else do st <- wr (baseval s) (fx_st x) v 0; Ok (setst x st));
    fmUnlock l x
  end.
(** vgraph_separate_fm.c:311-639: passes *)
Definition fmPasses (fuel : nat) (pass : Z) (x : fmst) (y : fmsc) : res (fmst * fmsc) :=
  loop fuel (fun '(x, y, pass) =>
    do x <- fmBack (fx_save x) x;
    do x <- fmUnlock (fx_lock x) x;
    let x := mkfmst (fx_pt x) (fx_gn x) (fx_st x) (fx_ms x) nil nil in
    let mx := if fc_max y <? ab (fc_dltb y) then ab (fc_dltb y) else fc_max y in
    do '(x, y) <- fmMoves fuel pass x (mkfmsc (fc_c2b y) (fc_dltb y) (fc_c2b y) (fc_dltb y) mx 0 false (fc_ms y + 1) (fc_k y));
    if fc_flag y && negb (pass - 1 =? 0) then Ok (inl (x, y, pass - 1)) else Ok (inr (x, y))) (x, y, pass).
End Fm.

(** vgraph_separate_fm.c:229-293: the slot of a frontier vertex.  Simplified: a vertex that is twice in the frontier, which would get two slots, is excluded. *)
Definition fmSlot (s : graph) (part fron : list Z) (i : Z) (x : fmst) : res fmst :=
  let b := baseval s in
  do v <- rd 0 fron i;
  do pv <- rd b (fx_pt x) v;
  if negb (pv =? -1) then UB else
  do lo <- rvert s v; do hi <- rvend s v;
  do '(g0, g1) <- match velotab s with
    | Some _ =>
      do '(c0, c01) <- for_ lo hi (fun e '(c0, c01) => do u <- redge s e; do pu <- rd b part u; do lu <- rvelo s u; Ok (c0 + Z.land pu 1 * lu, c01 + (2 - Z.land pu 2) * lu)) (0, 0);
      do l <- rvelo s v;
      Ok (c0 - l, Z.shiftr c01 1 - c0 - l)
    | None =>
      do '(c0, c2) <- for_ lo hi (fun e '(c0, c2) => do u <- redge s e; do pu <- rd b part u; Ok (c0 + Z.land pu 1, c2 + Z.land pu 2)) (0, 0);
      Ok (c0 - 1, hi - lo - Z.shiftr c2 1 - c0 - 1)
    end;
  do gn <- wr 0 (fx_gn x) (gi s v 0) g0;
  do gn <- wr 0 gn (gi s v 1) g1;
  do pt <- wr b (fx_pt x) v 2;
  do st <- wr b (fx_st x) v 3;
  Ok (setst (setpt (setgn x gn) pt) st).
(** vgraph_separate_fm.c:641-648: exceeding moves are undone *)
Definition fmUndo (s : graph) : list (Z * Z * Z * Z) -> list Z -> res (list Z) := fix fmUndo (l : list (Z * Z * Z * Z)) (pt : list Z) : res (list Z) :=
  match l with nil => Ok pt | (v, p, _, _) :: l => do pt <- wr (baseval s) pt v p; fmUndo l pt end.
(** vgraph_separate_fm.c:653-673: slots, in some order [slots] of their vertices: part array, frontier, number of its vertices, change of the number of vertices of part 1 *)
Definition fmFinal (s : graph) (slots pt part fron : list Z) : res (list Z * list Z * Z * Z) :=
  for_ 0 (vertnbr s) (fun i '(part, fron, k, d) =>
    do v <- rd 0 slots i;
    do p <- rd (baseval s) pt v;
    if p =? -1 then Ok (part, fron, k, d) else
    do po <- rd (baseval s) part v;
    do '(part, d) <- (if p =? po then Ok (part, d) else do part <- wr (baseval s) part v p; Ok (part, d + Z.land p 1 - Z.land po 1));
    if p =? 2 then do fron <- wr 0 fron k v; Ok (part, fron, k + 1, d) else Ok (part, fron, k, d)) (part, fron, 0, 0).
(** vgraph_separate_fm.c:206-692 vgraphSeparateFm, from a separator that is not empty *)
Definition fmRun (ab tb : Z -> Z) (ord : nat -> fmst -> list (Z * Z)) (slots : list Z) (gmax mat movemax passnbr : Z) (fuel : nat) (g : vgraph) : res (Z * vgraph) :=
  let s := vs g in let n := Z.to_nat (vertnbr s) in let w0 := vdw0 g in let w1 := vdw1 g in
  let x := mkfmst (repeat (-1) n) (repeat (-1) (2 * n)) (repeat (-1) n) (repeat (-1) n) nil nil in
  do x <- for_ 0 (vfronnbr g) (fmSlot s (vpart g) (vfron g)) x;
  do '(x, y) <- fmPasses s (vpart g) ab tb ord gmax w0 w1 mat movemax fuel passnbr x (mkfmsc (vcld2 g) (vdlt g) (vcld2 g) (vdlt g) (Z.max mat (ab (vdlt g))) 0 false (-1) 0);
  do pt <- fmUndo s (fx_save x) (fx_pt x);
  do '(part, fron, k, d) <- fmFinal s slots pt (vpart g) (vfron g);
  if w0 + w1 =? 0 then UB else
  let c2 := fc_c2b y in let dlt := fc_dltb y in
  let c0 := Z.quot (dlt + (velosum s - c2) * w0) (w0 + w1) in
  let sz1 := vcsz1 g + d in
  Ok (0, mkvgraph s part fron k (vertnbr s - sz1 - k) sz1 c0 (velosum s - c2 - c0) c2 dlt w0 w1).
(** vgraph_separate_fm.c:189-205: [bal] gives the tolerated imbalance from the load of the parts, if the ratio is positive; [gg] is vgraphSeparateGg with 4 passes *)
Definition fmMat (bal : option (Z -> Z)) (g : vgraph) : res Z :=
  match bal with
  | None => Ok 0
  | Some f => if vertnbr (vs g) =? 0 then UB else
      Ok (Z.max (f (vcld0 g + vcld1 g)) (Z.quot (2 * velosum (vs g)) (vertnbr (vs g))) * Z.min (vdw0 g) (vdw1 g))
  end.
Definition vgraphSeparateFm (ab tb : Z -> Z) (gg : vmeth) (ord : nat -> fmst -> list (Z * Z)) (slots : list Z) (gmax : Z) (bal : option (Z -> Z)) (movemax passnbr : Z) (fuel : nat) : vmeth := fun g =>
  do mat <- fmMat bal g;
  if vfronnbr g =? 0 then
    if ab (vdlt g) <=? mat then Ok (0, g) else
    do '(_, h) <- gg g;
    if vfronnbr h =? 0 then Ok (0, h) else fmRun ab tb ord slots gmax mat movemax passnbr fuel h
  else fmRun ab tb ord slots gmax mat movemax passnbr fuel g.
