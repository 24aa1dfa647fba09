(** Model of graph partitioning by recursive bipartitioning: mapping.c,
    kgraph.c, kgraph_map_rb.c, kgraph_map_rb_part.c, library_graph_map.c. *)
From Verif Require Import Base M_Graph M_Vgraph M_Bgraph M_Arch M_Induce.

#[global] Instance dflt_cdom : Dflt cdom := mkc 0 0.

(** arch.h:157-186, the class routines of a target architecture which the
    partitioning code calls, and its ARCHVAR flag. *)
Record arch (D : Type) := mkarch {
  a_var : bool; a_frst : res D; a_size : D -> res Z; a_wght : D -> res Z; a_bip : D -> res (D * D);
  a_num : D -> res Z; a_term : Z -> res D; a_incl : D -> D -> res bool; a_dist : D -> D -> res Z }.
Arguments mkarch {D}. Arguments a_var {D}. Arguments a_frst {D}. Arguments a_size {D}. Arguments a_wght {D}.
Arguments a_bip {D}. Arguments a_num {D}. Arguments a_term {D}. Arguments a_incl {D}. Arguments a_dist {D}.

(** arch.c:102 (class "cmplt"); arch_cmplt.h:96, archCmpltDomWght is archCmpltDomSize *)
Definition cmplt (n : Z) : arch cdom :=
  mkarch false (archCmpltDomFrst n) (archCmpltDomSize n) (archCmpltDomSize n) (archCmpltDomBipart n)
    (archCmpltDomNum n) (archCmpltDomTerm n) (archCmpltDomIncl n) (archCmpltDomDist n).

(** mapping.h:99-110: part array, domain array (its length is domnmax), number
    of domains. *)
Record mapping (D : Type) := mkmap { m_part : list Z; m_domn : list D; m_nbr : Z }.
Arguments mkmap {D}. Arguments m_part {D}. Arguments m_domn {D}. Arguments m_nbr {D}.

(** Linear probing used by mapping.c:374-393 and kgraph_map_rb.c:268-278,
    482-490, 514-531: index of the first slot, from (key * 17) & mask on, whose
    terminal number is the key or ~0.  The loop of the code has no bound: when
    the table is full of other keys it never ends, which is [Fuel] here for any
    bound. *)
Definition probe (fuel : nat) (tab : list (Z * Z)) (msk key : Z) : res Z :=
  loop fuel (fun h =>
    do c <- rd 0 tab h;
    if fst c =? key then Ok (inr h) else
    if fst c =? -1 then Ok (inr h) else Ok (inl (Z.land (h + 1) msk))) (Z.land (key * 17) msk).

(** kgraph_map_rb.c:242-243, 468-469: 1 << (number of bits of n, plus 2) *)
Definition hashSize (n : Z) : Z := 2 ^ ((if n =? 0 then 0 else Z.log2 n + 1) + 2).

Section Map.
Context {D : Type} `{Dflt D}.
Context (jkd : D).                    (* contents of uninitialised domain cells *)
Context (jk al : Z).                  (* other uninitialised contents; memory alignment, see M_Induce *)
Context (avg : Z -> Z -> Z -> Z).     (* floating-point rounding, see M_Bgraph *)
Context (kavg : Z -> Z -> Z -> Z).    (* rounding of velosum * (wght / total), kgraph.c:323 *)
Context (lim : bgraph -> D -> Z * Z). (* compload0min, compload0max, kgraph_map_rb_part.c:261-272: double arithmetic *)
Context (A : arch D).

(** mapping.c:172-189; reallocation succeeds and keeps contents *)
Definition mapResize (tab : list D) (n : Z) : list D :=
  firstn (Z.to_nat n) tab ++ repeat jkd (Z.to_nat (n - zlen tab)).

(** kgraph_map_rb_part.c:97-193.  [sp] is srcparttax (None: NULL); without locking *)
Definition rbPart3 (s : graph) (sp : option (list Z)) (ip : Z) (d : D) (m : mapping D) : res (mapping D) :=
  let b := baseval s in
  let dn := m_nbr m in
  let tab := if zlen (m_domn m) <=? dn then mapResize (m_domn m) (dn + dn / 4 + 8) else m_domn m in
  do tab <- wr 0 tab dn d;
  do pt <- (match sp, vnumtab s with
            | None, None => memst b (m_part m) b (vertnbr s) 0
            | None, Some t => for_ b (vertnnd s) (fun v pt => do w <- rd b t v; wr b pt w dn) (m_part m)
            | Some sp, None => for_ b (vertnnd s) (fun v pt => do p <- rd b sp v; if p =? ip then wr b pt v dn else Ok pt) (m_part m)
            | Some sp, Some t => for_ b (vertnnd s) (fun v pt =>
                do p <- rd b sp v; if p =? ip then do w <- rd b t v; wr b pt w dn else Ok pt) (m_part m)
            end);
  Ok (mkmap pt tab (dn + 1)).

(** kgraph_map_rb.c:318-438, kgraphMapRbVfloSplit.  The slots are (terminal
    number, load).  The result: the array, the numbers of slots and the loads
    of the two subdomains.  The results of archDomTerm are not tested (343-347): on error, the domain
    is whatever the variable holds, taken here as undefined. *)
Definition termU (t : Z) : res D := match a_term A t with Err _ => UB | r => r end.
Definition split0 (d0 : D) (tab : list (Z * Z)) (nnd : Z) (st : Z * Z) : res (Z * Z * bool) :=   (* 341-368 *)
  loop (S (length tab)) (fun '(num, c0) =>
    do x <- rd 0 tab num;
    do d <- termU (fst x);
    do i <- a_incl A d0 d;
    if (i : bool) then (if nnd <? num + 1 then Ok (inr (num + 1, c0 + snd x, true)) else Ok (inl (num + 1, c0 + snd x)))
    else Ok (inr (num, c0, false))) st.
Definition split1 (d1 : D) (tab : list (Z * Z)) (num : Z) (st : Z * Z) : res (Z * Z * bool) :=   (* 369-387 *)
  loop (S (length tab)) (fun '(nnd, c1) =>
    do x <- rd 0 tab nnd;
    do d <- termU (fst x);
    do i <- a_incl A d1 d;
    if (i : bool) then
      (if nnd - 1 <=? num then do y <- rd 0 tab (nnd - 1); Ok (inr (nnd - 1, c1 + snd x + snd y, true))
       else Ok (inl (nnd - 1, c1 + snd x)))
    else Ok (inr (nnd, c1, false))) st.
Definition splitFix (d0 d1 : D) (tab : list (Z * Z)) : res (list (Z * Z) * Z * Z * Z * Z) :=      (* 339-395 *)
  loop (S (length tab)) (fun '(tab, num, nnd, c0, c1) =>
    if num <? nnd then
      do '(num, c0, q) <- split0 d0 tab nnd (num, c0);
      if (q : bool) then Ok (inr (tab, num, zlen tab - num, c0, c1)) else
      do '(nnd, c1, q) <- split1 d1 tab num (nnd, c1);
      if (q : bool) then Ok (inr (tab, num, zlen tab - num, c0, c1)) else
      do x <- rd 0 tab num;
      do y <- rd 0 tab nnd;
      do tab <- wr 0 tab num y;
      do tab <- wr 0 tab nnd x;
      Ok (inl (tab, num + 1, nnd - 1, c0 + snd y, c1 + snd x))
    else Ok (inr (tab, num, zlen tab - num, c0, c1))) (tab, 0, zlen tab - 1, 0, 0).
Definition splitVar (d0 d1 : D) (tab : list (Z * Z)) : res (list (Z * Z) * Z * Z * Z * Z) :=      (* 396-431 *)
  loop (S (length tab)) (fun '(tab, num, nnd, mx, c0, c1) =>
    if num <=? nnd then
      do x <- rd 0 tab num;
      do d <- termU (fst x);
      do i0 <- a_incl A d0 d;
      if (i0 : bool) then Ok (inl (tab, num + 1, nnd, mx, c0 + snd x, c1)) else
      do i1 <- a_incl A d1 d;
      do y <- rd 0 tab nnd;
      do tab <- wr 0 tab num y;
      if (i1 : bool) then do tab <- wr 0 tab nnd x; Ok (inl (tab, num, nnd - 1, mx, c0, c1 + snd x)) else
      do z <- rd 0 tab (mx - 1);
      do tab <- wr 0 tab nnd z;
      do tab <- wr 0 tab (mx - 1) x;
      Ok (inl (tab, num, nnd - 1, mx - 1, c0, c1))
    else Ok (inr (tab, num, mx - num, c0, c1))) (tab, 0, zlen tab - 1, zlen tab, 0, 0).
Definition vfloSplit (d0 d1 : D) (tab : list (Z * Z)) : res (list (Z * Z) * Z * Z * Z * Z) :=
  if a_var A then splitVar d0 d1 tab else splitFix d0 d1 tab.

(** kgraph_map_rb.h:90-114, the global data of a recursive bipartitioning: original
    graph, fixed parts (pfixtax), old mapping with its vertex migration loads
    and the two coefficients. *)
Record rbdata := mkrbdata {
  rb_org : graph; rb_pfix : option (list Z);
  rb_old : option (mapping D); rb_vmlo : option (list Z); rb_crlo : Z; rb_cmlo : Z }.

(** bgraph.c:84-133; allocation succeeds; the part array is an array of bytes *)
Definition bgraphInit (s : graph) (d0 d1 : D) (f0 f1 : Z) : res bgraph :=
  do dist <- a_dist A d0 d1;
  do w0 <- a_wght A d0;
  do w1 <- a_wght A d1;
  let s' := mkgraph (baseval s) (vertnbr s) (vertnnd s) (verttab s) (vendtab s) (velotab s) (velosum s) (vnumtab s) None
              (edgenbr s) (edgetab s) (edlotab s) (edlosum s) (degrmax s) in
  let junk := repeat jk (Z.to_nat (vertnbr s)) in
  bgraphInit2 avg (mkbgraph s' None (map (fun x => x mod 256) junk) junk 0 0 0 0 0 0 0 0 0 0 0 (0, 0) 0 0 0 0 0) dist w0 w1 f0 f1.

(** kgraph_map_rb.c:644, 651: next internal end vertex *)
Definition actNext (act : graph) (t : list Z) (ae aend : Z) : res Z :=
  if aend <=? ae then Ok (-1) else do w <- redge act ae; rd (baseval act) t w.

(** kgraph_map_rb.c:676-679, 710-713: added to load or gain for domain [di] *)
Definition extnDist (di d : D) (lo : Z) : res Z :=
  do i <- a_incl A di d;
  if (i : bool) then Ok 0 else do x <- a_dist A di d; Ok (lo * x).

(** kgraph_map_rb.c:645-692, arcs of the original vertex; state: next active
    arc, next internal end, load, gain.  The mapping case (685-691) is not
    reached by partitioning architectures. *)
Definition extnArcs (dt : rbdata) (act : graph) (t : list Z) (d0 d1 : D) (pf : list Z) (lo hi aend : Z) (st : Z * Z * Z * Z)
    : res (Z * Z * Z * Z) :=
  let org := rb_org dt in
  for_ lo hi (fun e '(ae, ave, ld, gn) =>
    do w <- redge org e;
    if w =? ave then do ave <- actNext act t (ae + 1) aend; Ok (ae + 1, ave, ld, gn) else
    do el <- (match edlotab org with Some l => rd (baseval org) l e | None => Ok 1 end);
    do p <- rd (baseval org) pf w;
    if 0 <=? p then
      match a_term A p with
      | Ok d => do x <- extnDist d0 d el; do y <- extnDist d1 d el; Ok (ae, ave, ld + x, gn + y)
      | r => do _ <- r; Ok (ae, ave, ld, gn)
      end
    else Ok (ae, ave, ld, gn)) st.

(** kgraph_map_rb.c:617-722, one active vertex: external load and gain *)
Definition extnVert (dt : rbdata) (act : graph) (d0 d1 : D) (v : Z) : res (Z * Z) :=
  let org := rb_org dt in
  do '(ov, ld, gn) <- (match vnumtab act with
     | None => Ok (v, 0, 0)
     | Some t =>
         do ov <- rd (baseval act) t v;
         match rb_pfix dt with
         | None => Ok (ov, 0, 0)
         | Some pf =>
             do oe <- rvert org ov; do oend <- rvend org ov;
             do ae <- rvert act v; do aend <- rvend act v;
             if oend - oe =? aend - ae then Ok (ov, 0, 0) else
             do ave <- actNext act t ae aend;
             do '(_, _, ld, gn) <- extnArcs dt act t d0 d1 pf oe oend aend (ae, ave, 0, 0);
             Ok (ov, ld * rb_crlo dt, gn * rb_crlo dt)
         end
     end);
  match rb_old dt with
  | None => Ok (ld, gn)
  | Some m =>
      do p <- rd (baseval org) (m_part m) ov;
      if p =? -1 then Ok (ld, gn) else
      do el <- (match rb_vmlo dt with Some l => do x <- rd (baseval org) l ov; Ok (rb_cmlo dt * x) | None => Ok (rb_cmlo dt) end);
      do d <- rd 0 (m_domn m) p;
      do x <- extnDist d0 d el; do y <- extnDist d1 d el; Ok (ld + x, gn + y)
  end.

(** kgraph_map_rb.c:557-747, kgraphMapRbBgraph, for architectures with the
    ARCHPART flag; [Err] is the error return.  Line 690 excluded. *)
Definition rbBgraph (dt : rbdata) (act : graph) (d0 d1 : D) (f0 f1 : Z) : res bgraph :=
  do g <- bgraphInit act d0 d1 f0 f1;
  match rb_pfix dt, rb_old dt with
  | None, None => Ok g
  | _, _ =>
      let b := baseval act in
      do '(vx, msk, l0, g0) <- for_ b (vertnnd act) (fun v '(vx, msk, l0, g0) =>
        do '(ld, gn) <- extnVert dt act d0 d1 v;
        do vx <- wr b vx v (gn - ld);
        Ok (vx, Z.lor msk (gn - ld), l0 + ld, g0 + (gn - ld))) (repeat jk (Z.to_nat (vertnbr act)), 0, 0, 0);
      if msk =? 0 then Ok g else
      Ok (mkbgraph (bs g) (Some vx) (bpart g) (bfron g) (bfronnbr g) (bmin g) (bmax g) (bavg g) (bdlt g) (bld0 g) (bsz0 g)
            l0 l0 g0 g0 (bbal g) (bdist g) (bwg0 g) (bwg1 g) (bfx0 g) (bfx1 g))
  end.

(** The bipartitioning strategy (bgraphBipartSt): return code and graph. *)
Context (bip : bgraph -> res (Z * bgraph)).

(** kgraph_map_rb_part.c:203-339, kgraphMapRbPart2, one job run to its end: source graph [s], part
    array [sp], part number [ip], number of vertices [n], domain [d], fixed
    loads [vf].  The two sub-jobs run in sequence (319-321) and work on disjoint
    slices of the fixed load array, passed here by value.  The result is the
    value left in *revaptr (0: no error) and the mapping. *)
Fixpoint rbPart2 (fuel : nat) (dt : rbdata) (s : graph) (sp : option (list Z)) (ip n : Z) (d : D) (vf : list (Z * Z)) (m : mapping D)
    : res (Z * mapping D) :=
  match fuel with
  | O => Fuel
  | S f =>
    match (if a_var A && (n <=? 1) then Err 1 else a_bip A d) with
    | Err 1 => do m <- rbPart3 s sp ip d m; Ok (0, m)
    | Err _ => Ok (1, m)
    | UB => UB
    | Fuel => Fuel
    | Ok (d0, d1) =>
      do ind <- (match sp with
                 | Some p => if n <? vertnbr s then graphInducePart jk al s p n ip else Ok s
                 | None => Ok s
                 end);
      do '(vf, n0, n1, w0, w1) <- vfloSplit d0 d1 vf;
      match rbBgraph dt ind d0 d1 w0 w1 with
      | Err _ => Ok (1, m)
      | UB => UB
      | Fuel => Fuel
      | Ok g =>
        let '(mn, mx) := if a_var A then (bmin g, bmax g) else lim g d in
        do '(rc, h) <- bip (mkbgraph (bs g) (bveex g) (bpart g) (bfron g) (bfronnbr g) mn mx (bavg g) (bdlt g) (bld0 g) (bsz0 g)
            (bcml g) (bcmle0 g) (bcmge0 g) (bcmge g) (bbal g) (bdist g) (bwg0 g) (bwg1 g) (bfx0 g) (bfx1 g));
        if negb (rc =? 0) then Ok (rc, m) else
        let vf0 := firstn (Z.to_nat n0) vf in
        let vf1 := firstn (Z.to_nat n1) (skipn (Z.to_nat n0) vf) in
        if (bsz0 h =? 0) || (bsz0 h =? vertnbr (bs h)) then
          if a_var A then do m <- rbPart3 s sp ip d m; Ok (0, m) else
          if bsz0 h =? 0 then rbPart2 f dt s sp ip n d1 vf1 m else rbPart2 f dt s sp ip n d0 vf0 m
        else
          do '(rc, m) <- rbPart2 f dt ind (Some (bpart h)) 0 (bsz0 h) d0 vf0 m;
          if rc =? 0 then rbPart2 f dt ind (Some (bpart h)) 1 (vertnbr (bs h) - bsz0 h) d1 vf1 m
          else Ok (rc, m)
      end
    end
  end.

(** kgraph_map_rb_part.c:350-398 *)
Definition rbPart (fuel : nat) (dt : rbdata) (g : graph) (d : D) (vf : list (Z * Z)) (m : mapping D) : res (Z * mapping D) :=
  rbPart2 fuel dt g None 0 (vertnbr g) d vf (mkmap (m_part m) (m_domn m) 0).

(** kgraph_map_rb.c:211-309, kgraphMapRbVfloBuild: induced graph and fixed load slots.
    The slots are cells (terminal number, load); memSet with ~0 sets both to -1. *)
Definition vfloBuild (org : graph) (vfixnbr : Z) (pf : list Z) : res (graph * list (Z * Z)) :=
  let b := baseval org in
  do hn <- (if a_var A then Ok vfixnbr else do d <- a_frst A; do n <- a_size A d; Ok (Z.min vfixnbr n));
  let siz := hashSize hn in let msk := siz - 1 in
  do '(tab, pt, vm) <- for_ b (vertnnd org) (fun v '(tab, pt, vm) =>
    do p <- rd b pf v;
    if 0 <=? p then
      do l <- (match velotab org with Some l => rd b l v | None => Ok 1 end);
      do h <- probe (S (length tab)) tab msk p;
      do c <- rd 0 tab h;
      do tab <- wr 0 tab h (p, if fst c =? p then snd c + l else l);
      do pt <- wr b pt v 1;
      Ok (tab, pt, Z.lor vm l)
    else do pt <- wr b pt v 0; Ok (tab, pt, vm)) (repeat (-1, -1) (Z.to_nat siz), repeat jk (Z.to_nat (vertnbr org)), 0);
  do ind <- graphInducePart jk al org pt (vertnbr org - vfixnbr) 0;
  Ok (ind, if vm =? 0 then [] else filter (fun c => negb (fst c =? -1)) tab).

(** kgraph_map_rb.c:448-539, kgraphMapRbVfloMerge.  The results of archDomTerm are
    not tested at line 524: on error the domain cell keeps its contents. *)
Definition vfloMerge (org : graph) (pf : list Z) (vflonbr : Z) (m : mapping D) : res (mapping D) :=
  let b := baseval org in
  let siz := hashSize (m_nbr m + vflonbr) in let msk := siz - 1 in
  do tab <- for_ 0 (m_nbr m) (fun i tab =>
    do d <- rd 0 (m_domn m) i;
    do t <- a_num A d;
    do h <- probe (S (length tab)) tab msk t;
    do c <- rd 0 tab h;
    if fst c =? t then Ok tab else wr 0 tab h (t, i)) (repeat (-1, -1) (Z.to_nat siz));
  do '(tab, pt, dtab, dn) <- for_ b (vertnnd org) (fun v '(tab, pt, dtab, dn) =>
    do p <- rd b pf v;
    if p <? 0 then Ok (tab, pt, dtab, dn) else
    do h <- probe (S (length tab)) tab msk p;
    do c <- rd 0 tab h;
    if fst c =? p then do pt <- wr b pt v (snd c); Ok (tab, pt, dtab, dn) else
    let dtab := if zlen dtab <=? dn then mapResize dtab (zlen dtab + zlen dtab / 4 + 8) else dtab in
    do dtab <- (match a_term A p with Ok d => wr 0 dtab dn d | Err _ => Ok dtab | UB => UB | Fuel => Fuel end);
    do tab <- wr 0 tab h (p, dn);
    do pt <- wr b pt v dn;
    Ok (tab, pt, dtab, dn + 1)) (tab, m_part m, m_domn m, m_nbr m);
  Ok (mkmap pt dtab dn).

(** kgraph.h:116-150, the parts of the k-way graph structure used here. *)
Record kgraph := mkkgraph {
  kdt : rbdata; kvfix : Z; kmap : mapping D; kfron : list Z; kfronnbr : Z; kavgt : list Z; kdltt : list Z; kcomm : Z }.

(** kgraph.c:333-362 *)
Definition kgraphFron (s : graph) (pt fron : list Z) : res (list Z * Z) :=
  let b := baseval s in
  for_ b (vertnnd s) (fun v '(fron, nf) =>
    do p <- rd b pt v;
    do lo <- rvert s v; do hi <- rvend s v;
    do f <- loop (S (Z.to_nat (hi - lo))) (fun e =>
      if e <? hi then do w <- redge s e; do q <- rd b pt w; if negb (q =? p) then Ok (inr true) else Ok (inl (e + 1))
      else Ok (inr false)) lo;
    if (f : bool) then do fron <- wr 0 fron nf v; Ok (fron, nf + 1) else Ok (fron, nf)) (fron, 0).

(** kgraph.c:211-325, without anchors (290-316, set for band graphs only) *)
Definition kgraphCost (s : graph) (m : mapping D) (avt dlt : list Z) : res (list Z * list Z * Z) :=
  let b := baseval s in
  do dlt <- memst 0 dlt 0 (m_nbr m) 0;
  do '(dlt, cm) <- for_ b (vertnnd s) (fun v '(dlt, cm) =>
    do p <- rd b (m_part m) v;
    do l <- (match velotab s with Some t => rd b t v | None => Ok 1 end);
    do x <- rd 0 dlt p;
    do dlt <- wr 0 dlt p (x + l);
    do lo <- rvert s v; do hi <- rvend s v;
    do '(cm, _, _) <- for_ lo hi (fun e '(cm, pl, dl) =>
      do w <- redge s e;
      if v <? w then Ok (cm, pl, dl) else
      do q <- rd b (m_part m) w;
      if p =? q then Ok (cm, pl, dl) else
      do x <- (if negb (q =? pl) then do d <- rd 0 (m_domn m) p; do d' <- rd 0 (m_domn m) q; a_dist A d d' else Ok dl);
      do el <- (match edlotab s with Some t => rd b t e | None => Ok 1 end);
      Ok (cm + x * el, q, x)) (cm, -1, -1);
    Ok (dlt, cm)) (dlt, 0);
  do df <- a_frst A;
  do wf <- a_wght A df;
  do '(avt, dlt) <- for_ 0 (m_nbr m) (fun i '(avt, dlt) =>
    do d <- rd 0 (m_domn m) i;
    do w <- a_wght A d;
    do x <- rd 0 dlt i;
    do avt <- wr 0 avt i (kavg (velosum s) w wf);
    do dlt <- wr 0 dlt i (x - kavg (velosum s) w wf);
    Ok (avt, dlt)) (avt, dlt);
  Ok (avt, dlt, cm).

(** kgraph_map_rb.c:100-193, kgraphMapRb.  mapAlloc (mapping.c:138-163) leaves
    allocated arrays as they are; lines 163 to 176 are run whatever the return
    code of the recursive bipartitioning is. *)
Definition kgraphMapRb (fuel : nat) (k : kgraph) : res (Z * kgraph) :=
  let dt := kdt k in let org := rb_org dt in
  let m := kmap k in
  do df <- a_frst A;
  do '(ind, vf) <- (match rb_pfix dt with None => Ok (org, []) | Some pf => vfloBuild org (kvfix k) pf end);
  do '(rc, m) <- rbPart fuel dt ind df vf m;
  do m <- (match rb_pfix dt with None => Ok m | Some pf => vfloMerge org pf (zlen vf) m end);
  let junk := repeat jk (Z.to_nat (zlen (m_domn m))) in
  do '(fr, nf) <- kgraphFron org (m_part m) (kfron k);
  do '(avt, dlt, cm) <- kgraphCost org m junk junk;
  Ok (rc, mkkgraph dt (kvfix k) m fr nf avt dlt cm).

(** mapping.c:96-110 *)
Definition mapMax (s : graph) (d : D) : res Z :=
  if a_var A then Ok (Z.min 1023 (vertnbr s) + 1) else do n <- a_size A d; Ok (n + 1).

(** mapping.c:298-404, mapBuild on a mapping with no domains; [siz] is the size of the hash table *)
Definition mapBuild (s : graph) (term : list Z) (m : mapping D) : res (mapping D) :=
  let b := baseval s in
  do hn <- (if a_var A then Ok (vertnbr s) else do d <- a_frst A; a_size A d);
  let siz := 4 * 2 ^ (Z.max 5 (Z.log2_up (hn + 1))) in let msk := siz - 1 in
  do '(tab, pt, dtab, dn) <- for_ b (vertnnd s) (fun v '(tab, pt, dtab, dn) =>
    do p <- rd b term v;
    if p =? -1 then Ok (tab, pt, dtab, dn) else
    do h <- probe (S (length tab)) tab msk p;
    do c <- rd 0 tab h;
    if fst c =? p then do pt <- wr b pt v (snd c); Ok (tab, pt, dtab, dn) else
    do tab <- wr 0 tab h (p, dn);
    let dtab := if zlen dtab =? dn then mapResize dtab (zlen dtab + (zlen dtab / 4 + 8)) else dtab in
    do dtab <- (match a_term A p with Ok d => wr 0 dtab dn d | Err _ => Ok dtab | UB => UB | Fuel => Fuel end);
    do pt <- wr b pt v dn;
    Ok (tab, pt, dtab, dn + 1)) (repeat (-1, -1) (Z.to_nat siz), m_part m, m_domn m, m_nbr m);
  Ok (mkmap pt dtab dn).

(** mapping.c:479-499, with a domain array *)
Definition mapTerm (s : graph) (m : mapping D) (term : list Z) : res (list Z) :=
  let b := baseval s in
  for_ b (vertnnd s) (fun v term =>
    do p <- rd b (m_part m) v;
    do d <- rd 0 (m_domn m) p;
    do t <- a_num A d;
    wr b term v t) term.

(** library_graph_map.c:146-307, graphMapCompute2; [old] is the old part array,
    [cm] and [cr] the migration and regular coefficients (gcd-reduced, 248-258). *)
Context (strat : kgraph -> res (Z * kgraph)).
Definition graphMapCompute2 (g : graph) (part : list Z) (old : option (list Z)) (vmlo : option (list Z)) (cr cm vfixnbr : Z)
    : res (Z * list Z) :=
  let b := baseval g in
  do df <- a_frst A;
  if (0 <? vfixnbr) && (vertnbr g <=? vfixnbr) then Ok (0, part) else
  do mx <- mapMax g df;
  let jpart := repeat jk (Z.to_nat (vertnbr g)) in
  let jload := repeat jk (Z.to_nat mx) in
  let m0 := mkmap jpart (repeat jkd (Z.to_nat mx)) 0 in
  do om <- (match old with
            | None => Ok None
            | Some o => do om <- mapBuild g o (mkmap (repeat (-1) (Z.to_nat (vertnbr g))) (repeat jkd (Z.to_nat mx)) 0); Ok (Some om)
            end);
  let dt := mkrbdata g (if 0 <? vfixnbr then Some part else None) om (match old with Some _ => vmlo | None => None end) cr cm in
  do '(rc, k) <- strat (mkkgraph dt vfixnbr m0 jpart 0 jload jload 0);
  do part <- mapTerm g (kmap k) part;
  Ok (rc, part).

(** library_graph_map.c:369-391, number of fixed vertices *)
Definition fixedNbr (g : graph) (part : list Z) : res Z :=
  for_ 0 (vertnbr g) (fun i n => do p <- rd 0 part i; Ok (if p =? -1 then n else n + 1)) 0.
End Map.

(** The strategy made of recursive bipartitioning alone (method "r"), and the
    partitioning routines.  library_graph_map.c:519-535 SCOTCH_graphPart,
    546-562 SCOTCH_graphPartFixed, 573-592 SCOTCH_graphRepart, 604-623
    SCOTCH_graphRepartFixed; the recursion bound is the number of parts. *)
Section Part.
Context (jkd : cdom) (jk al : Z) (avg kavg : Z -> Z -> Z -> Z) (lim : bgraph -> cdom -> Z * Z) (bip : bgraph -> res (Z * bgraph)).
Definition rbStrat (n : Z) : kgraph -> res (Z * kgraph) :=
  kgraphMapRb jkd jk al avg kavg lim (cmplt n) bip (S (Z.to_nat n)).
Definition graphPart (g : graph) (n : Z) (part : list Z) : res (Z * list Z) :=
  graphMapCompute2 jkd jk (cmplt n) (rbStrat n) g part None None 1 1 0.
Definition graphPartFixed (g : graph) (n : Z) (part : list Z) : res (Z * list Z) :=
  do f <- fixedNbr g part;
  graphMapCompute2 jkd jk (cmplt n) (rbStrat n) g part None None 1 1 f.
Definition graphRepart (g : graph) (n : Z) (old : list Z) (vmlo : option (list Z)) (cr cm : Z) (part : list Z) : res (Z * list Z) :=
  graphMapCompute2 jkd jk (cmplt n) (rbStrat n) g part (Some old) vmlo cr cm 0.
Definition graphRepartFixed (g : graph) (n : Z) (old : list Z) (vmlo : option (list Z)) (cr cm : Z) (part : list Z) : res (Z * list Z) :=
  do f <- fixedNbr g part;
  graphMapCompute2 jkd jk (cmplt n) (rbStrat n) g part (Some old) vmlo cr cm f.
End Part.
