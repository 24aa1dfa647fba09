(** Model of the target architectures defined by formulae: complete graphs,
    hypercubes, meshes, tori, tree leaves, and variable-sized architectures.

    Returned codes of bipartitioning, terminal lookup and loading are [Err n];
    overflow of Anum is not modelled except where stated.  C division and
    remainder are [Z.quot] and [Z.rem], arithmetic shifts [Z.shiftr]/[Z.shiftl].
    Text output ([fprintf]) never fails in the model. *)
From Verif Require Import Base M_Int.

(** Two-integer reader used by most DomLoad routines. *)
Definition load2 (imax : Z) (s : stream) : res (Z * Z * stream) :=
  do '(a, s) <- orerr (intLoad imax s) 1;
  do '(b, s) <- orerr (intLoad imax s) 1;
  Ok (a, b, s).

(** ** Complete graph *)

(** arch_cmplt.h: ArchCmpltDom; the architecture is its number of terminals. *)
Record cdom := mkc { c_min : Z; c_nbr : Z }.

(** arch_cmplt.c:249-255 *)
Definition archCmpltDomNum (n : Z) (d : cdom) : res Z := Ok (c_min d).
(** arch_cmplt.c:265-279 *)
Definition archCmpltDomTerm (n t : Z) : res cdom := if t <? n then Ok (mkc t 1) else Err 1.
(** arch_cmplt.c:285-291 *)
Definition archCmpltDomSize (n : Z) (d : cdom) : res Z := Ok (c_nbr d).
(** arch_cmplt.c:298-306 *)
Definition archCmpltDomDist (n : Z) (d0 d1 : cdom) : res Z :=
  Ok (if (c_min d0 =? c_min d1) && (c_nbr d0 =? c_nbr d1) then 0 else 1).
(** arch_cmplt.c:316-325 *)
Definition archCmpltDomFrst (n : Z) : res cdom := Ok (mkc 0 n).
(** arch_cmplt.c:334-354 *)
Definition archCmpltDomLoad (imax n : Z) (s : stream) : res (cdom * stream) :=
  do '(a, b, s) <- load2 imax s;
  if b <? 1 then Err 1 else
  do ab <- ckint imax (b + a);
  if n <? ab then Err 1 else Ok (mkc a b, s).
(** arch_cmplt.c:363-377 *)
Definition archCmpltDomSave (d : cdom) : stream := intSave (c_min d) ++ [32] ++ intSave (c_nbr d) ++ [32].
(** arch_cmplt.c:387-403 *)
Definition archCmpltDomBipart (n : Z) (d : cdom) : res (cdom * cdom) :=
  if c_nbr d <=? 1 then Err 1 else
  let n0 := Z.quot (c_nbr d) 2 in
  Ok (mkc (c_min d) n0, mkc (c_min d + n0) (c_nbr d - n0)).
(** arch_cmplt.c:413-424 *)
Definition archCmpltDomIncl (n : Z) (d0 d1 : cdom) : res bool :=
  Ok ((c_min d0 <=? c_min d1) && (c_min d1 + c_nbr d1 <=? c_min d0 + c_nbr d0)).

(** arch_cmplt.c:152-242 archCmpltMatchInit / archCmpltMatchMate: the state is
    (multtab, vertnbr, passnum); multtab has (termnbr+1)>>1 pairs. *)
Definition archCmpltMatchInit (n : Z) : list (Z * Z) * Z * Z :=
  (repeat (0, 0) (Z.to_nat (Z.shiftr (n + 1) 1)), n, 0).
Definition archCmpltMatchMate (st : list (Z * Z) * Z * Z) : res (Z * (list (Z * Z) * Z * Z)) :=
  let '(mt, fine, pass) := st in
  if fine <=? 1 then Err (-1) else
  let cmax := Z.shiftr fine 1 in
  do '(mt, c, f) <- (if negb (Z.land fine pass =? 0)
                     then do mt <- wr 0 mt 0 (0, 0); Ok (mt, 1, 1) else Ok (mt, 0, 0));
  do '(mt, f) <- for_ c cmax (fun i '(mt, f) => do mt <- wr 0 mt i (f, f + 1); Ok (mt, f + 2)) (mt, f);
  let c := Z.max c cmax in
  do '(mt, c) <- (if negb (Z.land fine (Z.lxor pass 1) =? 0)
                  then do mt <- wr 0 mt c (f, f); Ok (mt, c + 1) else Ok (mt, c));
  Ok (c, (mt, c, pass)).     (* line 237 stores passnum back unchanged *)

(** ** Hypercube *)

Record hdom := mkh { h_cur : Z; h_bits : Z }.

(** [1 << k] on int: undefined when the result is not representable *)
Definition shl1 (k : Z) : res Z := if (0 <=? k) && (k <? 31) then Ok (2 ^ k) else UB.

(** arch_hcub.c:220-226 *)
Definition archHcubDomNum (n : Z) (d : hdom) : res Z := Ok (h_bits d).
(** arch_hcub.c:236-250 *)
Definition archHcubDomTerm (n t : Z) : res hdom := do m <- shl1 n; if t <? m then Ok (mkh 0 t) else Err 1.
(** arch_hcub.c:256-262 *)
Definition archHcubDomSize (n : Z) (d : hdom) : res Z := shl1 (h_cur d).
(** arch_hcub.c:268-292; the summing loop of lines 286-289 *)
Fixpoint hcubHam (i : nat) (k j : Z) : Z :=
  match i with O => j | S i => hcubHam i (Z.shiftr k 1) (j + Z.land k 1) end.
Definition archHcubDomDist (n : Z) (d0 d1 : hdom) : res Z :=
  let '(i, j) := if h_cur d1 <? h_cur d0 then (h_cur d0, h_cur d0 - h_cur d1) else (h_cur d1, h_cur d1 - h_cur d0) in
  Ok (hcubHam (Z.to_nat (n - i)) (Z.shiftr (Z.lxor (h_bits d0) (h_bits d1)) i) (Z.quot j 2)).
(** arch_hcub.c:302-311 *)
Definition archHcubDomFrst (n : Z) : res hdom := Ok (mkh n 0).
(** arch_hcub.c:320-334 *)
Definition archHcubDomLoad (imax n : Z) (s : stream) : res (hdom * stream) :=
  do '(a, b, s) <- load2 imax s;
  if n <? a then Err 1 else Ok (mkh a b, s).
(** arch_hcub.c:343-357 *)
Definition archHcubDomSave (d : hdom) : stream := intSave (h_cur d) ++ [32] ++ intSave (h_bits d) ++ [32].
(** arch_hcub.c:367-383 *)
Definition archHcubDomBipart (n : Z) (d : hdom) : res (hdom * hdom) :=
  if h_cur d <=? 0 then Err 1 else
  do m <- shl1 (h_cur d - 1);
  Ok (mkh (h_cur d - 1) (h_bits d), mkh (h_cur d - 1) (Z.lor (h_bits d) m)).
(** arch_hcub.c:393-404 *)
Definition archHcubDomIncl (n : Z) (d0 d1 : hdom) : res bool :=
  Ok ((h_cur d1 <=? h_cur d0) && (Z.shiftr (Z.lxor (h_bits d0) (h_bits d1)) (h_cur d0) =? 0)).

(** ** Variable-sized complete graph and hypercube *)

Record vdom := mkv { v_lvl : Z; v_num : Z }.

(** signed [w]-bit conversion of an out-of-range value (what gcc does for <<) *)
Definition swrap (w x : Z) : Z :=
  let y := x mod 2 ^ w in if y <? 2 ^ (w - 1) then y else y - 2 ^ w.

(** arch_vcmplt.c:94-100, arch_vhcub.c:76-82 *)
Definition archVDomNum (d : vdom) : res Z := Ok (v_num d).
(** arch_vcmplt.c:124 and 199, arch_vhcub.c:106 and 199: level loop *)
Definition vlevel (t : Z) : res Z :=
  loop (S (Z.to_nat t)) (fun '(t, l) => if 1 <? t then Ok (inl (Z.shiftr t 1, l + 1)) else Ok (inr l)) (t, 0).
(** arch_vcmplt.c:110-131, arch_vhcub.c:92-113 *)
Definition archVDomTerm (t : Z) : res vdom :=
  if negb (t =? -1) then
    if t =? 0 then Err 2 else do l <- vlevel t; Ok (mkv l t)
  else Err 1.
(** arch_vcmplt.c:137-143, arch_vhcub.c:119-125 *)
Definition archVDomSize (d : vdom) : res Z := Ok 1.
(** arch_vcmplt.c:149-156 *)
Definition archVcmpltDomDist (d0 d1 : vdom) : res Z := Ok (if v_num d0 =? v_num d1 then 0 else 1).
(** arch_vhcub.c:131-156; the loop of lines 152-153 *)
Definition vham (x dist : Z) : res Z :=
  loop (S (S (Z.to_nat x))) (fun '(x, d) => if negb (x =? 0) then Ok (inl (Z.shiftr x 1, d + Z.land x 1)) else Ok (inr d)) (x, dist).
Definition archVhcubDomDist (d0 d1 : vdom) : res Z :=
  let '(n0, n1, dist) :=
    if v_lvl d1 <? v_lvl d0
    then (Z.shiftr (v_num d0) (v_lvl d0 - v_lvl d1), v_num d1, Z.shiftr (v_lvl d0 - v_lvl d1) 1)
    else (v_num d0, Z.shiftr (v_num d1) (v_lvl d1 - v_lvl d0), Z.shiftr (v_lvl d1 - v_lvl d0) 1) in
  vham (Z.lxor n0 n1) dist.
(** arch_vcmplt.c:166-175, arch_vhcub.c:166-175 *)
Definition archVDomFrst : res vdom := Ok (mkv 0 1).
(** arch_vcmplt.c:185-203, arch_vhcub.c:185-203 *)
Definition archVDomLoad (imax : Z) (s : stream) : res (vdom * stream) :=
  do '(t, s) <- orerr (intLoad imax s) 1;
  do l <- vlevel t;
  Ok (mkv l t, s).
(** arch_vcmplt.c:212-225, arch_vhcub.c:212-225 *)
Definition archVDomSave (d : vdom) : stream := intSave (v_num d) ++ [32].
(** arch_vcmplt.c:234-247, arch_vhcub.c:234-247; [w] is the width of Anum *)
Definition archVDomBipart (w : Z) (d : vdom) : res (vdom * vdom) :=
  let n0 := swrap w (Z.shiftl (v_num d) 1) in
  let n1 := swrap w (n0 + 1) in
  if n1 <? v_num d then Err 2 else Ok (mkv (v_lvl d + 1) n0, mkv (v_lvl d + 1) n1).
(** arch_vcmplt.c:257-268, arch_vhcub.c:257-268 *)
Definition archVDomIncl (d0 d1 : vdom) : res bool :=
  Ok ((v_lvl d0 <=? v_lvl d1) && (Z.shiftr (v_num d1) (v_lvl d1 - v_lvl d0) =? v_num d0)).

(** ** Meshes and tori: a domain is the list of its inclusive coordinate
    ranges, an architecture the list of its dimensions.  The two- and
    three-dimensional routines only look at the first two or three cells. *)

Definition mdom := list (Z * Z).
Definition lo (d : mdom) (k : Z) : Z := fst (at_ 0 d k).
Definition hi (d : mdom) (k : Z) : Z := snd (at_ 0 d k).
Definition dim (c : list Z) (k : Z) : Z := at_ 0 c k.

(** arch_mesh.c:162-168 *)
Definition archMesh2DomNum (c : list Z) (d : mdom) : res Z := Ok (lo d 1 * dim c 0 + lo d 0).
(** arch_mesh.c:178-194 *)
Definition archMesh2DomTerm (c : list Z) (t : Z) : res mdom :=
  if t <? dim c 0 * dim c 1 then
    Ok [(Z.rem t (dim c 0), Z.rem t (dim c 0)); (Z.quot t (dim c 0), Z.quot t (dim c 0))]
  else Err 1.
(** arch_mesh.c:200-207 *)
Definition archMesh2DomSize (c : list Z) (d : mdom) : res Z := Ok ((hi d 0 - lo d 0 + 1) * (hi d 1 - lo d 1 + 1)).
(** arch_mesh.c:221-222: distance along one dimension *)
Definition mdist1 (d0 d1 : mdom) (k : Z) : Z := Z.quot (Z.abs (lo d0 k + hi d0 k - lo d1 k - hi d1 k) + 1) 2.
(** arch_mesh.c:215-225 *)
Definition archMesh2DomDist (c : list Z) (d0 d1 : mdom) : res Z := Ok (mdist1 d0 d1 0 + mdist1 d0 d1 1).
(** arch_mesh.c:256-271: split dimension [k] at [m] *)
Definition msplit (d : mdom) (k m : Z) : mdom * mdom := (upd 0 d k (lo d k, m), upd 0 d k (m + 1, hi d k)).
(** arch_mesh.c:235-274 *)
Definition archMesh2DomBipart (c : list Z) (d : mdom) : res (mdom * mdom) :=
  let s0 := hi d 0 - lo d 0 in
  let s1 := hi d 1 - lo d 1 in
  if Z.lor s0 s1 =? 0 then Err 1 else
  let k := if (s1 <? s0) || ((s0 =? s1) && (dim c 1 <? dim c 0)) then 0 else 1 in
  Ok (msplit d k (Z.quot (lo d k + hi d k) 2)).
(** arch_mesh.c:276-305 *)
Definition archMesh2DomBipartO (c : list Z) (d : mdom) : res (mdom * mdom) :=
  if (lo d 0 =? hi d 0) && (lo d 1 =? hi d 1) then Err 1 else
  let k := if hi d 1 =? lo d 1 then 0 else 1 in
  Ok (msplit d k (Z.quot (lo d k + hi d k) 2)).
(** arch_mesh.c:307-337 *)
Definition archMesh2DomBipartU (c : list Z) (d : mdom) : res (mdom * mdom) :=
  if (lo d 0 =? hi d 0) && (lo d 1 =? hi d 1) then Err 1 else
  let k := if hi d 1 - lo d 1 <? hi d 0 - lo d 0 then 0 else 1 in
  Ok (msplit d k (Z.quot (lo d k + hi d k + hi d k) 3)).
Definition incl1 (d0 d1 : mdom) (k : Z) : bool := (lo d0 k <=? lo d1 k) && (hi d1 k <=? hi d0 k).
(** arch_mesh.c:347-360 *)
Definition archMesh2DomIncl (c : list Z) (d0 d1 : mdom) : res bool := Ok (incl1 d0 d1 0 && incl1 d0 d1 1).

(** arch_mesh.c:434-442 *)
Definition archMesh3DomNum (c : list Z) (d : mdom) : res Z :=
  Ok ((lo d 2 * dim c 1 + lo d 1) * dim c 0 + lo d 0).
(** arch_mesh.c:452-470 *)
Definition archMesh3DomTerm (c : list Z) (t : Z) : res mdom :=
  if t <? dim c 0 * dim c 1 * dim c 2 then
    let x := Z.rem t (dim c 0) in
    let y := Z.rem (Z.quot t (dim c 0)) (dim c 1) in
    let z := Z.quot t (dim c 0 * dim c 1) in
    Ok [(x, x); (y, y); (z, z)]
  else Err 1.
(** arch_mesh.c:476-484 *)
Definition archMesh3DomSize (c : list Z) (d : mdom) : res Z :=
  Ok ((hi d 0 - lo d 0 + 1) * (hi d 1 - lo d 1 + 1) * (hi d 2 - lo d 2 + 1)).
(** arch_mesh.c:491-503 *)
Definition archMesh3DomDist (c : list Z) (d0 d1 : mdom) : res Z :=
  Ok (mdist1 d0 d1 0 + mdist1 d0 d1 1 + mdist1 d0 d1 2).
(** arch_mesh.c:513-579 *)
Definition archMesh3DomBipart (c : list Z) (d : mdom) : res (mdom * mdom) :=
  let siz := fun k => hi d k - lo d k in
  if Z.lor (Z.lor (siz 0) (siz 1)) (siz 2) =? 0 then Err 1 else
  let k := if dim c 0 <? dim c 1 then 1 else 0 in
  let k := if dim c k <? dim c 2 then 2 else k in
  let kt := k in
  let k := if siz k <? siz ((kt + 1) mod 3) then (kt + 1) mod 3 else k in
  let k := if siz k <? siz ((kt + 2) mod 3) then (kt + 2) mod 3 else k in
  Ok (msplit d k (Z.quot (lo d k + hi d k) 2)).
(** arch_mesh.c:589-604 *)
Definition archMesh3DomIncl (c : list Z) (d0 d1 : mdom) : res bool :=
  Ok (incl1 d0 d1 0 && incl1 d0 d1 1 && incl1 d0 d1 2).

(** arch_mesh.c:837-849: Horner's rule from the last dimension *)
Fixpoint meshNum (c : list Z) (x : list Z) : Z :=
  match c, x with
  | c0 :: c', x0 :: x' => match c' with [] => x0 | _ => meshNum c' x' * c0 + x0 end
  | _, _ => 0
  end.
Definition archMeshXDomNum (c : list Z) (d : mdom) : res Z :=
  match c with [] => UB | _ => Ok (meshNum c (map fst d)) end.   (* c[-1] is read when dimnnbr is zero *)
(** arch_mesh.c:859-878 *)
Fixpoint meshTerm (c : list Z) (t : Z) : list Z * Z :=
  match c with
  | [] => ([], t)
  | c0 :: c' => let '(x, r) := meshTerm c' (Z.quot t c0) in (Z.rem t c0 :: x, r)
  end.
Definition archMeshXDomTerm (c : list Z) (t : Z) : res mdom :=
  let '(x, r) := meshTerm c t in if 0 <? r then Err 1 else Ok (map (fun v => (v, v)) x).
(** arch_mesh.c:884-896 *)
Definition archMeshXDomSize (c : list Z) (d : mdom) : res Z :=
  for_ 0 (zlen c) (fun k s => do '(l, h) <- rd 0 d k; Ok (s * (h - l + 1))) 1.
(** arch_mesh.c:903-920 archMeshXDomDist and arch_torus.c:160-178
    archTorusXDomDist: the two bodies are identical *)
Definition wrapdist (c : list Z) (d0 d1 : mdom) (k : Z) : Z :=
  let t := Z.abs (lo d0 k + hi d0 k - lo d1 k - hi d1 k) in
  if dim c k <? t then 2 * dim c k - t else t.
Definition archMeshXDomDist (c : list Z) (d0 d1 : mdom) : res Z :=
  do s <- for_ 0 (zlen c) (fun k s => Ok (s + wrapdist c d0 d1 k)) 0; Ok (Z.shiftr s 1).
Definition archTorusXDomDist (c : list Z) (d0 d1 : mdom) : res Z :=
  do s <- for_ 0 (zlen c) (fun k s => Ok (s + wrapdist c d0 d1 k)) 0; Ok (Z.shiftr s 1).
(** arch_torus.c:93-111 *)
Definition archTorus2DomDist (c : list Z) (d0 d1 : mdom) : res Z :=
  Ok (Z.shiftr (wrapdist c d0 d1 0 + wrapdist c d0 d1 1) 1).
(** arch_torus.c:124-146 *)
Definition archTorus3DomDist (c : list Z) (d0 d1 : mdom) : res Z :=
  Ok (Z.shiftr (wrapdist c d0 d1 0 + wrapdist c d0 d1 1 + wrapdist c d0 d1 2) 1).
(** arch_mesh.c:930-943 *)
Definition archMeshXDomFrst (c : list Z) : res mdom := Ok (map (fun n => (0, n - 1)) c).
(** arch_mesh.c:952-971 *)
Fixpoint meshLoad (imax : Z) (c : list Z) (s : stream) : res (mdom * stream) :=
  match c with
  | [] => Ok ([], s)
  | _ :: c' =>
      do '(a, b, s) <- load2 imax s;
      if (b <? a) || (a <? 0) then Err 1 else
      do '(d, s) <- meshLoad imax c' s; Ok ((a, b) :: d, s)
  end.
Definition archMeshXDomLoad (imax : Z) (c : list Z) (s : stream) : res (mdom * stream) := meshLoad imax c s.
(** arch_mesh.c:980-998 *)
Definition archMeshXDomSave (d : mdom) : stream :=
  flat_map (fun '(a, b) => intSave a ++ [32] ++ intSave b ++ [32]) d.
(** arch_mesh.c:1008-1057: the loop goes from the last dimension to the first;
    state: (archdimsizmax, domndimflg, domndimsizmax, domndimval) *)
Definition meshPick (c : list Z) (d : mdom) (k : Z) (st : Z * Z * Z * Z) : Z * Z * Z * Z :=
  let '(amax, flg, smax, kval) := st in
  let siz := hi d k - lo d k in
  let flg := Z.lor flg siz in
  if siz <? smax then (amax, flg, smax, kval) else
  if (siz =? smax) && (dim c k <=? amax) then (amax, flg, smax, kval) else
  (dim c k, flg, siz, k).
Fixpoint meshPickAll (c : list Z) (d : mdom) (n : nat) (st : Z * Z * Z * Z) : Z * Z * Z * Z :=
  match n with O => st | S n => meshPickAll c d n (meshPick c d (Z.of_nat n) st) end.
Definition archMeshXDomBipart (c : list Z) (d : mdom) : res (mdom * mdom) :=
  let '(_, flg, _, k) := meshPickAll c d (length c) (0, 0, -1, zlen c - 1) in
  if flg =? 0 then Err 1 else Ok (msplit d k (Z.quot (lo d k + hi d k) 2)).
(** arch_mesh.c:1067-1082 *)
Definition archMeshXDomIncl (c : list Z) (d0 d1 : mdom) : res bool :=
  Ok (forallb (incl1 d0 d1) (zseq 0 (zlen c))).

(** ** Tree leaves *)

(** arch_tleaf.h:81-95 *)
Record tleaf := mktl { t_termnbr : Z; t_size : list Z; t_link : list Z; t_perm : list Z; t_peri : list Z }.
Definition t_levlnbr (a : tleaf) : Z := zlen (t_size a).
Record tdom := mkt { d_levl : Z; d_min : Z; d_nbr : Z }.

(** arch_tleaf.c:373-375: size of the blocks below level [l] *)
Definition tblock (a : tleaf) (l : Z) : res Z :=
  for_ l (t_levlnbr a) (fun k s => do z <- rd 0 (t_size a) k; Ok (s * z)) 1.
(** arch_tleaf.c:365-378 *)
Definition archTleafDomNum (a : tleaf) (d : tdom) : res Z := do s <- tblock a (d_levl d); Ok (d_min d * s).
(** arch_tleaf.c:388-410 *)
Definition archTleafDomTerm (a : tleaf) (t : Z) : res tdom :=
  if t <? t_termnbr a then Ok (mkt (t_levlnbr a) t 1) else Err 1.
(** arch_tleaf.c:416-429 *)
Definition archTleafDomSize (a : tleaf) (d : tdom) : res Z := do s <- tblock a (d_levl d); Ok (s * d_nbr d).
(** arch_tleaf.c:461-478: climb index [m] from level [l] to level [l'] < [l] *)
Definition tclimb (a : tleaf) (l l' m dist : Z) : res (Z * Z) :=
  for_ 0 (l - l') (fun k '(m, dist) =>
    do z <- rd 0 (t_size a) (l - 1 - k);
    do t <- rd 0 (t_link a) (l - 1 - k);
    Ok (Z.quot m z, dist + t)) (m, dist).
(** arch_tleaf.c:489-500: climb both until they meet *)
Definition tmeet (a : tleaf) (l m0 m1 dist : Z) : res Z :=
  loop (S (Z.to_nat l)) (fun '(l, m0, m1, dist) =>
    let l := l - 1 in
    do z <- rd 0 (t_size a) l;
    do t <- rd 0 (t_link a) l;
    let m0 := Z.quot m0 z in
    let m1 := Z.quot m1 z in
    if negb (m0 =? m1) then Ok (inl (l, m0, m1, dist + t)) else Ok (inr (dist + t))) (l, m0, m1, dist).
(** arch_tleaf.c:436-503 *)
Definition archTleafDomDist (a : tleaf) (d0 d1 : tdom) : res Z :=
  let l0 := d_levl d0 in
  let l1 := d_levl d1 in
  do '(m0, n0, m1, n1, l, dist) <-
    (if l1 <? l0 then do '(m, dist) <- tclimb a l0 l1 (d_min d0) 0; Ok (m, 1, d_min d1, d_nbr d1, l1, dist)
     else if l0 <? l1 then do '(m, dist) <- tclimb a l1 l0 (d_min d1) 0; Ok (d_min d0, d_nbr d0, m, 1, l0, dist)
     else Ok (d_min d0, d_nbr d0, d_min d1, d_nbr d1, l0, 0));
  if (if m0 <=? m1 then m1 + n1 <=? m0 + n0 else m0 + n0 <=? m1 + n1)
  then Ok (Z.quot dist 2)
  else tmeet a l m0 m1 dist.
(** arch_tleaf.c:513-523 *)
Definition archTleafDomFrst (a : tleaf) : res tdom := Ok (mkt 0 0 1).
(** arch_tleaf.c:532-548 *)
Definition archTleafDomLoad (imax : Z) (a : tleaf) (s : stream) : res (tdom * stream) :=
  do '(l, m, s) <- load2 imax s;
  do '(n, s) <- orerr (intLoad imax s) 1;
  if (l <? 0) || (t_levlnbr a <? l) then Err 1 else Ok (mkt l m n, s).
(** arch_tleaf.c:557-572 *)
Definition archTleafDomSave (d : tdom) : stream :=
  intSave (d_levl d) ++ [32] ++ intSave (d_min d) ++ [32] ++ intSave (d_nbr d) ++ [32].
(** arch_tleaf.c:582-614 *)
Definition archTleafDomBipart (a : tleaf) (d : tdom) : res (tdom * tdom) :=
  do '(l, m, sz) <-
    (if d_nbr d <=? 1 then
       if t_levlnbr a <=? d_levl d then Err 1 else
       do z <- rd 0 (t_size a) (d_levl d);
       Ok (d_levl d + 1, d_min d * z, z)
     else Ok (d_levl d, d_min d, d_nbr d));
  let n0 := Z.shiftr (sz + 1) 1 in
  Ok (mkt l m n0, mkt l (m + n0) (sz - n0)).
(** arch_tleaf.c:624-660 *)
Definition archTleafDomIncl (a : tleaf) (d0 d1 : tdom) : res bool :=
  let l0 := d_levl d0 in
  let l1 := d_levl d1 in
  if l1 <? l0 then Ok false else
  do '(m1, n1) <-
    (if l0 <? l1 then do '(m, _) <- tclimb a l1 l0 (d_min d1) 0; Ok (m, 1) else Ok (d_min d1, d_nbr d1));
  Ok (negb ((m1 + n1 <=? d_min d0) || (d_min d0 + d_nbr d0 <=? m1))).

(** arch_tleaf.c:784-802 *)
Definition archLtleafDomNum (a : tleaf) (d : tdom) : res Z :=
  do s <- tblock a (d_levl d);
  let n := d_min d * s in
  if zlen (t_perm a) =? 0 then UB else
  let p := Z.rem n (zlen (t_perm a)) in
  do q <- rd 0 (t_perm a) p;
  Ok (n - p + q).
(** arch_tleaf.c:812-838 *)
Definition archLtleafDomTerm (a : tleaf) (t : Z) : res tdom :=
  if t <? t_termnbr a then
    if zlen (t_perm a) =? 0 then UB else
    let p := Z.rem t (zlen (t_perm a)) in
    do q <- rd 0 (t_peri a) p;
    Ok (mkt (t_levlnbr a) (t - p + q) 1)
  else Err 1.
