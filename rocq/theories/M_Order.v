(** Model of orderings: order.h, order.c, order_check.c, order_io.c. *)
From Verif Require Import Base M_Int.

(** order.h:94-98 *)
Definition ORDERCBLKNONE : Z := 0.
Definition ORDERCBLKNEDI : Z := 1.
Definition ORDERCBLKDICO : Z := 2.
Definition ORDERCBLKSEQU : Z := 4.
Definition ORDERCBLKLEAF : Z := 8.

(** order.h:113-118: type, number of vertices of the subtree, number of sons,
    array of sons ([None]: null pointer) *)
Inductive cblk := Cblk (typ vnod cnbr : Z) (tab : option (list cblk)).
Definition c_typ (t : cblk) := let 'Cblk x _ _ _ := t in x.
Definition c_vnod (t : cblk) := let 'Cblk _ x _ _ := t in x.
Definition c_nbr (t : cblk) := let 'Cblk _ _ x _ := t in x.
Definition c_tab (t : cblk) := let 'Cblk _ _ _ x := t in x.

(** order.h:129-140; the mutex and the ownership flag are not modelled *)
Record order := mkorder { o_base : Z; o_vnod : Z; o_treenbr : Z; o_cblknbr : Z; o_tree : cblk; o_peri : list Z }.

(** order.c:71-109; [peri] is the given or allocated array; allocation succeeds *)
Definition orderInit (base vnod : Z) (peri : list Z) : order :=
  mkorder base vnod 1 1 (Cblk ORDERCBLKLEAF vnod 0 None) peri.

(** order.c:159-171 *)
Definition orderPeri (permtab : list Z) (permbas permnbr : Z) (peritab : list Z) (peribas : Z) : res (list Z) :=
  for_ 0 permnbr (fun k t => do p <- rd 0 permtab k; wr 0 t (p - permbas) (k + peribas)) peritab.

(** order.c:193-223; state: range array, position in it, current number *)
Fixpoint orderRang2 (t : cblk) (st : list Z * Z * Z) {struct t} : res (list Z * Z * Z) :=
  let 'Cblk _ vnod cnbr tab := t in
  match tab with
  | None => let '(rang, p, ord) := st in do rang <- wr 0 rang p ord; Ok (rang, p + 1, ord + vnod)
  | Some l =>
      (fix sons (l : list cblk) (k : Z) (st : list Z * Z * Z) {struct l} : res (list Z * Z * Z) :=
         if k <=? 0 then Ok st else
         match l with [] => UB | c :: l' => do st <- orderRang2 c st; sons l' (k - 1) st end) l cnbr st
  end.
(** order.c:179-191 *)
Definition orderRang (o : order) (rangtab : list Z) : res (list Z) :=
  do '(rang, p, ord) <- orderRang2 (o_tree o) (rangtab, 0, o_base o);
  wr 0 rang p ord.

(** order.c:247-313; state: tree array and number of the last block not yet set.
    Sons are scanned from the last to the first; a son index past the array is
    undefined.  Unknown node types do nothing. *)
Fixpoint orderTree2 (b : Z) (t : cblk) (cbfa : Z) (st : list Z * Z) {struct t} : res (list Z * Z) :=
  let 'Cblk typ _ cnbr tab := t in
  match tab with
  | None => let '(tree, cbla) := st in do tree <- wr b tree cbla cbfa; Ok (tree, cbla - 1)
  | Some l =>
      (* 287-288: all sons have the same father *)
      let dico := fix dico (l : list cblk) (k : Z) (cbfa : Z) (st : list Z * Z) {struct l} : res (list Z * Z) :=
         if k <=? 0 then Ok st else
         match l with [] => UB | c :: l' => do st <- dico l' (k - 1) cbfa st; orderTree2 b c cbfa st end in
      (* 296-299: also returns the last block of the son just scanned *)
      let sequ := fix sequ (l : list cblk) (k : Z) (cbfa : Z) (st : list Z * Z) {struct l} : res (Z * (list Z * Z)) :=
         if k <=? 0 then Ok (cbfa, st) else
         match l with
         | [] => UB
         | c :: l' => do '(cbfa, st) <- sequ l' (k - 1) cbfa st; let cbla := snd st in do st <- orderTree2 b c cbfa st; Ok (cbla, st)
         end in
      if typ =? ORDERCBLKNEDI then
        if cnbr =? 3 then
          match l with
          | c0 :: c1 :: c2 :: _ =>
              let cbla := snd st in
              do st <- orderTree2 b c2 cbfa st;
              do st <- orderTree2 b c1 cbla st;
              orderTree2 b c0 cbla st
          | _ => UB
          end
        else dico l cnbr cbfa st
      else if typ =? ORDERCBLKDICO then dico l cnbr cbfa st
      else if typ =? ORDERCBLKSEQU then do '(_, st) <- sequ l cnbr cbfa st; Ok st
      else Ok st
  end.
(** order.c:231-245 *)
Definition orderTree (o : order) (treetab : list Z) : res (list Z) :=
  do '(tree, _) <- orderTree2 (o_base o) (o_tree o) (-1) (treetab, o_cblknbr o + o_base o - 1);
  Ok tree.

(** order_check.c:72-125; state: block and node counts *)
Fixpoint orderCheck2 (t : cblk) (st : Z * Z) {struct t} : res (Z * Z) :=
  let 'Cblk typ vnod cnbr tab := t in
  if vnod <? 1 then Err 1 else
  match tab with
  | Some l =>
      if negb (typ =? ORDERCBLKNEDI) && negb (typ =? ORDERCBLKDICO) && negb (typ =? ORDERCBLKSEQU) then Err 1 else
      if (cnbr <=? 0) || ((typ =? ORDERCBLKNEDI) && ((cnbr <? 2) || (3 <? cnbr))) then Err 1 else
      let st := (fst st + (cnbr - 1), snd st + cnbr) in
      do '(sum, st) <- (fix sons (l : list cblk) (k : Z) (sum : Z) (st : Z * Z) {struct l} : res (Z * (Z * Z)) :=
        if k <=? 0 then Ok (sum, st) else
        match l with
        | [] => UB
        | c :: l' => do st <- orderCheck2 c st; sons l' (k - 1) (sum + c_vnod c) st
        end) l cnbr 0 st;
      if negb (sum =? vnod) then Err 1 else Ok st
  | None =>
      if negb (typ =? ORDERCBLKLEAF) then Err 1 else
      if negb (cnbr =? 0) then Err 1 else Ok st
  end.

(** order_check.c:127-193.  Allocation succeeds for every size which is not
    negative; a negative size, converted to size_t, cannot be allocated. *)
Definition orderCheck (o : order) : res unit :=
  let b := o_base o in let n := o_vnod o in
  if negb (n =? c_vnod (o_tree o)) then Err 1 else
  if (o_cblknbr o <? 0) || (o_treenbr o <? o_cblknbr o) then Err 1 else
  if n <? 0 then Err 1 else
  do perm <- for_ 0 n (fun k perm =>
    do x <- rd 0 (o_peri o) k;
    if (x <? b) || (b + n <=? x) then Err 1 else
    do y <- rd b perm x;
    if negb (y =? -1) then Err 1 else
    wr b perm x k) (repeat (-1) (Z.to_nat n));
  do _ <- for_ 0 n (fun k u => do y <- rd 0 perm k; if y =? -1 then Err 1 else Ok u) tt;
  do '(c, t) <- orderCheck2 (o_tree o) (1, 1);
  if negb (c =? o_cblknbr o) then Err 1 else
  if negb (t =? o_treenbr o) then Err 1 else
  Ok tt.

(** ** Files.  fprintf of "%d\t%d\n" and "%d\n"; output errors are not modelled. *)
Definition line2 (a c : Z) : list Z := intSave a ++ [9] ++ intSave c ++ [10].
Definition line1 (a : Z) : list Z := intSave a ++ [10].

(** order_io.c:77-124.  [junk] gives the contents of the allocated array, of
    o_vnod cells; the count read replaces o_vnod without any check. *)
Definition orderLoad (imax : Z) (o : order) (lbl : bool) (junk : list Z) (s : stream) : res (order * stream) :=
  if lbl then Err 1 else
  match intLoad imax s with
  | Ok (n, s) =>
      do '(perm, s) <- for_ 0 n (fun k '(perm, s) =>
        match intLoad imax s with
        | Ok (v, s) =>
            match intLoad imax s with
            | Ok (x, s) => do perm <- wr 0 perm k x; if negb (v =? k + o_base o) then Err 1 else Ok (perm, s)
            | Err _ => Err 1 | UB => UB | Fuel => Fuel
            end
        | Err _ => Err 1 | UB => UB | Fuel => Fuel
        end) (junk, s);
      do peri <- orderPeri perm (o_base o) n (o_peri o) (o_base o);
      Ok (mkorder (o_base o) n (o_treenbr o) (o_cblknbr o) (o_tree o) peri, s)
  | Err _ => Err 1 | UB => UB | Fuel => Fuel
  end.

(** order_io.c:132-180; [junk] is the contents of the allocated array *)
Definition orderSave (o : order) (vlbl : option (list Z)) (junk : list Z) : res (list Z) :=
  do perm <- orderPeri (o_peri o) (o_base o) (o_vnod o) junk (o_base o);
  for_ 0 (o_vnod o) (fun k out =>
    match vlbl with
    | Some t => do x <- rd (o_base o) t (k + o_base o); do p <- rd 0 perm k; do y <- rd (o_base o) t p; Ok (out ++ line2 x y)
    | None => do p <- rd 0 perm k; Ok (out ++ line2 (k + o_base o) p)
    end) (line1 (o_vnod o)).

(** order_io.c:219-224 and 280-285: value of the block of each vertex *)
Definition blockValues (o : order) (rang : list Z) (val : Z -> res Z) (junk : list Z) : res (list Z) :=
  do '(_, t) <- for_ (o_base o) (o_base o + o_vnod o) (fun v '(c, t) =>
    do r <- rd 0 rang (c + 1);
    let c := if r <=? v then c + 1 else c in
    do p <- rd (o_base o) (o_peri o) v;
    do x <- val c;
    do t <- wr (o_base o) t p x;
    Ok (c, t)) (0, junk);
  Ok t.
Definition saveValues (o : order) (vlbl : option (list Z)) (t : list Z) : res (list Z) :=
  for_ (o_base o) (o_base o + o_vnod o) (fun v out =>
    do l <- (match vlbl with Some lt => rd (o_base o) lt v | None => Ok v end);
    do x <- rd (o_base o) t v;
    Ok (out ++ line2 l x)) (line1 (o_vnod o)).
(** order_io.c:189-238; [j1], [j2]: contents of the allocated arrays *)
Definition orderSaveMap (o : order) (vlbl : option (list Z)) (j1 j2 : list Z) : res (list Z) :=
  do rang <- orderRang o j1;
  do t <- blockValues o rang (fun c => Ok c) j2;
  saveValues o vlbl t.
(** order_io.c:247-299 *)
Definition orderSaveTree (o : order) (vlbl : option (list Z)) (j1 j2 j3 : list Z) : res (list Z) :=
  do rang <- orderRang o j1;
  do tree <- orderTree o j2;
  do t <- blockValues o rang (fun c => rd 0 tree c) j3;
  saveValues o vlbl t.
