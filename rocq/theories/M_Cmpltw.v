(** Model of the weighted complete graph architecture (arch_cmpltw.c).

    [ArchCmpltwLoad] cells are pairs (veloval, vertnum).  Anum overflow and
    memory exhaustion are not modelled.  [fscanf "%ld"] is modelled by the
    library's integer reader [intLoad], which accepts the same text. *)
From Verif Require Import Base Mem M_Int M_Sort M_Arch.

(** arch_cmpltw.h:60-80 *)
Record cmpltw := mkw { w_nbr : Z; w_tab : list (Z * Z); w_sum : Z }.
Record wdom := mkwd { wd_min : Z; wd_nbr : Z; wd_vel : Z }.

(** arch_cmpltw.c:94-107: the distribution loop; state (velotab, vesotab,
    ver0num, ver1num, vel0sum, vel1sum), vertnum = vertnbr - 2 - k *)
Definition wdistr (k : Z) (n : Z) (st : list (Z * Z) * list (Z * Z) * Z * Z * Z * Z) :=
  let '(ve, vs, v0, v1, s0, s1) := st in
  do x <- rd 0 ve (n - 2 - k);
  if s1 <? s0
  then do vs <- wr 0 vs v1 x; Ok (ve, vs, v0, v1 - 1, s0, s1 + fst x)
  else do ve <- wr 0 ve v0 x; Ok (ve, vs, v0 - 1, v1, s0 + fst x, s1).

(** arch_cmpltw.c:77-129 archCmpltwArchBuild3.  The two recursive calls work in
    place on the two sub-arrays; the model cuts them out and puts them back.
    [fuel] bounds the recursion depth. *)
Fixpoint archCmpltwArchBuild3 (fuel : nat) (ve vs : list (Z * Z)) (n : Z) : res (list (Z * Z)) :=
  match fuel with
  | O => Fuel
  | S f =>
      do x <- rd 0 ve (n - 1);
      do '(ve, vs, v0, v1, s0, s1) <- for_ 0 (n - 1) (fun k => wdistr k n) (ve, vs, n - 2, n - 1, fst x, 0);
      do '(ve, n0, n1) <-
        (if s1 <=? s0 then
           let n0 := n - v0 - 1 in
           let n1 := n - n0 in
           do ve <- memcp ve ve n1 0 n0;
           do ve <- memcp vs ve n0 n0 n1;
           Ok (ve, n0, n1)
         else
           let n0 := n - v1 - 1 in
           let n1 := n - n0 in
           do ve <- memcp vs ve n1 0 n0;
           Ok (ve, n0, n1));
      let ve0 := firstn (Z.to_nat n0) ve in
      let ve1 := skipn (Z.to_nat n0) ve in
      do ve0 <- (if 2 <? n0 then archCmpltwArchBuild3 f ve0 (firstn (Z.to_nat n0) vs) n0 else Ok ve0);
      do ve1 <- (if 2 <? n1 then archCmpltwArchBuild3 f ve1 (skipn (Z.to_nat n0) vs) n1 else Ok ve1);
      Ok (ve0 ++ ve1)
  end.

(** arch_cmpltw.c:131-155; [jk] is the arbitrary contents of the fresh vesotab *)
Definition archCmpltwArchBuild2 (stksiz : Z) (jk : Z * Z) (a : cmpltw) : res cmpltw :=
  if w_nbr a <? 3 then Ok a else
  do t <- intSort2asc2 stksiz (w_tab a) (w_nbr a);
  do t <- archCmpltwArchBuild3 (Z.to_nat (w_nbr a)) t (repeat jk (Z.to_nat (w_nbr a))) (w_nbr a);
  Ok (mkw (w_nbr a) t (w_sum a)).

(** arch_cmpltw.c:157-205 *)
Definition archCmpltwArchBuild (stksiz : Z) (jk : Z * Z) (vertnbr : Z) (velotab : list Z) : res cmpltw :=
  if vertnbr <=? 0 then Err 1 else
  do '(t, s) <- for_ 0 vertnbr (fun k '(t, s) =>
    do v <- rd 0 velotab k;
    if v <=? 0 then Err 1 else Ok (t ++ [(v, k)], s + v)) ([], 0);
  archCmpltwArchBuild2 stksiz jk (mkw vertnbr t s).

(** arch_cmpltw.c:214-269 *)
Definition archCmpltwArchLoad (imax stksiz : Z) (jk : Z * Z) (str : stream) : res (cmpltw * stream) :=
  do '(vertnbr, str) <- orerr (intLoad imax str) 1;
  if vertnbr <? 1 then Err 1 else
  do '(t, s, str) <- for_ 0 vertnbr (fun k '(t, s, str) =>
    do '(v, str) <- orerr (intLoad imax str) 1;
    if v <? 1 then Err 1 else Ok (t ++ [(v, k)], s + v, str)) ([], 0, str);
  do a <- archCmpltwArchBuild2 stksiz jk (mkw vertnbr t s);
  Ok (a, str).

(** arch_cmpltw.c:301-313: index of the first cell bearing label [v], if any *)
Fixpoint wfind (t : list (Z * Z)) (v : Z) : option Z :=
  match t with [] => None | (w, u) :: t' => if u =? v then Some w else wfind t' v end.
(** arch_cmpltw.c:278-322 *)
Definition archCmpltwArchSave (a : cmpltw) : stream :=
  intSave (w_nbr a) ++
  flat_map (fun v => match wfind (w_tab a) v with Some w => 32 :: intSave w | None => [] end) (zseq 0 (w_nbr a)) ++ [10].

(** arch_cmpltw.c:356-362 *)
Definition archCmpltwDomNum (a : cmpltw) (d : wdom) : res Z := do x <- rd 0 (w_tab a) (wd_min d); Ok (snd x).
(** arch_cmpltw.c:373-401: the search loop, then the read of the cell found *)
Definition archCmpltwDomTerm (a : cmpltw) (t : Z) : res wdom :=
  if t <? w_nbr a then
    do i <- loop (S (Z.to_nat (w_nbr a))) (fun i =>
      if i <? w_nbr a then do x <- rd 0 (w_tab a) i; if snd x =? t then Ok (inr i) else Ok (inl (i + 1))
      else Ok (inr i)) 0;
    do x <- rd 0 (w_tab a) i;
    Ok (mkwd i 1 (fst x))
  else Err 1.
(** arch_cmpltw.c:407-413 *)
Definition archCmpltwDomSize (a : cmpltw) (d : wdom) : res Z := Ok (wd_nbr d).
(** arch_cmpltw.c:419-425 *)
Definition archCmpltwDomWght (a : cmpltw) (d : wdom) : res Z := Ok (wd_vel d).
(** arch_cmpltw.c:432-440 *)
Definition archCmpltwDomDist (a : cmpltw) (d0 d1 : wdom) : res Z :=
  Ok (if (wd_min d0 =? wd_min d1) && (wd_nbr d0 =? wd_nbr d1) then 0 else 1).
(** arch_cmpltw.c:450-460 *)
Definition archCmpltwDomFrst (a : cmpltw) : res wdom := Ok (mkwd 0 (w_nbr a) (w_sum a)).
(** arch_cmpltw.c:469-499; [old] is what the weight field of the domain to fill held *)
Definition archCmpltwDomLoad (imax old : Z) (a : cmpltw) (str : stream) : res (wdom * stream) :=
  do '(m, n, str) <- load2 imax str;
  if n <? 1 then Err 1 else
  do mn <- ckint imax (n + m);
  if w_nbr a <? mn then Err 1 else
  do s <- for_ m (m + n) (fun i s => do x <- rd 0 (w_tab a) i; Ok (s + fst x)) 0;
  Ok (mkwd m n (old + s), str).
(** arch_cmpltw.c:508-522 *)
Definition archCmpltwDomSave (d : wdom) : stream := intSave (wd_min d) ++ [32] ++ intSave (wd_nbr d) ++ [32].
(** arch_cmpltw.c:532-566 *)
Definition archCmpltwDomBipart (a : cmpltw) (d : wdom) : res (wdom * wdom) :=
  if wd_nbr d <=? 1 then Err 1 else
  let v := wd_min d + wd_nbr d - 1 in
  do x <- rd 0 (w_tab a) v;
  let half := Z.quot (wd_vel d) 2 in
  do '(v, s1) <- loop (S (Z.to_nat (wd_nbr d))) (fun '(v, s1) =>
    if wd_min d <? v then
      do x <- rd 0 (w_tab a) v;
      if half <? s1 + fst x then Ok (inr (v, s1)) else Ok (inl (v - 1, s1 + fst x))
    else Ok (inr (v, s1))) (v - 1, fst x);
  let m1 := v + 1 in
  let n0 := m1 - wd_min d in
  Ok (mkwd (wd_min d) n0 (wd_vel d - s1), mkwd m1 (wd_nbr d - n0) s1).
(** arch_cmpltw.c:576-587 *)
Definition archCmpltwDomIncl (a : cmpltw) (d0 d1 : wdom) : res bool :=
  Ok ((wd_min d0 <=? wd_min d1) && (wd_min d1 + wd_nbr d1 <=? wd_min d0 + wd_nbr d0)).
