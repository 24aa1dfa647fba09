(** Model of gain tables (gain.h, gain.c): an array of buckets, each of them the
    head of a doubly linked list of caller-provided links. *)
From Verif Require Import Base.

(** Pointers to links: the dummy link (gain.c:76), a table entry seen as a link
    (gain.c:255, 312), or a caller link, given by its address.  Link addresses are
    counted in links. *)
Inductive gptr : Set := GDum | GEnt (i : Z) | GLnk (a : Z).
Global Instance dflt_gptr : Dflt gptr := GDum.

(** gain.h:74-78; [tabl] is the index of the entry in the table *)
Record glnk := { l_next : gptr; l_prev : gptr; l_tabl : Z }.
Global Instance dflt_glnk : Dflt glnk := {| l_next := GDum; l_prev := GDum; l_tabl := 0 |}.

(** gain.h:90-100, with entry addresses as indices in tabk, together with the
    memory that holds the links: an array that starts at address [lb].  The field
    tablAdd is the boolean [g_log]. *)
Record gst := {
  g_log : bool; g_subbits : Z; g_submask : Z; g_totsize : Z;
  g_tmin : Z; g_tmax : Z; g_tend : Z; g_tabl : Z; g_entr : list gptr;
  g_lb : Z; g_mem : list glnk }.

Definition set_entr s e := {| g_log := g_log s; g_subbits := g_subbits s; g_submask := g_submask s; g_totsize := g_totsize s;
  g_tmin := g_tmin s; g_tmax := g_tmax s; g_tend := g_tend s; g_tabl := g_tabl s; g_entr := e; g_lb := g_lb s; g_mem := g_mem s |}.
Definition set_mem s m := {| g_log := g_log s; g_subbits := g_subbits s; g_submask := g_submask s; g_totsize := g_totsize s;
  g_tmin := g_tmin s; g_tmax := g_tmax s; g_tend := g_tend s; g_tabl := g_tabl s; g_entr := g_entr s; g_lb := g_lb s; g_mem := m |}.
Definition set_ext s lo hi := {| g_log := g_log s; g_subbits := g_subbits s; g_submask := g_submask s; g_totsize := g_totsize s;
  g_tmin := lo; g_tmax := hi; g_tend := g_tend s; g_tabl := g_tabl s; g_entr := g_entr s; g_lb := g_lb s; g_mem := g_mem s |}.
(** What a memory reallocation of the links does: same contents, other address
    (wgraph_part_fm.c:1290-1299) *)
Definition relocate s b := {| g_log := g_log s; g_subbits := g_subbits s; g_submask := g_submask s; g_totsize := g_totsize s;
  g_tmin := g_tmin s; g_tmax := g_tmax s; g_tend := g_tend s; g_tabl := g_tabl s; g_entr := g_entr s; g_lb := b; g_mem := g_mem s |}.

(** Field accesses.  The [prev] field of the dummy link is written but never
    read, hence it is not represented; a table entry has no [prev] field. *)
Definition rdl (s : gst) (a : Z) : res glnk := rd (g_lb s) (g_mem s) a.
Definition wrl (s : gst) (a : Z) (l : glnk) : res gst := do m <- wr (g_lb s) (g_mem s) a l; Ok (set_mem s m).
Definition set_next (s : gst) (p v : gptr) : res gst :=
  match p with
  | GDum => UB
  | GEnt i => do e <- wr 0 (g_entr s) i v; Ok (set_entr s e)
  | GLnk a => do l <- rdl s a; wrl s a {| l_next := v; l_prev := l_prev l; l_tabl := l_tabl l |}
  end.
Definition set_prev (s : gst) (p v : gptr) : res gst :=
  match p with
  | GDum => Ok s
  | GEnt _ => UB
  | GLnk a => do l <- rdl s a; wrl s a {| l_next := l_next l; l_prev := v; l_tabl := l_tabl l |}
  end.
Definition set_tabl (s : gst) (a v : Z) : res gst :=
  do l <- rdl s a; wrl s a {| l_next := l_next l; l_prev := l_prev l; l_tabl := v |}.

(** gain.h:64 *)
Definition GAIN_LINMAX : Z := 1024.

(** gain.c:145-187; [w] is the number of bits of INT, [lb] and [mem] the caller's
    links.  [submask] is computed in type int.  Allocation succeeds. *)
Definition gainTablInit (w gainmax subbits lb : Z) (mem : list glnk) : res gst :=
  do z <- (if GAIN_LINMAX <=? gainmax
           then if (0 <=? subbits) && (subbits <=? 29) && ((w - subbits) * 2 ^ (subbits + 1) <? 2 ^ (w - 1)) && (subbits <=? w - 2)
                then Ok (true, subbits, 2 ^ (subbits + 1) - 1, (w - subbits) * 2 ^ (subbits + 1)) else UB
           else Ok (false, 0, 0, 2 * GAIN_LINMAX));
  let '(lg, sb, sm, tot) := z in
  Ok {| g_log := lg; g_subbits := sb; g_submask := sm; g_totsize := tot;
        g_tmin := tot - 1; g_tmax := 0; g_tend := tot - 1; g_tabl := tot / 2;
        g_entr := repeat GDum (Z.to_nat tot); g_lb := lb; g_mem := mem |}.

(** gain.c:207-219 *)
Definition gainTablFree (s : gst) : res gst :=
  do e <- for_ (g_tmin s) (g_tmax s + 1) (fun i e => wr 0 e i GDum) (g_entr s);
  Ok (set_ext (set_entr s e) (g_tend s) 0).

(** gain.c:244-248.  Computing the address of an entry outside the table is
    formally undefined in C; it is taken here as index arithmetic. *)
Definition entrLin (s : gst) (gain : Z) : Z :=
  let e := g_tabl s + gain in
  if e <? 0 then 0 else if g_tend s <? e then g_tend s else e.

(** gain.c:287, 291 *)
Definition logLoop (s : gst) (j : Z) : res (Z * Z) :=
  loop 65 (fun '(i, j) => if g_submask s <? j then Ok (inl (i + 1, Z.shiftr j 1)) else Ok (inr (i, j))) (0, j).
(** gain.c:286-294 *)
Definition entrLog (s : gst) (gain : Z) : res Z :=
  if 0 <=? gain then
    do '(i, j) <- logLoop s gain; Ok (g_tabl s + (Z.shiftl i (g_subbits s) + j))
  else
    do '(i, j) <- logLoop s (- (gain + 1)); Ok (g_tabl s + - (Z.shiftl i (g_subbits s) + j + 1)).

(** gain.c:250-253, 296-299 *)
Definition extend (s : gst) (e : Z) : gst :=
  set_ext s (if e <? g_tmin s then e else g_tmin s) (if g_tmax s <? e then e else g_tmax s).

(** gain.c:229-261 *)
Definition gainTablAddLin (s : gst) (a gain : Z) : res gst :=
  let e := entrLin s gain in
  let s := extend s e in
  do s <- set_tabl s a e;
  do h <- rd 0 (g_entr s) e;
  do s <- set_prev s h (GLnk a);
  do s <- set_prev s (GLnk a) (GEnt e);
  do h <- rd 0 (g_entr s) e;
  do s <- set_next s (GLnk a) h;
  set_next s (GEnt e) (GLnk a).
(** gain.c:271-316 *)
Definition gainTablAddLog (s : gst) (a gain : Z) : res gst :=
  do e <- entrLog s gain;
  let s := extend s e in
  do h <- rd 0 (g_entr s) e;
  do s <- set_prev s h (GLnk a);
  do s <- set_prev s (GLnk a) (GEnt e);
  do h <- rd 0 (g_entr s) e;
  do s <- set_next s (GLnk a) h;
  do s <- set_tabl s a e;
  set_next s (GEnt e) (GLnk a).
(** gain.h:127 *)
Definition gainTablAdd (s : gst) (a gain : Z) : res gst :=
  if g_log s then gainTablAddLog s a gain else gainTablAddLin s a gain.

(** gain.c:325-345, gain.h:129-130 *)
Definition gainTablDel (s : gst) (a : Z) : res gst :=
  do l <- rdl s a;
  do s <- set_prev s (l_next l) (l_prev l);
  do l <- rdl s a;
  set_next s (l_prev l) (l_next l).

(** A link pointer as returned to the caller: gain.c:369, 381, 411, 423 *)
Definition retlink (p : gptr) : res (option Z) :=
  match p with GLnk a => Ok (Some a) | _ => UB end.

(** gain.c:355-388 *)
Definition gainTablFrst (s : gst) : res (gst * option Z) :=
  do h <- rd 0 (g_entr s) (g_tmin s);
  match h with
  | GDum =>
      do r <- loop (Z.to_nat (g_totsize s) + 1) (fun e =>
        if e <=? g_tend s then
          do h <- rd 0 (g_entr s) e;
          match h with GDum => Ok (inl (e + 1)) | _ => Ok (inr (Some (e, h))) end
        else Ok (inr None)) (g_tmin s + 1);
      match r with
      | Some (e, h) => do o <- retlink h; Ok (set_ext s e (g_tmax s), o)
      | None => Ok (set_ext s (g_tend s) 0, None)
      end
  | _ => do o <- retlink h; Ok (s, o)
  end.

(** gain.c:397-428 *)
Definition gainTablNext (s : gst) (a : Z) : res (option Z) :=
  do l <- rdl s a;
  match l_next l with
  | GDum =>
      do r <- loop (Z.to_nat (g_totsize s) + 1) (fun e =>
        if e <? g_tend s then
          do h <- rd 0 (g_entr s) e;
          match h with GDum => Ok (inl (e + 1)) | _ => Ok (inr (Some h)) end
        else Ok (inr None)) (l_tabl l + 1);
      match r with Some h => retlink h | None => Ok None end
  | h => retlink h
  end.

(** gain.h:126 *)
Definition gainTablEmpty (s : gst) : bool := g_tmin s =? g_tend s.

(** The skewed address of a link (gain.c:453, 457): the operand is a caller link *)
Definition skew (d : Z) (p : gptr) : res Z := match p with GLnk a => Ok (a + d) | _ => UB end.
(** gain.c:456-460 *)
Definition moveList (d : Z) (s : gst) (p : Z) : res gst :=
  loop (length (g_mem s) + 1) (fun '(s, p) =>
    do l <- rdl s p;
    match l_next l with
    | GDum => Ok (inr s)
    | h => do q <- skew d h;
           do s <- set_next s (GLnk p) (GLnk q);
           do s <- set_prev s (GLnk q) (GLnk p);
           Ok (inl (s, q))
    end) (s, p).
(** gain.c:438-471 *)
Definition gainTablMove (s : gst) (d : Z) : res gst :=
  for_ (g_tmin s) (g_tmax s + 1) (fun e s =>
    do h <- rd 0 (g_entr s) e;
    match h with
    | GDum => Ok s
    | _ => do q <- skew d h;
           do s <- set_next s (GEnt e) (GLnk q);
           moveList d s q
    end) s.

(** The enumeration loop of the users of the table (bgraph_bipart_fm.c:128-130,
    vgraph_separate_fm.c:116-118): the links visited, in order. *)
Definition gainEnum (s : gst) : res (gst * list Z) :=
  do '(s, o) <- gainTablFrst s;
  do l <- loop (length (g_mem s) + 1) (fun '(o, acc) =>
    match o with
    | None => Ok (inr (rev acc))
    | Some a => do o <- gainTablNext s a; Ok (inl (o, a :: acc))
    end) (o, []);
  Ok (s, l).

(** Operations performed by a client on a table, and their results.  [GMove b] is
    a relocation of the link array to address [b], followed by the update. *)
Inductive gop := GAdd (k gain : Z) | GDel (k : Z) | GFrst | GNext (k : Z) | GFree | GMove (b : Z) | GList.
Inductive gout := ODone | OLink (o : option Z) | OList (l : list Z).
(** A client names its links by their rank in the link array. *)
Definition rank (s : gst) (o : option Z) : option Z := option_map (fun a => a - g_lb s) o.
Definition gstep (s : gst) (o : gop) : res (gst * gout) :=
  match o with
  | GAdd k g => do s <- gainTablAdd s (g_lb s + k) g; Ok (s, ODone)
  | GDel k => do s <- gainTablDel s (g_lb s + k); Ok (s, ODone)
  | GFrst => do '(s, r) <- gainTablFrst s; Ok (s, OLink (rank s r))
  | GNext k => do r <- gainTablNext s (g_lb s + k); Ok (s, OLink (rank s r))
  | GFree => do s <- gainTablFree s; Ok (s, ODone)
  | GMove b => do s' <- gainTablMove (relocate s b) (b - g_lb s); Ok (s', ODone)
  | GList => do '(s, l) <- gainEnum s; Ok (s, OList (map (fun a => a - g_lb s) l))
  end.
Fixpoint grun (s : gst) (l : list gop) : res (gst * list gout) :=
  match l with
  | [] => Ok (s, [])
  | o :: r => do '(s, x) <- gstep s o; do '(s, xs) <- grun s r; Ok (s, x :: xs)
  end.
