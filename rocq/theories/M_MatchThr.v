(** Model of multi-threaded graph matching: graph_match_scan.c without
    GRAPHMATCHSCANSEQ, and the threaded path of graph_match.c:267-377.

    Threads take atomic steps, one shared-memory access per step, in any order.
    The mate array is read without synchronisation; a read may return the
    current value or, instead, the initial one (-1), which covers reads of
    values written by other threads but not yet visible.  Lock operations are
    atomic read-modify-writes (__sync_lock_test_and_set). *)
From Verif Require Import Base M_Int M_Graph M_Sort M_Match.

(** Where a thread is in graph_match_scan.c, with its local variables.
    [v] is finevertnum, [w] finevertbst. *)
Inductive mpc : Type :=
| MTop                                (* line 102, about to read the mate of the next vertex *)
| MTrim (v : Z)                       (* lines 123-125 *)
| MLast (v q : Z)                     (* lines 127-147; [q] is finequisnnd *)
| MNbr (v e bst lbst : Z)             (* lines 151-172 *)
| MLock (v w : Z)                     (* line 176 *)
| MLock2 (v w : Z)                    (* line 180, lock of [v] held *)
| MRel (v : Z)                        (* lines 181-183 *)
| MWmate (v w : Z)                    (* line 185, both locks held *)
| MWself (v w : Z)                    (* lines 190-191 *)
| MDone.                              (* lines 194-196, at the barrier *)

(** graph_coarsen.h:126-140, the fields used in matching: queue array, read
    index, end of queue, write index (finequeunew), number of coarse vertices *)
Record mthr := mkthr { mq : list Z; mnum : Z; mnnd : Z; mnew : Z; mcnt : Z; mp : mpc }.

Section Thr.
Context (fx el nomerge : bool) (g : graph) (fix_ par : option (list Z)) (dlt : Z).

(** volatile read of the mate array, possibly of a stale cell *)
Definition rmate (stale : bool) (mate : list Z) (w : Z) : res Z :=
  do m <- rd (baseval g) mate w; Ok (if stale then -1 else m).

Definition goto (t : mthr) (p : mpc) : mthr := mkthr (mq t) (mnum t) (mnnd t) (mnew t) (mcnt t) p.
(** [continue] *)
Definition next (t : mthr) : mthr := mkthr (mq t) (mnum t + dlt) (mnnd t) (mnew t) (mcnt t) MTop.

(** One step of a thread on the mate and lock arrays. *)
Definition tstep (stale : bool) (mate lock : list Z) (t : mthr) : res (list Z * list Z * mthr) :=
  let b := baseval g in
  match mp t with
  | MTop =>
      if mnum t <? mnnd t then
        do v <- rd 0 (mq t) (mnum t);
        do m <- rmate stale mate v;
        if 0 <=? m then Ok (mate, lock, next t) else
        do lo <- rvert g v;
        do hi <- rvend g v;
        Ok (mate, lock, goto t (if lo =? hi then (if nomerge then MLock v v else MTrim v) else MNbr v lo v (-1)))
      else Ok (mate, lock, goto t MDone)
  | MTrim v =>
      if mnum t <? mnnd t then
        do w <- rd 0 (mq t) (mnnd t - dlt);
        do m <- rmate stale mate w;
        if 0 <=? m then Ok (mate, lock, mkthr (mq t) (mnum t) (mnnd t - dlt) (mnew t) (mcnt t) (MTrim v))
        else Ok (mate, lock, goto t (MLast v (mnnd t)))
      else Ok (mate, lock, goto t (MLast v (mnnd t)))
  | MLast v q =>
      if mnum t <? q then
        do w <- rd 0 (mq t) (q - dlt);
        do m <- rmate stale mate w;
        do c <- (if m <? 0 then rcompat fx b fix_ par v w else Ok false);
        Ok (mate, lock, goto t (if c : bool then MLock v w else MLast v (q - dlt)))
      else Ok (mate, lock, goto t (MLock v v))
  | MNbr v e bst lbst =>
      do hi <- rvend g v;
      do w <- redge g e;
      do m <- rmate stale mate w;
      do c <- (if m <? 0 then rcompat fx b fix_ par v w else Ok false);
      do '(c, l) <- (if (c : bool) && el then
                       match edlotab g with
                       | None => UB
                       | Some t => do l <- rd b t e; Ok (lbst <? l, l)
                       end
                     else Ok (c, lbst));
      if (c : bool) && negb el then Ok (mate, lock, goto t (MLock v w)) else
      let '(bst, lbst) := if c : bool then (w, l) else (bst, lbst) in
      Ok (mate, lock, goto t (if e + 1 <? hi then MNbr v (e + 1) bst lbst else MLock v bst))
  | MLock v w =>
      do l <- rd b lock v;
      do lock <- wr b lock v 1;
      if negb (l =? 0) then Ok (mate, lock, next t) else
      Ok (mate, lock, goto t (if negb (w =? v) then MLock2 v w else MWself v w))
  | MLock2 v w =>
      do l <- rd b lock w;
      do lock <- wr b lock w 1;
      Ok (mate, lock, goto t (if negb (l =? 0) then MRel v else MWmate v w))
  | MRel v =>
      do lock <- wr b lock v 0;
      do q <- wr 0 (mq t) (mnew t) v;
      Ok (mate, lock, mkthr q (mnum t + dlt) (mnnd t) (mnew t + 1) (mcnt t) MTop)
  | MWmate v w =>
      do mate <- wr b mate w v;
      Ok (mate, lock, goto t (MWself v w))
  | MWself v w =>
      do mate <- wr b mate v w;
      Ok (mate, lock, mkthr (mq t) (mnum t + dlt) (mnnd t) (mnew t) (mcnt t + 1) MTop)
  | MDone => Ok (mate, lock, t)
  end.

(** A schedule: which thread takes the next step, and whether its read of the
    mate array, if any, is stale. *)
Definition sstep (st : list Z * list Z * list mthr) (c : nat * bool) : res (list Z * list Z * list mthr) :=
  let '(mate, lock, ths) := st in
  match nth_error ths (fst c) with
  | None => Ok st
  | Some t => do '(mate, lock, t) <- tstep (snd c) mate lock t; Ok (mate, lock, updn ths (fst c) t)
  end.
Fixpoint srun (sched : list (nat * bool)) (st : list Z * list Z * list mthr) : res (list Z * list Z * list mthr) :=
  match sched with
  | [] => Ok st
  | c :: sched => do st <- sstep st c; srun sched st
  end.
End Thr.

(** graph_match_scan.c:99-101 and 331: a thread about to scan its queue *)
Definition mthr0 (que : list Z) (dlt qnbr : Z) : mthr :=
  mkthr que (Z.shiftr dlt 1) (Z.shiftr dlt 1 + qnbr * dlt) 0 0 MTop.

Definition mdone (t : mthr) : bool := match mp t with MDone => true | _ => false end.

(** graph_match.c:298-300, 316-329 and graph_coarsen.c:178-179: each thread
    builds and sorts the queue of its slice *)
Definition matchThreads (stksiz : Z) (g : graph) (thrdnbr : Z) : res (list mthr) :=
  for_ 0 thrdnbr (fun i ths =>
    let lo := baseval g + datascan (vertnbr g) thrdnbr i in
    let hi := baseval g + datascan (vertnbr g) thrdnbr (i + 1) in
    do que <- matchQueue stksiz g lo hi;
    Ok (ths ++ [mthr0 que 2 (hi - lo)])) [].

(** graph_match.c:343-348: thread 0 ends the queues of all threads *)
Definition matchReduce (fx el nomerge : bool) (g : graph) (fix_ par : option (list Z)) (mate : list Z) (ths : list mthr) : res (list Z * Z) :=
  for_ 0 (zlen ths) (fun i '(mate, nbr) =>
    match nth_error ths (Z.to_nat i) with
    | None => UB
    | Some t =>
        do '(mate, c) <- matchSeq fx el nomerge g fix_ par (mq t) 1 (mnew t) mate (mcnt t);
        Ok (mate, nbr + c)
    end) (mate, 0).

(** graph_match.c:267-377 graphMatch with locks, for one schedule of the part
    between the barriers of lines 320 and 337.  [Fuel] means that the schedule
    stops before all threads have reached the second barrier. *)
Definition graphMatchThr (stksiz : Z) (nomerge : bool) (g : graph) (fix_ par : option (list Z)) (vfixnbr : Z)
  (thrdnbr : Z) (sched : list (nat * bool)) : res (list Z * Z) :=
  let n := Z.to_nat (vertnbr g) in
  let fx := matchFx vfixnbr par in
  let el := matchEl g in
  do ths <- matchThreads stksiz g thrdnbr;
  do '(mate, lock, ths) <- srun fx el nomerge g fix_ par 2 sched (repeat (-1) n, repeat 0 n, ths);
  if forallb mdone ths then matchReduce fx el nomerge g fix_ par mate ths else Fuel.
