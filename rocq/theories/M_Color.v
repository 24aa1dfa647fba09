(** Model of graph colouring: library_graph_color.c. *)
From Verif Require Import Base M_Int M_Graph.

(** library_graph_color.c:123-124: one random value per vertex *)
Definition colorRand (w : Z) (r : randctx) (g : graph) : res (list Z * randctx) :=
  for_ (baseval g) (vertnbr g + baseval g) (fun _ '(rnd, r) => do '(x, r) <- intRandVal w r 32768; Ok (rnd ++ [x], r)) ([], r).

(** library_graph_color.c:139-152: does no neighbour still without a colour
    come before [v]?  ([edgenum >= edgennd] at line 153) *)
Definition colorScan (g : graph) (rnd col : list Z) (v rv lo hi : Z) : res bool :=
  loop (S (Z.to_nat (hi - lo))) (fun e =>
    if e <? hi then
      do w <- redge g e;
      do c <- rd (baseval g) col w;
      if 0 <=? c then Ok (inl (e + 1)) else
      do rw <- rd (baseval g) rnd w;
      if (rv <? rw) || ((rw =? rv) && (v <? w)) then Ok (inr false) else Ok (inl (e + 1))
    else Ok (inr true)) lo.

(** library_graph_color.c:131-157: one pass over the queue; the state is the
    colour array, the queue array and the end of the new queue *)
Definition colorPass (g : graph) (rnd : list Z) (queunnd colonum : Z) (col que : list Z) : res (list Z * list Z * Z) :=
  for_ (baseval g) queunnd (fun q '(col, que, qn) =>
    do v <- (if queunnd =? vertnbr g + baseval g then Ok q else rd (baseval g) que q);
    do rv <- rd (baseval g) rnd v;
    do lo <- rvert g v;
    do hi <- rvend g v;
    do o <- colorScan g rnd col v rv lo hi;
    if o : bool then do col <- wr (baseval g) col v colonum; Ok (col, que, qn)
    else do que <- wr (baseval g) que qn v; Ok (col, que, qn + 1)) (col, que, baseval g).

(** library_graph_color.c:126-161: passes until the queue is empty; [que0] is
    what the allocated queue array holds *)
Definition colorLoop (g : graph) (rnd que0 : list Z) : res (list Z * Z) :=
  loop (S (Z.to_nat (vertnbr g))) (fun '(col, que, queunnd, colonum) =>
    if baseval g <? queunnd then
      do '(col, que, qn) <- colorPass g rnd queunnd colonum col que;
      Ok (inl (col, que, qn, colonum + 1))
    else Ok (inr (col, colonum)))
    (repeat (-1) (Z.to_nat (vertnbr g)), que0, vertnbr g + baseval g, 0).

(** library_graph_color.c:75-170 SCOTCH_graphColor; allocation succeeds *)
Definition graphColor (w : Z) (r : randctx) (g : graph) (que0 : list Z) : res (list Z * Z * randctx) :=
  do '(rnd, r) <- colorRand w r g;
  do '(col, colonbr) <- colorLoop g rnd que0;
  Ok (col, colonbr, r).
