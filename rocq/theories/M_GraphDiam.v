(** Model of the pseudo-diameter of graphs: graph_diam.c, called by library_graph_diam.c.  Memory is supposed to be
    available. *)
From Verif Require Import Base M_Graph.

(** The heap is modelled by the list of the vertices it holds, whose keys are their distances (graph_diam.c:70-84): the
    Fibonacci heap is the subject of property C27.  The vertex that fiboHeapMin gives among those of least key
    depends on the history of the heap: [pick k] is the choice made for the [k]-th extracted vertex. *)
Definition heappick := Z -> list Z -> list Z -> Z.

(** State of a search: distances ([gmax] if not reached, -1 if processed), heap *)
Record dmst := mkdmst { dm_dist : list Z; dm_heap : list Z }.

(** graph_diam.c:164-182, body of the arc loop; [d]: distance when leaving the vertex *)
Definition diamArc (gmax : Z) (g : graph) (d e : Z) (s : dmst) : res dmst :=
  let b := baseval g in
  do w <- redge g e;
  do l <- (match edlotab g with None => Ok 1 | Some t => rd b t e end);
  do dt <- gadd gmax d l;
  do od <- rd b (dm_dist s) w;
  if dt <? od then
    do t <- wr b (dm_dist s) w dt;
    Ok (mkdmst t (if od =? gmax then w :: dm_heap s else dm_heap s))
  else Ok s.

(** 145-183: search from the vertices in the heap; [k]: vertices processed, [dm] and [rt]: largest distance and its vertex *)
Definition diamSearch (gmax : Z) (pick : heappick) (g : graph) (st : dmst * Z * Z * Z) : res (Z * Z * Z) :=
  let b := baseval g in
  loop (S (S (Z.to_nat (vertnbr g)))) (fun '(s, k, dm, rt) =>
    match dm_heap s with
    | [] => Ok (inr (k, dm, rt))
    | _ =>
        let v := pick k (dm_dist s) (dm_heap s) in
        let hp := filter (fun w => negb (w =? v)) (dm_heap s) in
        do d <- rd b (dm_dist s) v;
        do t <- wr b (dm_dist s) v (-1);
        let '(dm, rt) := if dm <? d then (d, v) else (dm, rt) in
        do d <- (match velotab g with None => Ok d | Some t => do l <- rd b t v; gadd gmax d l end);
        do lo <- rvert g v; do hi <- rvend g v;
        do s <- for_ lo hi (diamArc gmax g d) (mkdmst t hp);
        Ok (inl (s, k + 1, dm, rt))
    end) st.

(** 96-198.  [rn]: random number below the number of vertices (128); [picks i]: choices during the [i]-th search. *)
Definition graphDiamPV (fuel : nat) (gmax : Z) (picks : Z -> heappick) (rn : Z) (g : graph) : res Z :=
  let b := baseval g in
  if vertnbr g <=? 0 then Ok 0 else
  loop fuel (fun '(i, rt, dm) =>
    do t <- wr b (repeat gmax (Z.to_nat (vertnbr g))) rt 0;
    do '(k, dm', rt') <- diamSearch gmax (picks i) g (mkdmst t [rt], 0, dm, rt);
    if negb (k =? vertnbr g) then Ok (inr gmax) else
    if dm <? dm' then Ok (inl (i + 1, rt', dm')) else Ok (inr dm')) (0, rn + b, 0).
