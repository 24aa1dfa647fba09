(** Specification of halo graphs and of halo-induced subgraphs. *)
From Verif Require Import Base M_Graph S_Graph S_Induce M_Hgraph.

(** A valid graph, the last vertices of which are halo vertices: these are only linked to
    non-halo vertices, and are at the end of the neighbour lists they belong to. *)
Record hgraph_valid (h : hgraph) : Prop := {
  hv_graph : graph_valid (hs h);
  hv_read : graph_readable (hs h);
  hv_base : 0 <= baseval (hs h);
  hv_nbr : 0 <= vnohnbr h <= vertnbr (hs h);
  hv_nnd : vnohnnd h = baseval (hs h) + vnohnbr h;
  hv_noedlo : edlotab (hs h) = None;
  hv_vnum : forall t, vnumtab (hs h) = Some t -> vertnbr (hs h) <= zlen t;
  hv_vnhd : vnohnbr h <= zlen (vnhdtab h);
  hv_split : forall v, baseval (hs h) <= v < vnohnnd h ->
    vert (hs h) v <= at_ (baseval (hs h)) (vnhdtab h) v <= vend (hs h) v /\
    (forall e, vert (hs h) v <= e < vend (hs h) v ->
       edge (hs h) e < vnohnnd h <-> e < at_ (baseval (hs h)) (vnhdtab h) v);
  hv_halo : forall v e, arc (hs h) v e -> vnohnnd h <= v -> edge (hs h) e < vnohnnd h;
  hv_vnlo : vnlosum h = zsum (baseval (hs h)) (vnohnnd h) (velo (hs h));
  hv_enoh : enohnbr h = zsum (baseval (hs h)) (vnohnnd h) (fun v => at_ (baseval (hs h)) (vnhdtab h) v - vert (hs h) v);
  hv_enlo : enlosum h = enohnbr h }.

(** Number in the original graph of a vertex of a graph *)
Definition orgnum (g : graph) (v : Z) : Z := match vnumtab g with Some t => at_ (baseval g) t v | None => v end.

(** Neighbours that are selected, or are not, in the order of the arcs *)
Definition selected (l : list Z) (w : Z) : bool := match posn l w with Some _ => true | None => false end.
Definition renum (b : Z) (l : list Z) (w : Z) : Z := match posn l w with Some k => b + k | None => -1 end.

(** [h'] is the subgraph of [h] induced by [l], with the neighbours of [l] as a halo:
    the vertices of [l] keep all of their neighbours, selected ones first; halo
    vertices keep their selected neighbours. *)
Record hinduced (h : hgraph) (l hl : list Z) (h' : hgraph) : Prop := {
  hi_nodup : NoDup (l ++ hl);
  hi_halo : forall w, In w hl <-> ~ In w l /\ exists v, In v l /\ In w (map fst (nbr (hs h) v));
  hi_base : baseval (hs h') = baseval (hs h);
  hi_vnoh : vnohnbr h' = zlen l;
  hi_nbr : vertnbr (hs h') = zlen (l ++ hl);
  hi_arcs : forall i, 0 <= i < zlen l ->
    map fst (nbr (hs h') (baseval (hs h) + i)) =
      let ends := map fst (nbr (hs h) (at_ 0 l i)) in
      map (renum (baseval (hs h)) (l ++ hl)) (filter (selected l) ends ++ rev (filter (fun w => negb (selected l w)) ends));
  hi_harcs : forall i, zlen l <= i < zlen (l ++ hl) ->
    map fst (nbr (hs h') (baseval (hs h) + i)) =
      map (renum (baseval (hs h)) (l ++ hl)) (filter (selected l) (map fst (nbr (hs h) (at_ 0 (l ++ hl) i))));
  hi_velo : forall i, 0 <= i < zlen (l ++ hl) -> velo (hs h') (baseval (hs h) + i) = velo (hs h) (at_ 0 (l ++ hl) i);
  hi_vnum : exists vn, vnumtab (hs h') = Some vn /\
    forall i, 0 <= i < zlen (l ++ hl) -> at_ 0 vn i = orgnum (hs h) (at_ 0 (l ++ hl) i);
  hi_levl : hlevl h' = hlevl h + 1;
  hi_velotab : velotab (hs h') = None <-> velotab (hs h) = None }.
