(** Property C18: coarse graphs. *)
From Verif Require Import Base M_Int M_Graph M_Match M_Coarsen S_Graph S_Color S_Match S_Coarsen P_Graph P_Vgraph P_Coarsen3 C_Graph C_Match.

(** C18: for every valid graph and every matching of it, building the coarse
    graph ends without touching anything outside its arrays; the result is a
    valid graph; it has one vertex per group, with the sum of the loads of the
    group; two coarse vertices are neighbours exactly when some fine edge joins
    the two groups, and the load of the coarse edge is the sum of the loads of
    these fine edges (definitions in [is_coarse]). *)
Theorem C18_build :
  forall g mate,
    graph_valid g -> graph_readable g -> 0 <= baseval g -> is_matching g mate ->
    exists cg fc mult, coarBuild g mate (groups g mate) = Ok (cg, fc, mult) /\
      graph_valid cg /\ graph_readable cg /\ is_coarse g cg mate fc mult.
Proof.
  intros g mate V R HB IM. destruct (coarBuild_ok g mate V R HB IM) as (cg & fc & mult & H1 & H2 & H3 & H4 & _). exists cg, fc, mult. auto.
Qed.
Print Assumptions C18_build.

(** C18 and C16 together: coarsening either says that the graph cannot be
    coarsened enough, or yields the coarse graph of some matching, with fewer
    vertices than the bound and at least half of those of the fine graph, and
    with the same total vertex load. *)
Theorem C18_graphCoarsen :
  forall stksiz nomerge g fix_ par vfixnbr coarvertmax coarvertmin,
    graph_valid g -> graph_readable g -> 0 <= baseval g -> per_vertex g fix_ -> per_vertex g par ->
    32 <= stksiz -> vertnbr g < 2 ^ (stksiz - 1) ->
    graphCoarsen stksiz nomerge g fix_ par vfixnbr coarvertmax coarvertmin = Err 1 \/
    exists cg fc mult mate, graphCoarsen stksiz nomerge g fix_ par vfixnbr coarvertmax coarvertmin = Ok (cg, fc, mult) /\
      graph_valid cg /\ graph_readable cg /\ is_matching g mate /\ is_coarse g cg mate fc mult /\
      coarvertmin <= coarvertmax /\ vertnbr cg < coarvertmax /\ vertnbr g <= 2 * vertnbr cg <= 2 * vertnbr g /\
      zsum (baseval cg) (vertnnd cg) (velo cg) = zsum (baseval g) (vertnnd g) (velo g).
Proof.
  intros stksiz nomerge g fix_ par vfixnbr cmax cmin V R HB PF PP Hst Hsz. unfold graphCoarsen. destruct (Z.ltb_spec cmax cmin) as [|Hm]; [left; reflexivity|].
  destruct (C16_matching stksiz nomerge g fix_ par vfixnbr V R HB PF PP Hst Hsz) as (mate & n & E & IM & EG & _). rewrite E. cbn [bind]. destruct (Z.leb_spec cmax n) as [|Hn]; [left; reflexivity|]. right.
  destruct (C18_build g mate V R HB IM) as (cg & fc & mult & EB & V1 & R1 & IC). exists cg, fc, mult, mate. rewrite EG. split; [exact EB|]. split; [exact V1|]. split; [exact R1|]. split; [exact IM|]. split; [exact IC|]. split; [lia|].
  split; [rewrite (ic_nbr _ _ _ _ _ IC); lia|]. split; [rewrite (ic_nbr _ _ _ _ _ IC); apply groups_half; auto|]. rewrite <- (gv_velosum _ V1), <- (gv_velosum _ V). apply (ic_velosum _ _ _ _ _ IC).
Qed.
Print Assumptions C18_graphCoarsen.

Example C18_example :
  is_matching ex_match [1; 0; 3; 2; 5; 4] /\ groups ex_match [1; 0; 3; 2; 5; 4] = 3 /\
  coarBuild ex_match [1; 0; 3; 2; 5; 4] 3 =
    Ok (mkgraph 0 3 3 [0; 1; 2; 2] None (Some [2; 2; 2]) 6 None None 2 [1; 0] (Some [5; 5]) 10 1, [0; 0; 1; 1; 2; 2], [(0, 1); (2, 3); (4, 5)]) /\
  graphCoarsen 32 false ex_match None None 0 5 1 = coarBuild ex_match [1; 0; 3; 2; 5; 4] 3 /\
  graphCoarsen 32 false ex_match None None 0 3 1 = Err 1.
Proof.
  split; [|split; [|split; [|split]]]; try (vm_compute; reflexivity). split; [reflexivity|]. intros v (H1 & H2). cbn [ex_match baseval vertnnd] in *.
  assert (v = 0 \/ v = 1 \/ v = 2 \/ v = 3 \/ v = 4 \/ v = 5) as [-> | [-> | [-> | [-> | [-> | ->]]]]] by lia; (split; [split|]; vm_compute; congruence).
Qed.

(** The mate array handed to SCOTCH_graphCoarsenBuild must be a matching, and the
    number of coarse vertices must be its number of groups: an array of vertex
    numbers that is not a matching is taken as it is, and makes the build write
    beyond the end of its arrays. *)
Theorem C18_unchecked_mate_refuted :
  exists g mate coarvertnbr, graph_valid g /\ graph_readable g /\ zlen mate = vertnbr g /\
    (forall v, isvert g v -> isvert g (at_ (baseval g) mate v)) /\ coarvertnbr <= vertnbr g /\
    coarBuild g mate coarvertnbr = UB.
Proof.
  exists ex_match, [5; 5; 5; 5; 5; 5], 3. split; [apply ex_match_ok|]. split; [apply ex_match_ok|]. split; [reflexivity|]. split; [|split; [vm_compute; discriminate|vm_compute; reflexivity]].
  intros v (H1 & H2). cbn [ex_match baseval vertnnd] in *. assert (v = 0 \/ v = 1 \/ v = 2 \/ v = 3 \/ v = 4 \/ v = 5) as [-> | [-> | [-> | [-> | [-> | ->]]]]] by lia; (split; vm_compute; congruence).
Qed.
Print Assumptions C18_unchecked_mate_refuted.
