(** Properties C70, C71 and C72: building of graphs, METIS partitioning and ordering routines. *)
From Verif Require Import Base Mem M_Graph M_Order M_Bgraph M_Arch M_KgraphMap M_HgraphOrder M_Metis S_Graph S_Order S_HgraphOrder S_KgraphMap S_Metis.
From Verif Require Import P_Graph P_Metis P_Metis2 P_HgraphOrder5 C_Graph C_KgraphMap C_HgraphOrder.
From Verif Require C_Order.

(** C70: from consistent arrays of a graph and the right number of arcs, SCOTCH_graphBuild gives a consistent graph over these very arrays, which
    the checking routine accepts if sums fit in integers: sums of loads are exact, and the maximum degree is that of some vertex. *)
Theorem C70_build :
  forall base n verttab vendtab velotab vlbltab edgenbr edgetab edlotab,
    let g0 := mkgraph base n (n + base) verttab vendtab velotab 0 None vlbltab edgenbr edgetab edlotab 0 0 in
    graph_readable g0 -> consistent g0 -> edgenbr = zsum base (base + n) (fun v => vend g0 v - vert g0 v) ->
    exists velosum edlosum degrmax, let g := mkgraph base n (base + n) verttab vendtab velotab velosum None vlbltab edgenbr edgetab edlotab edlosum degrmax in
      graphBuild base n verttab vendtab velotab vlbltab edgenbr edgetab edlotab = Ok g /\ graph_valid g /\ graph_readable g /\
      (degrmax = 0 \/ exists v, base <= v < base + n /\ vend g v - vert g v = degrmax).
Proof.
  intros base n vt vd vl lb en et el g0 R C En. rewrite (Z.add_comm base n) in *. destruct (build_ok base n vt vd vl lb en et el R C En) as (vs & es & d & E & V & RR & D).
  exists vs, es, d. cbv zeta. split; [exact E|]. split; [exact V|]. split; [exact RR|]. destruct D as [D|(v & Hv & D)]; [now left|]. right. exists v. split; [lia | exact D].
Qed.
Print Assumptions C70_build.

(** C71: for any partition whatever, of parts numbered from the base, the metrics that are reported are the load of the cut edges, each counted once, and the
    communication volume. *)
Theorem C71_metrics :
  forall base n xadj adjncy vwgt adjwgt vsize nparts part,
    let g := csr base n xadj adjncy vwgt adjwgt in
    consistent g -> graph_readable g -> n + 1 <= zlen xadj -> at_ 0 xadj 0 = base -> 0 <= base -> n <= zlen part ->
    (forall t, vsize = Some t -> n <= zlen t) -> (forall v, isvert g v -> base <= at_ base part v < base + nparts) ->
    metisOutputCut base (base + n) xadj adjncy adjwgt part = Ok (cut_load g (at_ base part)) /\
    metisOutputVol base (base + n) xadj adjncy vsize nparts part = Ok (comm_volume g (fun v => match vsize with None => 1 | Some t => at_ base t v end) base nparts (at_ base part)).
Proof.
  intros base n xadj adjncy vwgt adjwgt vsize nparts part g C R L X0 B0 Lp Lv Hp. rewrite (Z.add_comm base n). destruct (build base n xadj adjncy vwgt adjwgt C R X0) as (vs & es & d & _ & V & RR). split.
  - apply (Cut_ok _ V RR eq_refl L (xadj0 base xadj X0) part). intros v (H1 & H2). cbn [metisGraph baseval vertnnd] in *. lia.
  - apply (Vol_ok _ V RR eq_refl L (xadj0 base xadj X0) part vsize nparts B0).
    + intros v Hv. split; [|apply Hp; exact Hv]. destruct Hv as (H1 & H2). cbn [metisGraph baseval vertnnd] in *. lia.
    + intros t v Et (H1 & H2). specialize (Lv t Et). cbn [metisGraph baseval vertnnd] in *. lia.
Qed.
Print Assumptions C71_metrics.

(** C71: the METIS partitioning routines, for arrays that describe a graph of any base, give METIS_OK (1), a part between the base and base + nparts - 1 for
    every vertex, and the true load of the cut edges of this partition; cells after those of the vertices are left unchanged. *)
Theorem C71_cut_partial :
  forall jkd jk al avg kavg lim bip base n xadj adjncy vwgt adjwgt nparts part,
    let g := csr base n xadj adjncy vwgt adjwgt in
    consistent g -> graph_readable g -> n + 1 <= zlen xadj -> at_ 0 xadj 0 = base -> 0 <= base -> 1 <= nparts -> n <= zlen part ->
    1 <= al <= 2 -> bip_ok avg bip ->
    exists part', metisPartGraph jkd jk al avg kavg lim bip base n xadj adjncy vwgt adjwgt nparts part = Ok (1, cut_load g (at_ base part'), part') /\ zlen part' = zlen part /\
      (forall v, isvert g v -> base <= at_ base part' v < base + nparts) /\ (forall i, n <= i < zlen part -> at_ 0 part' i = at_ 0 part i).
Proof. intros. eapply PartGraph_ok; eauto. Qed.
Print Assumptions C71_cut_partial.

(** C71: the volume-oriented ones give the true communication volume, with or without communication sizes. *)
Theorem C71_volume_partial :
  forall jkd jk al avg kavg lim bip base n xadj adjncy vwgt vsize nparts vol part,
    let g := csr base n xadj adjncy vwgt None in
    consistent g -> graph_readable g -> n + 1 <= zlen xadj -> at_ 0 xadj 0 = base -> 0 <= base -> 1 <= nparts -> n <= zlen part ->
    (forall t, vsize = Some t -> n <= zlen t /\ forall v, isvert g v -> 0 <= at_ base t v) ->
    1 <= al <= 2 -> bip_ok avg bip ->
    let size := fun v => match vsize with None => 1 | Some t => at_ base t v end in
    exists part', metisPartVolume jkd jk al avg kavg lim bip base n xadj adjncy vwgt vsize nparts vol part = Ok (1, comm_volume g size base nparts (at_ base part'), part') /\ zlen part' = zlen part /\
      (forall v, isvert g v -> base <= at_ base part' v < base + nparts) /\ (forall i, n <= i < zlen part -> at_ 0 part' i = at_ 0 part i).
Proof. intros. eapply Volume_ok; eauto. Qed.
Print Assumptions C71_volume_partial.

(** C72: the METIS ordering routines, with a strategy of the model, give METIS_OK and two arrays perm and iperm that are permutations of the vertices, inverse to
    one another. *)
Theorem C72_order_partial :
  forall jk al s tr base n xadj adjncy vwgt perm iperm,
    let g := csr base n xadj adjncy vwgt None in
    consistent g -> graph_readable g -> n + 1 <= zlen xadj -> at_ 0 xadj 0 = base -> 0 <= base -> 1 <= n -> n <= zlen perm -> n <= zlen iperm ->
    1 <= al <= 2 -> sgood true true tr false s ->
    exists perm' iperm', metisNode jk al s base n xadj adjncy vwgt perm iperm = Ok (1, perm', iperm') /\
      (forall v, base <= v < base + n -> base <= at_ base perm' v < base + n /\ at_ base iperm' (at_ base perm' v) = v) /\
      (forall v, base <= v < base + n -> base <= at_ base iperm' v < base + n /\ at_ base perm' (at_ base iperm' v) = v).
Proof.
  intros jk al s tr base n xadj adjncy vwgt perm iperm g C R L X0 B0 Hn Lp Li Hal Hs. unfold metisNode. rewrite (last_ok base n xadj adjncy vwgt None C L). cbn [bind].
  destruct (build base n xadj adjncy vwgt None C R X0) as (vs & es & d & -> & V & RR). cbn [bind].
  destruct (compute_all (metisGraph base n xadj adjncy vwgt None vs es d) V RR B0 eq_refl Hn jk al s true true tr false perm None Hal eq_refl Hs Lp ltac:(now left)) as (rc & o & E & T & P).
  cbn [metisGraph baseval vertnbr] in E. rewrite E. cbn [bind]. rewrite (T eq_refl) in *. cbn [Z.eqb negb]. destruct (P eq_refl) as (OV & OB & ON & OZ & _). cbn [metisGraph baseval vertnbr] in OB, ON.
  destruct (C_Order.C19_orderPeri (o_peri o) base (o_vnod o) iperm base ltac:(lia) ltac:(lia)) as (t & Et & Zt & P1 & P2 & _ & P3); [rewrite <- OB; exact (ov_perm _ OV)|].
  rewrite Et. cbn [bind]. exists (o_peri o), t. split; [reflexivity|]. rewrite ON in *.
  assert (Rb : forall (l : list Z) i, at_ base l i = at_ 0 l (i - base)) by (intros; unfold at_; f_equal; lia).
  assert (HP : forall k, 0 <= k < n -> base <= at_ 0 (o_peri o) k < base + n).
  { intros k Hk. pose proof (ov_perm _ OV) as PR. rewrite OB, ON in PR. apply (P_Order2.perm_first base n (o_peri o)) in PR; [|lia]. apply PR. exact Hk. }
  split; intros v Hv; rewrite !Rb.
  - split; [apply HP; lia|]. rewrite P1 by lia. lia.
  - destruct (P2 (v - base) ltac:(lia)) as (Q1 & Q2). split; [exact Q1|]. rewrite Q2. lia.
Qed.
Print Assumptions C72_order_partial.

(** ** Examples: the path of eight vertices, of base 1, with weights *)
Definition ex_xadj : list Z := [1; 2; 4; 6; 8; 10; 12; 14; 15].
Definition ex_adjncy : list Z := [2; 1; 3; 2; 4; 3; 5; 4; 6; 5; 7; 6; 8; 7].
Definition ex_adjwgt : list Z := [3; 3; 1; 1; 4; 4; 2; 2; 5; 5; 7; 7; 6; 6].
Lemma ex_csr_ok vw w : graphCheck 1000 (mkgraph 1 8 9 ex_xadj None vw (match vw with None => 8 | Some t => fold_right Z.add 0 t end) None None 14 ex_adjncy w (match w with None => 14 | Some t => fold_right Z.add 0 t end) 2) = Ok tt ->
  consistent (csr 1 8 ex_xadj ex_adjncy vw w) /\ graph_readable (csr 1 8 ex_xadj ex_adjncy vw w).
Proof. intros E. destruct (C09_graphCheck_sound 1000 _ E) as (V & R). split; [destruct V; constructor; assumption | destruct R; constructor; assumption]. Qed.
Definition ex_metis := metisPartGraph (mkc 9 9) 77 1 ex_avg ex_avg (fun _ _ => (0, 100)) halve.
Definition ex_metisV := metisPartVolume (mkc 9 9) 77 1 ex_avg ex_avg (fun _ _ => (0, 100)) halve.
Example C70_example :
  consistent (csr 1 8 ex_xadj ex_adjncy (Some [1; 2; 3; 4; 5; 6; 7; 8]) (Some ex_adjwgt)) /\
  graphBuild 1 8 ex_xadj None (Some [1; 2; 3; 4; 5; 6; 7; 8]) None 14 ex_adjncy (Some ex_adjwgt) =
    Ok (mkgraph 1 8 9 ex_xadj None (Some [1; 2; 3; 4; 5; 6; 7; 8]) 36 None None 14 ex_adjncy (Some ex_adjwgt) 56 2).
Proof. split; [apply ex_csr_ok; vm_compute; reflexivity | vm_compute; reflexivity]. Qed.
Example C71_example :
  bip_ok ex_avg halve /\ consistent (csr 1 8 ex_xadj ex_adjncy None (Some ex_adjwgt)) /\ graph_readable (csr 1 8 ex_xadj ex_adjncy None (Some ex_adjwgt)) /\
  ex_metis 1 8 ex_xadj ex_adjncy None (Some ex_adjwgt) 3 (repeat 55 9) = Ok (1, 9, [1; 1; 1; 1; 2; 2; 3; 3; 55]) /\
  ex_metisV 1 8 ex_xadj ex_adjncy None (Some [1; 1; 1; 10; 20; 30; 40; 1]) 3 0 (repeat 55 8) = Ok (1, 100, [1; 1; 1; 1; 2; 2; 3; 3]).
Proof. split; [apply halve_ok|]. split; [apply ex_csr_ok; vm_compute; reflexivity|]. split; [apply ex_csr_ok; vm_compute; reflexivity|]. split; vm_compute; reflexivity. Qed.
Example C72_example :
  consistent (csr 1 8 ex_xadj ex_adjncy None None) /\ graph_readable (csr 1 8 ex_xadj ex_adjncy None None) /\ sgood true true true false ex_strat /\
  exists perm iperm, metisNode 77 1 ex_strat 1 8 ex_xadj ex_adjncy None (repeat 0 8) (repeat 0 8) = Ok (1, perm, iperm) /\ perm <> iperm.
Proof.
  split; [apply ex_csr_ok; vm_compute; reflexivity|]. split; [apply ex_csr_ok; vm_compute; reflexivity|]. split; [cbn [sgood ex_strat]; repeat split; auto using ex_first_good|].
  do 2 eexists. split; [vm_compute; reflexivity | vm_compute; discriminate].
Qed.
