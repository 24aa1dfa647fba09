(** Properties C22-C25: target architectures defined by formulae. *)
From Verif Require Import Base M_Int S_Int M_Arch S_Arch P_Arch P_ArchVar P_Mesh P_Mesh2 P_Tleaf P_Ltleaf.

(** ** C22: complete graph of [n] processors *)
Theorem C22_complete_graph_domains :
  forall n, 1 <= n ->
    frst_ok n (cwf n) cmem (archCmpltDomFrst n) /\
    size_ok (cwf n) cmem (archCmpltDomSize n) /\
    bipart_ok (cwf n) cmem (archCmpltDomBipart n) /\
    expand_ok (cwf n) cmem (archCmpltDomBipart n) /\
    term_ok n (cwf n) cmem (archCmpltDomTerm n) (archCmpltDomNum n) /\
    num_ok (cwf n) cmem (archCmpltDomNum n) /\
    incl_ok (cwf n) cmem (archCmpltDomIncl n).
Proof.
  intros n Hn. split; [now apply cmplt_frst|]. split; [now apply cmplt_size|]. split; [now apply cmplt_bipart|].
  split; [eapply expand_intro; [apply (cmplt_sz n)|now apply cmplt_bipart]|].
  split; [now apply cmplt_term|]. split; [now apply cmplt_num|now apply cmplt_incl].
Qed.
Print Assumptions C22_complete_graph_domains.

(** Distance is 0 exactly on equal domains and 1 otherwise. *)
Theorem C22_complete_graph_distance :
  forall n d0 d1,
    archCmpltDomDist n d0 d1 = Ok 0 /\ d0 = d1 \/ archCmpltDomDist n d0 d1 = Ok 1 /\ d0 <> d1.
Proof.
  intros n [m0 n0] [m1 n1]. unfold archCmpltDomDist. cbn [c_min c_nbr].
  destruct (Z.eqb_spec m0 m1); cbn [andb]; [|right; split; [auto|congruence]].
  destruct (Z.eqb_spec n0 n1); [left|right]; split; auto; congruence.
Qed.
Print Assumptions C22_complete_graph_distance.

Theorem C22_complete_graph_save_load :
  forall n imax, 9 <= imax -> n <= imax ->
    saveload_ok (cwf n) (fun _ => True) archCmpltDomSave (archCmpltDomLoad imax n).
Proof. intros. now apply cmplt_saveload. Qed.
Print Assumptions C22_complete_graph_save_load.

Example C22_example :
  cwf 7 (mkc 2 5) /\ archCmpltDomBipart 7 (mkc 2 5) = Ok (mkc 2 2, mkc 4 3) /\
  expand (archCmpltDomBipart 7) 7 (mkc 0 7) = Ok (map (fun t => mkc t 1) [0; 1; 2; 3; 4; 5; 6]) /\
  archCmpltDomLoad 100 7 (32 :: archCmpltDomSave (mkc 2 5)) = Ok (mkc 2 5, [32]).
Proof. unfold cwf; cbn. repeat split; lia || reflexivity. Qed.

(** ** C23: hypercube of dimension [n] *)
Theorem C23_hypercube_domains :
  forall n, 0 <= n <= 30 ->
    frst_ok (2 ^ n) (hwf n) hmem (archHcubDomFrst n) /\
    size_ok (hwf n) hmem (archHcubDomSize n) /\
    bipart_ok (hwf n) hmem (archHcubDomBipart n) /\
    expand_ok (hwf n) hmem (archHcubDomBipart n) /\
    term_ok (2 ^ n) (hwf n) hmem (archHcubDomTerm n) (archHcubDomNum n) /\
    num_ok (hwf n) hmem (archHcubDomNum n) /\
    incl_ok (hwf n) hmem (archHcubDomIncl n).
Proof.
  intros n Hn. split; [now apply hcub_frst|]. split; [now apply hcub_size|]. split; [now apply hcub_bipart|].
  split; [eapply expand_intro; [apply (hcub_sz n)|now apply hcub_bipart]|].
  split; [now apply hcub_term|]. split; [now apply hcub_num|now apply hcub_incl].
Qed.
Print Assumptions C23_hypercube_domains.

(** Distance: symmetric, and the Hamming distance between terminals. *)
Theorem C23_hypercube_distance :
  forall n, 0 <= n <= 30 ->
    dist_sym (hwf n) (archHcubDomDist n) /\
    dist_term (2 ^ n) (archHcubDomTerm n) (archHcubDomDist n) (hamming 0 n).
Proof. intros n Hn. split; [now apply hcub_dist_sym|now apply hcub_dist_term]. Qed.
Print Assumptions C23_hypercube_distance.

Theorem C23_hypercube_save_load :
  forall n imax, 9 <= imax -> 0 <= n <= 30 -> n <= imax -> 2 ^ n <= imax ->
    saveload_ok (hwf n) (fun _ => True) archHcubDomSave (archHcubDomLoad imax n).
Proof. intros. apply hcub_saveload; lia. Qed.
Print Assumptions C23_hypercube_save_load.

(** From dimension 31 on, [1 << n] is undefined: even the size of the whole cube. *)
Theorem C23_dimension_31_refuted :
  exists d, archHcubDomFrst 31 = Ok d /\ archHcubDomSize 31 d = UB /\ archHcubDomTerm 31 0 = UB.
Proof. eexists; split; [reflexivity|]. split; reflexivity. Qed.
Print Assumptions C23_dimension_31_refuted.

(** Terminal lookup does not refuse negative numbers, not even the "not a
    terminal" mark -1, in spite of its contract. *)
Theorem C22_negative_terminal_refuted :
  exists d, archCmpltDomTerm 4 (-1) = Ok d /\ ~ cwf 4 d.
Proof. eexists; split; [reflexivity|]. unfold cwf; cbn. lia. Qed.
Print Assumptions C22_negative_terminal_refuted.

Example C23_example :
  hwf 3 (mkh 2 4) /\ archHcubDomBipart 3 (mkh 2 4) = Ok (mkh 1 4, mkh 1 6) /\
  archHcubDomDist 3 (mkh 0 5) (mkh 0 2) = Ok 3 /\ hamming 0 3 5 2 = 3 /\
  expand (archHcubDomBipart 3) 8 (mkh 3 0) = Ok (map (mkh 0) [0; 1; 2; 3; 4; 5; 6; 7]).
Proof. unfold hwf; cbn. repeat split; lia || reflexivity. Qed.

(** ** C24: meshes and tori of any number of dimensions *)
Lemma bsizes c d : dims_ok c -> mwf c d -> 1 <= bsize d /\ card (mmem c d) (bsize d).
Proof. intros. now apply mesh_sz. Qed.

Theorem C24_meshX_domains :
  forall c, c <> [] -> Forall (fun n => 1 <= n) c ->
    frst_ok (prod c) (mwf c) (mmem c) (archMeshXDomFrst c) /\
    size_ok (mwf c) (mmem c) (archMeshXDomSize c) /\
    bipart_ok (mwf c) (mmem c) (archMeshXDomBipart c) /\
    expand_ok (mwf c) (mmem c) (archMeshXDomBipart c) /\
    term_ok (prod c) (mwf c) (mmem c) (archMeshXDomTerm c) (archMeshXDomNum c) /\
    num_ok (mwf c) (mmem c) (archMeshXDomNum c) /\
    incl_ok (mwf c) (mmem c) (archMeshXDomIncl c).
Proof.
  intros c Hne Hc. split; [now apply meshX_frst|]. split; [now apply meshX_size|]. split; [now apply meshX_bipart|].
  split; [eapply expand_intro; [intros d; apply (bsizes c d Hc)|now apply meshX_bipart]|].
  split; [now apply meshX_term|]. split; [now apply meshX_num|now apply meshX_incl].
Qed.
Print Assumptions C24_meshX_domains.

Theorem C24_mesh_save_load :
  forall imax c, 9 <= imax -> c <> [] -> Forall (fun n => n <= imax) c ->
    saveload_ok (mwf c) (fun _ => True) archMeshXDomSave (archMeshXDomLoad imax c).
Proof. intros. now apply mesh_saveload. Qed.
Print Assumptions C24_mesh_save_load.

(** Two-dimensional mesh, with its three bipartitioning variants *)
Theorem C24_mesh2_domains :
  forall c0 c1, 1 <= c0 -> 1 <= c1 -> let c := [c0; c1] in
    size_ok (mwf c) (mmem c) (archMesh2DomSize c) /\
    (forall bip, In bip [archMesh2DomBipart c; archMesh2DomBipartO c; archMesh2DomBipartU c] ->
       bipart_ok (mwf c) (mmem c) bip /\ expand_ok (mwf c) (mmem c) bip) /\
    term_ok (prod c) (mwf c) (mmem c) (archMesh2DomTerm c) (archMesh2DomNum c) /\
    num_ok (mwf c) (mmem c) (archMesh2DomNum c) /\
    incl_ok (mwf c) (mmem c) (archMesh2DomIncl c) /\
    dist_sym (mwf c) (archMesh2DomDist c) /\
    dist_term (prod c) (archMesh2DomTerm c) (archMesh2DomDist c) (manhattan c).
Proof.
  intros c0 c1 H0 H1 c. pose proof (dims2 c0 c1 H0 H1) as Hc.
  split; [now apply mesh2_size|]. split.
  { intros bip HI. assert (B : bipart_ok (mwf c) (mmem c) bip).
    { cbn in HI. destruct HI as [<-|[<-|[<-|[]]]]; [now apply mesh2_bipart|now apply mesh2_bipartO|now apply mesh2_bipartU]. }
    split; [auto|]. eapply expand_intro; [intros d; apply (bsizes c d Hc)|auto]. }
  split; [now apply mesh2_term|]. split; [now apply mesh2_num|]. split; [now apply mesh2_incl|].
  split; [now apply mesh2_dist_sym|now apply mesh2_dist_term].
Qed.
Print Assumptions C24_mesh2_domains.

(** Three-dimensional mesh *)
Theorem C24_mesh3_domains :
  forall c0 c1 c2, 1 <= c0 -> 1 <= c1 -> 1 <= c2 -> let c := [c0; c1; c2] in
    size_ok (mwf c) (mmem c) (archMesh3DomSize c) /\
    bipart_ok (mwf c) (mmem c) (archMesh3DomBipart c) /\
    expand_ok (mwf c) (mmem c) (archMesh3DomBipart c) /\
    term_ok (prod c) (mwf c) (mmem c) (archMesh3DomTerm c) (archMesh3DomNum c) /\
    num_ok (mwf c) (mmem c) (archMesh3DomNum c) /\
    incl_ok (mwf c) (mmem c) (archMesh3DomIncl c) /\
    dist_sym (mwf c) (archMesh3DomDist c) /\
    dist_term (prod c) (archMesh3DomTerm c) (archMesh3DomDist c) (manhattan c).
Proof.
  intros c0 c1 c2 H0 H1 H2 c. pose proof (dims3 c0 c1 c2 H0 H1 H2) as Hc.
  split; [now apply mesh3_size|]. split; [now apply mesh3_bipart|].
  split; [eapply expand_intro; [intros d; apply (bsizes c d Hc)|now apply mesh3_bipart]|].
  split; [now apply mesh3_term|]. split; [now apply mesh3_num|]. split; [now apply mesh3_incl|].
  split; [now apply mesh3_dist_sym|now apply mesh3_dist_term].
Qed.
Print Assumptions C24_mesh3_domains.

(** Torus distances: symmetric, and wrap-around Manhattan distance between
    terminals; in two and three dimensions as in any number of them. *)
Theorem C24_torus_distance :
  (forall c, Forall (fun n => 1 <= n) c ->
    dist_sym (mwf c) (archTorusXDomDist c) /\
    dist_term (prod c) (archMeshXDomTerm c) (archTorusXDomDist c) (toric c)) /\
  (forall c0 c1, 1 <= c0 -> 1 <= c1 -> let c := [c0; c1] in
    dist_sym (mwf c) (archTorus2DomDist c) /\
    dist_term (prod c) (archMesh2DomTerm c) (archTorus2DomDist c) (toric c)) /\
  (forall c0 c1 c2, 1 <= c0 -> 1 <= c1 -> 1 <= c2 -> let c := [c0; c1; c2] in
    dist_sym (mwf c) (archTorus3DomDist c) /\
    dist_term (prod c) (archMesh3DomTerm c) (archTorus3DomDist c) (toric c)).
Proof.
  split; [|split].
  - intros c Hc. split; [now apply torusX_dist_sym|now apply torusX_dist_term].
  - intros c0 c1 H0 H1 c. pose proof (dims2 c0 c1 H0 H1) as Hc. split.
    + intros d0 d1 W0 W1. unfold c. rewrite !torus2_dist_eq. now apply torusX_dist_sym.
    + intros t0 t1 d0 d1 R0 R1 T0 T1. unfold c at 1. rewrite torus2_dist_eq.
      unfold c in T0, T1. rewrite mesh2_term_eq in T0 by auto. rewrite mesh2_term_eq in T1 by auto.
      apply (torusX_dist_term c Hc t0 t1); auto;
        [destruct (proj1 (meshX_term c Hc ltac:(discriminate)) t0 R0) as (d & E & _);
         rewrite E; rewrite (meshX_term_eq c _ d Hc R0 E); auto
        |destruct (proj1 (meshX_term c Hc ltac:(discriminate)) t1 R1) as (d & E & _);
         rewrite E; rewrite (meshX_term_eq c _ d Hc R1 E); auto].
  - intros c0 c1 c2 H0 H1 H2 c. pose proof (dims3 c0 c1 c2 H0 H1 H2) as Hc. split.
    + intros d0 d1 W0 W1. unfold c. rewrite !torus3_dist_eq. now apply torusX_dist_sym.
    + intros t0 t1 d0 d1 R0 R1 T0 T1. unfold c at 1. rewrite torus3_dist_eq.
      unfold c in T0, T1. rewrite mesh3_term_eq in T0 by auto. rewrite mesh3_term_eq in T1 by auto.
      apply (torusX_dist_term c Hc t0 t1); auto;
        [destruct (proj1 (meshX_term c Hc ltac:(discriminate)) t0 R0) as (d & E & _);
         rewrite E; rewrite (meshX_term_eq c _ d Hc R0 E); auto
        |destruct (proj1 (meshX_term c Hc ltac:(discriminate)) t1 R1) as (d & E & _);
         rewrite E; rewrite (meshX_term_eq c _ d Hc R1 E); auto].
Qed.
Print Assumptions C24_torus_distance.

(** The distance of meshes of any number of dimensions wraps around, as on a
    torus; what holds of it is therefore the torus distance ... *)
Theorem C24_meshX_distance_partial :
  forall c, Forall (fun n => 1 <= n) c ->
    dist_sym (mwf c) (archMeshXDomDist c) /\
    dist_term (prod c) (archMeshXDomTerm c) (archMeshXDomDist c) (toric c).
Proof. intros c Hc. split; [now apply torusX_dist_sym|now apply meshX_dist_term]. Qed.
Print Assumptions C24_meshX_distance_partial.

(** ... and not the Manhattan distance: both ends of a path of 4 vertices are at distance 1. *)
Theorem C24_meshX_manhattan_refuted :
  exists c, c <> [] /\ Forall (fun n => 1 <= n) c /\
    ~ dist_term (prod c) (archMeshXDomTerm c) (archMeshXDomDist c) (manhattan c).
Proof.
  exists [4]. split; [discriminate|]. split; [repeat constructor; lia|].
  intros H. specialize (H 0 3 [(0, 0)] [(3, 3)]). vm_compute in H.
  specialize (H ltac:(split; discriminate || reflexivity) ltac:(split; discriminate || reflexivity) eq_refl eq_refl). discriminate.
Qed.
Print Assumptions C24_meshX_manhattan_refuted.

Example C24_mesh_example :
  mwf [3; 4] [(0, 2); (1, 3)] /\ archMesh2DomBipart [3; 4] [(0, 2); (1, 3)] = Ok ([(0, 2); (1, 2)], [(0, 2); (3, 3)]) /\
  archMesh2DomTerm [3; 4] 7 = Ok [(1, 1); (2, 2)] /\
  archMesh2DomDist [3; 4] [(0, 0); (0, 0)] [(1, 1); (3, 3)] = Ok 4 /\
  archTorus2DomDist [3; 4] [(0, 0); (0, 0)] [(1, 1); (3, 3)] = Ok 2 /\
  archMeshXDomLoad 100 [3; 4] (archMeshXDomSave [(0, 2); (1, 3)]) = Ok ([(0, 2); (1, 3)], [32]).
Proof. split; [repeat constructor; cbn; lia|]. repeat split. Qed.

(** ** C24: tree leaves *)
Theorem C24_tleaf_domains :
  forall a, tleaf_ok a -> 1 <= zlen (t_size a) ->
    frst_ok (t_termnbr a) (twf a) (tmem a) (archTleafDomFrst a) /\
    size_ok (twf a) (tmem a) (archTleafDomSize a) /\
    bipart_ok (twf a) (tmem a) (archTleafDomBipart a) /\
    expand_ok (twf a) (tmem a) (archTleafDomBipart a) /\
    term_ok (t_termnbr a) (twf a) (tmem a) (archTleafDomTerm a) (archTleafDomNum a) /\
    num_ok (twf a) (tmem a) (archTleafDomNum a) /\
    dist_term (t_termnbr a) (archTleafDomTerm a) (archTleafDomDist a) (leafdist (ttree a)).
Proof.
  intros a Ha Hn. split; [now apply tleaf_frst|]. split; [now apply tleaf_size|]. split; [now apply tleaf_bipart|].
  split; [eapply expand_intro; [apply (tleaf_sz a Ha)|now apply tleaf_bipart]|].
  split; [now apply tleaf_term|]. split; [now apply tleaf_num|now apply tleaf_dist_term].
Qed.
Print Assumptions C24_tleaf_domains.

Theorem C24_tleaf_save_load :
  forall a imax, tleaf_ok a -> 9 <= imax ->
    saveload_ok (twf a) (fun d => d_levl d <= imax /\ d_min d <= imax /\ d_nbr d <= imax)
      archTleafDomSave (archTleafDomLoad imax a).
Proof. intros. now apply tleaf_saveload. Qed.
Print Assumptions C24_tleaf_save_load.

(** Inclusion: included domains are reported so, disjoint ones are not; what is
    missing is that overlapping domains of the same tree level are not reported as
    included (refuted below). *)
Theorem C24_tleaf_inclusion_partial :
  forall a d0 d1, tleaf_ok a -> twf a d0 -> twf a d1 ->
    exists b, archTleafDomIncl a d0 d1 = Ok b /\
      ((forall t, tmem a d1 t -> tmem a d0 t) -> b = true) /\
      ((forall t, tmem a d1 t -> tmem a d0 t -> False) -> b = false) /\
      (d_levl d0 <> d_levl d1 -> b = true -> forall t, tmem a d1 t -> tmem a d0 t).
Proof. intros. now apply tleaf_incl_partial. Qed.
Print Assumptions C24_tleaf_inclusion_partial.

(** Symmetry of the distance on disjoint domains. *)
Theorem C24_tleaf_distance_partial :
  forall a d0 d1, tleaf_ok a -> twf a d0 -> twf a d1 -> (forall t, tmem a d0 t -> tmem a d1 t -> False) ->
    exists x, archTleafDomDist a d0 d1 = Ok x /\ archTleafDomDist a d1 d0 = Ok x /\ 0 <= x.
Proof. intros. now apply tleaf_dist_disj. Qed.
Print Assumptions C24_tleaf_distance_partial.

(** A root with four leaves, link cost 5. *)
Definition ex_star : tleaf := mktl 4 [4] [5] [0] [0].
Lemma ex_star_ok : tleaf_ok ex_star.
Proof. split; [reflexivity|]. split; [repeat constructor; lia|]. split; [repeat constructor; lia|]. reflexivity. Qed.

(** [{0,1}] is said to be included in [{0}]. *)
Theorem C24_tleaf_inclusion_refuted :
  exists a d0 d1, tleaf_ok a /\ twf a d0 /\ twf a d1 /\ archTleafDomIncl a d0 d1 = Ok true /\
    ~ (forall t, tmem a d1 t -> tmem a d0 t).
Proof.
  exists ex_star, (mkt 1 0 1), (mkt 1 0 2). split; [apply ex_star_ok|].
  split; [right; cbn; split; [lia|]; split; [lia|]; exists 0; lia|].
  split; [right; cbn; split; [lia|]; split; [lia|]; exists 0; lia|].
  split; [reflexivity|]. intros H. specialize (H 1). unfold tmem, interval in H. change (tblk ex_star (d_levl _)) with 1 in H. cbn [d_min d_nbr] in H. lia.
Qed.
Print Assumptions C24_tleaf_inclusion_refuted.

(** The distance from [{0}] to [{0,1}] is not that from [{0,1}] to [{0}]. *)
Theorem C24_tleaf_distance_symmetry_refuted :
  exists a d0 d1 x y, tleaf_ok a /\ twf a d0 /\ twf a d1 /\
    archTleafDomDist a d0 d1 = Ok x /\ archTleafDomDist a d1 d0 = Ok y /\ x <> y.
Proof.
  exists ex_star, (mkt 1 0 1), (mkt 1 0 2), 5, 0. split; [apply ex_star_ok|].
  split; [right; cbn; split; [lia|]; split; [lia|]; exists 0; lia|].
  split; [right; cbn; split; [lia|]; split; [lia|]; exists 0; lia|].
  split; [reflexivity|]. split; [reflexivity|lia].
Qed.
Print Assumptions C24_tleaf_distance_symmetry_refuted.

(** Labelled tree leaves: a domain denotes the labels of its leaves. *)
Theorem C24_ltleaf_domains :
  forall a, ltleaf_ok a -> 1 <= zlen (t_size a) -> let P := zlen (t_perm a) in
    frst_ok (t_termnbr a) (twf a) (lmem a) (archTleafDomFrst a) /\
    size_ok (twf a) (lmem a) (archTleafDomSize a) /\
    bipart_ok (twf a) (lmem a) (archTleafDomBipart a) /\
    expand_ok (twf a) (lmem a) (archTleafDomBipart a) /\
    term_ok (t_termnbr a) (twf a) (lmem a) (archLtleafDomTerm a) (archLtleafDomNum a) /\
    num_in (twf a) (lmem a) (archLtleafDomNum a) /\
    dist_term (t_termnbr a) (archLtleafDomTerm a) (archTleafDomDist a)
      (fun t0 t1 => leafdist (ttree a) (t0 - t0 mod P + at_ 0 (t_peri a) (t0 mod P)) (t1 - t1 mod P + at_ 0 (t_peri a) (t1 mod P))).
Proof.
  intros a Ha Hn P. split; [now apply ltleaf_frst|]. split; [now apply ltleaf_size|]. split; [now apply ltleaf_bipart|].
  split; [eapply expand_intro; [apply (ltleaf_sz a Ha)|now apply ltleaf_bipart]|].
  split; [now apply ltleaf_term|]. split; [now apply ltleaf_num|now apply ltleaf_dist_term].
Qed.
Print Assumptions C24_ltleaf_domains.

Definition ex_tree : tleaf := mktl 6 [3; 2] [7; 1] [1; 2; 0] [2; 0; 1].
Example C24_tleaf_example :
  ltleaf_ok ex_tree /\ archTleafDomBipart ex_tree (mkt 0 0 1) = Ok (mkt 1 0 2, mkt 1 2 1) /\
  archTleafDomDist ex_tree (mkt 2 0 1) (mkt 2 1 1) = Ok 1 /\ archTleafDomDist ex_tree (mkt 2 0 1) (mkt 2 5 1) = Ok 8 /\
  leafdist (ttree ex_tree) 0 5 = 8 /\ leafdist (ttree ex_tree) 0 1 = 1 /\
  archLtleafDomTerm ex_tree 3 = Ok (mkt 2 5 1) /\ archLtleafDomNum ex_tree (mkt 2 5 1) = Ok 3.
Proof.
  split; [|repeat split].
  split; [split; [reflexivity|]; split; [repeat constructor; lia|]; split; [repeat constructor; lia|]; reflexivity|].
  change (zlen (t_perm ex_tree)) with 3. split; [lia|]. split; [exists 2; reflexivity|]. split; [reflexivity|].
  intros i Hi. assert (i = 0 \/ i = 1 \/ i = 2) as [->|[->| ->]] by lia; vm_compute; intuition discriminate.
Qed.

(** ** C25: variable-sized architectures.  [w] is the width of numbers in bits. *)
(** Bipartitioning gives the two sons, whose subtrees are disjoint and make up
    the subtree without its root, as long as their numbers are representable. *)
Theorem C25_variable_bipart_partial :
  forall w d, 2 <= w -> vwf d -> 2 * v_num d + 1 < 2 ^ (w - 1) ->
    exists d0 d1, archVDomBipart w d = Ok (d0, d1) /\ vwf d0 /\ vwf d1 /\
      (forall m, descends (v_num d) m <-> m = v_num d \/ descends (v_num d0) m \/ descends (v_num d1) m) /\
      (forall m, descends (v_num d0) m -> descends (v_num d1) m -> False) /\
      ~ descends (v_num d0) (v_num d) /\ ~ descends (v_num d1) (v_num d).
Proof.
  intros w d Hw W F. destruct (v_bipart_fits w d Hw W F) as (d0 & d1 & E & W0 & W1 & N0 & N1).
  exists d0, d1. split; [auto|]. split; [auto|]. split; [auto|].
  destruct W as [Wp Wl]. rewrite N0, N1.
  assert (HS : forall k, 0 <= k -> 1 <= 2 ^ k) by (intros k Hk; pose proof (Z.pow_pos_nonneg 2 k); lia).
  split; [|split; [|split]].
  - intros m. destruct (Z.eq_dec m (v_num d)) as [->|Hm].
    { split; [auto|]. intros _. now apply descends_refl. }
    assert (G : forall x, 1 <= x -> descends x m -> 1 <= m) by (intros x Hx (k & Hk & A); specialize (HS k Hk); nia).
    split.
    + intros A. right. apply descends_sons; auto. apply (G (v_num d)); auto.
    + intros [?|A]; [contradiction|]. apply descends_sons; auto.
      destruct A as [A|A]; [apply (G (2 * v_num d))|apply (G (2 * v_num d + 1))]; auto; lia.
  - intros m A B. assert (1 <= m) by (destruct A as (k & Hk & A); specialize (HS k Hk); nia).
    apply (descends_disj m (2 * v_num d) (2 * v_num d + 1)); auto; try lia.
    rewrite Z.log2_double, Z.log2_succ_double by lia. reflexivity.
  - intros (k & Hk & A). specialize (HS k Hk). nia.
  - intros (k & Hk & A). specialize (HS k Hk). nia.
Qed.
Print Assumptions C25_variable_bipart_partial.

(** At the last representable level it reports an error: "never fails" does not hold. *)
Theorem C25_variable_bipart_never_fails_refuted :
  (exists w d, 2 <= w /\ vwf d /\ v_num d < 2 ^ (w - 1) /\ archVDomBipart w d = Err 2) /\
  (forall w d, 2 <= w -> vwf d -> v_num d < 2 ^ (w - 1) ->
     2 ^ (w - 1) <= 2 * v_num d + 1 -> archVDomBipart w d = Err 2).
Proof.
  split; [|intros; now apply v_bipart_overflow].
  exists 32, (mkv 30 (2 ^ 30)). split; [lia|]. split; [split; [cbn; lia|reflexivity]|]. split; [cbn; lia|reflexivity].
Qed.
Print Assumptions C25_variable_bipart_never_fails_refuted.

(** Numbers identify domains, inclusion is inclusion of subtrees, and domains
    are saved and loaded exactly. *)
Theorem C25_variable_domains :
  (forall t, 1 <= t -> exists d, archVDomTerm t = Ok d /\ vwf d /\ archVDomNum d = Ok t) /\
  (forall d0 d1 t, vwf d0 -> vwf d1 -> archVDomNum d0 = Ok t -> archVDomNum d1 = Ok t -> d0 = d1) /\
  (forall d0 d1, vwf d0 -> vwf d1 -> exists b, archVDomIncl d0 d1 = Ok b /\
     (b = true <-> forall m, 1 <= m -> descends (v_num d1) m -> descends (v_num d0) m)) /\
  (forall imax, 9 <= imax -> saveload_ok vwf (fun d => v_num d <= imax) archVDomSave (archVDomLoad imax)).
Proof.
  split; [apply v_term|]. split; [|split; [apply v_incl_set|apply v_saveload]].
  intros [l0 n0] [l1 n1] t [W0 E0] [W1 E1] [= <-] [= <-]. cbn in *. now subst.
Qed.
Print Assumptions C25_variable_domains.

Theorem C25_variable_distances :
  (forall d0 d1, vwf d0 -> vwf d1 -> exists x, archVcmpltDomDist d0 d1 = Ok x /\ archVcmpltDomDist d1 d0 = Ok x /\
     0 <= x /\ (x = 0 <-> d0 = d1)) /\
  dist_sym vwf archVhcubDomDist /\
  (forall d0 d1, vwf d0 -> vwf d1 -> v_lvl d0 = v_lvl d1 ->
     archVhcubDomDist d0 d1 = Ok (hamming 0 (v_lvl d0) (v_num d0) (v_num d1))).
Proof.
  split; [apply vcmplt_dist|]. split; [apply vhcub_dist_sym|].
  intros d0 d1 W0 W1 E. pose proof (vhcub_dist d0 d1 W0 W1) as H. cbv zeta in H. rewrite H, <- E.
  rewrite Z.min_id, Z.sub_diag. change (2 ^ 0) with 1. change (Z.abs 0 / 2) with 0. now rewrite !Z.div_1_r, Z.add_0_r.
Qed.
Print Assumptions C25_variable_distances.

Example C25_example :
  vwf (mkv 2 5) /\ archVDomBipart 32 (mkv 2 5) = Ok (mkv 3 10, mkv 3 11) /\
  archVDomIncl (mkv 2 5) (mkv 4 21) = Ok true /\ archVhcubDomDist (mkv 3 10) (mkv 3 13) = Ok 3.
Proof. split; [split; [cbn; lia|reflexivity]|]. repeat split. Qed.
