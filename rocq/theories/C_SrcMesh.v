(** Properties C59 to C62: meshes and the graphs built from them. *)
From Verif Require Import Base M_Graph S_Graph P_Graph S_Color C_Graph M_Mesh S_Mesh P_MeshGraph P_MeshGraph2 P_MeshGraph3 P_MeshCheck P_MeshBase.

(** Two triangles that share an edge: elements 0 and 1, nodes 2 to 5; element
    loads 2 and 3, node loads 1, 2, 3, 4; base 0. *)
Definition ex_mesh : res mesh :=
  meshBuild 1000 0 2 2 4 [0; 3; 6; 7; 9; 11; 12] None (Some [2; 3]) (Some [1; 2; 3; 4]) None 12 [2; 3; 4; 3; 4; 5; 0; 0; 1; 0; 1; 1].
Definition ex_m : mesh := match ex_mesh with Ok m => m | _ => mkmesh 0 0 0 0 0 0 0 0 [] None None None 0 0 None None 0 [] 0 end.
(** the same without loads *)
Definition ex_m0 : mesh := match meshBuild 1000 0 2 2 4 [0; 3; 6; 7; 9; 11; 12] None None None None 12 [2; 3; 4; 3; 4; 5; 0; 0; 1; 0; 1; 1] with Ok m => m | _ => ex_m end.

(** ** C59: the consistency check of meshes *)

(** A mesh accepted by the check is consistent, provided that its base is the
    lowest vertex number and that its number of arcs is right, which the check does
    not look at. *)
Theorem C59_check_sound gmax m : meshCheck gmax m = Ok tt -> 0 <= mbase m -> mbase m = Z.min (velmbas m) (vnodbas m) ->
  medgenbr m = zsum (mbase m) (velmnbr m + vnodnbr m + mbase m) (mdegree m) -> mesh_valid m /\ mesh_readable m.
Proof. exact (meshCheck_sound gmax m). Qed.
Print Assumptions C59_check_sound.

(** Every consistent mesh is accepted. *)
Theorem C59_check_complete gmax m : mesh_valid m -> mesh_readable m ->
  (mvelo m <> None -> mvelosum m <= gmax) -> (mvnlo m <> None -> mvnlosum m <= gmax) -> meshCheck gmax m = Ok tt.
Proof. exact (meshCheck_complete gmax m). Qed.
Print Assumptions C59_check_complete.

(** The building routine keeps the arrays it is given and computes load sums,
    isolated elements and largest degree. *)
Theorem C59_build gmax eb nb en nn vt vd velo vnlo vlbl enbr et m : 0 <= en -> 0 <= nn ->
  meshBuild gmax eb nb en nn vt vd velo vnlo vlbl enbr et = Ok m ->
  0 <= mbase m /\ mbase m = Z.min eb nb /\
  velmbas m = eb /\ velmnnd m = eb + en /\ velmnbr m = en /\ vnodbas m = nb /\ vnodnnd m = nb + nn /\ vnodnbr m = nn /\
  mvert m = vt /\ mvend m = vd /\ mvelo m = based eb velo /\ mvnlo m = based nb vnlo /\ mvlbl m = vlbl /\ medgenbr m = enbr /\ medge m = et /\
  built m.
Proof.
  intros He Hn E. pose proof (wlp_elim _ _ _ (meshBuild_wlp gmax eb nb en nn vt vd velo vnlo vlbl enbr et He Hn) E) as (B & U & es & ns & is & dm & ->).
  cbn [meshOf mbase velmbas velmnnd velmnbr vnodbas vnodnnd vnodnbr mvert mvend mvelo mvnlo mvlbl medgenbr medge]. repeat split; auto; apply U.
Qed.
Print Assumptions C59_build.

(** What the building routine makes of the arrays of a consistent mesh is a
    consistent mesh, which the check accepts. *)
Theorem C59_build_check gmax m velo vnlo : mesh_valid m -> mesh_readable m -> mbase m <= 1 ->
  (mvelo m <> None -> mvelosum m <= gmax) -> (mvnlo m <> None -> mvnlosum m <= gmax) ->
  mvelo m = based (velmbas m) velo -> mvnlo m = based (vnodbas m) vnlo ->
  exists m', meshBuild gmax (velmbas m) (vnodbas m) (velmnbr m) (vnodnbr m) (mvert m) (mvend m) velo vnlo (mvlbl m) (medgenbr m) (medge m) = Ok m' /\
    mesh_valid m' /\ meshCheck gmax m' = Ok tt.
Proof.
  intros V R Hb G1 G2 Ev En. destruct (meshBuild_ok gmax m V R Hb G1 G2 velo vnlo Ev En) as (d & E). eexists. split; [exact E|].
  destruct (mv_elm m V) as [E0 _], (mv_nod m V) as [N0 _].
  pose proof (wlp_elim _ _ _ (meshBuild_wlp gmax (velmbas m) (vnodbas m) (velmnbr m) (vnodnbr m) (mvert m) (mvend m) velo vnlo (mvlbl m) (medgenbr m) (medge m) E0 N0) E) as (_ & (_ & _ & _ & U1 & U2 & _) & _).
  cbn [mdegrmax] in U1, U2.
  assert (V' : mesh_valid (mkmesh (mbase m) (velmnbr m) (velmbas m) (velmnnd m) (veisnbr m) (vnodnbr m) (vnodbas m) (vnodnnd m) (mvert m) (mvend m) (mvelo m) (mvnlo m)
          (mvelosum m) (mvnlosum m) None (mvlbl m) (medgenbr m) (medge m) d)).
  { apply valid_degr; [exact V|exact U1|]. intros v Hv. apply U2. destruct (vert_side m V v Hv); [left|right]; tauto. }
  split; [exact V'|]. apply meshCheck_complete; [exact V'| |exact G1|exact G2]. destruct R as [R1 R2 R3]. constructor; [destruct R1; constructor; assumption|exact R2|exact R3].
Qed.
Print Assumptions C59_build_check.

Lemma ex_m_ok : mesh_valid ex_m /\ mesh_readable ex_m.
Proof. apply (C59_check_sound 1000); vm_compute; (reflexivity || discriminate). Qed.
Lemma ex_m0_ok : mesh_valid ex_m0 /\ mesh_readable ex_m0.
Proof. apply (C59_check_sound 1000); vm_compute; (reflexivity || discriminate). Qed.

Example C59_example : ex_mesh = Ok ex_m /\ meshCheck 1000 ex_m = Ok tt /\ mesh_valid ex_m /\ mesh_readable ex_m /\ mvelosum ex_m = 5 /\ mvnlosum ex_m = 10 /\ mdegrmax ex_m = 3 /\ medgenbr ex_m = 12.
Proof. split; [vm_compute; reflexivity|]. split; [vm_compute; reflexivity|]. destruct ex_m_ok. split; [assumption|]. split; [assumption|]. vm_compute. auto. Qed.

(** The number of arcs is not checked: a mesh that is accepted with a wrong number
    of arcs makes the graph building routine write past the end of its array. *)
Theorem C59_edgenbr_refuted : exists m,
  meshBuild 1000 0 2 2 4 [0; 3; 6; 7; 9; 11; 12] None None None None 1 [2; 3; 4; 3; 4; 5; 0; 0; 1; 0; 1; 1] = Ok m /\
  meshCheck 1000 m = Ok tt /\ meshGraph m = UB.
Proof. eexists. split; [vm_compute; reflexivity|]. split; vm_compute; reflexivity. Qed.
Print Assumptions C59_edgenbr_refuted.

(** ** C60: the graph of the nodes of a mesh *)

Lemma paths_pos m a c : mesh_valid m -> isvert (mgraph m) a -> isvert (mgraph m) c -> (1 <= paths (mgraph m) a c <-> exists z, incident m a z /\ incident m c z).
Proof.
  intros V Ha Hc. destruct (paths_list (mgraph m) (mv_graph m V) a c Ha Hc) as (l & ND & <- & HL). split.
  - intros H1. destruct l as [|z l]; [unfold zlen in H1; cbn [length] in H1; lia|]. exists z. apply HL. now left.
  - intros (z & Hz). apply HL in Hz. destruct l; [destruct Hz|]. rewrite zlen_cons. pose proof (zlen_nonneg l). lia.
Qed.

(** Building the graph of a consistent mesh succeeds.  The graph is consistent;
    its vertices are the nodes, in the same order, with their loads; two of them
    are tied if, and only if, some element has both. *)
Theorem C60_graph m : mesh_valid m -> mesh_readable m ->
  exists gr, meshGraph m = Ok gr /\ graph_valid gr /\ graph_readable gr /\ baseval gr = mbase m /\ vertnbr gr = vnodnbr m /\
    let num n := n - vnodbas m + mbase m in
    (forall n, isvert gr (num n) <-> node m n) /\
    (forall n, node m n -> velo gr (num n) = mload (mvnlo m) n) /\
    forall n n', node m n -> node m n' ->
      (adjacent gr (num n) (num n') <-> n <> n' /\ exists e, elem m e /\ incident m e n /\ incident m e n').
Proof.
  intros V R. destruct (wp_ok_inv _ _ (meshGraph_spec m V R)) as (gr & E & G1 & G2 & G3 & G4 & G5 & G6 & G7).
  exists gr. split; [exact E|]. split; [exact G1|]. split; [exact G2|]. split; [exact G3|]. split; [exact G4|]. cbv zeta.
  assert (X : forall n, n - vnodbas m + mbase m + (vnodbas m - mbase m) = n) by (intros; lia).
  assert (Y : forall n, isvert gr (n - vnodbas m + mbase m) <-> node m n) by (intros n; rewrite G6, X; reflexivity).
  split; [exact Y|]. split; [intros n Hn; rewrite G5 by (apply Y; exact Hn); now rewrite X|].
  intros n n' Hn Hn'. rewrite G7 by (apply Y; assumption). rewrite !X. rewrite (paths_pos m n n' V) by (apply node_vert; assumption). split.
  - intros [N (z & Z1 & Z2)]. split; [lia|]. exists z. split.
    + destruct Z1 as (e & A & <-). destruct (arc_side m V n e A) as [[Z _]|[_ Z]]; [|exact Z]. destruct (vert_side m V n (node_vert m V n Hn)); tauto.
    + split; apply incident_sym; assumption.
  - intros [N (e & He & Z1 & Z2)]. split; [lia|]. exists e. split; apply incident_sym; assumption.
Qed.
Print Assumptions C60_graph.

Example C60_example : mesh_valid ex_m /\ mesh_readable ex_m /\ exists gr, meshGraph ex_m = Ok gr /\ vertnbr gr = 4 /\ edgenbr gr = 10 /\ velotab gr = Some [1; 2; 3; 4] /\
  firstn 10 (edgetab gr) = [1; 2; 0; 2; 3; 0; 1; 3; 1; 2] /\ graphCheck 1000 gr = Ok tt.
Proof. split; [apply ex_m_ok|]. split; [apply ex_m_ok|]. eexists. split; [vm_compute; reflexivity|]. repeat split; vm_compute; reflexivity. Qed.

(** ** C61: the dual graph of a mesh *)

Lemma common_unique m x y k k' : common m x y k -> common m x y k' -> k = k'.
Proof.
  intros (l & N & <- & H) (l' & N' & <- & H'). unfold zlen. f_equal.
  apply Nat.le_antisymm; apply NoDup_incl_length; auto; intros z Hz; [apply H', H|apply H, H']; exact Hz.
Qed.

(** Building the dual graph of a consistent mesh succeeds.  Its vertices are the
    elements, in the same order; two of them are tied if, and only if, they have
    at least one node in common and at least the number asked for, or all nodes
    but one of either of them if this is less. *)
Theorem C61_dual m noconbr : mesh_valid m -> mesh_readable m ->
  exists gr, meshGraphDual m noconbr = Ok gr /\ graph_readable gr /\ baseval gr = mbase m /\ vertnbr gr = velmnbr m /\
    (mvelosum m = velmnbr m -> graph_valid gr) /\
    let num e := e - velmbas m + mbase m in
    (forall e, isvert gr (num e) <-> elem m e) /\
    forall e e', elem m e -> elem m e' ->
      (adjacent gr (num e) (num e') <-> e <> e' /\ exists k, common m e e' k /\ 1 <= k /\ Z.min noconbr (Z.min (mdegree m e - 1) (mdegree m e' - 1)) <= k).
Proof.
  intros V R. destruct (wp_ok_inv _ _ (meshGraphDual_spec m noconbr V R)) as (gr & E & G1 & G2 & G3 & G4 & _ & _ & G6 & G7).
  exists gr. split; [exact E|]. split; [exact G2|]. split; [exact G3|]. split; [exact G4|]. split; [exact G1|]. cbv zeta.
  assert (X : forall n, n - velmbas m + mbase m + (velmbas m - mbase m) = n) by (intros; lia).
  assert (Y : forall n, isvert gr (n - velmbas m + mbase m) <-> elem m n) by (intros n; rewrite G6, X; reflexivity).
  split; [exact Y|]. intros e e' He He'. rewrite G7 by (apply Y; assumption). cbv zeta. rewrite !X. unfold thrd.
  pose proof (paths_list (mgraph m) (mv_graph m V) e e' (elem_vert m V e He) (elem_vert m V e' He')) as P.
  change (common m e e' (paths (mgraph m) e e')) in P. split.
  - intros (N & P1 & P2). split; [lia|]. exists (paths (mgraph m) e e'). split; [exact P|]. lia.
  - intros (N & k & Ck & P1 & P2). rewrite (common_unique _ _ _ _ _ P Ck). lia.
Qed.
Print Assumptions C61_dual.

Example C61_example : mesh_valid ex_m0 /\ mesh_readable ex_m0 /\ mvelosum ex_m0 = velmnbr ex_m0 /\
  (exists gr, meshGraphDual ex_m0 2 = Ok gr /\ edgenbr gr = 2 /\ graphCheck 1000 gr = Ok tt) /\ common ex_m0 0 1 2.
Proof.
  split; [apply ex_m0_ok|]. split; [apply ex_m0_ok|]. split; [vm_compute; reflexivity|]. split; [eexists; split; [vm_compute; reflexivity|]; split; vm_compute; reflexivity|].
  destruct ex_m0_ok as [V _]. pose proof (paths_list (mgraph ex_m0) (mv_graph _ V) 0 1 ltac:(vm_compute; split; (reflexivity || discriminate)) ltac:(vm_compute; split; (reflexivity || discriminate))) as P.
  change (paths (mgraph ex_m0) 0 1) with 2 in P. exact P.
Qed.

(** When elements have loads, the dual graph has none, but keeps their sum: it is
    not consistent, and the graph check rejects it. *)
Theorem C61_loads_refuted : exists m gr, mesh_valid m /\ mesh_readable m /\ meshGraphDual m 1 = Ok gr /\ ~ graph_valid gr /\ graphCheck 1000 gr = Err 1.
Proof.
  exists ex_m. eexists. split; [apply ex_m_ok|]. split; [apply ex_m_ok|]. split; [vm_compute; reflexivity|]. split; [|vm_compute; reflexivity].
  intros V. pose proof (gv_velosum _ V) as X. vm_compute in X. discriminate.
Qed.
Print Assumptions C61_loads_refuted.

(** ** C62: changing the base of a mesh *)

(** On a consistent mesh whose vertices do not share cells of the edge array,
    changing the base shifts all numbers, keeps all else, and can be undone.  Once
    the two load arrays have been moved along, the mesh is consistent; the routine
    does not move them. *)
Theorem C62_base_partial m b' : mesh_valid m -> mesh_readable m -> disjoint_ranges (mgraph m) ->
  (mvend m = None -> velmnbr m + vnodnbr m + 1 <= zlen (mvert m)) -> 0 <= b' ->
  let adj := b' - mbase m in
  exists m', meshBase m b' = Ok (mbase m, m') /\ mesh_shifted adj m m' /\ mvelo m' = mvelo m /\ mvnlo m' = mvnlo m /\
    mesh_valid (move_loads adj m') /\ mesh_readable (move_loads adj m') /\ meshBase m' (mbase m) = Ok (b', m).
Proof. exact (meshBase_spec m b'). Qed.
Print Assumptions C62_base_partial.

(** In particular, a mesh without loads stays consistent. *)
Theorem C62_base_noloads m b' : mesh_valid m -> mesh_readable m -> disjoint_ranges (mgraph m) ->
  (mvend m = None -> velmnbr m + vnodnbr m + 1 <= zlen (mvert m)) -> 0 <= b' -> mvelo m = None -> mvnlo m = None ->
  exists m', meshBase m b' = Ok (mbase m, m') /\ mbase m' = b' /\ mesh_valid m' /\ mesh_readable m' /\
    forall x y, incident m x y <-> incident m' (x + (b' - mbase m)) (y + (b' - mbase m)).
Proof.
  intros V R D C Hb E1 E2. destruct (meshBase_spec m b' V R D C Hb) as (m' & E & SH & M1 & M2 & V' & R' & _). exists m'. split; [exact E|]. 
  split; [rewrite (ms_base _ _ _ SH); lia|]. set (adj := b' - mbase m) in *.
  assert (X : move_loads adj m' = m') by (unfold move_loads; rewrite M1, M2, E1, E2; destruct m'; cbn in *; congruence). rewrite X in V', R'. split; [exact V'|]. split; [exact R'|].
  intros x y. pose proof (ms_graph _ _ _ SH) as G. unfold incident, adjacent. split.
  - intros (e & A & <-). exists (e + adj). split; [apply (P_GraphBase.gs_arc _ _ _ G); replace (x + adj - adj) with x by lia; replace (e + adj - adj) with e by lia; exact A|]. apply (gs_edge _ _ _ G x e A).
  - intros (e & A & Ee). pose proof (P_GraphBase.gs_edge' _ _ _ G _ _ A) as E'. apply (P_GraphBase.gs_arc _ _ _ G) in A. replace (x + adj - adj) with x in A by lia. exists (e - adj). split; [exact A|]. lia.
Qed.
Print Assumptions C62_base_noloads.

Example C62_example : mesh_valid ex_m /\ disjoint_ranges (mgraph ex_m) /\ exists m', meshBase ex_m 1 = Ok (0, m') /\ mbase m' = 1 /\ velmbas m' = 1 /\ vnodbas m' = 3 /\ medge m' = [3; 4; 5; 4; 5; 6; 1; 1; 2; 1; 2; 2].
Proof.
  split; [apply ex_m_ok|]. split; [apply P_GraphBase.compact_disjoint; [apply (mv_graph _ (proj1 ex_m_ok))|reflexivity]|].
  eexists. split; [vm_compute; reflexivity|]. repeat split.
Qed.

(** The loads of a consistent mesh are read at the wrong place once its base has
    been changed: past the end of both arrays, hence with no defined outcome, or,
    the other way round, before their start. *)
Theorem C62_loads_refuted : exists m m', mesh_valid m /\ mesh_readable m /\ disjoint_ranges (mgraph m) /\ meshBase m 1 = Ok (0, m') /\ meshCheck 1000 m' = UB /\
  mload (mvelo m) 0 = 2 /\ mload (mvelo m') (0 + 1) = 3.
Proof.
  exists ex_m. eexists. split; [apply ex_m_ok|]. split; [apply ex_m_ok|]. split; [apply C62_example|]. split; [vm_compute; reflexivity|].
  split; [vm_compute; reflexivity|]. split; vm_compute; reflexivity.
Qed.
Print Assumptions C62_loads_refuted.
