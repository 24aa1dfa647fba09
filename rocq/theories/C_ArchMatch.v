(** C44: coarsening of target architectures by matching. *)
From Verif Require Import Base M_Arch S_Arch M_ArchMatch S_ArchMatch P_ArchMatch2 P_ArchMatch3 P_ArchMatch4.

(** ** Hypercube of dimension [n] *)
Theorem C44_hcub : forall n k, 0 <= n < 31 -> 2 ^ n <= Z.of_nat k ->
  exists st ms, archHcubMatchInit n = Ok st /\ rounds archHcubMatchMate fst st k = Ok ms /\ chain (2 ^ n) ms.
Proof.
  intros n k Hn Hk. destruct (hcub_init n Hn) as (st & E & I). exists st.
  destruct (rounds_ok archHcubMatchMate fst hinv hcub_step k _ st I Hk) as (ms & E2 & C). eauto.
Qed.
Print Assumptions C44_hcub.
Example C44_hcub_ex : exists st, archHcubMatchInit 2 = Ok st /\
  rounds archHcubMatchMate fst st 4 = Ok [(2, [(0, 1); (2, 3)]); (1, [(0, 1); (2, 3)])].
Proof. eexists. split; vm_compute; reflexivity. Qed.

(** ** Complete graph of [n] vertices *)
Theorem C44_cmplt : forall n k, 1 <= n -> n <= Z.of_nat k ->
  exists ms, rounds archCmpltMatchMate (fun st => fst (fst st)) (archCmpltMatchInit n) k = Ok ms /\ chain n ms.
Proof.
  intros n k Hn Hk. apply (rounds_ok archCmpltMatchMate (fun st => fst (fst st)) cinv); [|cbn|exact Hk].
  - intros m st Hm. destruct (cmplt_step m st Hm) as (H1 & [H|(c & st' & H)]); split; auto. right. exists c, st'. exact H.
  - rewrite zlen_repeat. lia.
Qed.
Print Assumptions C44_cmplt.
Example C44_cmplt_ex :
  rounds archCmpltMatchMate (fun st => fst (fst st)) (archCmpltMatchInit 5) 5 =
  Ok [(3, [(0, 1); (2, 3); (4, 4)]); (2, [(0, 1); (2, 2); (4, 4)]); (1, [(0, 1); (2, 2); (4, 4)])].
Proof. vm_compute. reflexivity. Qed.

(** ** Tree whose level [l] has [at_ 0 (t_size a) l] children per node *)
Theorem C44_tleaf : forall a k, Forall (fun z => 1 <= z) (t_size a) -> t_size a <> [] -> prod (t_size a) <= Z.of_nat k ->
  exists st ms, archTleafMatchInit a = Ok st /\ rounds (archTleafMatchMate a) tm_mt st k = Ok ms /\ chain (prod (t_size a)) ms.
Proof.
  intros a k Hs Hn Hk. assert (Hz : 0 < zlen (t_size a)) by (destruct (t_size a); [contradiction|rewrite zlen_cons; pose proof (zlen_nonneg l); lia]).
  destruct (tleaf_init a Hs Hz) as (st & E & I). exists st.
  destruct (rounds_ok (archTleafMatchMate a) tm_mt (tminv a)) with (k := k) (n := prod (t_size a)) (st := st) as (ms & E2 & C); auto.
  - intros m st' Hm. destruct (tleaf_step a Hs m st' Hm) as (H1 & [H|(c & st2 & H2 & H3 & H4 & H5 & _)]); split; auto. right. exists c, st2. auto.
  - eauto.
Qed.
Print Assumptions C44_tleaf.

(** Each call merges children of a same node, of a level below which all has been merged. *)
Theorem C44_tleaf_step : forall a st0 st, Forall (fun z => 1 <= z) (t_size a) -> t_size a <> [] ->
  archTleafMatchInit a = Ok st0 -> reach (archTleafMatchMate a) st0 st ->
  (tm_vert st = 1 /\ archTleafMatchMate a st = Err (-1)) \/
  exists c st' l s fs, archTleafMatchMate a st = Ok (c, st') /\ tm_vert st' = c /\
    0 <= l < zlen (t_size a) /\ 1 < s /\ tm_vert st = prod (firstn (Z.to_nat l) (t_size a)) * s /\
    grid_mating (prod (firstn (Z.to_nat l) (t_size a))) s 1 fs (tm_mt st') c.
Proof.
  intros a st0 st Hs Hn E R. assert (Hz : 0 < zlen (t_size a)) by (destruct (t_size a); [contradiction|rewrite zlen_cons; pose proof (zlen_nonneg l); lia]).
  destruct (tleaf_init a Hs Hz) as (st1 & E1 & I). rewrite E in E1. injection E1 as <-.
  assert (H : exists n, tminv a n st).
  { induction R as [|st c st' R IH E']; [eauto|]. destruct IH as (n & Hi).
    destruct (tleaf_step a Hs n st Hi) as (_ & [[_ H]|(c2 & st2 & H2 & H3 & _)]); rewrite E' in *; [discriminate|].
    injection H2 as -> ->. eauto. }
  destruct H as (n & Hi). assert (En : tm_vert st = n) by (symmetry; apply Hi).
  destruct (tleaf_step a Hs n st Hi) as (_ & [[H1 H]|(c & st' & H2 & H3 & H4 & H5 & l & s & fs & H6 & H7 & H8 & H9)]); [left; subst; auto|].
  right. exists c, st', l, s, fs. split; [exact H2|]. split; [symmetry; apply H3|]. subst n. auto.
Qed.
Print Assumptions C44_tleaf_step.
Definition ex_mtree := mktl 6 [2; 3] [5; 1] [] [].
Example C44_tleaf_ex : exists st, archTleafMatchInit ex_mtree = Ok st /\
  rounds (archTleafMatchMate ex_mtree) tm_mt st 6 =
  Ok [(4, [(0, 1); (2, 2); (3, 4); (5, 5)]); (2, [(0, 1); (2, 3); (3, 4); (5, 5)]); (1, [(0, 1); (2, 3); (3, 4); (5, 5)])].
Proof. eexists. split; vm_compute; reflexivity. Qed.

(** ** Mesh or torus of dimensions [c] *)
Theorem C44_mesh : forall c k, Forall (fun z => 1 <= z) c -> c <> [] -> prod c <= Z.of_nat k ->
  exists st ms, archMeshXMatchInit c = Ok st /\ rounds archMeshXMatchMate xm_mt st k = Ok ms /\ chain (prod c) ms.
Proof.
  intros c k Hs Hn Hk. destruct (mesh_init c Hs Hn) as (st & E & I & _). exists st.
  destruct (rounds_ok archMeshXMatchMate xm_mt xinv) with (k := k) (n := prod c) (st := st) as (ms & E2 & C); auto.
  - intros m st' Hm. destruct (mesh_step m st' Hm) as (H1 & [(H & _ & H')|(c2 & st2 & k2 & fs & H2)]); (split; [exact H1|]); [left|right]; auto.
    exists c2, st2. tauto.
  - eauto.
Qed.
Print Assumptions C44_mesh.

(** Each call halves one of the dimensions that can be, pairing neighbours along it. *)
Theorem C44_mesh_step : forall c st0 st, Forall (fun z => 1 <= z) c -> c <> [] ->
  archMeshXMatchInit c = Ok st0 -> reach archMeshXMatchMate st0 st ->
  (Forall (fun z => z = 1) (xm_dim st) /\ archMeshXMatchMate st = Err (-1)) \/
  exists cnt st' k fs, archMeshXMatchMate st = Ok (cnt, st') /\ 0 <= k < zlen c /\ 1 < at_ 0 (xm_dim st) k /\
    xm_dim st' = upd 0 (xm_dim st) k ((at_ 0 (xm_dim st) k + 1) / 2) /\
    grid_mating (prod (skipn (Z.to_nat (k + 1)) (xm_dim st))) (at_ 0 (xm_dim st) k) (prod (firstn (Z.to_nat k) (xm_dim st)))
      fs (xm_mt st') cnt.
Proof.
  intros c st0 st Hs Hn E R. destruct (mesh_init c Hs Hn) as (st1 & E1 & I & D0). rewrite E in E1. injection E1 as <-.
  assert (H : (exists n, xinv n st) /\ zlen (xm_dim st) = zlen c).
  { induction R as [|st cc st' R IH E']; [split; [eauto|now rewrite D0]|]. destruct IH as ((n & Hi) & Hz).
    destruct (mesh_step n st Hi) as (_ & [(_ & _ & H)|(c2 & st2 & k & fs & H2 & H3 & _ & _ & H4 & _)]); rewrite E' in *; [discriminate|].
    injection H2 as -> ->. split; [eauto|]. rewrite H4, zlen_upd. exact Hz. }
  destruct H as ((n & Hi) & Hz).
  destruct (mesh_step n st Hi) as (_ & [(_ & H1 & H)|(c2 & st' & k & fs & H2 & H3 & H4 & H5 & H6 & H7 & _)]); [left; auto|].
  right. exists c2, st', k, fs. rewrite Hz in H4. auto.
Qed.
Print Assumptions C44_mesh_step.
Example C44_mesh_ex : exists st, archMeshXMatchInit [3; 2] = Ok st /\
  rounds archMeshXMatchMate xm_mt st 6 =
  Ok [(4, [(0, 0); (1, 2); (3, 3); (4, 5)]); (2, [(0, 2); (1, 3); (3, 3); (4, 5)]); (1, [(0, 1); (1, 3); (3, 3); (4, 5)])].
Proof. eexists. split; vm_compute; reflexivity. Qed.
