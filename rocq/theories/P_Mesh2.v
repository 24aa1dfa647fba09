(** Mesh and torus routines against their specification. *)
From Verif Require Import Base M_Int S_Int P_Int M_Arch S_Arch P_Arch P_Mesh.

Lemma frst_wf c : dims_ok c -> mwf c (map (fun n => (0, n - 1)) c).
Proof. induction 1; simpl; constructor; [simpl; lia|auto]. Qed.

Lemma frst_box c x : inrng c x -> box x (map (fun n => (0, n - 1)) c).
Proof. induction 1; simpl; constructor; [simpl; lia|auto]. Qed.

(** ** n dimensions *)
Section X.
Context (c : list Z) (Hc : dims_ok c) (Hne : c <> []).

Lemma meshX_frst : frst_ok (prod c) (mwf c) (mmem c) (archMeshXDomFrst c).
Proof.
  eexists; split; [reflexivity|].
  split; [now apply frst_wf|]. intros t. unfold mmem. split; [tauto|]. intros Ht. split; auto.
  apply frst_box. now apply coords_inrng.
Qed.

Lemma meshX_size : size_ok (mwf c) (mmem c) (archMeshXDomSize c).
Proof.
  apply (size_intro _ _ bsize (mesh_sz c)). intros d W. unfold archMeshXDomSize.
  pose proof (proj1 (mwf_at _ _) W) as [L _].
  match goal with |- ?r = _ => destruct (wp_ok_inv r (fun s => s = bsize d)) as (a & -> & ->); [|reflexivity] end.
  apply wp_for with (I := fun k s => s = prod (map (fun b => snd b - fst b + 1) (firstn (Z.to_nat k) d))).
  - apply zlen_nonneg.
  - reflexivity.
  - intros k s Hk ->. apply wp_bind. apply wp_rd; [lia|].
    destruct (at_ 0 d k) as [l h] eqn:E. cbn [wp].
    assert (EF : firstn (Z.to_nat (k + 1)) d = firstn (Z.to_nat k) d ++ [(l, h)]).
    { replace (Z.to_nat (k + 1)) with (S (Z.to_nat k)) by lia. rewrite <- E. unfold at_. rewrite Z.sub_0_r.
      assert (Hl : (Z.to_nat k < length d)%nat) by (unfold zlen in *; lia). revert Hl. generalize (Z.to_nat k). clear.
      induction d; intros n Hl; simpl in *; [lia|]. destruct n; simpl; auto. f_equal. apply IHd. lia. }
    rewrite EF, map_app. cbn [map fst snd].
    assert (G : forall l x, prod (l ++ [x]) = prod l * x) by (clear; induction l; intros; cbn [app prod]; [|rewrite IHl]; ring).
    now rewrite G.
  - intros s ->. pose proof (zlen_nonneg c). rewrite firstn_all2; [reflexivity|]. unfold zlen in *. lia.
Qed.

Lemma meshX_term : term_ok (prod c) (mwf c) (mmem c) (archMeshXDomTerm c) (archMeshXDomNum c).
Proof.
  unfold archMeshXDomTerm, archMeshXDomNum. split.
  - intros t Ht. rewrite meshTerm_spec by (auto; lia). rewrite Z.div_small by lia. cbn [Z.ltb Z.compare].
    eexists; split; [reflexivity|]. split; [apply point_wf, coords_inrng; auto|].
    split; [intros; apply point_mem; auto|].
    destruct c as [|c0 c'] eqn:E; [congruence|]. rewrite <- E in *. f_equal.
    change (map (fun v => (v, v)) (coords c t)) with (point (coords c t)).
    rewrite map_fst_point. rewrite meshNum_numL by (auto; apply zlen_coords). now apply num_coords.
  - intros t Ht. pose proof (prod_pos c Hc). rewrite meshTerm_spec by (auto; lia).
    assert (1 <= t / prod c) by (apply Z.div_le_lower_bound; lia).
    destruct (Z.ltb_spec 0 (t / prod c)); auto. lia.
Qed.

Lemma archMeshXDomNum_eq d : mwf c d -> archMeshXDomNum c d = Ok (numL c (map fst d)).
Proof.
  intros W. unfold archMeshXDomNum. destruct c as [|c0 c'] eqn:E; [congruence|]. rewrite <- E in *. f_equal.
  apply meshNum_numL; auto. rewrite zlen_map. apply mwf_at in W. lia.
Qed.

Lemma meshX_num : num_ok (mwf c) (mmem c) (archMeshXDomNum c).
Proof.
  intros d W. rewrite archMeshXDomNum_eq by auto. destruct (mesh_num_min c d W).
  eexists; split; [reflexivity|]. split; auto.
Qed.

Lemma meshX_incl : incl_ok (mwf c) (mmem c) (archMeshXDomIncl c).
Proof.
  intros d0 d1 W0 W1. eexists; split; [reflexivity|]. rewrite <- mesh_incl_at by auto.
  rewrite forallb_forall. split; intros H k Hk; apply H.
  - apply In_zseq. lia.
  - apply In_zseq in Hk. lia.
Qed.

Lemma meshPickAll_spec d : mwf c d -> forall n st,
  (n <= length c)%nat ->
  (let '(_, flg, smax, k) := st in
   -1 <= smax /\ (smax < 0 -> n = length c) /\ (flg = 0 -> smax <= 0) /\
   0 <= flg /\ (0 < smax -> flg <> 0) /\
   (0 <= smax -> 0 <= k < zlen c /\ hi d k - lo d k = smax) /\
   (forall j, Z.of_nat n <= j < zlen c -> hi d j - lo d j <= smax) /\ (smax <= 0 -> flg = 0)) ->
  let '(_, flg, smax, k) := meshPickAll c d n st in
   (flg = 0 <-> smax <= 0) /\ 0 <= smax /\ 0 <= k < zlen c /\ hi d k - lo d k = smax /\
   (forall j, 0 <= j < zlen c -> hi d j - lo d j <= smax).
Proof.
  intros W. pose proof (proj1 (mwf_at _ _) W) as [L WA].
  induction n; intros [[[amax flg] smax] k] Hn (H1 & H2 & H3 & H4 & H5 & H6 & H7 & H8).
  - cbn [meshPickAll]. assert (0 <= smax).
    { destruct (Z.lt_ge_cases smax 0) as [Hs|]; [|lia]. specialize (H2 Hs). destruct c; [congruence|discriminate]. }
    destruct H6; auto.
    split; [split; [auto|]|].
    + auto.
    + split; [auto|]. split; [auto|]. split; [auto|]. intros; apply H7; lia.
  - cbn [meshPickAll]. apply IHn; [lia|]. unfold meshPick.
    set (j := Z.of_nat n). assert (Hj : 0 <= j < zlen c) by (unfold j, zlen; lia).
    specialize (WA j Hj). set (siz := hi d j - lo d j). assert (0 <= siz) by (unfold siz; lia).
    assert (Hf : 0 <= Z.lor flg siz) by (apply Z.lor_nonneg; lia).
    assert (Hfe : Z.lor flg siz = 0 <-> flg = 0 /\ siz = 0) by apply Z.lor_eq_0_iff.
    assert (HJ : forall s, smax <= s -> siz <= s -> forall i, j <= i < zlen c -> hi d i - lo d i <= s).
    { intros s Hs Hs2 i Hi. destruct (Z.eq_dec i j) as [->|]; [fold siz; lia|].
      specialize (H7 i ltac:(lia)). lia. }
    destruct (Z.ltb_spec siz smax).
    + split; [lia|]. split; [lia|]. split; [intros E; apply Hfe in E; tauto|]. split; [lia|].
      split; [intros E F; apply Hfe in F; apply H5; tauto|]. split; [intros _; apply H6; lia|].
      split; [apply HJ; lia|lia].
    + destruct ((siz =? smax) && (dim c j <=? amax)) eqn:E.
      * apply andb_true_iff in E. destruct E as [E _]. apply Z.eqb_eq in E.
        split; [lia|]. split; [lia|]. split; [intros F; apply Hfe in F; tauto|]. split; [lia|].
        split; [intros G F; apply Hfe in F; apply H5; tauto|]. split; [intros _; apply H6; lia|].
        split; [apply HJ; lia|]. intros. apply Hfe. split; [auto|lia].
      * split; [lia|]. split; [lia|]. split; [intros F; apply Hfe in F; lia|]. split; [lia|].
        split; [intros G F; apply Hfe in F; lia|]. split; [intros _; split; [auto|reflexivity]|].
        split; [apply HJ; lia|]. intros. apply Hfe. split; [apply H8; lia|lia].
Qed.

Lemma mid_bound l h : 0 <= l -> l < h -> l <= Z.quot (l + h) 2 < h.
Proof.
  intros. rewrite Z.quot_div_nonneg by lia.
  split; [apply Z.div_le_lower_bound; lia|apply Z.div_lt_upper_bound; lia].
Qed.

Lemma meshX_bipart : bipart_ok (mwf c) (mmem c) (archMeshXDomBipart c).
Proof.
  assert (HI : forall d, mwf c d -> 
    let '(_, flg, smax, k) := meshPickAll c d (length c) (0, 0, -1, zlen c - 1) in
    (flg = 0 <-> smax <= 0) /\ 0 <= smax /\ 0 <= k < zlen c /\ hi d k - lo d k = smax /\
    (forall j, 0 <= j < zlen c -> hi d j - lo d j <= smax)).
  { intros d W. apply (meshPickAll_spec d W); [lia|].
    split; [lia|]. split; [auto|]. split; [lia|]. split; [lia|]. split; [lia|]. split; [lia|].
    split; [|auto]. unfold zlen. lia. }
  apply (bipart_intro _ _ bsize (mesh_sz c)); intros d W H; specialize (HI d W); unfold archMeshXDomBipart;
    destruct (meshPickAll c d (length c) (0, 0, -1, zlen c - 1)) as [[[amax flg] smax] k];
    destruct HI as (I1 & I2 & I3 & I4 & I5); pose proof (proj1 (mwf_at _ _) W) as [L WA].
  - pose proof (proj1 (bsize_at c d W) H k I3). replace (flg =? 0) with true; [auto|].
    symmetry. apply Z.eqb_eq, I1. lia.
  - destruct (Z.eqb_spec flg 0) as [E|E].
    + apply I1 in E. exfalso. assert (bsize d = 1); [|lia]. apply (bsize_at c d W). intros j Hj.
      specialize (I5 j Hj). specialize (WA j Hj). lia.
    + assert (0 < smax) by (destruct (Z.le_gt_cases smax 0); [exfalso; apply E, I1; auto|lia]).
      specialize (WA k I3).
      pose proof (msplit_spec c d k (Z.quot (lo d k + hi d k) 2) W I3 (mid_bound (lo d k) (hi d k) ltac:(lia) ltac:(lia))) as HS.
      destruct (msplit d k _) as [d0 d1]. exists d0, d1. split; [reflexivity|]. exact HS.
Qed.

Lemma at_point x k : 0 <= k < zlen x -> lo (point x) k = at_ 0 x k /\ hi (point x) k = at_ 0 x k.
Proof. intros. unfold lo, hi, point. rewrite at_map by lia. auto. Qed.

Lemma wrap_sum d0 d1 :
  for_ 0 (zlen c) (fun k s => Ok (s + wrapdist c d0 d1 k)) 0 = Ok (zsum 0 (zlen c) (wrapdist c d0 d1)).
Proof.
  match goal with |- ?r = Ok ?v => destruct (wp_ok_inv r (fun s => s = v)) as (a & -> & ->); [|reflexivity] end.
  pose proof (zlen_nonneg c).
  apply wp_for with (I := fun k s => s = zsum 0 k (wrapdist c d0 d1)).
  - lia.
  - now rewrite zsum_nil by lia.
  - intros k s Hk ->. cbn [wp]. now rewrite zsum_snoc by lia.
  - intros s ->. reflexivity.
Qed.

Lemma wrapdist_sym d0 d1 k : wrapdist c d0 d1 k = wrapdist c d1 d0 k.
Proof.
  unfold wrapdist. replace (Z.abs (lo d1 k + hi d1 k - lo d0 k - hi d0 k)) with (Z.abs (lo d0 k + hi d0 k - lo d1 k - hi d1 k)) by lia. reflexivity.
Qed.

Lemma wrapdist_nonneg d0 d1 k : mwf c d0 -> mwf c d1 -> 0 <= k < zlen c -> 0 <= wrapdist c d0 d1 k.
Proof.
  intros W0 W1 Hk. apply mwf_at in W0, W1. destruct W0 as [_ W0], W1 as [_ W1]. specialize (W0 k Hk). specialize (W1 k Hk).
  unfold wrapdist. cbv zeta. destruct (Z.ltb_spec (dim c k) (Z.abs (lo d0 k + hi d0 k - lo d1 k - hi d1 k))); lia.
Qed.

Lemma torusX_dist_sym : dist_sym (mwf c) (archTorusXDomDist c).
Proof.
  intros d0 d1 W0 W1. unfold archTorusXDomDist. rewrite !wrap_sum. cbn [bind]. eexists; split; [reflexivity|].
  rewrite (zsum_ext 0 (zlen c) (wrapdist c d1 d0) (wrapdist c d0 d1)) by (intros; apply wrapdist_sym).
  split; [auto|]. rewrite Z.shiftr_div_pow2 by lia. change (2 ^ 1) with 2. apply Z.div_pos; [|lia].
  apply zsum_nonneg. intros. now apply wrapdist_nonneg.
Qed.
End X.

Lemma toric_eq c t0 t1 : dims_ok c ->
  zsum 0 (zlen c) (fun k => wrapdist c (point (coords c t0)) (point (coords c t1)) k) = 2 * toric c t0 t1.
Proof.
  intros Hc. revert t0 t1. induction Hc as [|n c Hn Hc IH]; intros t0 t1; [reflexivity|].
  pose proof (zlen_nonneg c). rewrite zlen_cons. rewrite zsum_cons by lia. cbn [toric].
  rewrite Z.mul_add_distr_l. rewrite <- IH. f_equal.
  - unfold wrapdist, lo, hi, dim. cbn [coords point map]. rewrite !at_cons_0. cbn [fst snd]. cbv zeta.
    destruct (Z.ltb_spec n (Z.abs (t0 mod n + t0 mod n - t1 mod n - t1 mod n))); lia.
  - replace (1 + zlen c) with (zlen c + 1) by lia.
    rewrite <- (zsum_shift 0 (zlen c) 1). apply zsum_ext. intros k Hk.
    unfold wrapdist, lo, hi, dim. cbn [coords point map]. rewrite !at_cons_S by lia.
    now replace (k + 1 - 1) with k by lia.
Qed.

Lemma meshX_term_eq c t d : dims_ok c -> 0 <= t < prod c -> archMeshXDomTerm c t = Ok d -> d = point (coords c t).
Proof.
  intros Hc Ht. unfold archMeshXDomTerm. rewrite meshTerm_spec by (auto; lia). rewrite Z.div_small by lia.
  cbn [Z.ltb Z.compare]. intros [= <-]. reflexivity.
Qed.

Lemma torusX_dist_term c : dims_ok c -> dist_term (prod c) (archMeshXDomTerm c) (archTorusXDomDist c) (toric c).
Proof.
  intros Hc t0 t1 d0 d1 H0 H1 T0 T1. apply meshX_term_eq in T0, T1; auto. subst.
  unfold archTorusXDomDist. rewrite wrap_sum. cbn [bind].
  pose proof (toric_eq c t0 t1 Hc) as E. cbv beta in E. change (fun k => wrapdist c (point (coords c t0)) (point (coords c t1)) k) with (wrapdist c (point (coords c t0)) (point (coords c t1))) in E. rewrite E. rewrite Z.shiftr_div_pow2 by lia. change (2 ^ 1) with 2.
  rewrite Z.mul_comm, Z.div_mul by lia. reflexivity.
Qed.

Lemma meshX_dist_term c : dims_ok c -> dist_term (prod c) (archMeshXDomTerm c) (archMeshXDomDist c) (toric c).
Proof. apply torusX_dist_term. Qed.

Lemma mesh_saveload imax c : 9 <= imax -> c <> [] -> Forall (fun n => n <= imax) c ->
  saveload_ok (mwf c) (fun _ => True) archMeshXDomSave (archMeshXDomLoad imax c).
Proof.
  intros Hm Hne Hi d ws rest W _ Hw. unfold archMeshXDomLoad. revert ws rest Hw Hne Hi.
  induction W as [|n b c d Hb W IH]; intros; [congruence|].
  inversion Hi; subst. cbn [meshLoad archMeshXDomSave flat_map]. destruct b as [l h]. cbn [fst snd] in *.
  rewrite <- app_assoc. rewrite load2_save by (auto; lia). cbn [bind].
  destruct (Z.ltb_spec h l); [lia|]. destruct (Z.ltb_spec l 0); [lia|]. cbn [orb].
  destruct W as [|n' b' c d Hb' W].
  - cbn [meshLoad flat_map bind app]. reflexivity.
  - change (32 :: flat_map _ (b' :: d) ++ rest) with ([32] ++ archMeshXDomSave (b' :: d) ++ rest).
    rewrite IH; [reflexivity|apply (blank1 32 eq_refl)|discriminate|assumption].
Qed.

(** ** Two and three dimensions *)
Lemma at1_ {A} `{Dflt A} (x y : A) l : at_ 0 (x :: y :: l) 1 = y. Proof. reflexivity. Qed.
Lemma at2_ {A} `{Dflt A} (x y z : A) l : at_ 0 (x :: y :: z :: l) 2 = z. Proof. reflexivity. Qed.
Ltac atc := rewrite ?at_cons_0, ?at1_, ?at2_; cbn [fst snd].

Lemma mwf2 c0 c1 d : mwf [c0; c1] d -> exists l0 h0 l1 h1, d = [(l0, h0); (l1, h1)] /\ 0 <= l0 <= h0 /\ h0 < c0 /\ 0 <= l1 <= h1 /\ h1 < c1.
Proof.
  intros W. inversion W as [|? [l0 h0] ? ? H0 W1]; subst. inversion W1 as [|? [l1 h1] ? ? H1 W2]; subst.
  inversion W2; subst. cbn in *. do 4 eexists; split; [reflexivity|]. lia.
Qed.
Lemma mwf3 c0 c1 c2 d : mwf [c0; c1; c2] d -> exists l0 h0 l1 h1 l2 h2,
  d = [(l0, h0); (l1, h1); (l2, h2)] /\ 0 <= l0 <= h0 /\ h0 < c0 /\ 0 <= l1 <= h1 /\ h1 < c1 /\ 0 <= l2 <= h2 /\ h2 < c2.
Proof.
  intros W. inversion W as [|? [l0 h0] ? ? H0 W1]; subst. inversion W1 as [|? [l1 h1] ? ? H1 W2]; subst.
  inversion W2 as [|? [l2 h2] ? ? H2 W3]; subst. inversion W3; subst. cbn in *. do 6 eexists; split; [reflexivity|]. lia.
Qed.

Section Two.
Context (c0 c1 : Z) (H0 : 1 <= c0) (H1 : 1 <= c1).
Let c := [c0; c1].

Lemma dims2 : dims_ok c.
Proof. unfold c. repeat constructor; auto. Qed.

Lemma prod2 : prod c = c0 * c1.
Proof. unfold c. cbn [prod]. lia. Qed.

Lemma mesh2_size : size_ok (mwf c) (mmem c) (archMesh2DomSize c).
Proof.
  apply (size_intro _ _ bsize (mesh_sz c)). intros d W. apply mwf2 in W.
  destruct W as (l0 & h0 & l1 & h1 & -> & _). unfold archMesh2DomSize, bsize, hi, lo. cbn [map prod numL]; atc; f_equal; ring.
Qed.

Lemma mesh2_num_eq d : mwf c d -> archMesh2DomNum c d = Ok (numL c (map fst d)).
Proof.
  intros W. apply mwf2 in W. destruct W as (l0 & h0 & l1 & h1 & -> & _).
  unfold archMesh2DomNum, lo, dim, c. cbn [map prod numL]; atc; f_equal; ring.
Qed.

Lemma mesh2_num : num_ok (mwf c) (mmem c) (archMesh2DomNum c).
Proof.
  intros d W. rewrite mesh2_num_eq by auto. destruct (mesh_num_min c d W).
  eexists; split; [reflexivity|]. split; auto.
Qed.

Lemma mesh2_term_eq t : 0 <= t < prod c -> archMesh2DomTerm c t = Ok (point (coords c t)).
Proof.
  intros Ht. rewrite prod2 in Ht. unfold archMesh2DomTerm, dim, c. cbn [coords point map].
  change (at_ 0 [c0; c1] 0) with c0. change (at_ 0 [c0; c1] 1) with c1.
  destruct (Z.ltb_spec t (c0 * c1)); [|lia].
  rewrite Z.rem_mod_nonneg, Z.quot_div_nonneg by lia.
  rewrite (Z.mod_small (t / c0) c1); [reflexivity|].
  split; [apply Z.div_pos; lia|apply Z.div_lt_upper_bound; lia].
Qed.

Lemma mesh2_term : term_ok (prod c) (mwf c) (mmem c) (archMesh2DomTerm c) (archMesh2DomNum c).
Proof.
  split.
  - intros t Ht. exists (point (coords c t)). split; [now apply mesh2_term_eq|].
    assert (W : mwf c (point (coords c t))) by (apply point_wf, coords_inrng, dims2).
    split; [auto|]. split; [intros; apply point_mem; auto using dims2|].
    rewrite mesh2_num_eq by auto. rewrite map_fst_point. f_equal. apply num_coords; auto using dims2.
  - intros t Ht. rewrite prod2 in Ht. unfold archMesh2DomTerm.
    change (dim c 0) with c0. change (dim c 1) with c1. destruct (Z.ltb_spec t (c0 * c1)); auto. lia.
Qed.

Lemma mesh2_incl : incl_ok (mwf c) (mmem c) (archMesh2DomIncl c).
Proof.
  intros d0 d1 W0 W1. eexists; split; [reflexivity|]. rewrite <- mesh_incl_at by auto.
  rewrite andb_true_iff. change (zlen c) with 2. split.
  - intros [A B] k Hk. assert (k = 0 \/ k = 1) as [->| ->] by lia; auto.
  - intros H. split; apply H; lia.
Qed.

Lemma bip2 bip : 
  (forall d, mwf c d -> lo d 0 = hi d 0 /\ lo d 1 = hi d 1 -> bip d = Err 1) ->
  (forall d, mwf c d -> ~ (lo d 0 = hi d 0 /\ lo d 1 = hi d 1) ->
     exists k m, 0 <= k < 2 /\ lo d k <= m < hi d k /\ bip d = Ok (msplit d k m)) ->
  bipart_ok (mwf c) (mmem c) bip.
Proof.
  intros B1 B2. apply (bipart_intro _ _ bsize (mesh_sz c)); intros d W H.
  - apply B1; auto. split; apply (bsize_at c d W); auto; change (zlen c) with 2; lia.
  - destruct (B2 d W) as (k & m & Hk & Hm & ->).
    + intros [E0 E1]. assert (bsize d = 1); [|lia]. apply (bsize_at c d W). change (zlen c) with 2.
      intros k Hk. assert (k = 0 \/ k = 1) as [->| ->] by lia; auto.
    + pose proof (msplit_spec c d k m W ltac:(change (zlen c) with 2; lia) Hm) as HS.
      destruct (msplit d k m) as [d0 d1]. exists d0, d1. split; [reflexivity|exact HS].
Qed.

Lemma wf2b d k : mwf c d -> 0 <= k < 2 -> 0 <= lo d k <= hi d k.
Proof. intros W Hk. apply mwf_at in W. destruct W as [_ W]. apply (W k). change (zlen c) with 2. lia. Qed.

Lemma mesh2_bipart : bipart_ok (mwf c) (mmem c) (archMesh2DomBipart c).
Proof.
  apply bip2; intros d W H; unfold archMesh2DomBipart; cbv zeta;
    pose proof (wf2b d 0 W ltac:(lia)); pose proof (wf2b d 1 W ltac:(lia)).
  - destruct H as [-> ->]. now rewrite !Z.sub_diag.
  - destruct (Z.eqb_spec (Z.lor (hi d 0 - lo d 0) (hi d 1 - lo d 1)) 0) as [E|E].
    + apply Z.lor_eq_0_iff in E. exfalso. apply H. lia.
    + match goal with |- context [msplit d ?k _] => set (k' := k) end.
      exists k', (Z.quot (lo d k' + hi d k') 2).
      assert (E' : lo d 0 < hi d 0 \/ lo d 1 < hi d 1) by lia.
      assert (HK : 0 <= k' < 2 /\ lo d k' < hi d k').
      { unfold k'. destruct (Z.ltb_spec (hi d 1 - lo d 1) (hi d 0 - lo d 0)); cbn [orb]; [lia|].
        destruct (Z.eqb_spec (hi d 0 - lo d 0) (hi d 1 - lo d 1)); cbn [andb]; [|lia].
        destruct (dim c 1 <? dim c 0); lia. }
      split; [lia|]. split; [|reflexivity]. apply mid_bound; [|lia]. pose proof (wf2b d k' W). lia.
Qed.

Lemma mesh2_bipartO : bipart_ok (mwf c) (mmem c) (archMesh2DomBipartO c).
Proof.
  apply bip2; intros d W H; unfold archMesh2DomBipartO; cbv zeta;
    pose proof (wf2b d 0 W ltac:(lia)); pose proof (wf2b d 1 W ltac:(lia)).
  - destruct H as [-> ->]. now rewrite !Z.eqb_refl.
  - destruct (Z.eqb_spec (lo d 0) (hi d 0)) as [E0|E0], (Z.eqb_spec (lo d 1) (hi d 1)) as [E1|E1]; cbn [andb]; [tauto| | |];
      (match goal with |- context [msplit d ?k _] => set (k' := k) end;
       exists k', (Z.quot (lo d k' + hi d k') 2);
       assert (HK : 0 <= k' < 2 /\ lo d k' < hi d k') by (unfold k'; destruct (Z.eqb_spec (hi d 1) (lo d 1)); lia);
       split; [lia|]; split; [|reflexivity]; apply mid_bound; [|lia]; pose proof (wf2b d k' W); lia).
Qed.

Lemma mesh2_bipartU : bipart_ok (mwf c) (mmem c) (archMesh2DomBipartU c).
Proof.
  apply bip2; intros d W H; unfold archMesh2DomBipartU; cbv zeta;
    pose proof (wf2b d 0 W ltac:(lia)); pose proof (wf2b d 1 W ltac:(lia)).
  - destruct H as [-> ->]. now rewrite !Z.eqb_refl.
  - assert (M : forall l h, 0 <= l -> l < h -> l <= Z.quot (l + h + h) 3 < h).
    { intros l h ? ?. rewrite Z.quot_div_nonneg by lia. split; [apply Z.div_le_lower_bound|apply Z.div_lt_upper_bound]; lia. }
    destruct (Z.eqb_spec (lo d 0) (hi d 0)) as [E0|E0], (Z.eqb_spec (lo d 1) (hi d 1)) as [E1|E1]; cbn [andb]; [tauto| | |];
      (match goal with |- context [msplit d ?k _] => set (k' := k) end;
       exists k', (Z.quot (lo d k' + hi d k' + hi d k') 3);
       assert (HK : 0 <= k' < 2 /\ lo d k' < hi d k') by (unfold k'; destruct (Z.ltb_spec (hi d 1 - lo d 1) (hi d 0 - lo d 0)); lia);
       split; [lia|]; split; [|reflexivity]; apply M; [|lia]; pose proof (wf2b d k' W); lia).
Qed.

Lemma mdist1_sym d0 d1 k : mdist1 d0 d1 k = mdist1 d1 d0 k.
Proof. unfold mdist1. do 2 f_equal. lia. Qed.
Lemma mdist1_nonneg d0 d1 k : 0 <= mdist1 d0 d1 k.
Proof. unfold mdist1. apply Z.quot_pos; lia. Qed.

Lemma mesh2_dist_sym : dist_sym (mwf c) (archMesh2DomDist c).
Proof.
  intros d0 d1 _ _. eexists; split; [reflexivity|]. unfold archMesh2DomDist.
  rewrite (mdist1_sym d1 d0 0), (mdist1_sym d1 d0 1). split; auto.
  pose proof (mdist1_nonneg d0 d1 0). pose proof (mdist1_nonneg d0 d1 1). lia.
Qed.

Lemma mdist1_pt x y : Z.quot (Z.abs (x + x - y - y) + 1) 2 = Z.abs (x - y).
Proof.
  rewrite Z.quot_div_nonneg by lia. symmetry. apply Z.div_unique with (r := 1); lia.
Qed.

Lemma mesh2_dist_term : dist_term (prod c) (archMesh2DomTerm c) (archMesh2DomDist c) (manhattan c).
Proof.
  intros t0 t1 d0 d1 A0 A1. rewrite !mesh2_term_eq by auto. intros [= <-] [= <-].
  unfold archMesh2DomDist, mdist1, lo, hi, manhattan, c. cbn [coords point map].
  cbn [sum2]. atc. rewrite !mdist1_pt. f_equal. lia.
Qed.

Lemma torus2_dist_eq d0 d1 : archTorus2DomDist c d0 d1 = archTorusXDomDist c d0 d1.
Proof. reflexivity. Qed.
End Two.

Section Three.
Context (c0 c1 c2 : Z) (H0 : 1 <= c0) (H1 : 1 <= c1) (H2 : 1 <= c2).
Let c := [c0; c1; c2].

Lemma dims3 : dims_ok c.
Proof. unfold c. repeat constructor; auto. Qed.
Lemma prod3 : prod c = c0 * c1 * c2.
Proof. unfold c. cbn [prod]. lia. Qed.

Lemma mesh3_size : size_ok (mwf c) (mmem c) (archMesh3DomSize c).
Proof.
  apply (size_intro _ _ bsize (mesh_sz c)). intros d W. apply mwf3 in W.
  destruct W as (l0 & h0 & l1 & h1 & l2 & h2 & -> & _). unfold archMesh3DomSize, bsize, hi, lo. cbn [map prod numL]; atc; f_equal; ring.
Qed.

Lemma mesh3_num_eq d : mwf c d -> archMesh3DomNum c d = Ok (numL c (map fst d)).
Proof.
  intros W. apply mwf3 in W. destruct W as (l0 & h0 & l1 & h1 & l2 & h2 & -> & _).
  unfold archMesh3DomNum, lo, dim, c. cbn [map prod numL]; atc; f_equal; ring.
Qed.

Lemma mesh3_num : num_ok (mwf c) (mmem c) (archMesh3DomNum c).
Proof.
  intros d W. rewrite mesh3_num_eq by auto. destruct (mesh_num_min c d W).
  eexists; split; [reflexivity|]. split; auto.
Qed.

Lemma mesh3_term_eq t : 0 <= t < prod c -> archMesh3DomTerm c t = Ok (point (coords c t)).
Proof.
  intros Ht. rewrite prod3 in Ht. unfold archMesh3DomTerm, c. cbn [coords point map].
  change (dim [c0; c1; c2] 0) with c0. change (dim [c0; c1; c2] 1) with c1. change (dim [c0; c1; c2] 2) with c2.
  destruct (Z.ltb_spec t (c0 * c1 * c2)); [|lia]. cbv zeta.
  assert (0 <= t / c0) by (apply Z.div_pos; lia).
  rewrite (Z.quot_div_nonneg t c0), (Z.quot_div_nonneg t (c0 * c1)) by nia.
  rewrite !Z.rem_mod_nonneg by lia. rewrite <- Z.div_div by lia.
  rewrite (Z.mod_small (t / c0 / c1) c2); [reflexivity|].
  rewrite Z.div_div by lia. split; [apply Z.div_pos; nia|apply Z.div_lt_upper_bound; nia].
Qed.

Lemma mesh3_term : term_ok (prod c) (mwf c) (mmem c) (archMesh3DomTerm c) (archMesh3DomNum c).
Proof.
  split.
  - intros t Ht. exists (point (coords c t)). split; [now apply mesh3_term_eq|].
    assert (W : mwf c (point (coords c t))) by (apply point_wf, coords_inrng, dims3).
    split; [auto|]. split; [intros; apply point_mem; auto using dims3|].
    rewrite mesh3_num_eq by auto. rewrite map_fst_point. f_equal. apply num_coords; auto using dims3.
  - intros t Ht. rewrite prod3 in Ht. unfold archMesh3DomTerm.
    change (dim c 0) with c0. change (dim c 1) with c1. change (dim c 2) with c2.
    destruct (Z.ltb_spec t (c0 * c1 * c2)); auto. lia.
Qed.

Lemma mesh3_incl : incl_ok (mwf c) (mmem c) (archMesh3DomIncl c).
Proof.
  intros d0 d1 W0 W1. eexists; split; [reflexivity|]. rewrite <- mesh_incl_at by auto.
  rewrite !andb_true_iff. change (zlen c) with 3. split.
  - intros [[A B] C] k Hk. assert (k = 0 \/ k = 1 \/ k = 2) as [->|[->| ->]] by lia; auto.
  - intros H. split; [split|]; apply H; lia.
Qed.

Lemma mesh3_bipart : bipart_ok (mwf c) (mmem c) (archMesh3DomBipart c).
Proof.
  apply (bipart_intro _ _ bsize (mesh_sz c)); intros d W H; unfold archMesh3DomBipart; cbv zeta;
    assert (WB : forall k, 0 <= k < 3 -> 0 <= lo d k <= hi d k) by (intros k Hk; apply (proj2 (proj1 (mwf_at c d) W)); change (zlen c) with 3; lia);
    pose proof (WB 0 ltac:(lia)); pose proof (WB 1 ltac:(lia)); pose proof (WB 2 ltac:(lia)).
  - pose proof (proj1 (bsize_at c d W) H) as E. change (zlen c) with 3 in E.
    rewrite (E 0), (E 1), (E 2) by lia. now rewrite !Z.sub_diag.
  - destruct (Z.eqb_spec (Z.lor (Z.lor (hi d 0 - lo d 0) (hi d 1 - lo d 1)) (hi d 2 - lo d 2)) 0) as [E|E].
    + rewrite !Z.lor_eq_0_iff in E. exfalso. assert (bsize d = 1); [|lia]. apply (bsize_at c d W). change (zlen c) with 3.
      intros k Hk. assert (k = 0 \/ k = 1 \/ k = 2) as [->|[->| ->]] by lia; lia.
    + rewrite !Z.lor_eq_0_iff in E.
      match goal with |- context [msplit d ?k _] => set (k' := k) end.
      assert (HK : 0 <= k' < 3 /\ lo d k' < hi d k').
      { assert (EX : exists kt, 0 <= kt < 3 /\ k' =
          (let k := if hi d kt - lo d kt <? hi d ((kt + 1) mod 3) - lo d ((kt + 1) mod 3) then (kt + 1) mod 3 else kt in
           if hi d k - lo d k <? hi d ((kt + 2) mod 3) - lo d ((kt + 2) mod 3) then (kt + 2) mod 3 else k)).
        { eexists. split; [|unfold k'; reflexivity]. destruct (_ <? dim c 2); destruct (dim c 0 <? dim c 1); lia. }
        destruct EX as (kt & Hkt & ->). cbv zeta.
        assert (kt = 0 \/ kt = 1 \/ kt = 2) as [->|[->| ->]] by lia;
          repeat match goal with |- context [?a mod 3] => let v := eval vm_compute in (a mod 3) in change (a mod 3) with v end;
          repeat match goal with |- context [?a <? ?b] => lazymatch a with context [_ <? _] => fail | _ => destruct (Z.ltb_spec a b) end end; lia. }
      pose proof (msplit_spec c d k' (Z.quot (lo d k' + hi d k') 2) W ltac:(change (zlen c) with 3; lia)
        (mid_bound (lo d k') (hi d k') ltac:(apply WB; lia) ltac:(lia))) as HS.
      destruct (msplit d k' _) as [d0 d1]. exists d0, d1. split; [reflexivity|exact HS].
Qed.

Lemma mesh3_dist_sym : dist_sym (mwf c) (archMesh3DomDist c).
Proof.
  intros d0 d1 _ _. eexists; split; [reflexivity|]. unfold archMesh3DomDist.
  rewrite (mdist1_sym d1 d0 0), (mdist1_sym d1 d0 1), (mdist1_sym d1 d0 2). split; auto.
  pose proof (mdist1_nonneg d0 d1 0). pose proof (mdist1_nonneg d0 d1 1). pose proof (mdist1_nonneg d0 d1 2). lia.
Qed.

Lemma mesh3_dist_term : dist_term (prod c) (archMesh3DomTerm c) (archMesh3DomDist c) (manhattan c).
Proof.
  intros t0 t1 d0 d1 A0 A1. rewrite !mesh3_term_eq by auto. intros [= <-] [= <-].
  unfold archMesh3DomDist, mdist1, lo, hi, manhattan, c. cbn [coords point map].
  cbn [sum2]. atc. rewrite !mdist1_pt. f_equal. lia.
Qed.

Lemma torus3_dist_eq d0 d1 : archTorus3DomDist c d0 d1 = archTorusXDomDist c d0 d1.
Proof. reflexivity. Qed.
End Three.
