(** Proofs about vertex separations: save structures and thinning. *)
From Verif Require Import Base Mem M_Graph M_Vgraph S_Graph S_Vgraph P_Graph P_Vgraph.

(** ** Save structures *)
Lemma zlen_gbytes gs l : 0 <= gs -> zlen (gbytes gs l) = zlen l * gs.
Proof.
  intros. induction l as [|a l IH]; [reflexivity|]. unfold gbytes in *. cbn [flat_map]. rewrite zlen_app, zlen_cons, IH, zlen_map, zlen_zseq by lia. lia.
Qed.
Lemma at_gbytes gs l i j : 0 <= i < zlen l -> 0 <= j < gs -> at_ 0 (gbytes gs l) (i * gs + j) = FGnum (at_ 0 l i) j.
Proof.
  revert i. induction l as [|a l IH]; intros i Hi Hj; [change (zlen (@nil Z)) with 0 in Hi; lia|]. rewrite zlen_cons in Hi.
  unfold gbytes. cbn [flat_map]. fold (gbytes gs l).
  assert (Lz : zlen (map (FGnum a) (zseq 0 gs)) = gs) by (rewrite zlen_map, zlen_zseq; lia).
  destruct (Z.eq_dec i 0) as [->|].
  - rewrite at_app1 by lia. rewrite at_map by (rewrite zlen_zseq; lia). rewrite at_zseq by lia. unfold at_; cbn [nth Z.to_nat Z.sub Z.mul Z.add Z.opp]; f_equal; lia.
  - rewrite at_app2 by nia. rewrite Lz. replace (i * gs + j - gs) with ((i - 1) * gs + j) by lia. rewrite IH by lia. f_equal.
    symmetry. change (a :: l) with ([a] ++ l). rewrite at_app2 by (rewrite zlen_one; lia). rewrite zlen_one. reflexivity.
Qed.

Lemma storeSave_updt gs b n k part fron data :
  0 < gs -> 0 <= k <= n -> n <= zlen part -> k <= zlen fron -> zlen data = n * (1 + gs) ->
  exists d, storeSave gs b n part fron k data = Ok d /\
    forall part' fron', n <= zlen part' -> k <= zlen fron' ->
    exists pt fr, storeUpdt gs b n part' fron' k d = Ok (pt, fr) /\ zlen pt = zlen part' /\ zlen fr = zlen fron' /\
      (forall v, b <= v < b + n -> at_ b pt v = at_ b part v) /\ (forall v, b + n <= v < b + zlen part' -> at_ b pt v = at_ b part' v) /\
      (forall i, 0 <= i < k -> at_ 0 fr i = at_ 0 fron i) /\ (forall i, k <= i < zlen fron' -> at_ 0 fr i = at_ 0 fron' i).
Proof.
  intros Hg Hk Hp Hf Hd. unfold storeSave.
  destruct (memcp (gbytes gs fron) data 0 0 (k * gs)) as [d1| | |] eqn:E1; try (rewrite memcp_ok in E1 by (rewrite ?zlen_gbytes by lia; nia); discriminate).
  cbn [bind]. pose proof (zlen_memcp _ _ _ _ _ _ E1) as L1.
  destruct (memcp (pbytes part) d1 0 (k * gs) n) as [d| | |] eqn:E2; try (rewrite memcp_ok in E2 by (unfold pbytes; rewrite ?zlen_map; nia); discriminate).
  pose proof (zlen_memcp _ _ _ _ _ _ E2) as L2.
  exists d. split; [reflexivity|]. intros part' fron' Hp' Hf'.
  assert (G : forall i j, 0 <= i < k -> 0 <= j < gs -> rd 0 d (i * gs + j) = Ok (FGnum (at_ 0 fron i) j)).
  { intros i j Hi Hj. rewrite rd_ok by nia. f_equal. rewrite (at_memcp _ _ _ _ _ _ _ E2) by nia.
    replace ((k * gs <=? i * gs + j) && (i * gs + j <? k * gs + n)) with false by (symmetry; apply andb_false_iff; left; apply Z.leb_gt; nia).
    rewrite (at_memcp _ _ _ _ _ _ _ E1) by nia.
    replace ((0 <=? i * gs + j) && (i * gs + j <? 0 + k * gs)) with true by (symmetry; apply andb_true_iff; split; [apply Z.leb_le | apply Z.ltb_lt]; nia).
    replace (0 + (i * gs + j - 0)) with (i * gs + j) by lia. apply at_gbytes; lia. }
  assert (P : forall i, 0 <= i < n -> rd 0 d (k * gs + i) = Ok (FByte (at_ 0 part i))).
  { intros i Hi. rewrite rd_ok by nia. f_equal. rewrite (at_memcp _ _ _ _ _ _ _ E2) by nia.
    replace ((k * gs <=? k * gs + i) && (k * gs + i <? k * gs + n)) with true by (symmetry; apply andb_true_iff; split; [apply Z.leb_le | apply Z.ltb_lt]; lia).
    unfold pbytes. rewrite at_map by lia. do 2 f_equal. lia. }
  unfold storeUpdt.
  match goal with |- exists pt fr, bind ?r _ = _ /\ _ => destruct (wp_ok_inv r (fun fr => zlen fr = zlen fron' /\ (forall i, 0 <= i < k -> at_ 0 fr i = at_ 0 fron i) /\
    forall i, k <= i < zlen fron' -> at_ 0 fr i = at_ 0 fron' i)) as (fr & -> & F1 & F2 & F3) end.
  { apply wp_for with (I := fun m fr => zlen fr = zlen fron' /\ (forall i, 0 <= i < m -> at_ 0 fr i = at_ 0 fron i) /\
      forall i, m <= i < zlen fron' -> at_ 0 fr i = at_ 0 fron' i); auto; [lia | split; [reflexivity | split; intros; [lia | reflexivity]]|].
    intros m fr Hm (F1 & F2 & F3). unfold gnumAt. replace (m * gs) with (m * gs + 0) at 1 by lia. rewrite G by lia. cbn [bind].
    match goal with |- context [for_ 0 gs ?f tt] => destruct (wp_ok_inv (for_ 0 gs f tt) (fun _ => True)) as ([] & -> & _) end.
    { apply wp_for with (I := fun _ _ => True); auto; [lia|]. intros j u Hj _. rewrite G by lia. cbn [bind frag_eqb]. rewrite !Z.eqb_refl. exact I. }
    cbn [bind]. apply wp_wr; [lia|]. split; [now rewrite zlen_upd|]. split; intros i Hi; rewrite at_upd by lia; destruct (Z.eqb_spec m i) as [->|].
    - reflexivity.
    - apply F2. lia.
    - lia.
    - apply F3. lia. }
  cbn [bind].
  match goal with |- exists pt fr, bind ?r _ = _ /\ _ => destruct (wp_ok_inv r (fun pt => zlen pt = zlen part' /\ (forall v, b <= v < b + n -> at_ b pt v = at_ b part v) /\
    forall v, b + n <= v < b + zlen part' -> at_ b pt v = at_ b part' v)) as (pt & -> & P1 & P2 & P3) end.
  { apply wp_for with (I := fun m pt => zlen pt = zlen part' /\ (forall v, b <= v < b + m -> at_ b pt v = at_ b part v) /\
      forall v, b + m <= v < b + zlen part' -> at_ b pt v = at_ b part' v); auto; [lia | split; [reflexivity | split; intros; [lia | reflexivity]]|].
    intros m pt Hm (F4 & F5 & F6). unfold partAt. rewrite P by lia. cbn [bind]. apply wp_wr; [lia|]. split; [now rewrite zlen_upd|].
    split; intros i Hi; rewrite at_upd by lia; destruct (Z.eqb_spec (b + m) i) as [<-|].
    - unfold at_. f_equal. lia.
    - apply F5. lia.
    - lia.
    - apply F6. lia. }
  cbn [bind]. exists pt, fr. repeat (split; [first [reflexivity | auto]|]). auto.
Qed.

Lemma vgraphStore_round gs g data :
  0 < gs -> vg_readable g -> 0 <= vfronnbr g <= vertnbr (vs g) -> zlen data = zlen (vgraphStoreInit gs g) ->
  vcsz0 g + vcsz1 g + vfronnbr g = vertnbr (vs g) -> vcld0 g + vcld1 g + vcld2 g = velosum (vs g) ->
  exists t, vgraphStoreSave gs g data = Ok t /\
    forall h, vs h = vs g -> vdw0 h = vdw0 g -> vdw1 h = vdw1 g -> vertnbr (vs g) <= zlen (vpart h) -> vfronnbr g <= zlen (vfron h) ->
    exists h', vgraphStoreUpdt gs h t = Ok h' /\ vs h' = vs g /\
      (forall v, isvert (vs g) v -> part h' v = part g v) /\ (forall i, 0 <= i < vfronnbr g -> fron h' i = fron g i) /\
      zlen (vpart h') = zlen (vpart h) /\ zlen (vfron h') = zlen (vfron h) /\
      vfronnbr h' = vfronnbr g /\ vcsz0 h' = vcsz0 g /\ vcsz1 h' = vcsz1 g /\ vcld0 h' = vcld0 g /\ vcld1 h' = vcld1 g /\ vcld2 h' = vcld2 g /\
      vdlt h' = vdlt g /\ vdw0 h' = vdw0 g /\ vdw1 h' = vdw1 g.
Proof.
  intros Hg [Rg (Rn & Rn0) Rp Rb Rf] Hk Hd Hsz Hld.
  assert (Hd' : zlen data = vertnbr (vs g) * (1 + gs)) by (rewrite Hd; unfold vgraphStoreInit; rewrite zlen_repeat; nia).
  destruct (storeSave_updt gs (baseval (vs g)) (vertnbr (vs g)) (vfronnbr g) (vpart g) (vfron g) data Hg Hk Rp ltac:(lia) Hd') as (d & Es & Hu).
  unfold vgraphStoreSave. rewrite Es. cbn [bind]. eexists. split; [reflexivity|]. intros h Es' E0 E1 Hp Hf.
  destruct (Hu (vpart h) (vfron h) Hp Hf) as (pt & fr & Eu & Z1 & Z2 & P1 & P2 & F1 & F2).
  unfold vgraphStoreUpdt. cbn [st_fronnbr st_dlt st_cld0 st_cld1 st_csz0 st_data]. rewrite Es', Eu. cbn [bind]. eexists. split; [reflexivity|].
  cbn [vs vfronnbr vcsz0 vcsz1 vcld0 vcld1 vcld2 vdlt vdw0 vdw1 vpart vfron]. split; [auto|]. split.
  { intros v Hv. unfold part. cbn [vs vpart]. apply P1. unfold isvert in Hv. lia. }
  split. { intros i Hi. unfold fron. cbn [vfron]. now apply F1. }
  repeat (split; [first [assumption | reflexivity | lia]|]). assumption.
Qed.

(** ** Thinning *)
Section Thin.
Variable g : vgraph.
Hypothesis RG : vg_readable g.
Hypothesis VG : graph_valid (vs g).
Hypothesis CG : vg_counts g.
Hypothesis FG : fron_exact g.
Hypothesis SG : separated g.
Notation s := (vs g).
Notation b := (baseval (vs g)).
Notation e_ := (vertnnd (vs g)).

(** The separation described by a state of the loop *)
Definition stg (pt fr : list Z) (nbr l0 l1 s0 s1 : Z) : vgraph :=
  mkvgraph s pt fr nbr s0 s1 l0 l1 (velosum s - (l0 + l1)) (l0 * vdw1 g - l1 * vdw0 g) (vdw0 g) (vdw1 g).

Record thinv (h : vgraph) (i : Z) : Prop := {
  ti_vs : vs h = s;
  ti_zp : zlen (vpart h) = zlen (vpart g);
  ti_zf : zlen (vfron h) = zlen (vfron g);
  ti_i : 0 <= i <= vfronnbr h;
  ti_n : vfronnbr h <= vfronnbr g;
  ti_counts : vg_counts h;
  ti_fron : fron_exact h;
  ti_sep : separated h;
  ti_sub : forall v, isvert s v -> part g v <> 2 -> part h v = part g v;
  ti_use : forall j, 0 <= j < i -> touches h (fron h j) 0 /\ touches h (fron h j) 1 }.

Lemma psum_all h : vs h = s -> (forall v, isvert s v -> 0 <= part h v <= 2) -> pload h 0 + pload h 1 + pload h 2 = velosum s.
Proof.
  intros E Hp. rewrite (gv_velosum _ VG). unfold pload. rewrite E, <- !zsum_add. apply zsum_ext. intros v Hv. specialize (Hp v Hv).
  destruct (Z.eqb_spec (part h v) 0), (Z.eqb_spec (part h v) 1), (Z.eqb_spec (part h v) 2); lia.
Qed.

(** Moving a separator vertex into part [p] *)
Lemma thin_move pt fr nbr i l0 l1 s0 s1 v p :
  thinv (stg pt fr nbr l0 l1 s0 s1) i -> i < nbr -> v = at_ 0 fr i -> p = 0 \/ p = 1 ->
  (forall e, arc s v e -> at_ b pt (edge s e) <> 1 - p) ->
  thinv (stg (upd b pt v p) (upd 0 fr i (at_ 0 fr (nbr - 1))) (nbr - 1)
    (l0 + (if p =? 0 then velo s v else 0)) (l1 + (if p =? 1 then velo s v else 0)) (s0 + b2z (p =? 0)) (s1 + b2z (p =? 1))) i.
Proof.
  intros [_ Zp Zf Hi Hn [Cp C0 C1 L0 L1 L2 _] (F0 & F1 & F2 & F3) Sp Sub Use] Hin -> Hp Hno. cbn [stg vs vpart vfron vfronnbr vcsz0 vcsz1 vcld0 vcld1 vcld2] in *.
  pose proof (vr_part _ RG) as Rp. pose proof (vr_fron _ RG) as Rf. pose proof (vr_nnd _ RG) as (Rn & Rn0).
  assert (Fg : vfronnbr g <= vertnbr s).
  { destruct (fron_exact_counted g Rn Rn0 FG) as (-> & _). unfold psize. replace (vertnbr s) with (zcount b e_ (fun _ => true)) by (rewrite zcount_all by (auto; lia); lia).
    apply zsum_le. intros j _. destruct (part g j =? 2); cbn; lia. }
  set (h := stg pt fr nbr l0 l1 s0 s1) in *. set (v := at_ 0 fr i) in *. match goal with |- thinv ?z i => set (h' := z) end.
  destruct (F1 i ltac:(lia)) as (Vv & Pv). change (fron h i) with v in Vv, Pv. cbn [h stg vs] in Vv.
  assert (Vr : b <= v < b + zlen pt) by (unfold isvert in Vv; lia).
  assert (P' : forall w, isvert s w -> part h' w = if v =? w then p else part h w).
  { intros w Hw. unfold part, h', h. cbn [stg vs vpart]. unfold isvert in Hw. rewrite at_upd by lia. reflexivity. }
  assert (Fr' : forall j, 0 <= j < nbr - 1 -> fron h' j = if i =? j then fron h (nbr - 1) else fron h j).
  { intros j Hj. unfold fron, h', h. cbn [stg vfron]. rewrite at_upd by lia. reflexivity. }
  assert (Fne : forall j, 0 <= j < nbr - 1 -> exists k, 0 <= k < nbr /\ k <> i /\ fron h' j = fron h k /\ (j <> i -> k = j) /\ (j = i -> k = nbr - 1)).
  { intros j Hj. rewrite Fr' by auto. destruct (Z.eqb_spec i j) as [<-|]; [exists (nbr - 1) | exists j]; repeat split; auto; lia. }
  assert (Nv : forall k, 0 <= k < nbr -> k <> i -> v <> fron h k).
  { intros k Hk Hki E. apply Hki. symmetry. apply F2; auto. lia. }
  assert (Load : forall q f, f = (fun w => if part h w =? q then velo s w else 0) -> q <> 2 -> zsum b e_ (fun w => if part h' w =? q then velo s w else 0) = zsum b e_ f + (if p =? q then velo s v else 0)).
  { intros q f -> Hq. rewrite (zsum_upd b e_ (fun w => if part h w =? q then velo s w else 0) (fun w => if part h' w =? q then velo s w else 0) v); [|exact Vv|].
    - rewrite P' by auto. rewrite Z.eqb_refl. rewrite Pv. destruct (Z.eqb_spec 2 q); lia.
    - intros w Hw Hne. rewrite P' by exact Hw. destruct (Z.eqb_spec v w); [lia | reflexivity]. }
  assert (Size : forall q, q <> 2 -> psize h' q = psize h q + b2z (p =? q)).
  { intros q Hq. unfold psize, zcount. cbn [h' h stg vs]. rewrite (zsum_upd b e_ (fun w => b2z (part h w =? q)) (fun w => b2z (part h' w =? q)) v); [|exact Vv|].
    - rewrite P' by auto. rewrite Z.eqb_refl, Pv. destruct (Z.eqb_spec 2 q); [lia | cbn [b2z]; lia].
    - intros w Hw Hne. rewrite P' by exact Hw. destruct (Z.eqb_spec v w); [lia | reflexivity]. }
  assert (Cp' : forall w, isvert s w -> 0 <= part h' w <= 2).
  { intros w Hw. rewrite P' by auto. destruct (v =? w); [lia | apply Cp; auto]. }
  constructor.
  - reflexivity.
  - cbn. now rewrite zlen_upd.
  - cbn. now rewrite zlen_upd.
  - cbn. lia.
  - cbn. lia.
  - assert (LL0 : vcld0 h' = pload h' 0) by (unfold pload; cbn [h' stg vs vcld0]; fold h'; rewrite (Load 0 _ eq_refl) by lia; f_equal; exact L0).
    assert (LL1 : vcld1 h' = pload h' 1) by (unfold pload; cbn [h' stg vs vcld1]; fold h'; rewrite (Load 1 _ eq_refl) by lia; f_equal; exact L1).
    constructor; auto.
    + rewrite Size by lia. cbn [h' stg vcsz0]. rewrite C0. reflexivity.
    + rewrite Size by lia. cbn [h' stg vcsz1]. rewrite C1. reflexivity.
    + pose proof (psum_all h' eq_refl Cp'). change (vcld2 h') with (velosum s - (vcld0 h' + vcld1 h')). lia.
  - split; [cbn; lia|]. change (vfronnbr h') with (nbr - 1). change (vs h') with s. split; [|split].
    + intros j Hj. destruct (Fne j Hj) as (k & Hk & Hki & -> & _). destruct (F1 k Hk) as (A1 & A2). split; [exact A1|]. rewrite P' by exact A1.
      destruct (Z.eqb_spec v (fron h k)) as [E|]; [now apply Nv in E | exact A2].
    + intros j1 j2 H1 H2. destruct (Fne j1 H1) as (k1 & K1 & _ & -> & E1 & E1'). destruct (Fne j2 H2) as (k2 & K2 & _ & -> & E2 & E2'). intros E. apply F2 in E; auto.
      destruct (Z.eq_dec j1 i), (Z.eq_dec j2 i); lia.
    + intros w Hw Pw. rewrite P' in Pw by auto. destruct (Z.eqb_spec v w); [lia|]. destruct (F3 w Hw Pw) as (k & Hk & Ek).
      assert (k <> i) by (intros ->; apply n; exact Ek). destruct (Z.eq_dec k (nbr - 1)) as [->|].
      * exists i. split; [lia|]. rewrite Fr' by lia. now rewrite Z.eqb_refl.
      * exists k. split; [lia|]. rewrite Fr' by lia. destruct (Z.eqb_spec i k); [lia | exact Ek].
  - intros u e Ha. change (vs h') with s in *. pose proof (gv_end _ VG u e Ha) as Hw. assert (Hu : isvert s u) by apply Ha. rewrite !P' by auto.
    destruct (Sp u e Ha) as (X1 & X2). change (vs h) with s in X1, X2. destruct (Z.eqb_spec v u) as [Eu|], (Z.eqb_spec v (edge s e)) as [Ew|].
    + lia.
    + specialize (Hno e). rewrite Eu in Hno. specialize (Hno Ha). change (at_ b pt (edge s e)) with (part h (edge s e)) in Hno. lia.
    + destruct (gv_sym _ VG u e Ha) as (e' & Ha' & Ee' & _). rewrite <- Ew in Ha'. specialize (Hno e' Ha'). rewrite Ee' in Hno. change (at_ b pt u) with (part h u) in Hno. lia.
    + auto.
  - intros w Hw Pw. rewrite P' by auto. destruct (Z.eqb_spec v w) as [E|]; [|now apply Sub].
    rewrite <- E in Pw. assert (part h v = part g v) by (apply Sub; auto). lia.
  - intros j Hj. destruct (Use j Hj) as ((e0 & A0 & B0) & (e1 & A1 & B1)). destruct (Fne j ltac:(lia)) as (k & Hk & _ & Ek & Kj & _). rewrite Kj in Ek by lia. rewrite Ek.
    change (vs h) with s in *. split; [exists e0 | exists e1]; (split; [assumption|]); change (vs h') with s; (rewrite P' by (eapply (gv_end _ VG); eassumption)).
    + destruct (Z.eqb_spec v (edge s e0)) as [E|]; [rewrite E in Pv; lia | exact B0].
    + destruct (Z.eqb_spec v (edge s e1)) as [E|]; [rewrite E in Pv; lia | exact B1].
Qed.

Lemma vgraphSeparateTh_spec : exists h, vgraphSeparateTh g = Ok h /\ thinv h (vfronnbr h) /\ vdw0 h = vdw0 g /\ vdw1 h = vdw1 g.
Proof.
  pose proof (vr_part _ RG) as Rp. pose proof (vr_fron _ RG) as Rf. pose proof (vr_nnd _ RG) as (Rn & Rn0).
  assert (Fg : vfronnbr g <= vertnbr s).
  { destruct (fron_exact_counted g Rn Rn0 FG) as (-> & _). unfold psize. replace (vertnbr s) with (zcount b e_ (fun _ => true)) by (rewrite zcount_all by (auto; lia); lia).
    apply zsum_le. intros j _. destruct (part g j =? 2); cbn; lia. }
  assert (F0 : 0 <= vfronnbr g) by apply FG.
  unfold vgraphSeparateTh, thLoop. cbn zeta.
  match goal with |- exists h, bind ?r _ = _ /\ _ => destruct (wp_ok_inv r (fun '(pt, fr, nbr, (l0, l1, s0, s1)) => thinv (stg pt fr nbr l0 l1 s0 s1) nbr)) as ((((pt & fr) & nbr) & (((l0 & l1) & s0) & s1)) & -> & Hx) end.
  { apply wp_loop with (I := fun '(pt, fr, nbr, i, (l0, l1, s0, s1)) => thinv (stg pt fr nbr l0 l1 s0 s1) i) (m := fun '(pt, fr, nbr, i, (l0, l1, s0, s1)) => nbr - i).
    - destruct CG as [Cp C0 C1 L0 L1 L2 Dl].
      assert (E : stg (vpart g) (vfron g) (vfronnbr g) (vcld0 g) (vcld1 g) (vcsz0 g) (vcsz1 g) = g).
      { unfold stg. pose proof (psum_all g eq_refl Cp). rewrite <- Dl. replace (velosum s - (vcld0 g + vcld1 g)) with (vcld2 g) by lia. destruct g; reflexivity. }
      rewrite E. constructor; auto; try lia. 
    - lia.
    - intros [[[[pt fr] nbr] i] [[[l0 l1] s0] s1]] Hinv. destruct (Z.ltb_spec i nbr) as [Hi|Hi].
      + destruct (ti_fron _ _ Hinv) as (_ & F1 & _). pose proof (ti_i _ _ Hinv) as Hi0. pose proof (ti_zf _ _ Hinv) as Zf. pose proof (ti_zp _ _ Hinv) as Zp. pose proof (ti_n _ _ Hinv) as Hn.
        cbn [stg vs vfron vfronnbr vpart] in *. rewrite rd_ok by lia. cbn [bind]. destruct (F1 i ltac:(lia)) as (Vv & Pv). change (fron _ i) with (at_ 0 fr i) in Vv, Pv. cbn [stg vs] in Vv, Pv.
        set (v := at_ 0 fr i) in *. rewrite (rvert_ok s v (vr_graph _ RG) VG Vv), (rvend_ok s v (vr_graph _ RG) VG Vv). cbn [bind].
        pose proof (gv_range _ VG v Vv) as Hr. assert (Vr : b <= v < b + zlen pt) by (unfold isvert in Vv; lia).
        set (cnt := fun k p => zcount (vert s v) k (fun e => at_ b pt (edge s e) =? p)).
        match goal with |- context [for_ ?lo ?hi ?f ?x] => destruct (wp_ok_inv (for_ lo hi f x) (fun t => t = (cnt hi 0, cnt hi 1, cnt hi 2))) as (t & -> & ->) end.
        { apply wp_for with (I := fun k t => t = (cnt k 0, cnt k 1, cnt k 2)); auto; [lia | unfold cnt; rewrite !zcount_nil by lia; reflexivity|].
          intros e t He ->. assert (Ha : arc s v e) by (split; auto). rewrite (redge_ok s v e (vr_graph _ RG) Ha). cbn [bind]. pose proof (gv_end _ VG v e Ha) as Hw.
          rewrite rd_ok by (unfold isvert in Hw; lia). cbn [bind].
          assert (A3 : forall p x a b c, 0 <= p <= 2 -> add3 p x (a, b, c) = Ok (a + (if p =? 0 then x else 0), b + (if p =? 1 then x else 0), c + (if p =? 2 then x else 0))) by (intros; apply add3_spec; auto).
          rewrite A3 by (apply (vc_part _ (ti_counts _ _ Hinv)); exact Hw). cbn [wp]. unfold cnt. rewrite !zcount_snoc by lia. reflexivity. }
        cbn [bind].
        assert (RV : rvelo s v = Ok (velo s v)).
        { unfold rvelo, velo. pose proof (gr_velo _ (vr_graph _ RG)) as G1. unfold isvert in Vv. destruct (velotab s) as [tv|]; [|reflexivity]. apply rd_ok. specialize (G1 tv eq_refl). lia. }
        assert (Cz : forall p, cnt (vend s v) p = 0 -> forall e, arc s v e -> at_ b pt (edge s e) <> p).
        { intros p Ec e (_ & He). unfold cnt in Ec. rewrite zcount_0 in Ec. specialize (Ec e He). cbn beta in Ec. now apply Z.eqb_neq in Ec. }
        destruct (Z.eqb_spec (cnt (vend s v) 0) 0) as [E0|E0]; [|destruct (Z.eqb_spec (cnt (vend s v) 1) 0) as [E1|E1]].
        * rewrite wr_ok by lia. cbn [bind]. rewrite RV. cbn [bind]. rewrite rd_ok by lia. cbn [bind]. rewrite wr_ok by lia. cbn [bind wp].
          pose proof (thin_move pt fr nbr i l0 l1 s0 s1 v 1 Hinv Hi eq_refl (or_intror eq_refl) (Cz 0 E0)) as M. cbn [Z.eqb Pos.eqb b2z] in M. rewrite !Z.add_0_r in M. split; [exact M | lia].
        * rewrite wr_ok by lia. cbn [bind]. rewrite RV. cbn [bind]. rewrite rd_ok by lia. cbn [bind]. rewrite wr_ok by lia. cbn [bind wp].
          pose proof (thin_move pt fr nbr i l0 l1 s0 s1 v 0 Hinv Hi eq_refl (or_introl eq_refl) (Cz 1 E1)) as M. cbn [Z.eqb Pos.eqb b2z] in M. rewrite !Z.add_0_r in M. split; [exact M | lia].
        * cbn [wp]. split; [|lia]. destruct Hinv as [I1 I2 I3 I4 I5 I6 I7 I8 I9 I10]. constructor; auto; [cbn; lia|].
          intros j Hj. destruct (Z.eq_dec j i) as [->|]; [|apply I10; lia].
          assert (Ex : forall p, cnt (vend s v) p <> 0 -> touches (stg pt fr nbr l0 l1 s0 s1) v p).
          { intros p Hc. destruct (existsb (fun e => at_ b pt (edge s e) =? p) (zseq (vert s v) (vend s v - vert s v))) eqn:Ee.
            - apply existsb_exists in Ee. destruct Ee as (e & He & Ep). rewrite In_zseq in He. apply Z.eqb_eq in Ep. exists e. split; [split; [exact Vv | cbn [stg vs]; lia] | exact Ep].
            - exfalso. apply Hc. unfold cnt. apply zcount_0. intros e He. destruct (at_ b pt (edge s e) =? p) eqn:Ep; [|reflexivity].
              rewrite <- Ee. symmetry. apply existsb_exists. exists e. split; [rewrite In_zseq; lia | exact Ep]. }
          split; apply Ex; auto.
      + cbn [wp]. pose proof (ti_i _ _ Hinv) as Hi0. cbn [stg vfronnbr] in Hi0. replace nbr with i at 2 by lia. exact Hinv. }
  cbn [bind]. exists (stg pt fr nbr l0 l1 s0 s1). split; [reflexivity|]. split; [exact Hx | split; reflexivity].
Qed.
End Thin.
