(** Proofs about partitioning with overlap by recursive bipartitioning: elementary steps. *)
From Verif Require Import Base Mem M_Graph M_Vgraph M_VgraphSt M_Induce M_Wgraph S_Graph S_Induce S_Vgraph S_VgraphSt S_KgraphMap S_Wgraph
  P_Graph P_Vgraph P_VgraphSt P_KgraphMap P_Gain P_Wgraph.

Definition adj (g : graph) (v w : Z) : Prop := exists e, arc g v e /\ edge g e = w.

Lemma nbr_In s v w : isvert s v -> (exists l, In (w, l) (nbr s v)) <-> adj s v w.
Proof.
  intros Hv. unfold nbr, adj. split.
  - intros (l & H). apply in_map_iff in H. destruct H as (e & E & He). apply In_zseq in He. injection E as <- _. exists e. split; [split; [exact Hv|lia]|reflexivity].
  - intros (e & [_ He] & <-). exists (edlo s e). apply in_map_iff. exists e. split; [reflexivity|]. apply In_zseq. lia.
Qed.
Lemma subg_adj org s v w : subg org s -> isvert s v -> isvert s w -> adj org (orig s v) (orig s w) -> adj s v w.
Proof.
  intros S Hv Hw A. destruct (sg_arcs _ _ S) as (f & Hf & Hn). apply (nbr_In org) in A; [|now apply (sg_in _ _ S)]. destruct A as (l & Hl).
  assert (X : In (orig s w, l) (filter (fun x => f (fst x)) (nbr org (orig s v)))).
  { apply filter_In. split; [exact Hl|]. cbn [fst]. apply Hf; [now apply (sg_in _ _ S)|]. exists w. auto. }
  rewrite <- Hn in X by exact Hv. apply in_map_iff in X. destruct X as ([u l'] & E & Hu). cbn [fst snd] in E. injection E as Eu <-.
  apply nbr_In; [exact Hv|]. exists l'. assert (A : adj s v u) by (apply nbr_In; eauto). destruct A as (e & Ae & Ee).
  assert (isvert s u) by (rewrite <- Ee; apply (gv_end _ (sg_valid _ _ S) v e Ae)). apply (sg_inj _ _ S) in Eu; auto. now subst.
Qed.

Lemma vnumOf_ok org s v : subg org s -> isvert s v -> vnumOf s v = Ok (orig s v).
Proof.
  intros S Hv. unfold vnumOf, orig. destruct (vnumtab s) as [t|] eqn:E; [|reflexivity]. pose proof (sg_vn _ _ S t E). pose proof (gv_nnd _ (sg_valid _ _ S)). unfold isvert in Hv. apply rd_ok. lia.
Qed.

(** Data: arrays are large enough; the frontier vertices recorded so far are distinct, and out of the job to be done *)
Definition dok (org : graph) (P : Z -> Prop) (d : wdata) : Prop :=
  let '(pt, fl, k) := d in
  vertnbr org <= zlen pt /\ vertnbr org <= zlen fl /\ 0 <= k <= zlen fl /\ NoDup (firstn (Z.to_nat k) fl) /\
  forall w, In w (firstn (Z.to_nat k) fl) -> isvert org w /\ ~ P w.
(** What a job on the set [P] of vertices does: it changes the parts of the vertices of [P] only, adds to the frontier distinct vertices [L] of
    [P] and, if it succeeds, maps the other vertices of [P] to domains from [lo] to [hi] excluded, such that adjacent ones are mapped to the same domain;
    the vertices of [Q] are in the frontier *)
Record rstepL (org : graph) (P Q : Z -> Prop) (lo hi : Z) (d : wdata) (rc : Z) (d' : wdata) (L : list Z) : Prop := {
  rs_rc : rc = 0 \/ rc = 1;
  rs_pt : zlen (fst (fst d')) = zlen (fst (fst d));
  rs_fl : zlen (snd (fst d')) = zlen (snd (fst d));
  rs_k : snd d' = snd d + zlen L /\ snd d' <= zlen (snd (fst d));
  rs_L : firstn (Z.to_nat (snd d')) (snd (fst d')) = firstn (Z.to_nat (snd d)) (snd (fst d)) ++ L;
  rs_nd : NoDup L;
  rs_in : forall w, In w L -> P w;
  rs_fr : forall w, isvert org w -> ~ P w -> at_ (baseval org) (fst (fst d')) w = at_ (baseval org) (fst (fst d)) w;
  rs_map : rc = 0 -> forall w, P w -> (In w L /\ at_ (baseval org) (fst (fst d')) w = -1) \/ (~ In w L /\ lo <= at_ (baseval org) (fst (fst d')) w < hi);
  rs_sep : rc = 0 -> forall w, Q w -> at_ (baseval org) (fst (fst d')) w = -1;
  rs_adj : rc = 0 -> forall v w, P v -> P w -> adj org v w -> at_ (baseval org) (fst (fst d')) v = -1 \/ at_ (baseval org) (fst (fst d')) w = -1 \/
     at_ (baseval org) (fst (fst d')) v = at_ (baseval org) (fst (fst d')) w }.
Definition rstep (org : graph) (P Q : Z -> Prop) (lo hi : Z) (d : wdata) (rc : Z) (d' : wdata) : Prop := exists L, rstepL org P Q lo hi d rc d' L.

Lemma rstep_mono org (P Q P' Q' : Z -> Prop) lo hi lo' hi' d rc d' : (forall w, P w <-> P' w) -> (forall w, Q' w -> Q w) -> lo' <= lo -> hi <= hi' -> rstep org P Q lo hi d rc d' -> rstep org P' Q' lo' hi' d rc d'.
Proof.
  intros HP HQ Hl Hh (L & [H1 H2 H3 H4 H5 H6 H7 H8 H9 H10 H11]). exists L. constructor; auto.
  - intros w Hw. apply HP. auto.
  - intros w Hw Hn. apply H8; auto. now rewrite HP.
  - intros E w Hw. apply HP in Hw. destruct (H9 E w Hw) as [|[? ?]]; auto. right. split; auto. lia.
  - intros E v w Hv Hw. apply HP in Hv, Hw. now apply H11.
Qed.
Lemma rstep_none org (P : Z -> Prop) lo hi d : (let '(pt, fl, k) := d in k <= zlen fl) -> (forall w, ~ P w) -> rstep org P (fun _ => False) lo hi d 0 d.
Proof.
  destruct d as [[pt fl] k]. intros Hk HP. exists []. constructor; cbn [fst snd]; auto; try (intros; contradiction).
  - rewrite zlen_nil. lia.
  - now rewrite app_nil_r.
  - constructor.
  - intros _ w Hw. destruct (HP w Hw).
  - intros _ v w Hv. destruct (HP v Hv).
Qed.
Lemma rstep_fail org P Q lo hi d : (let '(pt, fl, k) := d in k <= zlen fl) -> rstep org P Q lo hi d 1 d.
Proof.
  destruct d as [[pt fl] k]. intros Hk. exists []. constructor; cbn [fst snd]; auto; try (intros; contradiction); try discriminate.
  - rewrite zlen_nil. lia.
  - now rewrite app_nil_r.
  - constructor.
Qed.
Lemma dok_next org (A B Q : Z -> Prop) lo hi d rc d' : (forall w, A w -> isvert org w) -> (forall w, A w -> B w -> False) -> dok org (fun w => A w \/ B w) d ->
  rstep org A Q lo hi d rc d' -> dok org B d'.
Proof.
  destruct d as [[pt fl] k], d' as [[pt' fl'] k']. intros HA HD (D1 & D2 & D3 & D4 & D5) (L & [H1 H2 H3 [H4 H4'] H5 H6 H7 H8 H9 H10 H11]). cbn [fst snd] in *.
  pose proof (zlen_nonneg L). split; [lia|]. split; [lia|]. split; [lia|]. rewrite H5. split.
  - apply NoDup_app_intro; auto. intros w Hw Hl. apply (proj2 (D5 w Hw)). left. auto.
  - intros w Hw. apply in_app_or in Hw. destruct Hw as [Hw|Hw].
    + destruct (D5 w Hw) as [? HN]. split; [assumption|]. intros Hb. apply HN. now right.
    + specialize (H7 w Hw). split; [auto|]. intros Hb. now apply (HD w).
Qed.
Lemma dok_mono org (P P' : Z -> Prop) d : (forall w, P' w -> P w) -> dok org P d -> dok org P' d.
Proof. destruct d as [[pt fl] k]. intros HP (D1 & D2 & D3 & D4 & D5). do 4 (split; [assumption|]). intros w Hw. destruct (D5 w Hw) as [? HN]. split; [assumption|]. intros Hp. apply HN. auto. Qed.

(** Two jobs on disjoint sets of vertices, such that a vertex of the former that is adjacent to a vertex of the latter is in the frontier *)
Lemma rstep_seq org (A B QA QB : Z -> Prop) lo hi lo0 hi0 lo1 hi1 d rc0 d1 rc1 d2 : graph_valid org -> (forall w, A w -> isvert org w) -> (forall w, B w -> isvert org w) ->
  (forall w, A w -> B w -> False) -> (forall w, QA w -> A w) ->
  (forall v w, A v -> B w -> adj org v w -> QA v) -> lo <= lo0 -> hi0 <= hi -> lo <= lo1 -> hi1 <= hi -> 0 <= snd d ->
  rstep org A QA lo0 hi0 d rc0 d1 -> rstep org B QB lo1 hi1 d1 rc1 d2 -> rstep org (fun w => A w \/ B w) QA lo hi d (if rc0 =? 0 then rc1 else 1) d2.
Proof.
  intros V HA HB HD HQ HX Ll1 Lh1 Ll2 Lh2 Kn (L0 & [H1 H2 H3 [H4 H4'] H5 H6 H7 H8 H9 H10 H11]) (L1 & [G1 G2 G3 [G4 G4'] G5 G6 G7 G8 G9 G10 G11]).
  destruct d as [[pt fl] k], d1 as [[pt1 fl1] k1], d2 as [[pt2 fl2] k2]. cbn [fst snd] in *. pose proof (zlen_nonneg L0). pose proof (zlen_nonneg L1).
  assert (PA : forall w, A w -> at_ (baseval org) pt2 w = at_ (baseval org) pt1 w) by (intros w Hw; apply G8; [now apply HA | intros Hb; now apply (HD w)]).
  assert (EC : (if rc0 =? 0 then rc1 else 1) = 0 -> rc0 = 0 /\ rc1 = 0) by (destruct (Z.eqb_spec rc0 0); [auto|discriminate]).
  exists (L0 ++ L1). constructor; cbn [fst snd].
  - destruct (Z.eqb_spec rc0 0); auto.
  - lia.
  - lia.
  - rewrite zlen_app. lia.
  - rewrite G5, H5. now rewrite app_assoc.
  - apply NoDup_app_intro; auto. intros w Hw Hl. apply (HD w); auto.
  - intros w Hw. apply in_app_or in Hw. destruct Hw; auto.
  - intros w Hw HN. rewrite G8, H8; auto.
  - intros E w Hw. destruct (EC E) as [E0 E1]. destruct Hw as [Hw|Hw].
    + rewrite PA by exact Hw. assert (N1 : ~ In w L1) by (intros Hl; apply (HD w); auto). destruct (H9 E0 w Hw) as [[I1 I2]|[I1 I2]]; [left; split; [apply in_or_app; now left|exact I2] | right].
      split; [|lia]. intros Hl. apply in_app_or in Hl. tauto.
    + assert (N0 : ~ In w L0) by (intros Hl; apply (HD w); auto). destruct (G9 E1 w Hw) as [[I1 I2]|[I1 I2]]; [left; split; [apply in_or_app; now right|exact I2] | right].
      split; [|lia]. intros Hl. apply in_app_or in Hl. tauto.
  - intros E w Hw. destruct (EC E) as [E0 E1]. rewrite PA by now apply HQ. now apply H10.
  - intros E v w Hv Hw Ha. destruct (EC E) as [E0 E1]. 
    assert (Sy : adj org w v) by (destruct Ha as (e & Ae & <-); destruct (gv_sym _ V v e Ae) as (e' & A' & E' & _); exists e'; auto).
    destruct Hv as [Hv|Hv], Hw as [Hw|Hw].
    + rewrite !PA by assumption. now apply H11.
    + left. rewrite PA by exact Hv. apply H10; [exact E0|]. now apply (HX v w).
    + right. left. rewrite PA by exact Hw. apply H10; [exact E0|]. now apply (HX w v).
    + now apply G11.
Qed.
Lemma rstep_swap org (A B QA QB : Z -> Prop) lo hi lo0 hi0 lo1 hi1 d rc0 d1 rc1 d2 : graph_valid org -> (forall w, A w -> isvert org w) -> (forall w, B w -> isvert org w) ->
  (forall w, A w -> B w -> False) -> (forall w, QB w -> B w) ->
  (forall v w, A v -> B w -> adj org v w -> QB w) -> lo <= lo0 -> hi0 <= hi -> lo <= lo1 -> hi1 <= hi -> 0 <= snd d ->
  rstep org A QA lo0 hi0 d rc0 d1 -> rstep org B QB lo1 hi1 d1 rc1 d2 -> rstep org (fun w => A w \/ B w) QB lo hi d (if rc1 =? 0 then rc0 else 1) d2.
Proof.
  intros V HA HB HD HQ HX Ll1 Lh1 Ll2 Lh2 Kn (L0 & [H1 H2 H3 [H4 H4'] H5 H6 H7 H8 H9 H10 H11]) (L1 & [G1 G2 G3 [G4 G4'] G5 G6 G7 G8 G9 G10 G11]).
  destruct d as [[pt fl] k], d1 as [[pt1 fl1] k1], d2 as [[pt2 fl2] k2]. cbn [fst snd] in *. pose proof (zlen_nonneg L0). pose proof (zlen_nonneg L1).
  assert (PA : forall w, A w -> at_ (baseval org) pt2 w = at_ (baseval org) pt1 w) by (intros w Hw; apply G8; [now apply HA | intros Hb; now apply (HD w)]).
  assert (EC : (if rc1 =? 0 then rc0 else 1) = 0 -> rc0 = 0 /\ rc1 = 0) by (destruct (Z.eqb_spec rc1 0); [auto|discriminate]).
  exists (L0 ++ L1). constructor; cbn [fst snd].
  - destruct (Z.eqb_spec rc1 0); auto.
  - lia.
  - lia.
  - rewrite zlen_app. lia.
  - rewrite G5, H5. now rewrite app_assoc.
  - apply NoDup_app_intro; auto. intros w Hw Hl. apply (HD w); auto.
  - intros w Hw. apply in_app_or in Hw. destruct Hw; auto.
  - intros w Hw HN. rewrite G8, H8; auto.
  - intros E w Hw. destruct (EC E) as [E0 E1]. destruct Hw as [Hw|Hw].
    + rewrite PA by exact Hw. assert (N1 : ~ In w L1) by (intros Hl; apply (HD w); auto). destruct (H9 E0 w Hw) as [[I1 I2]|[I1 I2]]; [left; split; [apply in_or_app; now left|exact I2] | right].
      split; [|lia]. intros Hl. apply in_app_or in Hl. tauto.
    + assert (N0 : ~ In w L0) by (intros Hl; apply (HD w); auto). destruct (G9 E1 w Hw) as [[I1 I2]|[I1 I2]]; [left; split; [apply in_or_app; now right|exact I2] | right].
      split; [|lia]. intros Hl. apply in_app_or in Hl. tauto.
  - intros E w Hw. destruct (EC E) as [E0 E1]. now apply G10.
  - intros E v w Hv Hw Ha. destruct (EC E) as [E0 E1]. 
    assert (Sy : adj org w v) by (destruct Ha as (e & Ae & <-); destruct (gv_sym _ V v e Ae) as (e' & A' & E' & _); exists e'; auto).
    destruct Hv as [Hv|Hv], Hw as [Hw|Hw].
    + rewrite !PA by assumption. now apply H11.
    + right. left. apply G10; [exact E1|]. now apply (HX v w).
    + left. apply G10; [exact E1|]. now apply (HX w v).
    + now apply G11.
Qed.

(** A frontier array of a subgraph: [n] distinct vertices *)
Definition fok (g : graph) (fr : list Z) (n : Z) : Prop :=
  0 <= n <= zlen fr /\ (forall i, 0 <= i < n -> isvert g (at_ 0 fr i)) /\ forall i j, 0 <= i < n -> 0 <= j < n -> at_ 0 fr i = at_ 0 fr j -> i = j.
Definition flist (g : graph) (fr : list Z) (n : Z) : list Z := map (fun i => orig g (at_ 0 fr i)) (zseq 0 n).

Lemma flist_In g fr n w : In w (flist g fr n) <-> exists i, 0 <= i < n /\ orig g (at_ 0 fr i) = w.
Proof. unfold flist. rewrite in_map_iff. split; [intros (i & E & Hi); apply In_zseq in Hi; exists i; split; [lia|exact E] | intros (i & Hi & E); exists i; split; [exact E|]; apply In_zseq; lia]. Qed.
Lemma NoDup_map_on {A B} (f : A -> B) l : NoDup l -> (forall x y, In x l -> In y l -> f x = f y -> x = y) -> NoDup (map f l).
Proof.
  induction 1 as [|a l Ha Hl IH]; intros Hf; cbn [map]; constructor.
  - intros Hin. apply in_map_iff in Hin. destruct Hin as (x & E & Hx). apply Ha. rewrite (Hf a x); auto; [now left | now right].
  - apply IH. intros x y Hx Hy. apply Hf; now right.
Qed.
Lemma flist_NoDup org g fr n : subg org g -> fok g fr n -> NoDup (flist g fr n).
Proof.
  intros S (N & I & D). unfold flist. apply NoDup_map_on; [apply NoDup_zseq|]. intros i j Hi Hj E. apply In_zseq in Hi, Hj. apply D; try lia. apply (sg_inj _ _ S); auto; apply I; lia.
Qed.
Lemma zlen_flist g fr n : 0 <= n -> zlen (flist g fr n) = n.
Proof. intros H. unfold flist. rewrite zlen_map. now apply zlen_zseq. Qed.

Lemma dok_room org (P : Z -> Prop) d g fr n : graph_valid org -> subg org g -> fok g fr n -> (forall w, In w (flist g fr n) -> P w) -> dok org P d -> snd d + n <= zlen (snd (fst d)).
Proof.
  destruct d as [[pt fl] k]. intros V S F HP (D1 & D2 & D3 & D4 & D5). cbn [fst snd]. destruct F as (N & I & Dn).
  assert (ND : NoDup (firstn (Z.to_nat k) fl ++ flist g fr n)).
  { apply NoDup_app_intro; auto; [eapply flist_NoDup; eauto; split; auto|]. intros w Hw Hl. apply (proj2 (D5 w Hw)). auto. }
  assert (Inc : incl (firstn (Z.to_nat k) fl ++ flist g fr n) (zseq (baseval org) (vertnbr org))).
  { intros w Hw. apply In_zseq. pose proof (gv_nnd _ V). assert (isvert org w); [|unfold isvert in *; lia]. apply in_app_or in Hw. destruct Hw as [Hw|Hw]; [apply (D5 w Hw)|].
    apply flist_In in Hw. destruct Hw as (i & Hi & <-). apply (sg_in _ _ S). now apply I. }
  pose proof (NoDup_incl_length ND Inc) as Hl. pose proof (gv_size _ V). assert (Hz : zlen (firstn (Z.to_nat k) fl ++ flist g fr n) <= zlen (zseq (baseval org) (vertnbr org))) by (unfold zlen; lia).
  rewrite zlen_app, zlen_firstn, zlen_flist, zlen_zseq in Hz by lia. lia.
Qed.

Lemma firstn_push (fl : list Z) m w : 0 <= m < zlen fl -> firstn (Z.to_nat (m + 1)) (upd 0 fl m w) = firstn (Z.to_nat m) fl ++ [w].
Proof.
  intros H. apply (at_ext 0).
  - rewrite zlen_app, !zlen_firstn by (rewrite ?zlen_upd; lia). reflexivity.
  - intros i Hi. rewrite zlen_firstn in Hi by (rewrite zlen_upd; lia). rewrite at_firstn by lia. rewrite at_upd by lia. destruct (Z.eqb_spec m i) as [<-|Hne].
    + rewrite at_app2 by (rewrite zlen_firstn; lia). rewrite zlen_firstn by lia. replace (m - m) with 0 by lia. reflexivity.
    + rewrite at_app1 by (rewrite zlen_firstn; lia). now rewrite at_firstn by lia.
Qed.
Lemma flist_snoc g fr i : 0 <= i -> flist g fr (i + 1) = flist g fr i ++ [orig g (at_ 0 fr i)].
Proof. intros H. unfold flist. rewrite zseq_snoc, map_app by lia. reflexivity. Qed.

Lemma rb3Fron_spec org g fr n pt fl k : subg org g -> fok g fr n -> 0 <= k -> k + n <= zlen fl ->
  exists fl', rb3Fron (pt, fl, k) g fr n = Ok (pt, fl', k + n) /\ zlen fl' = zlen fl /\ firstn (Z.to_nat (k + n)) fl' = firstn (Z.to_nat k) fl ++ flist g fr n.
Proof.
  intros S (N & I & D) K0 Kn. unfold rb3Fron.
  match goal with |- exists fl', bind ?r _ = _ /\ _ => destruct (wp_ok_inv r (fun fl' => zlen fl' = zlen fl /\ firstn (Z.to_nat (k + n)) fl' = firstn (Z.to_nat k) fl ++ flist g fr n)) as (fl' & -> & H1) end.
  - apply wp_for with (I := fun i fl' => zlen fl' = zlen fl /\ firstn (Z.to_nat (k + i)) fl' = firstn (Z.to_nat k) fl ++ flist g fr i).
    + lia.
    + split; [reflexivity|]. rewrite Z.add_0_r. unfold flist, zseq. cbn [map seq Z.to_nat]. now rewrite app_nil_r.
    + intros i fl' Hi [L1 E1]. rewrite rd_ok by lia. cbn [bind]. rewrite (vnumOf_ok org) by auto. cbn [bind]. rewrite wr_ok by lia. cbn [wp]. rewrite zlen_upd. split; [exact L1|].
      rewrite Z.add_assoc, firstn_push by lia. rewrite E1, flist_snoc by lia. now rewrite app_assoc.
    + auto.
  - cbn [bind]. exists fl'. split; [reflexivity|exact H1].
Qed.

Lemma rb3SepFron_spec org g fr n pt fl k : subg org g -> graph_valid org -> fok g fr n -> 0 <= k -> k + n <= zlen fl -> vertnbr org <= zlen pt ->
  exists pt' fl', rb3SepFron (pt, fl, k) g fr n = Ok (pt', fl', k + n) /\ zlen pt' = zlen pt /\ zlen fl' = zlen fl /\
    firstn (Z.to_nat (k + n)) fl' = firstn (Z.to_nat k) fl ++ flist g fr n /\
    forall w, isvert org w -> (In w (flist g fr n) -> at_ (baseval org) pt' w = -1) /\ (~ In w (flist g fr n) -> at_ (baseval org) pt' w = at_ (baseval org) pt w).
Proof.
  intros S V (N & I & D) K0 Kn Lp. unfold rb3SepFron. pose proof (sg_base _ _ S) as Bs. pose proof (gv_nnd _ V) as Nn.
  match goal with |- exists pt' fl', bind ?r _ = _ /\ _ => destruct (wp_ok_inv r (fun '(pt', fl') => zlen pt' = zlen pt /\ zlen fl' = zlen fl /\ firstn (Z.to_nat (k + n)) fl' = firstn (Z.to_nat k) fl ++ flist g fr n /\
    forall w, isvert org w -> (In w (flist g fr n) -> at_ (baseval org) pt' w = -1) /\ (~ In w (flist g fr n) -> at_ (baseval org) pt' w = at_ (baseval org) pt w))) as ([pt' fl'] & -> & H1) end.
  - apply wp_for with (I := fun i '(pt', fl') => zlen pt' = zlen pt /\ zlen fl' = zlen fl /\ firstn (Z.to_nat (k + i)) fl' = firstn (Z.to_nat k) fl ++ flist g fr i /\
      forall w, isvert org w -> (In w (flist g fr i) -> at_ (baseval org) pt' w = -1) /\ (~ In w (flist g fr i) -> at_ (baseval org) pt' w = at_ (baseval org) pt w)).
    + lia.
    + do 2 (split; [reflexivity|]). split; [rewrite Z.add_0_r; unfold flist, zseq; cbn [map seq Z.to_nat]; now rewrite app_nil_r|]. intros w Hw. split; [intros []|reflexivity].
    + intros i [pt' fl'] Hi (L0 & L1 & E1 & P1). rewrite rd_ok by lia. cbn [bind]. rewrite (vnumOf_ok org) by auto. cbn [bind]. rewrite wr_ok by lia. cbn [bind].
      pose proof (sg_in _ _ S _ (I i Hi)) as Ho. pose proof Ho as Ho'. unfold isvert in Ho'. rewrite wr_ok by lia. cbn [bind wp]. rewrite !zlen_upd. do 2 (split; [assumption|]).
      rewrite Z.add_assoc, firstn_push by lia. rewrite flist_snoc by lia. split; [now rewrite E1, app_assoc|].
      intros w Hw. pose proof Hw as Hw'. unfold isvert in Hw'. rewrite Bs, at_upd by lia. destruct (Z.eqb_spec (orig g (at_ 0 fr i)) w) as [E|E].
      * split; [reflexivity|]. intros HN. destruct HN. apply in_or_app. right. left. exact E.
      * split; [intros Hl; apply in_app_or in Hl; destruct Hl as [Hl|[Hl|[]]]; [now apply P1|contradiction] | intros HN; apply P1; auto; intros Hl; apply HN; apply in_or_app; now left].
    + intros [pt' fl'] H. exact H.
  - cbn [bind]. exists pt', fl'. split; [reflexivity|exact H1].
Qed.

(** Writing a value for some vertices of a subgraph *)
Lemma part_writef org s (c : Z -> bool) (val : Z -> Z) (pt0 : list Z) (body : Z -> list Z -> res (list Z)) :
  subg org s -> graph_valid org -> vertnbr org <= zlen pt0 ->
  (forall v pt, isvert s v -> zlen pt = zlen pt0 -> body v pt = if c v then wr (baseval s) pt (orig s v) (val v) else Ok pt) ->
  wp (for_ (baseval s) (vertnnd s) body pt0) (fun pt => zlen pt = zlen pt0 /\
    (forall v, isvert s v -> c v = true -> at_ (baseval org) pt (orig s v) = val v) /\
    forall w, isvert org w -> (forall v, isvert s v -> c v = true -> orig s v <> w) -> at_ (baseval org) pt w = at_ (baseval org) pt0 w) noerr.
Proof.
  intros S V L HB. pose proof (gv_nnd _ (sg_valid _ _ S)) as Ns. pose proof (gv_size _ (sg_valid _ _ S)) as Zs. pose proof (gv_nnd _ V) as No.
  pose proof (sg_base _ _ S) as Bs. rewrite <- Bs. set (b := baseval s) in *.
  apply wp_for with (I := fun k pt => zlen pt = zlen pt0 /\ (forall v, b <= v < k -> c v = true -> at_ b pt (orig s v) = val v) /\
     forall w, isvert org w -> (forall v, b <= v < k -> c v = true -> orig s v <> w) -> at_ b pt w = at_ b pt0 w).
  - lia.
  - split; [reflexivity|]. split; [intros; lia | reflexivity].
  - intros k pt Hk (L1 & I1 & I2). assert (Hv : isvert s k) by exact Hk. pose proof (sg_in _ _ S k Hv) as Ho. unfold isvert in Ho. rewrite HB by assumption. destruct (c k) eqn:Ck.
    + rewrite wr_ok by lia. cbn [wp]. rewrite zlen_upd. split; [exact L1|]. split.
      * intros v Hv' Cv. assert (Hvv : isvert s v) by (unfold isvert; fold b; lia). pose proof (sg_in _ _ S v Hvv) as Hov. unfold isvert in Hov. rewrite at_upd by lia.
        destruct (Z.eqb_spec (orig s k) (orig s v)) as [E|E]; [apply (sg_inj _ _ S) in E; auto; now subst|]. apply I1; [|exact Cv]. destruct (Z.eq_dec v k); [subst; contradiction|lia].
      * intros w Hw Hno. unfold isvert in Hw. rewrite at_upd by lia. destruct (Z.eqb_spec (orig s k) w) as [E|E]; [exfalso; apply (Hno k); auto; lia|]. apply I2; [exact Hw|]. intros v Hv'. apply Hno. lia.
    + cbn [wp]. split; [exact L1|]. split.
      * intros v Hv' Cv. apply I1; [|exact Cv]. destruct (Z.eq_dec v k); [subst; congruence|lia].
      * intros w Hw Hno. apply I2; [exact Hw|]. intros v Hv'. apply Hno. lia.
  - intros pt (L1 & I1 & I2). split; [exact L1|]. split; [exact I1|exact I2].
Qed.
