(** Proofs about vertex separations: checking, reset. *)
From Verif Require Import Base Mem M_Graph M_Vgraph S_Graph S_Vgraph P_Graph.

Lemma zcount_snoc lo hi p : lo <= hi -> zcount lo (hi + 1) p = zcount lo hi p + b2z (p hi).
Proof. intros. unfold zcount. rewrite zsum_snoc by lia. reflexivity. Qed.
Lemma zcount_nil lo hi p : hi <= lo -> zcount lo hi p = 0.
Proof. intros. apply zsum_nil. lia. Qed.
Lemma zcount_nonneg lo hi p : 0 <= zcount lo hi p.
Proof. apply zsum_nonneg. intros i _. destruct (p i); cbn; lia. Qed.
Lemma zcount_0 lo hi p : zcount lo hi p = 0 <-> forall i, lo <= i < hi -> p i = false.
Proof.
  destruct (Z.leb_spec hi lo); [rewrite zcount_nil by lia; split; [intros; lia | auto]|].
  assert (H0 : forall k, lo <= k -> (zcount lo k p = 0 <-> forall i, lo <= i < k -> p i = false)).
  { apply zrange_ind; [rewrite zcount_nil by lia; split; [intros; lia | auto]|]. intros k Hk IH. rewrite zcount_snoc by lia.
    pose proof (zcount_nonneg lo k p). split.
    - intros E i Hi. destruct (p k) eqn:Ep; cbn [b2z] in E; [lia|]. destruct (Z.eq_dec i k) as [->|]; [auto|]. apply IH; lia.
    - intros Hf. rewrite (proj2 IH) by (intros; apply Hf; lia). rewrite (Hf k) by lia. reflexivity. }
  apply H0. lia.
Qed.
Lemma zcount_all lo hi p : lo <= hi -> (forall i, lo <= i < hi -> p i = true) -> zcount lo hi p = hi - lo.
Proof. intros H Hp. unfold zcount. rewrite (zsum_ext _ _ _ (fun _ => 1)) by (intros; rewrite Hp by auto; reflexivity). rewrite zsum_const by lia. lia. Qed.

Lemma add3_spec p x a b c t : add3 p x (a, b, c) = Ok t <-> (0 <= p <= 2 /\ t = (a + (if p =? 0 then x else 0), b + (if p =? 1 then x else 0), c + (if p =? 2 then x else 0))).
Proof.
  unfold add3. destruct (Z.eqb_spec p 0) as [->|N0].
  - cbn [Z.eqb]. rewrite !Z.add_0_r. split; [intros [= <-]; split; [lia | reflexivity] | intros (_ & ->); reflexivity].
  - rewrite Z.add_0_r. destruct (Z.eqb_spec p 1) as [->|N1].
    + cbn [Z.eqb Pos.eqb]. rewrite !Z.add_0_r. split; [intros [= <-]; split; [lia | reflexivity] | intros (_ & ->); reflexivity].
    + rewrite Z.add_0_r. destruct (Z.eqb_spec p 2) as [->|N2].
      * split; [intros [= <-]; split; [lia | reflexivity] | intros (_ & ->); reflexivity].
      * split; [discriminate | intros; lia].
Qed.

Lemma rpart_inv g v x : rpart g v = Ok x -> x = part g v.
Proof. intros H. apply rd_inv in H. destruct H as (_ & ->). reflexivity. Qed.
Lemma rvelo_inv s v x : rvelo s v = Ok x -> x = velo s v.
Proof. unfold rvelo, velo. destruct (velotab s); [|intros [= <-]; reflexivity]. intros H. apply rd_inv in H. destruct H as (_ & ->). reflexivity. Qed.

Section Check.
Variable g : vgraph.
Notation s := (vs g).
Notation b := (baseval (vs g)).
Notation e_ := (vertnnd (vs g)).

Definition cuts (lo hi p : Z) : Z := zcount lo hi (fun e => part g (edge s e) =? p).

Lemma vcheckArcs_wlp lo hi : lo <= hi -> wlp (vcheckArcs g lo hi) (fun t => t = (cuts lo hi 0, cuts lo hi 1, cuts lo hi 2) /\
  forall e, lo <= e < hi -> isvert s (edge s e)).
Proof.
  intros H. apply wlp_for with (I := fun k t => t = (cuts lo k 0, cuts lo k 1, cuts lo k 2) /\ forall e, lo <= e < k -> isvert s (edge s e)); auto.
  - split; [unfold cuts; rewrite !zcount_nil by lia; reflexivity | intros; lia].
  - intros k t Hk (-> & Hi). apply wlp_intro. intros t' Ht. apply bind_ok_inv in Ht. destruct Ht as (w & Hw & Ht). apply redge_inv in Hw. destruct Hw as (-> & _).
    destruct ((edge s k <? b) || (e_ <=? edge s k)) eqn:Eb; [discriminate|]. apply bind_ok_inv in Ht. destruct Ht as (p & Hp & Ht). apply rpart_inv in Hp. subst p.
    apply add3_spec in Ht. destruct Ht as (Hp & ->). split.
    + unfold cuts. rewrite !zcount_snoc by lia. unfold b2z. reflexivity.
    + intros e He. destruct (Z.eq_dec e k) as [->|]; [unfold isvert; lia | apply Hi; lia].
Qed.

Definition lds (k p : Z) : Z := zsum b k (fun v => if part g v =? p then velo s v else 0).
Definition szs (k p : Z) : Z := zcount b k (fun v => part g v =? p).

Definition vertok (v : Z) : Prop :=
  0 <= part g v <= 2 /\ b <= vert s v <= vend s v /\
  forall e, vert s v <= e < vend s v -> isvert s (edge s e) /\
    ~ (part g v = 0 /\ part g (edge s e) = 1) /\ ~ (part g v = 1 /\ part g (edge s e) = 0).

Lemma vcheckVert_wlp k : b <= k ->
  wlp (vcheckVert g k ((lds k 0, lds k 1, lds k 2), (szs k 0, szs k 1, szs k 2)))
    (fun t => t = ((lds (k + 1) 0, lds (k + 1) 1, lds (k + 1) 2), (szs (k + 1) 0, szs (k + 1) 1, szs (k + 1) 2)) /\ vertok k).
Proof.
  intros Hk. apply wlp_intro. intros t Ht. unfold vcheckVert in Ht.
  apply bind_ok_inv in Ht. destruct Ht as (p & Hp & Ht). apply rpart_inv in Hp. subst p.
  apply bind_ok_inv in Ht. destruct Ht as (l & Hl & Ht). apply rvelo_inv in Hl. subst l.
  apply bind_ok_inv in Ht. destruct Ht as (ld & Hld & Ht). apply add3_spec in Hld. destruct Hld as (Hp & ->).
  apply bind_ok_inv in Ht. destruct Ht as (sz & Hsz & Ht). apply add3_spec in Hsz. destruct Hsz as (_ & ->).
  apply bind_ok_inv in Ht. destruct Ht as (lo & Hlo & Ht). apply rvert_inv in Hlo. destruct Hlo as (-> & _).
  apply bind_ok_inv in Ht. destruct Ht as (hi & Hhi & Ht). apply rvend_inv in Hhi. destruct Hhi as (-> & _).
  destruct ((vert s k <? b) || (vend s k <? vert s k)) eqn:Er; [discriminate|].
  apply bind_ok_inv in Ht. destruct Ht as (cut & Hcut & Ht).
  pose proof (wlp_elim _ _ _ (vcheckArcs_wlp (vert s k) (vend s k) ltac:(lia)) Hcut) as (-> & Hends).
  assert (T : t = ((lds (k + 1) 0, lds (k + 1) 1, lds (k + 1) 2), (szs (k + 1) 0, szs (k + 1) 1, szs (k + 1) 2)) /\
    (part g k <> 2 -> cuts (vert s k) (vend s k) (1 - part g k) = 0)).
  { assert (E : ((lds k 0 + (if part g k =? 0 then velo s k else 0), lds k 1 + (if part g k =? 1 then velo s k else 0), lds k 2 + (if part g k =? 2 then velo s k else 0)),
               (szs k 0 + (if part g k =? 0 then 1 else 0), szs k 1 + (if part g k =? 1 then 1 else 0), szs k 2 + (if part g k =? 2 then 1 else 0))) =
              ((lds (k + 1) 0, lds (k + 1) 1, lds (k + 1) 2), (szs (k + 1) 0, szs (k + 1) 1, szs (k + 1) 2))).
    { unfold lds, szs. rewrite !zsum_snoc, !zcount_snoc by lia. reflexivity. }
    rewrite E in Ht. destruct (Z.eqb_spec (part g k) 2) as [E2|E2]; cbn [negb] in Ht.
    - injection Ht as <-. split; [reflexivity | intros; lia].
    - apply bind_ok_inv in Ht. destruct Ht as (c & Hc & Ht). destruct (Z.eqb_spec c 0) as [->|]; cbn [negb] in Ht; [|discriminate].
      injection Ht as <-. split; [reflexivity|]. intros _. unfold get3 in Hc.
      assert (C : part g k = 0 \/ part g k = 1) by lia. destruct C as [C|C]; rewrite C in Hc |- *; cbn in Hc; now injection Hc. }
  destruct T as (-> & Hc). split; [reflexivity|]. split; [lia|]. split; [lia|]. intros e He. split; [apply Hends; auto|].
  destruct (Z.eqb_spec (part g k) 2) as [E2|E2]; [lia|]. specialize (Hc E2). unfold cuts in Hc. rewrite zcount_0 in Hc. specialize (Hc e He). cbn beta in Hc.
  apply Z.eqb_neq in Hc. lia.
Qed.

Lemma vgraphCheck_sound :
  0 <= vertnbr s -> e_ = b + vertnbr s -> (forall v, isvert s v -> 0 <= part g v) ->
  vgraphCheck g = Ok tt -> vg_struct s /\ vg_counts g /\ fron_counted g /\ separated g.
Proof.
  intros Hn He Hb H. unfold vgraphCheck in H.
  apply bind_ok_inv in H. destruct H as (u1 & _ & H).
  destruct ((vfronnbr g <? 0) || (vertnbr s <? vfronnbr g)) eqn:Ef; [discriminate|].
  apply bind_ok_inv in H. destruct H as (u2 & H2 & H).
  assert (F : forall i, 0 <= i < vfronnbr g -> isvert s (fron g i) /\ part g (fron g i) = 2).
  { refine (wlp_elim _ (fun _ => _) u2 _ H2).
    apply wlp_for with (I := fun k _ => forall i, 0 <= i < k -> isvert s (fron g i) /\ part g (fron g i) = 2); try (intros; lia); auto.
    intros k u Hk Hi. apply wlp_intro. intros u' Hu. apply bind_ok_inv in Hu. destruct Hu as (v & Hv & Hu). apply rd_inv in Hv. destruct Hv as (_ & ->).
    fold (fron g k) in Hu. destruct ((fron g k <? b) || (e_ <=? fron g k)) eqn:Eb; [discriminate|].
    apply bind_ok_inv in Hu. destruct Hu as (p & Hp & Hu). apply rpart_inv in Hp. subst p. destruct (Z.eqb_spec (part g (fron g k)) 2) as [E2|]; [|discriminate].
    intros i Hi'. destruct (Z.eq_dec i k) as [->|]; [unfold isvert; split; [lia|auto] | apply Hi; lia]. }
  apply bind_ok_inv in H. destruct H as (st & H3 & H).
  assert (V : st = ((lds e_ 0, lds e_ 1, lds e_ 2), (szs e_ 0, szs e_ 1, szs e_ 2)) /\ forall v, isvert s v -> vertok v).
  { refine (wlp_elim _ (fun st => _) st _ H3).
    apply wlp_for with (I := fun k t => t = ((lds k 0, lds k 1, lds k 2), (szs k 0, szs k 1, szs k 2)) /\ forall v, b <= v < k -> vertok v).
    - lia.
    - split; [unfold lds, szs; rewrite !zsum_nil, !zcount_nil by lia; reflexivity | intros; lia].
    - intros k t Hk (-> & Hv). eapply wlp_mono; [apply vcheckVert_wlp; lia|]. cbn beta. intros t (-> & Hk'). split; [reflexivity|].
      intros v Hv'. destruct (Z.eq_dec v k) as [->|]; [auto | apply Hv; lia].
    - intros t (-> & Hv). split; [reflexivity | exact Hv]. }
  destruct V as (-> & V).
  destruct (Z.eqb_spec (vcsz0 g) (szs e_ 0)) as [Q1|]; cbn [negb orb] in H; [|discriminate].
  destruct (Z.eqb_spec (vcsz1 g) (szs e_ 1)) as [Q2|]; cbn [negb orb] in H; [|discriminate].
  destruct (Z.eqb_spec (vfronnbr g) (szs e_ 2)) as [Q3|]; cbn [negb orb] in H; [|discriminate].
  destruct (Z.eqb_spec (vcld0 g) (lds e_ 0)) as [Q4|]; cbn [negb orb] in H; [|discriminate].
  destruct (Z.eqb_spec (vcld1 g) (lds e_ 1)) as [Q5|]; cbn [negb orb] in H; [|discriminate].
  destruct (Z.eqb_spec (vcld2 g) (lds e_ 2)) as [Q6|]; cbn [negb orb] in H; [|discriminate].
  destruct (Z.eqb_spec (vdlt g) (vcld0 g * vdw1 g - vcld1 g * vdw0 g)) as [Q7|]; cbn [negb orb] in H; [|discriminate].
  split; [|split; [|split]].
  - constructor.
    + intros v Hv. destruct (V v Hv) as (_ & ? & _). auto.
    + intros v e (Hv & Ha). destruct (V v Hv) as (_ & _ & Hx). now apply Hx.
  - constructor; auto. intros v Hv. destruct (V v Hv) as (? & _). auto.
  - split; auto.
  - intros v e (Hv & Ha). destruct (V v Hv) as (_ & _ & Hx). now apply Hx.
Qed.

Lemma vgraphCheck_complete : vg_readable g -> vg_struct s -> vg_counts g -> fron_counted g -> separated g -> vgraphCheck g = Ok tt.
Proof.
  intros [Rg (Rn & Rn0) Rp Rb Rf] [Tr Te] [Cp S0 S1 L0 L1 L2 Dl] (Fn & Ff) Sp.
  assert (PV : forall v, isvert s v -> rpart g v = Ok (part g v)) by (intros v Hv; apply rd_ok; unfold isvert in Hv; lia).
  assert (RV : forall v, isvert s v -> rvert s v = Ok (vert s v)).
  { intros v Hv. apply rd_ok. unfold isvert in Hv. pose proof (gr_vert _ Rg). destruct (vendtab s); [lia|]. destruct (Z.ltb_spec 0 (vertnbr s)); cbn [b2z] in *; lia. }
  assert (RE : forall v, isvert s v -> rvend s v = Ok (vend s v)).
  { intros v Hv. unfold rvend, vend. unfold isvert in Hv. pose proof (gr_vert _ Rg) as G1. pose proof (gr_vend _ Rg) as G2. destruct (vendtab s) as [t|].
    - apply rd_ok. specialize (G2 t eq_refl). lia.
    - apply rd_ok. destruct (Z.ltb_spec 0 (vertnbr s)); cbn [b2z] in *; lia. }
  assert (RL : forall v, isvert s v -> rvelo s v = Ok (velo s v)).
  { intros v Hv. unfold rvelo, velo. pose proof (gr_velo _ Rg) as G1. unfold isvert in Hv. destruct (velotab s) as [t|]; [|reflexivity]. apply rd_ok. specialize (G1 t eq_refl). lia. }
  unfold vgraphCheck.
  match goal with |- bind ?r _ = _ => destruct (wp_ok_inv r (fun _ => True)) as (u1 & -> & _) end.
  { apply wp_for with (I := fun _ _ => True); auto; [lia|]. intros v u Hv _. rewrite PV by auto. cbn [bind].
    destruct (Z.ltb_spec 2 (part g v)); [pose proof (Cp v Hv); lia | exact I]. }
  cbn [bind]. assert (FB : 0 <= vfronnbr g <= vertnbr s).
  { rewrite Fn. unfold psize. split; [apply zcount_nonneg|]. replace (vertnbr s) with (zcount b e_ (fun _ => true)) by (rewrite zcount_all by (auto; lia); lia).
    apply zsum_le. intros i _. destruct (part g i =? 2); cbn; lia. }
  destruct ((vfronnbr g <? 0) || (vertnbr s <? vfronnbr g)) eqn:Ef; [lia|].
  match goal with |- bind ?r _ = _ => destruct (wp_ok_inv r (fun _ => True)) as (u2 & -> & _) end.
  { apply wp_for with (I := fun _ _ => True); auto; [lia|]. intros i u Hi _. rewrite rd_ok by lia. cbn [bind]. fold (fron g i). destruct (Ff i Hi) as (F1 & F2).
    unfold isvert in F1. destruct ((fron g i <? b) || (e_ <=? fron g i)) eqn:Eb; [lia|]. rewrite PV by exact F1. cbn [bind]. rewrite F2. exact I. }
  cbn [bind].
  match goal with |- bind ?r _ = _ => destruct (wp_ok_inv r (fun t => t = ((lds e_ 0, lds e_ 1, lds e_ 2), (szs e_ 0, szs e_ 1, szs e_ 2)))) as (t & -> & ->) end.
  { apply wp_for with (I := fun k t => t = ((lds k 0, lds k 1, lds k 2), (szs k 0, szs k 1, szs k 2))); auto; [lia| |].
    - unfold lds, szs; rewrite !zsum_nil, !zcount_nil by lia; reflexivity.
    - intros k t Hk ->. unfold vcheckVert. rewrite PV, RL by exact Hk. cbn [bind].
      assert (A3 : forall p x a b c, 0 <= p <= 2 -> add3 p x (a, b, c) = Ok (a + (if p =? 0 then x else 0), b + (if p =? 1 then x else 0), c + (if p =? 2 then x else 0))).
      { intros. apply add3_spec. auto. }
      rewrite !A3 by (apply Cp; exact Hk). rewrite RV, RE by exact Hk. cbn [bind]. pose proof (Tr k Hk).
      destruct ((vert s k <? b) || (vend s k <? vert s k)) eqn:Er; [lia|].
      assert (E : ((lds k 0 + (if part g k =? 0 then velo s k else 0), lds k 1 + (if part g k =? 1 then velo s k else 0), lds k 2 + (if part g k =? 2 then velo s k else 0)),
               (szs k 0 + (if part g k =? 0 then 1 else 0), szs k 1 + (if part g k =? 1 then 1 else 0), szs k 2 + (if part g k =? 2 then 1 else 0))) =
              ((lds (k + 1) 0, lds (k + 1) 1, lds (k + 1) 2), (szs (k + 1) 0, szs (k + 1) 1, szs (k + 1) 2))).
      { unfold lds, szs. rewrite !zsum_snoc, !zcount_snoc by lia. reflexivity. }
      rewrite E. unfold vcheckArcs.
      match goal with |- context [for_ ?lo ?hi ?f ?x] => destruct (wp_ok_inv (for_ lo hi f x) (fun t => t = (cuts lo hi 0, cuts lo hi 1, cuts lo hi 2))) as (t & -> & ->) end.
      { apply wp_for with (I := fun e t => t = (cuts (vert s k) e 0, cuts (vert s k) e 1, cuts (vert s k) e 2)); auto; [lia| |].
        - unfold cuts. rewrite !zcount_nil by lia. reflexivity.
        - intros e t He ->. assert (Ar : arc s k e) by (split; [exact Hk | exact He]). rewrite (redge_ok s k e Rg Ar). cbn [bind]. pose proof (Te k e Ar) as Hv.
          unfold isvert in Hv. destruct ((edge s e <? b) || (e_ <=? edge s e)) eqn:Eb; [lia|]. rewrite PV by exact Hv. cbn [bind]. rewrite A3 by (apply Cp; exact Hv). cbn [wp].
          unfold cuts. rewrite !zcount_snoc by lia. reflexivity. }
      cbn [bind]. destruct (Z.eqb_spec (part g k) 2); cbn [negb]; [reflexivity|]. pose proof (Cp k Hk).
      assert (C : cuts (vert s k) (vend s k) (1 - part g k) = 0).
      { unfold cuts. apply zcount_0. intros e He. destruct (Sp k e (conj Hk He)) as (X1 & X2). apply Z.eqb_neq. lia. }
      assert (C2 : get3 (1 - part g k) (cuts (vert s k) (vend s k) 0, cuts (vert s k) (vend s k) 1, cuts (vert s k) (vend s k) 2) = Ok 0).
      { assert (D : part g k = 0 \/ part g k = 1) by lia. destruct D as [D|D]; rewrite D in *; cbn; f_equal; exact C. }
      rewrite C2. cbn. reflexivity. }
  cbn [bind]. rewrite S0, S1, L0, L1, L2, Fn, Dl. unfold psize, pload. fold (lds e_ 0) (lds e_ 1) (lds e_ 2) (szs e_ 0) (szs e_ 1) (szs e_ 2).
  rewrite L0, L1. unfold pload. fold (lds e_ 0) (lds e_ 1). rewrite !Z.eqb_refl. reflexivity.
Qed.
End Check.

(** ** Frontiers *)
Lemma zcount_filter lo hi p : lo <= hi -> zcount lo hi p = zlen (filter p (zseq lo (hi - lo))).
Proof.
  revert hi. apply zrange_ind.
  - rewrite zcount_nil, zseq_0 by lia. reflexivity.
  - intros k Hk IH. rewrite zcount_snoc by lia. replace (k + 1 - lo) with (k - lo + 1) by lia. rewrite zseq_snoc by lia. rewrite filter_app, zlen_app, IH.
    replace (lo + (k - lo)) with k by lia. cbn [filter]. destruct (p k); cbn [b2z]; [rewrite zlen_one | change (zlen (@nil Z)) with 0]; lia.
Qed.

(** A frontier without duplicates, as large as the separator, is the separator. *)
Lemma fron_counted_exact g : vertnnd (vs g) = baseval (vs g) + vertnbr (vs g) -> 0 <= vertnbr (vs g) ->
  fron_counted g -> (forall i j, 0 <= i < vfronnbr g -> 0 <= j < vfronnbr g -> fron g i = fron g j -> i = j) -> fron_exact g.
Proof.
  intros He Hn (Fn & Ff) Fi.
  assert (F0 : 0 <= vfronnbr g) by (rewrite Fn; apply zcount_nonneg).
  split; [exact F0|]. split; [exact Ff|]. split; [exact Fi|]. intros v Hv Hp.
  set (l := map (fron g) (zseq 0 (vfronnbr g))).
  set (m := filter (fun v => part g v =? 2) (zseq (baseval (vs g)) (vertnbr (vs g)))).
  assert (Nl : NoDup l).
  { unfold l. assert (D := NoDup_zseq 0 (vfronnbr g)). assert (R : forall x, In x (zseq 0 (vfronnbr g)) -> 0 <= x < vfronnbr g) by (intros x; rewrite In_zseq; lia).
    revert D R. generalize (zseq 0 (vfronnbr g)). induction l0 as [|a l0 IH]; intros D R; [constructor|]. inversion D as [|? ? D1 D2]; subst. cbn [map]. constructor.
    - rewrite in_map_iff. intros (x & Ex & Hx). apply D1. rewrite (Fi a x); auto; apply R; [now left | now right].
    - apply IH; auto. intros x Hx. apply R. now right. }
  assert (Il : incl l m).
  { intros x Hx. unfold l in Hx. rewrite in_map_iff in Hx. destruct Hx as (i & <- & Hi). rewrite In_zseq in Hi. destruct (Ff i ltac:(lia)) as (F1 & F2).
    unfold m. rewrite filter_In, In_zseq. unfold isvert in F1. split; [lia|]. apply Z.eqb_eq. exact F2. }
  assert (Len : (length m <= length l)%nat).
  { unfold l. rewrite map_length. assert (zlen m = vfronnbr g).
    { rewrite Fn. unfold psize. rewrite zcount_filter by lia. unfold m. do 3 f_equal. lia. }
    assert (zlen (zseq 0 (vfronnbr g)) = vfronnbr g) by (apply zlen_zseq; lia). unfold zlen in *. lia. }
  assert (In v l).
  { apply (NoDup_length_incl Nl Len Il). unfold m. rewrite filter_In, In_zseq. unfold isvert in Hv. split; [lia|]. now apply Z.eqb_eq. }
  unfold l in H. rewrite in_map_iff in H. destruct H as (i & E & Hi). rewrite In_zseq in Hi. exists i. split; [lia | auto].
Qed.

Lemma fron_exact_counted g : vertnnd (vs g) = baseval (vs g) + vertnbr (vs g) -> 0 <= vertnbr (vs g) -> fron_exact g -> fron_counted g.
Proof.
  intros He Hn (F0 & Ff & Fi & Fs). split; [|exact Ff].
  set (l := map (fron g) (zseq 0 (vfronnbr g))).
  set (m := filter (fun v => part g v =? 2) (zseq (baseval (vs g)) (vertnbr (vs g)))).
  assert (P : Permutation l m).
  { apply NoDup_Permutation.
    - unfold l. assert (D := NoDup_zseq 0 (vfronnbr g)). assert (R : forall x, In x (zseq 0 (vfronnbr g)) -> 0 <= x < vfronnbr g) by (intros x; rewrite In_zseq; lia).
      revert D R. generalize (zseq 0 (vfronnbr g)). induction l0 as [|a l0 IH]; intros D R; [constructor|]. inversion D as [|? ? D1 D2]; subst. cbn [map]. constructor.
      + rewrite in_map_iff. intros (x & Ex & Hx). apply D1. rewrite (Fi a x); auto; apply R; [now left | now right].
      + apply IH; auto. intros x Hx. apply R. now right.
    - apply NoDup_filter, NoDup_zseq.
    - intros x. unfold l, m. rewrite in_map_iff, filter_In, In_zseq. split.
      + intros (i & <- & Hi). rewrite In_zseq in Hi. destruct (Ff i ltac:(lia)) as (F1 & F2). unfold isvert in F1. split; [lia|]. now apply Z.eqb_eq.
      + intros (Hx & Hp). apply Z.eqb_eq in Hp. destruct (Fs x) as (i & Hi & E); [unfold isvert; lia | auto|]. exists i. rewrite In_zseq. split; [auto | lia]. }
  apply Permutation_length in P. unfold l in P. rewrite map_length in P.
  unfold psize. rewrite zcount_filter by lia. replace (vertnnd (vs g) - baseval (vs g)) with (vertnbr (vs g)) by lia. fold m.
  assert (zlen (zseq 0 (vfronnbr g)) = vfronnbr g) by (apply zlen_zseq; lia). unfold zlen in *. lia.
Qed.

(** ** Reset *)
Lemma memst_spec {A} `{Dflt A} b (a : list A) n x : 0 <= n <= zlen a -> exists a', memst b a b n x = Ok a' /\ zlen a' = zlen a /\
  forall i, b <= i < b + zlen a -> at_ b a' i = if i <? b + n then x else at_ b a i.
Proof.
  intros Hn. unfold memst.
  match goal with |- exists a', ?r = _ /\ _ => destruct (wp_ok_inv r (fun a' => zlen a' = zlen a /\ forall i, b <= i < b + zlen a -> at_ b a' i = if i <? b + n then x else at_ b a i)) as (a' & -> & H1) end; [|eauto].
  apply wp_for with (I := fun k a' => zlen a' = zlen a /\ forall i, b <= i < b + zlen a -> at_ b a' i = if i <? k then x else at_ b a i); auto.
  - lia.
  - split; [reflexivity|]. intros i Hi. destruct (Z.ltb_spec i b); [lia | reflexivity].
  - intros k a' Hk (Hz & Ha). apply wp_wr; [lia|]. split; [now rewrite zlen_upd|]. intros i Hi. rewrite at_upd by lia. rewrite Ha by lia.
    destruct (Z.eqb_spec k i), (Z.ltb_spec i k), (Z.ltb_spec i (k + 1)); try lia; reflexivity.
Qed.

Lemma vgraphZero_spec g : vg_readable g -> vg_struct (vs g) -> velosum (vs g) = zsum (baseval (vs g)) (vertnnd (vs g)) (velo (vs g)) ->
  exists h, vgraphZero g = Ok h /\ vs h = vs g /\ vg_readable h /\ vg_counts h /\ fron_exact h /\ separated h /\ (forall v, isvert (vs g) v -> part h v = 0) /\
    vdw0 h = vdw0 g /\ vdw1 h = vdw1 g.
Proof.
  intros [Rg (Rn & Rn0) Rp Rb Rf] [Tr Te] Hs. unfold vgraphZero. destruct (memst_spec (baseval (vs g)) (vpart g) (vertnbr (vs g)) 0) as (pt & -> & Hz & Hp); [lia|]. cbn [bind].
  eexists. split; [reflexivity|]. cbn [vs vdw0 vdw1]. split; [reflexivity|].
  match goal with |- vg_readable ?z /\ _ => set (h := z) end.
  assert (P0 : forall v, isvert (vs g) v -> part h v = 0).
  { intros v Hv. unfold part, h. cbn [vs vpart]. unfold isvert in Hv. rewrite Hp by lia. destruct (Z.ltb_spec v (baseval (vs g) + vertnbr (vs g))); [reflexivity | lia]. }
  split; [|split; [|split; [|split; [|auto]]]].
  - constructor; auto.
    + cbn. lia.
    + intros v Hv. rewrite P0 by exact Hv. lia.
  - constructor; unfold psize, pload; cbn [h vs vcsz0 vcsz1 vcld0 vcld1 vcld2 vdlt vdw0 vdw1].
    + intros v Hv. rewrite P0 by exact Hv. lia.
    + rewrite zcount_all by (try lia; intros v Hv; rewrite P0 by exact Hv; reflexivity). lia.
    + symmetry. apply zcount_0. intros v Hv. rewrite P0 by exact Hv. reflexivity.
    + rewrite Hs. apply zsum_ext. intros v Hv. rewrite P0 by exact Hv. reflexivity.
    + symmetry. apply zsum_zero. intros v Hv. rewrite P0 by exact Hv. reflexivity.
    + symmetry. apply zsum_zero. intros v Hv. rewrite P0 by exact Hv. reflexivity.
    + lia.
  - split; [cbn; lia|]. split; [cbn; intros; lia|]. split; [cbn; intros; lia|]. intros v Hv. rewrite P0 by exact Hv. intros; lia.
  - intros v e Ha. pose proof (Te v e Ha) as Hw. destruct Ha as (Hv & _). rewrite (P0 v Hv). cbn [h vs]. rewrite P0 by exact Hw. lia.
Qed.
