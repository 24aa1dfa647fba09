(** Proofs about graphCheck and graphBase. *)
From Verif Require Import Base M_Graph S_Graph.

Lemma rvert_inv g v x : rvert g v = Ok x -> x = vert g v /\ baseval g <= v < baseval g + zlen (verttab g).
Proof. unfold rvert, vert. intros H%rd_inv. tauto. Qed.

Lemma rvend_inv g v x : rvend g v = Ok x -> x = vend g v /\
  match vendtab g with Some t => baseval g <= v < baseval g + zlen t
  | None => baseval g <= v + 1 < baseval g + zlen (verttab g) end.
Proof. unfold rvend, vend. destruct (vendtab g); intros H%rd_inv; tauto. Qed.

Lemma redge_inv g e x : redge g e = Ok x -> x = edge g e /\ baseval g <= e < baseval g + zlen (edgetab g).
Proof. unfold redge, edge. intros H%rd_inv. tauto. Qed.

Lemma rvert_ok g v : graph_readable g -> graph_valid g -> isvert g v -> rvert g v = Ok (vert g v).
Proof.
  intros R V [H1 H2]. pose proof (gr_vert g R). pose proof (gv_nnd g V). unfold rvert, vert. apply rd_ok.
  destruct (vendtab g); cbn [b2z] in *; try lia. unfold b2z in *. destruct (0 <? vertnbr g) eqn:?; lia.
Qed.
Lemma rvend_ok g v : graph_readable g -> graph_valid g -> isvert g v -> rvend g v = Ok (vend g v).
Proof.
  intros R V [H1 H2]. pose proof (gr_vert g R). pose proof (gr_vend g R). pose proof (gv_nnd g V).
  unfold rvend, vend. destruct (vendtab g); apply rd_ok.
  - specialize (H0 _ eq_refl). lia.
  - unfold b2z in *. destruct (0 <? vertnbr g) eqn:?; lia.
Qed.
Lemma redge_ok g v e : graph_readable g -> arc g v e -> redge g e = Ok (edge g e).
Proof. intros R A. unfold redge, edge. apply rd_ok. eapply gr_edge; eauto. Qed.

Lemma arcsearch_wlp g hi v from :
  wlp (arcsearch g hi v from) (fun e => from <= e /\
    (forall k, from <= k < e -> k < hi /\ edge g k <> v /\ baseval g <= k < baseval g + zlen (edgetab g)) /\
    (e < hi -> edge g e = v /\ baseval g <= e < baseval g + zlen (edgetab g))).
Proof.
  unfold arcsearch. apply wlp_loop with (I := fun e => from <= e /\
    (forall k, from <= k < e -> k < hi /\ edge g k <> v /\ baseval g <= k < baseval g + zlen (edgetab g))).
  - split; [lia|]. intros; lia.
  - intros e [H1 H2]. destruct (Z.ltb_spec e hi); [|cbn [wlp]; split; [lia|]; split; [exact H2|intros; lia]].
    apply wlp_bind, wlp_intro. intros w Hw%redge_inv. destruct Hw as [-> Hw].
    destruct (Z.eqb_spec (edge g e) v); cbn [wlp].
    + split; [lia|]; split; [exact H2|auto].
    + split; [lia|]. intros k Hk. destruct (Z.eq_dec k e) as [->|]; [auto|apply H2; lia].
Qed.

Lemma arcsearch_wp g hi v from :
  (forall k, from <= k < hi -> baseval g <= k < baseval g + zlen (edgetab g)) -> from <= hi ->
  wp (arcsearch g hi v from) (fun e => from <= e <= hi /\
    (forall k, from <= k < e -> edge g k <> v) /\ (e < hi -> edge g e = v)) noerr.
Proof.
  intros R Hle. unfold arcsearch.
  apply wp_loop with (m := fun e => hi - e) (I := fun e => from <= e <= hi /\ forall k, from <= k < e -> edge g k <> v).
  - split; [lia|]. intros; lia.
  - lia.
  - intros e [H1 H2]. destruct (Z.ltb_spec e hi).
    + unfold redge. rewrite rd_ok by (apply R; lia). cbn [bind]. fold (edge g e).
      destruct (Z.eqb_spec (edge g e) v); cbn [wp].
      * repeat split; auto; lia.
      * repeat split; try lia. intros k Hk. destruct (Z.eq_dec k e) as [->|]; [auto|apply H2; lia].
    + cbn [wp]. repeat split; auto; lia.
Qed.

(** ** Soundness *)

(** what a successful pass over one arc establishes *)
Definition arcOk (g : graph) (v e : Z) : Prop :=
  isvert g (edge g e) /\ edge g e <> v /\
  baseval g <= e < baseval g + zlen (edgetab g) /\
  (forall t, edlotab g = Some t -> baseval g <= e < baseval g + zlen t) /\
  0 <= edlo g e /\
  exists e', vert g (edge g e) <= e' < vend g (edge g e) /\ edge g e' = v /\ edlo g e' = edlo g e /\
    forall k, vert g (edge g e) <= k < vend g (edge g e) -> edge g k = v -> k = e'.

Lemma gadd_inv gmax x y z : gadd gmax x y = Ok z -> z = x + y /\ z <= gmax.
Proof. unfold gadd. destruct (_ && _) eqn:E; [|discriminate]. intros [= <-]. lia. Qed.

Lemma checkArc_wlp gmax g v e s :
  wlp (checkArc gmax g v e s) (fun s' => arcOk g v e /\
     s' = match edlotab g with None => s | Some _ => s + edlo g e end).
Proof.
  unfold checkArc. apply wlp_bind, wlp_intro. intros w Hw%redge_inv. destruct Hw as [-> He].
  apply wlp_bind, wlp_intro. intros s' Hs'.
  assert (S1 : s' = match edlotab g with None => s | Some _ => s + edlo g e end /\ 0 <= edlo g e /\
               forall t, edlotab g = Some t -> baseval g <= e < baseval g + zlen t).
  { unfold edlo. destruct (edlotab g) as [t|].
    - apply bind_ok_inv in Hs' as (l & Hl%rd_inv & Hs'). destruct Hl as [Hl ->].
      apply bind_ok_inv in Hs' as (tmp & Ht%gadd_inv & Hs'). destruct Ht as [-> _].
      destruct (Z.ltb_spec (s + at_ (baseval g) t e) s); [discriminate|]. injection Hs' as <-.
      split; [auto|]. split; [lia|]. intros t' [= <-]. auto.
    - injection Hs' as <-. split; [auto|]. split; [lia|]. discriminate. }
  destruct S1 as (-> & Hpos & Hlen).
  destruct ((edge g e <? baseval g) || (vertnnd g <=? edge g e)) eqn:E1; [exact I|].
  destruct (Z.eqb_spec (edge g e) v) as [|Hnv]; [exact I|].
  apply wlp_bind, wlp_intro. intros lo Hlo%rvert_inv. destruct Hlo as [-> _].
  apply wlp_bind, wlp_intro. intros hi Hhi%rvend_inv. destruct Hhi as [-> _].
  apply wlp_bind. eapply wlp_mono; [apply arcsearch_wlp|]. cbv beta. intros ee (Hee & Hbefore & Hat).
  destruct (Z.leb_spec (vend g (edge g e)) ee) as [|Hlt]; [exact I|].
  specialize (Hat Hlt) as [Hat Hatr].
  apply wlp_bind, wlp_intro. intros ok Hok.
  assert (S2 : ok = true -> edlo g ee = edlo g e).
  { unfold edlo. destruct (edlotab g) as [t|]; auto.
    apply bind_ok_inv in Hok as (l & Hl%rd_inv & Hok). destruct Hl as [Hl ->].
    apply bind_ok_inv in Hok as (l' & Hl'%rd_inv & Hok). destruct Hl' as [Hl' ->].
    injection Hok as <-. lia. }
  destruct ok; cbn [negb]; [|exact I]. specialize (S2 eq_refl).
  apply wlp_bind. eapply wlp_mono; [apply arcsearch_wlp|]. cbv beta. intros e2 (He2 & Hb2 & Ha2).
  destruct (Z.ltb_spec e2 (vend g (edge g e))); [exact I|]. cbn [wlp]. split; [|reflexivity].
  unfold arcOk, isvert. split; [lia|]. split; [auto|]. split; [auto|]. split; [auto|]. split; [auto|].
  exists ee. split; [lia|]. split; [auto|]. split; [auto|].
  intros k Hk Ek. destruct (Z_lt_dec k ee).
  - exfalso. apply (Hbefore k); auto; lia.
  - destruct (Z.eq_dec k ee); auto. exfalso. apply (Hb2 k); auto; lia.
Qed.

Definition esum (g : graph) (v : Z) : Z := zsum (vert g v) (vend g v) (edlo g).

Definition vertOk (g : graph) (v : Z) : Prop :=
  baseval g <= vert g v <= vend g v /\
  baseval g <= v < baseval g + zlen (verttab g) /\
  match vendtab g with Some t => baseval g <= v < baseval g + zlen t
  | None => baseval g <= v + 1 < baseval g + zlen (verttab g) end /\
  (forall t, velotab g = Some t -> baseval g <= v < baseval g + zlen t) /\
  0 <= velo g v /\
  forall e, vert g v <= e < vend g v -> arcOk g v e.

Lemma checkVert_wlp gmax g v dm en es vs :
  wlp (checkVert gmax g v (dm, en, es, vs)) (fun '(dm', en', es', vs') =>
    vertOk g v /\ dm <= dm' /\ vend g v - vert g v <= dm' /\ en' = en + (vend g v - vert g v) /\
    es' = match edlotab g with None => es | Some _ => es + esum g v end /\
    vs' = match velotab g with None => vs | Some _ => vs + velo g v end).
Proof.
  unfold checkVert.
  apply wlp_bind, wlp_intro. intros lo Hlo%rvert_inv. destruct Hlo as [-> Hlo].
  apply wlp_bind, wlp_intro. intros hi Hhi%rvend_inv. destruct Hhi as [-> Hhi].
  destruct ((vert g v <? baseval g) || (vend g v <? vert g v)) eqn:E1; [exact I|].
  apply wlp_bind.
  eapply wlp_mono; [apply wlp_for with (I := fun e s => 
     (forall k, vert g v <= k < e -> arcOk g v k) /\
     s = match edlotab g with None => es | Some _ => es + zsum (vert g v) e (edlo g) end); [lia| | |]|].
  - split; [intros; lia|]. rewrite zsum_nil by lia. destruct (edlotab g); lia.
  - intros e s He (H1 & ->). eapply wlp_mono; [apply checkArc_wlp|]. cbv beta. intros s' [HA ->]. split.
    + intros k Hk. destruct (Z.eq_dec k e) as [->|]; [auto|apply H1; lia].
    + destruct (edlotab g) eqn:?; auto. rewrite zsum_snoc by lia. lia.
  - intros s H. exact H.
  - cbv beta. intros s (Harc & ->). apply wlp_bind, wlp_intro. intros vs' Hvs'.
    assert (S : vs' = match velotab g with None => vs | Some _ => vs + velo g v end /\ 0 <= velo g v /\
              forall t, velotab g = Some t -> baseval g <= v < baseval g + zlen t).
    { unfold velo. destruct (velotab g) as [t|].
      - apply bind_ok_inv in Hvs' as (l & Hl%rd_inv & Hs'). destruct Hl as [Hl ->].
        destruct (Z.ltb_spec (at_ (baseval g) t v) 0); [discriminate|].
        apply bind_ok_inv in Hs' as (tmp & Ht%gadd_inv & Hs'). destruct Ht as [-> _].
        destruct (Z.ltb_spec (vs + at_ (baseval g) t v) vs); [discriminate|]. injection Hs' as <-.
        split; [auto|]. split; [lia|]. intros t' [= <-]. auto.
      - injection Hvs' as <-. split; [auto|]. split; [lia|]. discriminate. }
    destruct S as (-> & Hp & Hl). cbn [wlp].
    split; [unfold vertOk; split; [lia|]; auto|].
    destruct (Z.ltb_spec dm (vend g v - vert g v)); repeat split; auto; lia.
Qed.

Lemma graphCheck_wlp gmax g : wlp (graphCheck gmax g) (fun _ => graph_valid g /\ graph_readable g).
Proof.
  unfold graphCheck.
  destruct ((vertnbr g <? 0) || _) eqn:E1; [exact I|].
  destruct ((edgenbr g <? 0) || _) eqn:E2; [exact I|].
  apply wlp_bind.
  eapply wlp_mono; [apply wlp_for with (I := fun v '(dm, en, es, vs) =>
     (forall u, baseval g <= u < v -> vertOk g u /\ vend g u - vert g u <= dm) /\ 0 <= dm /\
     en = zsum (baseval g) v (fun v => vend g v - vert g v) /\
     es = match edlotab g with None => edgenbr g | Some _ => zsum (baseval g) v (esum g) end /\
     vs = match velotab g with None => vertnbr g | Some _ => zsum (baseval g) v (velo g) end); [lia| | |]|].
  - split; [intros; lia|]. rewrite !zsum_nil by lia. split; [lia|]. split; [lia|].
    destruct (edlotab g), (velotab g); split; reflexivity.
  - intros v [[[dm en] es] vs] Hv (H1 & H2 & -> & -> & ->).
    eapply wlp_mono; [apply checkVert_wlp|]. intros [[[dm' en'] es'] vs'] (K1 & K2 & K3 & -> & -> & ->).
    split; [|split; [lia|split; [|split]]].
    + intros u Hu. destruct (Z.eq_dec u v) as [->|]; [split; auto; lia|].
      destruct (H1 u ltac:(lia)). split; auto; lia.
    + rewrite zsum_snoc by lia. auto.
    + destruct (edlotab g); auto. rewrite zsum_snoc by lia. auto.
    + destruct (velotab g); auto. rewrite zsum_snoc by lia. auto.
  - intros s H. exact H.
  - intros [[[dm en] es] vs] (H1 & H2 & -> & -> & ->).
    destruct (Z.eqb_spec (edgenbr g) (zsum (baseval g) (vertnnd g) (fun v => vend g v - vert g v))) as [En|]; [|exact I].
    cbn [negb].
    destruct (Z.eqb_spec (velosum g) (match velotab g with None => vertnbr g | Some _ => zsum (baseval g) (vertnnd g) (velo g) end)) as [Ev|]; [|exact I].
    cbn [negb].
    destruct (Z.eqb_spec (edlosum g) (match edlotab g with None => edgenbr g | Some _ => zsum (baseval g) (vertnnd g) (esum g) end)) as [Ee|]; [|exact I].
    cbn [negb]. destruct (Z.ltb_spec (degrmax g) dm); [exact I|]. cbn [wlp].
    assert (VO : forall v, isvert g v -> vertOk g v) by (intros v Hv; apply (H1 v); auto).
    assert (AO : forall v e, arc g v e -> arcOk g v e).
    { intros v e [Hv He]. destruct (VO v Hv) as (_ & _ & _ & _ & _ & HA). auto. }
    split; constructor.
    + lia.
    + lia.
    + intros v Hv. apply (VO v Hv).
    + intros v e A. apply (AO v e A).
    + intros v e A. apply (AO v e A).
    + intros v e e' A A' E.
      destruct (AO v e A) as (Hw & _ & _ & _ & _ & r & Hr & Er & _).
      assert (A2 : arc g (edge g e) r) by (split; auto).
      destruct (AO _ _ A2) as (_ & _ & _ & _ & _ & k & Hk & _ & _ & U).
      rewrite Er in U. destruct A as [_ A], A' as [_ A']. rewrite (U e A eq_refl). symmetry. apply U; auto.
    + intros v e A. destruct (AO v e A) as (Hw & _ & _ & _ & _ & r & Hr & Er & El & _).
      exists r. split; [split; auto|]. split; auto.
    + exact En.
    + intros v Hv. apply (VO v Hv).
    + rewrite Ev. destruct (velotab g) eqn:Et; auto.
      rewrite (zsum_ext _ _ (velo g) (fun _ => 1)) by (intros; unfold velo; now rewrite Et).
      rewrite zsum_const by lia. lia.
    + intros v e A. apply (AO v e A).
    + rewrite Ee. destruct (edlotab g) eqn:Et; auto. rewrite En. apply zsum_ext. intros v Hv.
      destruct (VO v Hv) as (HR & _).
      rewrite (zsum_ext _ _ (edlo g) (fun _ => 1)) by (intros; unfold edlo; now rewrite Et).
      rewrite zsum_const by lia. lia.
    + lia.
    + intros v Hv. destruct (H1 v Hv). lia.
    + destruct (Z.ltb_spec 0 (vertnbr g)) as [Hp|Hp].
      * destruct (VO (vertnnd g - 1)) as (_ & K1 & K2 & _); [unfold isvert; lia|].
        destruct (vendtab g); unfold b2z; lia.
      * pose proof (zlen_nonneg (verttab g)). destruct (vendtab g); unfold b2z; lia.
    + intros t Et. destruct (Z.ltb_spec 0 (vertnbr g)) as [Hp|Hp].
      * destruct (VO (vertnnd g - 1)) as (_ & K1 & K2 & _); [unfold isvert; lia|]. rewrite Et in K2. lia.
      * pose proof (zlen_nonneg t). lia.
    + intros t Et. destruct (Z.ltb_spec 0 (vertnbr g)) as [Hp|Hp].
      * destruct (VO (vertnnd g - 1)) as (_ & _ & _ & K2 & _); [unfold isvert; lia|]. specialize (K2 t Et). lia.
      * pose proof (zlen_nonneg t). lia.
    + intros v e A. destruct (AO v e A) as (_ & _ & HE & _). exact HE.
    + intros t v e Et A. destruct (AO v e A) as (_ & _ & _ & HL & _). eauto.
Qed.

(** ** Completeness *)

Lemma sym_even (c : Z -> Z -> Z) b :
  (forall v, c v v = 0) -> (forall v w, c v w = c w v) ->
  forall n, b <= n -> Z.even (zsum b n (fun v => zsum b n (fun w => c v w))) = true.
Proof.
  intros D S. apply zrange_ind.
  - now rewrite zsum_nil by lia.
  - intros n Hn IH. rewrite zsum_snoc by lia.
    rewrite (zsum_ext b n (fun v => zsum b (n + 1) (fun w => c v w)) (fun v => zsum b n (fun w => c v w) + c v n)).
    2:{ intros. now rewrite zsum_snoc by lia. }
    rewrite zsum_add, zsum_snoc, D by lia.
    rewrite (zsum_ext b n (fun w => c n w) (fun v => c v n)) by auto.
    replace (zsum b n (fun v => zsum b n (fun w => c v w)) + zsum b n (fun v => c v n) + (zsum b n (fun v => c v n) + 0))
      with (zsum b n (fun v => zsum b n (fun w => c v w)) + 2 * zsum b n (fun v => c v n)) by lia.
    rewrite Z.even_add, Z.even_mul, IH. reflexivity.
Qed.

Lemma zsum_single lo hi f k : lo <= k < hi -> (forall i, lo <= i < hi -> i <> k -> f i = 0) -> zsum lo hi f = f k.
Proof.
  intros Hk H0. rewrite (zsum_upd lo hi (fun _ => 0) f k) by (auto; intros; symmetry; auto).
  rewrite zsum_zero by auto. lia.
Qed.

Definition mult (g : graph) (v w : Z) : Z := zcount (vert g v) (vend g v) (fun e => edge g e =? w).

Lemma degree_mult g v : graph_valid g -> isvert g v ->
  vend g v - vert g v = zsum (baseval g) (vertnnd g) (mult g v).
Proof.
  intros V Hv. unfold mult, zcount. rewrite (zsum_swap (baseval g) (vertnnd g)).
  pose proof (gv_range g V v Hv).
  rewrite (zsum_ext (vert g v) (vend g v) _ (fun _ => 1)).
  - rewrite zsum_const by lia. lia.
  - intros e He. assert (A : arc g v e) by (split; auto).
    pose proof (gv_end g V v e A) as HE. rewrite (zsum_single _ _ _ (edge g e)); [|apply HE|].
    + now rewrite Z.eqb_refl.
    + intros i _ Hi. now replace (edge g e =? i) with false by lia.
Qed.

Lemma mult_01 g v w : graph_valid g -> isvert g v ->
  (mult g v w = 1 /\ exists e, arc g v e /\ edge g e = w) \/
  (mult g v w = 0 /\ forall e, arc g v e -> edge g e <> w).
Proof.
  intros V Hv.
  assert (D : (exists e, arc g v e /\ edge g e = w) \/ forall e, arc g v e -> edge g e <> w).
  { pose proof (gv_range g V v Hv) as [_ Hle]. revert Hle.
    assert (G : forall hi, vert g v <= hi -> (exists e, (vert g v <= e < hi) /\ edge g e = w) \/ forall e, vert g v <= e < hi -> edge g e <> w).
    { apply zrange_ind; [right; intros; lia|]. intros hi Hhi [(e & He & E)|N].
      - left. exists e. split; auto; lia.
      - destruct (Z.eq_dec (edge g hi) w); [left; exists hi; split; auto; lia|].
        right. intros e He. destruct (Z.eq_dec e hi) as [->|]; auto. apply N; lia. }
    intros Hle. destruct (G _ Hle) as [(e & He & E)|N].
    - left. exists e. split; auto. split; auto.
    - right. intros e [_ He]. auto. }
  destruct D as [(e & A & E)|N].
  - left. split; [|eauto]. unfold mult, zcount. rewrite (zsum_single _ _ _ e); [|apply A|].
    + now rewrite E, Z.eqb_refl.
    + intros i Hi Hne. destruct (Z.eqb_spec (edge g i) w); auto. exfalso. apply Hne.
      eapply gv_simple with (v := v); eauto; [split; auto|congruence].
  - right. split; auto. unfold mult, zcount. apply zsum_zero. intros e He.
    destruct (Z.eqb_spec (edge g e) w); auto. exfalso. apply (N e); auto. split; auto.
Qed.

Lemma mult_sym g v w : graph_valid g -> isvert g v -> isvert g w -> mult g v w = mult g w v.
Proof.
  intros V Hv Hw.
  destruct (mult_01 g v w V Hv) as [(E1 & e & A & Ee)|(E1 & N1)];
  destruct (mult_01 g w v V Hw) as [(E2 & e' & A' & Ee')|(E2 & N2)]; try congruence.
  - destruct (gv_sym g V v e A) as (r & Ar & Er & _). rewrite Ee in Ar. destruct (N2 r Ar Er).
  - destruct (gv_sym g V w e' A') as (r & Ar & Er & _). rewrite Ee' in Ar. destruct (N1 r Ar Er).
Qed.

Lemma edgenbr_even g : graph_valid g -> Z.even (edgenbr g) = true.
Proof.
  intros V. rewrite (gv_edgenbr g V).
  set (c := fun v w => if (baseval g <=? v) && (v <? vertnnd g) && (baseval g <=? w) && (w <? vertnnd g) then mult g v w else 0).
  rewrite (zsum_ext _ _ _ (fun v => zsum (baseval g) (vertnnd g) (fun w => c v w))).
  - apply sym_even.
    + intros v. unfold c. destruct (_ && _) eqn:E; auto.
      destruct (mult_01 g v v V) as [(E1 & e & A & Ee)|(E1 & N1)]; auto; [unfold isvert; lia|].
      exfalso. eapply gv_loop; eauto.
    + intros v w. unfold c.
      destruct ((baseval g <=? v) && (v <? vertnnd g) && (baseval g <=? w) && (w <? vertnnd g)) eqn:E.
      * replace ((baseval g <=? w) && (w <? vertnnd g) && (baseval g <=? v) && (v <? vertnnd g)) with true by lia.
        apply mult_sym; auto; unfold isvert; lia.
      * now replace ((baseval g <=? w) && (w <? vertnnd g) && (baseval g <=? v) && (v <? vertnnd g)) with false by lia.
    + pose proof (gv_size g V). pose proof (gv_nnd g V). lia.
  - intros v Hv. rewrite degree_mult by auto. apply zsum_ext. intros w Hw. unfold c.
    now replace ((baseval g <=? v) && (v <? vertnnd g) && (baseval g <=? w) && (w <? vertnnd g)) with true by lia.
Qed.

Lemma gadd_ok gmax x y : 0 <= x + y <= gmax -> gadd gmax x y = Ok (x + y).
Proof. intros H. unfold gadd. now replace ((- gmax - 1 <=? x + y) && (x + y <=? gmax)) with true by lia. Qed.

Lemma checkArc_wp gmax g v e s : graph_valid g -> graph_readable g -> arc g v e -> 0 <= s ->
  (forall t, edlotab g = Some t -> s + edlo g e <= gmax) ->
  checkArc gmax g v e s = Ok (match edlotab g with None => s | Some _ => s + edlo g e end).
Proof.
  intros V R A Hs Hmax. unfold checkArc. rewrite (redge_ok g v e) by auto. cbn [bind].
  pose proof (gv_edlo g V v e A) as Hpos. pose proof (gv_end g V v e A) as [Hw1 Hw2].
  pose proof (gv_loop g V v e A) as Hl.
  match goal with |- bind ?x _ = _ => assert (E : x = Ok (match edlotab g with None => s | Some _ => s + edlo g e end)) end.
  { unfold edlo in *. destruct (edlotab g) as [t|] eqn:Et; auto.
    rewrite rd_ok by (eapply gr_edlo; eauto). cbn [bind]. rewrite gadd_ok by (specialize (Hmax t eq_refl); lia).
    cbn [bind]. now replace (s + at_ (baseval g) t e <? s) with false by lia. }
  rewrite E. cbn [bind]. clear E.
  replace ((edge g e <? baseval g) || (vertnnd g <=? edge g e)) with false by lia.
  replace (edge g e =? v) with false by lia.
  assert (Hwv : isvert g (edge g e)) by (split; auto).
  rewrite rvert_ok, rvend_ok by auto. cbn [bind].
  pose proof (gv_range g V _ Hwv) as Hr.
  destruct (gv_sym g V v e A) as (e' & A' & Ee' & El).
  assert (Rng : forall k, vert g (edge g e) <= k < vend g (edge g e) -> baseval g <= k < baseval g + zlen (edgetab g)).
  { intros k Hk. eapply (gr_edge g R (edge g e)). split; auto. }
  destruct (wp_ok_inv _ _ (arcsearch_wp g (vend g (edge g e)) v (vert g (edge g e)) Rng ltac:(lia))) as (r & -> & Hr1 & Hr2 & Hr3).
  cbn [bind].
  destruct A' as [_ A'].
  assert (r = e').
  { destruct (Z.lt_trichotomy r e') as [Hlt|[?|Hgt]]; auto.
    - eapply (gv_simple g V (edge g e)); [split; auto; lia|split; auto|]. rewrite Hr3; lia.
    - exfalso. apply (Hr2 e'); auto; lia. }
  subst r. replace (vend g (edge g e) <=? e') with false by lia.
  match goal with |- bind ?x _ = _ => assert (E : x = Ok true) end.
  { unfold edlo in *. destruct (edlotab g) as [t|] eqn:Et; auto.
    rewrite rd_ok by (eapply gr_edlo; eauto). cbn [bind].
    rewrite rd_ok by (eapply (gr_edlo g R t (edge g e)); eauto; split; auto). cbn [bind]. rewrite El, Z.eqb_refl. auto. }
  rewrite E. cbn [bind negb]. clear E.
  destruct (wp_ok_inv _ _ (arcsearch_wp g (vend g (edge g e)) v (e' + 1) ltac:(intros; apply Rng; lia) ltac:(lia))) as (r & -> & Hs1 & Hs2 & Hs3).
  cbn [bind]. destruct (Z.ltb_spec r (vend g (edge g e))) as [Hlt|]; auto.
  exfalso. assert (r = e'); [|lia]. eapply (gv_simple g V (edge g e)); [split; auto; lia|split; auto|]. rewrite Hs3; lia.
Qed.

Lemma graphCheck_complete gmax g :
  graph_valid g -> graph_readable g -> velosum g <= gmax -> edlosum g <= gmax ->
  graphCheck gmax g = Ok tt.
Proof.
  intros V R Hvs Hes.
  assert (G : wp (graphCheck gmax g) (fun _ => True) noerr).
  2:{ apply wp_ok_inv in G as ([] & E & _). auto. }
  pose proof (gv_size g V) as Hn. pose proof (gv_nnd g V) as Hnd.
  assert (Dpos : forall v, isvert g v -> 0 <= vend g v - vert g v) by (intros v Hv; pose proof (gv_range g V v Hv); lia).
  assert (Epos : forall v, isvert g v -> 0 <= esum g v).
  { intros v Hv. apply zsum_nonneg. intros e He. apply (gv_edlo g V v). split; auto. }
  assert (Enn : 0 <= edgenbr g) by (rewrite (gv_edgenbr g V); apply zsum_nonneg; auto).
  unfold graphCheck.
  replace ((vertnbr g <? 0) || negb (vertnbr g =? vertnnd g - baseval g)) with false by lia.
  assert (Ev : Z.land (edgenbr g) 1 = 0).
  { pose proof (edgenbr_even g V) as E. rewrite Z.even_spec in E. destruct E as [k ->].
    change 1 with (Z.ones 1). rewrite Z.land_ones by lia. rewrite Z.mul_comm. apply Z.mod_mul. lia. }
  rewrite Ev. replace ((edgenbr g <? 0) || negb (0 =? 0)) with false by lia.
  apply wp_bind.
  eapply wp_mono; [apply wp_for with (I := fun v '(dm, en, es, vs) =>
     0 <= dm <= degrmax g /\
     en = zsum (baseval g) v (fun v => vend g v - vert g v) /\
     es = match edlotab g with None => edgenbr g | Some _ => zsum (baseval g) v (esum g) end /\
     vs = match velotab g with None => vertnbr g | Some _ => zsum (baseval g) v (velo g) end); [lia| | |]|].
  - rewrite !zsum_nil by lia. pose proof (gv_degr0 g V). split; [lia|]. split; [lia|].
    destruct (edlotab g), (velotab g); split; reflexivity.
  - intros v [[[dm en] es] vs] Hv (H2 & -> & Hes0 & Hvs0).
    assert (Iv : isvert g v) by auto.
    unfold checkVert. rewrite rvert_ok, rvend_ok by auto. cbn [bind].
    pose proof (gv_range g V v Iv) as Hrg.
    replace ((vert g v <? baseval g) || (vend g v <? vert g v)) with false by lia.
    apply wp_bind.
    eapply wp_mono; [apply wp_for with (I := fun e s => 0 <= s /\
       s = match edlotab g with None => es | Some _ => es + zsum (vert g v) e (edlo g) end); [lia| | |]|].
    + rewrite zsum_nil by lia. subst es. destruct (edlotab g); split; try lia.
      apply zsum_nonneg. intros u Hu. apply Epos. unfold isvert; lia.
    + intros e s He [Hs0 Hs]. assert (A : arc g v e) by (split; auto). rewrite checkArc_wp; auto.
      * cbn [wp]. pose proof (gv_edlo g V v e A). destruct (edlotab g); [|split; auto].
        split; [lia|]. rewrite zsum_snoc by lia. lia.
      * intros t Et. rewrite Et in *. subst s es.
        assert (K1 : zsum (vert g v) e (edlo g) + edlo g e <= esum g v).
        { rewrite <- zsum_snoc by lia. apply zsum_mono; [lia|]. intros k Hk. apply (gv_edlo g V v). split; auto. }
        assert (K2 : zsum (baseval g) v (esum g) + esum g v <= edlosum g).
        { rewrite (gv_edlosum g V). rewrite <- zsum_snoc by lia. apply zsum_mono; [lia|]. intros k Hk. apply Epos. auto. }
        lia.
    + intros s Hs; exact Hs.
    + cbv beta. intros s [_ ->].
      assert (EE : (match velotab g with
         | Some t => do l <- rd (baseval g) t v; (if l <? 0 then Err 1 else do tmp <- gadd gmax vs l; (if tmp <? vs then Err 1 else Ok tmp))
         | None => Ok vs end) = Ok (match velotab g with None => vs | Some _ => vs + velo g v end)).
      { pose proof (gv_velo g V v Iv) as Hp. pose proof (gv_velosum g V) as Hsum. unfold velo in *.
        destruct (velotab g) as [t|] eqn:Et; auto.
        rewrite rd_ok by (pose proof (gr_velo g R t Et); lia). cbn [bind].
        replace (at_ (baseval g) t v <? 0) with false by lia.
        assert (K : zsum (baseval g) v (fun v : Z => at_ (baseval g) t v) + at_ (baseval g) t v <= velosum g).
        { rewrite Hsum. rewrite <- zsum_snoc by lia. apply zsum_mono; [lia|]. intros k Hk.
          pose proof (gv_velo g V k Hk) as Q. unfold velo in Q. now rewrite Et in Q. }
        assert (0 <= vs). { subst vs. apply zsum_nonneg. intros k Hk.
          pose proof (gv_velo g V k) as Q. unfold velo, isvert in Q. rewrite Et in Q. apply Q; lia. }
        rewrite gadd_ok by (subst vs; lia). cbn [bind].
        now replace (vs + at_ (baseval g) t v <? vs) with false by lia. }
      rewrite EE. cbn [bind wp]. pose proof (gv_degr g V v Iv).
      split; [destruct (Z.ltb_spec dm (vend g v - vert g v)); lia|].
      split; [rewrite zsum_snoc by lia; auto|].
      subst es vs. split.
      * destruct (edlotab g); auto. rewrite zsum_snoc by lia. reflexivity.
      * destruct (velotab g); auto. rewrite zsum_snoc by lia. reflexivity.
  - intros s H. exact H.
  - intros [[[dm en] es] vs] (H2 & -> & -> & ->).
    rewrite <- (gv_edgenbr g V), Z.eqb_refl. cbn [negb].
    match goal with |- context [velosum g =? ?x] => assert (E : x = velosum g) end.
    { rewrite (gv_velosum g V). destruct (velotab g) eqn:Et; auto.
      rewrite (zsum_ext _ _ (velo g) (fun _ => 1)) by (intros; unfold velo; now rewrite Et).
      rewrite zsum_const by lia. lia. }
    rewrite E, Z.eqb_refl. cbn [negb]. clear E.
    match goal with |- context [edlosum g =? ?x] => assert (E : x = edlosum g) end.
    { rewrite (gv_edlosum g V). destruct (edlotab g) eqn:Et; auto. rewrite (gv_edgenbr g V). apply zsum_ext. intros v Hv.
      rewrite (zsum_ext _ _ (edlo g) (fun _ => 1)) by (intros; unfold edlo; now rewrite Et).
      pose proof (gv_range g V v Hv). rewrite zsum_const by lia. lia. }
    rewrite E, Z.eqb_refl. cbn [negb]. replace (degrmax g <? dm) with false by lia. exact I.
Qed.
