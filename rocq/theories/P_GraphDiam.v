(** Proofs about pseudo-diameters. *)
From Verif Require Import Base M_Graph S_Graph P_Graph P_Vgraph P_HgraphOrder3 M_GraphDiam S_GraphDiam.

Lemma filter_out l v : NoDup l -> NoDup (filter (fun w => negb (w =? v)) l) /\ forall x, In x (filter (fun w => negb (w =? v)) l) <-> In x l /\ x <> v.
Proof.
  intros ND. split; [now apply NoDup_filter|]. intros x. rewrite filter_In. split; intros [H1 H2]; (split; [exact H1|]).
  - intros ->. rewrite Z.eqb_refl in H2. discriminate.
  - destruct (x =? v) eqn:E; [lia|reflexivity].
Qed.

Section Diam.
Variables (g : graph) (gmax : Z).
Hypotheses (G : graph_valid g) (R : graph_readable g).
Let b := baseval g.
Let n := vertnbr g.
Let nnd := vertnnd g.
Hypothesis Hn : 1 <= n.
Let tot := velosum g + edlosum g.
Hypothesis HS : tot < gmax.

Lemma dNN : nnd = b + n. Proof. apply (gv_nnd g G). Qed.
Lemma leave_nonneg v : isvert g v -> 0 <= leave g v <= velo g v.
Proof. intros Hv. pose proof (gv_velo g G v Hv). unfold leave. destruct (velotab g); lia. Qed.
Lemma walk_vert u v d : isvert g u -> walk g u v d -> isvert g v /\ 0 <= d.
Proof.
  intros Hu W. induction W as [|v e d W IH A]; [split; [exact Hu|lia]|]. destruct IH as [Hv Hd]. split; [apply (gv_end g G v e A)|]. pose proof (leave_nonneg v Hv). pose proof (gv_edlo g G v e A). lia.
Qed.
Lemma dist_refl u : isvert g u -> distance g u u 0.
Proof. intros Hu. split; [constructor|]. intros d W. now apply (walk_vert u u d). Qed.

Definition cost (x : Z) : Z := velo g x + zsum (vert g x) (vend g x) (edlo g).
Lemma cost_nonneg x : isvert g x -> 0 <= cost x.
Proof. intros Hx. unfold cost. pose proof (gv_velo g G x Hx). assert (0 <= zsum (vert g x) (vend g x) (edlo g)); [|lia]. apply zsum_nonneg. intros e He. apply (gv_edlo g G x). split; [exact Hx|exact He]. Qed.
Lemma cost_arc x e : arc g x e -> leave g x + edlo g e <= cost x.
Proof.
  intros A. destruct A as [Hx He]. unfold cost. pose proof (leave_nonneg x Hx). assert (edlo g e <= zsum (vert g x) (vend g x) (edlo g)); [|lia].
  assert (NN : forall i, vert g x <= i < vend g x -> 0 <= edlo g i) by (intros i Hi; apply (gv_edlo g G x); split; assumption).
  rewrite (zsum_split _ e), (zsum_cons e) by lia. pose proof (zsum_nonneg (vert g x) e (edlo g) ltac:(intros; apply NN; lia)). pose proof (zsum_nonneg (e + 1) (vend g x) (edlo g) ltac:(intros; apply NN; lia)). lia.
Qed.
Lemma cost_tot : zsum b nnd cost = tot.
Proof. unfold cost, tot. rewrite zsum_add. rewrite (gv_velosum g G), (gv_edlosum g G). reflexivity. Qed.

Definition dd (s : dmst) (x : Z) : Z := at_ b (dm_dist s) x.
Definition done (s : dmst) (x : Z) : bool := dd s x =? -1.
Definition bound (s : dmst) : Z := zsum b nnd (fun x => if done s x then cost x else 0).
Lemma bound_tot s : 0 <= bound s <= tot.
Proof.
  rewrite <- cost_tot. unfold bound. split.
  - apply zsum_nonneg. intros x Hx. destruct (done s x); [|lia]. now apply cost_nonneg.
  - apply zsum_le. intros x Hx. destruct (done s x); [lia|]. now apply cost_nonneg.
Qed.

Section Search.
Variable r : Z.
Hypothesis Hr : isvert g r.
Record dinv (E : Z -> Z -> Prop) (D : Z -> Z) (k : Z) (s : dmst) : Prop := {
  d_len : zlen (dm_dist s) = n;
  d_nd : NoDup (dm_heap s);
  d_heap : forall x, In x (dm_heap s) <-> isvert g x /\ 0 <= dd s x < gmax;
  d_rng : forall x, isvert g x -> dd s x = -1 \/ 0 <= dd s x <= gmax;
  d_bnd : forall x, In x (dm_heap s) -> dd s x <= bound s;
  d_wlk : forall x, In x (dm_heap s) -> walk g r x (dd s x);
  d_dst : forall x, isvert g x -> dd s x = -1 -> distance g r x (D x) /\ D x <= bound s;
  d_rel : forall x e, arc g x e -> dd s x = -1 -> E x e ->
            (dd s (edge g e) = -1 /\ D (edge g e) <= D x + leave g x + edlo g e) \/ (In (edge g e) (dm_heap s) /\ dd s (edge g e) <= D x + leave g x + edlo g e);
  d_root : dd s r = -1 \/ dd s r = 0;
  d_cnt : k = zcount b nnd (done s) }.

Lemma front D k s z d : dinv (fun _ _ => True) D k s -> walk g r z d -> (dd s z = -1 /\ D z <= d) \/ exists y, In y (dm_heap s) /\ dd s y <= d.
Proof.
  intros I W. induction W as [|v e d W IH A].
  - destruct (d_root _ _ _ _ I) as [H|H].
    + left. split; [exact H|]. destruct (d_dst _ _ _ _ I r Hr H) as ((_ & Q) & _). apply Q. constructor.
    + right. exists r. split; [|lia]. apply (d_heap _ _ _ _ I). split; [exact Hr|]. pose proof (bound_tot s). lia.
  - destruct (walk_vert r v d Hr W) as [Hv _]. pose proof (leave_nonneg v Hv). pose proof (gv_edlo g G v e A).
    destruct IH as [(P1 & P2)|(y & P1 & P2)]; [|right; exists y; split; [exact P1|lia]].
    destruct (d_rel _ _ _ _ I v e A P1 Logic.I) as [(Q1 & Q2)|(Q1 & Q2)]; [left; split; [exact Q1|lia]|]. right. exists (edge g e). split; [exact Q1|lia].
Qed.

(** extraction of the vertex of least distance *)
Lemma extract D k s v : dinv (fun _ _ => True) D k s -> In v (dm_heap s) -> (forall w, In w (dm_heap s) -> dd s v <= dd s w) ->
  let s1 := mkdmst (upd b (dm_dist s) v (-1)) (filter (fun w => negb (w =? v)) (dm_heap s)) in
  dinv (fun x _ => x <> v) (fun x => if x =? v then dd s v else D x) (k + 1) s1 /\ bound s1 = bound s + cost v /\ dd s1 v = -1 /\ distance g r v (dd s v).
Proof.
  intros I Iv Mv s1. destruct (proj1 (d_heap _ _ _ _ I v) Iv) as (Hv & Dv). pose proof dNN as En. assert (Ev := Hv). unfold isvert in Ev. fold b nnd in Ev. pose proof (d_len _ _ _ _ I) as Ln.
  assert (Ds : forall x, isvert g x -> dd s1 x = if v =? x then -1 else dd s x). { intros x Hx. unfold dd. cbn [s1 dm_dist]. unfold isvert in Hx. fold b nnd in Hx. rewrite at_upd by lia. reflexivity. }
  destruct (filter_out (dm_heap s) v (d_nd _ _ _ _ I)) as (F1 & F2).
  assert (Dst : distance g r v (dd s v)). { split; [now apply (d_wlk _ _ _ _ I)|]. intros d' W. destruct (front D k s v d' I W) as [(P1 & _)|(y & P1 & P2)]; [lia|]. specialize (Mv y P1). lia. }
  assert (Dn : dd s1 v = -1) by (rewrite Ds by exact Hv; rewrite Z.eqb_refl; reflexivity).
  assert (Bd : bound s1 = bound s + cost v).
  { unfold bound. rewrite (zsum_upd b nnd (fun x => if done s x then cost x else 0) (fun x => if done s1 x then cost x else 0) v); [|lia|].
    - unfold done. rewrite Dn. replace (dd s v =? -1) with false by lia. cbn. lia.
    - intros i Hi Hne. unfold done. rewrite Ds by exact Hi. replace (v =? i) with false by lia. reflexivity. }
  pose proof (cost_nonneg v Hv) as Cv. split; [|auto]. constructor.
  - cbn [s1 dm_dist]. rewrite zlen_upd. exact Ln.
  - exact F1.
  - intros x. cbn [s1 dm_heap]. rewrite F2, (d_heap _ _ _ _ I). split.
    + intros ((Hx & Q) & Ne). split; [exact Hx|]. rewrite Ds by exact Hx. replace (v =? x) with false by lia. exact Q.
    + intros (Hx & Q). rewrite Ds in Q by exact Hx. destruct (v =? x) eqn:Ex; [lia|]. split; [auto|lia].
  - intros x Hx. rewrite Ds by exact Hx. destruct (v =? x); [now left|]. now apply (d_rng _ _ _ _ I).
  - intros x Hx. cbn [s1 dm_heap] in Hx. apply F2 in Hx. destruct Hx as (Hx & Ne). pose proof (proj1 (proj1 (d_heap _ _ _ _ I x) Hx)) as Vx. rewrite Ds by exact Vx. replace (v =? x) with false by lia. pose proof (d_bnd _ _ _ _ I x Hx). lia.
  - intros x Hx. cbn [s1 dm_heap] in Hx. apply F2 in Hx. destruct Hx as (Hx & Ne). pose proof (proj1 (proj1 (d_heap _ _ _ _ I x) Hx)) as Vx. rewrite Ds by exact Vx. replace (v =? x) with false by lia. now apply (d_wlk _ _ _ _ I).
  - intros x Hx Q. rewrite Ds in Q by exact Hx. destruct (Z.eqb_spec x v) as [->|Ne].
    + split; [exact Dst|]. pose proof (d_bnd _ _ _ _ I v Iv). lia.
    + replace (v =? x) with false in Q by lia. destruct (d_dst _ _ _ _ I x Hx Q). split; [assumption|lia].
  - intros x e A Q Ne. pose proof (proj1 A) as Hx. pose proof (gv_end g G x e A) as Hy. rewrite Ds in Q by exact Hx. replace (v =? x) with false in Q by lia. replace (x =? v) with false by lia.
    rewrite (Ds _ Hy). cbn [s1 dm_heap]. rewrite F2. destruct (d_rel _ _ _ _ I x e A Q Logic.I) as [(Q1 & Q2)|(Q1 & Q2)].
    + left. destruct (Z.eqb_spec v (edge g e)) as [Ey|Ny]; [rewrite <- Ey in Q1; lia|]. replace (edge g e =? v) with false by lia. auto.
    + destruct (Z.eqb_spec v (edge g e)) as [Ey|Ny]; [left; rewrite <- Ey, Z.eqb_refl; rewrite <- Ey in Q2; split; [reflexivity|exact Q2]|right]. auto.
  - rewrite Ds by exact Hr. destruct (v =? r); [now left|]. apply I.
  - rewrite (d_cnt _ _ _ _ I). unfold zcount. rewrite (zsum_upd b nnd (fun i => b2z (done s i)) (fun i => b2z (done s1 i)) v); [|lia|].
    + unfold done. rewrite Dn. replace (dd s v =? -1) with false by lia. cbn. lia.
    + intros i Hi Hne. unfold done. rewrite Ds by exact Hi. replace (v =? i) with false by lia. reflexivity.
Qed.

(** an arc is followed *)
Lemma relax E D k s v e : dinv E D k s -> arc g v e -> dd s v = -1 -> D v + cost v <= bound s -> (forall x f, E x f -> x = v -> f < e) ->
  exists s', diamArc gmax g (D v + leave g v) e s = Ok s' /\ dinv (fun x f => E x f \/ (x = v /\ f = e)) D k s' /\ bound s' = bound s /\ dd s' v = -1 /\ forall x, isvert g x -> done s' x = done s x.
Proof.
  intros I A Dv Bv _. set (w := edge g e). pose proof (gv_end g G v e A) as Hw. fold w in Hw. pose proof (proj1 A) as Hv. pose proof (bound_tot s) as Bt. pose proof dNN as En. pose proof (d_len _ _ _ _ I) as Ln.
  assert (Ew := Hw). unfold isvert in Ew. fold b nnd in Ew. pose proof (cost_arc v e A) as Ca. pose proof (leave_nonneg v Hv) as Lv. pose proof (gv_edlo g G v e A) as Le.
  destruct (d_dst _ _ _ _ I v Hv Dv) as ((Wv & _) & _). destruct (walk_vert r v _ Hr Wv) as [_ Dv0]. pose proof (wk_arc g r v e _ Wv A) as Ww. fold w in Ww.
  unfold diamArc. rewrite (redge_ok g v e R A). cbn [bind]. fold w. assert (El : (match edlotab g with None => Ok 1 | Some t => rd (baseval g) t e end) = Ok (edlo g e)).
  { unfold edlo. pose proof (gr_edlo _ R) as G1. destruct (edlotab g) as [t|]; [|reflexivity]. apply rd_ok. eapply G1; eauto. }
  rewrite El. cbn [bind]. set (dt := D v + leave g v + edlo g e) in *. unfold gadd. fold dt. assert (Hdt : 0 <= dt <= bound s) by lia. replace ((- gmax - 1 <=? dt) && (dt <=? gmax)) with true by lia. cbn [bind].
  fold b. rewrite rd_ok by lia. cbn [bind]. fold (dd s w). destruct (dt <? dd s w) eqn:Ed.
  - rewrite wr_ok by lia. cbn [bind]. set (hp := if dd s w =? gmax then w :: dm_heap s else dm_heap s). eexists. split; [reflexivity|]. set (s' := mkdmst _ hp).
    assert (Ds : forall x, isvert g x -> dd s' x = if w =? x then dt else dd s x). { intros x Hx. unfold dd. cbn [s' dm_dist]. unfold isvert in Hx. fold b nnd in Hx. rewrite at_upd by lia. reflexivity. }
    assert (Dn : forall x, isvert g x -> done s' x = done s x). { intros x Hx. unfold done. rewrite Ds by exact Hx. destruct (Z.eqb_spec w x) as [->|]; [|reflexivity]. lia. }
    assert (Bd : bound s' = bound s) by (unfold bound; apply zsum_ext; intros x Hx; rewrite Dn by exact Hx; reflexivity).
    assert (Hh : forall x, In x hp <-> x = w \/ In x (dm_heap s)).
    { intros x. unfold hp. destruct (dd s w =? gmax) eqn:Eg; [split; [intros [<-|Q]; auto|intros [->|Q]; [now left|now right]]|]. split; [auto|]. intros [->|Q]; [|exact Q]. apply (d_heap _ _ _ _ I). split; [exact Hw|]. pose proof (d_rng _ _ _ _ I w Hw). lia. }
    assert (Nv : w <> v) by (intros Q; rewrite Q in Ed; lia). split; [|split; [exact Bd|split; [rewrite Ds by exact Hv; replace (w =? v) with false by lia; exact Dv|exact Dn]]]. constructor.
    + cbn [s' dm_dist]. rewrite zlen_upd. exact Ln.
    + cbn [s' dm_heap]. unfold hp. destruct (dd s w =? gmax) eqn:Eg; [|apply I]. constructor; [|apply I]. intros Q. apply (d_heap _ _ _ _ I) in Q. lia.
    + intros x. cbn [s' dm_heap]. rewrite Hh, (d_heap _ _ _ _ I). split.
      * intros [->|(Hx & Q)]; [split; [exact Hw|]; rewrite Ds, Z.eqb_refl by exact Hw; lia|]. split; [exact Hx|]. rewrite Ds by exact Hx. destruct (w =? x); lia.
      * intros (Hx & Q). rewrite Ds in Q by exact Hx. destruct (Z.eqb_spec w x) as [->|]; [now left|right; auto].
    + intros x Hx. rewrite Ds by exact Hx. destruct (w =? x); [right; lia|]. now apply (d_rng _ _ _ _ I).
    + intros x Hx. cbn [s' dm_heap] in Hx. apply Hh in Hx. rewrite Bd. destruct Hx as [->|Hx]; [rewrite Ds, Z.eqb_refl by exact Hw; lia|]. rewrite Ds by (apply (d_heap _ _ _ _ I); exact Hx). destruct (w =? x); [lia|]. now apply (d_bnd _ _ _ _ I).
    + intros x Hx. cbn [s' dm_heap] in Hx. apply Hh in Hx. destruct Hx as [->|Hx]; [rewrite Ds, Z.eqb_refl by exact Hw; exact Ww|]. rewrite Ds by (apply (d_heap _ _ _ _ I); exact Hx). destruct (Z.eqb_spec w x) as [<-|]; [exact Ww|]. now apply (d_wlk _ _ _ _ I).
    + intros x Hx Q. rewrite Ds in Q by exact Hx. rewrite Bd. destruct (w =? x); [lia|]. now apply (d_dst _ _ _ _ I).
    + intros x f B Q Ef. pose proof (proj1 B) as Hx. pose proof (gv_end g G x f B) as Hy. rewrite Ds in Q by exact Hx. destruct (w =? x) eqn:Ex; [lia|]. rewrite (Ds _ Hy). cbn [s' dm_heap]. rewrite Hh.
      destruct Ef as [Ef|(-> & ->)]; [|right; fold w; rewrite Z.eqb_refl; split; [now left|unfold dt; lia]]. destruct (d_rel _ _ _ _ I x f B Q Ef) as [(Q1 & Q2)|(Q1 & Q2)].
      * left. destruct (Z.eqb_spec w (edge g f)) as [Ey|]; [rewrite <- Ey in Q1; lia|]. auto.
      * right. split; [now right|]. destruct (Z.eqb_spec w (edge g f)) as [Ey|]; [rewrite <- Ey in Q2; lia|exact Q2].
    + rewrite Ds by exact Hr. destruct (Z.eqb_spec w r) as [Ey|]; [|apply I]. pose proof (d_root _ _ _ _ I) as Q. rewrite <- Ey in Q. lia.
    + rewrite (d_cnt _ _ _ _ I). unfold zcount. apply zsum_ext. intros x Hx. rewrite Dn by exact Hx. reflexivity.
  - exists s. split; [reflexivity|]. split; [|auto]. destruct I. constructor; auto. intros x f B Q [Ef|(-> & ->)]; [now apply d_rel0|]. fold w. destruct (d_rng0 w Hw) as [Qw|Qw].
    + left. split; [exact Qw|]. destruct (d_dst0 w Hw Qw) as ((_ & Q2) & _). apply Q2. exact Ww.
    + right. assert (dd s w < gmax) by lia. split; [apply d_heap0; split; [exact Hw|lia]|]. fold dt. lia.
Qed.

Lemma relax_all D k s v : dinv (fun x _ => x <> v) D k s -> isvert g v -> dd s v = -1 -> D v + cost v <= bound s ->
  wp (for_ (vert g v) (vend g v) (diamArc gmax g (D v + leave g v)) s) (fun s' => dinv (fun _ _ => True) D k s' /\ forall x, isvert g x -> done s' x = done s x) noerr.
Proof.
  intros I Hv Dv Bv. pose proof (gv_range g G v Hv) as Rg.
  apply wp_for with (I := fun e s' => dinv (fun x f => x <> v \/ f < e) D k s' /\ dd s' v = -1 /\ bound s' = bound s /\ forall x, isvert g x -> done s' x = done s x).
  - lia.
  - split; [|auto]. destruct I. constructor; auto. intros x f A Q [Ne|Lt]; [now apply d_rel0|]. destruct (Z.eq_dec x v) as [->|Ne]; [destruct A; lia|now apply d_rel0].
  - intros e s1 He (I1 & D1 & B1 & N1). destruct (relax _ D k s1 v e I1 (conj Hv He) D1 ltac:(lia)) as (s2 & E2 & I2 & B2 & D2 & N2); [intros x f [Q|Q] ->; [contradiction|exact Q]|].
    rewrite E2. cbn [wp]. split; [|split; [exact D2|split; [lia|intros x Hx; rewrite N2 by exact Hx; now apply N1]]]. destruct I2. constructor; auto. intros x f A Q Ef. apply d_rel0; auto. destruct Ef as [Ne|Lt]; [left; now left|]. destruct (Z.eq_dec f e) as [->|]; [|left; right; lia]. destruct (Z.eq_dec x v) as [->|]; [right; auto|left; now left].
  - intros s1 (I1 & _ & _ & N1). split; [|exact N1]. destruct I1. constructor; auto. intros x f A Q _. apply d_rel0; auto. destruct (Z.eq_dec x v) as [->|]; [right; destruct A; lia|now left].
Qed.

(** outcome of a search, with largest distance [dm0] and its vertex [rt0] before *)
Definition found (dm0 rt0 : Z) (res : Z * Z * Z) : Prop := let '(k, dm, rt) := res in
  exists (A : Z -> bool) D, (forall x, isvert g x -> A x = true -> distance g r x (D x) /\ D x <= dm) /\ (forall x d, walk g r x d -> A x = true) /\
    k = zcount b nnd A /\ dm0 <= dm <= tot /\ (dm = dm0 /\ rt = rt0 \/ dm0 < dm /\ isvert g rt /\ distance g r rt dm).

Lemma search_ok pick D s dm0 rt0 : least b pick -> dinv (fun _ _ => True) D 0 s -> 0 <= dm0 <= tot ->
  wp (diamSearch gmax pick g (s, 0, dm0, rt0)) (found dm0 rt0) noerr.
Proof.
  intros Lp I0 Hd0. unfold diamSearch. cbv zeta.
  apply wp_loop with (I := fun '(s, k, dm, rt) => exists D, dinv (fun _ _ => True) D k s /\ (forall x, isvert g x -> dd s x = -1 -> D x <= dm) /\ dm0 <= dm <= tot /\ (dm = dm0 /\ rt = rt0 \/ dm0 < dm /\ isvert g rt /\ distance g r rt dm)) (m := fun '(s, k, dm, rt) => n - k).
  { exists D. split; [exact I0|]. split; [|split; [lia|left; auto]]. intros x Hx Q. pose proof (d_cnt _ _ _ _ I0) as C. symmetry in C. rewrite zcount_0 in C. specialize (C x Hx). unfold done in C. lia. }
  { fold n. lia. }
  clear D s I0. intros (((s, k), dm), rt) (D & I & DM & Hd & RT). destruct (dm_heap s) as [|h0 hl] eqn:Eh.
  - cbn [wp]. exists (done s), D. split; [|split; [|split; [apply I|split; [exact Hd|exact RT]]]].
    + intros x Hx Q. unfold done in Q. split; [apply (d_dst _ _ _ _ I x Hx); lia|apply DM; [exact Hx|lia]].
    + intros x d W. destruct (front D k s x d I W) as [(Q & _)|(y & Q & _)]; [unfold done; lia|rewrite Eh in Q; destruct Q].
  - assert (Ne : dm_heap s <> []) by (rewrite Eh; discriminate). rewrite <- ?Eh. clear h0 hl Eh.
    destruct (Lp k (dm_dist s) (dm_heap s) Ne) as (Iv & Mv). set (v := pick k (dm_dist s) (dm_heap s)) in *. destruct (proj1 (d_heap _ _ _ _ I v) Iv) as (Hv & Dv). pose proof dNN as En. assert (Ev := Hv). unfold isvert in Ev. fold b nnd in Ev. pose proof (d_len _ _ _ _ I) as Ln.
    destruct (extract D k s v I Iv Mv) as (I1 & B1 & D1 & Dst). cbv zeta in *. fold b. rewrite rd_ok by lia. cbn [bind]. rewrite wr_ok by lia. cbn [bind]. fold (dd s v).
    pose proof (d_bnd _ _ _ _ I v Iv) as Bv. pose proof (bound_tot s) as Bt. set (s1 := mkdmst _ _) in *. set (D' := fun x => if x =? v then dd s v else D x) in *. pose proof (bound_tot s1) as Bt1.
    assert (Dv' : D' v = dd s v) by (unfold D'; rewrite Z.eqb_refl; reflexivity).
    set (q := if dm <? dd s v then (dd s v, v) else (dm, rt)). assert (Hq : exists dm' rt', q = (dm', rt') /\ dm <= dm' <= tot /\ dd s v <= dm' /\ (dm' = dm0 /\ rt' = rt0 \/ dm0 < dm' /\ isvert g rt' /\ distance g r rt' dm')).
    { unfold q. destruct (dm <? dd s v) eqn:Ed; [exists (dd s v), v|exists dm, rt]; (split; [reflexivity|]); (split; [lia|]); (split; [lia|]); [right; split; [lia|auto]|exact RT]. }
    destruct Hq as (dm' & rt' & -> & Hd' & Hv' & RT').
    pose proof (cost_nonneg v Hv) as Cv. assert (Lc : 0 <= leave g v <= cost v). { pose proof (leave_nonneg v Hv). unfold cost. assert (0 <= zsum (vert g v) (vend g v) (edlo g)); [|lia]. apply zsum_nonneg. intros e He. apply (gv_edlo g G v). split; assumption. }
    assert (EL : (match velotab g with None => Ok (dd s v) | Some t => do l <- rd b t v; gadd gmax (dd s v) l end) = Ok (D' v + leave g v)).
    { rewrite Dv'. unfold leave in *. destruct (velotab g) as [t|] eqn:Et; [|f_equal; lia]. pose proof (gr_velo _ R t Et) as Zt. fold n in Zt. rewrite rd_ok by lia. cbn [bind]. unfold gadd. unfold velo in *. rewrite Et in *. fold b in Lc. fold b. replace ((- gmax - 1 <=? dd s v + at_ b t v) && (dd s v + at_ b t v <=? gmax)) with true by lia. reflexivity. }
    rewrite EL. cbn [bind]. rewrite (rvert_ok g v R G Hv). cbn [bind]. rewrite (rvend_ok g v R G Hv). cbn [bind].
    apply wp_bind. eapply wp_mono; [apply (relax_all D' (k + 1) s1 v I1 Hv D1); lia|]. intros s2 (I2 & N2). cbn [wp]. split.
    + exists D'. split; [exact I2|]. split; [|split; [lia|exact RT']]. intros x Hx Q. unfold D'. destruct (Z.eqb_spec x v) as [->|Nx]; [lia|].
      assert (Q1 : done s1 x = true) by (rewrite <- N2 by exact Hx; unfold done; lia). unfold done, dd in Q1. cbn [s1 dm_dist] in Q1. unfold isvert in Hx. fold b nnd in Hx. rewrite at_upd in Q1 by lia. replace (v =? x) with false in Q1 by lia. fold (dd s x) in Q1. specialize (DM x Hx ltac:(lia)). lia.
    + pose proof (d_cnt _ _ _ _ I2) as C2. assert (zcount b nnd (done s2) <= n); [|lia]. unfold zcount. replace n with ((nnd - b) * 1) by lia. rewrite <- zsum_const by lia. apply zsum_le. intros i _. destruct (done s2 i); cbn; lia.
Qed.
End Search.

Definition reach (u v : Z) : Prop := exists d, walk g u v d.
Lemma reach_trans u v w : reach u v -> reach v w -> reach u w.
Proof. intros [d W] [d' W']. revert d W. induction W' as [|x e d' W' IH A]; intros d W; [now exists d|]. destruct (IH d W) as [d2 W2]. eexists. apply wk_arc; eassumption. Qed.
Lemma reach_sym u v : isvert g u -> reach u v -> reach v u.
Proof.
  intros Hu [d W]. induction W as [|x e d W IH A]; [exists 0; constructor|]. destruct (gv_sym g G x e A) as (e' & A' & E' & _).
  apply (reach_trans (edge g e) x u); [|exact IH]. pose proof (wk_arc g (edge g e) (edge g e) e' 0 (wk_here _ _) A') as Q. rewrite E' in Q. eexists. exact Q.
Qed.

Lemma start_ok r : isvert g r -> exists t, wr b (repeat gmax (Z.to_nat n)) r 0 = Ok t /\ dinv r (fun _ _ => True) (fun _ => 0) 0 (mkdmst t [r]).
Proof.
  intros Hr. pose proof dNN as En. pose proof (bound_tot (mkdmst [] [])) as Bt. assert (Er := Hr). unfold isvert in Er. fold b nnd in Er. rewrite wr_ok by (rewrite zlen_repeat; lia). eexists. split; [reflexivity|]. set (s := mkdmst _ _).
  assert (Ds : forall x, isvert g x -> dd s x = if r =? x then 0 else gmax). { intros x Hx. unfold dd. cbn [s dm_dist]. unfold isvert in Hx. fold b nnd in Hx. rewrite at_upd by (rewrite ?zlen_repeat; lia). destruct (r =? x); [reflexivity|]. apply at_repeat. lia. }
  assert (Dn : forall x, isvert g x -> done s x = false). { intros x Hx. unfold done. rewrite Ds by exact Hx. destruct (r =? x); lia. }
  pose proof (bound_tot s) as Bs. constructor.
  - cbn [s dm_dist]. rewrite zlen_upd, zlen_repeat. lia.
  - cbn. repeat constructor. intros [].
  - intros x. cbn [s dm_heap]. split.
    + intros [<-|[]]. split; [exact Hr|]. rewrite Ds, Z.eqb_refl by exact Hr. lia.
    + intros (Hx & Q). rewrite Ds in Q by exact Hx. destruct (Z.eqb_spec r x) as [->|]; [now left|lia].
  - intros x Hx. rewrite Ds by exact Hx. destruct (r =? x); lia.
  - intros x [<-|[]]. rewrite Ds, Z.eqb_refl by exact Hr. lia.
  - intros x [<-|[]]. rewrite Ds, Z.eqb_refl by exact Hr. constructor.
  - intros x Hx Q. specialize (Dn x Hx). unfold done in Dn. lia.
  - intros x e A Q. specialize (Dn x (proj1 A)). unfold done in Dn. lia.
  - right. rewrite Ds, Z.eqb_refl by exact Hr. reflexivity.
  - symmetry. apply zcount_0. exact Dn.
Qed.

Lemma diam_ok fuel picks rn : tot < Z.of_nat fuel -> (forall i, least b (picks i)) -> 0 <= rn < n ->
  exists d, graphDiamPV fuel gmax picks rn g = Ok d /\
    ((d < gmax /\ connected g /\ exists u v, isvert g u /\ isvert g v /\ distance g u v d /\ forall w d', distance g v w d' -> d' <= d) \/ (d = gmax /\ ~ connected g)).
Proof.
  intros F Lp Hrn. pose proof dNN as En. unfold graphDiamPV. cbv zeta. fold b n. replace (n <=? 0) with false by lia.
  match goal with |- exists d, ?c = Ok d /\ @?Q d => destruct (wp_ok_inv c Q) as (d & E & P); [|exists d; split; [exact E|exact P]] end. cbn beta.
  apply wp_loop with (I := fun '(i, rt, dm) => isvert g rt /\ 0 <= dm <= tot /\ exists u, isvert g u /\ distance g u rt dm) (m := fun '(i, rt, dm) => tot - dm).
  - assert (isvert g (rn + b)) by (unfold isvert; fold b nnd; lia). pose proof (bound_tot (mkdmst [] [])). split; [assumption|]. split; [lia|]. exists (rn + b). split; [assumption|now apply dist_refl].
  - pose proof (bound_tot (mkdmst [] [])). lia.
  - intros ((i, rt), dm) (Hr & Hd & u & Hu & Du). destruct (start_ok rt Hr) as (t & Et & I). rewrite Et. cbn [bind]. apply wp_bind. eapply wp_mono; [apply (search_ok rt Hr (picks i) _ _ dm rt (Lp i) I Hd)|].
    intros ((k, dm'), rt') (A & D & P1 & P2 & P3 & P4 & P5). cbn beta iota. destruct (k =? n) eqn:Ek; cbn [negb].
    + assert (All : forall x, isvert g x -> A x = true).
      { intros x Hx. destruct (A x) eqn:Ax; [reflexivity|]. exfalso. assert (Ex := Hx). unfold isvert in Ex. fold b nnd in Ex. assert (zcount b nnd A <= n - 1); [|lia]. unfold zcount.
        rewrite (zsum_upd b nnd (fun i => if x =? i then 1 else b2z (A i)) (fun i => b2z (A i)) x); [|lia|intros j Hj Hne; replace (x =? j) with false by lia; reflexivity]. rewrite Z.eqb_refl, Ax. cbn [b2z].
        assert (zsum b nnd (fun i => if x =? i then 1 else b2z (A i)) <= n); [|lia]. replace n with ((nnd - b) * 1) by lia. rewrite <- zsum_const by lia. apply zsum_le. intros j _. destruct (x =? j); [lia|]. destruct (A j); cbn; lia. }
      destruct (dm <? dm') eqn:Ed; cbn [wp].
      * destruct P5 as [P5|(_ & P5 & P6)]; [lia|]. split; [|lia]. split; [exact P5|]. split; [lia|]. exists rt. auto.
      * destruct P5 as [(-> & ->)|P5]; [|lia]. left. split; [lia|]. split.
        { intros x y Hx Hy. apply (reach_trans x rt y); [apply reach_sym; [exact Hr|]|]; [exists (D x); apply (P1 x Hx (All x Hx))|exists (D y); apply (P1 y Hy (All y Hy))]. }
        exists u, rt. repeat (split; [assumption|]). intros w d' (W & Q). destruct (walk_vert rt w d' Hr W) as [Hw _]. destruct (P1 w Hw (All w Hw)) as ((W2 & _) & P7). specialize (Q _ W2). lia.
    + cbn [wp]. right. split; [reflexivity|]. intros C. assert (zcount b nnd A = nnd - b); [|lia]. apply zcount_all; [lia|]. intros x Hx. destruct (C rt x Hr Hx) as [d W]. apply (P2 x d W).
Qed.
End Diam.
