(** Proofs about the graphs built from meshes: the row loops. *)
From Verif Require Import Base M_Graph S_Graph P_Graph S_Color P_Vgraph P_BgraphGp M_Mesh S_Mesh P_MeshHash.

Lemma meshHashSiz_ok d : 0 <= d -> exists q, 0 <= q /\ meshHashSiz d = Ok (2 ^ q) /\ 32 <= 2 ^ q /\ d * d * 2 <= 2 ^ q.
Proof.
  intros Hd. unfold meshHashSiz. set (n := d * d * 2).
  assert (W : wp (loop (S (Z.to_nat n)) (fun s => if s <? n then Ok (inl (s * 2)) else Ok (inr s)) 32) (fun s => exists q, 0 <= q /\ s = 2 ^ q /\ 32 <= s /\ n <= s) noerr).
  { apply wp_loop with (I := fun s => exists q, 0 <= q /\ s = 2 ^ q /\ 32 <= s) (m := fun s => Z.max 0 (n - s)).
    - exists 5. repeat split; lia.
    - unfold n. nia.
    - intros s (q & Hq & E & H3). destruct (Z.ltb_spec s n); cbn [wp].
      + split; [|lia]. exists (q + 1). rewrite Z.pow_add_r by lia. lia.
      + exists q. repeat split; auto. }
  destruct (wp_ok_inv _ _ W) as (s & E & q & Hq & -> & H1 & H2). exists q. auto.
Qed.

Lemma meshEdgeAdd_spec {H} b w (st : mst H) : b <= mnx st <= mnd st -> mnd st = b + zlen (med st) -> 4 <= mnd st - b ->
  wp (meshEdgeAdd b w st) (fun st' => mhs st' = mhs st /\ mnx st' = mnx st + 1 /\ mnx st' <= mnd st' /\ mnd st' = b + zlen (med st') /\ mnd st <= mnd st' /\
    (forall i, b <= i < mnx st -> at_ b (med st') i = at_ b (med st) i) /\ at_ b (med st') (mnx st) = w) noerr.
Proof.
  intros H1 H2 H3. unfold meshEdgeAdd. destruct (Z.eqb_spec (mnx st) (mnd st)) as [E|E].
  - assert (S4 : 1 <= Z.shiftr (mnd st - b) 2) by (rewrite Z.shiftr_div_pow2 by lia; change (2 ^ 2) with 4; apply Z.div_le_lower_bound; lia).
    set (x := Z.shiftr (mnd st - b) 2) in *.
    replace (mnd st - b + x - (mnd st - b)) with x by lia.
    assert (L : zlen (med st ++ repeat 0 (Z.to_nat x)) = zlen (med st) + x) by (rewrite zlen_app, zlen_repeat; lia).
    rewrite wr_ok by lia. cbn [bind wp mhs mnx mnd med]. rewrite zlen_upd.
    split; [reflexivity|]. split; [reflexivity|]. split; [lia|]. split; [lia|]. split; [lia|]. split.
    + intros i Hi. rewrite at_upd_other by lia. apply at_app1. lia.
    + apply at_upd_same. lia.
  - rewrite wr_ok by lia. cbn [bind wp mhs mnx mnd med]. rewrite zlen_upd.
    split; [reflexivity|]. split; [reflexivity|]. split; [lia|]. split; [lia|]. split; [lia|]. split.
    + intros i Hi. rewrite at_upd_other by lia. reflexivity.
    + apply at_upd_same. lia.
Qed.

(** number of two-arc paths from [u] to [w] *)
Definition paths (g : graph) (u w : Z) : Z := zsum (vert g u) (vend g u) (fun e => mult g (edge g e) w).

Section Paths.
Context (g : graph) (V : graph_valid g).

Lemma paths_mult u w : isvert g u -> paths g u w = zsum (baseval g) (vertnnd g) (fun x => mult g u x * mult g x w).
Proof.
  intros Hu. unfold paths.
  rewrite (zsum_ext (vert g u) (vend g u) _ (fun e => zsum (baseval g) (vertnnd g) (fun x => b2z (edge g e =? x) * mult g x w))).
  - rewrite zsum_swap. apply zsum_ext. intros x Hx.
    rewrite (zsum_ext _ _ _ (fun e => mult g x w * b2z (edge g e =? x))) by (intros; lia). rewrite zsum_scale. unfold mult at 2, zcount. lia.
  - intros e He. assert (A : arc g u e) by (split; auto). pose proof (gv_end g V u e A) as HE.
    rewrite (zsum_single _ _ _ (edge g e)); [|apply HE|].
    + rewrite Z.eqb_refl. cbn [b2z]. lia.
    + intros i _ Hi. replace (edge g e =? i) with false by lia. cbn [b2z]. lia.
Qed.

Lemma paths_count u w : isvert g u -> isvert g w ->
  paths g u w = zcount (baseval g) (vertnnd g) (fun x => (mult g u x =? 1) && (mult g w x =? 1)).
Proof.
  intros Hu Hw. rewrite paths_mult by exact Hu. unfold zcount. apply zsum_ext. intros x Hx. rewrite (mult_sym g x w) by auto.
  destruct (mult_01 g u x V Hu) as [(-> & _)|(-> & _)]; destruct (mult_01 g w x V Hw) as [(-> & _)|(-> & _)]; reflexivity.
Qed.

Lemma paths_sym u w : isvert g u -> isvert g w -> paths g u w = paths g w u.
Proof. intros Hu Hw. rewrite !paths_count by assumption. unfold zcount. apply zsum_ext. intros. now rewrite andb_comm. Qed.

Lemma mult_adj u x : isvert g u -> mult g u x = 1 <-> adjacent g u x.
Proof.
  intros Hu. unfold adjacent. destruct (mult_01 g u x V Hu) as [(-> & e & A & E)|(-> & N)].
  - split; [eauto|reflexivity].
  - split; [discriminate|]. intros (e & A & E). destruct (N e A E).
Qed.

Lemma paths_list u w : isvert g u -> isvert g w -> exists l, NoDup l /\ zlen l = paths g u w /\ forall x, In x l <-> adjacent g u x /\ adjacent g w x.
Proof.
  intros Hu Hw. pose proof (gv_size g V). pose proof (gv_nnd g V).
  set (f := fun x => (mult g u x =? 1) && (mult g w x =? 1)).
  exists (filter f (zseq (baseval g) (vertnnd g - baseval g))). split; [apply NoDup_filter, NoDup_zseq|]. split.
  - rewrite paths_count by assumption. symmetry. apply zcount_filter. lia.
  - intros x. rewrite filter_In, In_zseq. unfold f. rewrite andb_true_iff, !Z.eqb_eq, !mult_adj by assumption. split; [tauto|].
    intros [A B]. split; [|tauto]. destruct A as (e & A & <-). pose proof (gv_end g V u e A) as HE. unfold isvert in HE. lia.
Qed.

Lemma mult_nonneg u x : 0 <= mult g u x. Proof. apply zcount_nonneg. Qed.

(** vertices that can be met from [u], with repetitions *)
Definition around (u : Z) : list Z :=
  flat_map (fun e => map (edge g) (zseq (vert g (edge g e)) (vend g (edge g e) - vert g (edge g e)))) (zseq (vert g u) (vend g u - vert g u)).

Lemma around_in u w : 1 <= paths g u w -> In w (around u).
Proof.
  intros Hp. unfold paths in Hp. destruct (zsum_nz _ _ _ ltac:(intros X; rewrite X in Hp; lia)) as (e & He & Ne).
  unfold around. apply in_flat_map. exists e. split; [apply In_zseq; lia|].
  unfold mult, zcount in Ne. destruct (zsum_nz _ _ _ Ne) as (e' & He' & Ne'). destruct (Z.eqb_spec (edge g e') w) as [E|]; [|cbn [b2z] in Ne'; lia].
  apply in_map_iff. exists e'. split; [exact E|]. apply In_zseq. lia.
Qed.

Lemma around_len u : isvert g u -> zlen (around u) <= degrmax g * degrmax g.
Proof.
  intros Hu. unfold around. pose proof (gv_degr g V u Hu) as Du. pose proof (gv_range g V u Hu) as Ru. pose proof (gv_degr0 g V).
  assert (G : forall l, (forall e, In e l -> arc g u e) -> zlen (flat_map (fun e => map (edge g) (zseq (vert g (edge g e)) (vend g (edge g e) - vert g (edge g e)))) l) <= zlen l * degrmax g).
  { induction l as [|e l IH]; intros Hl; [cbn [flat_map]; unfold zlen; cbn [length]; lia|]. cbn [flat_map]. rewrite zlen_app, zlen_map, zlen_cons.
    assert (A : arc g u e) by (apply Hl; now left). pose proof (gv_end g V u e A) as HE. pose proof (gv_degr g V _ HE). pose proof (gv_range g V _ HE).
    rewrite zlen_zseq by lia. specialize (IH ltac:(intros; apply Hl; now right)). lia. }
  specialize (G (zseq (vert g u) (vend g u - vert g u))). rewrite zlen_zseq in G by lia.
  specialize (G ltac:(intros e He; apply In_zseq in He; split; [exact Hu|lia])). nia.
Qed.
End Paths.

Section Rows.
Context (m : mesh) (V : mesh_valid m) (R : mesh_readable m) (bas nbr : Z).
Notation g := (mgraph m).
Notation b := (mbase m).
Definition row (u : Z) : Prop := bas <= u < bas + nbr.
Context (Hbas : b <= bas) (Hnbr : 0 <= nbr) (Hrow : forall u, row u -> isvert g u)
        (Hside : forall u e e', row u -> arc g u e -> arc g (edge g e) e' -> row (edge g e')).
Context {H : Type} (start : Z -> H -> res H) (step : Z -> Z -> mst H -> res (mst H)) (thr : Z -> Z -> Z)
        (HI : Z -> (Z -> Z) -> H -> Prop) (HS : Z -> H -> Prop).

Definition made (c : Z -> Z) (u w : Z) : Prop := w <> u /\ 1 <= c w /\ thr u w <= c w.

Record rinv (u e0 : Z) (ed0 : list Z) (c : Z -> Z) (st : mst H) : Prop := {
  ri_nx : b <= e0 <= mnx st /\ mnx st <= mnd st;
  ri_nd : mnd st = b + zlen (med st);
  ri_cap : 2 * medgenbr m <= mnd st - b;
  ri_old : forall i, b <= i < e0 -> at_ b (med st) i = at_ b ed0 i;
  ri_inj : forall i j, e0 <= i < mnx st -> e0 <= j < mnx st -> at_ b (med st) i = at_ b (med st) j -> i = j;
  ri_mem : forall w, (exists i, e0 <= i < mnx st /\ at_ b (med st) i = w - (bas - b)) <-> made c u w;
  ri_hash : HI u c (mhs st) }.

Context (HI_ext : forall u c c' hs, (forall k, c' k = c k) -> HI u c hs -> HI u c' hs)
        (start_ok : forall u hs, row u -> HS u hs -> wp (start u hs) (HI u (fun _ => 0)) noerr)
        (end_ok : forall u c hs, row u -> HI u c hs -> HS (u + 1) hs)
        (step_ok : forall u w e0 ed0 c st, row u -> row w -> rinv u e0 ed0 c st -> 4 <= 2 * medgenbr m -> (forall k, 0 <= c k <= paths g u k) -> c w < paths g u w ->
           wp (step u w st) (rinv u e0 ed0 (fun k => c k + b2z (w =? k))) noerr).

Let GV : graph_valid g := mv_graph m V.
Let GR : graph_readable g := mr_graph m R.

Lemma rinv_ext u e0 ed0 c c' st : (forall k, c' k = c k) -> rinv u e0 ed0 c st -> rinv u e0 ed0 c' st.
Proof.
  intros E [? ? ? ? ? M Hh]. constructor; auto; [|eapply HI_ext; eauto]. intros w. rewrite M. unfold made. now rewrite E.
Qed.

Lemma arc_cap u e : arc g u e -> 4 <= 2 * medgenbr m.
Proof.
  intros A. pose proof (edgenbr_even g GV) as E. change (edgenbr g) with (medgenbr m) in E.
  assert (P : 1 <= edgenbr g).
  { rewrite (gv_edgenbr g GV). destruct A as [Hu He]. 
    pose proof (zsum_le (baseval g) (vertnnd g) (fun v => b2z (v =? u)) (fun v => vend g v - vert g v)) as X.
    rewrite (zsum_single _ _ (fun v => b2z (v =? u)) u) in X; [|exact Hu|intros i _ N; replace (i =? u) with false by lia; reflexivity].
    rewrite Z.eqb_refl in X. cbn [b2z] in X. apply X. intros v Hv. pose proof (gv_range g GV v Hv). destruct (Z.eqb_spec v u) as [->|]; cbn [b2z]; lia. }
  change (edgenbr g) with (medgenbr m) in P. destruct (Z.eq_dec (medgenbr m) 1) as [E1|]; [rewrite E1 in E; discriminate|lia].
Qed.

Lemma row_spec u e0 st : row u -> mnx st = e0 -> b <= e0 <= mnd st -> mnd st = b + zlen (med st) -> 2 * medgenbr m <= mnd st - b -> HI u (fun _ => 0) (mhs st) ->
  wp (for_ (vert g u) (vend g u) (fun e st =>
      do x <- redge g e;
      do lo <- rvert g x;
      do hi <- rvend g x;
      for_ lo hi (fun e st =>
        do w <- redge g e;
        step u w st) st) st)
     (rinv u e0 (med st) (paths g u)) noerr.
Proof.
  intros Hu E0 Hnx Hnd Hcap Hh. pose proof (Hrow u Hu) as Iu. pose proof (gv_range g GV u Iu) as Ru.
  set (ed0 := med st).
  apply wp_for with (I := fun e st => exists c, (forall k, c k = zsum (vert g u) e (fun e => mult g (edge g e) k)) /\ rinv u e0 ed0 c st); [lia| | |].
  - exists (fun _ => 0). split; [intros; now rewrite zsum_nil by lia|]. constructor; try assumption; try lia.
    + reflexivity.
    + intros w. unfold made. split; [intros (i & Hi & _); lia|lia].
  - intros e st' He (c & Hc & I). assert (A : arc g u e) by (split; auto). pose proof (gv_end g GV u e A) as HE.
    rewrite (redge_ok g u e GR A). cbn [bind]. rewrite (rvert_ok g _ GR GV HE), (rvend_ok g _ GR GV HE). cbn [bind].
    pose proof (gv_range g GV _ HE) as Rx. set (x := edge g e) in *.
    apply wp_for with (I := fun e' st => exists c, (forall k, c k = zsum (vert g u) e (fun e => mult g (edge g e) k) + zcount (vert g x) e' (fun j => edge g j =? k)) /\ rinv u e0 ed0 c st).
    + lia.
    + exists c. split; [|exact I]. intros k. rewrite zcount_nil by lia. rewrite Hc. lia.
    + clear c Hc I st'. intros e' st' He' (c & Hc & I). assert (A' : arc g x e') by (split; auto).
      rewrite (redge_ok g x e' GR A'). cbn [bind].
      assert (Hle : forall k, zsum (vert g u) e (fun e => mult g (edge g e) k) + mult g x k <= paths g u k).
      { intros k. unfold paths. pose proof (zsum_mono (vert g u) (e + 1) (vend g u) (fun e => mult g (edge g e) k) ltac:(lia) ltac:(intros; apply mult_nonneg)) as X.
        rewrite zsum_snoc in X by lia. fold x in X. exact X. }
      assert (Hm : forall k, zcount (vert g x) (e' + 1) (fun j => edge g j =? k) <= mult g x k).
      { intros k. unfold mult, zcount. apply zsum_mono; [lia|]. intros; unfold b2z; destruct (_ =? _); lia. }
      eapply wp_mono; [apply (step_ok u (edge g e') e0 ed0 c st')|].
      * exact Hu.
      * eapply Hside; eauto.
      * exact I.
      * eapply arc_cap; eauto.
      * intros k. rewrite Hc. pose proof (zcount_nonneg (vert g x) e' (fun j => edge g j =? k)).
        pose proof (zsum_nonneg (vert g u) e (fun e => mult g (edge g e) k) ltac:(intros; apply mult_nonneg)).
        specialize (Hle k). specialize (Hm k). rewrite zcount_snoc in Hm by lia. unfold b2z in Hm. destruct (edge g e' =? k); lia.
      * rewrite Hc. specialize (Hle (edge g e')). specialize (Hm (edge g e')). rewrite zcount_snoc, Z.eqb_refl in Hm by lia. cbn [b2z] in Hm. lia.
      * intros st'' I'. eexists. split; [|exact I']. intros k. cbn beta. rewrite Hc. rewrite zcount_snoc by lia. lia.
    + intros st'' (c' & Hc' & I'). exists c'. split; [|exact I']. intros k. rewrite Hc', zsum_snoc by lia. reflexivity.
  - intros st' (c & Hc & I). eapply rinv_ext; [|exact I]. intros k. now rewrite Hc.
Qed.

(** the adjacency of vertex [v] of the graph that is built *)
Definition rowok (v lo hi : Z) (ed : list Z) : Prop :=
  let u := v + (bas - b) in
  b <= lo <= hi /\ (forall i j, lo <= i < hi -> lo <= j < hi -> at_ b ed i = at_ b ed j -> i = j) /\
  forall w, (exists i, lo <= i < hi /\ at_ b ed i = w - (bas - b)) <-> made (paths g u) u w.

Record rows (v : Z) (vt : list Z) (dm : Z) (st : mst H) : Prop := {
  rs_len : zlen vt = nbr + 1;
  rs_nx : b <= mnx st <= mnd st;
  rs_nd : mnd st = b + zlen (med st);
  rs_cap : 2 * medgenbr m <= mnd st - b;
  rs_hash : HS (v + (bas - b)) (mhs st);
  rs_dm : 0 <= dm;
  rs_0 : at_ b (upd b vt v (mnx st)) b = b;
  rs_row : forall v', b <= v' < v -> let vt := upd b vt v (mnx st) in
    rowok v' (at_ b vt v') (at_ b vt (v' + 1)) (med st) /\ at_ b vt (v' + 1) - at_ b vt v' <= dm /\ at_ b vt (v' + 1) <= mnx st }.

Lemma meshRows_spec vt dm st : rows b vt dm st -> wp (meshRows m bas nbr start step (vt, dm, st)) (fun '(vt, dm, st) => rows (nbr + b) vt dm st) noerr.
Proof.
  intros H0. unfold meshRows.
  apply wp_for with (I := fun v '(vt, dm, st) => rows v vt dm st).
  - lia.
  - exact H0.
  - clear vt dm st H0. intros v [[vt dm] st] Hv I. pose proof I as [L NX ND CAP HH DM Z0 RW]. set (u := v + (bas - b)) in *.
    assert (Hu : row u) by (unfold row, u; lia). pose proof (Hrow u Hu) as Iu.
    rewrite wr_ok by lia. cbn [bind]. apply wp_bind. eapply wp_mono; [apply (start_ok u (mhs st) Hu HH)|]. intros hs Hhs. cbn beta.
    rewrite (rvert_ok g _ GR GV Iu), (rvend_ok g _ GR GV Iu). cbn [bind]. apply wp_bind.
    eapply wp_mono; [apply (row_spec u (mnx st) (mkmst hs (med st) (mnd st) (mnx st)) Hu); cbn [mhs med mnd mnx]; auto; lia|].
    intros st' [A1 A2 A3 A4 A5 A6 A7]. cbn [wp med] in *. 
    set (vt1 := upd b vt v (mnx st)) in *. set (d := mnx st' - mnx st).
    assert (L1 : zlen vt1 = nbr + 1) by (unfold vt1; now rewrite zlen_upd).
    assert (C1 : at_ b vt1 v = mnx st) by (apply at_upd_same; lia).
    set (dm' := if dm <? d then d else dm). assert (Dm : dm <= dm' /\ d <= dm') by (unfold dm'; destruct (Z.ltb_spec dm d); lia).
    constructor.
    + exact L1.
    + lia.
    + exact A2.
    + exact A3.
    + replace (v + 1 + (bas - b)) with (u + 1) by (unfold u; lia). eapply end_ok; eauto.
    + lia.
    + rewrite at_upd_other by lia. exact Z0.
    + intros v' Hv'. cbv zeta. rewrite (at_upd_other b vt1 (v + 1) v') by lia. destruct (Z.eq_dec v' v) as [->|N].
      * rewrite at_upd_same by lia. rewrite C1. split; [|split; [unfold d in *; lia|lia]]. unfold rowok. fold u. split; [lia|]. split; [exact A5|exact A6].
      * rewrite at_upd_other by lia. destruct (RW v' ltac:(lia)) as (B1 & B2 & B3). fold vt1 in B1, B2, B3. split; [|split; [lia|lia]].
        destruct B1 as (C2 & C3 & C4). unfold rowok. split; [exact C2|]. split.
        -- intros i j Hi Hj. rewrite !A4 by lia. now apply C3.
        -- intros w. rewrite <- C4. split; intros (i & Hi & Ei); exists i; (split; [exact Hi|]); [rewrite <- A4 by lia|rewrite A4 by lia]; exact Ei.
  - intros [[vt' dm'] st'] I. exact I.
Qed.

(** the graph that is built *)
Context (thr_sym : forall u w, row u -> row w -> thr u w = thr w u).

Lemma rows_graph vt dm st velo vsum : rows (nbr + b) vt dm st ->
  (forall t, velo = Some t -> nbr <= zlen t) ->
  let gr := mkgraph b nbr (nbr + b) (upd b vt (nbr + b) (mnx st)) None velo vsum None None (mnx st - b) (med st) None (mnx st - b) dm in
  (forall v, isvert gr v -> 0 <= S_Graph.velo gr v) -> vsum = zsum b (nbr + b) (S_Graph.velo gr) ->
  graph_valid gr /\ graph_readable gr /\
  forall v w, adjacent gr v w <-> isvert gr v /\ isvert gr w /\ made (paths g (v + (bas - b))) (v + (bas - b)) (w + (bas - b)).
Proof using V Hnbr Hrow Hside thr_sym.
  clear HI_ext start_ok end_ok step_ok HI start step. intros [L NX ND CAP HH DM Z0 RW] HL gr Hv0 Hvs. set (vt1 := upd b vt (nbr + b) (mnx st)) in *.
  assert (L1 : zlen vt1 = nbr + 1) by (unfold vt1; now rewrite zlen_upd).
  assert (C1 : at_ b vt1 (nbr + b) = mnx st) by (apply at_upd_same; lia).
  assert (Ev : forall v, vert gr v = at_ b vt1 v) by reflexivity.
  assert (Ed : forall v, vend gr v = at_ b vt1 (v + 1)) by reflexivity.
  assert (Ee : forall e, edge gr e = at_ b (med st) e) by reflexivity.
  assert (Iv : forall v, isvert gr v <-> b <= v < nbr + b) by reflexivity.
  assert (AD : forall v w, adjacent gr v w <-> isvert gr v /\ isvert gr w /\ made (paths g (v + (bas - b))) (v + (bas - b)) (w + (bas - b))).
  { intros v w. split.
    - intros (e & [A B] & E). pose proof A as A0. rewrite Iv in A0. destruct (RW v A0) as ((_ & _ & M) & _ & _). fold vt1 in M.
      assert (X : made (paths g (v + (bas - b))) (v + (bas - b)) (w + (bas - b))) by (apply M; exists e; split; [rewrite Ev, Ed in B; exact B|rewrite <- Ee, E; lia]).
      split; [exact A|]. split; [|exact X]. destruct X as (_ & X & _).
      pose proof (around_in g _ _ X) as Y. unfold around in Y. apply in_flat_map in Y. destruct Y as (e1 & Y1 & Y2). apply In_zseq in Y1.
      apply in_map_iff in Y2. destruct Y2 as (e2 & Y2 & Y3). apply In_zseq in Y3.
      assert (Hr : row (v + (bas - b))) by (unfold row; lia). pose proof (Hrow _ Hr) as Ir.
      assert (A1 : arc g (v + (bas - b)) e1) by (split; [exact Ir|lia]). pose proof (gv_end g GV _ _ A1) as HE.
      assert (A2 : arc g (edge g e1) e2) by (split; [exact HE|lia]). pose proof (Hside _ _ _ Hr A1 A2) as Z1. rewrite Y2 in Z1. unfold row in Z1. rewrite Iv. lia.
    - intros (A & B & M). pose proof A as A0. rewrite Iv in A0. destruct (RW v A0) as ((_ & _ & M') & _ & _). fold vt1 in M'.
      apply M' in M. destruct M as (e & He & E). exists e. split; [split; [exact A|rewrite Ev, Ed; exact He]|rewrite Ee, E; lia]. }
  assert (RG : forall v, isvert gr v -> b <= at_ b vt1 v <= at_ b vt1 (v + 1) /\ at_ b vt1 (v + 1) <= mnx st /\ at_ b vt1 (v + 1) - at_ b vt1 v <= dm).
  { intros v A. rewrite Iv in A. destruct (RW v A) as ((M & _ & _) & X & Y). fold vt1 in M, X, Y. lia. }
  assert (TEL : forall n, b <= n <= nbr + b -> zsum b n (fun v => vend gr v - vert gr v) = at_ b vt1 n - b).
  { intros n [Hn Hn2]. revert n Hn Hn2. apply (zrange_ind (fun n => n <= nbr + b -> zsum b n (fun v => vend gr v - vert gr v) = at_ b vt1 n - b)).
    - intros _. rewrite zsum_nil by lia. fold vt1 in Z0. lia.
    - intros n Hn IH Hn2. rewrite zsum_snoc, IH by lia. rewrite Ev, Ed. lia. }
  assert (SYM : forall v w, adjacent gr v w -> adjacent gr w v).
  { intros v w A. apply AD in A. destruct A as (A & B & N & P1 & P2). apply AD. split; [exact B|]. split; [exact A|].
    assert (R1 : row (v + (bas - b))) by (rewrite Iv in A; unfold row; lia). assert (R2 : row (w + (bas - b))) by (rewrite Iv in B; unfold row; lia).
    split; [lia|]. rewrite (paths_sym g GV) by (apply Hrow; assumption). rewrite (thr_sym _ _ R2 R1). auto. }
  split; [|split; [|exact AD]].
  - constructor.
    + exact Hnbr.
    + change (nbr + b = b + nbr). lia.
    + intros v A. destruct (RG v A). rewrite Ev, Ed. change (baseval gr) with b. lia.
    + intros v e A. assert (X : adjacent gr v (edge gr e)) by (exists e; auto). apply AD in X. tauto.
    + intros v e A E. assert (X : adjacent gr v v) by (exists e; auto). apply AD in X. destruct X as (_ & _ & X & _). lia.
    + intros v e e' [A B] [_ B'] E. rewrite Iv in A. destruct (RW v A) as ((_ & M & _) & _ & _). fold vt1 in M. rewrite Ev, Ed in B, B'. rewrite !Ee in E. now apply M.
    + intros v e A. assert (X : adjacent gr v (edge gr e)) by (exists e; auto). apply SYM in X. destruct X as (e' & A' & E'). exists e'. split; [exact A'|]. split; [exact E'|reflexivity].
    + change (edgenbr gr) with (mnx st - b). change (baseval gr) with b. change (vertnnd gr) with (nbr + b). rewrite TEL by lia. lia.
    + exact Hv0.
    + exact Hvs.
    + intros; change (edlo gr e) with 1; lia.
    + change (edlosum gr) with (mnx st - b). change (baseval gr) with b. change (vertnnd gr) with (nbr + b).
      rewrite (zsum_ext b (nbr + b) _ (fun v => vend gr v - vert gr v)); [rewrite TEL by lia; lia|].
      intros v Hv. destruct (RG v Hv) as (X & _). rewrite (zsum_ext _ _ _ (fun _ => 1)) by reflexivity. rewrite zsum_const by (rewrite Ev, Ed; lia). lia.
    + exact DM.
    + intros v A. rewrite Ev, Ed. destruct (RG v A). tauto.
  - constructor.
    + change (nbr + b2z (0 <? nbr) <= zlen vt1). rewrite L1. unfold b2z. destruct (_ <? _); lia.
    + discriminate.
    + exact HL.
    + intros v e [A B]. destruct (RG v A). change (b <= e < b + zlen (med st)). rewrite Ev, Ed in B. lia.
    + discriminate.
Qed.
End Rows.
