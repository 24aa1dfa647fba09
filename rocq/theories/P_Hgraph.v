(** Proofs about halo-induced subgraphs. *)
From Verif Require Import Base M_Graph S_Graph S_Induce M_Hgraph S_Hgraph P_GraphList P_Induce.

Definition ends (g : graph) (v : Z) : list Z := map fst (nbr g v).
Lemma zlen_ends g v : vert g v <= vend g v -> zlen (ends g v) = vend g v - vert g v.
Proof. intros. unfold ends. now rewrite zlen_map, zlen_nbr. Qed.
Lemma at_ends g v k : 0 <= k < vend g v - vert g v -> at_ 0 (ends g v) k = edge g (vert g v + k).
Proof.
  intros Hk. unfold ends. assert (L : zlen (nbr g v) = vend g v - vert g v) by (apply zlen_nbr; lia).
  rewrite at_map by (rewrite L; lia). now rewrite at_nbr by lia.
Qed.
Lemma In_ends g v w : In w (ends g v) <-> exists e, vert g v <= e < vend g v /\ edge g e = w.
Proof.
  unfold ends. rewrite in_map_iff. split.
  - intros ([w' l] & <- & HI). apply In_nbr in HI as (e & He & Ee & _). eauto.
  - intros (e & He & <-). exists (edge g e, edlo g e). split; auto. apply In_nbr. eauto.
Qed.

Lemma selected_in l w : selected l w = true <-> In w l.
Proof.
  unfold selected. destruct (posn l w) eqn:E.
  - apply posn_some in E as [E <-]. split; auto. intros _. apply at_In. lia.
  - apply posn_none in E. split; [discriminate|tauto].
Qed.
Lemma selected_nin l w : selected l w = false <-> ~ In w l.
Proof. rewrite <- selected_in. destruct (selected l w); split; congruence. Qed.

Lemma renum_in b l w : In w l -> exists k, 0 <= k < zlen l /\ renum b l w = b + k /\ at_ 0 l k = w /\ posn l w = Some k.
Proof.
  intros HI. unfold renum. destruct (posn l w) as [k|] eqn:E.
  - apply posn_some in E as E'. exists k. tauto.
  - apply posn_none in E. tauto.
Qed.
Lemma renum_nin b l w : ~ In w l -> renum b l w = -1.
Proof. intros HI. unfold renum. now rewrite (proj2 (posn_none l w) HI). Qed.
Lemma renum_ext b l l' w : In w l -> renum b (l ++ l') w = renum b l w.
Proof.
  intros HI. unfold renum. rewrite posn_app. destruct (posn l w) eqn:E; auto. apply posn_none in E. tauto.
Qed.
Lemma renum_sel b l hl w : In w (l ++ hl) -> 0 <= b ->
  (zlen l + b <=? renum b (l ++ hl) w) = negb (selected l w).
Proof.
  intros HI Hb. unfold renum, selected. rewrite posn_app. destruct (posn l w) eqn:E.
  - apply posn_some in E. cbn [negb]. apply Z.leb_gt. lia.
  - destruct (posn hl w) eqn:E'; [apply posn_some in E'; cbn [negb]; apply Z.leb_le; lia|].
    exfalso. apply posn_none in E, E'. apply in_app_or in HI. tauto.
Qed.

Section Main.
Context (g : graph) (l H : list Z) (hn : Z).
Context (V : graph_valid g) (R : graph_readable g) (B0 : 0 <= baseval g) (NE : edlotab g = None).
Context (ND : NoDup l) (HL : forall w, In w l -> isvert g w).
Context (HH : forall v w, In v l -> In w (ends g v) -> ~ In w l -> In w H) (HN : zlen H <= hn).
Let b := baseval g.
Let n := zlen l.

Record idxOk (hl vn ix : list Z) (fn : Z) : Prop := {
  k_vn : zlen vn = n + hn;
  k_ix : zlen ix = vertnbr g;
  k_nd : NoDup (l ++ hl);
  k_from : forall w, In w hl -> exists v, In v l /\ In w (ends g v);
  k_vnat : forall k, 0 <= k < zlen (l ++ hl) -> at_ 0 vn k = at_ 0 (l ++ hl) k;
  k_ixat : forall w, isvert g w -> at_ b ix w = renum b (l ++ hl) w;
  k_fn : fn = b + zlen (l ++ hl) }.

Lemma ends_vert v w : In v l -> In w (ends g v) -> isvert g w.
Proof.
  intros Hv Hw. apply In_ends in Hw as (e & He & <-). apply (gv_end g V v e). split; auto.
Qed.

Lemma nin_app hl w : NoDup (l ++ hl) -> In w hl -> ~ In w l.
Proof.
  intros N Hw Hl. apply in_split in Hl as (l1 & l2 & ->). rewrite <- app_assoc in N. cbn [app] in N.
  apply NoDup_remove_2 in N. apply N. apply in_or_app. right. apply in_or_app. auto.
Qed.

Lemma hl_bound hl : NoDup (l ++ hl) -> (forall w, In w hl -> exists v, In v l /\ In w (ends g v)) -> zlen hl <= hn.
Proof.
  intros N F. enough (zlen hl <= zlen H) by lia. unfold zlen. apply Nat2Z.inj_le. apply NoDup_incl_length.
  - clear -N. induction l; auto. inversion N; auto.
  - intros w Hw. destruct (F w Hw) as (v & Hv & Hw'). apply (HH v w); auto. apply (nin_app hl); auto.
Qed.

Lemma NoDup_snoc {A} (s : list A) x : NoDup s -> ~ In x s -> NoDup (s ++ [x]).
Proof.
  intros N X. apply NoDup_rev in N. rewrite <- (rev_involutive (s ++ [x])). apply NoDup_rev.
  rewrite rev_app_distr. cbn. constructor; auto. now rewrite <- in_rev.
Qed.

Lemma hindArc_spec hl vn ix ed fn en hd v e : In v l -> arc g v e -> idxOk hl vn ix fn ->
  b <= en -> en < hd -> hd <= b + zlen ed ->
  let w := edge g e in
  exists hl' vn' ix' fn', 
    hindArc g (n + b) e (vn, ix, ed, fn, en, hd) =
      Ok (vn', ix', upd b ed (if selected l w then en else hd - 1) (renum b (l ++ hl ++ hl') w), fn',
          if selected l w then en + 1 else en, if selected l w then hd else hd - 1) /\
    idxOk (hl ++ hl') vn' ix' fn' /\ In w (l ++ hl ++ hl').
Proof.
  intros Hv A K He1 He2 He3 w. unfold hindArc. fold b.
  pose proof (gr_edge g R v e A) as Re. unfold redge. rewrite rd_ok by (fold b in Re; fold b; lia). cbn [bind].
  change (at_ (baseval g) (edgetab g) e) with w.
  assert (Hw : In w (ends g v)) by (apply In_ends; exists e; split; [apply A|auto]).
  pose proof (ends_vert v w Hv Hw) as Iw. pose proof (gv_nnd g V) as Nn. pose proof Iw as Iw'. unfold isvert in Iw'. fold b in Iw', Nn.
  rewrite rd_ok by (rewrite (k_ix _ _ _ _ K); lia). cbn [bind]. rewrite (k_ixat _ _ _ _ K) by auto.
  destruct (in_dec Z.eq_dec w (l ++ hl)) as [Hin|Hnin].
  - exists [], vn, ix, fn. rewrite !app_nil_r.
    destruct (renum_in b _ w Hin) as (k & Hk & Ek & _). 
    destruct (Z.eqb_spec (renum b (l ++ hl) w) (-1)) as [C|_]; [fold b in B0; lia|]. cbn [bind].
    unfold n. rewrite renum_sel by auto.
    destruct (selected l w); cbn [negb]; rewrite wr_ok by lia; cbn [bind]; split; auto.
  - rewrite (renum_nin b _ w Hnin). cbn [Z.eqb Pos.eqb]. 
    assert (F' : forall x, In x (hl ++ [w]) -> exists v, In v l /\ In x (ends g v)).
    { intros x Hx. apply in_app_or in Hx as [Hx|[->|[]]]; [apply (k_from _ _ _ _ K); auto|exists v; auto]. }
    assert (N' : NoDup (l ++ hl ++ [w])). { rewrite app_assoc. apply NoDup_snoc; auto. apply (k_nd _ _ _ _ K). }
    pose proof (hl_bound _ N' F') as Hb. rewrite zlen_snoc in Hb. pose proof (zlen_nonneg hl). pose proof (zlen_nonneg l).
    pose proof (k_fn _ _ _ _ K) as Ef. rewrite zlen_app in Ef.
    rewrite wr_ok by (rewrite (k_vn _ _ _ _ K); unfold n; lia). cbn [bind].
    rewrite wr_ok by (rewrite (k_ix _ _ _ _ K); lia). cbn [bind].
    assert (Hs : selected l w = false) by (apply selected_nin; intros X; apply Hnin, in_or_app; auto).
    assert (Er : renum b (l ++ hl ++ [w]) w = fn).
    { rewrite app_assoc. unfold renum. rewrite posn_app. rewrite (proj2 (posn_none (l ++ hl) w) Hnin). cbn [posn]. rewrite Z.eqb_refl. rewrite zlen_app. lia. }
    destruct (Z.leb_spec (n + b) fn) as [_|C]; [|unfold n in C; lia].
    rewrite wr_ok by lia. cbn [bind].
    exists [w], (upd b vn fn w), (upd b ix w fn), (fn + 1). rewrite Hs, Er. split; [reflexivity|]. split.
    + constructor; auto.
      * rewrite zlen_upd. apply (k_vn _ _ _ _ K).
      * rewrite zlen_upd. apply (k_ix _ _ _ _ K).
      * intros k. rewrite app_assoc, zlen_snoc. intros Hk. rewrite (at_rebase b 0).
        pose proof (k_vn _ _ _ _ K) as Lv. unfold n in Lv. rewrite at_upd by lia.
        rewrite zlen_app in Hk. destruct (Z.eqb_spec fn (k - 0 + b)).
        -- replace k with (zlen (l ++ hl)) by (rewrite zlen_app; lia). rewrite at_app2 by lia. now rewrite Z.sub_diag, at_cons_0.
        -- rewrite at_app1 by (rewrite zlen_app; lia). rewrite <- (at_rebase b 0). apply (k_vnat _ _ _ _ K). rewrite zlen_app. lia.
      * intros x Hx. pose proof (k_ix _ _ _ _ K) as Lx. unfold isvert in Hx. fold b in Hx. rewrite at_upd by lia. destruct (Z.eqb_spec w x) as [<-|Hne]; [now rewrite Er|].
        rewrite (k_ixat _ _ _ _ K) by exact Hx. rewrite app_assoc. unfold renum. rewrite (posn_app (l ++ hl) [w]).
        destruct (posn (l ++ hl) x); auto. cbn [posn]. destruct (Z.eqb_spec w x); [congruence|auto].
      * rewrite app_assoc, zlen_snoc, zlen_app. lia.
    + apply in_or_app. right. apply in_or_app. right. left. auto.
Qed.

(** ** Arcs of a non-halo vertex *)
Definition sel (P : list Z) : list Z := filter (selected l) P.
Definition nsel (P : list Z) : list Z := filter (fun w => negb (selected l w)) P.
Lemma sel_len P : zlen (sel P) + zlen (nsel P) = zlen P.
Proof.
  unfold sel, nsel. induction P; [reflexivity|]. cbn [filter]. destruct (selected l a); cbn [negb]; rewrite ?zlen_cons in *; lia.
Qed.
Lemma sel_snoc P w : sel (P ++ [w]) = sel P ++ if selected l w then [w] else [].
Proof. unfold sel. rewrite filter_app. reflexivity. Qed.
Lemma nsel_snoc P w : nsel (P ++ [w]) = nsel P ++ if selected l w then [] else [w].
Proof. unfold nsel. rewrite filter_app. cbn [filter]. now destruct (selected l w). Qed.

Lemma map_renum_ext P hl hl' : (forall w, In w P -> In w (l ++ hl)) ->
  map (renum b (l ++ hl ++ hl')) P = map (renum b (l ++ hl)) P.
Proof. intros Hp. apply map_ext_in. intros w Hw. rewrite app_assoc. apply renum_ext. auto. Qed.

Definition nhlist (hl : list Z) (v : Z) : list Z := map (renum b (l ++ hl)) (sel (ends g v) ++ rev (nsel (ends g v))).

Lemma hindArcs_spec hl vn ix ed fn en v : In v l -> idxOk hl vn ix fn -> b <= en ->
  let ennd := en + (vend g v - vert g v) in
  ennd <= b + zlen ed ->
  exists hl' vn' ix' fn' ed', 
    for_ (vert g v) (vend g v) (hindArc g (n + b)) (vn, ix, ed, fn, en, ennd) =
      Ok (vn', ix', ed', fn', en + zlen (sel (ends g v)), en + zlen (sel (ends g v))) /\
    idxOk (hl ++ hl') vn' ix' fn' /\ (forall w, In w (ends g v) -> In w (l ++ hl ++ hl')) /\
    zlen ed' = zlen ed /\
    (forall p, b <= p < b + zlen ed -> at_ b ed' p = if (en <=? p) && (p <? ennd) then at_ 0 (nhlist (hl ++ hl') v) (p - en) else at_ b ed p).
Proof.
  intros Hv K He ennd Hn. pose proof (gv_range g V v (HL v Hv)) as Hr.
  pose proof (zlen_ends g v ltac:(lia)) as Le.
  set (I := fun e (s : list Z * list Z * list Z * Z * Z * Z) => let P := firstn (Z.to_nat (e - vert g v)) (ends g v) in
    let '(vn', ix', ed', fn', en', hd') := s in
    exists hl', idxOk (hl ++ hl') vn' ix' fn' /\ (forall w, In w P -> In w (l ++ hl ++ hl')) /\
      en' = en + zlen (sel P) /\ hd' = ennd - zlen (nsel P) /\ zlen ed' = zlen ed /\
      (forall p, b <= p < b + zlen ed -> at_ b ed' p =
         if (en <=? p) && (p <? en') then at_ 0 (map (renum b (l ++ hl ++ hl')) (sel P)) (p - en) else
         if (hd' <=? p) && (p <? ennd) then at_ 0 (map (renum b (l ++ hl ++ hl')) (nsel P)) (ennd - 1 - p) else at_ b ed p)).
  destruct (wp_ok_inv (for_ (vert g v) (vend g v) (hindArc g (n + b)) (vn, ix, ed, fn, en, ennd)) (I (vend g v))) as (s & Es & Is).
  { apply wp_for with (I := I); [lia| | |auto].
    - unfold I. rewrite Z.sub_diag. cbn [Z.to_nat firstn]. exists []. rewrite app_nil_r.
      change (zlen (sel [])) with 0. change (zlen (nsel [])) with 0. split; [auto|]. split; [intros w []|]. split; [lia|]. split; [lia|]. split; auto.
      intros p Hp. destruct (Z.leb_spec en p); destruct (Z.ltb_spec p en); destruct (Z.leb_spec ennd p); destruct (Z.ltb_spec p ennd); cbn [andb]; try lia; auto.
    - intros e (((((vn1, ix1), ed1), fn1), en1), hd1) He1 (hl1 & K1 & PI & E1 & E2 & E3 & E4).
      set (P := firstn (Z.to_nat (e - vert g v)) (ends g v)) in *.
      assert (LP : zlen P = e - vert g v) by (unfold P; rewrite zlen_firstn; lia).
      pose proof (sel_len P) as SL. pose proof (zlen_nonneg (sel P)). pose proof (zlen_nonneg (nsel P)).
      set (w := edge g e).
      assert (P' : firstn (Z.to_nat (e + 1 - vert g v)) (ends g v) = P ++ [w]).
      { replace (e + 1 - vert g v) with (e - vert g v + 1) by lia. rewrite firstn_snoc by lia. unfold P, w. do 2 f_equal.
        rewrite at_ends by lia. f_equal. lia. }
      destruct (hindArc_spec (hl ++ hl1) vn1 ix1 ed1 fn1 en1 hd1 v e Hv) as (hl2 & vn2 & ix2 & fn2 & Ea & K2 & Iw); auto.
      { split; auto. }
      { lia. }
      { unfold ennd in *. lia. }
      { lia. }
      fold w in Ea, Iw. rewrite Ea. cbn [wp]. unfold I. rewrite P'. cbv zeta. exists (hl1 ++ hl2). 
      rewrite <- app_assoc in *. split; [auto|]. split.
      { intros x Hx. apply in_app_or in Hx as [Hx|[<-|[]]]; auto. apply PI in Hx. rewrite app_assoc, app_assoc. apply in_or_app. left. now rewrite <- app_assoc. }
      rewrite sel_snoc, nsel_snoc, !zlen_app.
      assert (MS : map (renum b (l ++ hl ++ hl1 ++ hl2)) (sel P) = map (renum b (l ++ hl ++ hl1)) (sel P)).
      { replace (hl ++ hl1 ++ hl2) with ((hl ++ hl1) ++ hl2) by now rewrite app_assoc. apply map_renum_ext.
        intros x Hx. apply filter_In in Hx as [Hx _]. auto. }
      assert (MN : map (renum b (l ++ hl ++ hl1 ++ hl2)) (nsel P) = map (renum b (l ++ hl ++ hl1)) (nsel P)).
      { replace (hl ++ hl1 ++ hl2) with ((hl ++ hl1) ++ hl2) by now rewrite app_assoc. apply map_renum_ext.
        intros x Hx. apply filter_In in Hx as [Hx _]. auto. }
      rewrite !map_app, MS, MN.
      destruct (selected l w) eqn:Sw.
      + change (zlen [w]) with 1. change (zlen (@nil Z)) with 0. split; [lia|]. split; [lia|]. split; [now rewrite zlen_upd|].
        cbn [map]. rewrite app_nil_r.
        intros p Hp. rewrite at_upd by (unfold ennd in *; lia). rewrite E4 by lia.
        destruct (Z.eqb_spec en1 p) as [<-|Hne].
        * destruct (Z.leb_spec en en1); [|lia]. destruct (Z.ltb_spec en1 (en1 + 1)); [|lia]. cbn [andb].
          rewrite at_app2 by (rewrite zlen_map; lia). rewrite zlen_map. replace (en1 - en - zlen (sel P)) with 0 by lia. now rewrite at_cons_0.
        * replace (p <? en1 + 1) with (p <? en1) by (destruct (Z.ltb_spec p en1); destruct (Z.ltb_spec p (en1 + 1)); lia).
          destruct (Z.leb_spec en p); destruct (Z.ltb_spec p en1); cbn [andb]; auto.
          rewrite at_app1 by (rewrite zlen_map; lia). auto.
      + change (zlen [w]) with 1. change (zlen (@nil Z)) with 0. split; [lia|]. split; [lia|]. split; [now rewrite zlen_upd|].
        cbn [map]. rewrite app_nil_r.
        intros p Hp. rewrite at_upd by (unfold ennd in *; lia). rewrite E4 by lia.
        destruct (Z.eqb_spec (hd1 - 1) p) as [<-|Hne].
        * destruct (Z.leb_spec en (hd1 - 1)); destruct (Z.ltb_spec (hd1 - 1) en1); cbn [andb]; try (unfold ennd in *; lia).
          destruct (Z.leb_spec (hd1 - 1) (hd1 - 1)); destruct (Z.ltb_spec (hd1 - 1) ennd); cbn [andb]; try lia.
          rewrite at_app2 by (rewrite zlen_map; lia). rewrite zlen_map. replace (ennd - 1 - (hd1 - 1) - zlen (nsel P)) with 0 by lia. now rewrite at_cons_0.
        * destruct (Z.leb_spec en p); destruct (Z.ltb_spec p en1); cbn [andb]; auto;
          replace (hd1 - 1 <=? p) with (hd1 <=? p) by (destruct (Z.leb_spec hd1 p); destruct (Z.leb_spec (hd1 - 1) p); lia);
          (destruct (Z.leb_spec hd1 p); destruct (Z.ltb_spec p ennd); cbn [andb]; auto;
           rewrite at_app1 by (rewrite zlen_map; lia); auto). }
  destruct s as (((((vn1, ix1), ed1), fn1), en1), hd1). unfold I in Is.
  replace (firstn (Z.to_nat (vend g v - vert g v)) (ends g v)) with (ends g v) in Is by (rewrite <- Le, firstn_zlen; auto).
  destruct Is as (hl1 & K1 & PI & E1 & E2 & E3 & E4).
  pose proof (sel_len (ends g v)) as SL. rewrite Es.
  assert (hd1 = en1) by (unfold ennd in *; lia).
  pose proof (zlen_nonneg (sel (ends g v))). pose proof (zlen_nonneg (nsel (ends g v))).
  exists hl1, vn1, ix1, fn1, ed1. split; [do 3 f_equal; lia|]. split; [auto|]. split; [auto|]. split; [auto|].
  intros p Hp. rewrite E4 by auto. unfold nhlist. rewrite map_app.
  assert (Le' : zlen (map (renum b (l ++ hl ++ hl1)) (sel (ends g v))) = zlen (sel (ends g v))) by apply zlen_map.
  destruct (Z.leb_spec en p); destruct (Z.ltb_spec p en1); cbn [andb].
  - destruct (Z.ltb_spec p ennd); [|unfold ennd in *; lia]. rewrite at_app1 by lia. auto.
  - destruct (Z.leb_spec hd1 p); [|lia]. destruct (Z.ltb_spec p ennd); cbn [andb]; auto.
    rewrite at_app2 by lia. rewrite Le'. rewrite map_rev. rewrite at_rev by (rewrite zlen_map; unfold ennd in *; lia). rewrite zlen_map. f_equal.
    unfold ennd in *. lia.
  - destruct (Z.leb_spec hd1 p); [lia|]. auto.
  - destruct (Z.leb_spec hd1 p); [lia|]. auto.
Qed.

(** ** Loop on non-halo vertices *)
Context (cap : Z) (HC : forall hl, NoDup (l ++ hl) -> (forall w, In w (l ++ hl) -> isvert g w) -> zlen hl <= hn -> degsum g (l ++ hl) <= cap).
Definition D (k : Z) : list Z := ends g (at_ 0 l k).

Definition vlOk (all : list Z) (i : Z) (vl : option (list Z)) (vsum : Z) : Prop :=
  match velotab g with
  | Some _ => (exists t, vl = Some t /\ zlen t = n + hn /\ forall k, 0 <= k < i -> at_ b t (b + k) = velo g (at_ 0 all k)) /\
              vsum = zsum 0 i (fun k => velo g (at_ 0 all k))
  | None => vl = None /\ vsum = 0
  end.

Lemma hindVelo_spec all i v vl vsum : isvert g v -> 0 <= i < n + hn -> at_ 0 all i = v -> vlOk all i vl vsum ->
  exists vl' vsum', hindVelo g v (b + i) vl vsum = Ok (vl', vsum') /\ vlOk all (i + 1) vl' vsum'.
Proof.
  intros Hv Hi Ea K. unfold hindVelo, vlOk in *. destruct (velotab g) as [ot|] eqn:Eo.
  - destruct K as ((t & -> & Lt & Ht) & ->). pose proof (gr_velo g R ot Eo) as Ro. pose proof (gv_nnd g V) as Nn. unfold isvert in Hv.
    rewrite rd_ok by lia. cbn [bind]. fold b. rewrite wr_ok by lia. cbn [bind].
    assert (Ev : velo g v = at_ b ot v) by (unfold velo; now rewrite Eo).
    do 2 eexists. split; [reflexivity|]. split.
    + eexists. split; [reflexivity|]. split; [now rewrite zlen_upd|]. intros k Hk. rewrite at_upd by lia.
      destruct (Z.eqb_spec (b + i) (b + k)).
      * replace k with i by lia. rewrite Ea. auto.
      * apply Ht. lia.
    + rewrite zsum_snoc by lia. rewrite Ea, Ev. reflexivity.
  - destruct K as [-> ->]. eauto.
Qed.

Record inv1 (i : Z) (hl : list Z) (st : hind) : Prop := {
  j_idx : idxOk hl (i_vn st) (i_ix st) (i_fn st);
  j_in : forall k w, 0 <= k < i -> In w (D k) -> In w (l ++ hl);
  j_en : i_en st = b + offs D i;
  j_edl : zlen (i_ed st) = cap;
  j_ed : forall k j, 0 <= k < i -> 0 <= j < zlen (D k) -> at_ b (i_ed st) (b + offs D k + j) = at_ 0 (nhlist hl (at_ 0 l k)) j;
  j_vtl : zlen (i_vt st) = n + hn + 1;
  j_vt : forall k, 0 <= k < i -> at_ b (i_vt st) (b + k) = b + offs D k;
  j_vl : vlOk l i (i_vl st) (i_vsum st);
  j_nhl : zlen (i_nh st) = n;
  j_nh : forall k, 0 <= k < i -> at_ b (i_nh st) (b + k) = b + offs D k + zlen (sel (D k));
  j_enoh : i_enoh st = zsum 0 i (fun k => zlen (sel (D k)));
  j_dmax : 0 <= i_dmax st /\ forall k, 0 <= k < i -> zlen (D k) <= i_dmax st }.

Lemma l_vert i : 0 <= i < n -> isvert g (at_ 0 l i).
Proof. intros. apply HL, at_In. fold n. lia. Qed.

Lemma zlen_D i : 0 <= i < n -> zlen (D i) = vend g (at_ 0 l i) - vert g (at_ 0 l i).
Proof. intros Hi. apply zlen_ends. pose proof (gv_range g V _ (l_vert i Hi)). lia. Qed.

Lemma offs_D_cap i : 0 <= i <= n -> offs D i <= cap.
Proof.
  intros Hi. etransitivity; [apply (offs_mono D i n); lia|].
  pose proof (HC []) as HC0. rewrite app_nil_r in HC0. etransitivity; [|apply HC0; auto; pose proof (zlen_nonneg H); change (zlen (@nil Z)) with 0; lia].
  unfold degsum. rewrite lsum_zsum. unfold offs. apply zsum_le. intros k Hk. rewrite zlen_D by (unfold n; lia). lia.
Qed.

Lemma hindVert_spec i hl st : 0 <= i < n -> inv1 i hl st ->
  exists hl' st', hindVert g (n + b) (b + i) st = Ok st' /\ inv1 (i + 1) (hl ++ hl') st'.
Proof.
  intros Hi K. pose proof (j_idx _ _ _ K) as KI. unfold hindVert. fold b.
  pose proof (zlen_nonneg l) as Ln. fold n in Ln. pose proof (zlen_nonneg H) as LH.
  rewrite rd_ok by (rewrite (k_vn _ _ _ _ KI); lia). cbn [bind].
  pose proof (zlen_nonneg hl) as Lhl.
  assert (Ev : at_ b (i_vn st) (b + i) = at_ 0 l i).
  { rewrite (at_rebase 0 b). replace (b + i - b + 0) with i by lia. rewrite (k_vnat _ _ _ _ KI) by (rewrite zlen_app; fold n; lia).
    apply at_app1. fold n. lia. }
  rewrite Ev. set (v := at_ 0 l i). assert (Iv : In v l) by (apply at_In; fold n; lia). pose proof (HL v Iv) as Hv.
  rewrite wr_ok by (rewrite (j_vtl _ _ _ K); lia). cbn [bind].
  destruct (hindVelo_spec l i v (i_vl st) (i_vsum st)) as (vl' & vsum' & Evl & KV); auto; [lia|apply (j_vl _ _ _ K)|].
  rewrite Evl. cbn [bind]. pose proof (gv_nnd g V) as Nn. unfold isvert in Hv.
  assert (RE : rvend g v = Ok (vend g v)).
  { unfold rvend, vend. pose proof (gr_vert g R) as G1. destruct (vendtab g) eqn:E; [pose proof (gr_vend g R _ E); apply rd_ok; lia|].
    destruct (Z.ltb_spec 0 (vertnbr g)); cbn [b2z] in G1; apply rd_ok; lia. }
  assert (RV : rvert g v = Ok (vert g v)).
  { unfold rvert, vert. pose proof (gr_vert g R) as G1. apply rd_ok. unfold b2z in G1. destruct (vendtab g), (0 <? vertnbr g); lia. }
  rewrite RE. cbn [bind]. rewrite RV. cbn [bind].
  pose proof (gv_range g V v (HL v Iv)) as Hr. pose proof (zlen_D i Hi) as LD. fold v in LD.
  pose proof (offs_D_cap (i + 1) ltac:(lia)) as Hcap. rewrite offs_S in Hcap by lia.
  pose proof (offs_mono D 0 i ltac:(lia)) as Hoff. rewrite offs_0 in Hoff.
  pose proof (j_en _ _ _ K) as Een. pose proof (j_edl _ _ _ K) as Eedl.
  destruct (hindArcs_spec hl (i_vn st) (i_ix st) (i_ed st) (i_fn st) (i_en st) v) as (hl' & vn' & ix' & fn' & ed' & Ef & KI' & IW & Led & Hed); auto.
  { lia. } { rewrite Eedl. lia. }
  rewrite Ef. cbn [bind]. rewrite wr_ok by (rewrite (j_nhl _ _ _ K); lia). cbn [bind].
  exists hl'. eexists. split; [reflexivity|].
  assert (Sd : ends g v = D i) by reflexivity. rewrite Sd in *.
  constructor; cbn [i_vn i_ix i_ed i_vt i_vl i_nh i_fn i_en i_vsum i_enoh i_dmax]; auto.
  - intros k w Hk Hw. destruct (Z.eq_dec k i) as [->|]; auto. 
    assert (X : In w (l ++ hl)) by (apply (j_in _ _ _ K k); [lia|auto]). rewrite app_assoc. apply in_or_app. auto.
  - rewrite offs_S by lia. lia.
  - lia.
  - intros k j Hk Hj.
    assert (B1 : offs D k + zlen (D k) <= offs D (i + 1)).
    { rewrite <- offs_S by lia. apply offs_mono. lia. } rewrite offs_S in B1 by lia.
    pose proof (offs_mono D 0 k ltac:(lia)) as B2. rewrite offs_0 in B2.
    rewrite Hed by lia. destruct (Z.eq_dec k i) as [->|Hne].
    + destruct (Z.leb_spec (i_en st) (b + offs D i + j)); [|lia]. destruct (Z.ltb_spec (b + offs D i + j) (i_en st + (vend g v - vert g v))); [|lia].
      cbn [andb]. fold v. f_equal. lia.
    + assert (B3 : offs D k + zlen (D k) <= offs D i). { rewrite <- offs_S by lia. apply offs_mono. lia. }
      destruct (Z.leb_spec (i_en st) (b + offs D k + j)); [lia|]. cbn [andb]. rewrite (j_ed _ _ _ K) by lia.
      f_equal. unfold nhlist. symmetry. apply map_renum_ext. intros w Hw. apply (j_in _ _ _ K k); [lia|]. unfold D.
      apply in_app_or in Hw as [Hw|Hw]; [|apply in_rev in Hw]; apply filter_In in Hw; tauto.
  - rewrite zlen_upd. apply (j_vtl _ _ _ K).
  - intros k Hk. pose proof (j_vtl _ _ _ K). rewrite at_upd by lia. destruct (Z.eqb_spec (b + i) (b + k)).
    + replace k with i by lia. auto.
    + apply (j_vt _ _ _ K). lia.
  - rewrite zlen_upd. apply (j_nhl _ _ _ K).
  - intros k Hk. pose proof (j_nhl _ _ _ K). rewrite at_upd by lia. destruct (Z.eqb_spec (b + i) (b + k)).
    + replace k with i by lia. lia.
    + apply (j_nh _ _ _ K). lia.
  - rewrite zsum_snoc by lia. rewrite (j_enoh _ _ _ K). lia.
  - destruct (j_dmax _ _ _ K) as [M0 M1]. split; [destruct (_ <? _); lia|]. intros k Hk.
    destruct (Z.eq_dec k i) as [->|].
    + destruct (Z.ltb_spec (i_dmax st) (vend g v - vert g v)); lia.
    + specialize (M1 k ltac:(lia)). destruct (Z.ltb_spec (i_dmax st) (vend g v - vert g v)); lia.
Qed.

Lemma hindVerts_spec st : inv1 0 [] st -> exists hl st', for_ b (n + b) (hindVert g (n + b)) st = Ok st' /\ inv1 n hl st'.
Proof.
  intros K0. pose proof (zlen_nonneg l) as Ln. fold n in Ln.
  destruct (wp_ok_inv (for_ b (n + b) (hindVert g (n + b)) st) (fun st' => exists hl, inv1 n hl st')) as (st' & E & hl & K).
  { apply wp_for with (I := fun i st' => exists hl, inv1 (i - b) hl st'); [lia| | |].
    - rewrite Z.sub_diag. eauto.
    - intros i s Hi (hl & K). destruct (hindVert_spec (i - b) hl s) as (hl' & s' & E & K'); auto; [lia|].
      replace (b + (i - b)) with i in E by lia. rewrite E. cbn [wp]. exists (hl ++ hl'). now replace (i + 1 - b) with (i - b + 1) by lia.
    - intros s (hl & K). exists hl. now replace n with (n + b - b) by lia. }
  eauto.
Qed.

(** ** Loop on halo vertices *)
Context (hl : list Z).
Let all := l ++ hl.
Definition LL (k : Z) : list Z :=
  if k <? n then nhlist hl (at_ 0 l k) else map (renum b all) (sel (ends g (at_ 0 all k))).

Lemma zlen_nhlist v : zlen (nhlist hl v) = zlen (ends g v).
Proof. unfold nhlist. rewrite zlen_map, zlen_app, zlen_rev. apply sel_len. Qed.
Lemma offs_LL_D i : 0 <= i <= n -> offs LL i = offs D i.
Proof.
  intros Hi. unfold offs. apply zsum_ext. intros k Hk. unfold LL, D. destruct (Z.ltb_spec k n); [|lia]. apply zlen_nhlist.
Qed.

Lemma rvend_ok v : isvert g v -> rvend g v = Ok (vend g v).
Proof.
  clear HC HH HL. pose proof (gv_nnd g V) as Nn. intros Hv. unfold isvert in Hv.
  unfold rvend, vend. pose proof (gr_vert g R) as G1. destruct (vendtab g) eqn:E; [pose proof (gr_vend g R _ E); apply rd_ok; lia|].
    destruct (Z.ltb_spec 0 (vertnbr g)); cbn [b2z] in G1; apply rd_ok; lia.
Qed.
Lemma rvert_ok v : isvert g v -> rvert g v = Ok (vert g v).
Proof.
  clear HC HH HL. pose proof (gv_nnd g V) as Nn. intros Hv. unfold isvert in Hv.
  unfold rvert, vert. pose proof (gr_vert g R) as G1. apply rd_ok. unfold b2z in G1. destruct (vendtab g), (0 <? vertnbr g); lia.
Qed.

Lemma hindHArcs_spec vn ix fn ed en v : isvert g v -> idxOk hl vn ix fn -> b <= en ->
  en + zlen (sel (ends g v)) <= b + zlen ed ->
  exists ed', for_ (vert g v) (vend g v) (hindHArc g (n + b) ix) (ed, en) = Ok (ed', en + zlen (sel (ends g v))) /\
    zlen ed' = zlen ed /\
    (forall p, b <= p < b + zlen ed -> at_ b ed' p =
       if (en <=? p) && (p <? en + zlen (sel (ends g v))) then at_ 0 (map (renum b all) (sel (ends g v))) (p - en) else at_ b ed p).
Proof.
  intros Hv K He Hn. pose proof (gv_range g V v Hv) as Hr.
  pose proof (zlen_ends g v ltac:(lia)) as Le.
  set (I := fun e (s : list Z * Z) => let P := firstn (Z.to_nat (e - vert g v)) (ends g v) in
    let '(ed', en') := s in
      en' = en + zlen (sel P) /\ zlen ed' = zlen ed /\
      (forall p, b <= p < b + zlen ed -> at_ b ed' p =
         if (en <=? p) && (p <? en') then at_ 0 (map (renum b all) (sel P)) (p - en) else at_ b ed p)).
  destruct (wp_ok_inv (for_ (vert g v) (vend g v) (hindHArc g (n + b) ix) (ed, en)) (I (vend g v))) as (s & Es & Is).
  { apply wp_for with (I := I); [lia| | |auto].
    - unfold I. rewrite Z.sub_diag. cbn [Z.to_nat firstn]. change (zlen (sel [])) with 0. split; [lia|]. split; auto.
      intros p Hp. destruct (Z.leb_spec en p); destruct (Z.ltb_spec p en); cbn [andb]; try lia; auto.
    - intros e (ed1, en1) He1 (E1 & E2 & E3).
      set (P := firstn (Z.to_nat (e - vert g v)) (ends g v)) in *.
      set (w := edge g e).
      assert (P' : firstn (Z.to_nat (e + 1 - vert g v)) (ends g v) = P ++ [w]).
      { replace (e + 1 - vert g v) with (e - vert g v + 1) by lia. rewrite firstn_snoc by lia. unfold P, w. do 2 f_equal.
        rewrite at_ends by lia. f_equal. lia. }
      assert (Hle : zlen (sel (P ++ [w])) <= zlen (sel (ends g v))).
      { rewrite <- P'. rewrite <- (firstn_skipn (Z.to_nat (e + 1 - vert g v)) (ends g v)) at 2. unfold sel. apply filter_len_mono. }
      assert (A : arc g v e) by (split; auto; lia).
      pose proof (gr_edge g R v e A) as Re. unfold hindHArc, redge. rewrite rd_ok by lia. cbn [bind].
      change (at_ (baseval g) (edgetab g) e) with w. pose proof (gv_end g V v e A) as Iw. fold w in Iw.
      pose proof (gv_nnd g V) as Nn. pose proof Iw as Iw'. unfold isvert in Iw'. fold b in Iw', Nn. fold b.
      rewrite rd_ok by (rewrite (k_ix _ _ _ _ K); lia). cbn [bind]. rewrite (k_ixat _ _ _ _ K) by auto.
      assert (T : negb (renum b (l ++ hl) w =? -1) && (renum b (l ++ hl) w <? n + b) = selected l w).
      { destruct (in_dec Z.eq_dec w (l ++ hl)) as [Hin|Hnin].
        - destruct (renum_in b _ w Hin) as (k & Hk & Ek & _).
          destruct (Z.eqb_spec (renum b (l ++ hl) w) (-1)) as [C|_]; [fold b in B0; lia|]. cbn [negb andb].
          rewrite Z.ltb_antisym. unfold n. rewrite renum_sel by auto. apply negb_involutive.
        - rewrite renum_nin by auto. cbn. symmetry. apply selected_nin. intros X. apply Hnin, in_or_app. auto. }
      rewrite T. unfold I. rewrite P'. rewrite sel_snoc, zlen_app, map_app in *. pose proof (zlen_nonneg (sel P)).
      destruct (selected l w).
      + change (zlen [w]) with 1 in *. rewrite wr_ok by lia. cbn [bind wp]. split; [lia|]. split; [now rewrite zlen_upd|].
        intros p Hp. rewrite at_upd by lia. rewrite E3 by lia. destruct (Z.eqb_spec en1 p) as [<-|Hne].
        * destruct (Z.leb_spec en en1); [|lia]. destruct (Z.ltb_spec en1 (en1 + 1)); [|lia]. cbn [andb].
          rewrite at_app2 by (rewrite zlen_map; lia). rewrite zlen_map. replace (en1 - en - zlen (sel P)) with 0 by lia. cbn [map]. now rewrite at_cons_0.
        * replace (p <? en1 + 1) with (p <? en1) by (destruct (Z.ltb_spec p en1); destruct (Z.ltb_spec p (en1 + 1)); lia).
          destruct (Z.leb_spec en p); destruct (Z.ltb_spec p en1); cbn [andb]; auto.
          rewrite at_app1 by (rewrite zlen_map; lia). auto.
      + change (zlen (@nil Z)) with 0 in *. cbn [wp map]. rewrite app_nil_r. split; [lia|]. split; auto. }
  destruct s as (ed1, en1). unfold I in Is.
  replace (firstn (Z.to_nat (vend g v - vert g v)) (ends g v)) with (ends g v) in Is by (rewrite <- Le, firstn_zlen; auto).
  destruct Is as (E1 & E2 & E3). exists ed1. rewrite Es, E1. rewrite E1 in E3. auto.
Qed.

Record inv2 (i : Z) (st0 st : hind) : Prop := {
  q_same : i_vn st = i_vn st0 /\ i_ix st = i_ix st0 /\ i_fn st = i_fn st0 /\ i_nh st = i_nh st0 /\ i_enoh st = i_enoh st0;
  q_en : i_en st = b + offs LL i;
  q_edl : zlen (i_ed st) = cap;
  q_ed : forall k j, 0 <= k < i -> 0 <= j < zlen (LL k) -> at_ b (i_ed st) (b + offs LL k + j) = at_ 0 (LL k) j;
  q_vtl : zlen (i_vt st) = n + hn + 1;
  q_vt : forall k, 0 <= k < i -> at_ b (i_vt st) (b + k) = b + offs LL k;
  q_vl : vlOk all i (i_vl st) (i_vsum st);
  q_dmax : 0 <= i_dmax st /\ forall k, 0 <= k < i -> zlen (LL k) <= i_dmax st }.

Lemma inv1_inv2 st : inv1 n hl st -> inv2 n st st.
Proof.
  intros K. pose proof (zlen_nonneg l) as Ln. fold n in Ln.
  assert (ZL : forall k, 0 <= k < n -> zlen (LL k) = zlen (D k)).
  { intros k Hk. unfold LL. destruct (Z.ltb_spec k n); [|lia]. apply zlen_nhlist. }
  constructor.
  - tauto.
  - rewrite offs_LL_D by lia. apply (j_en _ _ _ K).
  - apply (j_edl _ _ _ K).
  - intros k j Hk Hj. rewrite ZL in Hj by lia. rewrite offs_LL_D by lia. rewrite (j_ed _ _ _ K) by auto.
    unfold LL. destruct (Z.ltb_spec k n); [auto|lia].
  - apply (j_vtl _ _ _ K).
  - intros k Hk. rewrite offs_LL_D by lia. apply (j_vt _ _ _ K). auto.
  - pose proof (j_vl _ _ _ K) as KV. unfold vlOk in *. destruct (velotab g); auto.
    destruct KV as ((t & E & Lt & Ht) & ->). split.
    + exists t. split; auto. split; auto. intros k Hk. rewrite Ht by lia. f_equal. unfold all. symmetry. apply at_app1. fold n. lia.
    + apply zsum_ext. intros k Hk. f_equal. unfold all. symmetry. apply at_app1. fold n. lia.
  - destruct (j_dmax _ _ _ K) as [M0 M1]. split; auto. intros k Hk. rewrite ZL by lia. auto.
Qed.

Context (st0 : hind) (K0 : inv1 n hl st0).

Lemma all_vert w : In w all -> isvert g w.
Proof.
  intros Hw. apply in_app_or in Hw as [Hw|Hw]; auto.
  destruct (k_from _ _ _ _ (j_idx _ _ _ K0) w Hw) as (v & Hv & Hwv). eapply ends_vert; eauto.
Qed.

Lemma offs_LL_cap i : 0 <= i <= zlen all -> offs LL i <= cap.
Proof.
  intros Hi. etransitivity; [apply (offs_mono LL i (zlen all)); lia|].
  pose proof (HC hl (k_nd _ _ _ _ (j_idx _ _ _ K0))) as HC0. etransitivity; [|apply HC0; [apply all_vert|apply (hl_bound hl (k_nd _ _ _ _ (j_idx _ _ _ K0)) (k_from _ _ _ _ (j_idx _ _ _ K0)))]].
  unfold degsum. rewrite lsum_zsum. unfold offs. apply zsum_le. intros k Hk. fold all in Hk |- *.
  assert (Iv : isvert g (at_ 0 all k)) by (apply all_vert, at_In; lia).
  pose proof (gv_range g V _ Iv) as Hr. rewrite <- zlen_ends by lia.
  unfold LL. destruct (Z.ltb_spec k n).
  - rewrite zlen_nhlist. unfold all. rewrite at_app1 by (fold n; lia). lia.
  - rewrite zlen_map. pose proof (sel_len (ends g (at_ 0 all k))). pose proof (zlen_nonneg (nsel (ends g (at_ 0 all k)))). lia.
Qed.

Lemma hindHVert_spec i st : n <= i < zlen all -> inv2 i st0 st ->
  exists st', hindHVert g (n + b) (b + i) st = Ok st' /\ inv2 (i + 1) st0 st'.
Proof.
  intros Hi K. pose proof (j_idx _ _ _ K0) as KI. destruct (q_same _ _ _ K) as (S1 & S2 & S3 & S4 & S5). unfold hindHVert. fold b.
  pose proof (zlen_nonneg l) as Ln. fold n in Ln. pose proof (zlen_nonneg H) as LH. pose proof (zlen_nonneg hl) as Lhl.
  pose proof (hl_bound hl (k_nd _ _ _ _ KI) (k_from _ _ _ _ KI)) as HB. 
  assert (La : zlen all = n + zlen hl) by (unfold all; rewrite zlen_app; reflexivity).
  rewrite S1. rewrite rd_ok by (rewrite (k_vn _ _ _ _ KI); lia). cbn [bind].
  assert (Ev : at_ b (i_vn st0) (b + i) = at_ 0 all i).
  { rewrite (at_rebase 0 b). replace (b + i - b + 0) with i by lia. apply (k_vnat _ _ _ _ KI). fold all. lia. }
  rewrite Ev. set (v := at_ 0 all i). assert (Iv : In v all) by (apply at_In; lia). pose proof (all_vert v Iv) as Hv.
  rewrite wr_ok by (rewrite (q_vtl _ _ _ K); lia). cbn [bind].
  destruct (hindVelo_spec all i v (i_vl st) (i_vsum st)) as (vl' & vsum' & Evl & KV); auto; [lia|apply (q_vl _ _ _ K)|].
  rewrite Evl. cbn [bind]. rewrite rvend_ok, rvert_ok by auto. cbn [bind].
  assert (EL : LL i = map (renum b all) (sel (ends g v))) by (unfold LL; destruct (Z.ltb_spec i n); [lia|reflexivity]).
  assert (ZL : zlen (LL i) = zlen (sel (ends g v))) by (rewrite EL; apply zlen_map).
  pose proof (offs_LL_cap (i + 1) ltac:(lia)) as Hcap. rewrite offs_S in Hcap by lia.
  pose proof (offs_mono LL 0 i ltac:(lia)) as Hoff. rewrite offs_0 in Hoff.
  pose proof (q_en _ _ _ K) as Een. pose proof (q_edl _ _ _ K) as Eedl.
  rewrite S2. destruct (hindHArcs_spec (i_vn st0) (i_ix st0) (i_fn st0) (i_ed st) (i_en st) v) as (ed' & Ef & Led & Hed); auto.
  { lia. } { rewrite Eedl. lia. }
  rewrite Ef. cbn [bind]. eexists. split; [reflexivity|].
  constructor; cbn [i_vn i_ix i_ed i_vt i_vl i_nh i_fn i_en i_vsum i_enoh i_dmax]; auto.
  - rewrite offs_S by lia. lia.
  - lia.
  - intros k j Hk Hj.
    assert (B1 : offs LL k + zlen (LL k) <= offs LL (i + 1)).
    { rewrite <- offs_S by lia. apply offs_mono. lia. } rewrite offs_S in B1 by lia.
    pose proof (offs_mono LL 0 k ltac:(lia)) as B2. rewrite offs_0 in B2.
    rewrite Hed by lia. destruct (Z.eq_dec k i) as [->|Hne].
    + destruct (Z.leb_spec (i_en st) (b + offs LL i + j)); [|lia]. destruct (Z.ltb_spec (b + offs LL i + j) (i_en st + zlen (sel (ends g v)))); [|lia].
      cbn [andb]. rewrite EL. f_equal. lia.
    + assert (B3 : offs LL k + zlen (LL k) <= offs LL i). { rewrite <- offs_S by lia. apply offs_mono. lia. }
      destruct (Z.leb_spec (i_en st) (b + offs LL k + j)); [lia|]. cbn [andb]. apply (q_ed _ _ _ K); lia.
  - rewrite zlen_upd. apply (q_vtl _ _ _ K).
  - intros k Hk. pose proof (q_vtl _ _ _ K). rewrite at_upd by lia. destruct (Z.eqb_spec (b + i) (b + k)).
    + replace k with i by lia. auto.
    + apply (q_vt _ _ _ K). lia.
  - destruct (q_dmax _ _ _ K) as [M0 M1]. pose proof (zlen_nonneg (sel (ends g v))). split; [destruct (_ <? _); lia|]. intros k Hk.
    destruct (Z.eq_dec k i) as [->|].
    + destruct (Z.ltb_spec (i_dmax st) (i_en st + zlen (sel (ends g v)) - i_en st)); lia.
    + specialize (M1 k ltac:(lia)). destruct (Z.ltb_spec (i_dmax st) (i_en st + zlen (sel (ends g v)) - i_en st)); lia.
Qed.

Lemma hindHVerts_spec : exists st', for_ (n + b) (i_fn st0) (hindHVert g (n + b)) st0 = Ok st' /\ inv2 (zlen all) st0 st'.
Proof.
  assert (La : zlen all = n + zlen hl) by (unfold all; rewrite zlen_app; reflexivity). pose proof (zlen_nonneg hl).
  rewrite (k_fn _ _ _ _ (j_idx _ _ _ K0)). fold all.
  destruct (wp_ok_inv (for_ (n + b) (b + zlen all) (hindHVert g (n + b)) st0) (inv2 (zlen all) st0)) as (st' & E & K).
  { apply wp_for with (I := fun i st' => inv2 (i - b) st0 st'); [lia| | |].
    - replace (n + b - b) with n by lia. now apply inv1_inv2.
    - intros i s Hi K. destruct (hindHVert_spec (i - b) s) as (s' & E & K'); auto; [lia|].
      replace (b + (i - b)) with i in E by lia. rewrite E. cbn [wp]. now replace (i + 1 - b) with (i - b + 1) by lia.
    - intros s K. now replace (zlen all) with (b + zlen all - b) by lia. }
  eauto.
Qed.
End Main.

(** ** The whole routine *)
Lemma degsum_bounds g l : graph_valid g -> NoDup l -> (forall w, In w l -> isvert g w) ->
  degsum g l <= edgenbr g /\ degsum g l <= zlen l * degrmax g.
Proof.
  intros V ND HL. split.
  - unfold degsum. rewrite (gv_edgenbr g V). apply zsum_select; auto. intros i Hi. pose proof (gv_range g V i Hi). lia.
  - clear ND. unfold degsum. induction l as [|x l IH]; [cbn; lia|]. rewrite lsum_cons, zlen_cons.
    specialize (IH (fun w Hw => HL w (or_intror Hw))). pose proof (gv_degr g V x (HL x (or_introl eq_refl))). lia.
Qed.

Lemma sel_in l P w : In w (sel l P) <-> In w P /\ In w l.
Proof. unfold sel. rewrite filter_In, selected_in. tauto. Qed.
Lemma nsel_in l P w : In w (nsel l P) <-> In w P /\ ~ In w l.
Proof. unfold nsel. rewrite filter_In, negb_true_iff, selected_nin. tauto. Qed.

Lemma ends_sym g v w : graph_valid g -> isvert g v -> In w (ends g v) -> isvert g w /\ w <> v /\ In v (ends g w).
Proof.
  intros V Hv Hw. apply In_ends in Hw as (e & He & <-). assert (A : arc g v e) by (split; auto).
  split; [apply (gv_end g V v e A)|]. split; [apply (gv_loop g V v e A)|].
  destruct (gv_sym g V v e A) as (e' & [_ A'] & E' & _). apply In_ends. eauto.
Qed.
Lemma ends_NoDup g v : graph_valid g -> isvert g v -> NoDup (ends g v).
Proof. intros. now apply nbr_NoDup. Qed.

Lemma renum_inj b l x y : In x l -> In y l -> renum b l x = renum b l y -> x = y.
Proof.
  intros Hx Hy E. destruct (renum_in b l x Hx) as (k & _ & Ek & <- & _). destruct (renum_in b l y Hy) as (j & _ & Ej & <- & _).
  f_equal. lia.
Qed.
Lemma renum_at b l k : NoDup l -> 0 <= k < zlen l -> renum b l (at_ 0 l k) = b + k.
Proof. intros. unfold renum. now rewrite posn_at. Qed.
Lemma NoDup_map_inj {A B} (f : A -> B) s : (forall x y, In x s -> In y s -> f x = f y -> x = y) -> NoDup s -> NoDup (map f s).
Proof.
  intros Hf N. induction N as [|x s Hx N IH]; cbn [map]; constructor.
  - intros Hi. apply in_map_iff in Hi as (y & E & Hy). assert (x = y) by (apply Hf; [left|right|]; auto). subst. tauto.
  - apply IH. intros. apply Hf; auto; now right.
Qed.

Lemma NoDup_app_nin {A} (l hl : list A) w : NoDup (l ++ hl) -> In w hl -> ~ In w l.
Proof.
  intros N Hw Hl. apply in_split in Hl as (l1 & l2 & ->). rewrite <- app_assoc in N. cbn [app] in N.
  apply NoDup_remove_2 in N. apply N. apply in_or_app. right. apply in_or_app. auto.
Qed.

Definition ones (L : Z -> list Z) (k : Z) : list (Z * Z) := map (fun w => (w, 1)) (L k).
Lemma zlen_ones L k : zlen (ones L k) = zlen (L k). Proof. apply zlen_map. Qed.
Lemma offs_ones L i : offs (ones L) i = offs L i.
Proof. unfold offs. apply zsum_ext. intros. apply zlen_ones. Qed.
Lemma map_fst_ones L k : map fst (ones L k) = L k.
Proof. unfold ones. rewrite map_map. apply map_id. Qed.
Lemma lsum_ones L k : lsum snd (ones L k) = zlen (L k).
Proof. unfold ones. induction (L k); [reflexivity|]. cbn [map]. rewrite lsum_cons, zlen_cons, IHl. reflexivity. Qed.

Theorem hgraphInduceList_spec jk h l H hn :
  graph_valid (hs h) -> graph_readable (hs h) -> 0 <= baseval (hs h) -> edlotab (hs h) = None ->
  (forall t, vnumtab (hs h) = Some t -> vertnbr (hs h) <= zlen t) ->
  NoDup l -> (forall w, In w l -> isvert (hs h) w) ->
  (forall v w, In v l -> In w (ends (hs h) v) -> ~ In w l -> In w H) -> zlen H <= hn ->
  exists h' hl, hgraphInduceList jk h l hn = Ok h' /\ hinduced h l hl h' /\ hgraph_valid h'.
Proof.
  intros V R B0 NE VN ND HL HH HN. unfold hgraphInduceList. rewrite NE. cbv zeta.
  set (g := hs h) in *. set (b := baseval g). set (n := zlen l).
  pose proof (zlen_nonneg l) as Ln. fold n in Ln. pose proof (zlen_nonneg H) as LH. pose proof (gv_nnd g V) as Nn. pose proof (gv_size g V) as Nz.
  set (vmax := n + hn).
  set (cap := if (0 <? degrmax g) && (vmax <? Z.quot (edgenbr g) (degrmax g)) then vmax * degrmax g else edgenbr g).
  assert (E0 : 0 <= edgenbr g). { rewrite (gv_edgenbr g V). apply zsum_nonneg. intros i Hi. pose proof (gv_range g V i Hi). lia. }
  assert (HC : forall hl, NoDup (l ++ hl) -> (forall w, In w (l ++ hl) -> isvert g w) -> zlen hl <= hn -> degsum g (l ++ hl) <= cap).
  { intros hl N I Hb. destruct (degsum_bounds g (l ++ hl) V N I) as [D1 D2]. unfold cap. destruct (Z.ltb_spec 0 (degrmax g)); cbn [andb]; [|lia].
    destruct (vmax <? _); [|lia]. rewrite zlen_app in D2. unfold vmax. fold n in D2. nia. }
  assert (C0 : 0 <= cap).
  { unfold cap. destruct (Z.ltb_spec 0 (degrmax g)); cbn [andb]; [|lia]. destruct (vmax <? _); [|lia]. unfold vmax. nia. }
  assert (Lm : forall k, 0 <= k -> zlen (repeat jk (Z.to_nat k)) = k) by (intros; rewrite zlen_repeat; lia).
  set (vn := l ++ repeat jk (Z.to_nat hn)).
  assert (Lvn : zlen vn = n + hn) by (unfold vn; rewrite zlen_app, Lm by lia; reflexivity).
  (* index array *)
  destruct (wp_ok_inv (for_ b (n + b) (fun i ix => do v <- rd b vn i; wr b ix v i) (repeat (-1) (Z.to_nat (vertnbr g))))
    (fun ix => zlen ix = vertnbr g /\ forall w, isvert g w -> at_ b ix w = renum b l w)) as (ix & Eix & Lix & Hix).
  { apply wp_for with (I := fun i ix => zlen ix = vertnbr g /\
      forall w, isvert g w -> at_ b ix w = renum b (firstn (Z.to_nat (i - b)) l) w); [lia| | |].
    - split; [rewrite zlen_repeat; lia|]. intros w Hw. unfold isvert in Hw. rewrite Z.sub_diag. cbn [Z.to_nat firstn].
      rewrite renum_nin by auto. apply at_repeat. fold b in Hw. fold b in Nn. lia.
    - intros i ix Hi (L & A). rewrite rd_ok by lia. cbn [bind].
      assert (Ev : at_ b vn i = at_ 0 l (i - b)).
      { rewrite (at_rebase 0 b). unfold vn. rewrite at_app1 by (fold n; lia). f_equal. lia. }
      rewrite Ev. set (v := at_ 0 l (i - b)). assert (Iv : isvert g v) by (apply HL, at_In; fold n; lia).
      pose proof Iv as Iv'. unfold isvert in Iv'. fold b in Iv', Nn. rewrite wr_ok by lia. cbn [wp].
      split; [now rewrite zlen_upd|]. intros w Hw. pose proof Hw as Hw'. unfold isvert in Hw'. fold b in Hw'.
      rewrite at_upd by lia. replace (i + 1 - b) with (i - b + 1) by lia. rewrite firstn_snoc by (fold n; lia). fold v.
      assert (Nv : ~ In v (firstn (Z.to_nat (i - b)) l)).
      { intros C. apply (In_at 0) in C as (k & Hk & Ek). rewrite zlen_firstn in Hk by (fold n; lia). rewrite at_firstn in Ek by lia.
        unfold v in Ek. apply (proj2 (NoDup_at 0 l) ND) in Ek; fold n; lia. }
      unfold renum. rewrite posn_app. destruct (Z.eqb_spec v w) as [<-|Hne].
      + rewrite (proj2 (posn_none _ v) Nv). cbn [posn]. rewrite Z.eqb_refl. rewrite zlen_firstn by (fold n; lia). lia.
      + rewrite A by auto. unfold renum. destruct (posn _ w); auto. cbn [posn]. destruct (Z.eqb_spec v w); [congruence|auto].
    - intros ix (L & A). split; auto. intros w Hw. rewrite A by auto. f_equal.
      replace (n + b - b) with n by lia. apply firstn_zlen. }
  rewrite Eix. cbn [bind].
  set (st := mkhind vn ix (repeat jk (Z.to_nat cap)) (repeat jk (Z.to_nat (vmax + 1))) (match velotab g with Some _ => Some (repeat jk (Z.to_nat vmax)) | None => None end) (repeat jk (Z.to_nat n)) (n + b) b 0 0 0).
  assert (K0 : inv1 g l hn cap 0 [] st).
  { constructor; cbn [i_vn i_ix i_ed i_vt i_vl i_nh i_fn i_en i_vsum i_enoh i_dmax st].
    - constructor; rewrite ?app_nil_r; auto.
      + intros w [].
      + intros k Hk. unfold vn. apply at_app1. lia.
      + fold n b. lia.
    - intros k w Hk. lia.
    - rewrite offs_0. fold b. lia.
    - apply Lm. lia.
    - intros. lia.
    - rewrite Lm by (unfold vmax; lia). fold n. unfold vmax. lia.
    - intros. lia.
    - unfold vlOk. destruct (velotab g); auto. split; [|now rewrite zsum_nil by lia].
      exists (repeat jk (Z.to_nat vmax)). split; auto. split; [apply Lm; unfold vmax; lia|intros; lia].
    - apply Lm; lia.
    - intros; lia.
    - now rewrite zsum_nil by lia.
    - split; [lia|intros; lia]. }
  destruct (hindVerts_spec g l H hn V R B0 ND HL HH HN cap HC st K0) as (hl & st1 & E1 & K1). fold b in E1, K1. fold n in E1, K1.
  rewrite E1. cbn [bind].
  destruct (hindHVerts_spec g l H hn V R B0 ND HL HH HN cap HC hl st1 K1) as (st2 & E2 & K2). fold b in E2, K2. fold n in E2, K2.
  rewrite E2. cbn [bind].
  pose proof (j_idx _ _ _ _ _ _ _ K1) as KI.
  set (all := l ++ hl) in *. set (L := LL g l hl).
  pose proof (k_nd _ _ _ _ _ _ _ KI) as NDa. fold all in NDa.
  pose proof (k_fn _ _ _ _ _ _ _ KI) as Efn. fold all in Efn. fold b in Efn.
  assert (Hb : zlen hl <= hn) by exact (hl_bound g l H hn ND HL HH HN hl NDa (k_from _ _ _ _ _ _ _ KI)).
  assert (AV : forall w, In w all -> isvert g w) by exact (all_vert g l hn V HL cap hl st1 K1).
  assert (La : zlen all = n + zlen hl) by (unfold all; rewrite zlen_app; reflexivity). pose proof (zlen_nonneg hl) as Lh.
  assert (Al : forall k, 0 <= k < n -> at_ 0 all k = at_ 0 l k) by (intros; apply at_app1; fold n; lia).
  assert (Lcap : offs L (zlen all) <= cap) by (apply (offs_LL_cap g l H hn V ND HL HH HN cap HC hl st1 K1); fold all; lia).
  pose proof (offs_mono L 0 (zlen all) ltac:(lia)) as Loff. rewrite offs_0 in Loff.
  pose proof (q_vtl _ _ _ _ _ _ _ _ K2) as Lvt. fold n in Lvt.
  pose proof (q_en _ _ _ _ _ _ _ _ K2) as Een. fold b L in Een.
  rewrite wr_ok by lia. cbn [bind].
  destruct (q_same _ _ _ _ _ _ _ _ K2) as (S1 & S2 & S3 & S4 & S5). rewrite S1, S4, S5.
  assert (RV : exists vn', (match vnumtab g with
     | None => Ok (i_vn st1)
     | Some t => for_ b (i_fn st1) (fun i vn => do x <- rd b vn i; do y <- rd b t x; wr b vn i y) (i_vn st1)
     end) = Ok vn' /\ zlen vn' = n + hn /\ forall k, 0 <= k < zlen all -> at_ 0 vn' k = orgnum g (at_ 0 all k)).
  { pose proof (k_vn _ _ _ _ _ _ _ KI) as Lvn1. fold n in Lvn1. unfold orgnum. destruct (vnumtab g) as [t|] eqn:Et.
    - pose proof (VN t eq_refl) as Lt.
      destruct (wp_ok_inv (for_ b (i_fn st1) (fun i vn => do x <- rd b vn i; do y <- rd b t x; wr b vn i y) (i_vn st1))
        (fun vn' => zlen vn' = n + hn /\ forall k, 0 <= k < zlen all -> at_ 0 vn' k = at_ b t (at_ 0 all k))) as (vn' & X1 & X2); [|eauto].
      apply wp_for with (I := fun i vn' => zlen vn' = n + hn /\
        forall k, 0 <= k < zlen all -> at_ 0 vn' k = if k <? i - b then at_ b t (at_ 0 all k) else at_ 0 all k); [lia| | |].
      + split; auto. intros k Hk. destruct (Z.ltb_spec k (b - b)); [lia|]. apply (k_vnat _ _ _ _ _ _ _ KI). auto.
      + intros i vn1 Hi (X1 & X2). rewrite rd_ok by lia. cbn [bind].
        assert (Ev : at_ b vn1 i = at_ 0 all (i - b)).
        { rewrite (at_rebase 0 b). replace (i - b + 0) with (i - b) by lia. rewrite X2 by lia. destruct (Z.ltb_spec (i - b) (i - b)); [lia|auto]. }
        rewrite Ev. assert (Iv : isvert g (at_ 0 all (i - b))) by (apply AV, at_In; lia). unfold isvert in Iv. fold b in Iv, Nn.
        rewrite rd_ok by lia. cbn [bind]. rewrite wr_ok by lia. cbn [wp]. split; [now rewrite zlen_upd|].
        intros k Hk. rewrite (at_rebase b 0). rewrite at_upd by lia. destruct (Z.eqb_spec i (k - 0 + b)).
        * replace k with (i - b) by lia. destruct (Z.ltb_spec (i - b) (i + 1 - b)); [auto|lia].
        * rewrite <- (at_rebase b 0). rewrite X2 by lia. destruct (Z.ltb_spec k (i - b)); destruct (Z.ltb_spec k (i + 1 - b)); auto; lia.
      + intros vn1 (X1 & X2). split; auto. intros k Hk. rewrite X2 by auto. destruct (Z.ltb_spec k (i_fn st1 - b)); [auto|lia].
    - exists (i_vn st1). split; auto. split; auto. intros k Hk. apply (k_vnat _ _ _ _ _ _ _ KI). auto. }
  destruct RV as (vn' & Evn & Lvn' & Hvn'). rewrite Evn. cbn [bind].
  replace (i_fn st1 - b) with (zlen all) by lia. replace (i_en st2 - b) with (offs L (zlen all)) by lia.
  set (vt := upd b (i_vt st2) (i_fn st1) (i_en st2)).
  set (vl := i_vl st2). set (nh := i_nh st1).
  (* neighbour lists *)
  assert (CH : forall i w, 0 <= i < zlen all -> In w (L i) <->
    exists j, 0 <= j < zlen all /\ w = b + j /\ In (at_ 0 all j) (ends g (at_ 0 all i)) /\ (i < n \/ j < n)).
  { intros i w Hi. unfold L, LL. fold n all b. destruct (Z.ltb_spec i n) as [Hin|Hin].
    - unfold nhlist. fold all b. rewrite in_map_iff. split.
      + intros (y & <- & Hy). assert (Hy' : In y (ends g (at_ 0 l i))).
        { apply in_app_or in Hy as [Hy|Hy]; [|apply in_rev in Hy]; [apply sel_in in Hy|apply nsel_in in Hy]; tauto. }
        assert (Ya : In y all) by (apply (j_in _ _ _ _ _ _ _ K1 i); [lia|auto]).
        destruct (renum_in b all y Ya) as (j & Hj & Ej & Aj & _). exists j. rewrite Aj, Ej, Al by lia. auto.
      + intros (j & Hj & -> & Hy & _). exists (at_ 0 all j). rewrite renum_at by auto. split; auto.
        rewrite (Al i) in Hy by lia. apply in_or_app. destruct (in_dec Z.eq_dec (at_ 0 all j) l).
        * left. apply sel_in. auto.
        * right. apply -> in_rev. apply nsel_in. auto.
    - rewrite in_map_iff. split.
      + intros (y & <- & Hy). apply sel_in in Hy as [Hy Yl].
        destruct (renum_in b l y Yl) as (j & Hj & _ & Aj & _). fold n in Hj. exists j.
        assert (Ey : at_ 0 all j = y) by (rewrite Al; auto). rewrite <- Ey. rewrite renum_at by (auto; lia).
        rewrite Ey. repeat split; auto; lia.
      + intros (j & Hj & -> & Hy & Hor). assert (j < n) by lia. exists (at_ 0 all j). rewrite renum_at by auto. split; auto.
        apply sel_in. split; auto. rewrite Al by lia. apply at_In. fold n. lia. }
  assert (ND' : forall i, 0 <= i < zlen all -> NoDup (L i)).
  { intros i Hi. assert (Iv : isvert g (at_ 0 all i)) by (apply AV, at_In; lia). pose proof (ends_NoDup g _ V Iv) as N.
    unfold L, LL. fold n all b. destruct (Z.ltb_spec i n) as [Hin|Hin].
    - unfold nhlist. fold all b. rewrite Al in N by lia. apply NoDup_map_inj.
      + assert (XX : forall z, In z (sel l (ends g (at_ 0 l i)) ++ rev (nsel l (ends g (at_ 0 l i)))) -> In z all).
        { intros z Hz. apply (j_in _ _ _ _ _ _ _ K1 i); [lia|]. unfold D.
          apply in_app_or in Hz as [Hz|Hz]; [|apply in_rev in Hz]; [apply sel_in in Hz|apply nsel_in in Hz]; tauto. }
        intros x y Hx Hy. apply renum_inj; auto.
      + apply (Permutation_NoDup (l := ends g (at_ 0 l i))); auto. rewrite <- Permutation_rev.
        clear. induction (ends g (at_ 0 l i)) as [|x s IH]; [reflexivity|]. unfold sel, nsel in *. cbn [filter].
        destruct (selected l x); cbn [negb app]; [now constructor|]. now apply Permutation_cons_app.
    - apply NoDup_map_inj.
      + intros x y Hx Hy. apply sel_in in Hx, Hy. apply renum_inj; apply in_or_app; tauto.
      + apply NoDup_filter. auto. }
  set (g' := mkgraph b (zlen all) (i_fn st1) vt None vl (match velotab g with Some _ => i_vsum st2 | None => zlen all end) (Some vn') None
     (offs L (zlen all)) (firstn (Z.to_nat (offs L (zlen all))) (i_ed st2)) None (offs L (zlen all)) (i_dmax st2)).
  pose proof (q_edl _ _ _ _ _ _ _ _ K2) as Led.
  assert (LO : laid_out g' (ones L)).
  { constructor; cbn [baseval vertnbr vertnnd verttab vendtab edgetab edlotab g'].
    - lia.
    - lia.
    - auto.
    - unfold vt. rewrite zlen_upd. lia.
    - intros i Hi. rewrite offs_ones. unfold vt. rewrite at_upd by lia. destruct (Z.eqb_spec (i_fn st1) (b + i)).
      + replace i with (zlen all) by lia. auto.
      + apply (q_vt _ _ _ _ _ _ _ _ K2). fold all. lia.
    - rewrite offs_ones. rewrite zlen_firstn by lia. lia.
    - intros i k Hi. rewrite zlen_ones, offs_ones. intros Hk. unfold edge. cbn [baseval edgetab g'].
      assert (B1 : offs L i + zlen (L i) <= offs L (zlen all)). { rewrite <- offs_S by lia. apply offs_mono. lia. }
      pose proof (offs_mono L 0 i ltac:(lia)) as B2. rewrite offs_0 in B2.
      rewrite at_firstn by lia. rewrite (q_ed _ _ _ _ _ _ _ _ K2) by (fold all L; lia).
      unfold ones. rewrite at_map by (unfold L in *; lia). reflexivity.
    - intros i k Hi. rewrite zlen_ones. intros Hk. unfold ones. rewrite at_map by (unfold L in *; lia). reflexivity.
    - discriminate. }
  assert (VLs : forall i, 0 <= i < zlen all -> velo g' (b + i) = velo g (at_ 0 all i)).
  { intros i Hi. unfold velo at 1. cbn [velotab baseval g']. pose proof (q_vl _ _ _ _ _ _ _ _ K2) as KV. unfold vlOk in KV. fold vl in KV.
    destruct (velotab g) eqn:Ev.
    - destruct KV as ((t & -> & Lt & Ht) & _). fold b all in Ht. rewrite Ht by auto. reflexivity.
    - destruct KV as [-> _]. unfold velo. now rewrite Ev. }
  assert (ZV : forall f hi, zsum b (b + hi) f = zsum 0 hi (fun i => f (b + i))).
  { intros f hi. rewrite <- (Z.add_0_l b) at 1. rewrite (Z.add_comm b hi). rewrite <- zsum_shift. apply zsum_ext. intros. now rewrite Z.add_comm. }
  assert (RD : graph_readable g').
  { apply (laid_readable _ _ LO). cbn [velotab vertnbr g']. intros t Et. pose proof (q_vl _ _ _ _ _ _ _ _ K2) as KV. unfold vlOk in KV. fold vl in KV.
    rewrite Et in KV. destruct (velotab g).
    - destruct KV as ((t' & [= <-] & Lt & _) & _). lia.
    - destruct KV as [? _]. discriminate. }
  assert (GV : graph_valid g').
  { apply (laid_valid _ _ LO); cbn [baseval vertnbr vertnnd edgenbr velosum edlosum degrmax g'].
    - intros i w ld Hi Hw. unfold ones in Hw. apply in_map_iff in Hw as (w' & [= <- <-] & Hw). apply CH in Hw as (j & Hj & -> & Hy & Hor); auto.
      split; [lia|].
      assert (Iv : isvert g (at_ 0 all i)) by (apply AV, at_In; lia).
      destruct (ends_sym g _ _ V Iv Hy) as (Y1 & Y2 & Y3). split.
      { intros E. assert (i = j) by lia. subst. congruence. }
      split; [lia|]. apply in_map_iff. exists (b + i). split; auto. replace (b + j - b) with j by lia. apply CH; auto.
      exists i. repeat split; auto; tauto.
    - intros i Hi. rewrite map_fst_ones. auto.
    - intros v Hv. unfold isvert in Hv. cbn [baseval vertnnd g'] in Hv. replace v with (b + (v - b)) by lia. rewrite VLs by lia.
      apply (gv_velo g V). apply AV, at_In. lia.
    - now rewrite offs_ones.
    - rewrite Efn, ZV. rewrite (zsum_ext _ _ _ (fun i => velo g (at_ 0 all i))) by (intros; apply VLs; auto).
      pose proof (q_vl _ _ _ _ _ _ _ _ K2) as KV. unfold vlOk in KV. destruct (velotab g) eqn:Ev.
      + destruct KV as [_ ->]. reflexivity.
      + rewrite (zsum_ext _ _ _ (fun _ => 1)) by (intros; unfold velo; now rewrite Ev). rewrite zsum_const; lia.
    - unfold offs. apply zsum_ext. intros. now rewrite lsum_ones.
    - apply (q_dmax _ _ _ _ _ _ _ _ K2).
    - intros i Hi. rewrite zlen_ones. apply (q_dmax _ _ _ _ _ _ _ _ K2). auto. }
  assert (OD : forall i, 0 <= i <= n -> offs L i = offs (D g l) i).
  { intros i Hi. eapply offs_LL_D; eassumption. }
  assert (Vv : forall i, 0 <= i < zlen all -> vert g' (b + i) = b + offs L i).
  { intros i Hi. rewrite <- offs_ones. apply (lo_vert' g' _ LO). auto. }
  assert (Ve : forall i, 0 <= i < zlen all -> vend g' (b + i) = b + offs L i + zlen (L i)).
  { intros i Hi. rewrite <- (offs_ones L), <- zlen_ones. apply (lo_vend' g' _ LO). auto. }
  assert (Ed : forall i k, 0 <= i < zlen all -> 0 <= k < zlen (L i) -> edge g' (b + offs L i + k) = at_ 0 (L i) k).
  { intros i k Hi Hk. rewrite <- (offs_ones L). etransitivity; [apply (lo_edge g' _ LO); [auto|now rewrite zlen_ones]|].
    unfold ones. rewrite at_map by auto. reflexivity. }
  assert (NB : forall i, 0 <= i < zlen all -> map fst (nbr g' (b + i)) = L i).
  { intros i Hi. change b with (baseval g'). rewrite (laid_nbr g' _ LO) by auto. apply map_fst_ones. }
  eexists. exists hl. split; [reflexivity|]. fold g'. split.
  { constructor; cbn [hs vnohnbr vnohnnd vnhdtab hlevl]; fold g b all; auto.
    - intros w. split.
      + intros Hw. split; [now apply (NoDup_app_nin l hl)|]. apply (k_from _ _ _ _ _ _ _ KI w Hw).
      + intros (Hw & v & Hv & Hwv). apply (In_at 0) in Hv as (k & Hk & <-).
        assert (X : In w all) by (apply (j_in _ _ _ _ _ _ _ K1 k); [fold n in Hk; lia|auto]).
        apply in_app_or in X. tauto.
    - intros i Hi. fold n in Hi. rewrite NB by (clear - Hi Lh La; lia). unfold L, LL. destruct (Z.ltb_spec i (zlen l)) as [_|C]; [|fold n in C; lia]. reflexivity.
    - intros i Hi. fold n in Hi. rewrite NB by (clear - Hi Lh La Ln; lia). unfold L, LL. destruct (Z.ltb_spec i (zlen l)) as [C|_]; [fold n in C; lia|]. reflexivity.
    - exists vn'. split; auto.
    - cbn [velotab g']. pose proof (q_vl _ _ _ _ _ _ _ _ K2) as KV. unfold vlOk in KV. fold vl in KV. destruct (velotab g).
      + destruct KV as ((t & -> & _) & _). split; discriminate.
      + destruct KV as [-> _]. tauto. }
  assert (NH : forall i, 0 <= i < n -> at_ b nh (b + i) = b + offs L i + zlen (sel l (ends g (at_ 0 l i)))).
  { intros i Hi. rewrite OD by lia. apply (j_nh _ _ _ _ _ _ _ K1). lia. }
  assert (LI : forall i, 0 <= i < n -> L i = map (renum b all) (sel l (ends g (at_ 0 l i))) ++ map (renum b all) (rev (nsel l (ends g (at_ 0 l i))))).
  { intros i Hi. unfold L, LL. destruct (Z.ltb_spec i (zlen l)) as [_|C]; [|fold n in C; lia]. unfold nhlist. now rewrite map_app. }
  clear E1 E2 K0 Eix Evn HC. pose proof (j_nhl _ _ _ _ _ _ _ K1) as Lnh. fold nh n in Lnh. clearbody st vn cap nh vl vt vmax L.
  constructor; cbn [hs vnohnbr vnohnnd vnhdtab vnlosum enohnbr enlosum hlevl]; auto; try (change (baseval g') with b).
  - change (vertnbr g') with (zlen all). lia.
  - lia.
  - intros t [= <-]. change (vertnbr g') with (zlen all). lia.
  - lia.
  - assert (J : forall i y, 0 <= i < n -> In y (ends g (at_ 0 l i)) -> In y all) by (intros i y Hi Hy; exact (j_in _ _ _ _ _ _ _ K1 i y Hi Hy)).
    clear - Vv Ve Ed NH LI J B0 La Lh Ln.
    intros v Hv. replace v with (b + (v - b)) by lia. set (i := v - b) in *. assert (Hi : 0 <= i < n) by lia. clearbody i. clear v Hv.
    rewrite Vv, Ve, NH by lia. pose proof (LI i Hi) as EL.
    assert (ZL : zlen (L i) = zlen (sel l (ends g (at_ 0 l i))) + zlen (nsel l (ends g (at_ 0 l i)))).
    { rewrite EL, zlen_app, !zlen_map, zlen_rev. reflexivity. }
    pose proof (zlen_nonneg (sel l (ends g (at_ 0 l i)))). pose proof (zlen_nonneg (nsel l (ends g (at_ 0 l i)))).
    split; [lia|]. intros e He. replace e with (b + offs L i + (e - b - offs L i)) by lia. set (k := e - b - offs L i) in *.
    rewrite Ed by lia. rewrite EL. 
    assert (LA : zlen (map (renum b all) (sel l (ends g (at_ 0 l i)))) = zlen (sel l (ends g (at_ 0 l i)))) by apply zlen_map.
    assert (YA : forall y, In y (ends g (at_ 0 l i)) -> In y all) by (intros y Hy; apply (J i); auto).
    destruct (Z.lt_ge_cases k (zlen (sel l (ends g (at_ 0 l i))))) as [Hk|Hk].
    + rewrite at_app1 by lia. rewrite at_map by lia. split; [lia|]. intros _.
      assert (X : In (at_ 0 (sel l (ends g (at_ 0 l i))) k) (sel l (ends g (at_ 0 l i)))) by (apply at_In; lia).
      apply sel_in in X as [_ X]. unfold all. rewrite renum_ext by auto. destruct (renum_in b l _ X) as (j & Hj & -> & _). fold n in Hj. lia.
    + rewrite at_app2 by lia. rewrite LA. rewrite at_map by (rewrite zlen_rev; lia). split; [|lia]. intros C. exfalso.
      set (y := at_ 0 (rev (nsel l (ends g (at_ 0 l i)))) (k - zlen (sel l (ends g (at_ 0 l i))))) in *.
      assert (X : In y (rev (nsel l (ends g (at_ 0 l i))))) by (apply at_In; rewrite zlen_rev; lia).
      apply in_rev in X. apply nsel_in in X as [X1 X2].
      pose proof (renum_sel b l hl y (YA y X1) B0) as RS. rewrite (proj2 (selected_nin l y) X2) in RS. cbn [negb] in RS.
      apply Z.leb_le in RS. fold n all in RS. lia.
  - intros v e [Hv He] Hge. unfold isvert in Hv. cbn [baseval vertnnd g'] in Hv. replace v with (b + (v - b)) in He by lia.
    clear - Vv Ve Ed CH Hv Hge He Efn La Lh Ln.
    set (i := v - b) in *. assert (Hi : n <= i < zlen all) by lia. clearbody i. clear v Hv Hge. rewrite Vv, Ve in He by lia.
    replace e with (b + offs L i + (e - b - offs L i)) by lia. rewrite Ed by lia.
    assert (X : In (at_ 0 (L i) (e - b - offs L i)) (L i)) by (apply at_In; lia).
    apply CH in X as (j & Hj & -> & _ & Hor); lia.
  - rewrite (Z.add_comm n b), ZV. rewrite (zsum_ext _ _ _ (fun i => velo g (at_ 0 l i))) by (intros; rewrite VLs, Al by lia; reflexivity).
    pose proof (j_vl _ _ _ _ _ _ _ K1) as KV. unfold vlOk in KV. destruct (velotab g) eqn:Ev.
    + destruct KV as [_ ->]. reflexivity.
    + rewrite (zsum_ext _ _ _ (fun _ => 1)) by (intros; unfold velo; now rewrite Ev). rewrite zsum_const; lia.
  - rewrite (Z.add_comm n b), ZV. rewrite (j_enoh _ _ _ _ _ _ _ K1). fold n. apply zsum_ext. intros i Hi.
    rewrite NH, Vv by lia. unfold D. lia.
Qed.
