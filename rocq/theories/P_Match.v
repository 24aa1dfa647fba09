(** Proofs about sequential matching. *)
From Verif Require Import Base M_Sort M_Graph M_Match S_Graph S_Color S_Match S_Sort P_Sort P_Sort2 P_Graph P_GraphList P_Induce.

Lemma free_app ps l v : free (ps ++ l) v <-> free ps v /\ free l v.
Proof.
  unfold free. split; [intros H; split; intros; apply H; apply in_or_app; auto|]. intros (H1 & H2) p q I. apply in_app_or in I as [I|I]; auto.
Qed.
Lemma free_one p q v : free [(p, q)] v <-> v <> p /\ v <> q.
Proof. unfold free. split; [intros H; apply H; now left|]. intros H a z [[= <- <-]|[]]. auto. Qed.

Lemma rev_case {A} (l : list A) : l = [] \/ exists l' x, l = l' ++ [x].
Proof. destruct l as [|y l]; [now left|]. right. destruct (exists_last (l := y :: l)) as (l' & x & E); [discriminate|]. eauto. Qed.

Ltac eqbs := repeat match goal with |- context [?a =? ?c] => destruct (Z.eqb_spec a c) end.

Section Match.
Context (g : graph) (V : graph_valid g) (R : graph_readable g) (HB : 0 <= baseval g).
Context (fx el nomerge : bool) (fix_ par : option (list Z)) (PF : per_vertex g fix_) (PP : per_vertex g par) (HEL : el = matchEl g).
Notation b := (baseval g).
Notation n := (vertnbr g).

Definition ok (v w : Z) : Prop := fx = true -> same b fix_ v w /\ same b par v w.

Lemma rcompat_spec v w : isvert g v -> isvert g w -> exists c, rcompat fx b fix_ par v w = Ok c /\ (c = true <-> ok v w).
Proof.
  intros (V1 & V2) (W1 & W2). pose proof (gv_nnd g V) as Hn. unfold rcompat, ok.
  assert (G : forall o, per_vertex g o -> exists c, match o with None => Ok true | Some t => do x <- rd b t w; do y <- rd b t v; Ok (x =? y) end = Ok c /\ (c = true <-> same b o v w)).
  { intros [t|] P.
    - specialize (P t eq_refl). rewrite !rd_ok by lia. cbn [bind]. eexists; split; [reflexivity|]. unfold same. split.
      + intros E l [= <-]. lia.
      + intros E. specialize (E t eq_refl). lia.
    - eexists; split; [reflexivity|]. split; auto. intros _ l [=]. }
  destruct fx.
  - destruct (G fix_ PF) as (c1 & -> & H1). cbn [bind]. destruct c1.
    + destruct (G par PP) as (c2 & -> & H2). eexists; split; [reflexivity|]. tauto.
    + eexists; split; [reflexivity|]. split; [discriminate|]. intros H. destruct (H eq_refl) as (A & _). apply H1. auto.
  - eexists; split; [reflexivity|]. split; auto. intros _ [=].
Qed.

(** [mate] holds exactly the groups of [ps] *)
Definition minv (mate : list Z) (ps : list (Z * Z)) : Prop :=
  zlen mate = n /\ (forall p q, In (p, q) ps -> isvert g p /\ isvert g q /\ at_ b mate p = q /\ at_ b mate q = p) /\
  (forall v, isvert g v -> free ps v -> at_ b mate v < 0).

Lemma minv_free mate ps v : minv mate ps -> isvert g v -> (at_ b mate v < 0 <-> free ps v).
Proof.
  intros (M1 & M2 & M3) Hv. split; [|auto]. intros H p q I. destruct (M2 p q I) as ((P1 & _) & (Q1 & _) & E1 & E2). split; intros ->; lia.
Qed.

Section Pick.
Context (que qv : list Z) (dlt : Z) (HD : dlt = 1 \/ dlt = 2).
Notation off := (Z.shiftr dlt 1).
Context (HQ : forall i, 0 <= i < zlen qv -> at_ 0 que (off + i * dlt) = at_ 0 qv i)
        (HL : off + zlen qv * dlt < zlen que + dlt)
        (HV : forall v, In v qv -> isvert g v) (HN : NoDup qv).

Lemma off_cases : dlt = 1 /\ off = 0 \/ dlt = 2 /\ off = 1.
Proof. destruct HD as [->| ->]; [left|right]; split; reflexivity. Qed.

Lemma que_rd i : 0 <= i < zlen qv -> rd 0 que (off + i * dlt) = Ok (at_ 0 qv i).
Proof. intros Hi. rewrite rd_ok; [now rewrite HQ|]. assert (H := HL). destruct off_cases as [(E1 & E2)|(E1 & E2)]; rewrite E2, E1 in *; lia. Qed.

Lemma zlen_qv : zlen qv <= zlen que.
Proof. pose proof (zlen_nonneg qv). destruct off_cases as [(E & E')|(E & E')]; rewrite E' in HL; nia. Qed.

(** the candidates left in the queue *)
Definition done (mate : list Z) (k j : Z) : Prop := forall i, (0 <= i < k \/ j <= i < zlen qv) -> 0 <= at_ b mate (at_ 0 qv i).

Lemma matchTrim_spec mate k j : zlen mate = n -> 0 <= k < j -> j <= zlen qv -> at_ b mate (at_ 0 qv k) < 0 -> done mate k j ->
  exists j', matchTrim b que mate dlt (off + k * dlt) (off + j * dlt) = Ok (off + j' * dlt) /\ k < j' <= j /\ done mate k j'.
Proof.
  intros Lm Hk Hj Hf HDn. pose proof zlen_qv as Lq. pose proof (gv_nnd g V) as Hn. unfold matchTrim.
  match goal with |- exists j', ?r = _ /\ _ => destruct (wp_ok_inv r (fun x => exists j', x = off + j' * dlt /\ k < j' <= j /\ done mate k j')) as (x & -> & (j' & -> & H)) end; [|eauto].
  apply wp_loop with (I := fun x => exists j', x = off + j' * dlt /\ k < j' <= j /\ done mate k j') (m := fun x => (x - off) / dlt - k).
  - exists j. split; [auto|]. split; [lia|auto].
  - replace (off + j * dlt - off) with (j * dlt) by lia. rewrite Z.div_mul by lia. unfold zlen in *. lia.
  - intros x (j' & -> & Hj' & Hd). replace (off + k * dlt <? off + j' * dlt) with true by (symmetry; apply Z.ltb_lt; nia).
    replace (off + j' * dlt - dlt) with (off + (j' - 1) * dlt) by lia. rewrite que_rd by lia. cbn [bind].
    assert (W : isvert g (at_ 0 qv (j' - 1))) by (apply HV, at_In; lia). rewrite rd_ok by (destruct W; lia). cbn [bind].
    destruct (Z.leb_spec 0 (at_ b mate (at_ 0 qv (j' - 1)))) as [Hm|Hm]; cbn [wp].
    + assert (j' - 1 <> k) by (intros E; rewrite E in Hm; lia). split.
      * exists (j' - 1). split; [auto|]. split; [lia|]. intros i Hi. destruct (Z.eq_dec i (j' - 1)) as [->|]; [auto|]. apply Hd. lia.
      * replace (off + (j' - 1) * dlt - off) with ((j' - 1) * dlt) by lia. replace (off + j' * dlt - off) with (j' * dlt) by lia. rewrite !Z.div_mul by lia. lia.
    + exists j'. split; [auto|]. split; [lia|auto].
Qed.

Lemma matchLast_spec mate ps k j : minv mate ps -> 0 <= k < j -> j <= zlen qv -> at_ b mate (at_ 0 qv k) < 0 -> done mate k j ->
  let v := at_ 0 qv k in
  exists w j', matchLast fx b fix_ par que mate dlt (off + k * dlt) (off + j * dlt) v = Ok (w, off + j' * dlt) /\
    k <= j' <= j /\ In w qv /\ free ps w /\ ok v w /\
    (forall i, j' <= i < zlen qv -> 0 <= at_ b mate (at_ 0 qv i) \/ at_ 0 qv i = w) /\
    (w = v -> forall u, In u qv -> free ps u -> ok v u -> u = v).
Proof.
  intros MI Hk Hj Hf HDn v. pose proof zlen_qv as Lq. pose proof (gv_nnd g V) as Hn. pose proof MI as (Lm & _). unfold matchLast.
  assert (Hv : In v qv) by (apply at_In; lia). assert (Vv : isvert g v) by auto.
  match goal with |- exists w j', ?r = _ /\ _ => destruct (wp_ok_inv r (fun x => exists w j', x = (w, off + j' * dlt) /\ k <= j' <= j /\ In w qv /\ free ps w /\ ok v w /\
    (forall i, j' <= i < zlen qv -> 0 <= at_ b mate (at_ 0 qv i) \/ at_ 0 qv i = w) /\ (w = v -> forall u, In u qv -> free ps u -> ok v u -> u = v))) as (x & -> & (w & j' & -> & H)) end; [|eauto].
  apply wp_loop with (I := fun x => exists q, x = off + q * dlt /\ k < q <= j /\ (forall i, q <= i < j -> 0 <= at_ b mate (at_ 0 qv i) \/ (fx = true /\ ~ ok v (at_ 0 qv i)))) (m := fun x => (x - off) / dlt - k).
  - exists j. split; [auto|]. split; [lia|]. intros; lia.
  - replace (off + j * dlt - off) with (j * dlt) by lia. rewrite Z.div_mul by lia. unfold zlen in *. lia.
  - intros x (q & -> & Hq & Hs). replace (off + k * dlt <? off + q * dlt) with true by (symmetry; apply Z.ltb_lt; nia).
    replace (off + q * dlt - dlt) with (off + (q - 1) * dlt) by lia. rewrite que_rd by lia. cbn [bind].
    set (w := at_ 0 qv (q - 1)) in *. assert (Iw : In w qv) by (apply at_In; lia). assert (W : isvert g w) by auto. rewrite rd_ok by (destruct W; lia). cbn [bind].
    assert (Hmq : (off + (q - 1) * dlt - off) / dlt - k = q - 1 - k) by (replace (off + (q - 1) * dlt - off) with ((q - 1) * dlt) by lia; rewrite Z.div_mul by lia; lia).
    assert (Hmq' : (off + q * dlt - off) / dlt - k = q - k) by (replace (off + q * dlt - off) with (q * dlt) by lia; rewrite Z.div_mul by lia; lia).
    destruct (Z.ltb_spec (at_ b mate w) 0) as [Hm|Hm].
    + destruct (rcompat_spec v w Vv W) as (c & -> & Hc). cbn [bind]. destruct c.
      * cbn [wp]. exists w, (if fx then j else q - 1). split; [destruct fx; auto|]. split; [destruct fx; lia|]. split; [auto|]. split; [apply (minv_free mate); auto|].
        split; [tauto|]. split.
        -- intros i. destruct fx eqn:Efx; intros Hi; [left; apply HDn; lia|]. destruct (Z.eq_dec i (q - 1)) as [->|]; [auto|]. left. destruct (Z.ltb_spec i j); [|apply HDn; lia].
           destruct (Hs i) as [?|(? & _)]; [lia|auto|discriminate].
        -- intros Ewv u Iu Fu Ou. apply (minv_free mate ps) in Fu; auto. apply (In_at 0) in Iu as (i & Hi & <-).
           destruct (Z.eq_dec i k) as [->|]; [auto|]. destruct (Z.ltb_spec i k); [specialize (HDn i ltac:(lia)); lia|]. destruct (Z.leb_spec j i); [specialize (HDn i ltac:(lia)); lia|].
           destruct (Z.leb_spec q i); [destruct (Hs i) as [?|(_ & ?)]; [lia|lia|contradiction]|].
           destruct (Z.eq_dec i (q - 1)) as [->|]; [fold w; auto|]. exfalso.
           assert (q - 1 = k) by (apply (proj2 (NoDup_at 0 qv) HN); try lia; exact Ewv). lia.
      * cbn [wp]. destruct (Z.eq_dec (q - 1) k) as [E|NE]; [exfalso; assert (ok v w) by (unfold w; rewrite E; intros _; split; intros l _; reflexivity); destruct Hc as (_ & Hc); specialize (Hc H); discriminate|].
        split; [|lia]. exists (q - 1). split; [auto|]. split; [lia|]. intros i Hi. destruct (Z.eq_dec i (q - 1)) as [->|]; [|apply Hs; lia].
        right. fold w. destruct fx eqn:Efx; [|exfalso; destruct Hc as (_ & Hc); assert (ok v w) by (intros E0; congruence); discriminate (Hc H)]. split; [auto|]. intros O. apply Hc in O. discriminate.
    + cbn [wp]. destruct (Z.eq_dec (q - 1) k) as [E|NE]; [unfold w in Hm; rewrite E in Hm; lia|].
      split; [|lia]. exists (q - 1). split; [auto|]. split; [lia|]. intros i Hi. destruct (Z.eq_dec i (q - 1)) as [->|]; [left; fold w; lia|]. apply Hs; lia.
Qed.

Lemma matchNbr_spec mate ps v : minv mate ps -> isvert g v -> vert g v < vend g v ->
  exists w, matchNbr fx el g fix_ par mate v (vert g v) (vend g v) = Ok w /\
    ((w = v /\ forall e, arc g v e -> free ps (edge g e) -> ~ ok v (edge g e)) \/
     (exists e, arc g v e /\ edge g e = w /\ free ps w /\ ok v w /\ forall e', arc g v e' -> free ps (edge g e') -> ok v (edge g e') -> edlo g e' <= edlo g e)).
Proof.
  intros MI Hv Hlt. pose proof MI as (Lm & _). pose proof (gv_nnd g V) as Hn. unfold matchNbr.
  set (Best := fun hi w lb => (w = v /\ lb = -1 /\ forall e, vert g v <= e < hi -> free ps (edge g e) -> ~ ok v (edge g e)) \/
     (exists e, vert g v <= e < hi /\ edge g e = w /\ free ps w /\ ok v w /\ lb = edlo g e /\ forall e', vert g v <= e' < hi -> free ps (edge g e') -> ok v (edge g e') -> edlo g e' <= edlo g e)).
  assert (FIN : forall w lb, Best (vend g v) w lb -> (w = v /\ forall e, arc g v e -> free ps (edge g e) -> ~ ok v (edge g e)) \/
     (exists e, arc g v e /\ edge g e = w /\ free ps w /\ ok v w /\ forall e', arc g v e' -> free ps (edge g e') -> ok v (edge g e') -> edlo g e' <= edlo g e)).
  { intros w lb [(-> & _ & H)|(e & He & E & F & O & _ & H)]; [left; split; [auto|]; intros e (_ & He); auto|]. right. exists e. split; [split; auto|]. split; [auto|]. split; [auto|]. split; [auto|].
    intros e' (_ & He'). auto. }
  match goal with |- exists w, ?r = _ /\ @?P w => destruct (wp_ok_inv r P) as (w & -> & H) end; [|eauto].
  apply wp_loop with (I := fun '(e, w, lb) => vert g v <= e < vend g v /\ Best e w lb /\ (el = false -> w = v)) (m := fun '(e, w, lb) => vend g v - e - 1).
  - split; [lia|]. split; [left; split; [auto|]; split; [auto|]; intros; lia|auto].
  - lia.
  - intros ((e & w) & lb) (He & HBst & Hel). assert (A : arc g v e) by (split; [auto|lia]). rewrite redge_ok with (v := v) by auto. cbn [bind]. pose proof (gv_end g V v e A) as W.
    rewrite rd_ok by (destruct W; lia). cbn [bind]. pose proof (minv_free mate ps _ MI W) as MF. pose proof (gv_edlo g V v e A) as El0.
    set (u := edge g e) in *.
    assert (Hc : exists c, (if at_ b mate u <? 0 then rcompat fx b fix_ par v u else Ok false) = Ok c /\ (c = true <-> free ps u /\ ok v u)).
    { destruct (Z.ltb_spec (at_ b mate u) 0).
      - destruct (rcompat_spec v u Hv W) as (c & -> & Hc). exists c. split; [auto|]. tauto.
      - exists false. split; [auto|]. split; [discriminate|]. intros (F & _). apply MF in F. lia. }
    destruct Hc as (c & -> & Hc). cbn [bind].
    (* not a candidate *)
    assert (SKIP : (forall lb', Best e w lb' -> (free ps u /\ ok v u -> exists e', vert g v <= e' < e /\ edge g e' = w /\ free ps w /\ ok v w /\ lb' = edlo g e' /\ edlo g e <= edlo g e') -> Best (e + 1) w lb')).
    { intros lb' [(-> & E & H)|(e' & He' & E & F & O & L & H)] HS.
      - left. split; [auto|]. split; [auto|]. intros e2 He2. destruct (Z.eq_dec e2 e) as [->|]; [|apply H; lia]. intros F O. destruct HS as (e' & He' & E' & F' & O' & _); [auto|].
        apply (H e'); auto; rewrite E'; auto.
      - right. exists e'. split; [lia|]. split; [auto|]. split; [auto|]. split; [auto|]. split; [auto|]. intros e2 He2 F2 O2. destruct (Z.eq_dec e2 e) as [->|]; [|apply H; auto; lia].
        destruct HS as (e3 & He3 & E3 & _ & _ & L3 & L4); [auto|]. lia. }
    destruct el eqn:Eel.
    + (* heaviest *) unfold matchEl in HEL. destruct (edlotab g) as [t|] eqn:Et; [|discriminate].
      destruct c; cbn [andb negb].
      * pose proof (gr_edlo g R t v e Et A) as Hre. rewrite rd_ok by auto. cbn [bind]. assert (EE : at_ b t e = edlo g e) by (unfold edlo; now rewrite Et). rewrite EE.
        destruct Hc as (Hc & _). destruct (Hc eq_refl) as (Fu & Ou).
        destruct (Z.ltb_spec lb (edlo g e)) as [Hl|Hl]; cbn [andb].
        -- assert (HB' : Best (e + 1) u (edlo g e)).
           { right. exists e. split; [lia|]. split; [auto|]. split; [auto|]. split; [auto|]. split; [auto|]. intros e2 He2 F2 O2. destruct (Z.eq_dec e2 e) as [->|]; [lia|].
             destruct HBst as [(_ & _ & H)|(e' & He' & E & F & O & L & H)]; [exfalso; apply (H e2); auto; lia|]. specialize (H e2 ltac:(lia) F2 O2). lia. }
           destruct (Z.ltb_spec (e + 1) (vend g v)); cbn [wp].
           ++ split; [|lia]. split; [lia|]. split; [auto|discriminate].
           ++ apply (FIN u (edlo g e)). replace (vend g v) with (e + 1) by lia. auto.
        -- assert (HB' : Best (e + 1) w lb).
           { apply SKIP; [auto|]. intros _. destruct HBst as [(_ & E & _)|(e' & He' & E & F & O & L & H)]; [lia|]. exists e'. repeat (split; [solve [auto; lia]|]). lia. }
           destruct (Z.ltb_spec (e + 1) (vend g v)); cbn [wp].
           ++ split; [|lia]. split; [lia|]. split; [auto|discriminate].
           ++ apply (FIN w lb). replace (vend g v) with (e + 1) by lia. auto.
      * cbn [bind]. cbn [andb]. assert (HB' : Best (e + 1) w lb) by (apply SKIP; [auto|]; intros X; apply Hc in X; discriminate).
        destruct (Z.ltb_spec (e + 1) (vend g v)); cbn [wp].
        ++ split; [|lia]. split; [lia|]. split; [auto|discriminate].
        ++ apply (FIN w lb). replace (vend g v) with (e + 1) by lia. auto.
    + (* first *) replace (c && false) with false by (destruct c; reflexivity). cbn [bind negb]. assert (Ew : w = v) by auto. subst w.
      assert (Hed : forall e1, edlo g e1 = 1) by (intros; unfold matchEl in HEL; unfold edlo; destruct (edlotab g); [discriminate|auto]).
      destruct c; cbn [andb wp].
      * destruct Hc as (Hc & _). destruct (Hc eq_refl) as (Fu & Ou). right. exists e. repeat (split; [solve [auto]|]). intros. rewrite !Hed. lia.
      * assert (HB' : Best (e + 1) v lb) by (apply SKIP; [auto|]; intros X; apply Hc in X; discriminate).
        destruct (Z.ltb_spec (e + 1) (vend g v)); cbn [wp].
        ++ split; [|lia]. split; [lia|]. split; [auto|auto].
        ++ apply (FIN v lb). replace (vend g v) with (e + 1) by lia. auto.
Qed.

Definition choice (before : list (Z * Z)) (p q : Z) : Prop :=
  isvert g p /\ isvert g q /\ free before p /\ free before q /\
  ((isolated g p /\ (nomerge = true -> q = p) /\ (q = p \/ ok p q) /\
     (nomerge = false -> q = p -> forall w, In w qv -> free before w -> ok p w -> w = p)) \/
   (~ isolated g p /\ q = p /\ forall e, arc g p e -> free before (edge g e) -> ~ ok p (edge g e)) \/
   (exists e, arc g p e /\ edge g e = q /\ ok p q /\
     forall e', arc g p e' -> free before (edge g e') -> ok p (edge g e') -> edlo g e' <= edlo g e)).

Lemma matchPick_spec mate ps k j : minv mate ps -> 0 <= k < j -> j <= zlen qv -> at_ b mate (at_ 0 qv k) < 0 -> done mate k j ->
  exists w j', matchPick fx el nomerge g fix_ par que mate dlt (off + k * dlt) (off + j * dlt) (at_ 0 qv k) = Ok (w, off + j' * dlt) /\
    k <= j' <= j /\ choice ps (at_ 0 qv k) w /\ (forall i, j' <= i < zlen qv -> 0 <= at_ b mate (at_ 0 qv i) \/ at_ 0 qv i = w).
Proof.
  intros MI Hk Hj Hf HDn. pose proof MI as (Lm & _). set (v := at_ 0 qv k) in *. assert (Hv : isvert g v) by (apply HV, at_In; lia). pose proof (gv_range g V v Hv) as Hr.
  assert (Fv : free ps v) by (apply (minv_free mate); auto).
  unfold matchPick. rewrite rvert_ok, rvend_ok by auto. cbn [bind]. destruct (Z.eqb_spec (vert g v) (vend g v)) as [E|NE].
  - assert (IS : isolated g v) by (split; [auto|]; intros e (_ & He); lia). destruct nomerge eqn:Enm.
    + exists v, j. split; [auto|]. split; [lia|]. split; [|intros; left; apply HDn; lia]. repeat (split; [solve [auto]|]). left. split; [auto|]. split; [auto|]. split; [auto|]. rewrite Enm. discriminate.
    + destruct (matchTrim_spec mate k j Lm Hk Hj Hf HDn) as (j1 & -> & Hj1 & D1). cbn [bind].
      destruct (matchLast_spec mate ps k j1 MI ltac:(lia) ltac:(lia) Hf D1) as (w & j2 & Eq & Hj2 & Iw & Fw & Ow & Dw & Last). fold v in Eq, Ow, Last. rewrite Eq.
      exists w, j2. split; [auto|]. split; [lia|]. split; [|auto]. repeat (split; [solve [auto]|]). left. split; [auto|]. split; [congruence|]. split; [auto|]. auto.
  - destruct (matchNbr_spec mate ps v MI Hv ltac:(lia)) as (w & -> & Hw). cbn [bind]. exists w, j. split; [auto|]. split; [lia|]. split; [|intros; left; apply HDn; lia].
    destruct Hw as [(-> & Hno)|(e & A & Ee & Fw & Ow & Hmax)].
    + repeat (split; [solve [auto]|]). right; left. split; [|auto]. intros (_ & HI). apply (HI (vert g v)). split; [auto|lia].
    + split; [auto|]. split; [rewrite <- Ee; apply (gv_end g V v e A)|]. split; [auto|]. split; [auto|]. right; right. exists e. auto.
Qed.

Lemma minv_step mate ps p q : minv mate ps -> isvert g p -> isvert g q -> free ps p -> free ps q ->
  minv (upd b (upd b mate q p) p q) (ps ++ [(p, q)]).
Proof.
  intros (M1 & M2 & M3) Hp Hq Fp Fq. pose proof (gv_nnd g V) as Hn. pose proof Hp as (P1 & P2). pose proof Hq as (Q1 & Q2).
  assert (AT : forall v, isvert g v -> at_ b (upd b (upd b mate q p) p q) v = if p =? v then q else if q =? v then p else at_ b mate v).
  { intros v (V1 & V2). rewrite at_upd by (rewrite ?zlen_upd; lia). destruct (Z.eqb_spec p v); [auto|]. rewrite at_upd by lia. reflexivity. }
  split; [now rewrite !zlen_upd|]. split.
  - intros p' q' I. apply in_app_or in I as [I|[[= <- <-]|[]]].
    + destruct (M2 p' q' I) as (H1 & H2 & E1 & E2). split; [auto|]. split; [auto|]. rewrite !AT by auto. destruct (Fp p' q' I), (Fq p' q' I). split; eqbs; lia.
    + split; [auto|]. split; [auto|]. rewrite !AT by auto. split; eqbs; lia.
  - intros v Hv F. apply free_app in F as (F1 & F2). apply free_one in F2 as (N1 & N2). rewrite AT by auto. specialize (M3 v Hv F1). eqbs; lia.
Qed.

Lemma matchSeq_spec mate0 ps0 c0 : minv mate0 ps0 ->
  exists mate l, matchSeq fx el nomerge g fix_ par que dlt (zlen qv) mate0 c0 = Ok (mate, c0 + zlen l) /\ minv mate (ps0 ++ l) /\
    (forall before p q after, l = before ++ (p, q) :: after -> choice (ps0 ++ before) p q) /\ (forall v, In v qv -> ~ free (ps0 ++ l) v).
Proof.
  intros MI0. pose proof (gv_nnd g V) as Hn. pose proof zlen_qv as Lq. unfold matchSeq.
  set (CH := fun l => forall before p q after, l = before ++ (p, q) :: after -> choice (ps0 ++ before) p q).
  match goal with |- exists mate l, ?r = _ /\ _ => destruct (wp_ok_inv r (fun '(mate, c) => exists l, c = c0 + zlen l /\ minv mate (ps0 ++ l) /\ CH l /\ forall v, In v qv -> ~ free (ps0 ++ l) v)) as ((mate & c) & -> & (l & -> & H)) end; [|eauto].
  apply wp_loop with (I := fun '(num, nnd, mate, c) => exists k j l, num = off + k * dlt /\ nnd = off + j * dlt /\ 0 <= k <= zlen qv /\ k - 1 <= j <= zlen qv /\ 0 <= j /\
      c = c0 + zlen l /\ minv mate (ps0 ++ l) /\ CH l /\ done mate k j) (m := fun '(num, _, _, _) => zlen qv - (num - off) / dlt).
  - exists 0, (zlen qv), []. pose proof (zlen_nonneg qv). split; [lia|]. split; [lia|]. split; [lia|]. split; [lia|]. split; [lia|]. split; [change (zlen (@nil (Z * Z))) with 0; lia|].
    split; [now rewrite app_nil_r|]. split; [intros b0 p q a E; destruct b0; discriminate|]. intros i Hi. lia.
  - rewrite Z.sub_diag. rewrite Z.div_0_l by lia. pose proof (zlen_nonneg qv). unfold zlen in *. lia.
  - intros (((num & nnd) & mate) & c) (k & j & l & -> & -> & Hk & Hj & Hj0 & -> & MI & HC & HDn). pose proof MI as (Lm & _).
    assert (Hmk : forall k, (off + k * dlt - off) / dlt = k) by (intros; replace (off + k0 * dlt - off) with (k0 * dlt) by lia; apply Z.div_mul; lia).
    destruct (Z.ltb_spec (off + k * dlt) (off + j * dlt)) as [Hlt|Hge].
    + assert (Hkj : k < j) by nia. rewrite que_rd by lia. cbn [bind]. set (v := at_ 0 qv k) in *. assert (Hv : isvert g v) by (apply HV, at_In; lia). pose proof Hv as (V1 & V2).
      rewrite rd_ok by lia. cbn [bind]. destruct (Z.leb_spec 0 (at_ b mate v)) as [Hm|Hm].
      * cbn [wp]. replace (off + k * dlt + dlt) with (off + (k + 1) * dlt) by lia. rewrite !Hmk. split; [|lia].
        exists (k + 1), j, l. split; [auto|]. split; [auto|]. split; [lia|]. split; [lia|]. split; [lia|]. split; [auto|]. split; [auto|]. split; [auto|].
        intros i Hi. destruct (Z.eq_dec i k) as [->|]; [auto|]. apply HDn. lia.
      * destruct (matchPick_spec mate (ps0 ++ l) k j MI ltac:(lia) ltac:(lia) Hm HDn) as (w & j' & Eq & Hj' & Hch & Hw). fold v in Eq, Hch. rewrite Eq. cbn [bind].
        pose proof Hch as (_ & Vw & Fv & Fw & _). pose proof Vw as (W1 & W2). rewrite !wr_ok by (rewrite ?zlen_upd; lia). cbn [bind]. rewrite wr_ok by (rewrite ?zlen_upd; lia). cbn [bind wp].
        replace (off + k * dlt + dlt) with (off + (k + 1) * dlt) by lia. rewrite !Hmk. split; [|lia].
        exists (k + 1), j', (l ++ [(v, w)]). split; [auto|]. split; [auto|]. split; [lia|]. split; [lia|]. split; [lia|]. split; [rewrite zlen_snoc; lia|].
        rewrite app_assoc. split; [apply minv_step; auto|]. split.
        -- intros b0 p q a E. destruct (rev_case a) as [->|(a' & x & ->)].
           ++ apply app_inj_tail in E as (-> & [= <- <-]). auto.
           ++ rewrite app_comm_cons, app_assoc in E. apply app_inj_tail in E as (-> & <-). eapply HC. reflexivity.
        -- assert (AT : forall u, isvert g u -> at_ b (upd b (upd b mate w v) v w) u = if v =? u then w else if w =? u then v else at_ b mate u).
           { intros u (U1 & U2). rewrite at_upd by (rewrite ?zlen_upd; lia). destruct (Z.eqb_spec v u); [auto|]. rewrite at_upd by lia. reflexivity. }
           intros i Hi. assert (Hu : isvert g (at_ 0 qv i)) by (apply HV, at_In; lia). rewrite AT by auto. set (u := at_ 0 qv i) in *.
           destruct (Z.eqb_spec v u); [lia|]. destruct (Z.eqb_spec w u); [lia|]. destruct (Z.ltb_spec i (k + 1)).
           ++ destruct (Z.eq_dec i k) as [->|]; [subst v; lia|]. apply HDn. lia.
           ++ destruct (Hw i ltac:(lia)); [auto|]. fold u in H0. lia.
    + cbn [wp]. exists l. split; [auto|]. split; [auto|]. split; [auto|]. intros v Hv F. apply (minv_free mate) in F; auto. apply (In_at 0) in Hv as (i & Hi & <-).
      assert (j <= k) by nia. specialize (HDn i ltac:(lia)). lia.
Qed.
End Pick.
End Match.
