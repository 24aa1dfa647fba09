(** Proofs about multi-threaded matching: the invariant of all schedules. *)
From Verif Require Import Base M_Int M_Sort M_Graph M_Match M_MatchThr S_Graph S_Color S_Match P_Graph P_GraphList P_Induce P_Match P_Match2.

Lemma nth_updn {A} (l : list A) i j x : nth_error (updn l i x) j = if Nat.eqb i j then (if Nat.ltb i (length l) then Some x else None) else nth_error l j.
Proof.
  revert i j. induction l as [|y l IH]; intros i j.
  - cbn [updn length]. destruct (Nat.eqb_spec i j); [subst; destruct (Nat.ltb_spec j 0); [lia|]; now destruct j|]. now destruct j.
  - destruct i, j; cbn [updn nth_error length]; auto. rewrite IH. reflexivity.
Qed.
Lemma nth_updn_same {A} (l : list A) i x y : nth_error l i = Some y -> nth_error (updn l i x) i = Some x.
Proof. intros H. rewrite nth_updn, Nat.eqb_refl. assert (L : (i < length l)%nat) by (apply nth_error_Some; congruence). apply Nat.ltb_lt in L. now rewrite L. Qed.
Lemma nth_updn_other {A} (l : list A) i j x : i <> j -> nth_error (updn l i x) j = nth_error l j.
Proof. intros H. rewrite nth_updn. apply Nat.eqb_neq in H. now rewrite H. Qed.

Definition tsum (ths : list mthr) : Z := fold_right (fun t s => mcnt t + s) 0 ths.
Lemma tsum_updn ths i t t' : nth_error ths i = Some t -> tsum (updn ths i t') = tsum ths - mcnt t + mcnt t'.
Proof.
  revert i. induction ths as [|x l IH]; intros i H; [destruct i; discriminate|]. destruct i; cbn [nth_error updn] in *; unfold tsum in *; cbn [fold_right].
  - injection H as ->. lia.
  - rewrite (IH i H). lia.
Qed.

Lemma firstn_updn_le {A} (l : list A) i m x : (i <= m)%nat -> firstn i (updn l m x) = firstn i l.
Proof. revert i m. induction l as [|y l IH]; intros i m H; [destruct m; auto|]. destruct i; [auto|]. destruct m; [lia|]. cbn [updn firstn]. f_equal. apply IH. lia. Qed.
Lemma NoDup_app_one {A} (l : list A) x : NoDup l -> ~ In x l -> NoDup (l ++ [x]).
Proof. intros H N. apply NoDup_rev in H. rewrite <- (rev_involutive (l ++ [x])). apply NoDup_rev. rewrite rev_app_distr. cbn [rev app]. constructor; [rewrite <- in_rev; auto|auto]. Qed.

Section Thr.
Context (g : graph) (V : graph_valid g) (R : graph_readable g) (HB : 0 <= baseval g).
Context (fx el nomerge : bool) (fix_ par : option (list Z)) (PF : per_vertex g fix_) (PP : per_vertex g par) (HEL : el = matchEl g).
Context (dlt : Z) (HD : dlt = 1 \/ dlt = 2).
Notation b := (baseval g).
Notation n := (vertnbr g).
Notation off := (Z.shiftr dlt 1).
Notation ok := (ok g fx fix_ par).

Definition good (v w : Z) : Prop := isvert g v /\ isvert g w /\ ok v w /\ (v = w \/ adjacent g v w \/ (nomerge = false /\ isolated g v)).

(** locks held, vertices being matched, mates written early *)
Definition holds (p : mpc) (x : Z) : Prop :=
  match p with
  | MLock2 v _ | MRel v => x = v
  | MWmate v w | MWself v w => x = v \/ x = w
  | _ => False
  end.
Definition secp (p : mpc) (x : Z) : Prop := match p with MWmate _ w | MWself _ w => x = w | _ => False end.
Definition wsp (p : mpc) (u x : Z) : Prop := match p with MWself v w => u = v /\ x = w /\ v <> w | _ => False end.

Section Inv.
Context (SEC MT : Z -> Prop).
Definition single (v : Z) : Prop := forall u, adjacent g v u -> ok v u -> MT u.

Definition pcok (qv : list Z) (k j : Z) (p : mpc) : Prop :=
  let cur v := k < zlen qv /\ k <= j /\ v = at_ 0 qv k in
  match p with
  | MTop => True
  | MDone => j <= k
  | MTrim v => cur v /\ isolated g v /\ nomerge = false
  | MLast v q => cur v /\ isolated g v /\ nomerge = false /\ exists qi, q = off + qi * dlt /\ k <= qi <= zlen qv
  | MNbr v e bst lbst => cur v /\ arc g v e /\ (el = false -> bst = v) /\
      ((bst = v /\ lbst = -1 /\ forall e', vert g v <= e' < e -> MT (edge g e') \/ ~ ok v (edge g e')) \/ (bst <> v /\ adjacent g v bst /\ ok v bst))
  | MLock v w | MWself v w => cur v /\ good v w /\ (w = v -> single v)
  | MLock2 v w | MWmate v w => cur v /\ good v w /\ w <> v
  | MRel v => cur v
  end.

Record tin (qv : list Z) (t : mthr) (pre : list Z) (k j : Z) : Prop := {
  ti_num : mnum t = off + k * dlt;
  ti_nnd : mnnd t = off + j * dlt;
  ti_k : 0 <= k <= zlen qv;
  ti_j : 0 <= j <= zlen qv;
  ti_len : off + zlen qv * dlt < zlen (mq t) + dlt;
  ti_q : forall i, k <= i < zlen qv -> at_ 0 (mq t) (off + i * dlt) = at_ 0 qv i;
  ti_new : mnew t = zlen pre;
  ti_newk : mnew t <= k;
  ti_pre : firstn (Z.to_nat (mnew t)) (mq t) = pre;
  ti_nd : NoDup pre;
  ti_sub : forall x, In x pre -> exists i, 0 <= i < k /\ x = at_ 0 qv i;
  ti_done : forall i, 0 <= i < k -> SEC (at_ 0 qv i) \/ In (at_ 0 qv i) pre;
  ti_tail : forall i, j <= i < zlen qv -> SEC (at_ 0 qv i);
  ti_pc : pcok qv k j (mp t) }.
Definition tinv (qv : list Z) (t : mthr) : Prop := exists pre k j, tin qv t pre k j.
End Inv.

Lemma pcok_mono (MT MT' : Z -> Prop) qv k j p : (forall x, isvert g x -> MT x -> MT' x) -> pcok MT qv k j p -> pcok MT' qv k j p.
Proof.
  intros M. assert (S : forall v, single MT v -> single MT' v).
  { intros v H u (e & A & <-) O. apply M; [apply (gv_end g V v e A)|]. apply H; [exists e; auto | auto]. }
  destruct p; cbn [pcok]; auto.
  - intros (H1 & H2 & H3 & H4). split; [auto|]. split; [auto|]. split; [auto|]. destruct H4 as [(H4 & H5 & H6)|H4]; [left|right; auto]. split; [auto|]. split; [auto|].
    intros e' He'. destruct (H6 e' He') as [H|H]; [left|right; auto]. apply M; auto. apply (gv_end g V v e'). destruct H2 as (A1 & A2). split; [auto|lia].
  - intros (H1 & H2 & H3). split; [auto|]. split; auto.
  - intros (H1 & H2 & H3). split; [auto|]. split; auto.
Qed.
Lemma tin_mono (SEC SEC' MT MT' : Z -> Prop) qv t pre k j : (forall x, SEC x -> SEC' x) -> (forall x, isvert g x -> MT x -> MT' x) -> tin SEC MT qv t pre k j -> tin SEC' MT' qv t pre k j.
Proof.
  intros HS HM []. constructor; auto.
  - intros i Hi. destruct (ti_done0 i Hi); auto.
  - eapply pcok_mono; eauto.
Qed.

(** ** The global invariant *)
Context (qvs : list (list Z))
  (QV : forall i qv v, nth_error qvs i = Some qv -> In v qv -> isvert g v)
  (QN : forall i qv, nth_error qvs i = Some qv -> NoDup qv)
  (QD : forall i j qv qv' v, nth_error qvs i = Some qv -> nth_error qvs j = Some qv' -> i <> j -> In v qv -> In v qv' -> False).

Definition secured (ths : list mthr) (ps : list (Z * Z)) (x : Z) : Prop :=
  ~ free ps x \/ exists i t, nth_error ths i = Some t /\ secp (mp t) x.
Definition mated (mate : list Z) (x : Z) : Prop := 0 <= at_ b mate x.
Definition rest (ths : list mthr) (i : nat) (x : Z) : Prop := exists j t, j <> i /\ nth_error ths j = Some t /\ holds (mp t) x.

(** what the finished groups look like *)
Record grp (mate : list Z) (ps : list (Z * Z)) : Prop := {
  gp_mate : forall p q, In (p, q) ps -> isvert g p /\ isvert g q /\ at_ b mate p = q /\ at_ b mate q = p;
  gp_free : forall before p q after, ps = before ++ (p, q) :: after -> free before p /\ free before q;
  gp_good : forall p q, In (p, q) ps -> good p q;
  gp_single : forall p, In (p, p) ps -> single (mated mate) p;
  gp_max : forall p q, In (p, p) ps -> In (q, q) ps -> adjacent g p q -> ok p q -> False }.

Record ginv (mate lock : list Z) (ths : list mthr) (ps : list (Z * Z)) : Prop := {
  gi_mate : zlen mate = n;
  gi_lock : zlen lock = n;
  gi_lk : forall x, isvert g x -> (at_ b lock x = 0 /\ free ps x /\ forall i t, nth_error ths i = Some t -> ~ holds (mp t) x) \/
            (at_ b lock x = 1 /\ (~ free ps x \/ exists i t, nth_error ths i = Some t /\ holds (mp t) x));
  gi_ex : forall i j t t' x, nth_error ths i = Some t -> nth_error ths j = Some t' -> i <> j -> holds (mp t) x -> holds (mp t') x -> False;
  gi_fr : forall i t x, nth_error ths i = Some t -> holds (mp t) x -> isvert g x /\ free ps x;
  gi_grp : grp mate ps;
  gi_neg : forall x, isvert g x -> free ps x -> at_ b mate x < 0 \/ exists i t u, nth_error ths i = Some t /\ wsp (mp t) u x;
  gi_ws : forall i t u x, nth_error ths i = Some t -> wsp (mp t) u x -> at_ b mate x = u;
  gi_cnt : zlen ps = tsum ths;
  gi_ti : forall i t, nth_error ths i = Some t -> exists qv, nth_error qvs i = Some qv /\ tinv (secured ths ps) (mated mate) qv t }.

(** one thread changes *)
Lemma ginv_upd mate lock ths ps i t mate' lock' t' ps' qv :
  ginv mate lock ths ps -> nth_error ths i = Some t -> nth_error qvs i = Some qv ->
  zlen mate' = n -> zlen lock' = n ->
  (forall x, isvert g x -> (at_ b lock' x = 0 /\ free ps' x /\ ~ rest ths i x /\ ~ holds (mp t') x) \/ (at_ b lock' x = 1 /\ (~ free ps' x \/ rest ths i x \/ holds (mp t') x))) ->
  (forall x, holds (mp t') x -> isvert g x /\ free ps' x /\ ~ rest ths i x) ->
  (forall x, rest ths i x -> free ps' x) ->
  grp mate' ps' ->
  (forall x, isvert g x -> free ps' x -> at_ b mate' x < 0 \/ (exists j tj u, j <> i /\ nth_error ths j = Some tj /\ wsp (mp tj) u x) \/ exists u, wsp (mp t') u x) ->
  (forall j tj u x, j <> i -> nth_error ths j = Some tj -> wsp (mp tj) u x -> at_ b mate' x = u) ->
  (forall u x, wsp (mp t') u x -> at_ b mate' x = u) ->
  zlen ps' - mcnt t' = zlen ps - mcnt t ->
  (forall x, ~ free ps x -> ~ free ps' x) ->
  (forall x, secp (mp t) x -> secp (mp t') x \/ ~ free ps' x) ->
  (forall x, isvert g x -> mated mate x -> mated mate' x) ->
  ((forall x, secured ths ps x -> secured (updn ths i t') ps' x) -> tinv (secured (updn ths i t') ps') (mated mate') qv t') ->
  ginv mate' lock' (updn ths i t') ps'.
Proof.
  intros G Ei Eq Z1 Z2 C2 C3 C4 CG C6 C7 C7' C9 C10 C10' C11 C12.
  assert (SM : forall x, secured ths ps x -> secured (updn ths i t') ps' x).
  { intros x [H|(j & tj & Ej & H)]; [left; auto|]. destruct (Nat.eq_dec j i) as [->|NE].
    - rewrite Ei in Ej. injection Ej as <-. destruct (C10' x H) as [H'|H']; [right|left; auto]. exists i, t'. split; [eapply nth_updn_same; eauto | auto].
    - right. exists j, tj. split; [rewrite nth_updn_other; auto | auto]. }
  assert (CS : forall j tj, nth_error (updn ths i t') j = Some tj -> (j = i /\ tj = t') \/ (j <> i /\ nth_error ths j = Some tj)).
  { intros j tj Ej. destruct (Nat.eq_dec j i) as [->|NE]; [rewrite (nth_updn_same ths i t' t Ei) in Ej; left; split; congruence|]. rewrite nth_updn_other in Ej by auto. right; auto. }
  constructor; auto.
  - intros x Hx. destruct (C2 x Hx) as [(L0 & F & NR & NH)|(L1 & H)].
    + left. split; [auto|]. split; [auto|]. intros j tj Ej Hj. destruct (CS j tj Ej) as [(-> & ->)|(NE & Ej')]; [auto|]. apply NR. exists j, tj. auto.
    + right. split; [auto|]. destruct H as [H|[(j & tj & NE & Ej & Hj)|H]]; [auto| |].
      * right. exists j, tj. split; [rewrite nth_updn_other; auto | auto].
      * right. exists i, t'. split; [eapply nth_updn_same; eauto | auto].
  - intros a c ta tc x Ea Ec NE Ha Hc. destruct (CS a ta Ea) as [(-> & ->)|(NEa & Ea')], (CS c tc Ec) as [(-> & ->)|(NEc & Ec')].
    + congruence.
    + apply (C3 x Ha). exists c, tc. auto.
    + apply (C3 x Hc). exists a, ta. auto.
    + eapply (gi_ex _ _ _ _ G a c); eauto.
  - intros a ta x Ea Ha. destruct (CS a ta Ea) as [(-> & ->)|(NEa & Ea')]; [destruct (C3 x Ha); tauto|]. split; [eapply gi_fr; eauto|]. apply C4. exists a, ta. auto.
  - intros x Hx F. destruct (C6 x Hx F) as [H|[(j & tj & u & NE & Ej & H)|(u & H)]]; [auto| |].
    + right. exists j, tj, u. split; [rewrite nth_updn_other; auto | auto].
    + right. exists i, t', u. split; [eapply nth_updn_same; eauto | auto].
  - intros a ta u x Ea Ha. destruct (CS a ta Ea) as [(-> & ->)|(NEa & Ea')]; [auto|]. eapply C7; eauto.
  - rewrite (tsum_updn ths i t t' Ei). pose proof (gi_cnt _ _ _ _ G). lia.
  - intros a ta Ea. destruct (CS a ta Ea) as [(-> & ->)|(NEa & Ea')]; [exists qv; split; auto|].
    destruct (gi_ti _ _ _ _ G a ta Ea') as (qv' & E' & pre & k & j & T). exists qv'. split; [auto|]. exists pre, k, j. eapply tin_mono; [exact SM | exact C11 | exact T].
Qed.

(** the same facts, seen from one thread *)
Lemma ginv_at mate lock ths ps i t : ginv mate lock ths ps -> nth_error ths i = Some t ->
  (forall x, isvert g x -> (at_ b lock x = 0 /\ free ps x /\ ~ rest ths i x /\ ~ holds (mp t) x) \/ (at_ b lock x = 1 /\ (~ free ps x \/ rest ths i x \/ holds (mp t) x))) /\
  (forall x, holds (mp t) x -> isvert g x /\ free ps x /\ ~ rest ths i x) /\
  (forall x, rest ths i x -> free ps x) /\
  (forall x, isvert g x -> free ps x -> at_ b mate x < 0 \/ (exists j tj u, j <> i /\ nth_error ths j = Some tj /\ wsp (mp tj) u x) \/ exists u, wsp (mp t) u x).
Proof.
  intros G Ei. split; [|split; [|split]].
  - intros x Hx. destruct (gi_lk _ _ _ _ G x Hx) as [(L & F & NH)|(L & H)].
    + left. split; [auto|]. split; [auto|]. split; [intros (j & tj & NE & Ej & Hj); eapply NH; eauto | eapply NH; eauto].
    + right. split; [auto|]. destruct H as [H|(j & tj & Ej & Hj)]; [auto|]. destruct (Nat.eq_dec j i) as [->|NE]; [rewrite Ei in Ej; injection Ej as <-; auto|]. right; left. exists j, tj. auto.
  - intros x Hx. destruct (gi_fr _ _ _ _ G i t x Ei Hx). split; [auto|]. split; [auto|]. intros (j & tj & NE & Ej & Hj). eapply (gi_ex _ _ _ _ G j i); eauto.
  - intros x (j & tj & NE & Ej & Hj). eapply gi_fr; eauto.
  - intros x Hx F. destruct (gi_neg _ _ _ _ G x Hx F) as [H|(j & tj & u & Ej & H)]; [auto|]. right. destruct (Nat.eq_dec j i) as [->|NE]; [rewrite Ei in Ej; injection Ej as <-; eauto|]. left. exists j, tj, u. auto.
Qed.

Lemma free_dec ps x : free ps x \/ ~ free ps x.
Proof.
  clear. induction ps as [|(p, q) l IH]; [left; intros ? ? []|]. destruct IH as [IH|IH].
  - destruct (Z.eq_dec x p) as [->|N1]; [right; intros F; destruct (F p q (or_introl eq_refl)); auto|]. destruct (Z.eq_dec x q) as [->|N2]; [right; intros F; destruct (F p q (or_introl eq_refl)); auto|].
    left. intros a z [[= <- <-]|I]; auto.
  - right. intros F. apply IH. intros a z I. apply F. now right.
Qed.

Lemma mated_secured mate lock ths ps x : ginv mate lock ths ps -> isvert g x -> mated mate x -> secured ths ps x.
Proof.
  intros G Hx Hm. destruct (free_dec ps x) as [F|F]; [|left; auto]. destruct (gi_neg _ _ _ _ G x Hx F) as [H|(i & t & u & Ei & H)]; [unfold mated in Hm; lia|].
  right. exists i, t. split; [auto|]. destruct (mp t); cbn [wsp secp] in *; try contradiction. tauto.
Qed.

Lemma ginv_local mate lock ths ps i t lock' t' qv :
  ginv mate lock ths ps -> nth_error ths i = Some t -> nth_error qvs i = Some qv ->
  zlen lock' = n -> (forall x, isvert g x -> at_ b lock' x = at_ b lock x) ->
  (forall x, holds (mp t') x <-> holds (mp t) x) -> (forall x, secp (mp t) x -> secp (mp t') x) -> (forall u x, wsp (mp t') u x <-> wsp (mp t) u x) -> mcnt t' = mcnt t ->
  ((forall x, secured ths ps x -> secured (updn ths i t') ps x) -> tinv (secured (updn ths i t') ps) (mated mate) qv t') ->
  ginv mate lock' (updn ths i t') ps.
Proof.
  intros G Ei Eq Zl EL EH ES EW EC HT. destruct (ginv_at _ _ _ _ _ _ G Ei) as (A1 & A2 & A3 & A4). eapply ginv_upd; eauto.
  - apply G.
  - intros x Hx. rewrite EL, EH by auto. apply A1; auto.
  - intros x H. apply A2. apply EH. auto.
  - apply G.
  - intros x Hx F. destruct (A4 x Hx F) as [H|[H|(u & H)]]; [auto|auto|]. right; right. exists u. apply EW. auto.
  - intros. eapply gi_ws; eauto.
  - intros u x H. apply EW in H. eapply gi_ws; eauto.
  - lia.
Qed.

Definition tmeas (N : Z) (t : mthr) : Z :=
  let ix q := (q - off) / dlt in
  let rest := (N - ix (mnum t) - 1) * (degrmax g + 2 * N + 12) + 1 in
  match mp t with
  | MTop => (N - ix (mnum t)) * (degrmax g + 2 * N + 12) + 1
  | MTrim _ => rest + ix (mnnd t) + N + 6
  | MLast _ q => rest + ix q + 5
  | MNbr v e _ _ => rest + (vend g v - e) + 4
  | MLock _ _ => rest + 4
  | MLock2 _ _ => rest + 3
  | MRel _ | MWmate _ _ => rest + 2
  | MWself _ _ => rest + 1
  | MDone => 0
  end.

Lemma ix_off k : (off + k * dlt - off) / dlt = k.
Proof. replace (off + k * dlt - off) with (k * dlt) by lia. apply Z.div_mul. lia. Qed.

Definition stepres (stale : bool) (mate lock : list Z) (ths : list mthr) (ps : list (Z * Z)) (i : nat) (t : mthr) (qv : list Z) : Prop :=
  exists mate' lock' t' ps', tstep fx el nomerge g fix_ par dlt stale mate lock t = Ok (mate', lock', t') /\ ginv mate' lock' (updn ths i t') ps' /\
    (mp t <> MDone -> 0 <= tmeas (zlen qv) t' < tmeas (zlen qv) t).

Lemma rmate_ok stale mate w : zlen mate = n -> isvert g w -> exists m, rmate g stale mate w = Ok m /\ (0 <= m -> mated mate w).
Proof.
  intros Z1 (W1 & W2). pose proof (gv_nnd g V). unfold rmate. rewrite rd_ok by lia. cbn [bind]. eexists; split; [reflexivity|]. unfold mated. destruct stale; lia.
Qed.

Lemma off_cases2 : dlt = 1 /\ off = 0 \/ dlt = 2 /\ off = 1.
Proof. destruct HD as [->| ->]; [left|right]; split; reflexivity. Qed.

Section Step.
Context (stale : bool) (mate lock : list Z) (ths : list mthr) (ps : list (Z * Z)) (i : nat) (t : mthr) (qv pre : list Z) (k j : Z).
Context (G : ginv mate lock ths ps) (Ei : nth_error ths i = Some t) (Eq : nth_error qvs i = Some qv)
  (T : tin (secured ths ps) (mated mate) qv t pre k j).

Lemma q_isvert x : 0 <= x < zlen qv -> isvert g (at_ 0 qv x).
Proof. intros H. eapply QV; [exact Eq|]. apply at_In. lia. Qed.
Lemma q_rd x : k <= x < zlen qv -> rd 0 (mq t) (off + x * dlt) = Ok (at_ 0 qv x).
Proof.
  intros Hx. pose proof (ti_k _ _ _ _ _ _ _ T). pose proof (ti_len _ _ _ _ _ _ _ T) as HL. rewrite rd_ok; [now rewrite (ti_q _ _ _ _ _ _ _ T)|].
  destruct off_cases2 as [(E1 & E2)|(E1 & E2)]; rewrite E2, E1 in *; lia.
Qed.

(** a change of program point only *)
Lemma tin_goto (SEC' MT' : Z -> Prop) p : (forall x, secured ths ps x -> SEC' x) -> (forall x, isvert g x -> mated mate x -> MT' x) -> pcok MT' qv k j p -> tinv SEC' MT' qv (goto t p).
Proof.
  intros HS HM HP. exists pre, k, j. pose proof (tin_mono _ _ _ _ _ _ _ _ _ HS HM T) as []. constructor; auto.
Qed.
(** [continue]: the current vertex is secured *)
Lemma tin_next (SEC' MT' : Z -> Prop) : (forall x, secured ths ps x -> SEC' x) -> (forall x, isvert g x -> mated mate x -> MT' x) -> k < zlen qv -> SEC' (at_ 0 qv k) ->
  tinv SEC' MT' qv (next dlt t).
Proof.
  intros HS HM Hk Hsec. exists pre, (k + 1), j. pose proof (tin_mono _ _ _ _ _ _ _ _ _ HS HM T) as []. constructor; cbn [next mq mnum mnnd mnew mcnt mp]; auto; try lia.
  - intros x Hx. destruct (ti_sub0 x Hx) as (y & Hy & ->). exists y. split; [lia|auto].
  - intros x Hx. destruct (Z.eq_dec x k) as [->|]; [auto|]. apply ti_done0. lia.
  - exact I.
Qed.

Ltac meas := unfold tmeas; cbn [mp goto next mnum mnnd mq mnew mcnt]; rewrite ?(ti_num _ _ _ _ _ _ _ T), ?(ti_nnd _ _ _ _ _ _ _ T); pose proof (gv_degr0 g V); pose proof (ti_k _ _ _ _ _ _ _ T); pose proof (ti_j _ _ _ _ _ _ _ T).

Lemma next_ix : (off + k * dlt + dlt - off) / dlt = k + 1.
Proof. replace (off + k * dlt + dlt) with (off + (k + 1) * dlt) by lia. apply ix_off. Qed.

Lemma step_top : mp t = MTop -> stepres stale mate lock ths ps i t qv.
Proof.
  intros Ep. unfold stepres, tstep. rewrite Ep. pose proof (ti_k _ _ _ _ _ _ _ T) as Hk. pose proof (ti_j _ _ _ _ _ _ _ T) as Hj. pose proof (gi_mate _ _ _ _ G) as Zm. pose proof (gi_lock _ _ _ _ G) as Zl.
  assert (LOC : forall t', holds (mp t') = (fun _ => False) -> secp (mp t') = (fun _ => False) -> wsp (mp t') = (fun _ _ => False) -> mcnt t' = mcnt t ->
     ((forall x, secured ths ps x -> secured (updn ths i t') ps x) -> tinv (secured (updn ths i t') ps) (mated mate) qv t') -> ginv mate lock (updn ths i t') ps).
  { intros t' E1 E2 E3 E4 HT. eapply ginv_local; eauto; rewrite ?E1, ?E2, ?E3, ?Ep; cbn [holds secp wsp]; try tauto. }
  rewrite (ti_num _ _ _ _ _ _ _ T), (ti_nnd _ _ _ _ _ _ _ T). destruct (Z.ltb_spec (off + k * dlt) (off + j * dlt)) as [Hlt|Hge].
  - assert (Hkj : k < j) by nia. rewrite q_rd by lia. cbn [bind]. set (v := at_ 0 qv k). assert (Hv : isvert g v) by (apply q_isvert; lia).
    destruct (rmate_ok stale mate v Zm Hv) as (m & -> & Hm). cbn [bind]. destruct (Z.leb_spec 0 m) as [Hm0|Hm0].
    + eexists _, _, _, ps. split; [reflexivity|]. split.
      * apply LOC; try reflexivity. intros HS. apply tin_next; auto; [lia|]. apply HS. eapply mated_secured; eauto.
      * intros _. meas. rewrite Ep, next_ix, ix_off. nia.
    + rewrite rvert_ok, rvend_ok by auto. cbn [bind]. eexists _, _, _, ps. split; [reflexivity|]. pose proof (gv_range g V v Hv) as Hr. pose proof (gv_degr g V v Hv) as Hdg. split.
      * apply LOC; try (destruct (vert g v =? vend g v); [destruct nomerge|]; reflexivity). intros HS. apply tin_goto; auto.
        assert (IS : vert g v = vend g v -> isolated g v) by (intros E; split; [auto|]; intros e (_ & He); lia).
        destruct (Z.eqb_spec (vert g v) (vend g v)) as [E|NE].
        -- destruct nomerge eqn:Enm.
           ++ cbn [pcok]. split; [split; [lia|split; [lia|reflexivity]]|]. split; [split; [auto|split; [auto|split; [intros _; split; intros l _; reflexivity|auto]]]|]. intros _ u (e & A & _). destruct (IS E) as (_ & IS'). destruct (IS' e A).
           ++ cbn [pcok]. split; [split; [lia|split; [lia|reflexivity]]|]. auto.
        -- cbn [pcok]. split; [split; [lia|split; [lia|reflexivity]]|]. split; [split; [auto|lia]|]. split; [auto|]. left. split; [auto|]. split; [auto|]. intros; lia.
      * intros _. meas. rewrite Ep. destruct (Z.eqb_spec (vert g v) (vend g v)); [destruct nomerge|]; cbn [mp]; rewrite ?ix_off; nia.
  - eexists _, _, _, ps. split; [reflexivity|]. split.
    + apply LOC; try reflexivity. intros HS. apply tin_goto; auto. cbn [pcok]. nia.
    + intros _. meas. rewrite Ep. rewrite ix_off. nia.
Qed.

Definition quiet (p : mpc) : Prop := holds p = (fun _ => False) /\ secp p = (fun _ => False) /\ wsp p = (fun _ _ => False).

Lemma loc t' : quiet (mp t) -> quiet (mp t') -> mcnt t' = mcnt t ->
  ((forall x, secured ths ps x -> secured (updn ths i t') ps x) -> tinv (secured (updn ths i t') ps) (mated mate) qv t') -> ginv mate lock (updn ths i t') ps.
Proof.
  intros (E1 & E2 & E3) (F1 & F2 & F3) E4 HT. eapply ginv_local; eauto; try apply G; rewrite ?E1, ?E2, ?E3, ?F1, ?F2, ?F3; try tauto.
Qed.

Lemma step_trim v : mp t = MTrim v -> stepres stale mate lock ths ps i t qv.
Proof.
  intros Ep. unfold stepres, tstep. pose proof (ti_k _ _ _ _ _ _ _ T) as Hk. pose proof (ti_j _ _ _ _ _ _ _ T) as Hj. pose proof (gi_mate _ _ _ _ G) as Zm.
  pose proof (ti_pc _ _ _ _ _ _ _ T) as PC. rewrite Ep in *. cbn [pcok] in PC. destruct PC as ((C1 & C2 & C3) & IS & NM).
  assert (QT : quiet (mp t)) by (rewrite Ep; repeat split).
  rewrite (ti_num _ _ _ _ _ _ _ T), (ti_nnd _ _ _ _ _ _ _ T).
  assert (TOLAST : exists mate' lock' t' ps', Ok (mate, lock, goto t (MLast v (off + j * dlt))) = Ok (mate', lock', t') /\ ginv mate' lock' (updn ths i t') ps' /\ (MTrim v <> MDone -> 0 <= tmeas (zlen qv) t' < tmeas (zlen qv) t)).
  { eexists _, _, _, ps. split; [reflexivity|]. split.
    - apply loc; auto; [repeat split|]. intros HS. apply tin_goto; auto. cbn [pcok]. split; [auto|]. split; [auto|]. split; [auto|]. exists j. split; [auto|lia].
    - intros _. meas. rewrite Ep, !ix_off. nia. }
  destruct (Z.ltb_spec (off + k * dlt) (off + j * dlt)) as [Hlt|Hge]; [|exact TOLAST].
  assert (Hkj : k < j) by nia. replace (off + j * dlt - dlt) with (off + (j - 1) * dlt) by lia. rewrite q_rd by lia. cbn [bind]. set (w := at_ 0 qv (j - 1)). assert (Hw : isvert g w) by (apply q_isvert; lia).
  destruct (rmate_ok stale mate w Zm Hw) as (m & -> & Hm). cbn [bind]. destruct (Z.leb_spec 0 m) as [Hm0|Hm0]; [|exact TOLAST].
  eexists _, _, _, ps. split; [reflexivity|]. split.
  - apply loc; auto; [repeat split|]. intros HS. exists pre, k, (j - 1). pose proof (tin_mono _ _ _ _ _ _ _ _ _ HS (fun x _ H => H) T) as []. constructor; cbn [mq mnum mnnd mnew mcnt mp]; auto; try lia.
    + intros x Hx. destruct (Z.eq_dec x (j - 1)) as [->|]; [|apply ti_tail0; lia]. apply HS. eapply mated_secured; eauto.
    + cbn [pcok]. split; [split; [lia|split; [lia|auto]]|auto].
  - intros _. meas. rewrite Ep. replace (off + (j - 1) * dlt - off) with (off + (j - 1) * dlt - off) by lia. rewrite !ix_off. nia.
Qed.

Lemma step_last v q : mp t = MLast v q -> stepres stale mate lock ths ps i t qv.
Proof.
  intros Ep. unfold stepres, tstep. pose proof (ti_k _ _ _ _ _ _ _ T) as Hk. pose proof (ti_j _ _ _ _ _ _ _ T) as Hj. pose proof (gi_mate _ _ _ _ G) as Zm.
  pose proof (ti_pc _ _ _ _ _ _ _ T) as PC. rewrite Ep in *. cbn [pcok] in PC. destruct PC as ((C1 & C2 & C3) & IS & NM & qi & -> & Hqi).
  assert (QT : quiet (mp t)) by (rewrite Ep; repeat split). assert (Hv : isvert g v) by (destruct IS; auto).
  assert (SG : single (mated mate) v) by (intros u (e & A & _); destruct IS as (_ & IS); destruct (IS e A)).
  rewrite (ti_num _ _ _ _ _ _ _ T). destruct (Z.ltb_spec (off + k * dlt) (off + qi * dlt)) as [Hlt|Hge].
  - assert (Hkj : k < qi) by nia. replace (off + qi * dlt - dlt) with (off + (qi - 1) * dlt) by lia. rewrite q_rd by lia. cbn [bind]. set (w := at_ 0 qv (qi - 1)). assert (Hw : isvert g w) by (apply q_isvert; lia).
    destruct (rmate_ok stale mate w Zm Hw) as (m & -> & Hm). cbn [bind].
    assert (Hc : exists c, (if m <? 0 then rcompat fx b fix_ par v w else Ok false) = Ok c /\ (c = true -> ok v w)).
    { destruct (m <? 0); [|exists false; split; [auto|discriminate]]. destruct (rcompat_spec g V fx el fix_ par PF PP HEL v w Hv Hw) as (c & -> & Hc). exists c. tauto. }
    destruct Hc as (c & -> & Hc). cbn [bind]. eexists _, _, _, ps. split; [reflexivity|]. split.
    + apply loc; auto; [destruct c; repeat split|]. intros HS. apply tin_goto; auto. destruct c; cbn [pcok].
      * split; [auto|]. split; [|auto]. split; [auto|]. split; [auto|]. split; auto.
      * split; [auto|]. split; [auto|]. split; [auto|]. exists (qi - 1). split; [lia|lia].
    + intros _. meas. rewrite Ep. destruct c; cbn [mp]; rewrite ?ix_off; nia.
  - eexists _, _, _, ps. split; [reflexivity|]. split.
    + apply loc; auto; [repeat split|]. intros HS. apply tin_goto; auto. cbn [pcok]. split; [auto|]. split; [|auto]. split; [auto|]. split; [auto|]. split; [intros _; split; intros l _; reflexivity|auto].
    + intros _. meas. rewrite Ep. cbn [mp]. rewrite ?ix_off; nia.
Qed.

Lemma step_nbr v e bst lbst : mp t = MNbr v e bst lbst -> stepres stale mate lock ths ps i t qv.
Proof.
  intros Ep. unfold stepres, tstep. pose proof (ti_k _ _ _ _ _ _ _ T) as Hk. pose proof (ti_j _ _ _ _ _ _ _ T) as Hj. pose proof (gi_mate _ _ _ _ G) as Zm.
  pose proof (ti_pc _ _ _ _ _ _ _ T) as PC. rewrite Ep in *. cbn [pcok] in PC. destruct PC as (C & A & Hel & HBst).
  assert (QT : quiet (mp t)) by (rewrite Ep; repeat split). pose proof A as (Hv & He). pose proof (gv_end g V v e A) as W. pose proof (gv_loop g V v e A) as WN. pose proof (gv_edlo g V v e A) as El0.
  rewrite rvend_ok by auto. cbn [bind]. rewrite redge_ok with (v := v) by auto. cbn [bind]. set (w := edge g e) in *.
  destruct (rmate_ok stale mate w Zm W) as (m & -> & Hm). cbn [bind].
  assert (Hc : exists c, (if m <? 0 then rcompat fx b fix_ par v w else Ok false) = Ok c /\ (c = true -> ok v w) /\ (c = false -> mated mate w \/ ~ ok v w)).
  { destruct (Z.ltb_spec m 0); [|exists false; split; [auto|]; split; [discriminate|]; intros _; left; auto].
    destruct (rcompat_spec g V fx el fix_ par PF PP HEL v w Hv W) as (c & -> & Hc). exists c. split; [auto|]. split; [tauto|]. intros ->. right. intros O. apply Hc in O. discriminate. }
  destruct Hc as (c & -> & Hc1 & Hc2). cbn [bind].
  (* one more neighbour scanned *)
  set (Best := fun e bst lbst => (bst = v /\ lbst = -1 /\ forall e', vert g v <= e' < e -> mated mate (edge g e') \/ ~ ok v (edge g e')) \/ (bst <> v /\ adjacent g v bst /\ ok v bst)).
  assert (FIN : forall bst' lbst', (el = false -> bst' = v) -> Best (e + 1) bst' lbst' -> exists mate' lock' t' ps', Ok (mate, lock, goto t (if e + 1 <? vend g v then MNbr v (e + 1) bst' lbst' else MLock v bst')) = Ok (mate', lock', t') /\ ginv mate' lock' (updn ths i t') ps' /\ (MNbr v e bst lbst <> MDone -> 0 <= tmeas (zlen qv) t' < tmeas (zlen qv) t)).
  { intros bst' lbst' Hel' HB'. eexists _, _, _, ps. split; [reflexivity|]. destruct C as (C1 & C2 & C3). destruct (Z.ltb_spec (e + 1) (vend g v)) as [Hl|Hl]; (split; [apply loc; auto; [repeat split|]; intros HS; apply tin_goto; auto|]).
    - cbn [pcok]. split; [auto|]. split; [split; [auto|lia]|]. auto.
    - intros _. meas. rewrite Ep. cbn [mp]. rewrite ?ix_off. nia.
    - cbn [pcok]. split; [auto|]. destruct HB' as [(-> & E & H)|(N1 & N2 & N3)].
      + split; [split; [auto|split; [auto|split; [intros _; split; intros l _; reflexivity|auto]]]|]. intros _ u (e' & (_ & A') & <-) O. destruct (H e'); [lia|auto|contradiction].
      + split; [|contradiction]. pose proof N2 as (e' & A' & E'). split; [auto|]. split; [rewrite <- E'; apply (gv_end g V v e' A')|]. split; auto.
    - intros _. meas. rewrite Ep. cbn [mp]. rewrite ?ix_off. nia. }
  assert (SKIP : (mated mate w \/ ~ ok v w \/ lbst <> -1) -> Best (e + 1) bst lbst).
  { intros H. destruct HBst as [(E1 & E2 & E3)|HBst]; [left|right; auto]. split; [auto|]. split; [auto|]. intros e' He'. destruct (Z.eq_dec e' e) as [->|]; [|apply E3; lia]. fold w. destruct H as [H|[H|H]]; auto. }
  destruct c; cbn [andb].
  - specialize (Hc1 eq_refl). destruct (bool_dec el true) as [Eel|Eel]; [|apply not_true_is_false in Eel]; rewrite Eel; cbn [negb andb].
    + pose proof HEL as HEL'. rewrite Eel in HEL'. unfold matchEl in HEL'. destruct (edlotab g) as [tt|] eqn:Et; [|discriminate]. pose proof (gr_edlo g R tt v e Et A) as Hre. rewrite rd_ok by auto. cbn [bind].
      assert (EE : at_ b tt e = edlo g e) by (unfold edlo; now rewrite Et). rewrite EE. destruct (Z.ltb_spec lbst (edlo g e)) as [Hl|Hl]; cbn [andb].
      * apply FIN; [congruence|]. right. split; [auto|]. split; [exists e; auto|auto].
      * apply FIN; [congruence|]. apply SKIP. right; right. lia.
    + cbn [bind]. eexists _, _, _, ps. split; [reflexivity|]. split.
      * apply loc; auto; [repeat split|]. intros HS. apply tin_goto; auto. cbn [pcok]. split; [auto|]. split; [|intros; contradiction]. split; [auto|]. split; [auto|]. split; [auto|]. right; left. exists e; auto.
      * intros _. destruct C as (C1 & C2 & C3). meas. rewrite Ep. cbn [mp]. rewrite ?ix_off. nia.
  - cbn [bind andb]. apply FIN; [auto|]. apply SKIP. destruct (Hc2 eq_refl); auto.
Qed.

Lemma step_done : mp t = MDone -> stepres stale mate lock ths ps i t qv.
Proof.
  intros Ep. unfold stepres, tstep. rewrite Ep. eexists _, _, _, ps. split; [reflexivity|]. split; [|congruence].
  apply loc; auto; try (rewrite Ep; repeat split). intros HS. exists pre, k, j. eapply tin_mono; eauto.
Qed.

Lemma own_or_sec x : rest ths i x -> In x qv -> secured ths ps x.
Proof.
  intros (c & tc & NE & Ec & Hh) Ix. destruct (gi_ti _ _ _ _ G c tc Ec) as (qc & Eqc & pre' & k' & j' & T'). pose proof (ti_pc _ _ _ _ _ _ _ T') as PC. pose proof (ti_k _ _ _ _ _ _ _ T') as K'.
  assert (OWN : forall y, k' < zlen qc /\ k' <= j' /\ y = at_ 0 qc k' -> x = y -> False).
  { intros y (H1 & H2 & ->) ->. eapply (QD c i); eauto. apply at_In. lia. }
  right. exists c, tc. split; [auto|]. destruct (mp tc); cbn [holds secp pcok] in *; try contradiction; try (exfalso; eapply OWN; [apply PC | eauto]; fail).
  - destruct Hh as [Hh|Hh]; [exfalso; eapply OWN; [apply PC | eauto]|auto].
  - destruct Hh as [Hh|Hh]; [exfalso; eapply OWN; [apply PC | eauto]|auto].
Qed.

Lemma wr_lock x (l : list Z) : isvert g x -> zlen l = n -> wr b l x 1 = Ok (upd b l x 1) /\ rd b l x = Ok (at_ b l x).
Proof. intros (X1 & X2) Z1. pose proof (gv_nnd g V). rewrite wr_ok, rd_ok by lia. auto. Qed.
Lemma at_lock x (l : list Z) y u : isvert g x -> isvert g y -> zlen l = n -> at_ b (upd b l x u) y = if x =? y then u else at_ b l y.
Proof. intros (X1 & X2) (Y1 & Y2) Z1. pose proof (gv_nnd g V). rewrite at_upd by lia. auto. Qed.

Lemma step_lock v w : mp t = MLock v w -> stepres stale mate lock ths ps i t qv.
Proof.
  intros Ep. unfold stepres, tstep. pose proof (ti_k _ _ _ _ _ _ _ T) as Hk. pose proof (ti_j _ _ _ _ _ _ _ T) as Hj. pose proof (gi_mate _ _ _ _ G) as Zm. pose proof (gi_lock _ _ _ _ G) as Zl.
  pose proof (ti_pc _ _ _ _ _ _ _ T) as PC. destruct (ginv_at _ _ _ _ _ _ G Ei) as (A1 & A2 & A3 & A4). rewrite Ep in *. cbn [pcok holds wsp] in *. destruct PC as (C & GD & SG).
  pose proof GD as (Hv & Hw & _). destruct (wr_lock v lock Hv Zl) as (-> & ->). cbn [bind]. assert (Iv : In v qv) by (destruct C as (C1 & C2 & ->); apply at_In; lia).
  destruct (A1 v Hv) as [(L & F & NR & _)|(L & H)]; rewrite L; cbn [Z.eqb negb].
  - eexists _, _, _, ps. split; [reflexivity|]. split.
    + assert (HH : forall x, holds (if negb (w =? v) then MLock2 v w else MWself v w) x <-> x = v) by (intros x; destruct (Z.eqb_spec w v); cbn [negb holds]; subst; tauto).
      assert (HW : forall u x, ~ wsp (if negb (w =? v) then MLock2 v w else MWself v w) u x) by (intros u x; destruct (Z.eqb_spec w v); cbn [negb wsp]; [intros (_ & _ & H); auto|auto]).
      eapply (ginv_upd mate lock ths ps i t mate (upd b lock v 1) (goto t (if negb (w =? v) then MLock2 v w else MWself v w)) ps qv); eauto; cbn [goto mp mcnt].
      * now rewrite zlen_upd.
      * intros x Hx. rewrite at_lock by auto. rewrite HH. destruct (Z.eqb_spec v x) as [<-|NE]; [right; split; auto|]. destruct (A1 x Hx) as [(B1 & B2 & B3 & B4)|(B1 & B2)]; [left; auto|]. right. split; [auto|]. tauto.
      * intros x Hx. apply HH in Hx as ->. auto.
      * apply G.
      * intros x Hx Fx. destruct (A4 x Hx Fx) as [?|[?|(u & [])]]; auto.
      * intros. eapply gi_ws; eauto.
      * intros u x Hx. destruct (HW u x Hx).
      * rewrite Ep. intros x [].
      * intros HS. apply tin_goto; auto. destruct (Z.eqb_spec w v) as [E|NE]; cbn [negb pcok]; auto.
    + intros _. destruct C as (C1 & C2 & C3). meas. rewrite Ep. destruct (negb (w =? v)); rewrite ?ix_off; nia.
  - assert (SV : secured ths ps v) by (destruct H as [H|[H|[]]]; [left; auto|apply own_or_sec; auto]). destruct C as (C1 & C2 & C3).
    eexists _, _, _, ps. split; [reflexivity|]. split.
    + eapply ginv_local; eauto; cbn [next mp mcnt]; rewrite ?Ep; cbn [holds secp wsp]; try tauto.
      * now rewrite zlen_upd.
      * intros x Hx. rewrite at_lock by auto. destruct (Z.eqb_spec v x) as [<-|]; auto.
      * intros HS. apply tin_next; auto. rewrite <- C3. auto.
    + intros _. meas. rewrite Ep, next_ix, ix_off. nia.
Qed.

Lemma step_lock2 v w : mp t = MLock2 v w -> stepres stale mate lock ths ps i t qv.
Proof.
  intros Ep. unfold stepres, tstep. pose proof (ti_k _ _ _ _ _ _ _ T) as Hk. pose proof (ti_j _ _ _ _ _ _ _ T) as Hj. pose proof (gi_mate _ _ _ _ G) as Zm. pose proof (gi_lock _ _ _ _ G) as Zl.
  pose proof (ti_pc _ _ _ _ _ _ _ T) as PC. destruct (ginv_at _ _ _ _ _ _ G Ei) as (A1 & A2 & A3 & A4). rewrite Ep in *. cbn [pcok holds wsp] in *. destruct PC as (C & GD & SG).
  pose proof GD as (Hv & Hw & _). destruct (wr_lock w lock Hw Zl) as (-> & ->). cbn [bind].
  destruct (A1 w Hw) as [(L & F & NR & _)|(L & H)]; rewrite L; cbn [Z.eqb negb].
  - eexists _, _, _, ps. split; [reflexivity|]. split.
    + eapply (ginv_upd mate lock ths ps i t mate (upd b lock w 1) (goto t (MWmate v w)) ps qv); eauto; cbn [goto mp mcnt holds wsp secp]; try tauto.
      * now rewrite zlen_upd.
      * intros x Hx. rewrite at_lock by auto. destruct (Z.eqb_spec w x) as [<-|NE]; [right; split; auto|]. destruct (A1 x Hx) as [(B1 & B2 & B3 & B4)|(B1 & B2)]; [left; intuition|]. right. split; [auto|]. tauto.
      * intros x [-> | ->]; auto.
      * apply G.
      * intros. eapply gi_ws; eauto.
      * rewrite Ep. intros x [].
      * intros HS. apply tin_goto; auto. cbn [pcok]. auto.
    + intros _. destruct C as (C1 & C2 & C3). meas. rewrite Ep. rewrite ?ix_off; nia.
  - eexists _, _, _, ps. split; [reflexivity|]. split.
    + eapply ginv_local; eauto; cbn [goto mp mcnt]; rewrite ?Ep; cbn [holds secp wsp]; try tauto.
      * now rewrite zlen_upd.
      * intros x Hx. rewrite at_lock by auto. destruct (Z.eqb_spec w x) as [<-|]; auto.
      * intros HS. apply tin_goto; auto.
    + intros _. destruct C as (C1 & C2 & C3). meas. rewrite Ep. rewrite ?ix_off; nia.
Qed.

Lemma step_rel v : mp t = MRel v -> stepres stale mate lock ths ps i t qv.
Proof.
  intros Ep. unfold stepres, tstep. pose proof (ti_k _ _ _ _ _ _ _ T) as Hk. pose proof (ti_j _ _ _ _ _ _ _ T) as Hj. pose proof (gi_mate _ _ _ _ G) as Zm. pose proof (gi_lock _ _ _ _ G) as Zl.
  pose proof (ti_pc _ _ _ _ _ _ _ T) as PC. destruct (ginv_at _ _ _ _ _ _ G Ei) as (A1 & A2 & A3 & A4). rewrite Ep in *. cbn [pcok holds wsp] in *. destruct PC as (C1 & C2 & C3).
  destruct (A2 v eq_refl) as (Hv & Fv & NR). pose proof (gv_nnd g V) as Hn. rewrite wr_ok by (destruct Hv; lia). cbn [bind].
  pose proof (ti_new _ _ _ _ _ _ _ T) as Hnew. pose proof (ti_newk _ _ _ _ _ _ _ T) as Hnk. pose proof (zlen_nonneg pre) as Hp0.
  assert (Hmq : mnew t < zlen (mq t) /\ forall x, k < x -> mnew t <> off + x * dlt).
  { pose proof (ti_len _ _ _ _ _ _ _ T) as HL. destruct off_cases2 as [(E1 & E2)|(E1 & E2)]; rewrite E2, E1 in *; split; [lia|intros; lia|lia|intros; lia]. }
  destruct Hmq as (Hmq & Hmx). rewrite wr_ok by lia. cbn [bind]. eexists _, _, _, ps. split; [reflexivity|]. split.
  - eapply ginv_upd; eauto; cbn [mp mcnt holds wsp secp]; try tauto.
    + now rewrite zlen_upd.
    + intros x Hx. rewrite at_lock by auto. destruct (Z.eqb_spec v x) as [<-|NE]; [left; auto|]. destruct (A1 x Hx) as [(B1 & B2 & B3 & B4)|(B1 & [B2|[B2| ->]])]; [left; auto|right; auto|right; auto|congruence].
    + apply G.
    + intros. eapply gi_ws; eauto.
    + rewrite Ep. intros x [].
    + intros HS. exists (pre ++ [v]), (k + 1), j. pose proof (tin_mono _ _ _ _ _ _ _ _ _ HS (fun x _ H => H) T) as []. constructor; cbn [mq mnum mnnd mnew mcnt mp]; auto; try lia.
      * now rewrite zlen_upd.
      * intros x Hx. rewrite at_upd_other; [apply ti_q0; lia|lia|destruct off_cases2 as [(E1 & E2)|(E1 & E2)]; rewrite E2, E1; lia|apply Hmx; lia].
      * rewrite zlen_app. change (zlen [v]) with 1. lia.
      * rewrite firstn_snoc by (rewrite zlen_upd; lia). rewrite at_upd_same by lia. f_equal. rewrite <- ti_pre0. clear - Hmq. unfold upd. rewrite Z.sub_0_r. apply firstn_updn_le. lia.
      * apply NoDup_app_one; [auto|]. intros I. destruct (ti_sub0 v I) as (y & Hy & E). rewrite C3 in E. pose proof (QN i qv Eq) as ND. assert (k = y); [|lia]. apply (proj2 (NoDup_at 0 qv) ND); try lia; auto.
      * intros x I. apply in_app_or in I as [I|[<-|[]]]; [destruct (ti_sub0 x I) as (y & Hy & E); exists y; split; [lia|auto]|]. exists k. split; [lia|auto].
      * intros x Hx. destruct (Z.eq_dec x k) as [->|]; [right; apply in_or_app; right; rewrite <- C3; now left|]. destruct (ti_done0 x) as [?|?]; [lia|auto|right; apply in_or_app; auto].
      * exact I.
  - intros _. meas. rewrite Ep, next_ix, ix_off. nia.
Qed.

Lemma wsp_holds p u x : wsp p u x -> holds p x.
Proof. destruct p; cbn [wsp holds]; tauto. Qed.

Lemma step_wmate v w : mp t = MWmate v w -> stepres stale mate lock ths ps i t qv.
Proof.
  intros Ep. unfold stepres, tstep. pose proof (ti_k _ _ _ _ _ _ _ T) as Hk. pose proof (ti_j _ _ _ _ _ _ _ T) as Hj. pose proof (gi_mate _ _ _ _ G) as Zm. pose proof (gi_lock _ _ _ _ G) as Zl.
  pose proof (ti_pc _ _ _ _ _ _ _ T) as PC. destruct (ginv_at _ _ _ _ _ _ G Ei) as (A1 & A2 & A3 & A4). rewrite Ep in *. cbn [pcok holds wsp] in *. destruct PC as ((C1 & C2 & C3) & GD & NE).
  pose proof GD as (Hv & Hw & _). destruct (A2 w (or_intror eq_refl)) as (_ & Fw & NRw). pose proof (gv_nnd g V) as Hn. rewrite wr_ok by (destruct Hw; lia). cbn [bind].
  assert (AT : forall x, isvert g x -> at_ b (upd b mate w v) x = if w =? x then v else at_ b mate x) by (intros x Hx; apply at_lock; auto).
  assert (MM : forall x, isvert g x -> mated mate x -> mated (upd b mate w v) x) by (intros x Hx H; unfold mated in *; rewrite AT by auto; destruct (w =? x); [destruct Hv; lia|auto]).
  eexists _, _, _, ps. split; [reflexivity|]. split.
  - eapply ginv_upd; eauto; cbn [goto mp mcnt holds wsp secp]; try tauto.
    + now rewrite zlen_upd.
    + pose proof (gi_grp _ _ _ _ G) as []. constructor; auto.
      * intros p q I. destruct (gp_mate0 p q I) as (P & Q & E1 & E2). destruct (Fw p q I). rewrite !AT by auto. split; [auto|]. split; [auto|]. split; eqbs; congruence.
      * intros p I u (e & A & <-) O. apply MM; [apply (gv_end g V p e A)|]. apply (gp_single0 p I); [exists e; auto|auto].
    + intros x Hx Fx. rewrite AT by auto. destruct (Z.eqb_spec w x) as [<-|N]; [right; right; exists v; auto|]. destruct (A4 x Hx Fx) as [?|[?|(u & [])]]; auto.
    + intros c tc u x Nc Ec Hx. rewrite AT by (eapply gi_fr; [exact G|exact Ec|]; eapply wsp_holds; eauto). destruct (Z.eqb_spec w x) as [<-|N]; [|eapply gi_ws; eauto].
      exfalso. apply NRw. exists c, tc. split; [auto|]. split; [auto|]. eapply wsp_holds; eauto.
    + intros u x (-> & -> & _). rewrite AT by auto. now rewrite Z.eqb_refl.
    + rewrite Ep. auto.
    + intros HS. apply tin_goto; auto. cbn [pcok]. split; [auto|]. split; [auto|]. intros; contradiction.
  - intros _. meas. rewrite Ep. rewrite ?ix_off; nia.
Qed.

Lemma adjacent_sym u v : adjacent g u v -> adjacent g v u.
Proof. intros (e & A & <-). destruct (gv_sym g V u e A) as (e' & A' & E' & _). exists e'. auto. Qed.
Lemma ok_sym u v : ok u v -> ok v u.
Proof. intros O E. destruct (O E) as (H1 & H2). split; intros l El; symmetry; auto. Qed.

Lemma step_wself v w : mp t = MWself v w -> stepres stale mate lock ths ps i t qv.
Proof.
  intros Ep. unfold stepres, tstep. pose proof (ti_k _ _ _ _ _ _ _ T) as Hk. pose proof (ti_j _ _ _ _ _ _ _ T) as Hj. pose proof (gi_mate _ _ _ _ G) as Zm. pose proof (gi_lock _ _ _ _ G) as Zl.
  pose proof (ti_pc _ _ _ _ _ _ _ T) as PC. destruct (ginv_at _ _ _ _ _ _ G Ei) as (A1 & A2 & A3 & A4). rewrite Ep in *. cbn [pcok holds wsp] in *. destruct PC as ((C1 & C2 & C3) & GD & SG).
  pose proof GD as (Hv & Hw & _). destruct (A2 w (or_intror eq_refl)) as (_ & Fw & NRw). destruct (A2 v (or_introl eq_refl)) as (_ & Fv & NRv). pose proof (gv_nnd g V) as Hn. rewrite wr_ok by (destruct Hv; lia). cbn [bind].
  assert (AT : forall x, isvert g x -> at_ b (upd b mate v w) x = if v =? x then w else at_ b mate x) by (intros x Hx; apply at_lock; auto).
  assert (MM : forall x, isvert g x -> mated mate x -> mated (upd b mate v w) x) by (intros x Hx H; unfold mated in *; rewrite AT by auto; destruct (v =? x); [destruct Hw; lia|auto]).
  assert (MW : v <> w -> at_ b mate w = v) by (intros N; apply (gi_ws _ _ _ _ G i t v w Ei); rewrite Ep; cbn [wsp]; auto).
  assert (NV : w = v -> ~ mated mate v).
  { intros E H. unfold mated in H. destruct (A4 v Hv Fv) as [H'|[(c & tc & u & Nc & Ec & H')|(u & _ & H' & H2)]]; [lia| |congruence]. apply NRv. exists c, tc. split; [auto|]. split; [auto|]. eapply wsp_holds; eauto. }
  assert (FA : forall x, free (ps ++ [(v, w)]) x <-> free ps x /\ x <> v /\ x <> w) by (intros x; rewrite free_app, free_one; tauto).
  eexists _, _, _, (ps ++ [(v, w)]). split; [reflexivity|]. split.
  - eapply ginv_upd; eauto; cbn [mp mcnt holds wsp secp]; try tauto.
    + now rewrite zlen_upd.
    + intros x Hx. rewrite FA. destruct (A1 x Hx) as [(B1 & B2 & B3 & B4)|(B1 & [B2|[B2|B2]])]; [left; tauto|right; tauto|right; tauto|right; split; [auto|left; tauto]].
    + intros x Hx. apply FA. split; [auto|]. split; intros ->; contradiction.
    + pose proof (gi_grp _ _ _ _ G) as []. constructor.
      * intros p q I. apply in_app_or in I as [I|[[= <- <-]|[]]].
        -- destruct (gp_mate0 p q I) as (P & Q & E1 & E2). destruct (Fv p q I). rewrite !AT by auto. split; [auto|]. split; [auto|]. split; eqbs; congruence.
        -- rewrite !AT by auto. rewrite Z.eqb_refl. split; [auto|]. split; [auto|]. split; [auto|]. destruct (Z.eqb_spec v w); auto.
      * intros bf p q af E. destruct (rev_case af) as [->|(af' & y & ->)].
        -- apply app_inj_tail in E as (-> & [= -> ->]). auto.
        -- rewrite app_comm_cons, app_assoc in E. apply app_inj_tail in E as (E & _). eapply gp_free0; eauto.
      * intros p q I. apply in_app_or in I as [I|[[= <- <-]|[]]]; auto.
      * intros p I u (e & A & <-) O. apply MM; [apply (gv_end g V p e A)|]. apply in_app_or in I as [I|[[= <- E]|[]]]; [apply (gp_single0 p I); [exists e; auto|auto]|]. apply SG; [auto|exists e; auto|auto].
      * intros p q I1 I2 A O. apply in_app_or in I1 as [I1|[[= <- E1]|[]]]; apply in_app_or in I2 as [I2|[[= <- E2]|[]]].
        -- exact (gp_max0 p q I1 I2 A O).
        -- apply (NV E2). apply (gp_single0 p I1); auto.
        -- apply (NV E1). apply (gp_single0 q I2); [apply adjacent_sym; auto|apply ok_sym; auto].
        -- destruct A as (e & A & E). apply (gv_loop g V v e A E).
    + intros x Hx Fx. apply FA in Fx as (F1 & F2 & F3). rewrite AT by auto. destruct (Z.eqb_spec v x) as [<-|N]; [congruence|]. destruct (A4 x Hx F1) as [?|[?|(u & _ & H & _)]]; auto. congruence.
    + intros c tc u x Nc Ec Hx. rewrite AT by (eapply gi_fr; [exact G|exact Ec|]; eapply wsp_holds; eauto). destruct (Z.eqb_spec v x) as [<-|N]; [|eapply gi_ws; eauto].
      exfalso. apply NRv. exists c, tc. split; [auto|]. split; [auto|]. eapply wsp_holds; eauto.
    + rewrite zlen_app. change (zlen [(v, w)]) with 1. lia.
    + intros x Nx Fx. apply FA in Fx as (F1 & _). auto.
    + rewrite Ep. cbn [secp]. intros x ->. right. intros Fx. apply FA in Fx. tauto.
    + intros HS. destruct (tin_next (secured (updn ths i (mkthr (mq t) (mnum t + dlt) (mnnd t) (mnew t) (mcnt t + 1) MTop)) (ps ++ [(v, w)])) (mated (upd b mate v w))) as (pre' & k' & j' & T'); auto.
      * left. rewrite <- C3. intros Fx. apply FA in Fx. tauto.
      * exists pre', k', j'. destruct T'. constructor; auto.
  - intros _. meas. rewrite Ep, next_ix, ix_off. nia.
Qed.

Lemma step_ok : stepres stale mate lock ths ps i t qv.
Proof.
  destruct (mp t) eqn:Ep.
  - apply step_top; auto.
  - eapply step_trim; eauto.
  - eapply step_last; eauto.
  - eapply step_nbr; eauto.
  - eapply step_lock; eauto.
  - eapply step_lock2; eauto.
  - eapply step_rel; eauto.
  - eapply step_wmate; eauto.
  - eapply step_wself; eauto.
  - apply step_done; auto.
Qed.
End Step.
End Thr.
