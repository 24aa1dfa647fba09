(** Proofs about multi-threaded matching: whole runs. *)
From Verif Require Import Base M_Int M_Sort M_Graph M_Match M_MatchThr S_Graph S_Color S_Match P_Graph P_GraphList P_Induce P_Rand P_Match P_Match2 P_MatchThr.

Definition occurs (i : nat) (sched : list (nat * bool)) : Z := zlen (filter (fun c => Nat.eqb (fst c) i) sched).

Lemma skipn_nth {A} (l : list A) i x : nth_error l i = Some x -> skipn i l = x :: skipn (S i) l.
Proof. revert i. induction l as [|y l IH]; intros i H; [destruct i; discriminate|]. destruct i; cbn [nth_error] in H; [injection H as ->; reflexivity|]. cbn [skipn]. rewrite (IH i H). reflexivity. Qed.

Section Run.
Context (g : graph) (V : graph_valid g) (R : graph_readable g) (HB : 0 <= baseval g).
Context (fx el nomerge : bool) (fix_ par : option (list Z)) (PF : per_vertex g fix_) (PP : per_vertex g par) (HEL : el = matchEl g).
Context (dlt : Z) (HD : dlt = 1 \/ dlt = 2).
Context (qvs : list (list Z))
  (QV : forall i qv v, nth_error qvs i = Some qv -> In v qv -> isvert g v)
  (QN : forall i qv, nth_error qvs i = Some qv -> NoDup qv)
  (QD : forall i j qv qv' v, nth_error qvs i = Some qv -> nth_error qvs j = Some qv' -> i <> j -> In v qv -> In v qv' -> False).
Notation b := (baseval g).
Notation n := (vertnbr g).
Notation ok := (ok g fx fix_ par).
Notation GI := (ginv g fx el nomerge fix_ par dlt qvs).
Notation TM := (tmeas g dlt).

Lemma step_at stale mate lock ths ps i t : GI mate lock ths ps -> nth_error ths i = Some t ->
  exists qv mate' lock' t' ps', nth_error qvs i = Some qv /\ tstep fx el nomerge g fix_ par dlt stale mate lock t = Ok (mate', lock', t') /\ GI mate' lock' (updn ths i t') ps' /\
    (mp t = MDone -> mp t' = MDone) /\ (mp t <> MDone -> 0 <= TM (zlen qv) t' < TM (zlen qv) t).
Proof.
  intros G Ei. destruct (gi_ti _ _ _ _ _ _ _ _ _ _ _ _ G i t Ei) as (qv & Eq & pre & k & j & T).
  destruct (step_ok g V R HB fx el nomerge fix_ par PF PP HEL dlt HD qvs QV QN QD stale mate lock ths ps i t qv pre k j G Ei Eq T) as (mate' & lock' & t' & ps' & E & G' & M).
  exists qv, mate', lock', t', ps'. split; [auto|]. split; [auto|]. split; [auto|]. split; [|auto]. intros Ed. unfold tstep in E. rewrite Ed in E. injection E as <- <- <-. auto.
Qed.

Lemma srun_ok sched : forall mate lock ths ps, GI mate lock ths ps ->
  exists mate' lock' ths' ps', srun fx el nomerge g fix_ par dlt sched (mate, lock, ths) = Ok (mate', lock', ths') /\ GI mate' lock' ths' ps' /\
    forall i, match nth_error ths i with
              | None => nth_error ths' i = None
              | Some t => exists t' qv, nth_error ths' i = Some t' /\ nth_error qvs i = Some qv /\ (mp t' = MDone \/ 1 <= TM (zlen qv) t' <= TM (zlen qv) t - occurs i sched)
              end.
Proof.
  induction sched as [|(c, stale) sched IH]; intros mate lock ths ps G.
  - exists mate, lock, ths, ps. split; [reflexivity|]. split; [auto|]. intros i. destruct (nth_error ths i) as [t|] eqn:Ei; [|auto].
    destruct (step_at false _ _ _ _ _ _ G Ei) as (qv & _ & _ & t' & _ & Eq & _ & _ & _ & M). exists t, qv. split; [auto|]. split; [auto|].
    assert (DD : mp t = MDone \/ mp t <> MDone) by (destruct (mp t); auto; right; discriminate). destruct DD as [DD|DD]; [auto|]. specialize (M DD). right. change (occurs i []) with 0. lia.
  - cbn [srun]. unfold sstep. cbn [fst snd]. destruct (nth_error ths c) as [t|] eqn:Ec.
    + destruct (step_at stale _ _ _ _ _ _ G Ec) as (qv & mate1 & lock1 & t1 & ps1 & Eq & -> & G1 & D1 & M1). cbn [bind].
      destruct (IH _ _ _ _ G1) as (mate' & lock' & ths' & ps' & E & G' & HF). exists mate', lock', ths', ps'. split; [exact E|]. split; [auto|].
      intros i. specialize (HF i). destruct (Nat.eq_dec i c) as [->|NE].
      * rewrite (nth_updn_same ths c t1 t Ec) in HF. rewrite Ec. destruct HF as (t' & qv' & E1 & E2 & H). assert (qv' = qv) by congruence. subst qv'. exists t', qv. split; [auto|]. split; [auto|].
        destruct H as [H|H]; [auto|]. unfold occurs. cbn [filter fst]. rewrite Nat.eqb_refl. rewrite zlen_cons. fold (occurs c sched).
        assert (DD : mp t = MDone \/ mp t <> MDone) by (destruct (mp t); auto; right; discriminate). destruct DD as [DD|DD]; [|specialize (M1 DD); right; lia].
        exfalso. apply D1 in DD. assert (Z0 : TM (zlen qv) t1 = 0) by (unfold tmeas; now rewrite DD). assert (0 <= occurs c sched) by apply zlen_nonneg. lia.
      * rewrite nth_updn_other in HF by auto. destruct (nth_error ths i) as [t0|]; [|auto]. destruct HF as (t' & qv' & E1 & E2 & H). exists t', qv'. split; [auto|]. split; [auto|].
        unfold occurs. cbn [filter fst]. replace (Nat.eqb c i) with false by (symmetry; apply Nat.eqb_neq; auto). exact H.
    + cbn [bind]. destruct (IH _ _ _ _ G) as (mate' & lock' & ths' & ps' & E & G' & HF). exists mate', lock', ths', ps'. split; [exact E|]. split; [auto|].
      intros i. specialize (HF i). destruct (Nat.eq_dec i c) as [->|NE]; [rewrite Ec in *; auto|]. destruct (nth_error ths i) as [t0|]; [|auto].
      unfold occurs in *. cbn [filter fst]. replace (Nat.eqb c i) with false by (symmetry; apply Nat.eqb_neq; auto). exact HF.
Qed.

(** ** The sequential end *)
Record kinv (ps : list (Z * Z)) : Prop := {
  k_fr : forall before p q after, ps = before ++ (p, q) :: after -> free before p /\ free before q;
  k_good : forall p q, In (p, q) ps -> good g fx nomerge fix_ par p q;
  k_single : forall p u, In (p, p) ps -> adjacent g p u -> ok p u -> ~ free ps u;
  k_max : forall p q, In (p, p) ps -> In (q, q) ps -> adjacent g p q -> ok p q -> False }.

Lemma ok_refl v : ok v v.
Proof. intros _; split; intros l _; reflexivity. Qed.

Lemma kinv_step qv ps p q : kinv ps -> choice g fx nomerge fix_ par qv ps p q -> kinv (ps ++ [(p, q)]).
Proof.
  intros [] (Hp & Hq & Fp & Fq & C).
  assert (LP : ~ adjacent g p p) by (intros (e & A & E); apply (gv_loop g V p e A E)).
  assert (SG : q = p -> forall u, adjacent g p u -> ok p u -> ~ free ps u).
  { intros E u (e & A & <-) O F. destruct C as [((_ & I) & _)|[(_ & _ & H)|(e' & A' & E' & _)]]; [apply (I e A)|apply (H e A F O)|]. apply LP. exists e'. split; [auto|congruence]. }
  constructor.
  - intros bf p' q' af E. destruct (rev_case af) as [->|(af' & y & ->)].
    + apply app_inj_tail in E as (-> & [= -> ->]). auto.
    + rewrite app_comm_cons, app_assoc in E. apply app_inj_tail in E as (E & _). eapply k_fr0; eauto.
  - intros p' q' I. apply in_app_or in I as [I|[[= <- <-]|[]]]; [auto|]. split; [auto|]. split; [auto|]. destruct C as [(I & N & O & _)|[(_ & E & _)|(e & A & E & O & _)]].
    + split; [destruct O as [->|O]; [apply ok_refl|auto]|]. destruct nomerge; [left; symmetry; auto|auto].
    + subst q. split; [apply ok_refl|auto].
    + split; [auto|]. right; left. exists e. auto.
  - intros p' u I A O F. apply free_app in F as (F & _). apply in_app_or in I as [I|[[= <- E]|[]]]; [apply (k_single0 p' u I A O F)|]. apply (SG E u A O F).
  - intros p' q' I1 I2 A O. apply in_app_or in I1 as [I1|[[= <- E1]|[]]]; apply in_app_or in I2 as [I2|[[= <- E2]|[]]].
    + apply (k_max0 p' q'); auto.
    + apply (k_single0 p' p I1 A O Fp).
    + apply (k_single0 q' p I2); auto. 
      * apply (adjacent_sym g V); auto.
      * apply (ok_sym g fx fix_ par); auto.
    + apply LP; auto.
Qed.

Lemma kinv_app qv ps l : kinv ps -> (forall before p q after, l = before ++ (p, q) :: after -> choice g fx nomerge fix_ par qv (ps ++ before) p q) -> kinv (ps ++ l).
Proof.
  intros K. induction l as [|(p, q) l IH] using rev_ind; intros H; [rewrite app_nil_r; auto|]. rewrite app_assoc. apply (kinv_step qv).
  - apply IH. intros bf p' q' af E. apply (H bf p' q' (af ++ [(p, q)])). rewrite E, <- app_assoc. reflexivity.
  - apply (H l p q []). reflexivity.
Qed.

Lemma matchReduce_ok mate lock ths ps : GI mate lock ths ps -> (forall i t, nth_error ths i = Some t -> mp t = MDone) -> length ths = length qvs ->
  exists mate' ps', matchReduce fx el nomerge g fix_ par mate ths = Ok (mate', zlen ps') /\ minv g mate' ps' /\ kinv ps' /\ (forall i qv v, nth_error qvs i = Some qv -> In v qv -> ~ free ps' v).
Proof.
  intros G DN LEN. destruct G.
  assert (MI : minv g mate ps).
  { split; [auto|]. split; [apply gi_grp|]. intros v Hv F. destruct (gi_neg v Hv F) as [H|(i & t & u & Ei & H)]; [auto|]. rewrite (DN i t Ei) in H. destruct H. }
  assert (SEC : forall x, secured ths ps x -> ~ free ps x) by (intros x [H|(i & t & Ei & H)]; [auto|]; rewrite (DN i t Ei) in H; destruct H).
  assert (K : kinv ps).
  { destruct gi_grp. constructor; auto. intros p u I A O F. pose proof (gp_single p I u A O) as HM. unfold mated in HM. destruct A as (e & A & E). pose proof (gv_end g V p e A) as Hu. rewrite E in Hu.
    destruct MI as (_ & _ & M3). specialize (M3 u Hu F). lia. }
  assert (TQ : forall i qv, nth_error qvs i = Some qv -> exists t, nth_error ths i = Some t).
  { intros i qv Eq. destruct (nth_error ths i) as [t|] eqn:Ei; [eauto|]. apply nth_error_None in Ei. assert (i < length qvs)%nat by (apply nth_error_Some; congruence). lia. }
  unfold matchReduce.
  match goal with |- exists mate' ps', ?r = _ /\ _ => destruct (wp_ok_inv r (fun '(mate', c) => exists ps', c = zlen ps' /\ minv g mate' ps' /\ kinv ps' /\ (forall i qv v, nth_error qvs i = Some qv -> In v qv -> ~ free ps' v))) as ((mate' & c) & -> & (ps' & -> & H)) end; [|eauto].
  apply wp_for with (I := fun k '(mate', c) => exists l, c + tsum (skipn (Z.to_nat k) ths) = zlen (ps ++ l) /\ minv g mate' (ps ++ l) /\ kinv (ps ++ l) /\
      (forall i qv v, (i < Z.to_nat k)%nat -> nth_error qvs i = Some qv -> In v qv -> ~ free (ps ++ l) v)).
  - apply zlen_nonneg.
  - exists []. rewrite app_nil_r. split; [cbn [Z.to_nat skipn]; lia|]. split; [auto|]. split; [auto|]. intros; lia.
  - intros k (mate1, c1) Hk (l & Hc & MI1 & K1 & COV1). destruct (nth_error ths (Z.to_nat k)) as [t|] eqn:Ek; [|apply nth_error_None in Ek; unfold zlen in Hk; lia].
    destruct (gi_ti _ _ Ek) as (qv & Eq & pre & kk & j & T). destruct T. rewrite (DN _ _ Ek) in ti_pc. cbn [pcok] in ti_pc.
    assert (Hm : 0 <= mnew t) by (rewrite ti_new; apply zlen_nonneg). assert (Hml : mnew t <= zlen (mq t)) by (rewrite ti_new; rewrite <- ti_pre; unfold zlen; rewrite firstn_length; lia).
    destruct (matchSeq_spec g V R HB fx el nomerge fix_ par PF PP HEL (mq t) pre 1) with (mate0 := mate1) (ps0 := ps ++ l) (c0 := mcnt t) as (mate2 & l2 & E & MI2 & CH & COV); auto.
    + change (Z.shiftr 1 1) with 0. intros i Hi. replace (0 + i * 1) with i by lia. rewrite <- ti_pre. rewrite at_firstn by lia. reflexivity.
    + change (Z.shiftr 1 1) with 0. lia.
    + intros v I. destruct (ti_sub v I) as (i & Hi & ->). eapply QV; eauto. apply at_In. lia.
    + rewrite <- ti_new in E. rewrite E. cbn [bind wp]. exists (l ++ l2). rewrite !app_assoc. split; [|split; [auto|split]].
      * replace (Z.to_nat (k + 1)) with (S (Z.to_nat k)) by lia. rewrite (skipn_nth _ _ _ Ek) in Hc. unfold tsum in *. cbn [fold_right] in Hc. rewrite zlen_app. lia.
      * eapply kinv_app; eauto.
      * intros i qv' v Hi Eq' I F. destruct (Nat.eq_dec i (Z.to_nat k)) as [->|NE]; [|apply free_app in F as (F & _); eapply (COV1 i); eauto; lia].
        assert (qv' = qv) by congruence. subst qv'. apply (In_at 0) in I as (x & Hx & <-).
        assert (CS : secured ths ps (at_ 0 qv x) \/ In (at_ 0 qv x) pre).
        { destruct (Z.ltb_spec x kk); [apply ti_done; lia|]. left. apply ti_tail. lia. }
        destruct CS as [CS|CS]; [apply SEC in CS; apply CS; apply free_app in F as (F & _); apply free_app in F as (F & _); auto|]. apply (COV _ CS F).
  - intros (mate1, c1) (l & Hc & MI1 & K1 & COV1). exists (ps ++ l). split; [|split; [auto|split; [auto|]]].
    + rewrite skipn_all2 in Hc by (unfold zlen; lia). unfold tsum in Hc. cbn [fold_right] in Hc. lia.
    + intros i qv v Eq I. eapply COV1; eauto. destruct (TQ i qv Eq) as (t & Et). assert (i < length ths)%nat by (apply nth_error_Some; congruence). unfold zlen. lia.
Qed.
End Run.

(** ** The beginning *)
Lemma matchThreads_ok stksiz g thrdnbr : graph_valid g -> graph_readable g -> 32 <= stksiz -> vertnbr g < 2 ^ (stksiz - 1) -> 1 <= thrdnbr ->
  exists qss, matchThreads stksiz g thrdnbr = Ok (map (fun qs => mthr0 (flat2 qs) 2 (zlen qs)) qss) /\ zlen qss = thrdnbr /\
    forall i qs, nth_error qss i = Some qs ->
      Permutation (zseq (baseval g + datascan (vertnbr g) thrdnbr (Z.of_nat i)) (datasize (vertnbr g) thrdnbr (Z.of_nat i))) (map snd qs).
Proof.
  intros V R Hst Hsz Hth. pose proof (gv_nnd g V) as Hn. pose proof (gv_size g V) as Hn0. unfold matchThreads.
  match goal with |- exists qss, ?r = _ /\ _ => destruct (wp_ok_inv r (fun ths => exists qss, ths = map (fun qs => mthr0 (flat2 qs) 2 (zlen qs)) qss /\ zlen qss = thrdnbr /\
    forall i qs, nth_error qss i = Some qs -> Permutation (zseq (baseval g + datascan (vertnbr g) thrdnbr (Z.of_nat i)) (datasize (vertnbr g) thrdnbr (Z.of_nat i))) (map snd qs))) as (ths & -> & (qss & -> & H)) end; [|eauto].
  apply wp_for with (I := fun k ths => exists qss, ths = map (fun qs => mthr0 (flat2 qs) 2 (zlen qs)) qss /\ zlen qss = k /\
    forall i qs, nth_error qss i = Some qs -> Permutation (zseq (baseval g + datascan (vertnbr g) thrdnbr (Z.of_nat i)) (datasize (vertnbr g) thrdnbr (Z.of_nat i))) (map snd qs)); auto; try lia.
  - exists []. split; [reflexivity|]. split; [reflexivity|]. intros i qs E. destruct i; discriminate.
  - intros k ths Hk (qss & -> & Lq & Pq). pose proof (datascan_succ (vertnbr g) thrdnbr k ltac:(lia) ltac:(lia) ltac:(lia)) as HS.
    pose proof (datasize_bounds (vertnbr g) thrdnbr k ltac:(lia) ltac:(lia) ltac:(lia)) as HB1. assert (0 <= vertnbr g / thrdnbr) by (apply Z.div_pos; lia).
    pose proof (datascan_mono (vertnbr g) thrdnbr 0 k ltac:(lia) ltac:(lia) ltac:(lia) ltac:(lia)) as M1. rewrite datascan_0 in M1 by lia.
    pose proof (datascan_mono (vertnbr g) thrdnbr (k + 1) thrdnbr ltac:(lia) ltac:(lia) ltac:(lia) ltac:(lia)) as M2. rewrite datascan_p in M2 by lia.
    destruct (matchQueue_spec stksiz g (baseval g + datascan (vertnbr g) thrdnbr k) (baseval g + datascan (vertnbr g) thrdnbr (k + 1))) as (qs & -> & Lqs & Pqs); auto; try lia.
    cbn [bind wp]. exists (qss ++ [qs]). split; [rewrite map_app; cbn [map]; rewrite Lqs; reflexivity|]. split; [rewrite zlen_app; change (zlen [qs]) with 1; lia|].
    intros i qs' E. destruct (Nat.ltb_spec i (length qss)); [rewrite nth_error_app1 in E by auto; auto|].
    rewrite nth_error_app2 in E by auto. assert (i = length qss) as -> by (destruct (i - length qss)%nat eqn:Ed; [lia|destruct n; discriminate]).
    rewrite Nat.sub_diag in E. injection E as <-. unfold zlen in Lq. replace (Z.of_nat (length qss)) with k by lia. replace (baseval g + datascan (vertnbr g) thrdnbr (k + 1) - (baseval g + datascan (vertnbr g) thrdnbr k)) with (datasize (vertnbr g) thrdnbr k) in Pqs by lia. auto.
Qed.

Theorem graphMatchThr_ok stksiz nomerge g fix_ par vfixnbr thrdnbr sched :
  graph_valid g -> graph_readable g -> 0 <= baseval g -> per_vertex g fix_ -> per_vertex g par -> 32 <= stksiz -> vertnbr g < 2 ^ (stksiz - 1) -> 1 <= thrdnbr ->
  (graphMatchThr stksiz nomerge g fix_ par vfixnbr thrdnbr sched = Fuel /\
   exists i, (i < Z.to_nat thrdnbr)%nat /\ occurs i sched < (vertnbr g + 1) * (degrmax g + 2 * vertnbr g + 12)) \/
  exists mate ps, graphMatchThr stksiz nomerge g fix_ par vfixnbr thrdnbr sched = Ok (mate, zlen ps) /\ minv g mate ps /\ kinv g (matchFx vfixnbr par) nomerge fix_ par ps /\ (forall v, isvert g v -> ~ free ps v).
Proof.
  intros V R HB PF PP Hst Hsz Hth. pose proof (gv_nnd g V) as Hn. pose proof (gv_size g V) as Hn0. pose proof (gv_degr0 g V) as Hd0. unfold graphMatchThr.
  destruct (matchThreads_ok stksiz g thrdnbr V R Hst Hsz Hth) as (qss & -> & Lq & Pq). cbn [bind].
  set (qvs := map (map snd) qss). set (fx := matchFx vfixnbr par). set (ths := map _ qss).
  assert (NQ : forall i qv, nth_error qvs i = Some qv -> exists qs, nth_error qss i = Some qs /\ qv = map snd qs /\ 0 <= Z.of_nat i < thrdnbr).
  { intros i qv E. unfold qvs in E. rewrite nth_error_map in E. destruct (nth_error qss i) as [qs|] eqn:Eq; [|discriminate]. injection E as <-. exists qs. split; [auto|]. split; [auto|].
    assert (i < length qss)%nat by (apply nth_error_Some; congruence). unfold zlen in Lq. lia. }
  assert (IN : forall i qv v, nth_error qvs i = Some qv -> (In v qv <-> datascan (vertnbr g) thrdnbr (Z.of_nat i) <= v - baseval g < datascan (vertnbr g) thrdnbr (Z.of_nat i) + datasize (vertnbr g) thrdnbr (Z.of_nat i))).
  { intros i qv v E. destruct (NQ i qv E) as (qs & Eq & -> & Hi). pose proof (Pq i qs Eq) as P. split; intros I.
    - apply (Permutation_in _ (Permutation_sym P)), In_zseq in I. lia.
    - apply (Permutation_in _ P), In_zseq. lia. }
  assert (RG : forall i, 0 <= Z.of_nat i < thrdnbr -> 0 <= datascan (vertnbr g) thrdnbr (Z.of_nat i) /\ datascan (vertnbr g) thrdnbr (Z.of_nat i) + datasize (vertnbr g) thrdnbr (Z.of_nat i) <= vertnbr g).
  { intros i Hi. pose proof (datascan_succ (vertnbr g) thrdnbr (Z.of_nat i) ltac:(lia) ltac:(lia) ltac:(lia)) as HS.
    pose proof (datascan_mono (vertnbr g) thrdnbr 0 (Z.of_nat i) ltac:(lia) ltac:(lia) ltac:(lia) ltac:(lia)) as M1. rewrite datascan_0 in M1 by lia.
    pose proof (datascan_mono (vertnbr g) thrdnbr (Z.of_nat i + 1) thrdnbr ltac:(lia) ltac:(lia) ltac:(lia) ltac:(lia)) as M2. rewrite datascan_p in M2 by lia. lia. }
  assert (QV : forall i qv v, nth_error qvs i = Some qv -> In v qv -> isvert g v).
  { intros i qv v E I. apply (IN i qv v E) in I. destruct (NQ i qv E) as (_ & _ & _ & Hi). pose proof (RG i Hi). split; lia. }
  assert (QN : forall i qv, nth_error qvs i = Some qv -> NoDup qv).
  { intros i qv E. destruct (NQ i qv E) as (qs & Eq & -> & Hi). apply (Permutation_NoDup (Pq i qs Eq)), NoDup_zseq. }
  assert (QD : forall i j qv qv' v, nth_error qvs i = Some qv -> nth_error qvs j = Some qv' -> i <> j -> In v qv -> In v qv' -> False).
  { intros i j qv qv' v E1 E2 NE I1 I2. pose proof (QV i qv v E1 I1) as (V1 & V2). apply (IN i qv v E1) in I1. apply (IN j qv' v E2) in I2. destruct (NQ i qv E1) as (_ & _ & _ & Hi). destruct (NQ j qv' E2) as (_ & _ & _ & Hj).
    destruct (datascan_cover (vertnbr g) thrdnbr (v - baseval g)) as (x & _ & U); try lia. pose proof (U (Z.of_nat i) ltac:(auto)). pose proof (U (Z.of_nat j) ltac:(auto)). lia. }
  assert (COV : forall v, isvert g v -> exists i qv, nth_error qvs i = Some qv /\ In v qv).
  { intros v (V1 & V2). destruct (datascan_cover (vertnbr g) thrdnbr (v - baseval g)) as (x & (H1 & H2) & _); try lia. exists (Z.to_nat x).
    destruct (nth_error qvs (Z.to_nat x)) as [qv|] eqn:E; [|apply nth_error_None in E; unfold qvs in E; rewrite map_length in E; unfold zlen in Lq; lia]. exists qv. split; [auto|]. apply (IN _ _ _ E). rewrite Z2Nat.id by lia. auto. }
  assert (G0 : ginv g fx (matchEl g) nomerge fix_ par 2 qvs (repeat (-1) (Z.to_nat (vertnbr g))) (repeat 0 (Z.to_nat (vertnbr g))) ths []).
  { assert (NT : forall i t, nth_error ths i = Some t -> exists qs, nth_error qss i = Some qs /\ t = mthr0 (flat2 qs) 2 (zlen qs)).
    { intros i t E. unfold ths in E. rewrite nth_error_map in E. destruct (nth_error qss i) as [qs|] eqn:Eq; [|discriminate]. injection E as <-. eauto. }
    assert (MT : forall i t, nth_error ths i = Some t -> mp t = MTop) by (intros i t E; destruct (NT i t E) as (qs & _ & ->); reflexivity).
    assert (FN : forall x, free [] x) by (intros x p q []).
    constructor.
    - rewrite zlen_repeat; lia.
    - rewrite zlen_repeat; lia.
    - intros x (X1 & X2). left. rewrite at_repeat by lia. split; [auto|]. split; [auto|]. intros i t E. rewrite (MT i t E). cbn [holds]. auto.
    - intros i j t t' x E _ _ H _. rewrite (MT i t E) in H. destruct H.
    - intros i t x E H. rewrite (MT i t E) in H. destruct H.
    - constructor; try (intros; contradiction). intros bf p q af E. destruct bf; discriminate.
    - intros x (X1 & X2) _. left. rewrite at_repeat by lia. lia.
    - intros i t u x E H. rewrite (MT i t E) in H. destruct H.
    - change (zlen (@nil (Z * Z))) with 0. unfold ths. clear. induction qss as [|q l IH]; [reflexivity|]. unfold tsum in *. cbn [map fold_right mthr0 mcnt]. lia.
    - intros i t E. destruct (NT i t E) as (qs & Eq & ->). exists (map snd qs). split; [unfold qvs; rewrite nth_error_map, Eq; reflexivity|]. exists [], 0, (zlen qs).
      constructor; cbn [mthr0 mq mnum mnnd mnew mcnt mp]; change (Z.shiftr 2 1) with 1; rewrite ?zlen_map, ?zlen_flat2; pose proof (zlen_nonneg qs); auto; try lia.
      + intros x Hx. apply at_flat2. lia.
      + constructor.
      + intros x [].
      + exact I. }
  destruct (srun_ok g V R HB fx (matchEl g) nomerge fix_ par PF PP eq_refl 2 ltac:(auto) qvs QV QN QD sched _ _ _ _ G0) as (mate & lock & ths' & ps & -> & G & HF). cbn [bind].
  assert (LT : length ths = length qss) by apply map_length.
  assert (LT' : length ths' = length qvs).
  { unfold qvs. rewrite map_length, <- LT. apply Nat.le_antisymm.
    - apply Nat.nlt_ge. intros H. specialize (HF (length ths)). rewrite (proj2 (nth_error_None ths (length ths))) in HF by lia. apply nth_error_None in HF. lia.
    - apply Nat.nlt_ge. intros H. specialize (HF (length ths')). destruct (nth_error ths (length ths')) as [t|] eqn:E; [|apply nth_error_None in E; lia]. destruct HF as (t' & _ & E' & _). assert (nth_error ths' (length ths') = None) by (apply nth_error_None; lia). congruence. }
  destruct (forallb mdone ths') eqn:FD.
  - right. rewrite forallb_forall in FD. destruct (matchReduce_ok g V R HB fx (matchEl g) nomerge fix_ par PF PP eq_refl 2 qvs QV QN QD mate lock ths' ps G) as (mate' & ps' & E & MI & K & CV); auto.
    + intros i t E. apply nth_error_In in E. apply FD in E. unfold mdone in E. destruct (mp t); auto; discriminate.
    + exists mate', ps'. split; [auto|]. split; [auto|]. split; [auto|]. intros v Hv. destruct (COV v Hv) as (i & qv & E' & I). eapply CV; eauto.
  - left. split; [auto|]. assert (EX : exists t, In t ths' /\ mdone t = false).
    { clear - FD. induction ths' as [|t l IH]; [discriminate|]. cbn [forallb] in FD. destruct (mdone t) eqn:E; [|exists t; split; [now left|auto]]. destruct IH as (t' & I & E'); [auto|]. exists t'. split; [now right|auto]. }
    destruct EX as (t' & I & ND). apply In_nth_error in I as (i & Ei'). assert (Li : (i < length ths')%nat) by (apply nth_error_Some; congruence). rewrite LT' in Li. unfold qvs in Li. rewrite map_length in Li.
    exists i. split; [unfold zlen in Lq; lia|]. specialize (HF i). unfold ths in HF. rewrite nth_error_map in HF. destruct (nth_error qss i) as [qs|] eqn:Eq; [|apply nth_error_None in Eq; lia]. cbn [option_map] in HF.
    destruct HF as (t'' & qv & E1 & E2 & H). assert (t'' = t') by congruence. subst t''. destruct H as [H|H]; [unfold mdone in ND; rewrite H in ND; discriminate|].
    unfold qvs in E2. rewrite nth_error_map, Eq in E2. injection E2 as <-. unfold tmeas at 3 in H. cbn [mthr0 mp mnum] in H. rewrite Z.sub_diag, Z.div_0_l in H by lia. rewrite zlen_map in H.
    assert (HZ : zlen qs <= vertnbr g). { pose proof (Permutation_length (Pq i qs Eq)) as PL. pose proof (RG i ltac:(unfold zlen in Lq; lia)) as (R1 & R2). rewrite map_length in PL. unfold zlen. rewrite <- PL. pose proof (datasize_bounds (vertnbr g) thrdnbr (Z.of_nat i) ltac:(lia) ltac:(lia) ltac:(unfold zlen in Lq; lia)). assert (0 <= vertnbr g / thrdnbr) by (apply Z.div_pos; lia). fold (zlen (zseq (baseval g + datascan (vertnbr g) thrdnbr (Z.of_nat i)) (datasize (vertnbr g) thrdnbr (Z.of_nat i)))). rewrite zlen_zseq by lia. lia. }
    pose proof (zlen_nonneg qs). nia.
Qed.
