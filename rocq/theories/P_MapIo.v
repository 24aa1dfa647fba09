(** Proofs about mapping files. *)
From Verif Require Import Base M_Int S_Int P_Int M_Sort S_Sort P_Sort P_Sort2 M_Graph M_Order M_MapIo S_MapIo.

(** ** Reading integers *)
Lemma scan_cases s : (exists neg ds rest, literal s neg ds rest) \/ scanInt s = Err 0.
Proof.
  assert (T : forall neg s, (exists ds rest, s = ds ++ rest /\ Forall digit_char ds /\ ds <> [] /\ nodigit_head rest) \/ scanTail neg s = Err 0).
  { clear. intros neg s. destruct (digits_split s) as (ds & rest & E & Hf & Hr). destruct ds as [|c ds].
    - right. simpl in E. subst rest. destruct s as [|c s]; simpl; auto. now rewrite (nodigit_head_cons _ _ Hr).
    - left. exists (c :: ds), rest. repeat split; auto. congruence. }
  induction s as [|c s IH]; [auto|].
  cbn [scanInt]. destruct (isspace c) eqn:S.
  - destruct IH as [(neg & ds & rest & ws & sg & E & Hws & H)|]; auto.
    left. exists neg, ds, rest, (c :: ws), sg. split; [simpl; congruence|]. split; auto.
    constructor; auto. now apply isspace_iff.
  - destruct (isdigit c) eqn:D.
    + destruct (T false (c :: s)) as [(ds & rest & E & Hf & Hn & Hr)|]; auto.
      left. exists false, ds, rest, [], []. simpl. repeat split; auto.
    + destruct (Z.eqb_spec c 45) as [->|].
      * destruct (T true s) as [(ds & rest & E & Hf & Hn & Hr)|]; auto.
        left. exists true, ds, rest, [], [45]. simpl. repeat split; auto. congruence.
      * destruct (Z.eqb_spec c 43) as [->|]; auto.
        destruct (T false s) as [(ds & rest & E & Hf & Hn & Hr)|]; auto.
        left. exists false, ds, rest, [], [43]. simpl. repeat split; auto. congruence.
Qed.

Lemma scanG_literal imax s neg ds s' : literal s neg ds s' -> - imax - 1 <= litval neg ds <= imax -> scanG imax s = Ok (litval neg ds, s').
Proof.
  intros L R. unfold scanG. rewrite (scanInt_literal _ _ _ _ L). cbn [bind].
  now replace ((- imax - 1 <=? litval neg ds) && (litval neg ds <=? imax)) with true by lia.
Qed.

Lemma scanG_inv imax s v s' : scanG imax s = Ok (v, s') -> exists neg ds, v = litval neg ds /\ literal s neg ds s' /\ - imax - 1 <= litval neg ds <= imax.
Proof.
  unfold scanG. destruct (scan_cases s) as [(neg & ds & rest & L)|E]; [|rewrite E; discriminate].
  rewrite (scanInt_literal _ _ _ _ L). cbn [bind]. destruct ((_ <=? _) && _) eqn:R; [|discriminate]. intros [= <- <-]. exists neg, ds. repeat split; auto; lia.
Qed.

Lemma orerr_ok {A} (r : res A) e a : orerr r e = Ok a <-> r = Ok a.
Proof. destruct r; cbn; split; congruence. Qed.

Lemma numbers_one imax ws v tl l rest : Forall blank_char ws -> nodigit_head tl -> - imax - 1 <= v <= imax -> numbers imax tl l rest ->
  numbers imax (ws ++ intSave v ++ tl) (v :: l) rest.
Proof.
  intros Hw Ht Hv N. pose proof (literal_blanks _ _ _ _ _ Hw (intSave_literal v tl Ht)) as L.
  assert (E : litval (v <? 0) (decnat (Z.abs v)) = v).
  { unfold litval. destruct (decnat_spec (Z.abs v) ltac:(lia)) as (_ & _ & ->). destruct (Z.ltb_spec v 0); lia. }
  rewrite <- E at 2. econstructor; [exact L| |exact N]. rewrite E. exact Hv.
Qed.

(** ** Sorted arrays of pairs *)
Definition up (n : Z) (t : list (Z * Z)) : Prop := forall i j, 0 <= i < j -> j < n -> fst (at_ 0 t i) < fst (at_ 0 t j).
Definition keys (t : list (Z * Z)) : list Z := map fst t.

Lemma sorted_at (t : list (Z * Z)) : sorted_by (@cmp_fst Z) t <-> forall i j, 0 <= i < j -> j < zlen t -> fst (at_ 0 t i) <= fst (at_ 0 t j).
Proof.
  split.
  - intros S i j Hi Hj. specialize (S (Z.to_nat i) (Z.to_nat j) (at_ 0 t i) (at_ 0 t j) ltac:(lia)). unfold cmp_fst in S.
    assert (X : forall i, 0 <= i < zlen t -> nth_error t (Z.to_nat i) = Some (at_ 0 t i)).
    { intros k Hk. unfold at_. rewrite Z.sub_0_r. apply nth_error_nth'. unfold zlen in Hk. lia. }
    specialize (S (X i ltac:(lia)) (X j ltac:(lia))). lia.
  - intros S i j x y Hij Hx Hy. apply at_nth_error in Hx as [<- Hi]. apply at_nth_error in Hy as [<- Hj]. unfold cmp_fst. specialize (S (Z.of_nat i) (Z.of_nat j) ltac:(lia) ltac:(lia)). lia.
Qed.

Lemma sorted_snoc (t : list (Z * Z)) x : sorted_by (@cmp_fst Z) t -> (forall y, In y t -> fst y <= fst x) -> sorted_by (@cmp_fst Z) (t ++ [x]).
Proof.
  rewrite !sorted_at. intros S H i j Hi Hj. rewrite zlen_app in Hj. change (zlen [x]) with 1 in Hj. destruct (Z.eq_dec j (zlen t)) as [->|N].
  - rewrite at_app1 by lia. rewrite at_app2 by lia. rewrite Z.sub_diag. apply H, at_In. lia.
  - rewrite !at_app1 by lia. apply S; lia.
Qed.

Lemma nth_keys t k : (k < length t)%nat -> nth k (keys t) 0 = fst (at_ 0 t (Z.of_nat k)).
Proof.
  intros Hk. unfold at_, keys. rewrite Z.sub_0_r, Nat2Z.id. rewrite (nth_indep _ 0 (fst (dflt : Z * Z))) by (rewrite map_length; lia). apply map_nth.
Qed.

Lemma up_nodup t : up (zlen t) t -> NoDup (keys t).
Proof.
  intros U. apply (NoDup_nth _ 0). intros i j Hi Hj E. unfold keys in Hi, Hj. rewrite map_length in Hi, Hj. rewrite !nth_keys in E by lia. unfold zlen, up in *.
  destruct (Nat.lt_total i j) as [L|[L|L]]; [|exact L|]; [specialize (U (Z.of_nat i) (Z.of_nat j) ltac:(lia) ltac:(lia))|specialize (U (Z.of_nat j) (Z.of_nat i) ltac:(lia) ltac:(lia))]; lia.
Qed.

Lemma nodup_up t : sorted_by (@cmp_fst Z) t -> NoDup (keys t) -> up (zlen t) t.
Proof.
  intros S N i j Hi Hj. pose proof (proj1 (sorted_at t) S i j Hi Hj) as L. assert (fst (at_ 0 t i) <> fst (at_ 0 t j)); [|lia].
  intros E. rewrite (NoDup_nth _ 0) in N. specialize (N (Z.to_nat i) (Z.to_nat j)). unfold zlen in Hj. rewrite !nth_keys in N by lia. unfold keys in N. rewrite map_length in N.
  rewrite !Z2Nat.id in N by lia. specialize (N ltac:(lia) ltac:(lia) E). lia.
Qed.

Lemma keys_perm t t' : Permutation t t' -> NoDup (keys t) <-> NoDup (keys t').
Proof. intros P. split; apply Permutation_NoDup; [|apply Permutation_sym]; now apply Permutation_map. Qed.

Lemma sortIf stk (flag : bool) t n : n = zlen t -> 32 <= stk -> zlen t < 2 ^ (stk - 1) -> (flag = true -> sorted_by (@cmp_fst Z) t) ->
  exists t', (if flag then Ok t else intSort2asc1 stk t n) = Ok t' /\ Permutation t t' /\ sorted_by (@cmp_fst Z) t'.
Proof.
  intros -> Hs Hl Hf. destruct flag; [exists t; auto|]. apply intSort_spec; auto using swo_cmp_fst; lia.
Qed.

(** ** Pairs of the file *)
Definition flat (ps : list (Z * Z)) : list Z := flat_map (fun p => [fst p; snd p]) ps.

Lemma tabPairs_ok imax s ps rest : numbers imax s (flat ps) rest ->
  exists flag l, tabPairs imax (zlen ps) s = Ok (ps, flag, l, rest) /\ (flag = true -> sorted_by (@cmp_fst Z) ps).
Proof.
  intros N. unfold tabPairs.
  assert (G : wp (for_ 0 (zlen ps) (fun _ '(tab, flag, lbl, s) => do '(l, s) <- orerr (scanG imax s) 1; do '(t, s) <- orerr (scanG imax s) 1;
    Ok (tab ++ [(l, t)], if l <? lbl then false else flag, l, s)) ([], true, - imax - 1, s))
    (fun '(t, flag, _, r) => t = ps /\ r = rest /\ (flag = true -> sorted_by (@cmp_fst Z) ps)) noerr).
  { apply wp_for with (I := fun k '(tab, flag, lbl, s) => exists tl, ps = tab ++ tl /\ zlen tab = k /\ numbers imax s (flat tl) rest /\
      (flag = true -> sorted_by (@cmp_fst Z) tab /\ forall x, In x tab -> fst x <= lbl)).
    - apply zlen_nonneg.
    - exists ps. split; [reflexivity|]. split; [reflexivity|]. split; [exact N|]. intros _. split; [|intros x []]. intros i j x y _ H. destruct i; discriminate.
    - intros k [[[tab flag] lbl] s1] Hk (tl & E & L & N1 & F). destruct tl as [|[a t] tl]; [rewrite app_nil_r in E; subst tab; lia|].
      change (flat ((a, t) :: tl)) with (a :: t :: flat tl) in N1. inversion N1 as [|? neg ds s2 ? ? L1 R1 N2]; subst. inversion N2 as [|? neg2 ds2 s3 ? ? L2 R2 N3]; subst.
      rewrite (scanG_literal _ _ _ _ _ L1 R1). cbn [orerr bind]. rewrite (scanG_literal _ _ _ _ _ L2 R2). cbn [orerr bind wp].
      exists tl. split; [now rewrite <- app_assoc|]. split; [rewrite zlen_app; reflexivity|]. split; [exact N3|].
      destruct (Z.ltb_spec (litval neg ds) lbl) as [Hl|Hl]; [discriminate|]. intros Hf. destruct (F Hf) as [F1 F2]. split.
      + apply sorted_snoc; [exact F1|]. intros y Hy. cbn [fst]. specialize (F2 y Hy). lia.
      + intros x Hx. apply in_app_or in Hx as [Hx|[<-|[]]]; [specialize (F2 x Hx); lia|cbn [fst]; lia].
    - intros [[[tab flag] lbl] s1] (tl & E & L & N1 & F). destruct tl as [|p tl]; [|exfalso; rewrite E, zlen_app, zlen_cons in L; pose proof (zlen_nonneg tl); lia].
      rewrite app_nil_r in E. subst tab. split; [reflexivity|]. split; [now inversion N1|]. intros Hf. apply F, Hf. }
  destruct (wp_ok_inv _ _ G) as ([[[t flag] l] r] & E & -> & -> & F). exists flag, l. auto.
Qed.

Lemma tabPairs_inv imax n s t flag l rest : 0 <= n -> tabPairs imax n s = Ok (t, flag, l, rest) -> zlen t = n /\ numbers imax s (flat t) rest.
Proof.
  intros Hn E. unfold tabPairs in E. 
  refine (wlp_elim _ (fun '(t, _, _, rest) => zlen t = n /\ numbers imax s (flat t) rest) (t, flag, l, rest) _ E). clear E.
  apply wlp_for with (I := fun k '(t, _, _, s') => zlen t = k /\ forall ls rest, numbers imax s' ls rest -> numbers imax s (flat t ++ ls) rest); [lia| | |].
  - split; [reflexivity|]. auto.
  - intros k [[[t' f'] l'] s'] Hk [L N]. apply wlp_bind, wlp_intro. intros [a s1] E1%orerr_ok. apply scanG_inv in E1 as (neg & ds & -> & L1 & R1). cbn beta iota.
    apply wlp_bind, wlp_intro. intros [b s2] E2%orerr_ok. apply scanG_inv in E2 as (neg2 & ds2 & -> & L2 & R2). cbn beta iota. cbn [wlp].
    split; [rewrite zlen_app, L; reflexivity|]. intros ls r N2. unfold flat. rewrite flat_map_app, <- app_assoc. apply N. cbn [flat_map app fst snd].
    econstructor; [exact L1|exact R1|]. econstructor; [exact L2|exact R2|exact N2].
  - intros [[[t' f'] l'] s'] [L N]. split; [exact L|]. rewrite <- (app_nil_r (flat t')). apply N. constructor.
Qed.

Lemma tabDup_spec t : sorted_by (@cmp_fst Z) t -> 1 <= zlen t -> wp (tabDup t (zlen t)) (fun _ => up (zlen t) t) (fun e => e = 1 /\ ~ NoDup (keys t)).
Proof.
  intros S L. pose proof (proj1 (sorted_at t) S) as SA. unfold tabDup. apply wp_for with (I := fun k _ => up k t); [exact L| | |].
  - intros i j Hi Hj. lia.
  - intros k [] Hk U. apply wp_bind, wp_rd; [lia|]. apply wp_bind, wp_rd; [lia|]. destruct (Z.eqb_spec (fst (at_ 0 t k)) (fst (at_ 0 t (k - 1)))) as [E|N]; cbn [wp].
    + split; [reflexivity|]. intros ND. pose proof (nodup_up t S ND (k - 1) k ltac:(lia) ltac:(lia)). lia.
    + intros i j Hi Hj. destruct (Z.eq_dec j k) as [->|]; [|apply U; lia]. pose proof (SA (k - 1) k ltac:(lia) ltac:(lia)).
      destruct (Z.eq_dec i (k - 1)) as [->|]; [lia|]. pose proof (U i (k - 1) ltac:(lia) ltac:(lia)). lia.
  - auto.
Qed.

(** ** Without labels *)
Lemma tabPlain_spec g t part : 0 <= vertnbr g -> up (zlen t) t -> zlen part = vertnbr g -> (forall v, 0 <= v < vertnbr g -> at_ 0 part v = -1) ->
  wp (for_ 0 (zlen t) (fun k part => do x <- rd 0 t k; let v := fst x - baseval g in if (0 <=? v) && (v <? vertnbr g) then wr 0 part v (snd x) else Ok part) part)
    (fun part => zlen part = vertnbr g /\ forall v, 0 <= v < vertnbr g ->
      (forall i, 0 <= i < zlen t -> fst (at_ 0 t i) = v + baseval g -> at_ 0 part v = snd (at_ 0 t i)) /\
      ((forall i, 0 <= i < zlen t -> fst (at_ 0 t i) <> v + baseval g) -> at_ 0 part v = -1)) noerr.
Proof.
  intros Hn U L I0. apply wp_for with (I := fun k part => zlen part = vertnbr g /\ forall v, 0 <= v < vertnbr g ->
      (forall i, 0 <= i < k -> fst (at_ 0 t i) = v + baseval g -> at_ 0 part v = snd (at_ 0 t i)) /\
      ((forall i, 0 <= i < k -> fst (at_ 0 t i) <> v + baseval g) -> at_ 0 part v = -1)).
  - apply zlen_nonneg.
  - split; [exact L|]. intros v Hv. split; [intros; lia|]. intros _. apply I0, Hv.
  - intros k p Hk [Lp P]. apply wp_bind, wp_rd; [lia|]. cbv zeta. destruct ((0 <=? fst (at_ 0 t k) - baseval g) && _) eqn:E.
    + apply wp_wr; [lia|]. split; [now rewrite zlen_upd|]. intros v Hv. rewrite at_upd by lia. destruct (P v Hv) as [P1 P2].
      destruct (Z.eqb_spec (fst (at_ 0 t k) - baseval g) v) as [<-|N]; split.
      * intros i Hi Ei. destruct (Z.eq_dec i k) as [->|]; [reflexivity|]. pose proof (U i k ltac:(lia) ltac:(lia)). lia.
      * intros H. exfalso. apply (H k); lia.
      * intros i Hi Ei. apply P1; [|exact Ei]. assert (i <> k) by (intros ->; lia). lia.
      * intros H. apply P2. intros i Hi. apply H. lia.
    + cbn [wp]. split; [exact Lp|]. intros v Hv. destruct (P v Hv) as [P1 P2]. split.
      * intros i Hi Ei. apply P1; [|exact Ei]. assert (i <> k) by (intros ->; lia). lia.
      * intros H. apply P2. intros i Hi. apply H. lia.
  - auto.
Qed.

(** ** With labels *)
Lemma tabVert_spec imax g vl : baseval g = 0 -> 0 <= vertnbr g -> vertnbr g <= zlen vl ->
  exists flag l, tabVert imax g vl = Ok (map (fun k => (at_ 0 vl k, k)) (zseq 0 (vertnbr g)), flag, l) /\
    (flag = true -> sorted_by (@cmp_fst Z) (map (fun k => (at_ 0 vl k, k)) (zseq 0 (vertnbr g)))).
Proof.
  intros Hb Hn Hl. unfold tabVert.
  assert (G : wp (for_ 0 (vertnbr g) (fun k '(tab, flag, lbl) => do l <- rd (baseval g) vl k; Ok (tab ++ [(l, k)], if l <? lbl then false else flag, l)) ([], true, - imax - 1))
    (fun '(t, flag, _) => t = map (fun k => (at_ 0 vl k, k)) (zseq 0 (vertnbr g)) /\ (flag = true -> sorted_by (@cmp_fst Z) t)) noerr).
  { apply wp_for with (I := fun n '(t, flag, lbl) => t = map (fun k => (at_ 0 vl k, k)) (zseq 0 n) /\ (flag = true -> sorted_by (@cmp_fst Z) t /\ forall x, In x t -> fst x <= lbl)).
    - exact Hn.
    - split; [reflexivity|]. intros _. split; [|intros x []]. intros i j x y _ H. destruct i; discriminate.
    - intros k [[t flag] lbl] Hk [-> F]. rewrite Hb. apply wp_bind, wp_rd; [lia|]. cbn [wp].
      split. { rewrite zseq_snoc by lia. rewrite map_app. reflexivity. }
      destruct (Z.ltb_spec (at_ 0 vl k) lbl) as [Hx|Hx]; [discriminate|]. intros Hf. destruct (F Hf) as [F1 F2]. split.
      + apply sorted_snoc; [exact F1|]. intros y Hy. cbn [fst]. specialize (F2 y Hy). lia.
      + intros x H. apply in_app_or in H as [H|[<-|[]]]; [specialize (F2 x H); lia|cbn [fst]; lia].
    - intros [[t flag] lbl] [-> F]. split; [reflexivity|]. intros Hf. apply F, Hf. }
  destruct (wp_ok_inv _ _ G) as ([[t flag] l] & E & -> & F). exists flag, l. auto.
Qed.

Lemma tabMerge_spec M V n part : up (zlen M) M -> up (zlen V) V -> 1 <= zlen M -> zlen part = n ->
  (forall i, 0 <= i < zlen V -> 0 <= snd (at_ 0 V i) < n) -> (forall i j, 0 <= i < zlen V -> 0 <= j < zlen V -> snd (at_ 0 V i) = snd (at_ 0 V j) -> i = j) ->
  (forall v, 0 <= v < n -> at_ 0 part v = -1) ->
  wp (tabMerge M V (zlen M) part) (fun part => zlen part = n /\ forall i, 0 <= i < zlen V ->
      (forall j, 0 <= j < zlen M -> fst (at_ 0 M j) = fst (at_ 0 V i) -> at_ 0 part (snd (at_ 0 V i)) = snd (at_ 0 M j)) /\
      ((forall j, 0 <= j < zlen M -> fst (at_ 0 M j) <> fst (at_ 0 V i)) -> at_ 0 part (snd (at_ 0 V i)) = -1)) noerr.
Proof.
  intros UM UV HM Lp RV DV I0. unfold tabMerge. apply wp_bind.
  eapply wp_mono; [apply wp_for with (I := fun i '(j, part, fin) => zlen part = n /\ 0 <= j /\ (fin = false -> j <= zlen M /\ (j = zlen M -> 1 <= i)) /\ (fin = true -> zlen M <= j) /\
      (forall j' i', 0 <= j' < j -> j' < zlen M -> i <= i' < zlen V -> fst (at_ 0 M j') < fst (at_ 0 V i')) /\
      (forall i', i <= i' < zlen V -> at_ 0 part (snd (at_ 0 V i')) = -1) /\
      (forall i', 0 <= i' < i -> (forall j, 0 <= j < zlen M -> fst (at_ 0 M j) = fst (at_ 0 V i') -> at_ 0 part (snd (at_ 0 V i')) = snd (at_ 0 M j)) /\
         ((forall j, 0 <= j < zlen M -> fst (at_ 0 M j) <> fst (at_ 0 V i')) -> at_ 0 part (snd (at_ 0 V i')) = -1)))
    (Q := fun '(_, part, _) => zlen part = n /\ forall i', 0 <= i' < zlen V -> (forall j, 0 <= j < zlen M -> fst (at_ 0 M j) = fst (at_ 0 V i') -> at_ 0 part (snd (at_ 0 V i')) = snd (at_ 0 M j)) /\
         ((forall j, 0 <= j < zlen M -> fst (at_ 0 M j) <> fst (at_ 0 V i')) -> at_ 0 part (snd (at_ 0 V i')) = -1))|].
  - apply zlen_nonneg.
  - split; [exact Lp|]. split; [lia|]. split; [intros _; split; lia|]. split; [discriminate|]. split; [intros; lia|]. split; [|intros; lia]. intros i' Hi'. apply I0, RV. exact Hi'.
  - intros i [[j p] fin] Hi (L & J0 & JF & JT & A & B & C). destruct fin.
    { cbn [wp]. specialize (JT eq_refl). split; [exact L|]. split; [lia|]. split; [discriminate|]. split; [auto|]. split; [intros; apply A; lia|]. split; [intros; apply B; lia|].
      intros i' Hi'. destruct (Z.eq_dec i' i) as [->|]; [|apply C; lia]. split; [|intros _; apply B; lia]. intros j' Hj' E. specialize (A j' i ltac:(lia) ltac:(lia) ltac:(lia)). lia. }
    destruct (JF eq_refl) as [J1 J2]. apply wp_bind, wp_rd; [lia|]. apply wp_bind.
    eapply wp_mono; [apply wp_loop with (m := fun j => zlen M + 1 - j)
      (I := fun j => 0 <= j <= zlen M /\ (j = zlen M -> 1 <= i) /\ forall j', 0 <= j' < j -> fst (at_ 0 M j') < fst (at_ 0 V i))
      (Q := fun '(j, fin) => 0 <= j /\ (forall j', 0 <= j' < j -> j' < zlen M -> fst (at_ 0 M j') < fst (at_ 0 V i)) /\
         (if fin : bool then zlen M <= j else j < zlen M /\ fst (at_ 0 V i) <= fst (at_ 0 M j)))|].
    + split; [lia|]. split; [exact J2|]. intros; apply A; lia.
    + unfold zlen in *. lia.
    + intros j1 (K0 & K1 & K2). apply wp_bind, wp_rd; [rewrite zlen_app; lia|].
      destruct (Z.eq_dec j1 (zlen M)) as [->|NJ].
      * rewrite at_app2 by lia. rewrite Z.sub_diag. specialize (K1 eq_refl). pose proof (UV 0 i ltac:(lia) ltac:(lia)).
        replace (fst (at_ 0 V 0) <? fst (at_ 0 V i)) with true by lia. replace (zlen M <=? zlen M + 1) with true by lia. cbn [wp]. split; [lia|]. split; [intros; apply K2; lia|lia].
      * rewrite at_app1 by lia. destruct (Z.ltb_spec (fst (at_ 0 M j1)) (fst (at_ 0 V i))) as [H|H].
        -- assert (X : forall j', 0 <= j' < j1 + 1 -> fst (at_ 0 M j') < fst (at_ 0 V i)) by (intros j' Hj'; destruct (Z.eq_dec j' j1) as [->|]; [lia|apply K2; lia]).
           destruct (Z.leb_spec (zlen M) (j1 + 1)); cbn [wp].
           ++ split; [lia|]. split; [intros; apply X; lia|lia].
           ++ split; [|lia]. split; [lia|]. split; [lia|exact X].
        -- cbn [wp]. split; [lia|]. split; [intros; apply K2; lia|lia].
    + intros [j1 fin] (K0 & K1 & K2). assert (UV' : forall i', i + 1 <= i' < zlen V -> fst (at_ 0 V i) < fst (at_ 0 V i')) by (intros; apply UV; lia).
      destruct fin.
      * cbn [wp]. split; [exact L|]. split; [lia|]. split; [discriminate|]. split; [auto|].
        split; [intros j' i' H1 H2 H3; specialize (K1 j' H1 H2); specialize (UV' i' H3); lia|]. split; [intros; apply B; lia|].
        intros i' Hi'. destruct (Z.eq_dec i' i) as [->|]; [|apply C; lia]. split; [|intros _; apply B; lia]. intros j' Hj' E. specialize (K1 j' ltac:(lia) ltac:(lia)). lia.
      * destruct K2 as [K2 K3]. apply wp_bind, wp_rd; [rewrite zlen_app; lia|]. rewrite at_app1 by lia. destruct (Z.eqb_spec (fst (at_ 0 M j1)) (fst (at_ 0 V i))) as [E|NE].
        -- apply wp_bind, wp_wr; [rewrite L; pose proof (RV i Hi); lia|]. cbn [wp]. split; [now rewrite zlen_upd|]. split; [lia|]. split; [intros _; lia|]. split; [discriminate|].
           split. { intros j' i' H1 H2 H3. specialize (UV' i' H3). destruct (Z.eq_dec j' j1) as [->|]; [lia|]. specialize (K1 j' ltac:(lia) H2). lia. }
           split. { intros i' Hi'. rewrite at_upd; [|rewrite L; apply RV; lia|apply RV; lia]. destruct (Z.eqb_spec (snd (at_ 0 V i)) (snd (at_ 0 V i'))) as [E'|]; [apply DV in E'; lia|]. apply B; lia. }
           intros i' Hi'. rewrite at_upd; [|rewrite L; apply RV; lia|apply RV; lia]. destruct (Z.eqb_spec (snd (at_ 0 V i)) (snd (at_ 0 V i'))) as [E'|N'].
           ++ apply DV in E'; [|lia|lia]. subst i'. split; [|intros H; exfalso; apply (H j1); lia]. intros j' Hj' E'.
              destruct (Z.lt_total j' j1) as [T|[->|T]]; [pose proof (UM j' j1 ltac:(lia) ltac:(lia)); lia|reflexivity|pose proof (UM j1 j' ltac:(lia) ltac:(lia)); lia].
           ++ apply C. assert (i' <> i) by (intros ->; lia). lia.
        -- cbn [wp]. split; [exact L|]. split; [lia|]. split; [intros _; lia|]. split; [discriminate|].
           split. { intros j' i' H1 H2 H3. specialize (UV' i' H3). specialize (K1 j' H1 H2). lia. }
           split; [intros; apply B; lia|]. intros i' Hi'. destruct (Z.eq_dec i' i) as [->|]; [|apply C; lia]. split; [|intros _; apply B; lia].
           intros j' Hj' E'. destruct (Z.lt_total j' j1) as [T|[->|T]]; [specialize (K1 j' ltac:(lia) ltac:(lia)); lia|lia|pose proof (UM j1 j' ltac:(lia) ltac:(lia)); lia].
  - intros [[j p] fin] (L & _ & _ & _ & _ & _ & C). split; [exact L|exact C].
  - intros [[j p] fin] H. exact H.
Qed.

Lemma NoDup_map_inj {A B} (f : A -> B) s : (forall x y, In x s -> In y s -> f x = f y -> x = y) -> NoDup s -> NoDup (map f s).
Proof.
  induction s as [|x s IH]; intros H N; [constructor|]. inversion N; subst. cbn [map]. constructor.
  - intros C. apply in_map_iff in C as (y & E & Hy). assert (y = x) by (apply H; [now right|now left|exact E]). now subst y.
  - apply IH; [|assumption]. intros a b Ha Hb. apply H; now right.
Qed.

(** ** Loading *)
Lemma tabClear_spec n part : 0 <= n -> zlen part = n -> wp (for_ 0 n (fun k part => wr 0 part k (-1)) part) (fun p => zlen p = n /\ forall v, 0 <= v < n -> at_ 0 p v = -1) noerr.
Proof.
  intros Hn L. apply wp_for with (I := fun k p => zlen p = n /\ forall v, 0 <= v < k -> at_ 0 p v = -1); [lia| | |].
  - split; [exact L|lia].
  - intros k p Hk [Lp P]. apply wp_wr; [lia|]. split; [now rewrite zlen_upd|]. intros v Hv. rewrite at_upd by lia. destruct (Z.eqb_spec k v); [reflexivity|]. apply P. lia.
  - auto.
Qed.

Lemma file_pos imax s ps rest : numbers imax s (file_of ps) rest -> exists s', scanG imax s = Ok (zlen ps, s') /\ numbers imax s' (flat ps) rest.
Proof. intros N. inversion N as [|? neg ds s' ? ? L R N']; subst. exists s'. split; [rewrite (scanG_literal _ _ _ _ _ L R); reflexivity|exact N']. Qed.

Lemma In_pair_at (t : list (Z * Z)) l p : In (l, p) t <-> exists i, 0 <= i < zlen t /\ fst (at_ 0 t i) = l /\ snd (at_ 0 t i) = p.
Proof.
  split.
  - intros H. apply (In_at 0) in H as (i & Hi & E). exists i. split; [lia|]. rewrite E. auto.
  - intros (i & Hi & <- & <-). rewrite <- surjective_pairing. apply at_In. lia.
Qed.

Lemma graphTabLoad_spec imax stk g part s ps rest : vertnnd g = baseval g + vertnbr g -> 0 <= vertnbr g -> labels_ok g -> (vlbltab g <> None -> baseval g = 0) -> 32 <= stk ->
  zlen part = vertnbr g -> vertnbr g < 2 ^ (stk - 1) -> zlen ps < 2 ^ (stk - 1) -> ps <> [] -> numbers imax s (file_of ps) rest ->
  (NoDup (map fst ps) -> exists p, graphTabLoad imax stk g part s = Ok (p, rest) /\ mapped_by g ps p) /\
  (~ NoDup (map fst ps) -> graphTabLoad imax stk g part s = Err 1).
Proof.
  intros Hd Hn LB Hb Hs Lp Hv Hp NE N. destruct (file_pos _ _ _ _ N) as (s1 & E1 & N1). unfold graphTabLoad.
  destruct (wp_ok_inv _ _ (tabClear_spec (vertnbr g) part Hn Lp)) as (p0 & E0 & L0 & I0). rewrite E0. cbn [bind]. rewrite E1. cbn [orerr bind].
  assert (LP : 1 <= zlen ps) by (destruct ps; [congruence|rewrite zlen_cons; pose proof (zlen_nonneg ps); lia]).
  replace (zlen ps <? 1) with false by lia. destruct (tabPairs_ok imax s1 ps rest N1) as (flag & l & E2 & F). rewrite E2. cbn [bind].
  destruct (sortIf stk flag ps (zlen ps) eq_refl Hs Hp F) as (M & E3 & PM & SM). rewrite E3. cbn [bind].
  assert (LM : zlen M = zlen ps) by (unfold zlen; now rewrite (Permutation_length PM)). rewrite <- LM.
  pose proof (tabDup_spec M SM ltac:(lia)) as TD. split; intros ND.
  - assert (ND' : NoDup (keys M)) by (apply (keys_perm _ _ PM); exact ND). destruct (tabDup M (zlen M)) as [[]|e| |]; cbn [wp] in TD; [|tauto|contradiction|contradiction]. cbn [bind].
    assert (CV : forall v p, In (v, p) ps <-> exists i, 0 <= i < zlen M /\ fst (at_ 0 M i) = v /\ snd (at_ 0 M i) = p).
    { intros v p. rewrite <- In_pair_at. split; apply Permutation_in; [exact PM|apply Permutation_sym, PM]. }
    destruct (vlbltab g) as [vl|] eqn:EL.
    + specialize (Hb ltac:(discriminate)). destruct LB as [LB1 LB2]. specialize (LB2 vl EL).
      destruct (tabVert_spec imax g vl Hb Hn LB2) as (fl & l' & E4 & F4). rewrite E4. cbn [bind].
      set (V0 := map (fun k => (at_ 0 vl k, k)) (zseq 0 (vertnbr g))) in *. assert (LV0 : zlen V0 = vertnbr g) by (unfold V0, zlen; rewrite map_length; fold (zlen (zseq 0 (vertnbr g))); rewrite zlen_zseq; lia).
      destruct (sortIf stk fl V0 (vertnbr g) (eq_sym LV0) Hs ltac:(lia) F4) as (V & E5 & PV & SV). rewrite E5. cbn [bind].
      assert (LV : zlen V = vertnbr g) by (rewrite <- LV0; unfold zlen; now rewrite (Permutation_length PV)).
      assert (VI : forall v, 0 <= v < vertnbr g -> exists i, 0 <= i < zlen V /\ at_ 0 V i = (at_ 0 vl v, v)).
      { intros v Hv'. assert (X : In (at_ 0 vl v, v) V).
        { apply (Permutation_in _ PV). unfold V0. apply in_map_iff. exists v. split; [reflexivity|]. apply In_zseq. lia. }
        apply (In_at 0) in X as (i & Hi & Ei). exists i. split; [lia|congruence]. }
      assert (IV : forall i, 0 <= i < zlen V -> 0 <= snd (at_ 0 V i) < vertnbr g /\ fst (at_ 0 V i) = at_ 0 vl (snd (at_ 0 V i))).
      { intros i Hi. assert (X : In (at_ 0 V i) V0) by (apply (Permutation_in _ (Permutation_sym PV)), at_In; lia).
        unfold V0 in X. apply in_map_iff in X as (k & Ek & Hk). apply In_zseq in Hk. rewrite <- Ek. cbn [fst snd]. split; [lia|reflexivity]. }
      assert (LI : forall v w, 0 <= v < vertnbr g -> 0 <= w < vertnbr g -> at_ 0 vl v = at_ 0 vl w -> v = w).
      { intros v w Hv' Hw' E. apply LB1; unfold label; rewrite ?Hd, ?EL, ?Hb; auto; lia. }
      assert (UV : up (zlen V) V).
      { apply nodup_up; [exact SV|]. apply (keys_perm _ _ PV). unfold keys, V0. rewrite map_map. cbn [fst]. apply NoDup_map_inj; [|apply NoDup_zseq].
        intros x y Hx Hy E. apply In_zseq in Hx, Hy. apply LI; auto; lia. }
      destruct (wp_ok_inv _ _ (tabMerge_spec M V (vertnbr g) p0 TD UV ltac:(lia) L0 (fun i Hi => proj1 (IV i Hi))
        ltac:(intros i j Hi Hj E; pose proof (proj2 (IV i Hi)) as X1; pose proof (proj2 (IV j Hj)) as X2; rewrite E in X1;
              destruct (Z.lt_total i j) as [T|[T|T]]; [pose proof (UV i j ltac:(lia) ltac:(lia)); lia|exact T|pose proof (UV j i ltac:(lia) ltac:(lia)); lia]) I0)) as (p & E6 & L6 & Q).
      rewrite E6. cbn [bind]. exists p. split; [reflexivity|]. split; [exact L6|]. rewrite Hd, Hb, Z.add_0_l. intros v Hv'. unfold label. rewrite EL, Hb.
      destruct (VI v ltac:(lia)) as (i & Hi & Ei). destruct (Q i Hi) as [Q1 Q2]. rewrite Ei in Q1, Q2. cbn [fst snd] in Q1, Q2. split.
      * intros q Hq. apply CV in Hq as (j & Hj & J1 & <-). apply Q1; assumption.
      * intros H. apply Q2. intros j Hj E. apply (H (snd (at_ 0 M j))). apply CV. exists j. auto.
    + destruct (wp_ok_inv _ _ (tabPlain_spec g M p0 Hn TD L0 I0)) as (p & E6 & L6 & Q). cbv zeta in E6. rewrite E6. cbn [bind].
      exists p. split; [reflexivity|]. split; [exact L6|]. rewrite Hd. intros v Hv'. unfold label. rewrite EL. rewrite (at_rebase 0 (baseval g)), Z.add_0_r.
      destruct (Q (v - baseval g) ltac:(lia)) as [Q1 Q2]. replace (v - baseval g + baseval g) with v in * by lia. split.
      * intros q Hq. apply CV in Hq as (j & Hj & J1 & <-). apply Q1; assumption.
      * intros H. apply Q2. intros j Hj E. apply (H (snd (at_ 0 M j))). apply CV. exists j. auto.
  - destruct (tabDup M (zlen M)) as [[]|e| |]; cbn [wp] in TD; [|destruct TD as [-> _]; reflexivity|contradiction|contradiction].
    exfalso. apply ND. apply (keys_perm _ _ PM). apply up_nodup, TD.
Qed.

(** Whatever is loaded is in the file. *)
Lemma graphTabLoad_inv imax stk g part s p rest : graphTabLoad imax stk g part s = Ok (p, rest) -> exists ps, ps <> [] /\ numbers imax s (file_of ps) rest.
Proof.
  unfold graphTabLoad. intros E. revert E. destruct (for_ 0 (vertnbr g) _ part) as [p0| | |]; [|discriminate..]. cbn [bind].
  destruct (orerr (scanG imax s) 1) as [[n s1]| | |] eqn:E1; [|discriminate..]. cbn [bind]. apply orerr_ok, scanG_inv in E1 as (neg & ds & -> & L1 & R1).
  destruct (Z.ltb_spec (litval neg ds) 1) as [H|H]; [discriminate|]. destruct (tabPairs imax (litval neg ds) s1) as [[[[t flag] l] s2]| | |] eqn:E2; [|discriminate..]. cbn [bind].
  apply tabPairs_inv in E2 as [L2 N2]; [|lia]. intros E. exists t. split; [intros ->; change (zlen []) with 0 in L2; lia|].
  assert (rest = s2) as ->.
  { destruct (if flag then Ok t else _) as [M| | |]; [|discriminate..]. cbn [bind] in E. destruct (tabDup M _) as [[]| | |]; [|discriminate..]. cbn [bind] in E.
    destruct (vlbltab g) as [vl|].
    - destruct (tabVert imax g vl) as [[[v f] x]| | |]; [|discriminate..]. cbn [bind] in E. destruct (if f then Ok v else _) as [V| | |]; [|discriminate..]. cbn [bind] in E.
      destruct (tabMerge M V _ p0) as [q| | |]; [|discriminate..]. cbn [bind] in E. congruence.
    - destruct (for_ _ _ _ _) as [q| | |]; [|discriminate..]. cbn [bind] in E. congruence. }
  unfold file_of. rewrite L2. econstructor; [exact L1|exact R1|exact N2].
Qed.

(** ** Saving *)
Definition mpairs (g : graph) (part : list Z) : list (Z * Z) := map (fun v => (label g v, at_ (baseval g) part v)) (zseq (baseval g) (vertnbr g)).

Lemma graphTabSave_spec imax g part rest : vertnnd g = baseval g + vertnbr g -> 0 <= vertnbr g <= imax -> zlen part = vertnbr g -> (forall t, vlbltab g = Some t -> vertnbr g <= zlen t) ->
  (forall v, baseval g <= v < vertnnd g -> - imax - 1 <= label g v <= imax) -> (forall v, baseval g <= v < vertnnd g -> - imax - 1 <= at_ (baseval g) part v <= imax) ->
  exists out, graphTabSave g part = Ok out /\ numbers imax (out ++ rest) (file_of (mpairs g part)) (10 :: rest).
Proof.
  intros Hd Hn Lp LT RL RP.
  assert (G : wp (graphTabSave g part) (fun out => exists o, out = o ++ [10] /\ forall ls r tl, numbers imax (10 :: tl) ls r -> numbers imax (o ++ 10 :: tl) (vertnbr g :: flat (mpairs g part) ++ ls) r) noerr).
  { unfold graphTabSave. apply wp_for with (I := fun v out => exists o, out = o ++ [10] /\ forall ls r tl, numbers imax (10 :: tl) ls r ->
      numbers imax (o ++ 10 :: tl) (vertnbr g :: flat (map (fun v => (label g v, at_ (baseval g) part v)) (zseq (baseval g) (v - baseval g))) ++ ls) r).
    - lia.
    - exists (intSave (vertnbr g)). split; [reflexivity|]. intros ls r tl N. rewrite Z.sub_diag. cbn [zseq Z.to_nat seq map flat flat_map app].
      apply (numbers_one imax []); [constructor| |lia|exact N]. unfold nodigit_head, digit_char. lia.
    - intros v out Hv (o & -> & N).
      assert (EL : wp (match vlbltab g with Some t => rd (baseval g) t v | None => Ok v end) (fun l => l = label g v) noerr).
      { unfold label. destruct (vlbltab g) as [t|]; [|reflexivity]. apply wp_rd; [|reflexivity]. specialize (LT t eq_refl). lia. }
      apply wp_bind. eapply wp_mono; [exact EL|]. intros l ->. apply wp_bind, wp_rd; [lia|]. cbn [wp].
      exists (o ++ [10] ++ intSave (label g v) ++ [9] ++ intSave (at_ (baseval g) part v)). split; [unfold line2; now rewrite <- !app_assoc|].
      intros ls r tl NN. replace (v + 1 - baseval g) with ((v - baseval g) + 1) by lia. rewrite zseq_snoc by lia. rewrite map_app. unfold flat. rewrite flat_map_app, <- !app_assoc.
      apply (N _ r (intSave (label g v) ++ [9] ++ intSave (at_ (baseval g) part v) ++ 10 :: tl)).
      cbn [map flat_map app fst snd]. replace (baseval g + (v - baseval g)) with v by lia.
      apply (numbers_one imax [10]); [apply blank1; reflexivity|unfold nodigit_head, digit_char; lia|apply RL, Hv|].
      apply (numbers_one imax [9]); [apply blank1; reflexivity|unfold nodigit_head, digit_char; lia|apply RP, Hv|exact NN].
    - intros out (o & -> & N). exists o. split; [reflexivity|]. intros ls r tl H. specialize (N ls r tl H). replace (vertnnd g - baseval g) with (vertnbr g) in N by lia. exact N. }
  destruct (wp_ok_inv _ _ G) as (out & E & o & -> & N). exists (o ++ [10]). split; [exact E|]. rewrite <- app_assoc. cbn [app].
  specialize (N [] (10 :: rest) rest ltac:(constructor)). rewrite app_nil_r in N. unfold file_of.
  replace (zlen (mpairs g part)) with (vertnbr g); [exact N|]. unfold mpairs, zlen. rewrite map_length. fold (zlen (zseq (baseval g) (vertnbr g))). rewrite zlen_zseq; lia.
Qed.

Lemma round_trip imax stk g part p0 rest : vertnnd g = baseval g + vertnbr g -> 1 <= vertnbr g <= imax -> labels_ok g -> (vlbltab g <> None -> baseval g = 0) -> 32 <= stk ->
  zlen part = vertnbr g -> zlen p0 = vertnbr g -> vertnbr g < 2 ^ (stk - 1) ->
  (forall v, baseval g <= v < vertnnd g -> - imax - 1 <= label g v <= imax) -> (forall v, baseval g <= v < vertnnd g -> - imax - 1 <= at_ (baseval g) part v <= imax) ->
  exists out, graphTabSave g part = Ok out /\ numbers imax (out ++ rest) (file_of (mpairs g part)) (10 :: rest) /\ graphTabLoad imax stk g p0 (out ++ rest) = Ok (part, 10 :: rest).
Proof.
  intros Hd Hn LB Hb Hs Lp L0 Hv RL RP. destruct (graphTabSave_spec imax g part rest Hd ltac:(lia) Lp (proj2 LB) RL RP) as (out & E & N). exists out. split; [exact E|]. split; [exact N|].
  assert (LM : zlen (mpairs g part) = vertnbr g) by (unfold mpairs, zlen; rewrite map_length; fold (zlen (zseq (baseval g) (vertnbr g))); rewrite zlen_zseq; lia).
  destruct (graphTabLoad_spec imax stk g p0 (out ++ rest) (mpairs g part) (10 :: rest)) as [A _]; auto; try lia.
  { intros X. rewrite X in LM. change (zlen []) with 0 in LM. lia. }
  destruct A as (p & E' & Lp' & M).
  { unfold mpairs. rewrite map_map. cbn [fst]. apply NoDup_map_inj; [|apply NoDup_zseq]. intros x y Hx Hy. apply In_zseq in Hx, Hy. apply (proj1 LB); lia. }
  rewrite E'. do 2 f_equal. apply (at_ext (baseval g)); [lia|]. intros v Hv'. apply M; [lia|]. unfold mpairs. apply in_map_iff. exists v. split; [reflexivity|]. apply In_zseq. lia.
Qed.
