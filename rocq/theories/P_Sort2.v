(** Proofs about M_Sort, continued: whole routines. *)
From Verif Require Import Base M_Sort S_Sort P_Sort.

Lemma quick_spec {A} `{Dflt A} cmp stksiz (a : list A) n :
  strict_weak_order cmp -> 2 <= stksiz -> n < 2 ^ (stksiz - 1) -> MAX_THRESH < n -> zlen a = n ->
  (exists k, 0 <= k < n /\ forall j, 0 <= j < n -> le_ cmp (at_ 0 a k) (at_ 0 a j)) ->
  wp (quick cmp stksiz a n) (fun a' => Permutation a a' /\ zlen a' = n /\ minin cmp a' MAX_THRESH) noerr.
Proof.
  intros W Hst Hn Hth Hz (k & Hk & Hmin). unfold quick, push. rewrite zlen_nil.
  replace (0 <? stksiz) with true by lia. cbn [bind].
  apply wp_loop with (I := qinv cmp a n)
    (m := fun '(_, lo, hi, stk) => mass ((lo, hi) :: segs stk)).
  - unfold qinv. cbn [segs]. split; auto. split; auto. split.
    { constructor; auto. unfold segok; cbn [fst snd]. lia. }
    split; [cbn; tauto|]. split; [cbn; auto|]. split.
    { match goal with |- _ * ?e <= _ => change e with 1 end. unfold ssize; cbn [fst snd]. lia. }
    exists (n - 1). split.
    + exists k. repeat split; try lia. intros j Hj. apply Hmin; lia.
    + right. split; [left; auto|]. intros s [<-|[]]; congruence.
  - cbn [segs]. rewrite mass_cons. unfold mass, ssize; cbn [fold_right fst snd]. unfold zlen, MAX_THRESH in *. lia.
  - intros st Hinv. eapply wp_mono; [apply (qstep_spec cmp stksiz a n st); auto|].
    intros [st'|a']; auto. destruct st as [[[a1 lo] hi] stk], st' as [[[a2 lo'] hi'] stk']. auto.
Qed.

(** every non-empty array has a minimum *)
Lemma min_exists {A} `{Dflt A} cmp (a : list A) n :
  strict_weak_order cmp -> 0 < n -> exists k, 0 <= k < n /\ forall j, 0 <= j < n -> le_ cmp (at_ 0 a k) (at_ 0 a j).
Proof.
  intros W Hn. assert (G : forall n, 1 <= n -> exists k, 0 <= k < n /\ forall j, 0 <= j < n -> le_ cmp (at_ 0 a k) (at_ 0 a j)); [|apply G; lia].
  apply (zrange_ind (fun n => exists k, 0 <= k < n /\ forall j, 0 <= j < n -> le_ cmp (at_ 0 a k) (at_ 0 a j))).
  - exists 0. split; [lia|]. intros j Hj. replace j with 0 by lia. now apply le_refl_.
  - intros m Hm (k & Hk & Hmin).
    destruct (cmp (at_ 0 a m) (at_ 0 a k)) eqn:C.
    + exists m. split; [lia|]. intros j Hj. destruct (Z.eq_dec j m) as [->|]; [now apply le_refl_|].
      eapply le_trans_; [auto|apply lt_le_; eauto|apply Hmin; lia].
    + exists k. split; [lia|]. intros j Hj. destruct (Z.eq_dec j m) as [->|]; [exact C|]. apply Hmin; lia.
Qed.

Lemma findmin_spec {A} `{Dflt A} cmp (a : list A) t :
  strict_weak_order cmp -> 0 <= t < zlen a -> minin cmp a t ->
  wp (findmin cmp a t) (fun k => 0 <= k <= t /\ forall j, 0 <= j < zlen a -> le_ cmp (at_ 0 a k) (at_ 0 a j)) noerr.
Proof.
  intros W Ht (k0 & Hk0 & _ & Hmin0). unfold findmin.
  apply wp_for with (I := fun i k => 0 <= k < i /\ forall j, 0 <= j < i -> le_ cmp (at_ 0 a k) (at_ 0 a j)); try lia.
  - split; [lia|]. intros j Hj. replace j with 0 by lia. now apply le_refl_.
  - intros i k Hi [Hk Hmin]. rewrite scmp_ok by lia. cbn [bind wp].
    destruct (cmp (at_ 0 a i) (at_ 0 a k)) eqn:C.
    + split; [lia|]. intros j Hj. destruct (Z.eq_dec j i) as [->|]; [now apply le_refl_|].
      eapply le_trans_; [auto|apply lt_le_; eauto|apply Hmin; lia].
    + split; [lia|]. intros j Hj. destruct (Z.eq_dec j i) as [->|]; [exact C|]. apply Hmin; lia.
  - intros k [Hk Hmin]. split; [lia|]. intros j Hj.
    eapply le_trans_; [auto|apply (Hmin k0); lia|apply Hmin0; lia].
Qed.

Lemma scanI_spec {A} `{Dflt A} cmp (a : list A) run :
  strict_weak_order cmp -> 2 <= run < zlen a ->
  le_ cmp (at_ 0 a 0) (at_ 0 a run) ->
  wp (scanI cmp a run (run - 1)) (fun t => 0 <= t < run /\
    (forall i, t < i < run -> cmp (at_ 0 a run) (at_ 0 a i) = true) /\
    cmp (at_ 0 a run) (at_ 0 a t) = false) noerr.
Proof.
  intros W Hr H0. unfold scanI.
  apply wp_loop with (m := fun t => t)
    (I := fun t => 0 <= t < run /\ forall i, t < i < run -> cmp (at_ 0 a run) (at_ 0 a i) = true).
  - split; [lia|]. intros; lia.
  - unfold zlen in *; lia.
  - intros t [H1 H2]. rewrite scmp_ok by lia. cbn [bind].
    destruct (cmp (at_ 0 a run) (at_ 0 a t)) eqn:C; cbn [wp].
    + assert (t <> 0). { intros ->. unfold le_ in H0. congruence. }
      repeat split; try lia. intros i Hi. destruct (Z.eq_dec i t) as [->|]; auto. apply H2; lia.
    + auto.
Qed.

Lemma rotate_spec {A} `{Dflt A} (a : list A) tmp run :
  0 <= tmp < run -> run < zlen a ->
  wp (rotate a tmp run) (fun a' => Permutation a a' /\ zlen a' = zlen a /\
     forall i, 0 <= i -> at_ 0 a' i =
       if i =? tmp then at_ 0 a run
       else if (tmp <? i) && (i <=? run) then at_ 0 a (i - 1) else at_ 0 a i) noerr.
Proof.
  intros Ht Hr. unfold rotate. rewrite rd_ok by lia. cbn [bind].
  set (c := at_ 0 a run).
  eapply wp_bind.
  apply wp_for with (I := fun k a' => zlen a' = zlen a /\ Permutation a (upd 0 a' (run - k) c) /\
     forall i, 0 <= i -> at_ 0 a' i = if (run - k <? i) && (i <=? run) then at_ 0 a (i - 1) else at_ 0 a i); try lia.
  - split; auto. split.
    + rewrite Z.sub_0_r. replace (upd 0 a run c) with a; auto.
      apply (at_ext 0); [now rewrite zlen_upd|]. intros i Hi. rewrite at_upd by lia.
      destruct (Z.eqb_spec run i); subst; auto.
    + intros i Hi. now replace ((run - 0 <? i) && (i <=? run)) with false by lia.
  - intros k a1 Hk (L & P & E).
    rewrite rd_ok by lia. cbn [bind]. apply wp_wr; [lia|]. rewrite zlen_upd. split; auto. split.
    + etransitivity; [apply P|].
      replace (upd 0 (upd 0 a1 (run - k) (at_ 0 a1 (run - k - 1))) (run - (k + 1)) c)
        with (swp 0 (upd 0 a1 (run - k) c) (run - k) (run - k - 1)).
      { apply Permutation_swp; rewrite zlen_upd; lia. }
      apply (at_ext 0); [rewrite zlen_swp, !zlen_upd; lia|]. intros i. rewrite zlen_swp, zlen_upd. intros Hi.
      rewrite at_swp by (rewrite ?zlen_upd; lia).
      rewrite !at_upd by (rewrite ?zlen_upd; lia).
      repeat match goal with |- context [?x =? ?y] => destruct (Z.eqb_spec x y); try lia end; auto.
    + intros i Hi. rewrite at_upd by lia.
      destruct (Z.eqb_spec (run - k) i).
      * subst i. rewrite E by lia.
        replace ((run - k <? run - k - 1) && (run - k - 1 <=? run)) with false by lia.
        replace ((run - (k + 1) <? run - k) && (run - k <=? run)) with true by lia. auto.
      * rewrite E by lia. 
        replace ((run - (k + 1) <? i) && (i <=? run)) with ((run - k <? i) && (i <=? run)) by lia. auto.
  - intros a1 (L & P & E). apply wp_wr; [lia|]. replace (run - (run - tmp)) with tmp in * by lia.
    rewrite zlen_upd. split; auto. split; auto. intros i Hi. rewrite at_upd by lia.
    rewrite Z.eqb_sym. destruct (Z.eqb_spec i tmp); auto.
Qed.

(** indices 0..m-1 are in order *)
Definition sortedto {A} `{Dflt A} (cmp : A -> A -> bool) (a : list A) (m : Z) : Prop :=
  forall i j, 0 <= i -> i < j -> j < m -> le_ cmp (at_ 0 a i) (at_ 0 a j).

Lemma insertion_spec {A} `{Dflt A} cmp (a : list A) n :
  strict_weak_order cmp -> zlen a = n -> 1 <= n ->
  (forall j, 0 <= j < n -> le_ cmp (at_ 0 a 0) (at_ 0 a j)) ->
  wp (insertion cmp a n) (fun a' => Permutation a a' /\ zlen a' = n /\ sortedto cmp a' n) noerr.
Proof.
  intros W Hz Hn Hmin. unfold insertion.
  destruct (Z.le_gt_cases n 2) as [Hle|Hgt].
  - rewrite for_nil by lia. cbn [wp]. repeat split; auto.
    intros i j Hi Hij Hj. replace i with 0 by lia. apply Hmin; lia.
  - apply wp_for with (I := fun run a' => Permutation a a' /\ zlen a' = n /\ sortedto cmp a' run /\
       (forall j, 0 <= j < n -> le_ cmp (at_ 0 a' 0) (at_ 0 a' j))); try lia.
    + repeat split; auto. intros i j Hi Hij Hj. replace i with 0 by lia. apply Hmin; lia.
    + intros run a1 Hrun (P & L & S & M).
      eapply wp_bind, wp_mono; [apply scanI_spec; auto; [lia|apply M; lia]|].
      cbv beta. intros t (Ht & Hlt & Hge).
      assert (Hle : forall i, 0 <= i <= t -> le_ cmp (at_ 0 a1 i) (at_ 0 a1 run)).
      { intros i Hi. destruct (Z.eq_dec i t) as [->|]; [exact Hge|].
        eapply le_trans_; [auto|apply (S i t); lia|exact Hge]. }
      destruct (Z.eqb_spec (t + 1) run); cbn [wp].
      * repeat split; auto. intros i j Hi Hij Hj.
        destruct (Z.eq_dec j run) as [->|]; [apply Hle; lia|apply S; lia].
      * eapply wp_mono; [apply rotate_spec; lia|]. cbv beta. intros a2 (P2 & L2 & E2).
        split; [etransitivity; eauto|]. split; [lia|].
        assert (Z0 : at_ 0 a2 0 = at_ 0 a1 0).
        { rewrite E2 by lia. replace (0 =? t + 1) with false by lia. now replace (t + 1 <? 0) with false by lia. }
        split.
        -- intros i j Hi Hij Hj. rewrite !E2 by lia.
           destruct (Z.eqb_spec i (t + 1)); [|destruct (Z.eqb_spec j (t + 1))].
           ++ replace (j =? t + 1) with false by lia.
              replace ((t + 1 <? j) && (j <=? run)) with true by lia.
              apply lt_le_; auto. apply Hlt. lia.
           ++ replace ((t + 1 <? i) && (i <=? run)) with false by lia. apply Hle; lia.
           ++ destruct (Z.ltb_spec (t + 1) i).
              ** replace (i <=? run) with true by lia. replace ((t + 1 <? j) && (j <=? run)) with true by lia.
                 cbn [andb]. apply S; lia.
              ** cbn [andb]. destruct (Z.ltb_spec (t + 1) j).
                 --- replace (j <=? run) with true by lia. cbn [andb]. 
                     destruct (Z.eq_dec i (j - 1)) as [->|]; [now apply le_refl_|]. apply S; lia.
                 --- cbn [andb]. apply S; lia.
        -- intros j Hj. rewrite Z0. rewrite E2 by lia.
           destruct (Z.eqb_spec j (t + 1)); [apply M; lia|].
           destruct ((t + 1 <? j) && (j <=? run)) eqn:?; apply M; lia.
    + intros a' (P & L & S & M). auto.
Qed.

Lemma sortedto_sorted_by {A} `{Dflt A} cmp (a : list A) : sortedto cmp a (zlen a) -> sorted_by cmp a.
Proof.
  intros S i j x y Hij Hx Hy.
  assert (Hi : (i < length a)%nat) by (apply nth_error_Some; congruence).
  assert (Hj : (j < length a)%nat) by (apply nth_error_Some; congruence).
  specialize (S (Z.of_nat i) (Z.of_nat j) ltac:(lia) ltac:(lia) ltac:(unfold zlen; lia)).
  unfold le_, at_ in S. rewrite !Z.sub_0_r, !Nat2Z.id in S.
  apply (nth_error_nth a i dflt) in Hx. apply (nth_error_nth a j dflt) in Hy. congruence.
Qed.

Lemma intSort_spec {A} `{Dflt A} cmp stksiz (a : list A) n :
  strict_weak_order cmp -> 2 <= stksiz -> zlen a = n -> n < 2 ^ (stksiz - 1) ->
  exists a', intSort cmp stksiz a n = Ok a' /\ Permutation a a' /\ sorted_by cmp a'.
Proof.
  intros W Hst Hz Hn.
  assert (G : wp (intSort cmp stksiz a n) (fun a' => Permutation a a' /\ sorted_by cmp a') noerr).
  { unfold intSort. pose proof (zlen_nonneg a).
    destruct (Z.eqb_spec n 0).
    - cbn [wp]. split; auto. destruct a; [|rewrite zlen_cons in *; pose proof (zlen_nonneg a0); lia].
      intros i j x y _ Hx. destruct i; discriminate.
    - apply wp_bind.
      assert (Q : wp (if MAX_THRESH <? n then quick cmp stksiz a n else Ok a)
         (fun a' => Permutation a a' /\ zlen a' = n /\ minin cmp a' (Z.min (n - 1) MAX_THRESH)) noerr).
      { destruct (Z.ltb_spec MAX_THRESH n).
        - eapply wp_mono; [apply quick_spec; auto; apply min_exists; auto; lia|].
          cbv beta. intros a' (P & L & M). replace (Z.min (n - 1) MAX_THRESH) with MAX_THRESH by (unfold MAX_THRESH in *; lia). auto.
        - cbn [wp]. repeat split; auto.
          destruct (min_exists cmp a n W ltac:(lia)) as (k & Hk & Hm).
          exists k. repeat split; try lia. intros j Hj; apply Hm; lia. }
      eapply wp_mono; [apply Q|]. cbv beta. intros a1 (P1 & L1 & M1).
      eapply wp_bind, wp_mono; [apply findmin_spec; auto; unfold MAX_THRESH; lia|].
      cbv beta. intros k (Hk & Hmin).
      apply wp_bind.
      assert (Q2 : wp (if negb (k =? 0) then sswap a1 k 0 else Ok a1)
         (fun a2 => Permutation a1 a2 /\ zlen a2 = n /\ forall j, 0 <= j < n -> le_ cmp (at_ 0 a2 0) (at_ 0 a2 j)) noerr).
      { destruct (Z.eqb_spec k 0) as [->|]; cbn [negb].
        - cbn [wp]. repeat split; auto. intros; apply Hmin; lia.
        - rewrite sswap_ok by lia. cbn [wp]. split; [apply Permutation_swp; lia|]. rewrite zlen_swp. split; auto.
          intros j Hj. rewrite !at_swp by lia. replace (0 =? k) with false by lia. rewrite Z.eqb_refl.
          destruct (Z.eqb_spec j k); [apply Hmin; lia|]. destruct (Z.eqb_spec j 0); [apply Hmin; lia|]. apply Hmin; lia. }
      eapply wp_mono; [apply Q2|]. cbv beta. intros a2 (P2 & L2 & M2).
      eapply wp_mono; [apply insertion_spec; auto; lia|]. cbv beta. intros a3 (P3 & L3 & S3).
      split.
      + etransitivity; [apply P1|]. etransitivity; eauto.
      + apply sortedto_sorted_by. now rewrite L3. }
  apply wp_ok_inv in G as (a' & E & R). eauto.
Qed.

(** ** Partial sort *)

Definition unlvl (stk : list (option (Z * Z * Z))) : list (option (Z * Z)) :=
  map (option_map fst) stk.

Lemma zlen_unlvl stk : zlen (unlvl stk) = zlen stk.
Proof. apply zlen_map. Qed.

(** Pairs of positions that share no interval of [L] are in order. *)
Definition ordd {A} `{Dflt A} (cmp : A -> A -> bool) (a : list A) (n : Z) (L : list (Z * Z)) : Prop :=
  disj L /\
  forall i j, 0 <= i -> i < j -> j < n ->
    le_ cmp (at_ 0 a i) (at_ 0 a j) \/ exists s, In s L /\ fst s <= i /\ j <= snd s.

Lemma disj_perm L L' : Permutation L L' -> disj L -> disj L'.
Proof.
  induction 1 as [|x l l' P IH|x y l|l l' l'' P1 IH1 P2 IH2]; cbn [disj]; auto.
  - intros [H1 H2]. split; auto. intros t Ht. apply H1. eapply Permutation_in; [symmetry; eauto|auto].
  - intros [H1 [H2 H3]]. split; [|split; auto].
    + intros t [<-|Ht]; [|auto]. specialize (H1 x (or_introl eq_refl)). lia.
    + intros t Ht. apply H1. right; auto.
Qed.

Lemma ordd_perm {A} `{Dflt A} cmp (a : list A) n L L' : Permutation L L' -> ordd cmp a n L -> ordd cmp a n L'.
Proof.
  intros P [H1 H2]. split; [eapply disj_perm; eauto|].
  intros i j Hi Hij Hj. destruct (H2 i j Hi Hij Hj) as [?|(s & Hs & ?)]; auto.
  right. exists s. split; auto. eapply Permutation_in; eauto.
Qed.

Lemma disj_in_eq L s t i : disj L -> In s L -> In t L -> fst s <= i <= snd s -> fst t <= i <= snd t -> s = t.
Proof.
  induction L as [|x L IH]; cbn [disj In]; [tauto|].
  intros [H1 H2] [->|Hs] [->|Ht] Hi Hj; auto.
  - specialize (H1 t Ht); lia.
  - specialize (H1 s Hs); lia.
Qed.

Lemma ordd_part {A} `{Dflt A} cmp (a a' : list A) n lo hi lft rgt p R :
  strict_weak_order cmp -> 0 <= lo -> hi < n -> segperm lo hi a a' ->
  lo <= rgt -> rgt < lft -> lft <= hi -> rgt < hi -> lo < lft ->
  (forall i, lo <= i < lft -> le_ cmp (at_ 0 a' i) p) ->
  (forall i, rgt < i <= hi -> le_ cmp p (at_ 0 a' i)) ->
  ordd cmp a n ((lo, hi) :: R) -> ordd cmp a' n ((lo, rgt) :: (lft, hi) :: R).
Proof.
  intros W Hlo Hhi (P & L & O & I & J) H1 H2 H3 H4 H5 HL HR [HD HO].
  pose proof HD as HD0. cbn [disj] in HD. destruct HD as [Hd0 Hd]. cbn [fst snd] in Hd0. split.
  - cbn [disj In fst snd]. repeat split; auto.
    + intros t [<-|Ht]; cbn [fst snd]; [lia|]. specialize (Hd0 t Ht). lia.
    + intros t Ht. specialize (Hd0 t Ht). lia.
  - intros i j Hi Hij Hj.
    destruct (Z_le_dec lo i) as [Li|Li], (Z_le_dec j hi) as [Lj|Lj].
    + (* both inside *)
      destruct (Z_lt_dec i lft); [destruct (Z_lt_dec rgt j)|].
      * left. eapply le_trans_; [auto|apply HL; lia|apply HR; lia].
      * right. exists (lo, rgt). cbn [fst snd]. split; [left; auto|lia].
      * right. exists (lft, hi). cbn [fst snd]. split; [right; left; auto|lia].
    + (* j beyond the segment *)
      destruct (Z_le_dec i hi) as [Ui|Ui].
      * destruct (I i ltac:(lia)) as (k & Hk & Ek). rewrite Ek, (O j) by lia.
        destruct (HO k j ltac:(lia) ltac:(lia) Hj) as [?|(s & Hs & Hs1)]; auto.
        exfalso. assert (s = (lo, hi)).
        { apply (disj_in_eq _ s (lo, hi) k HD0 Hs); [left; auto|lia|cbn [fst snd]; lia]. }
        subst s; cbn [fst snd] in *; lia.
      * rewrite !O by lia. destruct (HO i j ltac:(lia) ltac:(lia) Hj) as [?|(s & Hs & Hs1)]; auto.
        destruct Hs as [<-|Hs]; cbn [fst snd] in *; [lia|]. right. exists s. split; [right; right; auto|lia].
    + (* i before the segment *)
      destruct (Z_le_dec lo j) as [Uj|Uj].
      * destruct (I j ltac:(lia)) as (k & Hk & Ek). rewrite Ek, (O i) by lia.
        destruct (HO i k ltac:(lia) ltac:(lia) ltac:(lia)) as [?|(s & Hs & Hs1)]; auto.
        exfalso. assert (s = (lo, hi)).
        { apply (disj_in_eq _ s (lo, hi) k HD0 Hs); [left; auto|lia|cbn [fst snd]; lia]. }
        subst s; cbn [fst snd] in *; lia.
      * rewrite !O by lia. destruct (HO i j ltac:(lia) ltac:(lia) Hj) as [?|(s & Hs & Hs1)]; auto.
        destruct Hs as [<-|Hs]; cbn [fst snd] in *; [lia|]. right. exists s. split; [right; right; auto|lia].
    + rewrite !O by lia. destruct (HO i j ltac:(lia) ltac:(lia) Hj) as [?|(s & Hs & Hs1)]; auto.
      destruct Hs as [<-|Hs]; cbn [fst snd] in *; [lia|]. right. exists s. split; [right; right; auto|lia].
Qed.

Definition cutat (n k : Z) (L : list (Z * Z)) : Prop :=
  0 < k < n /\ forall s, In s L -> snd s < k \/ k <= fst s.

(** what the partial sort has established about intervals [L], the pending ones first *)
Definition pord {A} `{Dflt A} (cmp : A -> A -> bool) (a : list A) (n : Z) (L : list (Z * Z)) : Prop :=
  ordd cmp a n L /\ (L = [(0, n - 1)] \/ exists k, cutat n k L).

Definition dok (n maxlvl : Z) (s : Z * Z) : Prop := snd s - fst s <= MAX_THRESH \/ maxlvl < n.

Fixpoint lvls (n : Z) (stk : list (option (Z * Z * Z))) : Prop :=
  match stk with
  | [] => True
  | None :: s => lvls n s
  | Some (lo, hi, lvl) :: s => lvl + (hi - lo) < n /\ lvls n s
  end.

Definition pinv {A} `{Dflt A} cmp maxlvl (a0 : list A) (n : Z) (st : list A * Z * Z * Z * list (option (Z * Z * Z))) : Prop :=
  let '(a, lo, hi, lvl, stk) := st in
  Permutation a0 a /\ zlen a = n /\
  Forall (segok n) ((lo, hi) :: segs (unlvl stk)) /\
  stkfit n (unlvl stk) /\ ssize (lo, hi) * 2 ^ (zlen stk - 1) <= n /\
  (lvl + (hi - lo) < n /\ lvls n stk) /\
  exists D, pord cmp a n ((lo, hi) :: segs (unlvl stk) ++ D) /\ Forall (dok n maxlvl) D.

Definition pdone {A} `{Dflt A} cmp maxlvl (a0 : list A) (n : Z) (a : list A) : Prop :=
  Permutation a0 a /\ zlen a = n /\
  exists D, ordd cmp a n D /\ (exists k, cutat n k D) /\ Forall (dok n maxlvl) D.

Lemma pstep_spec {A} `{Dflt A} cmp stksiz maxlvl (a0 : list A) n st :
  strict_weak_order cmp -> 2 <= stksiz -> n < 2 ^ (stksiz - 1) ->
  pinv cmp maxlvl a0 n st ->
  wp (pstep cmp stksiz maxlvl st) (fun x => match x with
    | inl st' => pinv cmp maxlvl a0 n st' /\
        (let '(_, lo, hi, _, stk) := st in let '(_, lo', hi', _, stk') := st' in
         0 <= mass ((lo', hi') :: segs (unlvl stk')) < mass ((lo, hi) :: segs (unlvl stk)))
    | inr a => pdone cmp maxlvl a0 n a end) noerr.
Proof.
  intros W Hst Hn. destruct st as [[[[a lo] hi] lvl] stk].
  intros (P0 & Hz & Hok & Hfit & Hsz & (Hlv & Hlvs) & D & [HO Hcut] & HD).
  unfold pstep. pose proof Hok as Hok'. apply Forall_cons_iff in Hok' as [Hcur Hrest].
  unfold segok, MAX_THRESH in Hcur; cbn [fst snd] in Hcur.
  eapply wp_bind, wp_mono; [apply (partition_spec cmp a lo hi); auto; lia|].
  intros [[a' lft] rgt] (P & H1 & H2 & H3 & H4 & H5 & p & HL & HR).
  assert (PP : Permutation a0 a'). { etransitivity; [apply P0|apply P]. }
  assert (Hz' : zlen a' = n). { destruct P as (_ & -> & _); auto. }
  assert (HO2 : ordd cmp a' n ((lo, rgt) :: (lft, hi) :: segs (unlvl stk) ++ D)) by (eapply (ordd_part cmp a); eauto; lia).
  assert (Hcut2 : exists k, cutat n k ((lo, rgt) :: (lft, hi) :: segs (unlvl stk) ++ D)).
  { destruct Hcut as [E|(k & Hk & Hs)].
    - injection E as -> -> ->. exists lft. split; [lia|]. intros s [<-|[<-|[]]]; cbn [fst snd]; lia.
    - exists k. split; auto. specialize (Hs (lo, hi) (or_introl eq_refl)) as Hs0. cbn [fst snd] in Hs0.
      intros s [<-|[<-|Hin]]; cbn [fst snd]; try lia. apply Hs. right; auto. }
  assert (Use : forall L D', Permutation ((lo, rgt) :: (lft, hi) :: segs (unlvl stk) ++ D) (L ++ D') ->
            ordd cmp a' n (L ++ D') /\ exists k, cutat n k (L ++ D')).
  { intros L D' PL. split; [eapply ordd_perm; eauto|]. destruct Hcut2 as (k & Hk & Hs). exists k. split; auto.
    intros s Hin. apply Hs. eapply Permutation_in; [symmetry; eauto|auto]. }
  pose proof (stkfit_len _ _ Hfit) as Hlen. rewrite zlen_unlvl in Hlen.
  pose proof (pow_pos (zlen stk - 1) ltac:(lia)) as Hpow.
  pose proof (mass_nonneg n _ Hrest) as Hmass.
  assert (Hpush : forall x, push stksiz stk x = Ok (x :: stk)).
  { intros x. pose proof (push_fit n stksiz (unlvl stk) lo hi None Hfit) as HP.
    rewrite zlen_unlvl in HP. specialize (HP ltac:(unfold MAX_THRESH; lia) Hsz Hst Hn).
    unfold push in *. rewrite zlen_unlvl in HP. destruct (zlen stk <? stksiz); auto. discriminate. }
  unfold ssize in Hsz; cbn [fst snd] in Hsz.
  assert (Pop : Forall (dok n maxlvl) ((lo, rgt) :: (lft, hi) :: D) ->
    wp match stk with
      | [] => UB
      | None :: _ => Ok (inr a')
      | Some (lo, hi, lvl) :: stk => Ok (inl (a', lo, hi, lvl, stk)) end
    (fun x => match x with
      | inl st' => pinv cmp maxlvl a0 n st' /\
          (let '(_, lo', hi', _, stk') := st' in
           0 <= mass ((lo', hi') :: segs (unlvl stk')) < mass ((lo, hi) :: segs (unlvl stk)))
      | inr a => pdone cmp maxlvl a0 n a end) noerr).
  { intros FD.
    assert (Use1 := Use (segs (unlvl stk)) ((lo, rgt) :: (lft, hi) :: D)).
    destruct Use1 as [U1 U2].
    { etransitivity; [|apply Permutation_app_comm]. cbn [app]. do 2 constructor. apply Permutation_app_comm. }
    destruct stk as [|[[[lo' hi'] lvl']|] stk'].
    - cbn in Hfit; contradiction.
    - cbn [wp]. change (unlvl (Some (lo', hi', lvl') :: stk')) with (Some (lo', hi') :: unlvl stk') in *.
      cbn [segs] in *. cbn [stkfit lvls] in *. destruct Hfit as [F1 F2]. rewrite zlen_unlvl in F1.
      split.
      + split; auto. split; auto. split; auto. split; auto. split; auto. split; auto.
        eexists. split; [|exact FD]. split; auto.
      + rewrite !mass_cons in *. apply Forall_cons_iff in Hrest as [Hs0 Hr0].
        pose proof (mass_nonneg n _ Hr0). unfold segok, MAX_THRESH, ssize in *; cbn [fst snd] in *. lia.
    - cbn [wp]. split; auto. split; auto.
      destruct stk'; [|cbn in Hfit; contradiction]. cbn [segs unlvl map option_map app] in *. eauto. }
  destruct (Z.leb_spec maxlvl (lvl + 1)).
  { replace (small (rgt - rgt)) with true by (rewrite Z.sub_diag; reflexivity).
    replace (small (lft - lft)) with true by (rewrite Z.sub_diag; reflexivity). apply Pop.
    constructor; [right; lia|constructor; [right; lia|auto]]. }
  destruct (small (rgt - lo)) eqn:Sr.
  - apply small_true in Sr.
    destruct (small (hi - lft)) eqn:Sl.
    { apply small_true in Sl. apply Pop. constructor; [left; cbn [fst snd]; lia|constructor; [left; cbn [fst snd]; lia|auto]]. }
    apply small_false in Sl; [|lia]. cbn [wp]. split.
    + split; auto. split; auto. split; [|split; [|split; [|split; [split|]]]]; auto; try lia.
      * constructor; auto. unfold segok, MAX_THRESH in *; cbn [fst snd]; lia.
      * unfold ssize; cbn [fst snd]. nia.
      * exists ((lo, rgt) :: D). split; [|constructor; auto; left; cbn [fst snd]; lia].
        destruct (Use ((lft, hi) :: segs (unlvl stk)) ((lo, rgt) :: D)); [|split; auto].
        apply (Permutation_middle ((lft, hi) :: segs (unlvl stk))).
    + rewrite !mass_cons. unfold ssize, MAX_THRESH in *; cbn [fst snd] in *. lia.
  - apply small_false in Sr; [|lia].
    destruct (small (hi - lft)) eqn:Sl.
    + apply small_true in Sl. cbn [wp]. split.
      * split; auto. split; auto. split; [|split; [|split; [|split; [split|]]]]; auto; try lia.
        -- constructor; auto. unfold segok, MAX_THRESH in *; cbn [fst snd]; lia.
        -- unfold ssize; cbn [fst snd]. nia.
        -- exists ((lft, hi) :: D). split; [|constructor; auto; left; cbn [fst snd]; lia].
           destruct (Use ((lo, rgt) :: segs (unlvl stk)) ((lft, hi) :: D)); [|split; auto].
           cbn [app]. constructor. apply (Permutation_middle (segs (unlvl stk))).
      * rewrite !mass_cons. unfold ssize, MAX_THRESH in *; cbn [fst snd] in *. lia.
    + apply small_false in Sl; [|lia].
      assert (Okl : segok n (lft, hi)) by (unfold segok, MAX_THRESH in *; cbn [fst snd]; lia).
      assert (Okr : segok n (lo, rgt)) by (unfold segok, MAX_THRESH in *; cbn [fst snd]; lia).
      assert (E2 : 2 ^ (zlen stk) = 2 * 2 ^ (zlen stk - 1)).
      { replace (zlen stk) with (Z.succ (zlen stk - 1)) at 1 by lia. rewrite Z.pow_succ_r; lia. }
      destruct (Z.ltb_spec (hi - lft) (rgt - lo)); rewrite Hpush; cbn [bind wp].
      * change (unlvl (Some (lo, rgt, lvl + 1) :: stk)) with (Some (lo, rgt) :: unlvl stk). cbn [segs]. split.
        -- unfold pinv; change (unlvl (Some (lo, rgt, lvl + 1) :: stk)) with (Some (lo, rgt) :: unlvl stk).
           cbn [segs stkfit lvls]. split; auto. split; auto. split; auto.
           split; [split; auto; unfold ssize; cbn [fst snd]; rewrite zlen_unlvl; nia|].
           split; [rewrite zlen_cons; replace (1 + zlen stk - 1) with (zlen stk) by lia; rewrite E2; unfold ssize; cbn [fst snd]; nia|].
           split; [repeat split; auto; lia|]. exists D. split; auto.
           destruct (Use ((lft, hi) :: (lo, rgt) :: segs (unlvl stk)) D); [apply perm_swap|split; auto].
        -- rewrite !mass_cons. unfold ssize, MAX_THRESH in *; cbn [fst snd] in *. lia.
      * change (unlvl (Some (lft, hi, lvl + 1) :: stk)) with (Some (lft, hi) :: unlvl stk). cbn [segs]. split.
        -- unfold pinv; change (unlvl (Some (lft, hi, lvl + 1) :: stk)) with (Some (lft, hi) :: unlvl stk).
           cbn [segs stkfit lvls]. split; auto. split; auto. split; auto.
           split; [split; auto; unfold ssize; cbn [fst snd]; rewrite zlen_unlvl; nia|].
           split; [rewrite zlen_cons; replace (1 + zlen stk - 1) with (zlen stk) by lia; rewrite E2; unfold ssize; cbn [fst snd]; nia|].
           split; [repeat split; auto; lia|]. exists D. split; auto.
           destruct (Use ((lo, rgt) :: (lft, hi) :: segs (unlvl stk)) D); [reflexivity|split; auto].
        -- rewrite !mass_cons. unfold ssize, MAX_THRESH in *; cbn [fst snd] in *. lia.
Qed.

Lemma intPsort_spec {A} `{Dflt A} cmp stksiz (a : list A) n maxlvl :
  strict_weak_order cmp -> 2 <= stksiz -> zlen a = n -> n < 2 ^ (stksiz - 1) ->
  exists a', intPsort cmp stksiz a n maxlvl = Ok a' /\ Permutation a a' /\
    (MAX_THRESH < n -> pdone cmp maxlvl a n a').
Proof.
  intros W Hst Hz Hn.
  assert (G : wp (intPsort cmp stksiz a n maxlvl) (fun a' => Permutation a a' /\ (MAX_THRESH < n -> pdone cmp maxlvl a n a')) noerr).
  { unfold intPsort. destruct (Z.ltb_spec MAX_THRESH n); [|cbn; split; auto; lia].
    unfold push. rewrite zlen_nil. replace (0 <? stksiz) with true by lia. cbn [bind].
    apply wp_loop with (I := pinv cmp maxlvl a n) (m := fun '(_, lo, hi, _, stk) => mass ((lo, hi) :: segs (unlvl stk))).
    - unfold pinv. change (unlvl [None]) with [@None (Z * Z)]. cbn [segs lvls]. split; auto. split; auto.
      split; [|split; [|split; [|split]]]; try lia.
      + constructor; auto. unfold segok; cbn [fst snd]. lia.
      + cbn; auto.
      + match goal with |- _ * ?e <= _ => change e with 1 end. unfold ssize; cbn [fst snd]. lia.
      + exists []. cbn [app]. split; [split; auto|constructor]. split; [cbn; tauto|].
        intros i j Hi Hij Hj. right. exists (0, n - 1). split; [left; auto|cbn [fst snd]; lia].
    - change (unlvl [None]) with [@None (Z * Z)]. cbn [segs]. rewrite mass_cons. unfold mass, ssize; cbn [fold_right fst snd]. unfold zlen, MAX_THRESH in *. lia.
    - intros st Hinv. eapply wp_mono; [apply (pstep_spec cmp stksiz maxlvl a n st); auto|].
      intros [st'|a']; [|intros HD; split; auto; apply HD].
      destruct st as [[[[a1 lo] hi] lv] stk], st' as [[[[a2 lo'] hi'] lv'] stk']. auto. }
  apply wp_ok_inv in G as (a' & E & R). eauto.
Qed.

(** readable consequences *)
Lemma pdone_cut {A} `{Dflt A} cmp maxlvl (a0 : list A) n a : pdone cmp maxlvl a0 n a ->
  exists k, 0 < k < n /\ forall i j, 0 <= i < k -> k <= j < n -> le_ cmp (at_ 0 a i) (at_ 0 a j).
Proof.
  intros (_ & _ & D & [_ HO] & (k & Hk & Hs) & _). exists k. split; auto. intros i j Hi Hj.
  destruct (HO i j ltac:(lia) ltac:(lia) ltac:(lia)) as [Hle|(s & Hin & Hb)]; [exact Hle|].
  specialize (Hs s Hin). lia.
Qed.

Lemma pdone_near {A} `{Dflt A} cmp maxlvl (a0 : list A) n a : pdone cmp maxlvl a0 n a -> n <= maxlvl ->
  forall i j, 0 <= i -> i + MAX_THRESH < j -> j < n -> le_ cmp (at_ 0 a i) (at_ 0 a j).
Proof.
  intros (_ & _ & D & [_ HO] & _ & HD) Hm i j Hi Hij Hj.
  destruct (HO i j) as [?|(s & Hin & Hb)]; auto; [unfold MAX_THRESH in *; lia|].
  rewrite Forall_forall in HD. specialize (HD s Hin). unfold dok in HD. lia.
Qed.

Lemma at_nth_error {A} `{Dflt A} (a : list A) i x : nth_error a i = Some x -> at_ 0 a (Z.of_nat i) = x /\ 0 <= Z.of_nat i < zlen a.
Proof.
  intros E. assert ((i < length a)%nat) by (apply nth_error_Some; congruence).
  unfold at_, zlen. rewrite Z.sub_0_r, Nat2Z.id. apply (nth_error_nth a i dflt) in E. split; auto; lia.
Qed.

(** ** Comparison macros *)
Lemma swo_cmp1 : strict_weak_order cmp1.
Proof. unfold strict_weak_order, cmp1. repeat split; intros; lia. Qed.
Lemma swo_cmp_fst {B} : strict_weak_order (@cmp_fst B).
Proof. unfold strict_weak_order, cmp_fst. repeat split; intros; lia. Qed.
Lemma swo_cmp2 : strict_weak_order cmp2.
Proof. unfold strict_weak_order, cmp2. repeat split; intros; lia. Qed.
Lemma swo_cmp3 : strict_weak_order cmp3.
Proof. unfold strict_weak_order, cmp3. repeat split; intros; lia. Qed.
