(** Proofs about M_Sort. *)
From Verif Require Import Base M_Sort S_Sort.

(** Rearrangement restricted to the segment [lo..hi]. *)
Definition segperm {A} `{Dflt A} (lo hi : Z) (a a' : list A) : Prop :=
  Permutation a a' /\ zlen a' = zlen a /\
  (forall i, 0 <= i -> ~ (lo <= i <= hi) -> at_ 0 a' i = at_ 0 a i) /\
  (forall i, lo <= i <= hi -> exists j, lo <= j <= hi /\ at_ 0 a' i = at_ 0 a j) /\
  (forall j, lo <= j <= hi -> exists i, lo <= i <= hi /\ at_ 0 a' i = at_ 0 a j).

Lemma segperm_refl {A} `{Dflt A} lo hi (a : list A) : segperm lo hi a a.
Proof. repeat split; auto; intros i Hi; exists i; auto. Qed.

Lemma segperm_trans {A} `{Dflt A} lo hi (a b c : list A) :
  segperm lo hi a b -> segperm lo hi b c -> segperm lo hi a c.
Proof.
  intros (P1 & L1 & O1 & I1 & J1) (P2 & L2 & O2 & I2 & J2). repeat split.
  - etransitivity; eauto.
  - congruence.
  - intros i Hi Ho. rewrite O2 by auto. auto.
  - intros i Hi. destruct (I2 i Hi) as (j & Hj & E). destruct (I1 j Hj) as (k & Hk & E'). exists k. split; auto. congruence.
  - intros k Hk. destruct (J1 k Hk) as (j & Hj & E). destruct (J2 j Hj) as (i & Hi & E'). exists i. split; auto. congruence.
Qed.

Lemma segperm_swp {A} `{Dflt A} lo hi (a : list A) i j :
  0 <= lo -> hi < zlen a -> lo <= i <= hi -> lo <= j <= hi -> segperm lo hi a (swp 0 a i j).
Proof.
  intros Hlo Hhi Hi Hj. repeat split.
  - apply Permutation_swp; lia.
  - apply zlen_swp.
  - intros k Hk Ho. rewrite at_swp by lia. destruct (Z.eqb_spec k i), (Z.eqb_spec k j); lia || auto.
  - intros k Hk. rewrite at_swp by lia.
    destruct (Z.eqb_spec k i); [exists j; auto|]. destruct (Z.eqb_spec k j); [exists i; auto|exists k; auto].
  - intros k Hk. destruct (Z.eq_dec k i) as [->|]; [|destruct (Z.eq_dec k j) as [->|]].
    + exists j. split; auto. rewrite at_swp by lia.
      destruct (Z.eqb_spec j i); [now subst|]. now rewrite Z.eqb_refl.
    + exists i. split; auto. rewrite at_swp by lia. now rewrite Z.eqb_refl.
    + exists k. split; auto. rewrite at_swp by lia.
      destruct (Z.eqb_spec k i), (Z.eqb_spec k j); congruence || auto.
Qed.

Lemma sswap_ok {A} `{Dflt A} (a : list A) i j :
  0 <= i < zlen a -> 0 <= j < zlen a -> sswap a i j = Ok (swp 0 a i j).
Proof.
  intros. unfold sswap. rewrite !rd_ok by lia. cbn [bind]. rewrite wr_ok by lia. cbn [bind].
  rewrite wr_ok by (rewrite zlen_upd; lia). reflexivity.
Qed.

Lemma scmp_ok {A} `{Dflt A} cmp (a : list A) i j :
  0 <= i < zlen a -> 0 <= j < zlen a -> scmp cmp a i j = Ok (cmp (at_ 0 a i) (at_ 0 a j)).
Proof. intros. unfold scmp. rewrite !rd_ok by lia. reflexivity. Qed.

Definition le_ {A} (cmp : A -> A -> bool) (x y : A) : Prop := cmp y x = false.

Lemma le_refl_ {A} (cmp : A -> A -> bool) x : strict_weak_order cmp -> le_ cmp x x.
Proof. intros (R & _); apply R. Qed.
Lemma le_trans_ {A} (cmp : A -> A -> bool) x y z : strict_weak_order cmp -> le_ cmp x y -> le_ cmp y z -> le_ cmp x z.
Proof. unfold le_. intros (_ & _ & T) H1 H2. eapply T; eauto. Qed.
Lemma lt_le_ {A} (cmp : A -> A -> bool) x y : strict_weak_order cmp -> cmp x y = true -> le_ cmp x y.
Proof. unfold le_. intros (_ & S & _); auto. Qed.

(** ** Partition *)

Lemma median3_spec {A} `{Dflt A} cmp (a : list A) lo hi :
  strict_weak_order cmp -> 0 <= lo -> lo + 2 <= hi -> hi < zlen a ->
  wp (median3 cmp a lo hi) (fun '(a', mid) =>
    segperm lo hi a a' /\ lo < mid < hi /\
    le_ cmp (at_ 0 a' lo) (at_ 0 a' mid) /\ le_ cmp (at_ 0 a' mid) (at_ 0 a' hi)) noerr.
Proof.
  intros W Hlo Hlh Hhi. unfold median3.
  set (mid := lo + Z.shiftr (hi - lo) 1).
  assert (Hm : lo < mid < hi).
  { unfold mid. rewrite Z.shiftr_div_pow2 by lia. change (2 ^ 1) with 2.
    pose proof (Z.div_mod (hi - lo) 2 ltac:(lia)). pose proof (Z.mod_pos_bound (hi - lo) 2 ltac:(lia)). lia. }
  clearbody mid.
  rewrite scmp_ok by lia. cbn [bind].
  assert (S1 : exists a1, (if cmp (at_ 0 a mid) (at_ 0 a lo) then sswap a mid lo else Ok a) = Ok a1
     /\ segperm lo hi a a1 /\ le_ cmp (at_ 0 a1 lo) (at_ 0 a1 mid)).
  { destruct (cmp (at_ 0 a mid) (at_ 0 a lo)) eqn:C.
    - exists (swp 0 a mid lo). rewrite sswap_ok by lia. split; auto. split; [apply segperm_swp; lia|].
      rewrite !at_swp by lia. rewrite !Z.eqb_refl. replace (lo =? mid) with false by lia.
      now apply lt_le_.
    - exists a. split; auto. split; [apply segperm_refl|]. exact C. }
  destruct S1 as (a1 & -> & P1 & L1). cbn [bind].
  assert (Z1 : zlen a1 = zlen a) by apply P1.
  rewrite scmp_ok by lia. cbn [bind].
  destruct (cmp (at_ 0 a1 hi) (at_ 0 a1 mid)) eqn:C.
  - rewrite sswap_ok by lia. cbn [bind].
    set (a2 := swp 0 a1 mid hi).
    assert (P2 : segperm lo hi a1 a2) by (apply segperm_swp; lia).
    assert (Z2 : zlen a2 = zlen a) by (unfold a2; rewrite zlen_swp; lia).
    assert (E1 : at_ 0 a2 lo = at_ 0 a1 lo).
    { unfold a2. rewrite at_swp by lia. now replace (lo =? mid) with false by lia; replace (lo =? hi) with false by lia. }
    assert (E2 : at_ 0 a2 mid = at_ 0 a1 hi).
    { unfold a2. rewrite at_swp by lia. now rewrite Z.eqb_refl. }
    assert (E3 : at_ 0 a2 hi = at_ 0 a1 mid).
    { unfold a2. rewrite at_swp by lia. replace (hi =? mid) with false by lia. now rewrite Z.eqb_refl. }
    clearbody a2.
    rewrite scmp_ok by lia. cbn [bind].
    destruct (cmp (at_ 0 a2 mid) (at_ 0 a2 lo)) eqn:C2.
    + rewrite sswap_ok by lia. cbn [bind wp].
      split. { eapply segperm_trans; [apply P1|]. eapply segperm_trans; [apply P2|]. apply segperm_swp; lia. }
      split; auto. rewrite !at_swp by lia. rewrite !Z.eqb_refl.
      replace (lo =? mid) with false by lia. replace (hi =? mid) with false by lia. replace (hi =? lo) with false by lia.
      rewrite E1, E2, E3 in *. split; [now apply lt_le_|]. auto.
    + cbn [bind wp]. split; [eapply segperm_trans; eauto|]. split; auto. rewrite E1, E2, E3 in *.
      split; [exact C2|]. now apply lt_le_.
  - cbn [wp]. split; [apply P1|]. split; [lia|]. split; [auto|exact C].
Qed.

Lemma scanL_spec {A} `{Dflt A} cmp (a : list A) mid lft top :
  0 <= lft <= top -> top < zlen a -> 0 <= mid < zlen a ->
  cmp (at_ 0 a top) (at_ 0 a mid) = false ->
  wp (scanL cmp a mid lft) (fun l => lft <= l <= top /\
    (forall i, lft <= i < l -> cmp (at_ 0 a i) (at_ 0 a mid) = true) /\
    cmp (at_ 0 a l) (at_ 0 a mid) = false) noerr.
Proof.
  intros Hl Ht Hm Hc. unfold scanL.
  apply wp_loop with (m := fun l => top - l)
    (I := fun l => lft <= l <= top /\ forall i, lft <= i < l -> cmp (at_ 0 a i) (at_ 0 a mid) = true).
  - split; [lia|]. intros; lia.
  - unfold zlen in *; lia.
  - intros l [Hl1 Hl2]. rewrite scmp_ok by lia. cbn [bind].
    destruct (cmp (at_ 0 a l) (at_ 0 a mid)) eqn:C; cbn [wp].
    + assert (l <> top) by congruence. repeat split; try lia.
      intros i Hi. destruct (Z.eq_dec i l) as [->|]; auto. apply Hl2; lia.
    + auto.
Qed.

Lemma scanR_spec {A} `{Dflt A} cmp (a : list A) mid rgt bot :
  0 <= bot <= rgt -> rgt < zlen a -> 0 <= mid < zlen a ->
  cmp (at_ 0 a mid) (at_ 0 a bot) = false ->
  wp (scanR cmp a mid rgt) (fun r => bot <= r <= rgt /\
    (forall i, r < i <= rgt -> cmp (at_ 0 a mid) (at_ 0 a i) = true) /\
    cmp (at_ 0 a mid) (at_ 0 a r) = false) noerr.
Proof.
  intros Hl Ht Hm Hc. unfold scanR.
  apply wp_loop with (m := fun r => r - bot)
    (I := fun r => bot <= r <= rgt /\ forall i, r < i <= rgt -> cmp (at_ 0 a mid) (at_ 0 a i) = true).
  - split; [lia|]. intros; lia.
  - unfold zlen in *; lia.
  - intros r [Hl1 Hl2]. rewrite scmp_ok by lia. cbn [bind].
    destruct (cmp (at_ 0 a mid) (at_ 0 a r)) eqn:C; cbn [wp].
    + assert (r <> bot) by congruence. repeat split; try lia.
      intros i Hi. destruct (Z.eq_dec i r) as [->|]; auto. apply Hl2; lia.
    + auto.
Qed.

Lemma collapse_spec {A} `{Dflt A} cmp (a : list A) lo hi mid :
  strict_weak_order cmp -> 0 <= lo -> lo + 2 <= hi -> hi < zlen a -> lo < mid < hi ->
  le_ cmp (at_ 0 a lo) (at_ 0 a mid) -> le_ cmp (at_ 0 a mid) (at_ 0 a hi) ->
  wp (collapse cmp a mid (lo + 1) (hi - 1)) (fun '(a', lft, rgt) =>
    segperm lo hi a a' /\ lo <= rgt /\ rgt < lft /\ lft <= hi /\ rgt < hi /\ lo < lft /\
    exists p,
     (forall i, lo <= i < lft -> le_ cmp (at_ 0 a' i) p) /\
     (forall i, rgt < i <= hi -> le_ cmp p (at_ 0 a' i))) noerr.
Proof.
  intros W Hlo Hlh Hhi Hmid Hl0 Hh0. unfold collapse.
  set (p := at_ 0 a mid).
  apply wp_loop with (m := fun '(_, _, lft, rgt) => rgt - lft + 1)
    (I := fun '(a', mid, lft, rgt) =>
      segperm lo hi a a' /\ lo <= mid <= hi /\ at_ 0 a' mid = p /\
      lo < lft <= rgt /\ rgt < hi /\
      (forall i, lo <= i < lft -> le_ cmp (at_ 0 a' i) p) /\
      (forall i, rgt < i <= hi -> le_ cmp p (at_ 0 a' i))).
  - repeat split; try lia; try apply segperm_refl; auto.
    all: try (intros i Hi; exists i; auto).
    + intros i Hi. now replace i with lo by lia.
    + intros i Hi. now replace i with hi by lia.
  - unfold zlen in *; lia.
  - intros [[[a1 m1] l1] r1] (P1 & Hm1 & Ep & Hl1 & Hr1 & HL & HR).
    assert (Z1 : zlen a1 = zlen a) by apply P1.
    eapply wp_bind, wp_mono.
    { apply (scanL_spec cmp a1 m1 l1 (r1 + 1)); try lia. rewrite Ep. apply HR. lia. }
    cbv beta. intros l2 (Hl2 & HL2 & HC2).
    eapply wp_bind, wp_mono.
    { apply (scanR_spec cmp a1 m1 r1 (l1 - 1)); try lia. rewrite Ep. apply HL. lia. }
    cbv beta. intros r2 (Hr2 & HR2 & HD2).
    rewrite Ep in *.
    assert (HL' : forall i, lo <= i < l2 -> le_ cmp (at_ 0 a1 i) p).
    { intros i Hi. destruct (Z.lt_ge_cases i l1); [apply HL; lia|]. apply lt_le_; auto. apply HL2; lia. }
    assert (HR' : forall i, r2 < i <= hi -> le_ cmp p (at_ 0 a1 i)).
    { intros i Hi. destruct (Z.lt_ge_cases r1 i); [apply HR; lia|]. apply lt_le_; auto. apply HR2; lia. }
    destruct (Z.ltb_spec l2 r2) as [Hlt|Hge].
    + rewrite sswap_ok by lia. cbn [bind].
      set (a2 := swp 0 a1 l2 r2).
      assert (P2 : segperm lo hi a a2). { eapply segperm_trans; [apply P1|]. apply segperm_swp; lia. }
      assert (HLs : forall i, lo <= i < l2 + 1 -> le_ cmp (at_ 0 a2 i) p).
      { intros i Hi. unfold a2. rewrite at_swp by lia.
        destruct (Z.eqb_spec i l2); [exact HD2|]. replace (i =? r2) with false by lia. apply HL'; lia. }
      assert (HRs : forall i, r2 - 1 < i <= hi -> le_ cmp p (at_ 0 a2 i)).
      { intros i Hi. unfold a2. rewrite at_swp by lia.
        replace (i =? l2) with false by lia. destruct (Z.eqb_spec i r2); [exact HC2|]. apply HR'; lia. }
      set (m2 := if m1 =? l2 then r2 else if m1 =? r2 then l2 else m1).
      assert (Hm2 : lo <= m2 <= hi /\ at_ 0 a2 m2 = p).
      { unfold m2, a2. destruct (Z.eqb_spec m1 l2); [|destruct (Z.eqb_spec m1 r2)].
        - split; [lia|]. rewrite at_swp by lia. replace (r2 =? l2) with false by lia. rewrite Z.eqb_refl. congruence.
        - split; [lia|]. rewrite at_swp by lia. rewrite Z.eqb_refl. congruence.
        - split; [lia|]. rewrite at_swp by lia. replace (m1 =? l2) with false by lia. replace (m1 =? r2) with false by lia. auto. }
      clearbody a2 m2. destruct Hm2.
      destruct (Z.leb_spec (l2 + 1) (r2 - 1)); cbn [wp].
      * split; [|lia]. repeat split; auto; try lia; apply P2.
      * repeat split; try lia; try apply P2. exists p. split; auto.
    + destruct (Z.eqb_spec l2 r2) as [->|Hne]; cbn [wp].
      * repeat split; try lia; try apply P1. exists p. split.
        -- intros i Hi. destruct (Z.eq_dec i r2) as [->|]; [exact HD2|]. apply HL'; lia.
        -- intros i Hi. destruct (Z.eq_dec i r2) as [->|]; [exact HC2|]. apply HR'; lia.
      * replace (l2 <=? r2) with false by lia. cbn [wp].
        repeat split; try lia; try apply P1. exists p. split; auto.
Qed.

Lemma partition_spec {A} `{Dflt A} cmp (a : list A) lo hi :
  strict_weak_order cmp -> 0 <= lo -> lo + 2 <= hi -> hi < zlen a ->
  wp (partition cmp a lo hi) (fun '(a', lft, rgt) =>
    segperm lo hi a a' /\ lo <= rgt /\ rgt < lft /\ lft <= hi /\ rgt < hi /\ lo < lft /\
    exists p,
     (forall i, lo <= i < lft -> le_ cmp (at_ 0 a' i) p) /\
     (forall i, rgt < i <= hi -> le_ cmp p (at_ 0 a' i))) noerr.
Proof.
  intros W Hlo Hlh Hhi. unfold partition.
  eapply wp_bind, wp_mono; [apply (median3_spec cmp a lo hi); auto|].
  intros [a1 mid] (P1 & Hm & L1 & L2).
  assert (Z1 : zlen a1 = zlen a) by apply P1.
  eapply wp_mono; [apply (collapse_spec cmp a1 lo hi mid); auto; lia|].
  intros [[a2 l] r] (P2 & R). split; auto. eapply segperm_trans; eauto.
Qed.

(** ** The quicksort phase *)

(** Some smallest record is among indices 0..m. *)
Definition minin {A} `{Dflt A} (cmp : A -> A -> bool) (a : list A) (m : Z) : Prop :=
  exists k, 0 <= k <= m /\ k < zlen a /\ forall j, 0 <= j < zlen a -> le_ cmp (at_ 0 a k) (at_ 0 a j).

Fixpoint segs (stk : list (option (Z * Z))) : list (Z * Z) :=
  match stk with [] => [] | None :: s => segs s | Some x :: s => x :: segs s end.

Definition ssize (s : Z * Z) : Z := snd s - fst s + 1.

(** Sizes of the pending segments, innermost first, decrease geometrically. *)
Fixpoint stkfit (n : Z) (stk : list (option (Z * Z))) : Prop :=
  match stk with
  | [] => False
  | [None] => True
  | None :: _ => False
  | Some s :: stk' => ssize s * 2 ^ (zlen stk' - 1) <= n /\ stkfit n stk'
  end.

Definition segok (n : Z) (s : Z * Z) : Prop := 0 <= fst s /\ fst s + MAX_THRESH <= snd s /\ snd s < n.

Fixpoint disj (l : list (Z * Z)) : Prop :=
  match l with [] => True | s :: l' => (forall t, In t l' -> snd s < fst t \/ snd t < fst s) /\ disj l' end.

Definition mass (l : list (Z * Z)) : Z := fold_right (fun s v => 2 * ssize s - 1 + v) 0 l.

Lemma stkfit_len n stk : stkfit n stk -> 1 <= zlen stk.
Proof. destruct stk; simpl; [contradiction|]. intros _. rewrite zlen_cons. pose proof (zlen_nonneg stk). lia. Qed.

Lemma mass_cons s l : mass (s :: l) = 2 * ssize s - 1 + mass l.
Proof. reflexivity. Qed.

Lemma mass_nonneg n l : Forall (segok n) l -> 0 <= mass l.
Proof.
  induction 1 as [|s l Hs Hl IH]; [unfold mass; cbn [fold_right]; lia|].
  rewrite mass_cons. unfold segok, ssize, MAX_THRESH in *. lia.
Qed.

(** The invariant on the minimum: [cur] and the stack are the pending segments. *)
Definition mininv {A} `{Dflt A} (cmp : A -> A -> bool) (a : list A) (pend : list (Z * Z)) : Prop :=
  exists m, minin cmp a m /\
    ((m <= MAX_THRESH /\ forall s, In s pend -> m < fst s) \/
     (In (0, m) pend /\ forall s, In s pend -> s <> (0, m) -> m < fst s)).

Lemma minin_mono {A} `{Dflt A} cmp (a : list A) m m' : m <= m' -> minin cmp a m -> minin cmp a m'.
Proof. intros Hm (k & H1 & H2). exists k. split; auto; lia. Qed.

(** rearranging a segment disjoint from 0..m keeps the minimum *)
Lemma minin_segperm {A} `{Dflt A} cmp (a a' : list A) lo hi m :
  0 <= lo -> hi < zlen a -> segperm lo hi a a' -> m < lo \/ (lo = 0 /\ hi <= m) -> minin cmp a m -> minin cmp a' m.
Proof.
  intros Hlo Hhi (P & L & O & I & J) Hm (k & Hk & Hkz & Hmin).
  assert (All : forall x k', at_ 0 a' k' = at_ 0 a k -> forall j, x = at_ 0 a' j -> 0 <= j < zlen a' -> le_ cmp (at_ 0 a' k') x).
  { intros x k' E j -> Hj. rewrite E.
    destruct (Z_le_dec lo j); [destruct (Z_le_dec j hi)|].
    - destruct (I j ltac:(lia)) as (j' & Hj' & ->). apply Hmin; lia.
    - rewrite O by lia. apply Hmin; lia.
    - rewrite O by lia. apply Hmin; lia. }
  destruct (Z_le_dec lo k); [destruct (Z_le_dec k hi)|].
  - destruct Hm as [Hm|[-> Hm]]; [lia|].
    destruct (J k ltac:(lia)) as (k' & Hk' & E). exists k'. repeat split; try lia.
    intros j Hj. eapply All; eauto.
  - exists k. repeat split; try lia. intros j Hj. eapply All; eauto. rewrite O; auto; lia.
  - exists k. repeat split; try lia. intros j Hj. eapply All; eauto. rewrite O; auto; lia.
Qed.

(** splitting [0..hi] by a pivot keeps the minimum in the left part *)
Lemma minin_split {A} `{Dflt A} cmp (a : list A) hi lft rgt p :
  strict_weak_order cmp -> hi < zlen a -> 0 <= rgt -> rgt < lft -> lft <= hi ->
  (forall i, 0 <= i < lft -> le_ cmp (at_ 0 a i) p) ->
  (forall i, rgt < i <= hi -> le_ cmp p (at_ 0 a i)) ->
  minin cmp a hi -> minin cmp a rgt.
Proof.
  intros W Hhi Hr Hl Hlh HL HR (k & Hk & Hkz & Hmin).
  destruct (Z_le_dec k rgt); [exists k; repeat split; auto; lia|].
  exists 0. repeat split; try lia. intros j Hj.
  eapply le_trans_; [auto| |apply (Hmin j Hj)].
  eapply le_trans_; [auto|apply (HL 0); lia|apply (HR k); lia].
Qed.

Definition qinv {A} `{Dflt A} (cmp : A -> A -> bool) (a0 : list A) (n : Z)
  (st : list A * Z * Z * list (option (Z * Z))) : Prop :=
  let '(a, lo, hi, stk) := st in
  Permutation a0 a /\ zlen a = n /\
  Forall (segok n) ((lo, hi) :: segs stk) /\ disj ((lo, hi) :: segs stk) /\
  stkfit n stk /\ ssize (lo, hi) * 2 ^ (zlen stk - 1) <= n /\
  mininv cmp a ((lo, hi) :: segs stk).

Lemma pow_pos k : 0 <= k -> 0 < 2 ^ k.
Proof. intros; apply Z.pow_pos_nonneg; lia. Qed.

Lemma small_false d : 0 <= d -> small d = false -> MAX_THRESH < d.
Proof. unfold small, MAX_THRESH; lia. Qed.
Lemma small_true d : small d = true -> 0 <= d <= MAX_THRESH.
Proof. unfold small, MAX_THRESH; lia. Qed.

Lemma push_fit n stksiz stk lo hi (x : option (Z * Z)) :
  stkfit n stk -> MAX_THRESH <= hi - lo -> ssize (lo, hi) * 2 ^ (zlen stk - 1) <= n -> 2 <= stksiz -> n < 2 ^ (stksiz - 1) ->
  push stksiz stk x = Ok (x :: stk).
Proof.
  intros F Hs Hf H2 Hn. unfold push.
  replace (zlen stk <? stksiz) with true; auto. symmetry. apply Z.ltb_lt.
  pose proof (stkfit_len _ _ F).
  destruct (Z.lt_ge_cases (zlen stk) stksiz); auto. exfalso.
  assert (2 ^ (stksiz - 1) <= 2 ^ (zlen stk - 1)) by (apply Z.pow_le_mono_r; lia).
  pose proof (pow_pos (zlen stk - 1) ltac:(lia)). unfold ssize, MAX_THRESH in *; cbn [fst snd] in *. nia.
Qed.

(** The effect of one partition on the pending minimum. *)
Lemma mininv_part {A} `{Dflt A} cmp (a a' : list A) n lo hi lft rgt p rest :
  strict_weak_order cmp -> zlen a = n -> Forall (segok n) ((lo, hi) :: rest) -> disj ((lo, hi) :: rest) ->
  segperm lo hi a a' -> lo <= rgt -> rgt < lft -> lft <= hi -> lo < lft ->
  (forall i, lo <= i < lft -> le_ cmp (at_ 0 a' i) p) ->
  (forall i, rgt < i <= hi -> le_ cmp p (at_ 0 a' i)) ->
  mininv cmp a ((lo, hi) :: rest) ->
  (mininv cmp a' ((lo, rgt) :: (lft, hi) :: rest)) /\
  (rgt - lo <= MAX_THRESH -> mininv cmp a' ((lft, hi) :: rest)).
Proof.
  intros W Hz Hok Hd P H1 H2 H3 H4 HL HR (m & Hm & Hc).
  inversion Hok as [|? ? Hcur Hrest]; subst. unfold segok in Hcur; cbn [fst snd] in Hcur.
  destruct Hd as [Hd Hd'].
  assert (Hz' : zlen a' = zlen a) by apply P.
  destruct Hc as [[Hm6 Hlt]|[Hin Hlt]].
  - assert (m < lo) by (apply (Hlt (lo, hi)); left; auto).
    assert (Hm' : minin cmp a' m). { eapply minin_segperm; [| |apply P| |apply Hm]; lia. }
    split; [|intros _].
    + exists m. split; auto. left. split; auto. intros s [<-|[<-|Hs]]; cbn [fst]; try lia. apply Hlt; right; auto.
    + exists m. split; auto. left. split; auto. intros s [<-|Hs]; cbn [fst]; try lia. apply Hlt; right; auto.
  - destruct Hin as [E|Hin].
    + injection E as -> ->.
      assert (Hm' : minin cmp a' m). { eapply minin_segperm; [| |apply P| |apply Hm]; lia. }
      assert (Hm'' : minin cmp a' rgt). { apply (minin_split cmp a' m lft rgt p); auto; lia. }
      assert (Hr : forall s, In s rest -> rgt < fst s).
      { intros s Hs. specialize (Hd s Hs); cbn [fst snd] in Hd.
        rewrite Forall_forall in Hrest. specialize (Hrest s Hs). unfold segok, MAX_THRESH in Hrest. lia. }
      split.
      * exists rgt. split; auto. right. split; [left; auto|]. intros s [<-|[<-|Hs]]; cbn [fst]; try congruence; try lia.

      * intros Hsm. exists rgt. split; auto. left. split; [lia|]. intros s [<-|Hs]; cbn [fst]; auto; lia.
    + assert (Hd0 := Hd _ Hin). cbn [fst snd] in Hd0.
      assert (Hml : m < lo).
      { destruct (Z.eq_dec lo 0); [|].
        - rewrite Forall_forall in Hrest. specialize (Hrest _ Hin). unfold segok, MAX_THRESH in Hrest; cbn [fst snd] in Hrest. lia.
        - apply (Hlt (lo, hi)); [left; auto|]. intros [= -> ->]. lia. }
      assert (Hm' : minin cmp a' m). { eapply minin_segperm; [| |apply P| |apply Hm]; lia. }
      split; [|intros _].
      * exists m. split; auto. right. split; [right; right; auto|].
        intros s [<-|[<-|Hs]]; cbn [fst]; try lia. intros; apply Hlt; auto. right; auto.
      * exists m. split; auto. right. split; [right; auto|].
        intros s [<-|Hs]; cbn [fst]; try lia. intros; apply Hlt; auto. right; auto.
Qed.

(** a pending segment that is not the one holding index 0 may be forgotten *)
Lemma mininv_drop {A} `{Dflt A} cmp (a : list A) s rest :
  0 < fst s -> mininv cmp a (s :: rest) -> mininv cmp a rest.
Proof.
  intros Hs (m & Hm & [[H6 Hl]|[Hin Hl]]); exists m; split; auto.
  - left. split; auto. intros t Ht; apply Hl; right; auto.
  - right. destruct Hin as [->|Hin]; [cbn [fst] in Hs; lia|]. split; auto. intros t Ht; apply Hl; right; auto.
Qed.

Lemma mininv_swap {A} `{Dflt A} cmp (a : list A) s t rest :
  mininv cmp a (s :: t :: rest) -> mininv cmp a (t :: s :: rest).
Proof.
  intros (m & Hm & [[H6 Hl]|[Hin Hl]]); exists m; split; auto.
  - left. split; auto. intros u [->|[->|Hu]]; apply Hl; simpl; auto.
  - right. split; [destruct Hin as [->|[->|?]]; simpl; auto|]. intros u [->|[->|Hu]]; apply Hl; simpl; auto.
Qed.

Lemma segs_pop (stk : list (option (Z * Z))) n : stkfit n stk ->
  (stk = [None] /\ segs stk = []) \/ (exists s stk', stk = Some s :: stk' /\ segs stk = s :: segs stk' /\ stkfit n stk' /\ ssize s * 2 ^ (zlen stk' - 1) <= n).
Proof.
  destruct stk as [|[s|] [|y stk]]; simpl; try tauto.
  intros [H1 H2]. right. exists s, (y :: stk). auto.
Qed.

Lemma qstep_spec {A} `{Dflt A} cmp stksiz (a0 : list A) n st :
  strict_weak_order cmp -> 2 <= stksiz -> n < 2 ^ (stksiz - 1) ->
  qinv cmp a0 n st ->
  wp (qstep cmp stksiz st) (fun x => match x with
    | inl st' => qinv cmp a0 n st' /\
        (let '(_, lo, hi, stk) := st in let '(_, lo', hi', stk') := st' in
         0 <= mass ((lo', hi') :: segs stk') < mass ((lo, hi) :: segs stk))
    | inr a => Permutation a0 a /\ zlen a = n /\ minin cmp a MAX_THRESH end) noerr.
Proof.
  intros W Hst Hn. destruct st as [[[a lo] hi] stk]. intros (P0 & Hz & Hok & Hd & Hfit & Hsz & Hmin).
  unfold qstep. pose proof Hok as Hok'. inversion Hok' as [|? ? Hcur Hrest]; subst x l.
  unfold segok, MAX_THRESH in Hcur; cbn [fst snd] in Hcur.
  eapply wp_bind, wp_mono; [apply (partition_spec cmp a lo hi); auto; lia|].
  intros [[a' lft] rgt] (P & H1 & H2 & H3 & H4 & H5 & p & HL & HR).
  assert (PP : Permutation a0 a'). { etransitivity; [apply P0|apply P]. }
  assert (Hz' : zlen a' = n). { destruct P as (_ & -> & _); auto. }
  destruct (mininv_part cmp a a' n lo hi lft rgt p (segs stk)) as [M1 M2]; auto.
  destruct Hd as [Hd Hd'].
  pose proof (stkfit_len _ _ Hfit) as Hlen.
  pose proof (pow_pos (zlen stk - 1) ltac:(lia)) as Hpow.
  pose proof (mass_nonneg n _ Hrest) as Hmass.
  assert (Hdl : forall t, In t (segs stk) -> hi < fst t \/ snd t < lft).
  { intros t Ht. specialize (Hd t Ht); cbn [fst snd] in Hd. lia. }
  assert (Hdr : forall t, In t (segs stk) -> rgt < fst t \/ snd t < lo).
  { intros t Ht. specialize (Hd t Ht); cbn [fst snd] in Hd. lia. }
  assert (Hpush : forall x, push stksiz stk x = Ok (x :: stk)).
  { intros x. apply (push_fit n stksiz stk lo hi); auto. unfold MAX_THRESH; lia. }
  unfold ssize in Hsz; cbn [fst snd] in Hsz.
  destruct (small (rgt - lo)) eqn:Sr.
  - apply small_true in Sr. specialize (M2 ltac:(lia)).
    destruct (small (hi - lft)) eqn:Sl.
    + apply mininv_drop in M2; [|cbn [fst]; lia].
      destruct (segs_pop _ _ Hfit) as [[-> E]|(s & stk' & -> & E & Hf' & Hs')].
      * cbn [wp]. rewrite E in *. split; auto. split; auto.
        destruct M2 as (m & Hm & [[H6 _]|[[] _]]). eapply minin_mono; [apply H6|auto].
      * destruct s as [lo' hi']. cbn [wp]. rewrite E in *. split; [|].
        -- repeat split; auto. ++ apply Hd'. ++ apply Hd'.
        -- rewrite !mass_cons. unfold ssize in *; cbn [fst snd] in *.
           apply Forall_cons_iff in Hrest as [Hs0 Hr0]. pose proof (mass_nonneg n _ Hr0). unfold segok, MAX_THRESH in Hs0; cbn [fst snd] in Hs0. lia.
    + apply small_false in Sl; [|lia]. cbn [wp]. split.
      * repeat split; auto; cbn [fst snd]; try lia.
        -- constructor; auto. unfold segok, MAX_THRESH in *; cbn [fst snd]; lia.
        -- unfold ssize; cbn [fst snd]. nia.
      * rewrite !mass_cons. unfold ssize in *; cbn [fst snd] in *.
        unfold MAX_THRESH in *. lia.
  - apply small_false in Sr; [|lia].
    destruct (small (hi - lft)) eqn:Sl.
    + apply mininv_swap, mininv_drop in M1; [|cbn [fst]; lia].
      cbn [wp]. split.
      * repeat split; auto; cbn [fst snd]; try lia.
        -- constructor; auto. unfold segok, MAX_THRESH in *; cbn [fst snd]; lia.
        -- unfold ssize; cbn [fst snd]. nia.
      * rewrite !mass_cons. unfold ssize in *; cbn [fst snd] in *.
        unfold MAX_THRESH in *. lia.
    + apply small_false in Sl; [|lia].
      assert (Okl : segok n (lft, hi)) by (unfold segok, MAX_THRESH in *; cbn [fst snd]; lia).
      assert (Okr : segok n (lo, rgt)) by (unfold segok, MAX_THRESH in *; cbn [fst snd]; lia).
      assert (E2 : 2 ^ (zlen stk) = 2 * 2 ^ (zlen stk - 1)).
      { replace (zlen stk) with (Z.succ (zlen stk - 1)) at 1 by lia. rewrite Z.pow_succ_r; lia. }
      destruct (Z.ltb_spec (hi - lft) (rgt - lo)); rewrite Hpush; cbn [bind wp segs].
      * split.
        -- unfold qinv; cbn [segs]. split; auto. split; auto. split; [repeat (constructor; auto)|]. split.
           { cbn [disj]. split; [|split; auto]. intros t [<-|Ht]; cbn [fst snd]; [lia|]. auto. }
           split. { cbn [stkfit]. unfold ssize; cbn [fst snd]. split; auto. nia. }
           split. { rewrite zlen_cons. replace (1 + zlen stk - 1) with (zlen stk) by lia. rewrite E2.
                    unfold ssize; cbn [fst snd]. nia. }
           now apply mininv_swap.
        -- rewrite !mass_cons. unfold ssize in *; cbn [fst snd] in *. lia.
      * split.
        -- unfold qinv; cbn [segs]. split; auto. split; auto. split; [repeat (constructor; auto)|]. split.
           { cbn [disj]. split; [|split; auto]. intros t [<-|Ht]; cbn [fst snd]; [lia|]. auto. }
           split. { cbn [stkfit]. unfold ssize; cbn [fst snd]. split; auto. nia. }
           split. { rewrite zlen_cons. replace (1 + zlen stk - 1) with (zlen stk) by lia. rewrite E2.
                    unfold ssize; cbn [fst snd]. nia. }
           auto.
        -- rewrite !mass_cons. unfold ssize in *; cbn [fst snd] in *. lia.
Qed.
