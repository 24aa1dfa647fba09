(** Coarsening of target architectures by matching: each routine. *)
From Verif Require Import Base M_Arch S_Arch M_ArchMatch S_ArchMatch P_ArchMatch.

Lemma rounds_ok {S : Type} (mate : S -> res (Z * S)) (mtf : S -> list (Z * Z)) (I : Z -> S -> Prop) :
  (forall n st, I n st -> 1 <= n /\ (n = 1 /\ mate st = Err (-1) \/
     exists c st', mate st = Ok (c, st') /\ I c st' /\ groups n (mtf st') c /\ c < n <= 2 * c)) ->
  forall k n st, I n st -> n <= Z.of_nat k -> exists ms, rounds mate mtf st k = Ok ms /\ chain n ms.
Proof.
  intros HI. induction k as [|k IH]; intros n st Hn Hk.
  - apply HI in Hn. lia.
  - destruct (HI _ _ Hn) as (H1 & [[-> E]|(c & st' & E & Hc & G & B)]); cbn [rounds]; rewrite E.
    + exists []. split; reflexivity.
    + destruct (IH c st' Hc ltac:(lia)) as (ms & E2 & C). rewrite E2. cbn [bind]. eexists. split; [reflexivity|].
      cbn [chain]. auto.
Qed.

(** pairs written at the index of the loop *)
Lemma pairs2_ok m mt : 0 <= m <= zlen mt ->
  exists mt', for_ 0 m (fun i '(mt, f) => do mt <- wr 0 mt i (f, f + 1); Ok (mt, f + 2)) (mt, 0) = Ok (mt', 2 * m) /\
    zlen mt' = zlen mt /\ forall k, 0 <= k < m -> at_ 0 mt' k = (2 * k, 2 * k + 1).
Proof.
  intros Hm.
  destruct (wp_ok_inv (for_ 0 m (fun i '(mt, f) => do mt <- wr 0 mt i (f, f + 1); Ok (mt, f + 2)) (mt, 0))
    (fun s => let '(mt', f') := s in f' = 2 * m /\ zlen mt' = zlen mt /\ forall k, 0 <= k < m -> at_ 0 mt' k = (2 * k, 2 * k + 1)))
    as ([mt' f'] & E & -> & H); [|eauto].
  apply wp_for with (I := fun q s => let '(mt', f') := s in f' = 2 * q /\ zlen mt' = zlen mt /\ forall k, 0 <= k < q -> at_ 0 mt' k = (2 * k, 2 * k + 1)); [lia| | |].
  - repeat split; auto; lia.
  - intros q [mt' f'] Hq (-> & Z1 & K). rewrite wr_ok by lia. cbn [bind wp]. rewrite zlen_upd.
    split; [lia|]. split; [exact Z1|]. intros k Hk. rewrite at_upd by lia. destruct (Z.eqb_spec q k) as [->|E]; [reflexivity|apply K; lia].
  - intros [mt' f'] H. exact H.
Qed.

(** ** Hypercube *)
Definition hinv (n : Z) (st : multi * Z) : Prop := exists j, 0 <= j /\ n = 2 ^ j /\ snd st = n /\ Z.shiftr n 1 <= zlen (fst st).

Lemma hcub_step n st : hinv n st -> 1 <= n /\ (n = 1 /\ archHcubMatchMate st = Err (-1) \/
  exists c st', archHcubMatchMate st = Ok (c, st') /\ hinv c st' /\ groups n (fst st') c /\ c < n <= 2 * c).
Proof.
  destruct st as [mt v]. intros (j & Hj & En & Ev & Hl). cbn [fst snd] in *. subst v. split; [lia|].
  unfold archHcubMatchMate. destruct (Z.eq_dec j 0) as [->|Hj0].
  - left. subst n. split; reflexivity.
  - right. assert (E2 : n = 2 * 2 ^ (j - 1)) by (rewrite <- Z.pow_succ_r by lia; rewrite En; f_equal; lia).
    assert (Eh : Z.shiftr n 1 = 2 ^ (j - 1)) by (half n h; lia).
    rewrite Eh in *. set (h := 2 ^ (j - 1)) in *. assert (0 < h) by (apply Z.pow_pos_nonneg; lia).
    destruct (Z.leb_spec h 0); [lia|]. destruct (pairs2_ok h mt ltac:(lia)) as (mt' & E & Z1 & K). rewrite E. cbn [bind].
    eexists _, _. split; [reflexivity|]. split; [|split].
    + exists (j - 1). cbn [fst snd]. rewrite Z1. split; [lia|]. split; [reflexivity|]. split; [reflexivity|].
      half h h'. lia.
    + cbn [fst]. replace n with (1 * n * 1) by lia. apply grid_groups with (first := true); try lia.
      assert (Eo : Z.odd n = false) by (half n h'; lia || (destruct H0 as [[? ?]|[? ?]]; [assumption|lia])).
      assert (Ed : (n + 1) / 2 = h) by (half (n + 1) h'; lia).
      split; [lia|]. rewrite Ed. intros u i r Hu Hi Hr. assert (u = 0) as -> by lia. assert (r = 0) as -> by lia.
      replace ((0 * h + i) * 1 + 0) with i by lia. rewrite K by lia. unfold mates. rewrite Eo. cbn [andb fst snd]. f_equal; lia.
    + lia.
Qed.

Lemma hcub_init n : 0 <= n < 31 -> exists st, archHcubMatchInit n = Ok st /\ hinv (2 ^ n) st.
Proof.
  intros Hn. unfold archHcubMatchInit, shl1. destruct (Z.leb_spec 0 n); [|lia]. destruct (Z.ltb_spec n 31); [|lia]. cbn [andb bind].
  eexists. split; [reflexivity|]. exists n. cbn [fst snd]. split; [lia|]. split; [reflexivity|]. split; [reflexivity|].
  unfold mult0. rewrite zlen_repeat. lia.
Qed.

(** ** Complete graph *)
Definition cinv (n : Z) (st : list (Z * Z) * Z * Z) : Prop := let '(mt, v, p) := st in v = n /\ p = 0 /\ 1 <= n /\ Z.shiftr (n + 1) 1 <= zlen mt.

Lemma cmplt_step n st : cinv n st -> 1 <= n /\ (n = 1 /\ archCmpltMatchMate st = Err (-1) \/
  exists c st', archCmpltMatchMate st = Ok (c, st') /\ cinv c st' /\ groups n (fst (fst st')) c /\ c < n <= 2 * c).
Proof.
  destruct st as [[mt v] p]. intros (-> & -> & Hn & Hl). split; [lia|]. unfold archCmpltMatchMate.
  destruct (Z.leb_spec n 1).
  - left. split; [lia|reflexivity].
  - right. rewrite Z.land_0_r. cbn [Z.eqb negb bind]. change (Z.lxor 0 1) with 1.
    half n h. half (n + 1) h'. rewrite H2. destruct (pairs2_ok h mt ltac:(lia)) as (mt' & E & Z1 & K). rewrite E. cbn [bind].
    rewrite Z.max_r by lia. destruct H0 as [[En Eo]|[En Eo]]; rewrite H3, Eo; cbn [Z.eqb negb bind].
    + eexists _, _. split; [reflexivity|]. split; [|split].
      * split; [reflexivity|]. split; [reflexivity|]. split; [lia|]. rewrite Z1. half (h + 1) h2. lia.
      * cbn [fst]. replace n with (1 * n * 1) by lia. apply grid_groups with (first := false); try lia.
        split; [lia|]. intros u i r Hu Hi Hr. assert (u = 0) as -> by lia. assert (r = 0) as -> by lia.
        replace ((0 * ((n + 1) / 2) + i) * 1 + 0) with i by lia. rewrite K by lia. unfold mates. rewrite Eo. cbn [andb fst snd]. f_equal; lia.
      * lia.
    + rewrite wr_ok by lia. cbn [bind]. eexists _, _. split; [reflexivity|]. split; [|split].
      * split; [reflexivity|]. split; [reflexivity|]. split; [lia|]. rewrite zlen_upd, Z1. half (h + 1 + 1) h2. lia.
      * cbn [fst]. replace n with (1 * n * 1) by lia. apply grid_groups with (first := false); rewrite ?zlen_upd; try lia.
        split; [lia|]. intros u i r Hu Hi Hr. assert (u = 0) as -> by lia. assert (r = 0) as -> by lia.
        replace ((0 * ((n + 1) / 2) + i) * 1 + 0) with i by lia. rewrite at_upd by lia. unfold mates. rewrite Eo. cbn [andb].
        rewrite H1. rewrite Z.eqb_sym. destruct (Z.eqb_spec i h) as [->|Hne]; cbn [fst snd]; [f_equal; lia|]. rewrite K by lia. f_equal; lia.
      * lia.
Qed.

(** ** Products *)
Lemma prod_app a b : prod (a ++ b) = prod a * prod b.
Proof. induction a as [|x a IH]; cbn [app prod]; [lia|]. rewrite IH. lia. Qed.
Lemma firstn_at (c : list Z) k : 0 <= k < zlen c -> firstn (Z.to_nat (k + 1)) c = firstn (Z.to_nat k) c ++ [at_ 0 c k].
Proof.
  intros Hk. replace (Z.to_nat (k + 1)) with (S (Z.to_nat k)) by lia. unfold at_. rewrite Z.sub_0_r.
  assert (H : (Z.to_nat k < length c)%nat) by (unfold zlen in Hk; lia). revert H. generalize (Z.to_nat k). clear.
  intros m. revert c. induction m; intros [|x c] H; cbn [length] in H; try lia; [reflexivity|].
  cbn [nth app]. rewrite firstn_cons. rewrite IHm by lia. reflexivity.
Qed.
Lemma for_prod c lo hi x : 0 <= lo <= hi -> hi <= zlen c ->
  exists y, for_ lo hi (fun i s => do z <- rd 0 c i; Ok (s * z)) x = Ok y /\ y * prod (firstn (Z.to_nat lo) c) = x * prod (firstn (Z.to_nat hi) c) /\
    y = x * prod (skipn (Z.to_nat lo) (firstn (Z.to_nat hi) c)).
Proof.
  intros Hlo Hhi.
  assert (Hs : forall q, lo <= q < hi -> skipn (Z.to_nat lo) (firstn (Z.to_nat (q + 1)) c) = skipn (Z.to_nat lo) (firstn (Z.to_nat q) c) ++ [at_ 0 c q]).
  { intros q Hq. rewrite firstn_at by lia. rewrite skipn_app. f_equal.
    rewrite firstn_length. replace (Z.to_nat lo - Nat.min (Z.to_nat q) (length c))%nat with O; [reflexivity|]. unfold zlen in *. lia. }
  destruct (wp_ok_inv (for_ lo hi (fun i s => do z <- rd 0 c i; Ok (s * z)) x) (fun y => y = x * prod (skipn (Z.to_nat lo) (firstn (Z.to_nat hi) c)))) as (y & E & Hy).
  - apply wp_for with (I := fun q y => y = x * prod (skipn (Z.to_nat lo) (firstn (Z.to_nat q) c))); [lia| | |auto].
    + rewrite skipn_all2; [cbn [prod]; lia|]. rewrite firstn_length. lia.
    + intros q y Hq ->. rewrite rd_ok by lia. cbn [bind wp]. rewrite Hs by lia. rewrite prod_app. cbn [prod]. lia.
  - exists y. split; [exact E|]. split; [|exact Hy]. rewrite Hy.
    rewrite <- (firstn_skipn (Z.to_nat lo) (firstn (Z.to_nat hi) c)) at 2. rewrite prod_app, firstn_firstn.
    rewrite Nat.min_l by lia. lia.
Qed.
Lemma prod_pos c : Forall (fun z => 1 <= z) c -> 1 <= prod c.
Proof. induction 1; cbn [prod]; nia. Qed.
