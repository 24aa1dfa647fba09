(** Proofs about weighted complete graph architectures. *)
From Verif Require Import Base Mem M_Int S_Int P_Int M_Sort S_Sort P_Sort P_Sort2 M_Arch S_Arch P_Arch P_Mesh P_Tleaf M_Cmpltw S_Cmpltw.

Lemma skipn_upd_at {A} (a : list A) i v : 0 <= i < zlen a ->
  skipn (Z.to_nat i) (upd 0 a i v) = v :: skipn (Z.to_nat (i + 1)) a.
Proof.
  intros Hi. unfold upd. rewrite Z.sub_0_r. replace (Z.to_nat (i + 1)) with (S (Z.to_nat i)) by lia.
  assert (Hl : (Z.to_nat i < length a)%nat) by (unfold zlen in *; lia). revert Hl. generalize (Z.to_nat i). clear.
  induction a; intros n Hl; simpl in *; [lia|]. destruct n; simpl; auto. apply IHa. lia.
Qed.

Lemma firstn_upd_le {A} (a : list A) m i v : 0 <= m <= i -> firstn (Z.to_nat m) (upd 0 a i v) = firstn (Z.to_nat m) a.
Proof.
  intros Hi. unfold upd. rewrite Z.sub_0_r.
  assert (Hl : (Z.to_nat m <= Z.to_nat i)%nat) by lia. revert Hl. generalize (Z.to_nat i) (Z.to_nat m). clear.
  induction a; intros n m Hl; destruct n; simpl; auto. { now replace m with O by lia. }
  destruct m; simpl; auto. f_equal. apply IHa. lia.
Qed.

Lemma firstn_all_z {A} (l : list A) n : zlen l <= n -> firstn (Z.to_nat n) l = l.
Proof. intros. apply firstn_all2. unfold zlen in *. lia. Qed.
Lemma skipn_all_z {A} (l : list A) n : zlen l <= n -> skipn (Z.to_nat n) l = [].
Proof. intros. apply skipn_all2. unfold zlen in *. lia. Qed.

Lemma Permutation_zlen {A} (l l' : list A) : Permutation l l' -> zlen l = zlen l'.
Proof. intros P. unfold zlen. now rewrite (Permutation_length P). Qed.

Definition positive (t : list (Z * Z)) : Prop := Forall (fun x => 1 <= fst x) t.

Lemma build3_spec fuel : forall ve vs n, 2 < n <= Z.of_nat fuel -> zlen ve = n -> zlen vs = n -> positive ve ->
  exists ve', archCmpltwArchBuild3 fuel ve vs n = Ok ve' /\ Permutation ve ve'.
Proof.
  induction fuel as [|f IH]; intros ve vs n Hn Lv Ls HP; [lia|].
  cbn [archCmpltwArchBuild3]. rewrite rd_ok by lia. cbn [bind].
  destruct (wp_ok_inv (for_ 0 (n - 1) (fun k => wdistr k n) (ve, vs, n - 2, n - 1, fst (at_ 0 ve (n - 1)), 0))
    (fun '(ve', vs', v0, v1, s0, s1) => zlen ve' = n /\ zlen vs' = n /\ 0 <= v0 < n - 1 /\ 0 <= v1 < n - 1 /\
       v0 + v1 = n - 2 /\ Permutation ve (skipn (Z.to_nat (v0 + 1)) ve' ++ skipn (Z.to_nat (v1 + 1)) vs')))
    as ([[[[[ve' vs'] v0] v1] s0] s1] & -> & L' & Ls' & H0 & H1 & Hs & HPm).
  { apply wp_for with (I := fun k '(ve', vs', v0, v1, s0, s1) =>
      zlen ve' = n /\ zlen vs' = n /\ n - 2 - k <= v0 <= n - 2 /\ v1 <= n - 1 /\ v0 + v1 = 2 * n - 3 - k /\
      (k = 0 -> s1 < s0) /\ (0 < k -> v1 < n - 1) /\
      firstn (Z.to_nat (n - 1 - k)) ve' = firstn (Z.to_nat (n - 1 - k)) ve /\
      Permutation (skipn (Z.to_nat (n - 1 - k)) ve) (skipn (Z.to_nat (v0 + 1)) ve' ++ skipn (Z.to_nat (v1 + 1)) vs')).
    - lia.
    - split; [auto|]. split; [auto|]. split; [lia|]. split; [lia|]. split; [lia|]. split.
      { intros _. unfold positive in HP. rewrite Forall_forall in HP. pose proof (HP (at_ 0 ve (n - 1)) (at_In 0 ve (n - 1) ltac:(lia))). lia. }
      split; [lia|]. split; [auto|]. replace (n - 2 + 1) with (n - 1 - 0) by lia.
      rewrite (skipn_all_z vs) by lia. now rewrite app_nil_r.
    - intros k [[[[[ve' vs'] v0] v1] s0] s1] Hk (A1 & A2 & A3 & A4 & A5 & A6 & A7 & A8 & A9). unfold wdistr.
      rewrite rd_ok by lia. cbn [bind]. set (x := at_ 0 ve' (n - 2 - k)).
      assert (Ex : x = at_ 0 ve (n - 2 - k)).
      { unfold x. rewrite <- (at_firstn 0 ve' (n - 1 - k) (n - 2 - k)) by lia. rewrite A8.
        now rewrite at_firstn by lia. }
      assert (F8 : firstn (Z.to_nat (n - 2 - k)) ve' = firstn (Z.to_nat (n - 2 - k)) ve).
      { replace (Z.to_nat (n - 2 - k)) with (min (Z.to_nat (n - 2 - k)) (Z.to_nat (n - 1 - k))) by lia.
        rewrite <- !firstn_firstn. now rewrite A8. }
      assert (S9 : skipn (Z.to_nat (n - 2 - k)) ve = x :: skipn (Z.to_nat (n - 1 - k)) ve).
      { rewrite (skipn_cons_at ve (n - 2 - k)) by lia. rewrite <- Ex. do 3 f_equal. lia. }
      destruct (Z.ltb_spec s1 s0) as [Hs|Hs].
      + rewrite wr_ok by lia. cbn [bind wp]. rewrite zlen_upd.
        replace (n - 1 - (k + 1)) with (n - 2 - k) by lia.
        split; [auto|]. split; [auto|]. split; [lia|]. split; [lia|]. split; [lia|]. split; [lia|]. split; [lia|]. split; [auto|].
        replace (v1 - 1 + 1) with v1 by lia. rewrite skipn_upd_at by lia. rewrite S9, A9. apply Permutation_middle.
      + destruct (Z.eq_dec k 0); [lia|].
        rewrite wr_ok by lia. cbn [bind wp]. rewrite zlen_upd.
        replace (n - 1 - (k + 1)) with (n - 2 - k) by lia.
        split; [auto|]. split; [auto|]. split; [lia|]. split; [lia|]. split; [lia|]. split; [lia|]. split; [lia|].
        split; [rewrite firstn_upd_le by lia; auto|].
        replace (v0 - 1 + 1) with v0 by lia. rewrite skipn_upd_at by lia. rewrite S9, A9. reflexivity.
    - intros [[[[[ve' vs'] v0] v1] s0] s1] (A1 & A2 & A3 & A4 & A5 & A6 & A7 & A8 & A9).
      split; [auto|]. split; [auto|]. split; [lia|]. split; [lia|]. split; [lia|].
      replace (n - 1 - (n - 1)) with 0 in A9 by lia. exact A9. }
  cbn [bind].
  assert (L0 : zlen (skipn (Z.to_nat (v0 + 1)) ve') = n - v0 - 1) by (rewrite zlen_skipn; lia).
  assert (L1 : zlen (skipn (Z.to_nat (v1 + 1)) vs') = n - v1 - 1) by (rewrite zlen_skipn; lia).
  match goal with |- exists ve'0, bind ?r _ = _ /\ _ => 
    assert (HM : exists v n0 n1, r = Ok (v, n0, n1) /\ zlen v = n /\ 1 <= n0 < n /\ n1 = n - n0 /\ Permutation ve v) end.
  { destruct (Z.leb_spec s1 s0).
    - rewrite memcp_ok by lia. cbn [bind]. change (Z.to_nat 0) with O. cbn [firstn app].
      replace (n - (n - v0 - 1)) with (v0 + 1) by lia. rewrite Z.add_0_l.
      rewrite (firstn_all_z (skipn (Z.to_nat (v0 + 1)) ve')) by lia.
      assert (LL : zlen (skipn (Z.to_nat (v0 + 1)) ve' ++ skipn (Z.to_nat (n - v0 - 1)) ve') = n).
      { rewrite zlen_app, L0, zlen_skipn by lia. lia. }
      rewrite memcp_ok by (rewrite ?LL; lia). cbn [bind]. eexists _, _, _. split; [reflexivity|].
      rewrite (skipn_all_z _ (n - v0 - 1 + (v0 + 1))) by (rewrite LL; lia). rewrite app_nil_r.
      replace (n - v0 - 1) with (v1 + 1) by lia.
      rewrite (firstn_all_z (skipn (Z.to_nat (v1 + 1)) vs')) by lia.
      rewrite firstn_app. rewrite (firstn_all_z (skipn (Z.to_nat (v0 + 1)) ve')) by lia.
      replace (Z.to_nat (v1 + 1) - length (skipn (Z.to_nat (v0 + 1)) ve'))%nat with O by (unfold zlen in L0; lia).
      rewrite firstn_O, app_nil_r. split; [rewrite zlen_app; lia|]. split; [lia|]. split; [lia|auto].
    - rewrite memcp_ok by lia. cbn [bind]. eexists _, _, _. split; [reflexivity|].
      change (Z.to_nat 0) with O. cbn [firstn app]. rewrite Z.add_0_l.
      replace (n - (n - v1 - 1)) with (v1 + 1) by lia.
      rewrite (firstn_all_z (skipn (Z.to_nat (v1 + 1)) vs')) by lia.
      replace (n - v1 - 1) with (v0 + 1) by lia.
      split; [rewrite zlen_app; lia|]. split; [lia|]. split; [lia|]. rewrite HPm. apply Permutation_app_comm. }
  destruct HM as (v & n0 & n1 & -> & Lw & Hn0 & -> & Pv). cbn [bind].
  assert (PP : positive v) by (unfold positive in *; rewrite Forall_forall in *; intros x Hx; apply HP; eapply Permutation_in; [symmetry; eauto|auto]).
  assert (G : forall b ve1 vs1 n1, zlen ve1 = n1 -> zlen vs1 = n1 -> n1 < n -> positive ve1 -> b = (2 <? n1) ->
    exists v1, (if b then archCmpltwArchBuild3 f ve1 vs1 n1 else Ok ve1) = Ok v1 /\ Permutation ve1 v1).
  { intros b ve1 vs1 m M1 M2 M3 M4 ->. destruct (Z.ltb_spec 2 m); [|eauto]. apply IH; auto. lia. }
  rewrite <- (firstn_skipn (Z.to_nat n0) v) in PP. apply Forall_app in PP as [PP1 PP2].
  destruct (G (2 <? n0) (firstn (Z.to_nat n0) v) (firstn (Z.to_nat n0) vs') n0) as (w0 & -> & W0); auto; try lia.
  { rewrite zlen_firstn; lia. } { rewrite zlen_firstn; lia. }
  cbn [bind].
  destruct (G (2 <? n - n0) (skipn (Z.to_nat n0) v) (skipn (Z.to_nat n0) vs') (n - n0)) as (w1 & -> & W1); auto; try lia.
  { rewrite zlen_skipn; lia. } { rewrite zlen_skipn; lia. }
  cbn [bind]. eexists; split; [reflexivity|]. rewrite Pv, <- (firstn_skipn (Z.to_nat n0) v). now apply Permutation_app.
Qed.

Lemma build2_spec stksiz jk a : 32 <= stksiz -> w_nbr a = zlen (w_tab a) -> w_nbr a < 2 ^ (stksiz - 1) -> positive (w_tab a) ->
  exists t, archCmpltwArchBuild2 stksiz jk a = Ok (mkw (w_nbr a) t (w_sum a)) /\ Permutation (w_tab a) t.
Proof.
  intros Hs Hn Hb HP. unfold archCmpltwArchBuild2. destruct (Z.ltb_spec (w_nbr a) 3).
  { exists (w_tab a). destruct a; auto. }
  rewrite Hn in *. destruct (intSort_spec cmp2 stksiz (w_tab a) (zlen (w_tab a)) swo_cmp2) as (t & E & Pt & _); auto; [lia|].
  unfold intSort2asc2. rewrite E. cbn [bind]. pose proof (Permutation_zlen _ _ Pt).
  destruct (build3_spec (Z.to_nat (zlen (w_tab a))) t (repeat jk (Z.to_nat (zlen (w_tab a)))) (zlen (w_tab a))) as (t' & -> & P').
  - lia.
  - lia.
  - rewrite zlen_repeat. lia.
  - unfold positive in *. rewrite Forall_forall in *. intros x Hx. apply HP. eapply Permutation_in; [symmetry; eauto|auto].
  - cbn [bind]. exists t'. split; [auto|]. now rewrite Pt.
Qed.

Lemma sumz_app l l' : sumz (l ++ l') = sumz l + sumz l'.
Proof. induction l; cbn [sumz app]; lia. Qed.

Lemma combine_snoc {A B} (l : list A) (l' : list B) x y : length l = length l' ->
  combine (l ++ [x]) (l' ++ [y]) = combine l l' ++ [(x, y)].
Proof. revert l'. induction l; intros [|]; simpl; intros; try lia; auto. f_equal. apply IHl. lia. Qed.

Lemma combine_positive l l' : Forall (fun v => 1 <= v) l -> positive (combine l l').
Proof. intros F. revert l'. induction F; intros [|]; simpl; constructor; auto. apply IHF. Qed.

Lemma zlen_combine {A B} (l : list A) (l' : list B) : zlen l = zlen l' -> zlen (combine l l') = zlen l.
Proof. unfold zlen. rewrite combine_length. lia. Qed.

Lemma firstn_len {A} (l : list A) k : 0 <= k <= zlen l -> length (firstn (Z.to_nat k) l) = Z.to_nat k.
Proof. intros. rewrite firstn_length. unfold zlen in *. lia. Qed.
Lemma zseq_len b k : length (zseq b k) = Z.to_nat k.
Proof. unfold zseq. rewrite map_length, seq_length. auto. Qed.

Lemma build_spec stksiz jk loads : 32 <= stksiz -> 1 <= zlen loads < 2 ^ (stksiz - 1) -> Forall (fun v => 1 <= v) loads ->
  exists a, archCmpltwArchBuild stksiz jk (zlen loads) loads = Ok a /\
    archCmpltwArchBuild2 stksiz jk (mkw (zlen loads) (combine loads (zseq 0 (zlen loads))) (sumz loads)) = Ok a /\ wtable loads a.
Proof.
  intros Hs Hn HF. unfold archCmpltwArchBuild. destruct (Z.leb_spec (zlen loads) 0); [lia|].
  match goal with |- exists a, bind ?r _ = _ /\ _ => assert (E : r = Ok (combine loads (zseq 0 (zlen loads)), sumz loads)) end.
  { match goal with |- ?r = Ok ?v => destruct (wp_ok_inv r (fun s => s = v)) as (x & -> & ->); [|reflexivity] end.
    apply wp_for with (I := fun k '(t, s) => t = combine (firstn (Z.to_nat k) loads) (zseq 0 k) /\ s = sumz (firstn (Z.to_nat k) loads)).
    - lia.
    - split; reflexivity.
    - intros k [t s] Hk [-> ->]. rewrite rd_ok by lia. cbn [bind]. rewrite Forall_forall in HF.
      pose proof (HF (at_ 0 loads k) (at_In 0 loads k ltac:(lia))). destruct (Z.leb_spec (at_ 0 loads k) 0); [lia|]. cbn [wp].
      rewrite firstn_snoc_at by lia. rewrite zseq_snoc by lia. rewrite combine_snoc by (rewrite firstn_len, zseq_len; lia).
      rewrite sumz_app. cbn [sumz]. rewrite !Z.add_0_l. split; [auto|lia].
    - intros [t s] [-> ->]. rewrite firstn_all_z by lia. reflexivity. }
  rewrite E. cbn [bind].
  assert (LL : zlen (combine loads (zseq 0 (zlen loads))) = zlen loads) by (apply zlen_combine; rewrite zlen_zseq; lia).
  destruct (build2_spec stksiz jk (mkw (zlen loads) (combine loads (zseq 0 (zlen loads))) (sumz loads))) as (t & -> & P); cbn [w_nbr w_tab w_sum].
  - auto.
  - lia.
  - lia.
  - now apply combine_positive.
  - eexists; split; [reflexivity|]. split; [reflexivity|]. cbn [w_nbr w_tab w_sum] in *. unfold wtable; cbn. auto.
Qed.

Section W.
Context (loads : list Z) (a : cmpltw) (HT : wtable loads a) (HF : Forall (fun v => 1 <= v) loads) (Hl : 1 <= zlen loads).
Notation n := (zlen loads).
Notation cell := (at_ 0 (w_tab a)).

Lemma w_n : w_nbr a = n. Proof. apply HT. Qed.
Lemma w_len : zlen (w_tab a) = n.
Proof. destruct HT as (_ & _ & P). rewrite <- (Permutation_zlen _ _ P). apply zlen_combine. rewrite zlen_zseq; lia. Qed.

Lemma at_combine i : 0 <= i < n -> at_ 0 (combine loads (zseq 0 n)) i = (at_ 0 loads i, i).
Proof.
  intros Hi. unfold at_. change (@dflt (Z * Z) _) with (0, 0). rewrite combine_nth.
  - f_equal. change (at_ 0 (zseq 0 n) i = i). rewrite at_zseq by lia. lia.
  - rewrite zseq_len. unfold zlen. lia.
Qed.

Lemma w_cell i : 0 <= i < n -> 0 <= snd (cell i) < n /\ fst (cell i) = at_ 0 loads (snd (cell i)).
Proof.
  intros Hi. destruct HT as (_ & _ & P).
  assert (I : In (cell i) (combine loads (zseq 0 n))).
  { eapply Permutation_in; [symmetry; apply P|]. apply at_In. rewrite w_len. lia. }
  apply (In_at 0) in I. destruct I as (j & Hj & E). rewrite zlen_combine in Hj by (rewrite zlen_zseq; lia).
  rewrite at_combine in E by lia. rewrite <- E. cbn. split; [lia|auto].
Qed.

Lemma map_snd_combine {A B} (l : list A) (l' : list B) : length l = length l' -> map snd (combine l l') = l'.
Proof. revert l'. induction l; intros [|]; simpl; intros; try lia; auto. f_equal. apply IHl. lia. Qed.
Lemma map_fst_combine {A B} (l : list A) (l' : list B) : length l = length l' -> map fst (combine l l') = l.
Proof. revert l'. induction l; intros [|]; simpl; intros; try lia; auto. f_equal. apply IHl. lia. Qed.

Lemma w_labels : Permutation (zseq 0 n) (map snd (w_tab a)).
Proof.
  destruct HT as (_ & _ & P). apply (Permutation_map snd) in P. rewrite map_snd_combine in P; auto.
  rewrite zseq_len. unfold zlen. lia.
Qed.

Lemma w_inj i j : 0 <= i < n -> 0 <= j < n -> snd (cell i) = snd (cell j) -> i = j.
Proof.
  intros Hi Hj E. pose proof w_len as L.
  assert (ND : NoDup (map snd (w_tab a))) by (eapply Permutation_NoDup; [apply w_labels|apply NoDup_zseq]).
  apply (proj2 (NoDup_at 0 _) ND); rewrite ?zlen_map; try lia. now rewrite !at_map by lia.
Qed.

Lemma w_surj t : 0 <= t < n -> exists i, 0 <= i < n /\ snd (cell i) = t.
Proof.
  intros Ht. pose proof w_len as L. assert (I : In t (map snd (w_tab a))) by (eapply Permutation_in; [apply w_labels|apply In_zseq; lia]).
  apply (In_at 0) in I. destruct I as (i & Hi & E). rewrite zlen_map in Hi. rewrite at_map in E by lia. exists i. split; [lia|auto].
Qed.

Lemma w_terms d : wwf a d -> exists l, NoDup l /\ (forall t, In t l <-> wmem a d t) /\ l = map (fun i => snd (cell i)) (zseq (wd_min d) (wd_nbr d)).
Proof.
  intros (W0 & W1 & W2 & W3). rewrite w_n in W2. eexists. split; [|split; [|reflexivity]].
  - assert (G : forall l, NoDup l -> (forall x, In x l -> 0 <= x < n) -> NoDup (map (fun i => snd (cell i)) l)).
    { induction 1 as [|x l Hx ND IH]; intros HR; simpl; constructor.
      - rewrite in_map_iff. intros (y & E & Hy). apply w_inj in E; [subst; auto| |]; apply HR; simpl; auto.
      - apply IH. intros; apply HR; simpl; auto. }
    apply G; [apply NoDup_zseq|]. intros x Hx. apply In_zseq in Hx. lia.
  - intros t. rewrite in_map_iff. unfold wmem. split.
    + intros (i & E & Hi). apply In_zseq in Hi. eauto.
    + intros (i & Hi & E). exists i. split; [auto|]. apply In_zseq. lia.
Qed.

Lemma w_sz d : wwf a d -> 1 <= wd_nbr d /\ card (wmem a d) (wd_nbr d).
Proof.
  intros W. destruct (w_terms d W) as (l & ND & I & E). destruct W as (W0 & W1 & W2 & W3). split; [auto|].
  exists l. split; [auto|]. split; [auto|]. subst l. rewrite zlen_map, zlen_zseq; lia.
Qed.

Lemma zsum_list f b k : 0 <= k -> zsum b (b + k) f = sumz (map f (zseq b k)).
Proof.
  intros Hk. pattern k. apply (zrange_ind _ 0); auto.
  - rewrite zsum_nil, zseq_0 by lia. reflexivity.
  - intros j Hj IH. rewrite zseq_snoc by lia. rewrite map_app, sumz_app, <- IH. replace (b + (j + 1)) with (b + j + 1) by lia.
    rewrite zsum_snoc by lia. cbn. lia.
Qed.

Lemma w_total d : wwf a d -> exists w, archCmpltwDomWght a d = Ok w /\ total loads (wmem a d) w.
Proof.
  intros W. eexists; split; [reflexivity|]. destruct (w_terms d W) as (l & ND & I & E). exists l. split; [auto|]. split; [auto|].
  destruct W as (W0 & W1 & W2 & ->). rewrite w_n in W2. rewrite zsum_list by lia. subst l. rewrite map_map. f_equal. apply map_ext_in. intros i Hi.
  apply In_zseq in Hi. apply w_cell. lia.
Qed.

Lemma sumz_perm l l' : Permutation l l' -> sumz l = sumz l'.
Proof. induction 1; cbn [sumz]; lia. Qed.

Lemma w_whole : zsum 0 n (fun i => fst (cell i)) = w_sum a.
Proof.
  destruct HT as (_ & -> & P). change (zsum 0 n (fun i => fst (cell i))) with (zsum 0 (0 + n) (fun i => fst (cell i))). rewrite zsum_list by lia.
  apply (Permutation_map fst) in P. rewrite map_fst_combine in P by (rewrite zseq_len; unfold zlen; lia).
  rewrite (sumz_perm _ _ P). f_equal. apply (at_ext 0).
  - now rewrite !zlen_map, zlen_zseq, w_len by lia.
  - intros i Hi. rewrite zlen_map, zlen_zseq in Hi by lia. pose proof w_len.
    rewrite (at_map 0 _ (zseq 0 n)) by (rewrite zlen_zseq; lia). rewrite at_zseq by lia. rewrite at_map by lia. do 2 f_equal. lia.
Qed.

Lemma w_frst : frst_ok n (wwf a) (wmem a) (archCmpltwDomFrst a).
Proof.
  eexists; split; [reflexivity|]. split.
  - split; cbn [wd_min wd_nbr wd_vel]; [lia|]. rewrite w_n. split; [lia|]. split; [lia|]. rewrite Z.add_0_l. symmetry. apply w_whole.
  - intros t. unfold wmem; cbn [wd_min wd_nbr]. rewrite w_n. split.
    + intros (i & Hi & <-). apply w_cell. lia.
    + intros Ht. apply w_surj in Ht. destruct Ht as (i & Hi & E). exists i. split; [lia|auto].
Qed.

Lemma w_size : size_ok (wwf a) (wmem a) (archCmpltwDomSize a).
Proof. intros d W. eexists; split; [reflexivity|]. apply (w_sz d W). Qed.

Lemma w_incl : incl_ok (wwf a) (wmem a) (archCmpltwDomIncl a).
Proof.
  intros d0 d1 (A0 & A1 & A2 & A3) (B0 & B1 & B2 & B3). rewrite w_n in *. eexists; split; [reflexivity|].
  rewrite andb_true_iff, !Z.leb_le. unfold wmem. split.
  - intros [C1 C2] t (i & Hi & E). exists i. split; [lia|auto].
  - intros H.
    assert (G : forall i, wd_min d1 <= i < wd_min d1 + wd_nbr d1 -> wd_min d0 <= i < wd_min d0 + wd_nbr d0).
    { intros i Hi. destruct (H (snd (cell i))) as (j & Hj & E); [eauto|]. apply w_inj in E; lia. }
    pose proof (G (wd_min d1) ltac:(lia)). pose proof (G (wd_min d1 + wd_nbr d1 - 1) ltac:(lia)). lia.
Qed.

Lemma w_bipart : bipart_ok (wwf a) (wmem a) (archCmpltwDomBipart a).
Proof.
  intros d m W C. destruct (w_sz d W) as [H1 C']. pose proof (card_unique _ _ _ C C') as ->.
  unfold archCmpltwDomBipart. split.
  { intros ->. destruct (Z.leb_spec 1 1); [auto|lia]. }
  intros Hm. destruct (Z.leb_spec (wd_nbr d) 1); [lia|]. destruct W as (W0 & W1 & W2 & W3). rewrite w_n in W2. pose proof w_len as L.
  rewrite rd_ok by lia. cbn [bind]. set (nn := wd_min d + wd_nbr d) in *.
  match goal with |- exists d0 d1, bind ?r _ = _ /\ _ => destruct (wp_ok_inv r (fun '(v, s1) => wd_min d <= v < nn - 1 /\ s1 = zsum (v + 1) nn (fun i => fst (cell i)))) as ([v s1] & -> & Hv & Es) end.
  { apply wp_loop with (I := fun '(v, s1) => wd_min d <= v < nn - 1 /\ s1 = zsum (v + 1) nn (fun i => fst (cell i))) (m := fun '(v, _) => v - wd_min d).
    - split; [unfold nn; lia|]. replace (nn - 1 - 1 + 1) with (nn - 1) by lia. rewrite zsum_cons by lia. rewrite zsum_nil by lia. lia.
    - unfold nn; lia.
    - intros [v s1] [Hv ->]. destruct (Z.ltb_spec (wd_min d) v); [|cbn; auto].
      rewrite rd_ok by lia. cbn [bind]. destruct (Z.ltb _ _); cbn [wp]; [auto|].
      replace (v - 1 + 1) with v by lia. rewrite (zsum_cons v nn) by lia. split; [split; [lia|lia]|lia]. }
  cbn [bind]. eexists _, _. split; [reflexivity|]. unfold wwf, wmem. cbn [wd_min wd_nbr wd_vel]. rewrite w_n.
  split; [|split; [|split]].
  - split; [lia|]. split; [lia|]. split; [lia|]. rewrite W3, Es.
    replace (wd_min d + (v + 1 - wd_min d)) with (v + 1) by lia. rewrite (zsum_split (wd_min d) (v + 1) nn) by lia. lia.
  - split; [lia|]. split; [lia|]. split; [lia|]. rewrite Es. f_equal. lia.
  - intros t. fold nn. split.
    + intros (i & Hi & E). destruct (Z_lt_le_dec i (v + 1)); [left|right]; exists i; (split; [lia|auto]).
    + intros [(i & Hi & E)|(i & Hi & E)]; exists i; (split; [lia|auto]).
  - intros t (i & Hi & E) (j & Hj & E'). assert (i = j) by (apply w_inj; [lia|lia|congruence]). lia.
Qed.

Lemma w_num : num_in (wwf a) (wmem a) (archCmpltwDomNum a).
Proof.
  intros d (W0 & W1 & W2 & W3). rewrite w_n in W2. pose proof w_len. unfold archCmpltwDomNum. rewrite rd_ok by lia. cbn [bind].
  eexists; split; [reflexivity|]. exists (wd_min d). split; [lia|auto].
Qed.

Lemma w_term_eq t : 0 <= t < n -> exists i, 0 <= i < n /\ snd (cell i) = t /\ archCmpltwDomTerm a t = Ok (mkwd i 1 (fst (cell i))).
Proof.
  intros Ht. destruct (w_surj t Ht) as (i & Hi & E). exists i. split; [auto|]. split; [auto|]. unfold archCmpltwDomTerm.
  rewrite w_n. destruct (Z.ltb_spec t n); [|lia]. pose proof w_len as L.
  match goal with |- bind ?r _ = _ => destruct (wp_ok_inv r (fun j => j = i)) as (j & -> & ->) end.
  { apply wp_loop with (I := fun j => 0 <= j <= i) (m := fun j => i - j).
    - lia.
    - lia.
    - intros j Hj. destruct (Z.ltb_spec j n); [|lia]. rewrite rd_ok by lia. cbn [bind].
      destruct (Z.eqb_spec (snd (cell j)) t) as [Ej|Ej]; cbn [wp].
      + apply w_inj; [lia|lia|congruence].
      + destruct (Z.eq_dec j i); [subst; congruence|]. split; lia. }
  cbn [bind]. rewrite rd_ok by lia. reflexivity.
Qed.

Lemma w_term : term_ok n (wwf a) (wmem a) (archCmpltwDomTerm a) (archCmpltwDomNum a).
Proof.
  split.
  - intros t Ht. destruct (w_term_eq t Ht) as (i & Hi & E & ->). eexists; split; [reflexivity|].
    split; [|split].
    + unfold wwf; cbn [wd_min wd_nbr wd_vel]. rewrite w_n. split; [lia|]. split; [lia|]. split; [lia|].
      rewrite zsum_cons by lia. rewrite zsum_nil by lia. lia.
    + intros t'. unfold wmem; cbn [wd_min wd_nbr]. split.
      * intros (j & Hj & <-). assert (j = i) by lia. subst; auto.
      * intros ->. exists i. split; [lia|auto].
    + unfold archCmpltwDomNum. cbn [wd_min]. pose proof w_len. rewrite rd_ok by lia. cbn [bind]. now rewrite E.
  - intros t Ht. unfold archCmpltwDomTerm. rewrite w_n. destruct (Z.ltb_spec t n); [lia|auto].
Qed.

Lemma w_dist d0 d1 : wwf a d0 -> wwf a d1 ->
  archCmpltwDomDist a d0 d1 = Ok 0 /\ d0 = d1 \/ archCmpltwDomDist a d0 d1 = Ok 1 /\ d0 <> d1.
Proof.
  destruct d0 as [m0 n0 v0], d1 as [m1 n1 v1]. unfold wwf, archCmpltwDomDist. cbn [wd_min wd_nbr wd_vel]. intros (_ & _ & _ & E0) (_ & _ & _ & E1).
  destruct (Z.eqb_spec m0 m1); cbn [andb]; [|right; split; [auto|congruence]].
  destruct (Z.eqb_spec n0 n1); [left|right]; (split; [auto|]); [congruence|congruence].
Qed.

Lemma w_saveload imax : 9 <= imax -> n <= imax ->
  saveload_ok (wwf a) (fun _ => True) archCmpltwDomSave (archCmpltwDomLoad imax 0 a).
Proof.
  intros Hm Hni d ws rest (W0 & W1 & W2 & W3) _ Hw. rewrite w_n in W2. unfold archCmpltwDomLoad, archCmpltwDomSave.
  rewrite load2_save by (auto; lia). cbn [bind].
  destruct (Z.ltb_spec (wd_nbr d) 1); [lia|].
  unfold ckint. replace (_ && _) with true by lia. cbn [bind]. rewrite w_n.
  destruct (Z.ltb_spec n (wd_nbr d + wd_min d)); [lia|]. pose proof w_len.
  match goal with |- bind ?r _ = _ => destruct (wp_ok_inv r (fun s => s = wd_vel d)) as (s & -> & ->) end.
  { apply wp_for with (I := fun k s => s = zsum (wd_min d) k (fun i => fst (cell i))).
    - lia.
    - now rewrite zsum_nil by lia.
    - intros k s Hk ->. rewrite rd_ok by lia. cbn [bind wp]. rewrite zsum_snoc by lia. reflexivity.
    - intros s ->. now rewrite W3. }
  cbn [bind]. now destruct d.
Qed.

Lemma wfind_spec t v : (forall i j, 0 <= i < zlen t -> 0 <= j < zlen t -> snd (at_ 0 t i) = snd (at_ 0 t j) -> i = j) ->
  forall i, 0 <= i < zlen t -> snd (at_ 0 t i) = v -> wfind t v = Some (fst (at_ 0 t i)).
Proof.
  induction t as [|[w u] t IH]; intros HI i Hi E. { change (zlen (@nil (Z*Z))) with 0 in Hi. lia. }
  cbn [wfind]. rewrite zlen_cons in *. destruct (Z.eqb_spec u v) as [->|Hne].
  - assert (i = 0); [|now subst]. apply HI; [lia|lia|]. rewrite E. now rewrite at_cons_0.
  - assert (i <> 0) by (intros ->; rewrite at_cons_0 in E; auto). rewrite at_cons_S in * by lia.
    apply IH; [|lia|auto]. intros p q Hp Hq Epq. specialize (HI (p + 1) (q + 1) ltac:(lia) ltac:(lia)).
    rewrite !at_cons_S in HI by lia. replace (p + 1 - 1) with p in HI by lia. replace (q + 1 - 1) with q in HI by lia. specialize (HI Epq). lia.
Qed.

Lemma w_save_eq : archCmpltwArchSave a = intSave n ++ flat_map (fun v => 32 :: intSave v) loads ++ [10].
Proof.
  unfold archCmpltwArchSave. rewrite w_n. f_equal. f_equal.
  assert (E : loads = map (at_ 0 loads) (zseq 0 n)).
  { apply (at_ext 0); [now rewrite zlen_map, zlen_zseq by lia|]. intros i Hi. rewrite at_map by (rewrite zlen_zseq; lia). rewrite at_zseq by lia. f_equal. lia. }
  transitivity (flat_map (fun v => 32 :: intSave v) (map (at_ 0 loads) (zseq 0 n))); [|now rewrite <- E].
  rewrite !flat_map_concat_map, map_map. f_equal. apply map_ext_in. intros t Ht. apply In_zseq in Ht.
  destruct (w_surj t ltac:(lia)) as (i & Hi & Et). pose proof w_len as L.
  rewrite (wfind_spec (w_tab a) t) with (i := i); [|rewrite L; apply w_inj|lia|auto].
  destruct (w_cell i Hi) as [_ ->]. now rewrite Et.
Qed.

Lemma w_load_save imax stksiz jk ws rest : 9 <= imax -> n <= imax -> Forall (fun v => v <= imax) loads ->
  Forall blank_char ws ->
  archCmpltwArchBuild2 stksiz jk (mkw n (combine loads (zseq 0 n)) (sumz loads)) = Ok a ->
  archCmpltwArchLoad imax stksiz jk (ws ++ archCmpltwArchSave a ++ rest) = Ok (a, 10 :: rest).
Proof.
  intros Hm Hni HI Hw EB. rewrite w_save_eq. unfold archCmpltwArchLoad.
  assert (HN : forall l, nodigit_head (flat_map (fun v => 32 :: intSave v) l ++ 10 :: rest)).
  { intros [|]; cbn; unfold digit_char; lia. }
  rewrite <- !app_assoc. cbn [app]. rewrite intLoad_intSave; auto; try lia.
  cbn [orerr bind]. destruct (Z.ltb_spec n 1); [lia|].
  match goal with |- bind ?r _ = _ => destruct (wp_ok_inv r (fun s => s = (combine loads (zseq 0 n), sumz loads, 10 :: rest))) as (x & -> & ->) end.
  { apply wp_for with (I := fun k '(t, s, str) => t = combine (firstn (Z.to_nat k) loads) (zseq 0 k) /\ s = sumz (firstn (Z.to_nat k) loads) /\
      str = flat_map (fun v => 32 :: intSave v) (skipn (Z.to_nat k) loads) ++ 10 :: rest).
    - lia.
    - split; [reflexivity|]. split; reflexivity.
    - intros k [[t s] str] Hk (-> & -> & ->). rewrite (skipn_cons_at loads k) by lia. cbn [flat_map].
      rewrite Forall_forall in HF, HI.
      pose proof (HF (at_ 0 loads k) (at_In 0 loads k ltac:(lia))). pose proof (HI (at_ 0 loads k) (at_In 0 loads k ltac:(lia))).
      rewrite <- app_assoc. change (32 :: intSave (at_ 0 loads k)) with ([32] ++ intSave (at_ 0 loads k)). rewrite <- app_assoc.
      rewrite intLoad_intSave; auto; try lia; [|apply (blank1 32 eq_refl)].
      cbn [orerr bind]. destruct (Z.ltb_spec (at_ 0 loads k) 1); [lia|]. cbn [wp].
      rewrite firstn_snoc_at by lia. rewrite zseq_snoc by lia. rewrite combine_snoc by (rewrite firstn_len, zseq_len; lia).
      rewrite sumz_app. cbn [sumz]. rewrite !Z.add_0_l. split; [auto|]. split; [lia|auto].
    - intros [[t s] str] (-> & -> & ->). rewrite firstn_all_z, skipn_all_z by lia. reflexivity. }
  cbn [bind]. rewrite EB. reflexivity.
Qed.
End W.

Lemma build_rejects stksiz jk n loads : n <= zlen loads ->
  (n <= 0 \/ exists k, 0 <= k < n /\ at_ 0 loads k <= 0) -> archCmpltwArchBuild stksiz jk n loads = Err 1.
Proof.
  intros Hn Hbad. unfold archCmpltwArchBuild. destruct (Z.leb_spec n 0); [auto|].
  destruct Hbad as [?|(k & Hk & Hv)]; [lia|].
  match goal with |- bind ?r _ = _ => assert (E : r = Err 1) end; [|now rewrite E].
  assert (W : wp (for_ 0 n (fun k '(t, s) => do v <- rd 0 loads k; if v <=? 0 then Err 1 else Ok (t ++ [(v, k)], s + v)) ([], 0))
    (fun _ => False) (fun e => e = 1)).
  { apply wp_for with (I := fun j _ => forall i, 0 <= i < j -> 0 < at_ 0 loads i).
    - lia.
    - intros; lia.
    - intros j [t s] Hj HI. rewrite rd_ok by lia. cbn [bind]. destruct (Z.leb_spec (at_ 0 loads j) 0); cbn [wp]; [auto|].
      intros i Hi. destruct (Z.eq_dec i j); [now subst|apply HI; lia].
    - intros s HI. specialize (HI k Hk). lia. }
  destruct (for_ _ _ _ _); cbn [wp] in W; subst; tauto.
Qed.
