(** Proofs about tree-leaf architectures. *)
From Verif Require Import Base M_Int S_Int P_Int M_Arch S_Arch P_Arch P_Mesh.

Lemma prod_app l l' : prod (l ++ l') = prod l * prod l'.
Proof. induction l; cbn [app prod]; [|rewrite IHl]; ring. Qed.

Lemma skipn_cons_at {A} `{Dflt A} (l : list A) k : 0 <= k < zlen l ->
  skipn (Z.to_nat k) l = at_ 0 l k :: skipn (Z.to_nat (k + 1)) l.
Proof.
  intros Hk. replace (Z.to_nat (k + 1)) with (S (Z.to_nat k)) by lia. unfold at_. rewrite Z.sub_0_r.
  assert (Hl : (Z.to_nat k < length l)%nat) by (unfold zlen in *; lia). revert Hl. generalize (Z.to_nat k). clear.
  induction l; intros n Hl; simpl in *; [lia|]. destruct n; simpl; auto. apply IHl. lia.
Qed.

Lemma firstn_snoc_at {A} `{Dflt A} (l : list A) k : 0 <= k < zlen l ->
  firstn (Z.to_nat (k + 1)) l = firstn (Z.to_nat k) l ++ [at_ 0 l k].
Proof.
  intros Hk. replace (Z.to_nat (k + 1)) with (S (Z.to_nat k)) by lia. unfold at_. rewrite Z.sub_0_r.
  assert (Hl : (Z.to_nat k < length l)%nat) by (unfold zlen in *; lia). revert Hl. generalize (Z.to_nat k). clear.
  induction l; intros n Hl; simpl in *; [lia|]. destruct n; simpl; auto. f_equal. apply IHl. lia.
Qed.

Section T.
Context (a : tleaf) (Ha : tleaf_ok a).
Notation n := (zlen (t_size a)).
Notation sz := (at_ 0 (t_size a)).

Lemma sz_ge2 k : 0 <= k < n -> 2 <= sz k.
Proof. intros. destruct Ha as (_ & F & _). rewrite Forall_forall in F. apply F. apply at_In. lia. Qed.
Lemma lk_ge1 k : 0 <= k < n -> 1 <= at_ 0 (t_link a) k.
Proof. intros. destruct Ha as (L & _ & F & _). rewrite Forall_forall in F. apply F. apply at_In. lia. Qed.

Lemma dims_sz : dims_ok (t_size a).
Proof. destruct Ha as (_ & F & _). eapply Forall_impl; [|exact F]. cbn. lia. Qed.

Lemma Forall_firstn {A} (P : A -> Prop) k l : Forall P l -> Forall P (firstn k l).
Proof. intros F. revert k. induction F; intros [|k]; simpl; constructor; auto. Qed.
Lemma Forall_skipn {A} (P : A -> Prop) k l : Forall P l -> Forall P (skipn k l).
Proof. intros F. revert k. induction F; intros [|k]; simpl; auto. Qed.

Definition up (l : Z) : Z := prod (firstn (Z.to_nat l) (t_size a)).    (* nodes at level l *)

Lemma up_pos l : 1 <= up l.
Proof. apply prod_pos, Forall_firstn, dims_sz. Qed.
Lemma blk_pos l : 1 <= tblk a l.
Proof. apply prod_pos, Forall_skipn, dims_sz. Qed.
Lemma up_blk l : up l * tblk a l = t_termnbr a.
Proof. unfold up, tblk. rewrite <- prod_app, firstn_skipn. destruct Ha as (_ & _ & _ & ->). reflexivity. Qed.
Lemma up_S l : 0 <= l < n -> up (l + 1) = up l * sz l.
Proof. intros. unfold up. rewrite firstn_snoc_at by auto. rewrite prod_app. cbn [prod]. ring. Qed.
Lemma up_0 : up 0 = 1. Proof. reflexivity. Qed.
Lemma blk_S l : 0 <= l < n -> tblk a l = sz l * tblk a (l + 1).
Proof. intros. unfold tblk. rewrite skipn_cons_at by auto. reflexivity. Qed.
Lemma blk_n : tblk a n = 1.
Proof. unfold tblk. rewrite skipn_all2; [reflexivity|]. unfold zlen. lia. Qed.

Lemma tblock_ok l : 0 <= l <= n -> tblock a l = Ok (tblk a l).
Proof.
  intros Hl. unfold tblock.
  match goal with |- ?r = Ok ?v => destruct (wp_ok_inv r (fun s => s = v)) as (x & -> & ->); [|reflexivity] end.
  apply wp_for with (I := fun k s => s * tblk a k = tblk a l).
  - unfold t_levlnbr. lia.
  - lia.
  - intros k s Hk E. unfold t_levlnbr in Hk. apply wp_bind. apply wp_rd; [lia|]. cbn [wp].
    rewrite blk_S in E by (lia). lia.
  - intros s E. unfold t_levlnbr in E. rewrite blk_n in E. lia.
Qed.

Lemma twf_bound d : twf a d -> 0 <= d_levl d <= n /\ 0 <= d_min d /\ 1 <= d_nbr d /\ d_min d + d_nbr d <= up (d_levl d).
Proof.
  intros [(-> & -> & ->)|(Hl & Hn & p & Hp & H1 & H2)].
  - unfold up. simpl. pose proof (zlen_nonneg (t_size a)). lia.
  - pose proof (sz_ge2 (d_levl d - 1) ltac:(lia)) as Hs.
    fold (up (d_levl d - 1)) in Hp.
    pose proof (up_S (d_levl d - 1) ltac:(lia)) as E. replace (d_levl d - 1 + 1) with (d_levl d) in E by lia.
    split; [lia|]. split; [nia|]. split; [lia|]. rewrite E. nia.
Qed.

Definition tsz (d : tdom) : Z := d_nbr d * tblk a (d_levl d).

Lemma tleaf_sz d : twf a d -> 1 <= tsz d /\ card (tmem a d) (tsz d).
Proof.
  intros W. destruct (twf_bound d W) as (? & ? & ? & ?). pose proof (blk_pos (d_levl d)). unfold tsz.
  split; [nia|]. apply card_interval. nia.
Qed.

Lemma tleaf_size : size_ok (twf a) (tmem a) (archTleafDomSize a).
Proof.
  apply (size_intro _ _ tsz tleaf_sz). intros d W. destruct (twf_bound d W) as (? & _).
  unfold archTleafDomSize. rewrite tblock_ok by auto. cbn [bind]. unfold tsz. f_equal. ring.
Qed.

Lemma tleaf_frst : frst_ok (t_termnbr a) (twf a) (tmem a) (archTleafDomFrst a).
Proof.
  eexists; split; [reflexivity|]. split; [left; auto|].
  intros t. unfold tmem, interval. cbn [d_min d_nbr d_levl]. rewrite <- (up_blk 0), up_0. lia.
Qed.

Lemma tleaf_num : num_ok (twf a) (tmem a) (archTleafDomNum a).
Proof.
  intros d W. destruct (twf_bound d W) as (? & ? & ? & ?). pose proof (blk_pos (d_levl d)).
  unfold archTleafDomNum. rewrite tblock_ok by auto. cbn [bind]. eexists; split; [reflexivity|].
  unfold tmem, interval. split; [nia|]. intros; lia.
Qed.

Lemma term_wf t : 1 <= n -> 0 <= t < t_termnbr a -> twf a (mkt n t 1).
Proof.
  intros Hn Ht. right. cbn [d_levl d_nbr d_min]. split; [lia|].
  pose proof (sz_ge2 (n - 1) ltac:(lia)) as Hs. fold (up (n - 1)). split; [lia|].
  set (s := sz (n - 1)) in *. exists (t / s). pose proof (Z.div_mod t s ltac:(lia)). pose proof (Z.mod_pos_bound t s ltac:(lia)).
  pose proof (up_S (n - 1) ltac:(lia)) as E. fold s in E. replace (n - 1 + 1) with n in E by lia.
  pose proof (up_blk n) as E2. rewrite blk_n in E2.
  split; [|lia]. split; [apply Z.div_pos; lia|]. apply Z.div_lt_upper_bound; lia.
Qed.

Lemma term_mem t t' : tmem a (mkt n t 1) t' <-> t' = t.
Proof. unfold tmem, interval. cbn [d_levl d_nbr d_min]. rewrite blk_n. lia. Qed.

Lemma tleaf_term : 1 <= n -> term_ok (t_termnbr a) (twf a) (tmem a) (archTleafDomTerm a) (archTleafDomNum a).
Proof.
  intros Hn. unfold archTleafDomTerm. split; intros t Ht; destruct (Z.ltb_spec t (t_termnbr a)); try lia; auto.
  unfold t_levlnbr. eexists; split; [reflexivity|]. split; [now apply term_wf|].
  split; [intros; apply term_mem|]. unfold archTleafDomNum. cbn [d_levl d_min].
  rewrite tblock_ok by lia. cbn [bind]. rewrite blk_n. f_equal. lia.
Qed.

Lemma tleaf_bipart : bipart_ok (twf a) (tmem a) (archTleafDomBipart a).
Proof.
  apply (bipart_intro _ _ tsz tleaf_sz); intros d W H; pose proof (twf_bound d W) as (HB1 & HB2 & HB3 & HB4);
    unfold archTleafDomBipart, t_levlnbr; pose proof (blk_pos (d_levl d)) as HP; unfold tsz in H.
  - assert (d_nbr d = 1 /\ tblk a (d_levl d) = 1) as [E1 E2] by nia. rewrite E1. cbn [Z.leb Z.compare Pos.compare Pos.compare_cont].
    destruct (Z.leb_spec n (d_levl d)); [reflexivity|].
    rewrite blk_S in E2 by lia. pose proof (sz_ge2 (d_levl d) ltac:(lia)). pose proof (blk_pos (d_levl d + 1)). nia.
  - destruct (Z.leb_spec (d_nbr d) 1) as [L1|L1].
    + assert (E1 : d_nbr d = 1) by lia. destruct (Z.leb_spec n (d_levl d)).
      * replace (d_levl d) with n in * by lia. rewrite blk_n in H. lia.
      * rewrite rd_ok by (lia). cbn [bind].
        pose proof (sz_ge2 (d_levl d) ltac:(lia)) as Hs. set (s := sz (d_levl d)) in *.
        assert (Hq : Z.shiftr (s + 1) 1 = (s + 1) / 2) by (rewrite Z.shiftr_div_pow2 by lia; reflexivity). rewrite Hq.
        assert (1 <= (s + 1) / 2 < s).
        { split; [apply Z.div_le_lower_bound; lia|apply Z.div_lt_upper_bound; lia]. }
        set (h := (s + 1) / 2) in *. do 2 eexists; split; [reflexivity|].
        assert (HW : forall m k, d_min d * s <= m -> 1 <= k < s -> m + k <= (d_min d + 1) * s -> twf a (mkt (d_levl d + 1) m k)).
        { intros m k H2 H3 H4. right. cbn [d_levl d_nbr d_min]. replace (d_levl d + 1 - 1) with (d_levl d) by lia. fold s.
          split; [lia|]. split; [lia|]. exists (d_min d). fold (up (d_levl d)). lia. }
        split; [apply HW; lia|]. split; [apply HW; lia|].
        unfold tmem, interval. cbn [d_levl d_nbr d_min]. rewrite (blk_S (d_levl d)) by lia. fold s. rewrite E1.
        pose proof (blk_pos (d_levl d + 1)). set (B := tblk a (d_levl d + 1)) in *.
        split; intros t; nia.
    + cbn [bind]. destruct W as [(W1 & W2 & W3)|(Hl & Hn & p & Hp & H1 & H2)]; [lia|].
      set (k := d_nbr d) in *. assert (Hq : Z.shiftr (k + 1) 1 = (k + 1) / 2) by (rewrite Z.shiftr_div_pow2 by lia; reflexivity). rewrite Hq.
      assert (1 <= (k + 1) / 2 < k).
      { split; [apply Z.div_le_lower_bound; lia|apply Z.div_lt_upper_bound; lia]. }
      set (h := (k + 1) / 2) in *. do 2 eexists; split; [reflexivity|].
      split; [right; cbn [d_levl d_nbr d_min]; split; [lia|]; split; [lia|]; exists p; split; [auto|lia]|].
      split; [right; cbn [d_levl d_nbr d_min]; split; [lia|]; split; [lia|]; exists p; split; [auto|lia]|].
      unfold tmem, interval. cbn [d_levl d_nbr d_min]. fold k. set (B := tblk a (d_levl d)) in *.
      split; intros t; nia.
Qed.

(** climbing *)
Fixpoint climb (k : nat) (l m : Z) : Z := match k with O => m | Datatypes.S k => climb k (l - 1) (m / sz (l - 1)) end.

Lemma anc_block l l' m : 0 <= l' <= l -> l <= n -> 0 <= m ->
  exists q, q = m * tblk a l / tblk a l' /\ 0 <= q /\ q * tblk a l' <= m * tblk a l /\ (m + 1) * tblk a l <= (q + 1) * tblk a l'.
Proof.
  intros Hl Hn Hm. pose proof (blk_pos l). pose proof (blk_pos l').
  assert (HD : (tblk a l | tblk a l')).
  { assert (G : forall k, 0 <= k -> l' + k <= l -> (tblk a (l' + k) | tblk a l')).
    { apply (natlike_ind (fun k => l' + k <= l -> (tblk a (l' + k) | tblk a l'))).
      - intros _. rewrite Z.add_0_r. apply Z.divide_refl.
      - intros k Hk IH Hkl. apply Z.divide_trans with (tblk a (l' + k)); [|apply IH; lia].
        rewrite (blk_S (l' + k)) by lia. replace (l' + Z.succ k) with (l' + k + 1) by lia. apply Z.divide_factor_r. }
    specialize (G (l - l') ltac:(lia) ltac:(lia)). now replace (l' + (l - l')) with l in G by lia. }
  destruct HD as (r & Er). assert (1 <= r) by nia.
  eexists; split; [reflexivity|].
  assert (E : m * tblk a l / tblk a l' = m / r).
  { rewrite Er. apply Z.div_mul_cancel_r; lia. }
  rewrite E. pose proof (Z.div_mod m r ltac:(lia)). pose proof (Z.mod_pos_bound m r ltac:(lia)).
  pose proof (Z.div_pos m r). rewrite Er. nia.
Qed.

Lemma tclimb_ok l l' m dist : 0 <= l' <= l -> l <= n -> 0 <= m ->
  exists dist', tclimb a l l' m dist = Ok (m * tblk a l / tblk a l', dist') /\ dist <= dist' /\ (l' < l -> dist < dist').
Proof.
  intros Hl Hn Hm. unfold tclimb.
  match goal with |- exists d', ?r = Ok (?v, d') /\ _ =>
    destruct (wp_ok_inv r (fun x => fst x = v /\ dist <= snd x /\ (l' < l -> dist < snd x))) as ([x y] & -> & E1 & E2 & E3) end.
  - apply wp_for with (I := fun k x => fst x = m * tblk a l / tblk a (l - k) /\ 0 <= fst x /\ dist + k <= snd x).
    + lia.
    + cbn [fst snd]. rewrite Z.sub_0_r. rewrite Z.div_mul by (pose proof (blk_pos l); lia). lia.
    + intros k [x y] Hk (E1 & E2 & E3). cbn [fst snd] in *. destruct Ha as (HLl & _).
      apply wp_bind, wp_rd; [lia|]. apply wp_bind, wp_rd; [lia|].
      cbn [wp fst snd]. pose proof (sz_ge2 (l - 1 - k) ltac:(lia)). pose proof (lk_ge1 (l - 1 - k) ltac:(lia)).
      rewrite Z.quot_div_nonneg by lia.
      pose proof (blk_pos (l - k)).
      split; [|split; [apply Z.div_pos; lia|lia]].
      replace (l - (k + 1)) with (l - 1 - k) by lia. rewrite (blk_S (l - 1 - k)) by lia.
      replace (l - 1 - k + 1) with (l - k) by lia. rewrite E1. rewrite Z.div_div by lia. f_equal. ring.
    + intros [x y] (E1 & E2 & E3). cbn [fst snd] in *. replace (l - (l - l')) with l' in E1 by lia. split; [auto|lia].
  - cbn [fst snd] in *. exists y. split; [now rewrite E1|lia].
Qed.

(** inclusion test = overlap test *)
Lemma tleaf_incl_overlap d0 d1 : twf a d0 -> twf a d1 ->
  exists b, archTleafDomIncl a d0 d1 = Ok b /\
    (b = true <-> d_levl d0 <= d_levl d1 /\ exists t, tmem a d0 t /\ tmem a d1 t).
Proof.
  intros W0 W1. destruct (twf_bound d0 W0) as (A0 & A1 & A2 & A3), (twf_bound d1 W1) as (B0 & B1 & B2 & B3).
  unfold archTleafDomIncl. destruct (Z.ltb_spec (d_levl d1) (d_levl d0)).
  { eexists; split; [reflexivity|]. split; [discriminate|lia]. }
  destruct (Z.ltb_spec (d_levl d0) (d_levl d1)) as [Hl|Hl].
  - destruct (tclimb_ok (d_levl d1) (d_levl d0) (d_min d1) 0 ltac:(lia) ltac:(lia) ltac:(lia)) as (dd & -> & _).
    cbn [bind]. eexists; split; [reflexivity|].
    destruct W1 as [(W1 & _)|(_ & Hn & p & Hp & H1 & H2)]; [lia|].
    set (l1 := d_levl d1) in *. set (l0 := d_levl d0) in *.
    pose proof (sz_ge2 (l1 - 1) ltac:(lia)) as Hs.
    (* the parent node p of d1 at level l1-1 *)
    assert (EP : d_min d1 * tblk a l1 / tblk a l0 = p * tblk a (l1 - 1) / tblk a l0 /\ (d_min d1 + d_nbr d1) * tblk a l1 <= (p + 1) * tblk a (l1 - 1) /\ p * tblk a (l1 - 1) <= d_min d1 * tblk a l1).
    { pose proof (blk_pos l1). pose proof (blk_S (l1 - 1) ltac:(lia)) as EB. replace (l1 - 1 + 1) with l1 in EB by lia.
      assert (X1 : (d_min d1 + d_nbr d1) * tblk a l1 <= (p + 1) * tblk a (l1 - 1)) by (rewrite EB; nia).
      assert (X2 : p * tblk a (l1 - 1) <= d_min d1 * tblk a l1) by (rewrite EB; nia).
      split; [|auto].
      destruct (anc_block (l1 - 1) l0 p ltac:(lia) ltac:(lia) ltac:(lia)) as (q & Eq & Hq0 & Hq1 & Hq2).
      rewrite <- Eq. pose proof (blk_pos l0). symmetry. apply Z.div_unique with (r := d_min d1 * tblk a l1 - q * tblk a l0); [|lia]. left. nia. }
    destruct EP as (-> & X1 & X2).
    destruct (anc_block (l1 - 1) l0 p ltac:(lia) ltac:(lia) ltac:(lia)) as (q & Eq & Hq0 & Hq1 & Hq2).
    rewrite <- Eq. unfold tmem, interval. fold l0 l1. pose proof (blk_pos l0). pose proof (blk_pos l1).
    rewrite negb_true_iff, orb_false_iff, !Z.leb_gt. split.
    + intros [Y1 Y2]. split; [lia|]. exists (d_min d1 * tblk a l1). split; [nia|nia].
    + intros (_ & t & T0 & T1). split; nia.
  - cbn [bind]. eexists; split; [reflexivity|]. assert (EL : d_levl d1 = d_levl d0) by lia.
    unfold tmem, interval. rewrite EL in *. pose proof (blk_pos (d_levl d0)).
    rewrite negb_true_iff, orb_false_iff, !Z.leb_gt. split.
    + intros [Y1 Y2]. split; [lia|]. exists (Z.max (d_min d0) (d_min d1) * tblk a (d_levl d0)). split; nia.
    + intros (_ & t & T0 & T1). split; nia.
Qed.

Lemma tleaf_incl_partial d0 d1 : twf a d0 -> twf a d1 ->
  exists b, archTleafDomIncl a d0 d1 = Ok b /\
    ((forall t, tmem a d1 t -> tmem a d0 t) -> b = true) /\
    ((forall t, tmem a d1 t -> tmem a d0 t -> False) -> b = false) /\
    (d_levl d0 <> d_levl d1 -> b = true -> forall t, tmem a d1 t -> tmem a d0 t).
Proof.
  intros W0 W1. destruct (tleaf_incl_overlap d0 d1 W0 W1) as (b & E & Hb). exists b. split; [auto|].
  destruct (twf_bound d0 W0) as (A0 & A1 & A2 & A3), (twf_bound d1 W1) as (B0 & B1 & B2 & B3).
  pose proof (blk_pos (d_levl d0)). pose proof (blk_pos (d_levl d1)).
  split; [|split].
  - intros HI. apply Hb.
    assert (M : tmem a d1 (d_min d1 * tblk a (d_levl d1))) by (unfold tmem, interval; nia).
    split; [|eauto].
    destruct (Z.le_gt_cases (d_levl d0) (d_levl d1)) as [|Hlt]; [auto|exfalso].
    (* d1 higher than d0: it would hold a whole node of level (levl d0 - 1), d0 does not *)
    destruct W0 as [(W0 & _)|(_ & Hn & p & Hp & H1 & H2)]; [lia|].
    set (l0 := d_levl d0) in *. set (l1 := d_levl d1) in *.
    pose proof (blk_S (l0 - 1) ltac:(lia)) as EB. replace (l0 - 1 + 1) with l0 in EB by lia.
    assert (HD : tblk a (l0 - 1) <= tblk a l1).
    { destruct (anc_block (l0 - 1) l1 0 ltac:(lia) ltac:(lia) ltac:(lia)) as (q & Eq & Hq0 & Hq1 & Hq2).
      rewrite Z.mul_0_l, Z.div_0_l in Eq by lia. subst q. lia. }
    assert (M2 : tmem a d1 ((d_min d1 + d_nbr d1) * tblk a l1 - 1)) by (unfold tmem, interval; fold l1; nia).
    apply HI in M, M2. unfold tmem, interval in M, M2. fold l0 l1 in M, M2. nia.
  - intros HD. destruct b; auto. destruct (proj1 Hb eq_refl) as (_ & t & T0 & T1). exfalso. eauto.
  - intros Hne ->. destruct (proj1 Hb eq_refl) as (Hl & t & T0 & T1). intros u U.
    destruct W1 as [(W1 & _)|(_ & Hn & p & Hp & H1 & H2)]; [lia|].
    set (l1 := d_levl d1) in *. set (l0 := d_levl d0) in *.
    pose proof (blk_S (l1 - 1) ltac:(lia)) as EB. replace (l1 - 1 + 1) with l1 in EB by lia.
    destruct (anc_block (l1 - 1) l0 p ltac:(lia) ltac:(lia) ltac:(lia)) as (q & Eq & Hq0 & Hq1 & Hq2).
    unfold tmem, interval in *. fold l0 l1 in T0, T1, U |- *.
    assert (X1 : (d_min d1 + d_nbr d1) * tblk a l1 <= (p + 1) * tblk a (l1 - 1)) by (rewrite EB; nia).
    assert (X2 : p * tblk a (l1 - 1) <= d_min d1 * tblk a l1) by (rewrite EB; nia).
    assert (d_min d0 <= q < d_min d0 + d_nbr d0) by nia. nia.
Qed.

(** distances *)
Notation tr := (ttree a).

Lemma zlen_tr : zlen tr = n.
Proof. unfold ttree, zlen. rewrite combine_length. destruct Ha as (L & _). unfold zlen in *. lia. Qed.
Lemma at_tr k : 0 <= k < n -> at_ 0 tr k = (sz k, at_ 0 (t_link a) k).
Proof.
  intros Hk. destruct Ha as (L & _). unfold ttree, at_. rewrite Z.sub_0_r.
  change (@dflt (Z * Z) _) with (@dflt Z _, @dflt Z _). rewrite combine_nth; [reflexivity|]. unfold zlen in *. lia.
Qed.
End T.

Lemma leaves_app tr tr' : leaves (tr ++ tr') = leaves tr * leaves tr'.
Proof. induction tr as [|[q v] tr IH]; cbn [app leaves]; [|rewrite IH]; ring. Qed.
Lemma linksum_app tr tr' : linksum (tr ++ tr') = linksum tr + linksum tr'.
Proof. induction tr as [|[q v] tr IH]; cbn [app linksum]; [|rewrite IH]; ring. Qed.
Definition arity_ok (tr : list (Z * Z)) := Forall (fun x => 1 <= fst x) tr.
Lemma leaves_pos tr : arity_ok tr -> 1 <= leaves tr.
Proof. induction 1 as [|[q v] tr]; cbn [leaves fst] in *; nia. Qed.

Lemma leafdist_snoc tr n w m0 m1 : arity_ok tr -> 1 <= n ->
  leafdist (tr ++ [(n, w)]) m0 m1 = if m0 =? m1 then 0 else leafdist tr (m0 / n) (m1 / n) + w.
Proof.
  intros Ht Hn. revert m0 m1. induction Ht as [|[q v] tr Hq Ht IH]; intros m0 m1.
  - cbn [app leafdist leaves linksum]. rewrite !Z.div_1_r. destruct (m0 =? m1); lia.
  - cbn [app leafdist]. rewrite leaves_app. cbn [leaves]. rewrite Z.mul_1_r.
    pose proof (leaves_pos tr Ht) as HL. set (L := leaves tr) in *.
    replace (L * n) with (n * L) by ring. rewrite <- !Z.div_div by lia.
    destruct (Z.eqb_spec (m0 / n / L) (m1 / n / L)) as [E|E].
    + rewrite IH. rewrite !Z.rem_mul_r by lia.
      assert (X : forall m, (m mod n + n * ((m / n) mod L)) / n = (m / n) mod L).
      { intros m. rewrite Z.mul_comm, Z.div_add by lia. rewrite Z.div_small by (apply Z.mod_pos_bound; lia). lia. }
      rewrite !X.
      pose proof (Z.div_mod m0 n ltac:(lia)). pose proof (Z.div_mod m1 n ltac:(lia)).
      pose proof (Z.div_mod (m0 / n) L ltac:(lia)). pose proof (Z.div_mod (m1 / n) L ltac:(lia)).
      destruct (Z.eqb_spec m0 m1) as [->|Hne]; [now rewrite Z.eqb_refl|].
      destruct (Z.eqb_spec (m0 mod n + n * ((m0 / n) mod L)) (m1 mod n + n * ((m1 / n) mod L))) as [E2|E2]; [|reflexivity].
      exfalso. apply Hne. rewrite E in *. lia.
    + destruct (Z.eqb_spec m0 m1) as [->|Hne]; [congruence|]. rewrite linksum_app. cbn [linksum]. lia.
Qed.

Lemma leafdist_sym tr m0 m1 : leafdist tr m0 m1 = leafdist tr m1 m0.
Proof.
  revert m0 m1. induction tr as [|[q v] tr IH]; intros; cbn [leafdist]; auto.
  rewrite (Z.eqb_sym (m1 / _)). destruct (_ =? _); auto.
Qed.

Section D.
Context (a : tleaf) (Ha : tleaf_ok a).
Notation n := (zlen (t_size a)).
Notation sz := (at_ 0 (t_size a)).
Notation tr := (ttree a).

Lemma arity_tr : arity_ok tr.
Proof.
  destruct Ha as (_ & F & _). unfold ttree. clear -F. revert F. generalize (t_link a). induction (t_size a) as [|x l IH]; intros k F; simpl; [constructor|].
  destruct k; constructor; inversion F; subst; cbn; [lia|now apply IH].
Qed.

Lemma tmeet_ok f l m0 m1 dist : 1 <= l <= n -> (Z.to_nat l <= f)%nat -> 0 <= m0 < up a l -> 0 <= m1 < up a l ->
  loop f (fun '(l, m0, m1, dist) =>
    let l := l - 1 in
    do z <- rd 0 (t_size a) l;
    do t <- rd 0 (t_link a) l;
    let m0 := Z.quot m0 z in
    let m1 := Z.quot m1 z in
    if negb (m0 =? m1) then Ok (inl (l, m0, m1, dist + t)) else Ok (inr (dist + t))) (l, m0, m1, dist)
  = Ok (dist + at_ 0 (t_link a) (l - 1) + leafdist (firstn (Z.to_nat (l - 1)) tr) (m0 / sz (l - 1)) (m1 / sz (l - 1))).
Proof.
  pose proof Ha as (HL & _).
  revert l m0 m1 dist. induction f; intros l m0 m1 dist Hl Hf H0 H1; [lia|]. cbn [loop].
  pose proof (sz_ge2 a Ha (l - 1)) as Hs. specialize (Hs ltac:(lia)).
  rewrite rd_ok by (lia). cbn [bind]. rewrite rd_ok by (rewrite HL; lia). cbn [bind].
  rewrite !Z.quot_div_nonneg by lia.
  pose proof (up_S a (l - 1)) as EU. specialize (EU ltac:(lia)). replace (l - 1 + 1) with l in EU by lia.
  assert (B0 : 0 <= m0 / sz (l - 1) < up a (l - 1)) by (split; [apply Z.div_pos; lia|apply Z.div_lt_upper_bound; lia]).
  assert (B1 : 0 <= m1 / sz (l - 1) < up a (l - 1)) by (split; [apply Z.div_pos; lia|apply Z.div_lt_upper_bound; lia]).
  set (q0 := m0 / sz (l - 1)) in *. set (q1 := m1 / sz (l - 1)) in *.
  assert (HD : 2 <= l -> leafdist (firstn (Z.to_nat (l - 1)) tr) q0 q1 =
    if q0 =? q1 then 0 else leafdist (firstn (Z.to_nat (l - 2)) tr) (q0 / sz (l - 2)) (q1 / sz (l - 2)) + at_ 0 (t_link a) (l - 2)).
  { intros Hl2. replace (l - 1) with (l - 2 + 1) by lia. rewrite firstn_snoc_at by (pose proof (zlen_tr a Ha) as X; cbv zeta in X; rewrite X; lia).
    pose proof (at_tr a Ha (l - 2)) as X. rewrite X by lia.
    apply leafdist_snoc; [apply Forall_firstn, arity_tr|]. pose proof (sz_ge2 a Ha (l - 2)) as Y. specialize (Y ltac:(lia)). lia. }
  destruct (Z.eqb_spec q0 q1) as [E|E]; cbn [negb bind].
  - destruct (Z.eq_dec l 1) as [->|].
    + change (Z.to_nat (1 - 1)) with 0%nat. cbn [firstn leafdist]. f_equal. lia.
    + rewrite HD by lia. f_equal. lia.
  - destruct (Z.eq_dec l 1) as [->|].
    + change (1 - 1) with 0 in *. unfold up in B0, B1. change (Z.to_nat 0) with 0%nat in *. cbn [firstn prod] in *. lia.
    + rewrite IHf by lia. rewrite HD by lia. replace (l - 1 - 1) with (l - 2) by lia. f_equal. lia.
Qed.

Lemma tmeet_spec l m0 m1 dist : 1 <= l <= n -> 0 <= m0 < up a l -> 0 <= m1 < up a l ->
  tmeet a l m0 m1 dist = Ok (dist + at_ 0 (t_link a) (l - 1) + leafdist (firstn (Z.to_nat (l - 1)) tr) (m0 / sz (l - 1)) (m1 / sz (l - 1))).
Proof. intros. unfold tmeet. apply tmeet_ok; auto. Qed.

Lemma tleaf_dist_term : 1 <= n -> dist_term (t_termnbr a) (archTleafDomTerm a) (archTleafDomDist a) (leafdist tr).
Proof.
  intros Hn t0 t1 d0 d1 H0 H1. unfold archTleafDomTerm.
  destruct (Z.ltb_spec t0 (t_termnbr a)); [|lia]. destruct (Z.ltb_spec t1 (t_termnbr a)); [|lia].
  intros [= <-] [= <-]. unfold t_levlnbr. unfold archTleafDomDist. cbn [d_levl d_min d_nbr].
  rewrite Z.ltb_irrefl. cbn [bind].
  pose proof (up_blk a Ha n) as EU. pose proof (blk_n a) as EB. rewrite EB in EU.
  pose proof (firstn_snoc_at tr (n - 1)) as EF. pose proof (zlen_tr a Ha) as EZ. rewrite EZ in EF.
  specialize (EF ltac:(lia)). pose proof (at_tr a Ha (n - 1)) as ET. rewrite ET in EF by lia.
  replace (n - 1 + 1) with n in EF by lia. rewrite firstn_all2 in EF by (unfold zlen in *; lia).
  pose proof (sz_ge2 a Ha (n - 1)) as Hs. specialize (Hs ltac:(lia)).
  rewrite EF. rewrite leafdist_snoc by (try (apply Forall_firstn, arity_tr); lia).
  destruct (Z.eqb_spec t0 t1) as [->|Hne].
  - rewrite Z.leb_refl. rewrite Z.leb_refl. reflexivity.
  - assert (X : (if t0 <=? t1 then t1 + 1 <=? t0 + 1 else t0 + 1 <=? t1 + 1) = false).
    { destruct (Z.leb_spec t0 t1); apply Z.leb_gt; lia. }
    rewrite X. rewrite tmeet_spec by lia. f_equal. lia.
Qed.

Lemma tmeet_sym l m0 m1 dist : 1 <= l <= n -> 0 <= m0 < up a l -> 0 <= m1 < up a l -> 0 <= dist ->
  exists x, tmeet a l m0 m1 dist = Ok x /\ tmeet a l m1 m0 dist = Ok x /\ 0 <= x.
Proof.
  intros Hl H0 H1 Hd. rewrite !tmeet_spec by auto. eexists; split; [reflexivity|]. rewrite (leafdist_sym _ (m1 / _)). split; [auto|].
  pose proof (lk_ge1 a Ha (l - 1)) as X. specialize (X ltac:(lia)).
  assert (G : forall tr m0 m1, Forall (fun x => 0 <= snd x) tr -> 0 <= leafdist tr m0 m1).
  { clear. assert (GL : forall tr, Forall (fun x => 0 <= snd x) tr -> 0 <= linksum tr).
    { induction 1 as [|[q v] tr]; cbn [linksum snd] in *; lia. }
    intros tr. induction tr as [|[q v] tr IH]; intros m0 m1 F; cbn [leafdist]; [lia|]. inversion F; subst. cbn [snd] in *.
    destruct (_ =? _); [auto|]. specialize (GL tr H2). lia. }
  match goal with |- 0 <= _ + _ + leafdist ?a ?b ?c => specialize (G a b c) end.
  assert (0 <= leafdist (firstn (Z.to_nat (l - 1)) tr) (m0 / sz (l - 1)) (m1 / sz (l - 1))); [|lia].
  apply G. apply Forall_firstn. destruct Ha as (_ & _ & F & _). unfold ttree. clear -F. generalize (t_size a).
  induction F as [|w k Hw F IH]; intros [|s0 s]; simpl; constructor; auto. cbn. lia.
Qed.

(** Distance is symmetric on disjoint domains *)
Lemma tleaf_dist_disj d0 d1 : twf a d0 -> twf a d1 -> (forall t, tmem a d0 t -> tmem a d1 t -> False) ->
  exists x, archTleafDomDist a d0 d1 = Ok x /\ archTleafDomDist a d1 d0 = Ok x /\ 0 <= x.
Proof.
  intros W0 W1 HD. pose proof (twf_bound a Ha d0 W0) as (A0 & A1 & A2 & A3). pose proof (twf_bound a Ha d1 W1) as (B0 & B1 & B2 & B3).
 
  assert (CORE : forall da db, twf a da -> twf a db -> (forall t, tmem a da t -> tmem a db t -> False) -> d_levl db <= d_levl da ->
    exists m na dist, 0 <= m < up a (d_levl db) /\ 0 <= dist /\ m <> d_min db /\ 1 <= d_levl db /\
     archTleafDomDist a da db = (if (if m <=? d_min db then d_min db + d_nbr db <=? m + na else m + na <=? d_min db + d_nbr db)
        then Ok (Z.quot dist 2) else tmeet a (d_levl db) m (d_min db) dist) /\
     archTleafDomDist a db da = (if (if d_min db <=? m then m + na <=? d_min db + d_nbr db else d_min db + d_nbr db <=? m + na)
        then Ok (Z.quot dist 2) else tmeet a (d_levl db) (d_min db) m dist)).
  { clear d0 d1 W0 W1 HD A0 A1 A2 A3 B0 B1 B2 B3. intros da db Wa Wb HD Hl.
    pose proof (twf_bound a Ha da Wa) as (A0 & A1 & A2 & A3). pose proof (twf_bound a Ha db Wb) as (B0 & B1 & B2 & B3).
   
    pose proof (blk_pos a Ha (d_levl da)) as Pa. pose proof (blk_pos a Ha (d_levl db)) as Pb.
    destruct (tclimb_ok a Ha (d_levl da) (d_levl db) (d_min da) 0) as (dist & EC & Hd & _); [lia|lia|lia|].
    destruct (anc_block a Ha (d_levl da) (d_levl db) (d_min da)) as (q & Eq & Hq0 & Hq1 & Hq2); [lia|lia|lia|].
    rewrite <- Eq in EC.
    assert (Hq : q <> d_min db).
    { intros ->. apply (HD (d_min da * tblk a (d_levl da))); unfold tmem, interval; nia. }
    assert (Hq3 : q < up a (d_levl db)).
    { pose proof (up_blk a Ha (d_levl da)). pose proof (up_blk a Ha (d_levl db)). pose proof (up_pos a Ha (d_levl db)). nia. }
    assert (1 <= d_levl db).
    { destruct (Z.eq_dec (d_levl db) 0) as [E|]; [|lia]. rewrite E in *. unfold up in Hq3, B3. change (Z.to_nat 0) with 0%nat in *. cbn [firstn prod] in *. lia. }
    exists q, (if d_levl db <? d_levl da then 1 else d_nbr da), dist.
    split; [lia|]. split; [lia|]. split; [auto|]. split; [auto|].
    unfold archTleafDomDist. destruct (Z.ltb_spec (d_levl db) (d_levl da)) as [L|L].
    - rewrite EC. cbn [bind]. destruct (Z.ltb_spec (d_levl da) (d_levl db)); [lia|]. split; reflexivity.
    - assert (EE : d_levl da = d_levl db) by lia. rewrite EE in *. rewrite Z.ltb_irrefl. cbn [bind].
      rewrite Z.div_mul in Eq by lia. subst q.
      assert (dist = 0).
      { unfold tclimb in EC. rewrite Z.sub_diag, for_nil in EC by lia. congruence. }
      subst dist. split; reflexivity. }
  assert (FIN : forall da db, twf a da -> twf a db -> (forall t, tmem a da t -> tmem a db t -> False) -> d_levl db <= d_levl da ->
    exists x, archTleafDomDist a da db = Ok x /\ archTleafDomDist a db da = Ok x /\ 0 <= x).
  { intros da db Wa Wb HDD Hl. destruct (CORE da db Wa Wb HDD Hl) as (m & na & dist & H1 & H2 & H3 & H4 & -> & ->).
    pose proof (twf_bound a Ha db Wb) as (C0 & C1 & C2 & C3).
    destruct (tmeet_sym (d_levl db) m (d_min db) dist) as (x & E1 & E2 & E3); [lia|lia|lia|lia|]. rewrite E1, E2.
    assert (0 <= Z.quot dist 2) by (apply Z.quot_pos; lia).
    destruct (Z.leb_spec m (d_min db)), (Z.leb_spec (d_min db) m); try lia.
    - destruct (_ <=? _); eauto.
    - destruct (_ <=? _); eauto. }
  destruct (Z.le_ge_cases (d_levl d1) (d_levl d0)) as [L|L].
  - apply FIN; auto.
  - destruct (FIN d1 d0 W1 W0) as (x & E1 & E2 & E3); eauto.
Qed.

Lemma tleaf_saveload imax : 9 <= imax -> saveload_ok (twf a) (fun d => d_levl d <= imax /\ d_min d <= imax /\ d_nbr d <= imax)
  archTleafDomSave (archTleafDomLoad imax a).
Proof.
  intros Hm d ws rest W (F1 & F2 & F3) Hw. pose proof (twf_bound a Ha d W) as (A0 & A1 & A2 & A3).
  unfold archTleafDomLoad, archTleafDomSave.
  replace (ws ++ (intSave (d_levl d) ++ [32] ++ intSave (d_min d) ++ [32] ++ intSave (d_nbr d) ++ [32]) ++ rest)
    with (ws ++ (intSave (d_levl d) ++ [32] ++ intSave (d_min d) ++ [32]) ++ intSave (d_nbr d) ++ [32] ++ rest)
    by (rewrite <- !app_assoc; reflexivity).
  rewrite load2_save by (auto; lia). cbn [bind].
  change (32 :: intSave (d_nbr d) ++ [32] ++ rest) with ([32] ++ intSave (d_nbr d) ++ 32 :: rest).
  rewrite intLoad_intSave; [|lia|lia|apply (blank1 32 eq_refl)|cbn; unfold digit_char; lia].
  cbn [orerr bind]. unfold t_levlnbr.
  destruct (Z.ltb_spec (d_levl d) 0); [lia|]. destruct (Z.ltb_spec n (d_levl d)); [lia|]. now destruct d.
Qed.
End D.
