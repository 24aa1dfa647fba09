(** Proofs about labelled tree-leaf architectures. *)
From Verif Require Import Base M_Int S_Int P_Int M_Arch S_Arch P_Arch P_Mesh P_Tleaf.

Section L.
Context (a : tleaf) (HL : ltleaf_ok a).
Notation P := (zlen (t_perm a)).
Notation N := (t_termnbr a).
Notation n := (zlen (t_size a)).
Notation pm := (at_ 0 (t_perm a)).
Notation pi := (at_ 0 (t_peri a)).
Definition lab (q : Z) : Z := q - q mod P + pm (q mod P).

Lemma Lt : tleaf_ok a. Proof. apply HL. Qed.
Lemma LP : 1 <= P. Proof. apply HL. Qed.

Lemma pm_inv i : 0 <= i < P -> 0 <= pm i < P /\ pi (pm i) = i.
Proof. apply HL. Qed.

Lemma pm_surj j : 0 <= j < P -> exists i, 0 <= i < P /\ pm i = j.
Proof.
  intros Hj. assert (HI : In j (t_perm a)).
  { assert (HN : NoDup (t_perm a)).
    { apply (NoDup_at 0). intros i k Hi Hk E. pose proof (pm_inv i ltac:(lia)) as [_ Ei]. pose proof (pm_inv k ltac:(lia)) as [_ Ek]. congruence. }
    apply (NoDup_length_incl HN (l' := zseq 0 P)).
    - pose proof (zlen_zseq 0 P ltac:(apply zlen_nonneg)) as E. unfold zlen in *. lia.
    - intros x Hx. apply (In_at 0) in Hx. destruct Hx as (i & Hi & <-). apply In_zseq. apply pm_inv. lia.
    - apply In_zseq. lia. }
  apply (In_at 0) in HI. destruct HI as (i & Hi & E). exists i. split; [lia|auto].
Qed.

Lemma pi_inv j : 0 <= j < P -> 0 <= pi j < P /\ pm (pi j) = j.
Proof. intros Hj. destruct (pm_surj j Hj) as (i & Hi & <-). destruct (pm_inv i Hi) as [_ ->]. auto. Qed.

Lemma lab_mod q : lab q mod P = pm (q mod P) /\ lab q / P = q / P.
Proof.
  pose proof LP. pose proof (Z.mod_pos_bound q P ltac:(lia)) as Hm. destruct (pm_inv _ Hm) as [Hp _]. unfold lab.
  assert (E : q - q mod P + pm (q mod P) = pm (q mod P) + (q / P) * P) by (pose proof (Z.div_mod q P); lia).
  rewrite E. rewrite Z.mod_add, Z.div_add by lia. rewrite Z.mod_small, Z.div_small by lia. lia.
Qed.

Lemma lab_inj q q' : lab q = lab q' -> q = q'.
Proof.
  intros E. destruct (lab_mod q) as [A B], (lab_mod q') as [A' B']. pose proof LP.
  pose proof (Z.mod_pos_bound q P ltac:(lia)) as Hm. pose proof (Z.mod_pos_bound q' P ltac:(lia)) as Hm'.
  destruct (pm_inv _ Hm) as [_ E1]. destruct (pm_inv _ Hm') as [_ E2].
  rewrite (Z.div_mod q P), (Z.div_mod q' P) by lia. rewrite <- E1, <- E2. congruence.
Qed.

Lemma block_range q t : q / P = t / P -> 0 <= q < N -> 0 <= t < N.
Proof.
  intros E Hq. pose proof LP. destruct HL as (_ & _ & (k & Ek) & _).
  pose proof (Z.div_mod q P ltac:(lia)). pose proof (Z.div_mod t P ltac:(lia)).
  pose proof (Z.mod_pos_bound q P ltac:(lia)). pose proof (Z.mod_pos_bound t P ltac:(lia)).
  assert (0 <= q / P < k) by (split; [apply Z.div_pos; lia|apply Z.div_lt_upper_bound; lia]). nia.
Qed.

Lemma lab_range q : 0 <= q < N -> 0 <= lab q < N.
Proof. apply block_range. symmetry. apply lab_mod. Qed.

Lemma tmem_range d q : twf a d -> tmem a d q -> 0 <= q < N.
Proof.
  intros W. destruct (twf_bound a Lt d W) as (? & ? & ? & ?). unfold tmem, interval.
  rewrite <- (up_blk a Lt (d_levl d)). pose proof (blk_pos a Lt (d_levl d)). nia.
Qed.

Lemma lmem_lab d t : twf a d -> lmem a d t <-> exists q, tmem a d q /\ t = lab q.
Proof.
  intros W. unfold lmem. fold (lab). split; [intros [_ H]; exact H|].
  intros (q & Hq & ->). split; [apply lab_range; eapply tmem_range; eauto|]. exists q. auto.
Qed.

Lemma lmem_of d q : twf a d -> lmem a d (lab q) <-> tmem a d q.
Proof.
  intros W. rewrite lmem_lab by auto. split; [|eauto]. intros (q' & H & E). apply lab_inj in E. now subst.
Qed.

Lemma lab_surj t : 0 <= t < N -> exists q, 0 <= q < N /\ t = lab q /\ q = t - t mod P + pi (t mod P).
Proof.
  intros Ht. pose proof LP. pose proof (Z.mod_pos_bound t P ltac:(lia)) as Hm. destruct (pi_inv _ Hm) as [Hp E].
  exists (t - t mod P + pi (t mod P)).
  assert (E2 : t - t mod P + pi (t mod P) = pi (t mod P) + (t / P) * P) by (pose proof (Z.div_mod t P); lia).
  assert (M : (t - t mod P + pi (t mod P)) mod P = pi (t mod P) /\ (t - t mod P + pi (t mod P)) / P = t / P).
  { rewrite E2. rewrite Z.mod_add, Z.div_add by lia. rewrite Z.mod_small, Z.div_small by lia. lia. }
  destruct M as [M1 M2]. split; [|split; [|auto]].
  - apply (block_range t); auto.
  - unfold lab. rewrite M1, E. lia.
Qed.

Lemma ltleaf_sz d : twf a d -> 1 <= tsz a d /\ card (lmem a d) (tsz a d).
Proof.
  intros W. destruct (tleaf_sz a Lt d W) as (Hp & l & N1 & I & L). split; [auto|].
  exists (map lab l). split; [apply FinFun.Injective_map_NoDup; auto; intros x y; apply lab_inj|].
  split; [|now rewrite zlen_map]. intros t. rewrite in_map_iff, lmem_lab by auto.
  split; intros (q & H1 & H2); exists q; (split; [|]).
  - now apply I.
  - auto.
  - auto.
  - now apply I.
Qed.

Lemma ltleaf_frst : frst_ok N (twf a) (lmem a) (archTleafDomFrst a).
Proof.
  destruct (tleaf_frst a Lt) as (d & E & W & M). exists d. split; [auto|]. split; [auto|].
  intros t. split; [intros [? _]; auto|]. intros Ht. destruct (lab_surj t Ht) as (q & Hq & -> & _).
  apply lmem_of; auto. now apply M.
Qed.

Lemma ltleaf_size : size_ok (twf a) (lmem a) (archTleafDomSize a).
Proof.
  intros d W. destruct (tleaf_size a Lt d W) as (k & E & Hk & C). exists k. split; [auto|]. split; [auto|].
  destruct (tleaf_sz a Lt d W) as [_ C']. rewrite (card_unique _ _ _ C C'). apply (ltleaf_sz d W).
Qed.

Lemma ltleaf_bipart : bipart_ok (twf a) (lmem a) (archTleafDomBipart a).
Proof.
  intros d k W C. destruct (ltleaf_sz d W) as [_ C']. destruct (tleaf_sz a Lt d W) as [_ C2].
  pose proof (card_unique _ _ _ C C') as ->. destruct (tleaf_bipart a Lt d _ W C2) as [B1 B2]. split; [auto|].
  intros H. destruct (B2 H) as (d0 & d1 & E & W0 & W1 & U & X). exists d0, d1. split; [auto|]. split; [auto|]. split; [auto|]. split.
  - intros t. rewrite !lmem_lab by auto. split.
    + intros (q & Hq & ->). apply U in Hq. destruct Hq; [left|right]; eauto.
    + intros [(q & Hq & ->)|(q & Hq & ->)]; exists q; (split; [apply U; auto|auto]).
  - intros t. rewrite !lmem_lab by auto. intros (q & Hq & ->) (q' & Hq' & E'). apply lab_inj in E'. subst. eauto.
Qed.

Lemma ltleaf_num_eq d : twf a d -> archLtleafDomNum a d = Ok (lab (d_min d * tblk a (d_levl d))).
Proof.
  intros W. destruct (twf_bound a Lt d W) as (A & B & _). unfold archLtleafDomNum. rewrite (tblock_ok a) by auto. cbn [bind].
  pose proof LP. destruct (Z.eqb_spec P 0) as [?|HnP]; [lia|]. pose proof (blk_pos a Lt (d_levl d)).
  rewrite Z.rem_mod_nonneg by nia. rewrite rd_ok; [reflexivity|].
  pose proof (Z.mod_pos_bound (d_min d * tblk a (d_levl d)) P ltac:(lia)). lia.
Qed.

Lemma ltleaf_num : num_in (twf a) (lmem a) (archLtleafDomNum a).
Proof.
  intros d W. rewrite ltleaf_num_eq by auto. eexists; split; [reflexivity|]. apply lmem_of; auto.
  destruct (twf_bound a Lt d W) as (? & ? & ? & ?). pose proof (blk_pos a Lt (d_levl d)). unfold tmem, interval. nia.
Qed.

Lemma ltleaf_term : 1 <= n -> term_ok N (twf a) (lmem a) (archLtleafDomTerm a) (archLtleafDomNum a).
Proof.
  intros Hn. unfold archLtleafDomTerm. split; intros t Ht; destruct (Z.ltb_spec t N); try lia; auto.
  pose proof LP. destruct (Z.eqb_spec P 0) as [?|HnP]; [lia|]. rewrite Z.rem_mod_nonneg by lia.
  pose proof (Z.mod_pos_bound t P ltac:(lia)).
  rewrite rd_ok by (destruct HL as (_ & _ & _ & -> & _); lia). cbn [bind].
  destruct (lab_surj t Ht) as (q & Hq & E & Eq). rewrite <- Eq. unfold t_levlnbr. eexists; split; [reflexivity|].
  assert (W : twf a (mkt n q 1)) by (apply (term_wf a Lt); auto). split; [auto|]. split.
  - intros t'. rewrite lmem_lab by auto. split.
    + intros (q' & Hq' & ->). apply (term_mem a) in Hq'. congruence.
    + intros ->. exists q. split; [now apply (term_mem a)|auto].
  - rewrite ltleaf_num_eq by auto. cbn [d_min d_levl]. rewrite (blk_n a), Z.mul_1_r. now rewrite <- E.
Qed.

Lemma ltleaf_incl_set d0 d1 : twf a d0 -> twf a d1 ->
  (forall t, lmem a d1 t -> lmem a d0 t) <-> (forall t, tmem a d1 t -> tmem a d0 t).
Proof.
  intros W0 W1. split.
  - intros H q Hq. apply lmem_of in Hq; auto. apply H in Hq. now apply lmem_of in Hq.
  - intros H t. rewrite !lmem_lab by auto. intros (q & Hq & ->). eauto.
Qed.

Lemma ltleaf_dist_term : 1 <= n ->
  dist_term N (archLtleafDomTerm a) (archTleafDomDist a)
    (fun t0 t1 => leafdist (ttree a) (t0 - t0 mod P + pi (t0 mod P)) (t1 - t1 mod P + pi (t1 mod P))).
Proof.
  intros Hn t0 t1 d0 d1 H0 H1. unfold archLtleafDomTerm.
  destruct (Z.ltb_spec t0 N); [|lia]. destruct (Z.ltb_spec t1 N); [|lia]. pose proof LP.
  destruct (Z.eqb_spec P 0) as [?|HnP]; [lia|]. rewrite !Z.rem_mod_nonneg by lia.
  pose proof (Z.mod_pos_bound t0 P ltac:(lia)). pose proof (Z.mod_pos_bound t1 P ltac:(lia)).
  rewrite !rd_ok by (destruct HL as (_ & _ & _ & -> & _); lia). cbn [bind].
  destruct (lab_surj t0 H0) as (q0 & Hq0 & _ & Eq0). destruct (lab_surj t1 H1) as (q1 & Hq1 & _ & Eq1).
  rewrite <- Eq0, <- Eq1. intros [= <-] [= <-].
  apply (tleaf_dist_term a Lt Hn q0 q1); auto; unfold archTleafDomTerm;
    (destruct (Z.ltb_spec q0 N); [|lia]); (destruct (Z.ltb_spec q1 N); [|lia]); reflexivity.
Qed.
End L.
