(** Proofs about mesh and torus architectures. *)
From Verif Require Import Base M_Int S_Int P_Int M_Arch S_Arch P_Arch.

Lemma Forall2_at {A B} `{Dflt A} `{Dflt B} (R : A -> B -> Prop) l l' :
  Forall2 R l l' <-> zlen l = zlen l' /\ forall k, 0 <= k < zlen l -> R (at_ 0 l k) (at_ 0 l' k).
Proof.
  split.
  - induction 1 as [|x y l l' Hxy HF [IL IH]]; [split; [auto|intros k Hk; change (zlen (@nil A)) with 0 in Hk; lia]|].
    rewrite !zlen_cons. split; [lia|]. intros k Hk.
    destruct (Z.eq_dec k 0) as [->|]; [now rewrite !at_cons_0|].
    rewrite !at_cons_S by lia. apply IH. lia.
  - revert l'. induction l as [|x l IH]; intros [|y l'] [HL HR].
    + constructor.
    + rewrite zlen_cons in HL. change (zlen (@nil A)) with 0 in HL. pose proof (zlen_nonneg l'). lia.
    + rewrite zlen_cons in HL. change (zlen (@nil B)) with 0 in HL. pose proof (zlen_nonneg l). lia.
    + rewrite !zlen_cons in *. pose proof (zlen_nonneg l). constructor.
      * specialize (HR 0 ltac:(lia)). now rewrite !at_cons_0 in HR.
      * apply IH. split; [lia|]. intros k Hk. specialize (HR (k + 1) ltac:(lia)).
        rewrite !at_cons_S in HR by lia. now replace (k + 1 - 1) with k in HR by lia.
Qed.

Lemma NoDup_flat_map {A B} (f : A -> list B) l :
  NoDup l -> (forall x, In x l -> NoDup (f x)) -> (forall x y z, In x l -> In y l -> In z (f x) -> In z (f y) -> x = y) ->
  NoDup (flat_map f l).
Proof.
  intros HN. induction HN as [|x l Hx HN IH]; intros Hf Hd; simpl; [constructor|].
  assert (IH' : NoDup (flat_map f l)) by (apply IH; intros; [apply Hf; now right|eapply Hd; eauto; now right]).
  assert (HX : forall z, In z (f x) -> ~ In z (flat_map f l)).
  { intros z Hz Hi. apply in_flat_map in Hi. destruct Hi as (y & Hy & Hzy).
    assert (x = y) by (eapply Hd; eauto; [now left|now right]). subst. auto. }
  specialize (Hf x (or_introl eq_refl)). clear -Hf HX IH'.
  induction Hf as [|z l' Hz Hf IHf]; simpl; auto. constructor.
  - rewrite in_app_iff. intros [?|?]; [auto|]. apply (HX z); simpl; auto.
  - apply IHf. intros; apply HX; now right.
Qed.

Definition dims_ok (c : list Z) : Prop := Forall (fun n => 1 <= n) c.
Definition bsize (d : mdom) : Z := prod (map (fun b => snd b - fst b + 1) d).

Lemma prod_pos c : dims_ok c -> 1 <= prod c.
Proof. induction 1; simpl; nia. Qed.

Lemma mwf_dims c d : mwf c d -> dims_ok c.
Proof. induction 1; constructor; auto. lia. Qed.

Lemma zlen_coords c t : zlen (coords c t) = zlen c.
Proof. revert t. induction c; intros; simpl; auto. rewrite !zlen_cons. now rewrite IHc. Qed.

Lemma mmem_cons c0 c b d t : 1 <= c0 -> dims_ok c ->
  mmem (c0 :: c) (b :: d) t <-> fst b <= t mod c0 <= snd b /\ mmem c d (t / c0).
Proof.
  intros H0 Hc. unfold mmem, box. cbn [coords prod].
  pose proof (Z.div_mod t c0 ltac:(lia)). pose proof (Z.mod_pos_bound t c0 ltac:(lia)).
  pose proof (prod_pos c Hc).
  assert (HT : 0 <= t < c0 * prod c <-> 0 <= t / c0 < prod c).
  { split; intros; [|nia]. split; [apply Z.div_pos; lia|apply Z.div_lt_upper_bound; lia]. }
  rewrite HT. split.
  - intros [? F]. inversion F; subst. auto.
  - intros (? & ? & ?). split; auto.
Qed.

Fixpoint meshlist (c : list Z) (d : mdom) : list Z :=
  match c, d with
  | c0 :: c', b :: d' => flat_map (fun t' => map (fun x => t' * c0 + x) (zseq (fst b) (snd b - fst b + 1))) (meshlist c' d')
  | _, _ => [0]
  end.

Lemma meshlist_spec c d : mwf c d ->
  NoDup (meshlist c d) /\ (forall t, In t (meshlist c d) <-> mmem c d t) /\ zlen (meshlist c d) = bsize d /\ 1 <= bsize d.
Proof.
  induction 1 as [|c0 b c d Hb HF (IN & II & IL & IP)].
  - split; [constructor; [easy|constructor]|]. split; [|split; [reflexivity|unfold bsize; simpl; lia]].
    intros t. simpl. unfold mmem; simpl. split.
    + intros [<-|[]]. split; [lia|constructor].
    + intros [? _]. lia.
  - pose proof (mwf_dims _ _ HF) as Hc. cbn [meshlist].
    assert (E : forall t' x, fst b <= x <= snd b -> (t' * c0 + x) mod c0 = x /\ (t' * c0 + x) / c0 = t').
    { intros. rewrite Z.add_comm, Z.mod_add, Z.div_add by lia. rewrite Z.mod_small, Z.div_small by lia. lia. }
    assert (EI : forall t' z, In z (map (fun x => t' * c0 + x) (zseq (fst b) (snd b - fst b + 1))) <-> fst b <= z mod c0 <= snd b /\ z / c0 = t').
    { intros t' z. rewrite in_map_iff. split.
      - intros (x & <- & Hx). apply In_zseq in Hx. destruct (E t' x ltac:(lia)) as [-> ->]. lia.
      - intros [Hz <-]. exists (z mod c0). rewrite In_zseq. split; [|lia].
        pose proof (Z.div_mod z c0). lia. }
    split; [|split; [|split]].
    + apply NoDup_flat_map; auto.
      * intros x _. apply FinFun.Injective_map_NoDup; [|apply NoDup_zseq]. intros u v. lia.
      * intros x y z _ _. rewrite !EI. intuition congruence.
    + intros t. rewrite mmem_cons by (auto; lia). rewrite in_flat_map. split.
      * intros (t' & Ht' & Hz). apply EI in Hz. destruct Hz as [? <-]. split; auto. now apply II.
      * intros [? Hm]. exists (t / c0). split; [now apply II|]. now apply EI.
    + unfold bsize in *. cbn [map prod]. rewrite <- IL.
      assert (G : forall l, zlen (flat_map (fun t' => map (fun x => t' * c0 + x) (zseq (fst b) (snd b - fst b + 1))) l)
         = (snd b - fst b + 1) * zlen l).
      { induction l; [simpl; unfold zlen; simpl; lia|].
        cbn [flat_map]. rewrite zlen_app, zlen_map, zlen_zseq, zlen_cons, IHl by lia. lia. }
      apply G.
    + unfold bsize in *. cbn [map prod]. nia.
Qed.

Lemma mesh_sz c d : mwf c d -> 1 <= bsize d /\ card (mmem c d) (bsize d).
Proof.
  intros H. destruct (meshlist_spec c d H) as (N & I & L & P). split; auto. exists (meshlist c d). auto.
Qed.

(** ** Pointwise forms *)
Lemma mwf_at c d : mwf c d <-> zlen c = zlen d /\ forall k, 0 <= k < zlen c -> 0 <= lo d k <= hi d k /\ hi d k < dim c k.
Proof. unfold mwf. rewrite Forall2_at. reflexivity. Qed.

Lemma box_at x d : box x d <-> zlen x = zlen d /\ forall k, 0 <= k < zlen x -> lo d k <= at_ 0 x k <= hi d k.
Proof. unfold box. rewrite Forall2_at. reflexivity. Qed.

Lemma lo_upd d k v j : 0 <= k < zlen d -> 0 <= j < zlen d -> lo (upd 0 d k v) j = if j =? k then fst v else lo d j.
Proof. intros. unfold lo. rewrite at_upd by lia. rewrite Z.eqb_sym. now destruct (j =? k). Qed.
Lemma hi_upd d k v j : 0 <= k < zlen d -> 0 <= j < zlen d -> hi (upd 0 d k v) j = if j =? k then snd v else hi d j.
Proof. intros. unfold hi. rewrite at_upd by lia. rewrite Z.eqb_sym. now destruct (j =? k). Qed.

Lemma msplit_spec c d k m : mwf c d -> 0 <= k < zlen c -> lo d k <= m < hi d k ->
  let '(d0, d1) := msplit d k m in
  mwf c d0 /\ mwf c d1 /\ (forall t, mmem c d t <-> mmem c d0 t \/ mmem c d1 t) /\ (forall t, mmem c d0 t -> mmem c d1 t -> False).
Proof.
  intros W Hk Hm. unfold msplit. apply mwf_at in W. destruct W as [WL W].
  split; [|split; [|split]].
  - apply mwf_at. rewrite zlen_upd. split; auto. intros j Hj. specialize (W j Hj).
    rewrite lo_upd, hi_upd by lia. destruct (Z.eqb_spec j k); subst; cbn [fst snd]; lia.
  - apply mwf_at. rewrite zlen_upd. split; auto. intros j Hj. specialize (W j Hj).
    rewrite lo_upd, hi_upd by lia. destruct (Z.eqb_spec j k); subst; cbn [fst snd]; lia.
  - intros t. unfold mmem. rewrite !box_at, !zlen_upd, !zlen_coords.
    assert (HB : forall v, (forall j, 0 <= j < zlen c -> lo (upd 0 d k v) j <= at_ 0 (coords c t) j <= hi (upd 0 d k v) j) <->
      (fst v <= at_ 0 (coords c t) k <= snd v) /\ forall j, 0 <= j < zlen c -> j <> k -> lo d j <= at_ 0 (coords c t) j <= hi d j).
    { intros v. split.
      - intros H. split; [specialize (H k Hk); rewrite lo_upd, hi_upd, Z.eqb_refl in H by lia; auto|].
        intros j Hj Hne. specialize (H j Hj). rewrite lo_upd, hi_upd in H by lia. destruct (Z.eqb_spec j k); [contradiction|auto].
      - intros [H1 H2] j Hj. rewrite lo_upd, hi_upd by lia. destruct (Z.eqb_spec j k); subst; auto. }
    rewrite !HB. cbn [fst snd]. split.
    + intros (A & B & C). destruct (Z.le_gt_cases (at_ 0 (coords c t) k) m); [left|right];
        (split; [auto|split; [auto|]]); (split; [specialize (C k Hk); lia|intros; apply C; auto]).
    + intros [(A & B & C & F)|(A & B & C & F)]; (split; [auto|split; [auto|]]); intros j Hj;
        (destruct (Z.eq_dec j k); [subst; lia|auto]).
  - intros t [_ B0] [_ B1]. rewrite box_at, zlen_coords in B0, B1. destruct B0 as [_ B0], B1 as [_ B1].
    specialize (B0 k Hk). specialize (B1 k Hk). rewrite lo_upd, hi_upd, Z.eqb_refl in B0, B1 by lia. cbn [fst snd] in *. lia.
Qed.

Lemma bsize_at c d : mwf c d -> (bsize d = 1 <-> forall k, 0 <= k < zlen c -> lo d k = hi d k).
Proof.
  induction 1 as [|c0 b c d Hb HF IH].
  - split; [|auto]. intros _ k Hk. change (zlen (@nil Z)) with 0 in Hk. lia.
  - unfold bsize in *. cbn [map prod].
    assert (1 <= prod (map (fun b => snd b - fst b + 1) d)) by (destruct (meshlist_spec c d HF) as (_ & _ & _ & P); exact P).
    split.
    + intros HP. assert (HP2 : snd b - fst b + 1 = 1 /\ prod (map (fun b => snd b - fst b + 1) d) = 1) by nia.
      destruct HP2 as [HP1 HP2]. pose proof (proj1 IH HP2) as HP3. intros k Hk. rewrite zlen_cons in Hk.
      destruct (Z.eq_dec k 0) as [->|]; [unfold lo, hi; rewrite !at_cons_0; lia|].
      unfold lo, hi. rewrite !at_cons_S by lia. apply HP3. lia.
    + intros HA. assert (HA2 : prod (map (fun b => snd b - fst b + 1) d) = 1).
      { apply (proj2 IH). intros k Hk. specialize (HA (k + 1)). rewrite zlen_cons in HA. unfold lo, hi in *.
        rewrite !at_cons_S in HA by lia. replace (k + 1 - 1) with k in HA by lia. apply HA. lia. }
      specialize (HA 0). rewrite zlen_cons in HA. pose proof (zlen_nonneg c). unfold lo, hi in HA. rewrite !at_cons_0 in HA.
      specialize (HA ltac:(lia)). nia.
Qed.

(** ** Numbering *)
Fixpoint numL (c x : list Z) : Z :=
  match c, x with c0 :: c', x0 :: x' => x0 + c0 * numL c' x' | _, _ => 0 end.

Definition inrng (c x : list Z) : Prop := Forall2 (fun n x => 0 <= x < n) c x.

Lemma coords_num c x : inrng c x -> coords c (numL c x) = x /\ 0 <= numL c x < prod c.
Proof.
  induction 1 as [|n x0 c x Hx HF [IH1 IH2]]; simpl; [split; [auto|lia]|].
  split; [|nia]. replace ((x0 + n * numL c x) mod n) with x0.
  - replace ((x0 + n * numL c x) / n) with (numL c x); [now rewrite IH1|].
    rewrite Z.mul_comm, Z.div_add by lia. rewrite Z.div_small by lia. lia.
  - rewrite Z.mul_comm, Z.mod_add by lia. now rewrite Z.mod_small by lia.
Qed.

Lemma num_coords c t : dims_ok c -> 0 <= t < prod c -> numL c (coords c t) = t.
Proof.
  intros Hc. revert t. induction Hc as [|n c Hn Hc IH]; intros t Ht; simpl in *; [lia|].
  rewrite IH.
  - pose proof (Z.div_mod t n). lia.
  - split; [apply Z.div_pos; lia|apply Z.div_lt_upper_bound; lia].
Qed.

Lemma coords_inrng c t : dims_ok c -> inrng c (coords c t).
Proof.
  intros Hc. revert t. induction Hc; intros; simpl; constructor; [|apply IHHc]. apply Z.mod_pos_bound. lia.
Qed.

Lemma numL_mono c x y : dims_ok c -> Forall2 Z.le x y -> zlen x = zlen c -> numL c x <= numL c y.
Proof.
  intros Hc. revert x y. induction Hc as [|n c Hn Hc IH]; intros x y HF HL; simpl; [lia|].
  destruct HF as [|x0 y0 x y H0 HF]; [lia|]. rewrite !zlen_cons in HL. specialize (IH x y HF ltac:(lia)). nia.
Qed.

Lemma meshNum_numL c x : c <> [] -> zlen x = zlen c -> meshNum c x = numL c x.
Proof.
  revert x. induction c as [|c0 c IH]; intros x Hc HL; [congruence|].
  destruct x as [|x0 x]; [rewrite zlen_cons in HL; change (zlen (@nil Z)) with 0 in HL; pose proof (zlen_nonneg c); lia|].
  rewrite !zlen_cons in HL. destruct c as [|c1 c].
  - destruct x; [simpl; lia|rewrite zlen_cons in HL; change (zlen (@nil Z)) with 0 in HL; pose proof (zlen_nonneg x); lia].
  - cbn [meshNum numL] in *. rewrite IH by (congruence || lia). cbn [numL]. lia.
Qed.

Lemma meshTerm_spec c t : dims_ok c -> 0 <= t -> meshTerm c t = (coords c t, t / prod c).
Proof.
  intros Hc. revert t. induction Hc as [|n c Hn Hc IH]; intros t Ht; simpl; [now rewrite Z.div_1_r|].
  rewrite Z.quot_div_nonneg, Z.rem_mod_nonneg by lia. rewrite IH by (apply Z.div_pos; lia).
  pose proof (prod_pos c Hc). rewrite Z.div_div by lia. reflexivity.
Qed.

Definition point (x : list Z) : mdom := map (fun v => (v, v)) x.

Lemma point_wf c x : inrng c x -> mwf c (point x).
Proof. induction 1; simpl; constructor; auto. simpl. lia. Qed.

Lemma box_point x y : box x (point y) <-> x = y.
Proof.
  split.
  - revert x. induction y; intros x H; inversion H; subst; auto. cbn [fst snd] in *. f_equal; [lia|auto].
  - intros <-. induction x; constructor; auto. cbn. lia.
Qed.

Lemma point_mem c t t' : dims_ok c -> 0 <= t < prod c -> mmem c (point (coords c t)) t' <-> t' = t.
Proof.
  intros Hc Ht. unfold mmem. rewrite box_point. split.
  - intros [Ht' E]. rewrite <- (num_coords c t), <- (num_coords c t') by auto. now rewrite E.
  - intros ->. auto.
Qed.

Lemma map_fst_point x : map fst (point x) = x.
Proof. unfold point. rewrite map_map. apply map_id. Qed.

Lemma lows_inrng c d : mwf c d -> inrng c (map fst d).
Proof. induction 1; simpl; constructor; auto. lia. Qed.
Lemma highs_inrng c d : mwf c d -> inrng c (map snd d).
Proof. induction 1; simpl; constructor; auto. lia. Qed.
Lemma low_box c d : mwf c d -> box (map fst d) d.
Proof. induction 1; simpl; constructor; auto. lia. Qed.
Lemma high_box c d : mwf c d -> box (map snd d) d.
Proof. induction 1; simpl; constructor; auto. lia. Qed.

Lemma mesh_num_min c d : mwf c d -> mmem c d (numL c (map fst d)) /\ forall t, mmem c d t -> numL c (map fst d) <= t.
Proof.
  intros W. pose proof (mwf_dims _ _ W) as Hc.
  destruct (coords_num c (map fst d) (lows_inrng _ _ W)) as [E B]. split.
  - split; auto. rewrite E. eapply low_box; eauto.
  - intros t [Ht HB]. rewrite <- (num_coords c t) by auto. apply numL_mono; auto.
    + clear -HB. unfold box in HB. remember (coords c t) as x. clear Heqx. induction HB; simpl; constructor; auto. lia.
    + rewrite zlen_map. apply mwf_at in W. lia.
Qed.

Lemma mesh_incl_at c d0 d1 : mwf c d0 -> mwf c d1 ->
  (forall k, 0 <= k < zlen c -> incl1 d0 d1 k = true) <-> (forall t, mmem c d1 t -> mmem c d0 t).
Proof.
  intros W0 W1. pose proof (mwf_dims _ _ W0) as Hc.
  pose proof (proj1 (mwf_at _ _) W0) as [L0 _]. pose proof (proj1 (mwf_at _ _) W1) as [L1 _]. unfold incl1. split.
  - intros H t [Ht B]. split; auto. rewrite box_at, zlen_coords in *. destruct B as [_ B]. split; [lia|].
    intros k Hk. specialize (H k Hk). specialize (B k Hk). lia.
  - intros H k Hk.
    destruct (coords_num c (map fst d1) (lows_inrng _ _ W1)) as [El Bl].
    destruct (coords_num c (map snd d1) (highs_inrng _ _ W1)) as [Eh Bh].
    destruct (H (numL c (map fst d1))) as [_ Ml]; [split; auto; rewrite El; eapply low_box; eauto|].
    destruct (H (numL c (map snd d1))) as [_ Mh]; [split; auto; rewrite Eh; eapply high_box; eauto|].
    rewrite El in Ml. rewrite Eh in Mh. rewrite box_at, zlen_map in Ml, Mh.
    destruct Ml as [_ Ml], Mh as [_ Mh]. specialize (Ml k ltac:(lia)). specialize (Mh k ltac:(lia)).
    rewrite at_map in Ml by lia. rewrite at_map in Mh by lia. unfold lo, hi in *. lia.
Qed.
