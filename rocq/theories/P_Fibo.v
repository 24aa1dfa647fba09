(** Circular lists of the Fibonacci heap. *)
From Verif Require Import Base M_Fibo.

Lemma okp_iff h x : okp h x = true <-> 0 <= x < fnbr h.
Proof. unfold okp. rewrite andb_true_iff, Z.leb_le, Z.ltb_lt. tauto. Qed.

Lemma fset_same f x v : fset f x v x = v.
Proof. unfold fset. now rewrite Z.eqb_refl. Qed.
Lemma fset_other f x v y : y <> x -> fset f x v y = f y.
Proof. unfold fset. intros. destruct (Z.eqb_spec y x); [contradiction|reflexivity]. Qed.

(** [a], then [l], then [b], linked both ways. *)
Definition lk (h : fheap) (a b : Z) : Prop := next h a = b /\ prev h b = a.
Fixpoint seg (h : fheap) (a : Z) (l : list Z) (b : Z) : Prop :=
  match l with [] => lk h a b | c :: l' => lk h a c /\ seg h c l' b end.
Definition ring (h : fheap) (l : list Z) : Prop :=
  match l with [] => True | a :: l' => seg h a l' a end.

Lemma seg_app h a l1 c l2 b : seg h a (l1 ++ c :: l2) b <-> seg h a l1 c /\ seg h c l2 b.
Proof.
  revert a. induction l1 as [|d l1 IH]; intros a.
  - cbn [app seg]. tauto.
  - cbn [app seg]. rewrite IH. tauto.
Qed.

Lemma ring_rot h l1 l2 : ring h (l1 ++ l2) -> ring h (l2 ++ l1).
Proof.
  destruct l1 as [|a l1]; [now rewrite app_nil_r|]. destruct l2 as [|b l2]; [now rewrite app_nil_r|].
  cbn [app ring]. rewrite !seg_app. tauto.
Qed.

Definition same_links (h h' : fheap) (y : Z) : Prop := next h' y = next h y /\ prev h' y = prev h y.

Lemma seg_frame2 h h' l : forall a b, (forall y, In y (a :: l) -> next h' y = next h y) ->
  (forall y, In y (b :: l) -> prev h' y = prev h y) -> seg h a l b -> seg h' a l b.
Proof.
  induction l as [|c l IH]; intros a b Hn Hp Hs.
  - destruct Hs as [H1 H2]. split; [rewrite Hn by now left|rewrite Hp by now left]; assumption.
  - destruct Hs as [[H1 H2] H3]. split.
    + split; [rewrite Hn by now left|rewrite Hp by (right; now left)]; assumption.
    + apply IH; auto.
      * intros y Hy. apply Hn. now right.
      * intros y Hy. apply Hp. destruct Hy as [->|Hy]; simpl; auto.
Qed.

Lemma seg_frame h h' l a b : (forall y, In y (a :: b :: l) -> same_links h h' y) -> seg h a l b -> seg h' a l b.
Proof.
  intros Hf. apply seg_frame2; intros y Hy; apply Hf; destruct Hy as [->|Hy]; simpl; auto.
Qed.

Lemma ring_frame h h' l : (forall y, In y l -> same_links h h' y) -> ring h l -> ring h' l.
Proof.
  destruct l as [|a l]; cbn [ring]; [auto|]. intros Hf. apply seg_frame.
  intros y Hy. apply Hf. destruct Hy as [->|[->|Hy]]; simpl; auto.
Qed.

Lemma seg_next h a l b : seg h a l b -> next h a = hd b l.
Proof. destruct l; simpl; [intros [H _]|intros [[H _] _]]; exact H. Qed.
Lemma seg_prev h a l b : seg h a l b -> prev h b = last l a.
Proof.
  revert a. induction l as [|c l IH]; intros a; cbn [seg].
  - intros [_ H]. exact H.
  - intros [_ H]. rewrite (IH _ H). destruct l; [reflexivity|]. clear. cbn [last].
    revert z. induction l; intros z; [reflexivity|]. cbn [last] in *. destruct l; auto.
Qed.
Lemma seg_prev_in h a l b : seg h a l b -> In (prev h b) (a :: l).
Proof.
  revert a. induction l as [|c l IH]; intros a; cbn [seg].
  - intros [_ H]. left. congruence.
  - intros [_ H]. right. apply IH, H.
Qed.

(** Same fields except for the links; same everything except for the links. *)
Definition same_data (h h' : fheap) : Prop :=
  fnbr h' = fnbr h /\ pare h' = pare h /\ chld h' = chld h /\ defl h' = defl h /\ degr h' = degr h.
Lemma same_data_refl h : same_data h h.
Proof. repeat split. Qed.
Lemma same_data_trans h1 h2 h3 : same_data h1 h2 -> same_data h2 h3 -> same_data h1 h3.
Proof. unfold same_data; intuition congruence. Qed.

Definition inh (h : fheap) (l : list Z) : Prop := forall x, In x l -> 0 <= x < fnbr h.

Lemma fget_ok f h x : 0 <= x < fnbr h -> fget f h x = Ok (f h x).
Proof. intros H. unfold fget. apply okp_iff in H. now rewrite H. Qed.
Lemma set_next_ok h x v : 0 <= x < fnbr h ->
  set_next h x v = Ok (mkF (fnbr h) (pare h) (chld h) (prev h) (fset (next h) x v) (defl h) (degr h)).
Proof. intros H. unfold set_next. apply okp_iff in H. now rewrite H. Qed.
Lemma set_prev_ok h x v : 0 <= x < fnbr h ->
  set_prev h x v = Ok (mkF (fnbr h) (pare h) (chld h) (fset (prev h) x v) (next h) (defl h) (degr h)).
Proof. intros H. unfold set_prev. apply okp_iff in H. now rewrite H. Qed.
Lemma set_pare_ok h x v : 0 <= x < fnbr h ->
  set_pare h x v = Ok (mkF (fnbr h) (fset (pare h) x v) (chld h) (prev h) (next h) (defl h) (degr h)).
Proof. intros H. unfold set_pare. apply okp_iff in H. now rewrite H. Qed.
Lemma set_chld_ok h x v : 0 <= x < fnbr h ->
  set_chld h x v = Ok (mkF (fnbr h) (pare h) (fset (chld h) x v) (prev h) (next h) (defl h) (degr h)).
Proof. intros H. unfold set_chld. apply okp_iff in H. now rewrite H. Qed.
Lemma set_defl_ok h x v : 0 <= x < fnbr h ->
  set_defl h x v = Ok (mkF (fnbr h) (pare h) (chld h) (prev h) (next h) (fset (defl h) x v) (degr h)).
Proof. intros H. unfold set_defl. apply okp_iff in H. now rewrite H. Qed.

Lemma linkAfter_ok h o n l :
  ring h (o :: l) -> inh h (o :: l) -> 0 <= n < fnbr h -> ~ In n (o :: l) -> NoDup (o :: l) ->
  exists h', fiboHeapLinkAfter h o n = Ok h' /\ same_data h h' /\ ring h' (o :: n :: l) /\
    forall y, ~ In y (n :: o :: l) -> same_links h h' y.
Proof.
  intros Hr Hin Hn Hni Hnd. cbn [ring] in Hr.
  assert (Ho : 0 <= o < fnbr h) by (apply Hin; now left).
  pose proof (seg_next _ _ _ _ Hr) as E.
  assert (Hq : In (next h o) (o :: l)) by (rewrite E; destruct l; simpl; auto).
  unfold fiboHeapLinkAfter. rewrite fget_ok by auto. cbn [bind].
  rewrite set_next_ok by auto. cbn [bind fnbr prev next].
  rewrite set_prev_ok by auto. cbn [bind fnbr prev next].
  rewrite set_prev_ok by (cbn [fnbr]; apply Hin, Hq). cbn [bind fnbr prev next pare chld defl degr].
  rewrite set_next_ok by auto. cbn [fnbr prev next pare chld defl degr].
  eexists. split; [reflexivity|]. split; [repeat split|].
  assert (Hno : n <> o) by (intros ->; apply Hni; now left).
  split.
  - cbn [ring seg]. split.
    + split; cbn [next prev].
      * now rewrite fset_same.
      * rewrite fset_other by (intros ->; contradiction). now rewrite fset_same.
    + pose proof (proj1 (NoDup_cons_iff _ _) Hnd) as [Ha Hb].
      destruct l as [|c l]; cbn [seg] in *.
      * split; cbn [next prev].
        -- rewrite fset_other by auto. rewrite fset_same. apply E.
        -- rewrite E. cbn [hd]. now rewrite fset_same.
      * assert (Ec : next h o = c) by exact E. rewrite Ec.
        assert (Hnc : n <> c) by (intros ->; apply Hni; right; now left).
        assert (Hoc : o <> c) by (intros ->; apply Ha; now left).
        destruct Hr as [[H1 H2] H3]. pose proof (proj1 (NoDup_cons_iff _ _) Hb) as [Hc Hd].
        split; [split; cbn [next prev]|].
        -- rewrite fset_other by auto. now rewrite fset_same.
        -- now rewrite fset_same.
        -- eapply seg_frame2; [| |exact H3]; cbn [next prev]; intros y Hy.
           ++ rewrite fset_other by (intros ->; apply Ha, Hy). rewrite fset_other by (intros ->; apply Hni; right; exact Hy). reflexivity.
           ++ rewrite fset_other by (intros ->; destruct Hy as [Hy|Hy]; [congruence|contradiction]).
              rewrite fset_other by (intros ->; destruct Hy as [Hy|Hy]; [congruence|]; apply Hni; simpl; auto). reflexivity.
  - intros y Hy. split; cbn [next prev].
    + rewrite fset_other by (intros ->; apply Hy; simpl; auto). rewrite fset_other by (intros ->; apply Hy; simpl; auto). reflexivity.
    + rewrite fset_other by (intros ->; apply Hy; right; exact Hq). rewrite fset_other by (intros ->; apply Hy; simpl; auto). reflexivity.
Qed.

(** Removing [x], seen first, from its circular list. *)
Lemma unlink_ok1 h x l :
  ring h (x :: l) -> inh h (x :: l) -> NoDup (x :: l) ->
  exists h', fiboHeapUnlink h x = Ok h' /\ same_data h h' /\ ring h' l /\ same_links h h' x /\
    next h' x = hd x l /\ forall y, ~ In y (x :: l) -> same_links h h' y.
Proof.
  intros Hr Hin Hnd. cbn [ring] in Hr.
  assert (Hx : 0 <= x < fnbr h) by (apply Hin; now left).
  pose proof (seg_next _ _ _ _ Hr) as E.
  pose proof (seg_prev_in _ _ _ _ Hr) as Hp.
  assert (Hq : In (next h x) (x :: l)) by (rewrite E; destruct l; simpl; auto).
  pose proof (proj1 (NoDup_cons_iff _ _) Hnd) as [Ha Hb].
  unfold fiboHeapUnlink. rewrite fget_ok by auto. cbn [bind]. rewrite fget_ok by auto. cbn [bind].
  rewrite set_next_ok by (apply Hin, Hp). cbn [bind]. rewrite !fget_ok by auto. cbn [bind next prev].
  assert (En : fset (next h) (prev h x) (next h x) x = next h x).
  { unfold fset. destruct (Z.eqb_spec x (prev h x)); [|reflexivity].  reflexivity. }
  rewrite En. rewrite set_prev_ok by (cbn [fnbr]; apply Hin, Hq). cbn [fnbr prev next pare chld defl degr].
  assert (Ep : fset (prev h) (next h x) (prev h x) x = prev h x).
  { unfold fset. destruct (Z.eqb_spec x (next h x)); reflexivity. }
  eexists. split; [reflexivity|]. split; [repeat split|]. split; [|split; [|split]].
  - destruct l as [|c l]; [exact I|]. cbn [ring].
    cbn [seg] in Hr. destruct Hr as [[H1 H2] H3]. rewrite H1 in *.
    assert (Hxc : x <> c) by (intros ->; apply Ha; now left).
    destruct l as [|d l] using rev_ind; cbn [seg] in *.
    + destruct H3 as [H3 H4]. rewrite H4 in *. split; cbn [next prev]; now rewrite fset_same.
    + clear IHl. rewrite seg_app in H3. destruct H3 as [H3 [H4 H5]]. rewrite H5 in *.
      assert (Hdx : d <> x) by (intros ->; apply Ha; right; apply in_or_app; simpl; auto).
      pose proof (proj1 (NoDup_cons_iff _ _) Hb) as [Hc Hd].
      assert (Hdc : d <> next h x) by (intros ->; apply Hc; apply in_or_app; simpl; auto).
      rewrite H1 in Hdc.
      rewrite seg_app. split.
      * eapply seg_frame2; [| |exact H3]; cbn [next prev]; intros y Hy.
        -- rewrite fset_other; [reflexivity|]. intros ->. destruct Hy as [Hy|Hy]; [congruence|].
           apply NoDup_remove_2 in Hd. apply Hd. rewrite app_nil_r. exact Hy.
        -- rewrite fset_other; [reflexivity|]. intros ->. destruct Hy as [Hy|Hy]; [congruence|].
           apply Hc, in_or_app. auto.
      * split; cbn [next prev]; now rewrite fset_same.
  - split; cbn [next prev]; auto.
  - cbn [next]. rewrite En. exact E.
  - intros y Hy. split; cbn [next prev].
    + rewrite fset_other; [reflexivity|]. intros ->. contradiction.
    + rewrite fset_other; [reflexivity|]. intros ->. contradiction.
Qed.

(** Removing [x] wherever it is. *)
Lemma unlink_ok h l1 x l2 :
  ring h (l1 ++ x :: l2) -> inh h (l1 ++ x :: l2) -> NoDup (l1 ++ x :: l2) ->
  exists h', fiboHeapUnlink h x = Ok h' /\ same_data h h' /\ ring h' (l1 ++ l2) /\ ring h' (l2 ++ l1) /\ same_links h h' x /\
    next h x = hd x (l2 ++ l1) /\ forall y, ~ In y (l1 ++ x :: l2) -> same_links h h' y.
Proof.
  intros Hr Hin Hnd.
  assert (P : Permutation (l1 ++ x :: l2) (x :: l2 ++ l1)).
  { rewrite Permutation_app_comm. reflexivity. }
  destruct (unlink_ok1 h x (l2 ++ l1)) as (h' & E & Hd & Hr' & Hx & Hn & Hf).
  - apply (ring_rot _ l1 (x :: l2)), Hr.
  - intros y Hy. apply Hin. eapply Permutation_in; [symmetry; exact P|exact Hy].
  - eapply Permutation_NoDup; [exact P|exact Hnd].
  - exists h'. split; [exact E|]. split; [exact Hd|]. split; [apply ring_rot, Hr'|]. split; [exact Hr'|]. split; [exact Hx|].
    destruct Hx as [Hx _]. split; [congruence|]. intros y Hy. apply Hf. intros H. apply Hy.
    eapply Permutation_in; [symmetry; exact P|exact H].
Qed.
