(** Proofs about gain tables. *)
From Verif Require Import Base Mem M_Gain S_Gain.

(** ** Buckets *)
Lemma pow_pos s : 0 <= s -> 0 < 2 ^ s.
Proof. intros. apply Z.pow_pos_nonneg; lia. Qed.

Lemma logLoop_spec st w s j :
  g_submask st = 2 ^ (s + 1) - 1 -> 0 <= s -> w <= 64 -> 0 <= j < 2 ^ (w - 1) ->
  exists i, logLoop st j = Ok (i, j / 2 ^ i) /\ i = Z.max 0 (Z.log2 j - s).
Proof.
  intros Hm Hs Hw Hj. unfold logLoop.
  match goal with |- exists i, ?r = _ /\ _ => destruct (wp_ok_inv r (fun x => x = (Z.max 0 (Z.log2 j - s), j / 2 ^ (Z.max 0 (Z.log2 j - s))))) as (x & E & Ex) end.
  2:{ eexists. split; [|reflexivity]. rewrite E, Ex. reflexivity. }
  apply wp_loop with (I := fun '(i, k) => 0 <= i <= 63 /\ k = j / 2 ^ i /\ (0 < i -> 2 ^ (s + i) <= j)) (m := fun '(i, k) => 64 - i).
  - split; [lia|]. split; [now rewrite Z.pow_0_r, Z.div_1_r | lia].
  - lia.
  - intros [i k] (Hi & -> & Hi2). rewrite Hm. assert (P2 := pow_pos i ltac:(lia)).
    destruct (Z.ltb_spec (2 ^ (s + 1) - 1) (j / 2 ^ i)) as [Hlt|Hge].
    + cbn [wp].
      assert (Hji : 2 ^ (s + 1 + i) <= j).
      { rewrite Z.pow_add_r by lia. pose proof (Z.mul_div_le j (2 ^ i) P2). nia. }
      assert (s + 1 + i < w - 1) by (apply (Z.pow_lt_mono_r_iff 2); [lia | | lia]; destruct (Z.ltb_spec w 1); [rewrite (Z.pow_neg_r 2 (w - 1)) in * by lia|]; lia).
      repeat split; try lia.
      * rewrite Z.shiftr_div_pow2 by lia. rewrite Z.div_div by lia. f_equal. rewrite Z.pow_add_r by lia. reflexivity.
      * intros _. replace (s + (i + 1)) with (s + 1 + i) by lia. exact Hji.
    + cbn [wp]. assert (E : i = Z.max 0 (Z.log2 j - s)); [|now rewrite <- E].
      assert (j < 2 ^ (s + 1 + i)).
      { rewrite Z.pow_add_r by lia. pose proof (Z.mul_succ_div_gt j (2 ^ i) P2). nia. }
      destruct (Z.eq_dec i 0) as [->|].
      * destruct (Z.eq_dec j 0) as [->|]; [cbn; lia|]. assert (Z.log2 j < s + 1) by (apply Z.log2_lt_pow2; try lia; now rewrite Z.add_0_r in H). lia.
      * assert (L : Z.log2 j = s + i); [|lia]. apply Z.log2_unique; try lia. split; [apply Hi2; lia|]. replace (Z.succ (s + i)) with (s + 1 + i) by lia. lia.
Qed.

Lemma logidx_range w s j : 0 <= s <= w - 2 -> 0 <= j < 2 ^ (w - 1) -> 0 <= logidx s j < (w - s) * 2 ^ s.
Proof.
  intros Hs Hj. unfold logidx. set (i := Z.max 0 (Z.log2 j - s)).
  assert (P2 := pow_pos s ltac:(lia)). assert (Pi : 0 < 2 ^ i) by (apply pow_pos; lia).
  assert (Q : 0 <= j / 2 ^ i) by (apply Z.div_pos; lia).
  assert (Hl : Z.log2 j < w - 1) by (destruct (Z.eq_dec j 0) as [->|]; [cbn; lia | apply Z.log2_lt_pow2; lia]).
  assert (Hlt : j < 2 ^ (s + 1 + i)).
  { destruct (Z.eq_dec j 0) as [->|]; [apply pow_pos; lia|]. destruct (Z.log2_spec j ltac:(lia)) as (_ & H2).
    eapply Z.lt_le_trans; [exact H2|]. apply Z.pow_le_mono_r; lia. }
  assert (Hq : j / 2 ^ i < 2 * 2 ^ s).
  { apply Z.div_lt_upper_bound; [lia|]. rewrite !Z.pow_add_r in Hlt by lia. change (2 ^ 1) with 2 in Hlt. nia. }
  assert (i <= w - 2 - s) by lia. nia.
Qed.

Lemma logidx_small s j : 0 <= s -> 0 <= j < 2 ^ (s + 1) -> logidx s j = j.
Proof.
  intros Hs Hj. unfold logidx. replace (Z.max 0 (Z.log2 j - s)) with 0.
  - rewrite Z.pow_0_r, Z.div_1_r. lia.
  - destruct (Z.eq_dec j 0) as [->|]; [cbn; lia|]. assert (Z.log2 j < s + 1) by (apply Z.log2_lt_pow2; lia). lia.
Qed.

Lemma logidx_quot s j : 0 <= s -> 0 <= j -> let i := Z.max 0 (Z.log2 j - s) in
  (0 < i -> 2 ^ s <= j / 2 ^ i) /\ j / 2 ^ i < 2 * 2 ^ s.
Proof.
  intros Hs Hj i. assert (Pi : 0 < 2 ^ i) by (apply pow_pos; lia). assert (P2 := pow_pos s Hs). split.
  - intros H. assert (0 < Z.log2 j) by lia. assert (0 < j) by (destruct (Z.eq_dec j 0) as [->|]; [cbn in *; lia | lia]).
    destruct (Z.log2_spec j ltac:(lia)) as (H2 & _). apply Z.div_le_lower_bound; [lia|]. rewrite <- Z.pow_add_r by lia.
    replace (i + s) with (Z.log2 j) by lia. exact H2.
  - apply Z.div_lt_upper_bound; [lia|]. destruct (Z.eq_dec j 0) as [->|]; [nia|]. destruct (Z.log2_spec j ltac:(lia)) as (_ & H2).
    eapply Z.lt_le_trans; [exact H2|]. replace (2 ^ i * (2 * 2 ^ s)) with (2 ^ (i + 1 + s)) by (rewrite !Z.pow_add_r by lia; ring).
    apply Z.pow_le_mono_r; lia.
Qed.

Lemma logidx_mono s j j' : 0 <= s -> 0 <= j <= j' -> logidx s j <= logidx s j'.
Proof.
  intros Hs Hj. pose proof (logidx_quot s j Hs ltac:(lia)) as (A1 & A2). pose proof (logidx_quot s j' Hs ltac:(lia)) as (B1 & B2).
  unfold logidx. cbn zeta in *. assert (L : Z.log2 j <= Z.log2 j') by (apply Z.log2_le_mono; lia).
  set (i := Z.max 0 (Z.log2 j - s)) in *. set (i' := Z.max 0 (Z.log2 j' - s)) in *. assert (P2 := pow_pos s Hs).
  assert (Hii : i <= i') by lia. destruct (Z.eq_dec i i') as [->|].
  - assert (j / 2 ^ i' <= j' / 2 ^ i') by (apply Z.div_le_mono; [apply pow_pos; lia | lia]). lia.
  - specialize (B1 ltac:(lia)). nia.
Qed.

Lemma logidx_close s j j' : 0 <= s -> 0 <= j <= j' -> logidx s j = logidx s j' -> (j' - j) * 2 ^ s <= j.
Proof.
  intros Hs Hj E. pose proof (logidx_quot s j Hs ltac:(lia)) as (A1 & A2). pose proof (logidx_quot s j' Hs ltac:(lia)) as (B1 & B2).
  unfold logidx in E. cbn zeta in *. assert (L : Z.log2 j <= Z.log2 j') by (apply Z.log2_le_mono; lia).
  set (i := Z.max 0 (Z.log2 j - s)) in *. set (i' := Z.max 0 (Z.log2 j' - s)) in *. assert (P2 := pow_pos s Hs).
  assert (Hii : i <= i') by lia. destruct (Z.eq_dec i i') as [Ei|].
  - rewrite <- Ei in *. assert (Pi : 0 < 2 ^ i) by (apply pow_pos; lia).
    assert (Eq : j / 2 ^ i = j' / 2 ^ i) by lia.
    pose proof (Z.div_mod j (2 ^ i) ltac:(lia)). pose proof (Z.div_mod j' (2 ^ i) ltac:(lia)).
    pose proof (Z.mod_pos_bound j (2 ^ i) Pi). pose proof (Z.mod_pos_bound j' (2 ^ i) Pi). rewrite Eq in *.
    set (q := j' / 2 ^ i) in *.
    destruct (Z.eq_dec i 0) as [E0|].
    + rewrite E0 in *. change (2 ^ 0) with 1 in *. replace (j' - j) with 0 by lia. lia.
    + specialize (A1 ltac:(lia)). nia.
  - specialize (B1 ltac:(lia)). nia.
Qed.

(** ** Lists *)
Lemma inbk_nil bk b : inbk bk [] b = []. Proof. reflexivity. Qed.
Lemma inbk_cons bk k g t b : inbk bk ((k, g) :: t) b = if bk g =? b then k :: inbk bk t b else inbk bk t b.
Proof. unfold inbk. cbn [filter snd]. destruct (bk g =? b); reflexivity. Qed.
Lemma In_inbk bk t b k : In k (inbk bk t b) <-> exists g, In (k, g) t /\ bk g = b.
Proof.
  unfold inbk. rewrite in_map_iff. split.
  - intros ([k' g] & E & H). rewrite filter_In in H. cbn in *. exists g. rewrite <- E. split; [tauto | lia].
  - intros (g & H & E). exists (k, g). rewrite filter_In. cbn. split; [auto | split; [auto | lia]].
Qed.
Lemma NoDup_inbk bk t b : NoDup (elems t) -> NoDup (inbk bk t b).
Proof.
  induction t as [|[k g] t IH]; intros H; [constructor|]. rewrite inbk_cons. inversion H as [|? ? N1 N2]; subst.
  destruct (bk g =? b); auto. constructor; auto. rewrite In_inbk. intros (g' & Hi & _). apply N1. apply (in_map fst) in Hi. exact Hi.
Qed.
Lemma NoDup_elems_fun (t : gtable) k g g' : NoDup (elems t) -> In (k, g) t -> In (k, g') t -> g = g'.
Proof.
  induction t as [|[k0 g0] t IH]; intros H H1 H2; [easy|]. inversion H as [|? ? N1 N2]; subst.
  destruct H1 as [H1|H1], H2 as [H2|H2].
  - congruence.
  - inversion H1; subst. exfalso. apply N1. apply (in_map fst) in H2. exact H2.
  - inversion H2; subst. exfalso. apply N1. apply (in_map fst) in H1. exact H1.
  - eauto.
Qed.
Lemma inbk_disj bk t b b' k : NoDup (elems t) -> In k (inbk bk t b) -> In k (inbk bk t b') -> b = b'.
Proof. rewrite !In_inbk. intros H (g & H1 & E1) (g' & H2 & E2). now rewrite <- E1, <- E2, (NoDup_elems_fun t k g g'). Qed.
Lemma inbk_without bk k t b : inbk bk (without k t) b = filter (fun x => negb (x =? k)) (inbk bk t b).
Proof.
  induction t as [|[a g] t IH]; [reflexivity|]. cbn [without filter fst]. rewrite inbk_cons. fold (without k t).
  destruct (bk g =? b) eqn:E1; cbn [filter]; destruct (a =? k) eqn:E2; cbn [negb]; rewrite ?inbk_cons, ?E1, ?IH; reflexivity.
Qed.
Lemma filter_out k l : ~ In k l -> filter (fun x => negb (x =? k)) l = l.
Proof.
  induction l as [|a l IH]; [reflexivity|]. cbn [filter In]. intros H. destruct (Z.eqb_spec a k); [exfalso; tauto|]. cbn [negb]. rewrite IH; tauto.
Qed.
Lemma filter_mid k l1 l2 : NoDup (l1 ++ k :: l2) -> filter (fun x => negb (x =? k)) (l1 ++ k :: l2) = l1 ++ l2.
Proof.
  intros H. apply NoDup_remove_2 in H. rewrite in_app_iff in H. rewrite filter_app. cbn [filter]. rewrite Z.eqb_refl. cbn [negb].
  rewrite !filter_out; tauto.
Qed.
Lemma elems_without k t : elems (without k t) = filter (fun x => negb (x =? k)) (elems t).
Proof.
  induction t as [|[a g] t IH]; [reflexivity|]. cbn [without elems map filter fst]. fold (without k t) (elems t).
  destruct (negb (a =? k)); cbn [elems map fst]; fold (elems (without k t)); now rewrite IH.
Qed.

Lemma bylist_app bk t l l' : bylist bk t (l ++ l') = bylist bk t l ++ bylist bk t l'.
Proof. induction l as [|b l IH]; [reflexivity|]. cbn [app bylist]. now rewrite IH, app_assoc. Qed.
Lemma bylist_nil bk t l : (forall b, In b l -> inbk bk t b = []) -> bylist bk t l = [].
Proof. induction l as [|b l IH]; [reflexivity|]. intros H. cbn [bylist]. rewrite H by now left. rewrite IH; [reflexivity|]. intros; apply H; now right. Qed.
Lemma In_bylist bk t l k : In k (bylist bk t l) <-> exists b, In b l /\ In k (inbk bk t b).
Proof.
  induction l as [|b l IH]; cbn [bylist]; [firstorder|]. rewrite in_app_iff, IH. split.
  - intros [H|(b' & H1 & H2)]; [exists b; split; [now left|auto] | exists b'; split; [now right|auto]].
  - intros (b' & [<-|H1] & H2); [now left | right; eauto].
Qed.
Lemma ordered_split bk n t e : 0 <= e < n -> ordered bk n t = ordered bk e t ++ inbk bk t e ++ bylist bk t (zseq (e + 1) (n - e - 1)).
Proof.
  intros He. unfold ordered. replace n with (e + (1 + (n - e - 1))) at 1 by lia. rewrite !zseq_app by lia.
  rewrite !bylist_app. rewrite Z.add_0_l. do 2 f_equal. change (zseq e 1) with [e + Z.of_nat 0]. cbn [bylist]. rewrite Z.add_0_r, app_nil_r. reflexivity.
Qed.
Lemma ordered_snoc bk n t : 0 <= n -> ordered bk (n + 1) t = ordered bk n t ++ inbk bk t n.
Proof. intros. rewrite (ordered_split _ (n + 1) _ n) by lia. rewrite (zseq_0 (n + 1)) by lia. cbn [bylist]. now rewrite app_nil_r. Qed.
Lemma NoDup_app_intro {A} (l l' : list A) : NoDup l -> NoDup l' -> (forall x, In x l -> In x l' -> False) -> NoDup (l ++ l').
Proof.
  induction l as [|a l IH]; intros H1 H2 H3; [exact H2|]. inversion H1; subst. cbn [app]. constructor.
  - rewrite in_app_iff. intros [H|H]; [auto | apply (H3 a); [now left|auto]].
  - apply IH; auto. intros x Hx. apply H3. now right.
Qed.
Lemma NoDup_bylist bk t l : NoDup (elems t) -> NoDup l -> NoDup (bylist bk t l).
Proof.
  intros Ht. induction l as [|b l IH]; intros H; [constructor|]. inversion H as [|? ? N1 N2]; subst. cbn [bylist].
  apply NoDup_app_intro; [now apply NoDup_inbk | auto |]. intros k H1 H2. rewrite In_bylist in H2. destruct H2 as (b' & B1 & B2).
  rewrite (inbk_disj bk t b b' k Ht H1 B2) in N1. auto.
Qed.
Lemma NoDup_ordered bk n t : NoDup (elems t) -> NoDup (ordered bk n t).
Proof. intros. apply NoDup_bylist; [auto | apply NoDup_zseq]. Qed.
Lemma In_ordered bk n t k : In k (ordered bk n t) <-> exists b, 0 <= b < n /\ In k (inbk bk t b).
Proof. unfold ordered. rewrite In_bylist. split; intros (b & H1 & H2); exists b; rewrite In_zseq in *; split; auto; lia. Qed.

Lemma after_mid k l1 l2 : ~ In k l1 -> after k (l1 ++ k :: l2) = hd_error l2.
Proof.
  induction l1 as [|a l1 IH]; cbn [app after In]; [now rewrite Z.eqb_refl|]. intros H. destruct (Z.eqb_spec a k); [exfalso; tauto|]. apply IH. tauto.
Qed.

(** ** Chains *)
(** [l]: ranks of the links of a list, from pointer [nx] on *)
Fixpoint chain (lb : Z) (m : list glnk) (i : Z) (p nx : gptr) (l : list Z) : Prop :=
  match l with
  | [] => nx = GDum
  | a :: t => nx = GLnk (lb + a) /\ 0 <= a < zlen m /\ l_prev (at_ 0 m a) = p /\ l_tabl (at_ 0 m a) = i /\
              chain lb m i (GLnk (lb + a)) (l_next (at_ 0 m a)) t
  end.
Lemma chain_ext lb m m' i l : zlen m = zlen m' -> (forall a, In a l -> at_ 0 m' a = at_ 0 m a) -> forall p nx,
  chain lb m i p nx l -> chain lb m' i p nx l.
Proof.
  intros Hz. induction l as [|a l IH]; intros H p nx Hc; [exact Hc|]. cbn [chain] in *. rewrite (H a) by now left. rewrite <- Hz.
  destruct Hc as (? & ? & ? & ? & Hc). repeat split; auto. all: try tauto. apply IH; auto. intros; apply H; now right.
Qed.
Lemma chain_range lb m i l : forall p nx, chain lb m i p nx l -> forall a, In a l -> 0 <= a < zlen m.
Proof. induction l as [|b l IH]; intros p nx H a Ha; [easy|]. destruct H as (? & ? & ? & ? & H). destruct Ha as [<-|Ha]; eauto. Qed.

Definition same (s s' : gst) : Prop :=
  g_log s' = g_log s /\ g_subbits s' = g_subbits s /\ g_submask s' = g_submask s /\ g_totsize s' = g_totsize s /\
  g_tend s' = g_tend s /\ g_tabl s' = g_tabl s.
Lemma same_refl s : same s s. Proof. repeat split. Qed.
Lemma same_trans s s' s'' : same s s' -> same s' s'' -> same s s''.
Proof. unfold same. intuition congruence. Qed.
Definition entr (s : gst) (g : Z) : res Z := if g_log s then entrLog s g else Ok (entrLin s g).
Lemma same_entr s s' g : same s s' -> entr s' g = entr s g.
Proof.
  intros (E1 & E2 & E3 & E4 & E5 & E6). unfold entr, entrLog, entrLin, logLoop. rewrite E1, E2, E3, E5, E6. reflexivity.
Qed.

Definition cfg (w : Z) (bk : Z -> Z) (s : gst) : Prop :=
  0 < g_totsize s /\ g_tend s = g_totsize s - 1 /\
  forall g, - 2 ^ (w - 1) <= g < 2 ^ (w - 1) -> entr s g = Ok (bk g) /\ 0 <= bk g < g_totsize s.
Lemma same_cfg w bk s s' : same s s' -> cfg w bk s -> cfg w bk s'.
Proof.
  intros H (C1 & C2 & C3). assert (H' := H). destruct H' as (_ & _ & _ & E4 & E5 & _). unfold cfg. rewrite E4, E5. split; [auto|]. split; [auto|].
  intros g Hg. rewrite (same_entr s s') by auto. auto.
Qed.

Record rep (w n : Z) (bk : Z -> Z) (s : gst) (t : gtable) : Prop := {
  r_cfg : cfg w bk s;
  r_mem : zlen (g_mem s) = n;
  r_entr : zlen (g_entr s) = g_totsize s;
  r_tmin : 0 <= g_tmin s < g_totsize s;
  r_tmax : 0 <= g_tmax s < g_totsize s;
  r_nd : NoDup (elems t);
  r_gain : forall k g, In (k, g) t -> - 2 ^ (w - 1) <= g < 2 ^ (w - 1);
  r_chain : forall e, 0 <= e < g_totsize s -> chain (g_lb s) (g_mem s) e (GEnt e) (at_ 0 (g_entr s) e) (inbk bk t e);
  r_out : forall e, 0 <= e < g_totsize s -> e < g_tmin s \/ g_tmax s < e -> inbk bk t e = [] }.

Lemma rdl_ok s k : 0 <= k < zlen (g_mem s) -> rdl s (g_lb s + k) = Ok (at_ 0 (g_mem s) k).
Proof. intros. unfold rdl. rewrite rd_ok by lia. f_equal. rewrite (at_rebase 0 (g_lb s)). f_equal. lia. Qed.
Lemma upd_rebase {A} b (a : list A) k v : upd b a (b + k) v = upd 0 a k v.
Proof. unfold upd. do 2 f_equal. lia. Qed.
Lemma wrl_ok s k l : 0 <= k < zlen (g_mem s) -> wrl s (g_lb s + k) l = Ok (set_mem s (upd 0 (g_mem s) k l)).
Proof. intros. unfold wrl. rewrite wr_ok by lia. cbn [bind]. now rewrite upd_rebase. Qed.

Lemma rdl_at s lb k : g_lb s = lb -> 0 <= k < zlen (g_mem s) -> rdl s (lb + k) = Ok (at_ 0 (g_mem s) k).
Proof. intros <- ?. now apply rdl_ok. Qed.
Lemma set_next_lnk s lb k v : g_lb s = lb -> 0 <= k < zlen (g_mem s) ->
  set_next s (GLnk (lb + k)) v =
  Ok (set_mem s (upd 0 (g_mem s) k {| l_next := v; l_prev := l_prev (at_ 0 (g_mem s) k); l_tabl := l_tabl (at_ 0 (g_mem s) k) |})).
Proof. intros <- ?. unfold set_next. rewrite rdl_ok by lia. cbn [bind]. now rewrite wrl_ok. Qed.
Lemma set_prev_lnk s lb k v : g_lb s = lb -> 0 <= k < zlen (g_mem s) ->
  set_prev s (GLnk (lb + k)) v =
  Ok (set_mem s (upd 0 (g_mem s) k {| l_next := l_next (at_ 0 (g_mem s) k); l_prev := v; l_tabl := l_tabl (at_ 0 (g_mem s) k) |})).
Proof. intros <- ?. unfold set_prev. rewrite rdl_ok by lia. cbn [bind]. now rewrite wrl_ok. Qed.
Lemma set_tabl_lnk s lb k v : g_lb s = lb -> 0 <= k < zlen (g_mem s) ->
  set_tabl s (lb + k) v =
  Ok (set_mem s (upd 0 (g_mem s) k {| l_next := l_next (at_ 0 (g_mem s) k); l_prev := l_prev (at_ 0 (g_mem s) k); l_tabl := v |})).
Proof. intros <- ?. unfold set_tabl. rewrite rdl_ok by lia. cbn [bind]. now rewrite wrl_ok. Qed.
Lemma set_next_ent s e v : 0 <= e < zlen (g_entr s) -> set_next s (GEnt e) v = Ok (set_entr s (upd 0 (g_entr s) e v)).
Proof. intros. unfold set_next. rewrite wr_ok by lia. reflexivity. Qed.

(** The links after an insertion of [k] before the list [l] of entry [e]. *)
Definition ins (lb : Z) (m : list glnk) (e k : Z) (h : gptr) (l : list Z) : list glnk :=
  let m := match l with [] => m | a :: _ => upd 0 m a {| l_next := l_next (at_ 0 m a); l_prev := GLnk (lb + k); l_tabl := l_tabl (at_ 0 m a) |} end in
  upd 0 m k {| l_next := h; l_prev := GEnt e; l_tabl := e |}.
Lemma updn_updn {A} (a : list A) n v v' : updn (updn a n v) n v' = updn a n v'.
Proof. revert n. induction a as [|x a IH]; intros [|n]; cbn [updn]; auto. now rewrite IH. Qed.
Lemma upd_upd {A} b (a : list A) i v v' : upd b (upd b a i v) i v' = upd b a i v'.
Proof. apply updn_updn. Qed.
Lemma updn_comm {A} (a : list A) n n' v v' : n <> n' -> updn (updn a n v) n' v' = updn (updn a n' v') n v.
Proof. revert n n'. induction a as [|x a IH]; intros [|n] [|n'] H; cbn [updn]; auto; try congruence. now rewrite IH by congruence. Qed.
Lemma upd_comm {A} b (a : list A) i i' v v' : b <= i -> b <= i' -> i <> i' -> upd b (upd b a i v) i' v' = upd b (upd b a i' v') i v.
Proof. intros. apply updn_comm. lia. Qed.

Ltac gs := cbn [set_entr set_mem set_ext extend relocate g_entr g_mem g_lb g_log g_subbits g_submask g_totsize g_tmin g_tmax g_tend g_tabl l_next l_prev l_tabl].
Ltac gr L := rewrite L by (gs; rewrite ?zlen_upd; first [reflexivity | lia]); cbn [bind]; gs.

Lemma set_prev_dum s v : set_prev s GDum v = Ok s.
Proof. reflexivity. Qed.

Section Add.
  Variables (s : gst) (k e g : Z) (l : list Z).
  Hypothesis (He : 0 <= e < zlen (g_entr s)) (Hk : 0 <= k < zlen (g_mem s)).
  Hypothesis (Hc : chain (g_lb s) (g_mem s) e (GEnt e) (at_ 0 (g_entr s) e) l) (Hn : ~ In k l).
  Notation added := (set_entr (set_mem (extend s e) (ins (g_lb s) (g_mem s) e k (at_ 0 (g_entr s) e) l)) (upd 0 (g_entr s) e (GLnk (g_lb s + k)))).
  Lemma add_lin : entrLin s g = e -> gainTablAddLin s (g_lb s + k) g = Ok added.
  Proof.
    intros Ee. unfold gainTablAddLin. rewrite Ee. cbn zeta. unfold ins.
    gr set_tabl_lnk. gr @rd_ok.
    destruct l as [|a l']; cbn [chain] in Hc.
    - rewrite Hc. gr set_prev_dum. gr set_prev_lnk. gr @rd_ok. gr set_next_lnk. gr set_next_ent. unfold set_entr, set_mem; gs.
      rewrite !at_upd_same by (rewrite ?zlen_upd; lia). gs. rewrite !upd_upd, Hc. reflexivity.
    - destruct Hc as (E1 & Ha & E2 & E3 & Hc'). rewrite E1. assert (Hka : k <> a) by (intros ->; apply Hn; now left).
      gr set_prev_lnk. gr set_prev_lnk. gr @rd_ok. gr set_next_lnk. gr set_next_ent. unfold set_entr, set_mem; gs.
      rewrite !at_upd by (rewrite ?zlen_upd; lia). rewrite !Z.eqb_refl. replace (k =? a) with false by lia. replace (a =? k) with false by lia.
      rewrite ?at_upd by (rewrite ?zlen_upd; lia). rewrite ?Z.eqb_refl. replace (k =? a) with false by lia. replace (a =? k) with false by lia.
      gs. rewrite !upd_upd. rewrite (upd_comm 0 _ k a) by lia. rewrite upd_upd, E1. reflexivity.
  Qed.
  Lemma add_log : entrLog s g = Ok e -> gainTablAddLog s (g_lb s + k) g = Ok added.
  Proof.
    intros Ee. unfold gainTablAddLog. rewrite Ee. cbn [bind]. cbn zeta. unfold ins. gr @rd_ok.
    destruct l as [|a l']; cbn [chain] in Hc.
    - rewrite Hc. gr set_prev_dum. gr set_prev_lnk. gr @rd_ok. gr set_next_lnk. gr set_tabl_lnk. gr set_next_ent. unfold set_entr, set_mem; gs.
      rewrite !at_upd_same by (rewrite ?zlen_upd; lia). gs. rewrite !upd_upd, Hc. reflexivity.
    - destruct Hc as (E1 & Ha & E2 & E3 & Hc'). rewrite E1. assert (Hka : k <> a) by (intros ->; apply Hn; now left).
      gr set_prev_lnk. gr set_prev_lnk. gr @rd_ok. gr set_next_lnk. gr set_tabl_lnk. gr set_next_ent. unfold set_entr, set_mem; gs.
      rewrite !at_upd_same by (rewrite ?zlen_upd; lia). gs. rewrite !upd_upd, E1. reflexivity.
  Qed.
End Add.

Lemma zlen_ins lb m e k h l : zlen (ins lb m e k h l) = zlen m.
Proof. unfold ins. destruct l; now rewrite !zlen_upd. Qed.
Lemma chain_hdprev lb m m' i p nx l q : zlen m' = zlen m ->
  (forall a, In a l -> l_next (at_ 0 m' a) = l_next (at_ 0 m a) /\ l_tabl (at_ 0 m' a) = l_tabl (at_ 0 m a) /\
     l_prev (at_ 0 m' a) = match l with b :: _ => if a =? b then q else l_prev (at_ 0 m a) | [] => q end) ->
  NoDup l -> chain lb m i p nx l -> chain lb m' i q nx l.
Proof.
  destruct l as [|a l]; [easy|]. intros Hz H Hnd (E1 & Ha & E2 & E3 & Hc). cbn [chain].
  destruct (H a (or_introl eq_refl)) as (F1 & F2 & F3). rewrite Z.eqb_refl in F3. rewrite Hz, F1, F2, F3. repeat split; auto; try tauto.
  assert (N1 : ~ In a l) by (inversion Hnd; auto). clear F1 F2 F3.
  assert (G : forall b, In b l -> at_ 0 m' b = at_ 0 m b).
  { intros b Hb. destruct (H b (or_intror Hb)) as (F1 & F2 & F3). replace (b =? a) with false in F3 by (symmetry; apply Z.eqb_neq; congruence).
    destruct (at_ 0 m' b), (at_ 0 m b). cbn in *. congruence. }
  now apply (chain_ext lb m m').
Qed.
Lemma chain_ins lb m e k h l : 0 <= k < zlen m -> ~ In k l -> NoDup l -> chain lb m e (GEnt e) h l ->
  chain lb (ins lb m e k h l) e (GEnt e) (GLnk (lb + k)) (k :: l).
Proof.
  intros Hk Hn Hnd Hc. cbn [chain]. rewrite zlen_ins.
  assert (R := chain_range _ _ _ _ _ _ Hc).
  assert (F : at_ 0 (ins lb m e k h l) k = {| l_next := h; l_prev := GEnt e; l_tabl := e |}).
  { unfold ins. destruct l as [|a l]; rewrite at_upd_same by (rewrite ?zlen_upd; lia); reflexivity. }
  rewrite F. gs. repeat split; try lia. apply (chain_hdprev lb m _ e (GEnt e)); auto; [now rewrite zlen_ins|].
  intros a Ha. unfold ins. destruct l as [|b l]; [easy|]. assert (Hb := R b (or_introl eq_refl)). assert (Haa := R a Ha).
  assert (k <> a) by congruence. rewrite (at_upd_other 0 _ k a) by lia. destruct (Z.eqb_spec a b) as [->|].
  - rewrite at_upd_same by lia. auto.
  - rewrite at_upd_other by lia. auto.
Qed.
Lemma at_ins_other lb m e k h l a : 0 <= k < zlen m -> (forall b, In b l -> 0 <= b < zlen m) -> 0 <= a -> a <> k -> ~ In a l ->
  at_ 0 (ins lb m e k h l) a = at_ 0 m a.
Proof.
  intros Hk R Ha Hak Hn. unfold ins. rewrite at_upd_other by lia. destruct l as [|b l]; [reflexivity|]. specialize (R b (or_introl eq_refl)).
  rewrite at_upd_other; [reflexivity | lia | lia |]. intros ->. apply Hn. now left.
Qed.

Lemma rep_range w n bk s t k : rep w n bk s t -> In k (elems t) -> 0 <= k < zlen (g_mem s).
Proof.
  intros R H. unfold elems in H. rewrite in_map_iff in H. destruct H as ([k' g] & E & H). cbn in E. rewrite E in H.
  destruct (r_cfg _ _ _ _ _ R) as (_ & _ & C3). destruct (C3 g (r_gain _ _ _ _ _ R k g H)) as (_ & Hb).
  apply (chain_range _ _ _ _ _ _ (r_chain _ _ _ _ _ R (bk g) Hb)). rewrite In_inbk. eauto.
Qed.

Lemma add_rep w n bk s t k g : rep w n bk s t -> gpre w n t (GAdd k g) ->
  exists s', gainTablAdd s (g_lb s + k) g = Ok s' /\ rep w n bk s' ((k, g) :: t).
Proof.
  intros R (Hk & Hn & Hg). assert (R' := R). destruct R' as [C M E Tn Tx N G Ch O]. assert (C' := C). destruct C' as (C1 & C2 & C3).
  destruct (C3 g Hg) as (Ee & He). set (e := bk g) in *.
  assert (Hnk : ~ In k (inbk bk t e)).
  { intros H. apply Hn. rewrite In_inbk in H. destruct H as (g' & H & _). apply (in_map fst) in H. exact H. }
  eexists. split.
  - unfold gainTablAdd, entr in *. destruct (g_log s).
    + rewrite (add_log s k e g (inbk bk t e)); auto; lia.
    + rewrite (add_lin s k e g (inbk bk t e)); auto; try lia. now injection Ee.
  - constructor; gs.
    + eapply same_cfg; [|exact C]. repeat split.
    + now rewrite zlen_ins.
    + now rewrite zlen_upd.
    + destruct (Z.ltb_spec e (g_tmin s)); lia.
    + destruct (Z.ltb_spec (g_tmax s) e); lia.
    + constructor; auto.
    + intros k' g' [H|H]; [inversion H; subst; auto | eauto].
    + intros i Hi. rewrite inbk_cons. fold e. rewrite at_upd by lia. destruct (Z.eqb_spec e i) as [<-|].
      * apply chain_ins; try lia; auto. now apply NoDup_inbk.
      * apply (chain_ext _ (g_mem s)); [now rewrite zlen_ins | | auto].
        intros a Ha. apply at_ins_other; try lia.
        -- apply (chain_range _ _ _ _ _ _ (Ch e He)).
        -- apply (chain_range _ _ _ _ _ _ (Ch i Hi)) in Ha. lia.
        -- intros ->. apply Hn. rewrite In_inbk in Ha. destruct Ha as (g' & H & _). apply (in_map fst) in H. exact H.
        -- intros H. pose proof (inbk_disj bk t e i a N H Ha). lia.
    + intros i Hi Ho. rewrite inbk_cons. fold e. destruct (Z.eqb_spec e i) as [<-|].
      * exfalso. destruct (Z.ltb_spec e (g_tmin s)), (Z.ltb_spec (g_tmax s) e); lia.
      * apply O; auto. destruct (Z.ltb_spec e (g_tmin s)), (Z.ltb_spec (g_tmax s) e); lia.
Qed.

(** ** Removal *)
Lemma chain_cons lb m i p nx a l : chain lb m i p nx (a :: l) <->
  nx = GLnk (lb + a) /\ 0 <= a < zlen m /\ l_prev (at_ 0 m a) = p /\ l_tabl (at_ 0 m a) = i /\ chain lb m i (GLnk (lb + a)) (l_next (at_ 0 m a)) l.
Proof. reflexivity. Qed.
(** Removal of [a] between [l1] and [l2]: new contents *)
Lemma chain_del lb m m' i a l2 : zlen m' = zlen m -> forall l1 p nx nx',
  NoDup (l1 ++ a :: l2) -> chain lb m i p nx (l1 ++ a :: l2) ->
  (forall b, In b l1 -> l_prev (at_ 0 m' b) = l_prev (at_ 0 m b) /\ l_tabl (at_ 0 m' b) = l_tabl (at_ 0 m b) /\
     l_next (at_ 0 m' b) = if (match l_prev (at_ 0 m a) with GLnk x => x =? lb + b | _ => false end) then l_next (at_ 0 m a) else l_next (at_ 0 m b)) ->
  (forall b, In b l2 -> l_next (at_ 0 m' b) = l_next (at_ 0 m b) /\ l_tabl (at_ 0 m' b) = l_tabl (at_ 0 m b) /\
     l_prev (at_ 0 m' b) = if (match l_next (at_ 0 m a) with GLnk x => x =? lb + b | _ => false end) then l_prev (at_ 0 m a) else l_prev (at_ 0 m b)) ->
  nx' = (match l1 with [] => l_next (at_ 0 m a) | _ => nx end) ->
  chain lb m' i p nx' (l1 ++ l2).
Proof.
  intros Hz. induction l1 as [|b l1 IH]; intros p nx nx' Hnd Hc H1 H2 ->; cbn [app] in *.
  - apply chain_cons in Hc. destruct Hc as (E1 & Ha & E2 & E3 & Hc). rewrite <- E2. apply (chain_hdprev lb m _ _ (GLnk (lb + a))); auto.
    + intros b Hb. destruct (H2 b Hb) as (F1 & F2 & F3). split; [auto|]. split; [auto|]. rewrite F3. destruct l2 as [|c l2]; [easy|].
      apply chain_cons in Hc. destruct Hc as (-> & _). destruct (Z.eqb_spec b c) as [->|].
      * now rewrite Z.eqb_refl.
      * replace (lb + c =? lb + b) with false by lia. reflexivity.
    + now inversion Hnd.
  - apply chain_cons in Hc. destruct Hc as (E1 & Ha & E2 & E3 & Hc). apply chain_cons.
    destruct (H1 b (or_introl eq_refl)) as (F1 & F2 & F3). rewrite F1, F2, Hz. repeat split; auto; try tauto.
    apply (IH (GLnk (lb + b)) (l_next (at_ 0 m b))).
    + now inversion Hnd.
    + exact Hc.
    + intros c Hin. apply H1. now right.
    + exact H2.
    + rewrite F3. destruct l1 as [|c l1].
      * cbn [app] in Hc. apply chain_cons in Hc. destruct Hc as (_ & _ & -> & _). now rewrite Z.eqb_refl.
      * assert (Hp : exists c0, In c0 (c :: l1) /\ l_prev (at_ 0 m a) = GLnk (lb + c0)).
        { clear -Hc. revert b c Hc. induction l1 as [|d l1 IH]; intros b c Hc; cbn [app] in Hc.
          - exists c. split; [now left|]. do 2 (apply chain_cons in Hc; destruct Hc as (_ & _ & ? & _ & Hc)). auto.
          - apply chain_cons in Hc. destruct Hc as (_ & _ & _ & _ & Hc). destruct (IH c d Hc) as (c0 & I1 & I2). exists c0. split; [now right | auto]. }
        destruct Hp as (c0 & I1 & ->). destruct (Z.eqb_spec (lb + c0) (lb + b)); [|reflexivity]. exfalso.
        assert (c0 = b) by lia. subst c0. inversion Hnd as [|? ? N1 N2]; subst. apply N1. destruct I1 as [I1|I1]; [now left | right; apply in_or_app; now left].
Qed.

(** The neighbours of a link in its list *)
Lemma chain_nbr lb m i a l2 l1 p nx : chain lb m i p nx (l1 ++ a :: l2) ->
  0 <= a < zlen m /\ l_tabl (at_ 0 m a) = i /\
  match rev l1 with [] => l_prev (at_ 0 m a) = p /\ nx = GLnk (lb + a) | b :: _ => l_prev (at_ 0 m a) = GLnk (lb + b) /\ In b l1 end /\
  match l2 with [] => l_next (at_ 0 m a) = GDum | c :: _ => l_next (at_ 0 m a) = GLnk (lb + c) end /\
  chain lb m i (GLnk (lb + a)) (l_next (at_ 0 m a)) l2.
Proof.
  revert p nx. induction l1 as [|b l1 IH]; intros p nx Hc; cbn [app] in Hc; apply chain_cons in Hc; destruct Hc as (E1 & Ha & E2 & E3 & Hc).
  - cbn [rev]. split; [exact Ha|]. split; [exact E3|]. split; [split; [exact E2 | exact E1]|]. split; [|exact Hc].
    destruct l2; [exact Hc | exact (proj1 Hc)].
  - destruct (IH _ _ Hc) as (I1 & I2 & I3 & I4 & I5). cbn [rev]. split; [exact I1|]. split; [exact I2|]. split; [|split; assumption]. destruct (rev l1) as [|d r] eqn:Er; cbn [app].
    + destruct I3 as (I3 & _). split; [auto | now left].
    + destruct I3 as (I3 & I6). split; [auto | now right].
Qed.

Lemma del_rep w n bk s t k : rep w n bk s t -> gpre w n t (GDel k) ->
  exists s', gainTablDel s (g_lb s + k) = Ok s' /\ rep w n bk s' (without k t).
Proof.
  intros R Hin. cbn [gpre] in Hin. assert (Hk := rep_range _ _ _ _ _ _ R Hin). destruct R as [C M E Tn Tx N G Ch O].
  unfold elems in Hin. rewrite in_map_iff in Hin. destruct Hin as ([k' g] & Ek & Hin). cbn in Ek. subst k'.
  assert (C' := C). destruct C' as (C1 & C2 & C3). destruct (C3 g (G _ _ Hin)) as (_ & He). set (e := bk g) in *.
  assert (Hke : In k (inbk bk t e)) by (rewrite In_inbk; eauto). apply in_split in Hke. destruct Hke as (l1 & l2 & El).
  assert (Ce := Ch e He). rewrite El in Ce. assert (Nd := NoDup_inbk bk t e N). rewrite El in Nd.
  destruct (chain_nbr _ _ _ _ _ _ _ _ Ce) as (_ & B1 & B2 & B3 & B4).
  assert (Rg := chain_range _ _ _ _ _ _ Ce). set (lb := g_lb s) in *. set (m := g_mem s) in *.
  assert (Hk1 : ~ In k l1 /\ ~ In k l2) by (apply NoDup_remove_2 in Nd; rewrite in_app_iff in Nd; tauto).
  assert (Hd : forall b, In b l1 -> In b l2 -> False).
  { intros b I1 I2. apply NoDup_remove_1 in Nd. clear -Nd I1 I2. induction l1 as [|x l1 IH]; [easy|]. cbn [app] in Nd. inversion Nd as [|? ? N1 N2]; subst.
    destruct I1 as [->|I1]; [apply N1; rewrite in_app_iff; tauto | auto]. }
  (* the state after the removal *)
  assert (S : exists s', gainTablDel s (lb + k) = Ok s' /\ same s s' /\ g_lb s' = lb /\ zlen (g_mem s') = zlen m /\
     g_tmin s' = g_tmin s /\ g_tmax s' = g_tmax s /\
     zlen (g_entr s') = zlen (g_entr s) /\
     (forall i, 0 <= i < zlen (g_entr s) -> at_ 0 (g_entr s') i = if (i =? e) && (match l1 with [] => true | _ => false end) then l_next (at_ 0 m k) else at_ 0 (g_entr s) i) /\
     (forall b, 0 <= b -> ~ In b (l1 ++ l2) -> at_ 0 (g_mem s') b = at_ 0 m b) /\
     (forall b, In b l1 -> at_ 0 (g_mem s') b = {| l_next := if (match l_prev (at_ 0 m k) with GLnk x => x =? lb + b | _ => false end) then l_next (at_ 0 m k) else l_next (at_ 0 m b); l_prev := l_prev (at_ 0 m b); l_tabl := l_tabl (at_ 0 m b) |}) /\
     (forall b, In b l2 -> at_ 0 (g_mem s') b = {| l_next := l_next (at_ 0 m b); l_prev := if (match l_next (at_ 0 m k) with GLnk x => x =? lb + b | _ => false end) then l_prev (at_ 0 m k) else l_prev (at_ 0 m b); l_tabl := l_tabl (at_ 0 m b) |})).
  { unfold gainTablDel. rewrite rdl_at by auto. cbn [bind]. fold m.
    assert (S1 : exists m1, set_prev s (l_next (at_ 0 m k)) (l_prev (at_ 0 m k)) = Ok (set_mem s m1) /\ zlen m1 = zlen m /\
      (forall b, 0 <= b -> ~ In b l2 -> at_ 0 m1 b = at_ 0 m b) /\
      (forall b, In b l2 -> at_ 0 m1 b = {| l_next := l_next (at_ 0 m b); l_prev := if (match l_next (at_ 0 m k) with GLnk x => x =? lb + b | _ => false end) then l_prev (at_ 0 m k) else l_prev (at_ 0 m b); l_tabl := l_tabl (at_ 0 m b) |})).
    { destruct l2 as [|c l2].
      - rewrite B3. exists m. split; [rewrite set_prev_dum; destruct s; reflexivity|]. split; [auto|]. split; [auto|easy].
      - rewrite B3. assert (Hc : 0 <= c < zlen m) by (apply Rg; rewrite in_app_iff; cbn; tauto).
        rewrite (set_prev_lnk s lb c) by auto. fold m. eexists. split; [reflexivity|]. split; [now rewrite zlen_upd|]. split.
        + intros b Hb Hn. rewrite at_upd_other; auto; try lia. intros ->. apply Hn. now left.
        + intros b Hb. assert (0 <= b < zlen m) by (apply Rg; rewrite in_app_iff; cbn in *; tauto). rewrite at_upd by lia. destruct (Z.eqb_spec c b) as [->|].
          * now rewrite Z.eqb_refl.
          * replace (lb + c =? lb + b) with false by lia. now destruct (at_ 0 m b). }
    destruct S1 as (m1 & -> & Z1 & A1 & A2). cbn [bind]. rewrite (rdl_at (set_mem s m1) lb) by (gs; auto; lia). cbn [bind]. gs.
    rewrite (A1 k) by (lia || tauto).
    destruct (rev l1) as [|b0 r] eqn:Er.
    - destruct B2 as (B2 & B5). rewrite B2, set_next_ent by (gs; lia).
      assert (l1 = []) by (rewrite <- (rev_involutive l1), Er; reflexivity). subst l1.
      eexists. split; [reflexivity|]. gs. split; [repeat split|]. split; [reflexivity|]. split; [auto|]. split; [auto|]. split; [auto|]. split; [now rewrite zlen_upd|].
      split. { intros i Hi. rewrite at_upd by lia. rewrite (Z.eqb_sym e i), andb_true_r. reflexivity. }
      split; [exact A1|]. split; [easy|]. rewrite B2 in A2. exact A2.
    - destruct B2 as (B2 & B5). assert (Hb0 : 0 <= b0 < zlen m) by (apply Rg; rewrite in_app_iff; tauto).
      rewrite B2, (set_next_lnk _ lb b0) by (gs; auto; lia). gs.
      eexists. split; [reflexivity|]. gs. split; [repeat split|]. split; [reflexivity|]. split; [now rewrite zlen_upd|]. split; [auto|]. split; [auto|]. split; [auto|].
      split. { intros i Hi. destruct l1; [easy|]. now rewrite andb_false_r. }
      split.
      { intros b Hb Hn. rewrite in_app_iff in Hn. rewrite at_upd_other; try lia; [apply A1; tauto|]. intros ->. tauto. }
      split.
      { intros b Hb. assert (0 <= b < zlen m) by (apply Rg; rewrite in_app_iff; tauto). rewrite at_upd by lia. destruct (Z.eqb_spec b0 b) as [->|].
        - rewrite Z.eqb_refl. rewrite (A1 b) by (lia || (intros ?; eapply Hd; eauto)). reflexivity.
        - replace (lb + b0 =? lb + b) with false by lia. rewrite (A1 b) by (lia || (intros ?; eapply Hd; eauto)). now destruct (at_ 0 m b). }
      { intros b Hb. assert (0 <= b < zlen m) by (apply Rg; rewrite in_app_iff; cbn; tauto). rewrite at_upd_other; try lia.
        - rewrite B2 in A2. apply A2; auto.
        - intros ->. eapply Hd; eauto. } }
  destruct S as (s' & E0 & Sm & Lb & Zm & Tn' & Tx' & Ze & S1 & S2 & S3 & S4). exists s'. split; [exact E0|].
  assert (Et : g_totsize s' = g_totsize s) by (destruct Sm as (_ & _ & _ & ? & _); auto).
  constructor; rewrite ?Et, ?Tn', ?Tx', ?Lb; auto.
  - eapply same_cfg; eauto.
  - fold m in M. lia.
  - lia.
  - rewrite elems_without. now apply NoDup_filter.
  - intros k' g' H. unfold without in H. rewrite filter_In in H. apply (G k' g'). tauto.
  - intros i Hi. rewrite inbk_without. rewrite S1 by lia. destruct (Z.eqb_spec i e) as [->|Hie]; cbn [andb].
    + rewrite El, filter_mid by auto. apply (chain_del lb m _ e k l2 Zm l1 (GEnt e) (at_ 0 (g_entr s) e)); auto.
      * intros b Hb. rewrite S3 by auto. auto.
      * intros b Hb. rewrite S4 by auto. auto.
      * destruct l1; reflexivity.
    + assert (Hnk : ~ In k (inbk bk t i)). { intros H. apply Hie. apply (inbk_disj bk t i e k N H). rewrite El, in_app_iff. cbn. tauto. }
      rewrite filter_out by auto. apply (chain_ext lb m); [lia | | apply Ch; auto]. intros b Hb. apply S2.
      * apply (chain_range _ _ _ _ _ _ (Ch i Hi)) in Hb. lia.
      * intros H. apply Hie. apply (inbk_disj bk t i e b N Hb). rewrite El. rewrite in_app_iff in *. cbn. tauto.
  - intros i Hi Ho. rewrite inbk_without, O; auto.
Qed.
