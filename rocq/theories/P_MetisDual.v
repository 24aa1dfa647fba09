(** Building meshes from METIS element arrays: the arrays that are computed. *)
From Verif Require Import Base M_Graph S_Graph M_Mesh S_Mesh P_Vgraph M_MetisDual S_MetisDual.

(** A value between two values of a sequence is between two successive ones *)
Lemma between (f : Z -> Z) i lo hi : lo <= hi -> f lo <= i < f hi -> exists v, lo <= v < hi /\ f v <= i < f (v + 1).
Proof.
  intros H. revert hi H. apply (zrange_ind (fun hi => f lo <= i < f hi -> exists v, lo <= v < hi /\ f v <= i < f (v + 1))).
  - intros; lia.
  - intros hi H IH Hi. destruct (Z_lt_dec i (f hi)) as [L|L].
    + destruct IH as (v & Hv & Hf); [lia|]. exists v. split; [lia|exact Hf].
    + exists hi. split; [lia|]. lia.
Qed.

(** Every value below a count is reached *)
Lemma count_reached (p : Z -> bool) k lo hi : lo <= hi -> 0 <= k < zcount lo hi p -> exists i, lo <= i < hi /\ p i = true /\ zcount lo i p = k.
Proof.
  intros H. revert hi H. apply (zrange_ind (fun hi => 0 <= k < zcount lo hi p -> exists i, lo <= i < hi /\ p i = true /\ zcount lo i p = k)).
  - rewrite zcount_nil by lia. lia.
  - intros hi H IH Hk. rewrite zcount_snoc in Hk by lia. destruct (Z_lt_dec k (zcount lo hi p)) as [L|L].
    + destruct IH as (i & Hi & E1 & E2); [lia|]. exists i. repeat split; (lia || assumption).
    + exists hi. destruct (p hi) eqn:Ep; cbn [b2z] in Hk; [|lia]. repeat split; lia.
Qed.

Lemma zcount_mono lo i j p : lo <= i <= j -> zcount lo i p <= zcount lo j p.
Proof. intros. apply zsum_mono; [lia|]. intros. destruct (p i0); cbn; lia. Qed.

Section D.
Variables (base nn ne : Z) (eptr eind : list Z).
Hypothesis EL : elements base nn ne eptr eind.
Let P v := at_ base eptr v.
Let N i := at_ base eind i.
Let T := P (base + ne).
Let cnt i x := zcount base i (fun j => N j =? x).
Let st x := T + zsum base x (cnt T).

Lemma ptr_mono v w : base <= v -> v <= w -> w <= base + ne -> P v <= P w.
Proof.
  intros Hv H. revert w H. apply (zrange_ind (fun w => w <= base + ne -> P v <= P w)); [lia|].
  intros w H IH Hw. pose proof (el_mono _ _ _ _ _ EL w ltac:(lia)). unfold P in *. specialize (IH ltac:(lia)). lia.
Qed.

Lemma ptr_base : P base = base. Proof. apply (el_first _ _ _ _ _ EL). Qed.
Lemma T_ge : base <= T.
Proof. rewrite <- ptr_base. pose proof (el_ne _ _ _ _ _ EL). apply ptr_mono; lia. Qed.

Lemma ptr_in v : base <= v <= base + ne -> base <= P v <= T.
Proof. intros H. pose proof (ptr_mono base v). pose proof (ptr_mono v (base + ne)). rewrite ptr_base in *. unfold T in *. lia. Qed.

Lemma owner i : base <= i < T -> exists v, base <= v < base + ne /\ P v <= i < P (v + 1).
Proof. intros H. apply between; [pose proof (el_ne _ _ _ _ _ EL); lia|]. rewrite ptr_base. exact H. Qed.

Lemma owner_unique i v w : base <= v < base + ne -> base <= w < base + ne -> P v <= i < P (v + 1) -> P w <= i < P (w + 1) -> v = w.
Proof.
  intros Hv Hw A B. destruct (Z.lt_trichotomy v w) as [L|[L|L]]; [|exact L|].
  - pose proof (ptr_mono (v + 1) w). lia.
  - pose proof (ptr_mono (w + 1) v). lia.
Qed.

Lemma node_in i : base <= i < T -> base <= N i < base + nn. Proof. apply (el_node _ _ _ _ _ EL). Qed.

Lemma dualNode_ok i : base <= i < T -> dualNode base nn eind i = Ok (N i).
Proof.
  intros H. unfold dualNode. rewrite rd_ok by (pose proof (el_room _ _ _ _ _ EL); unfold T, P in *; lia). cbn [bind].
  pose proof (node_in i H) as X. unfold N in *. destruct (at_ base eind i <? base) eqn:E1; [lia|]. destruct (base + nn <=? at_ base eind i) eqn:E2; [lia|]. reflexivity.
Qed.

Lemma rd_ptr v : base <= v <= base + ne -> rd base eptr v = Ok (P v).
Proof. intros H. apply rd_ok. pose proof (el_len _ _ _ _ _ EL). lia. Qed.

Lemma cnt_nonneg i x : 0 <= cnt i x. Proof. apply zcount_nonneg. Qed.

Lemma cnt_sum i : base <= i -> i <= T -> zsum base (base + nn) (cnt i) = i - base.
Proof.
  intros H. revert i H. apply (zrange_ind (fun i => i <= T -> zsum base (base + nn) (cnt i) = i - base)).
  - intros _. rewrite zsum_zero; [lia|]. intros. apply zcount_nil. lia.
  - intros i H IH Hi. rewrite (zsum_ext _ _ _ (fun x => cnt i x + b2z (N i =? x))) by (intros x Hx; unfold cnt; rewrite zcount_snoc by lia; reflexivity).
    rewrite zsum_add, IH by lia. pose proof (node_in i ltac:(lia)) as X.
    assert (zsum base (base + nn) (fun x => b2z (N i =? x)) = 1); [|lia].
    rewrite (zsum_upd _ _ (fun _ => 0) _ (N i)); [|lia|].
    + rewrite zsum_zero by reflexivity. replace (N i =? N i) with true by lia. reflexivity.
    + intros j Hj Nj. replace (N i =? j) with false by lia. reflexivity.
Qed.

Lemma st_snoc x : base <= x -> st (x + 1) = st x + cnt T x.
Proof. intros. unfold st. rewrite zsum_snoc by lia. lia. Qed.
Lemma st_mono x y : base <= x -> x <= y -> st x <= st y.
Proof. intros Hx H. revert y H. apply zrange_ind; [lia|]. intros y H IH. rewrite st_snoc by lia. pose proof (cnt_nonneg T y). lia. Qed.
Lemma st_first : st base = T. Proof. unfold st. rewrite zsum_nil by lia. lia. Qed.
Lemma st_last : st (base + nn) = T + (T - base). Proof. unfold st. pose proof T_ge. rewrite cnt_sum by lia. reflexivity. Qed.

Let slot i := st (N i) + cnt i (N i).
Lemma slot_in i : base <= i < T -> st (N i) <= slot i < st (N i + 1).
Proof.
  intros H. pose proof (node_in i H). rewrite st_snoc by lia. unfold slot. pose proof (cnt_nonneg i (N i)).
  pose proof (zcount_mono base (i + 1) T (fun j => N j =? N i) ltac:(lia)) as X. rewrite zcount_snoc in X by lia. cbv beta in X. replace (N i =? N i) with true in X by lia.
  cbn [b2z] in X. fold (cnt i (N i)) in X. fold (cnt T (N i)) in X. lia.
Qed.
Lemma slot_in' i : base <= i < T -> T <= slot i < T + (T - base).
Proof.
  intros H. pose proof (slot_in i H). pose proof (node_in i H). rewrite <- st_last. rewrite <- st_first at 1. pose proof (st_mono base (N i)). pose proof (st_mono (N i + 1) (base + nn)). lia.
Qed.
Lemma slot_lt i j : base <= i < j -> j < T -> slot i <> slot j.
Proof.
  intros H Hj E. destruct (Z.eq_dec (N i) (N j)) as [X|X].
  - unfold slot in E. rewrite X in E. pose proof (zcount_mono base (i + 1) j (fun k => N k =? N j) ltac:(lia)) as Y. rewrite zcount_snoc in Y by lia. cbv beta in Y.
    replace (N i =? N j) with true in Y by lia. cbn [b2z] in Y. unfold cnt in E. lia.
  - pose proof (slot_in i ltac:(lia)). pose proof (slot_in j ltac:(lia)). pose proof (node_in i ltac:(lia)). pose proof (node_in j ltac:(lia)).
    destruct (Z_lt_dec (N i) (N j)) as [L|L]; [pose proof (st_mono (N i + 1) (N j)); lia|pose proof (st_mono (N j + 1) (N i)); lia].
Qed.
Lemma slot_inj i j : base <= i < T -> base <= j < T -> slot i = slot j -> i = j.
Proof. intros Hi Hj E. destruct (Z.lt_trichotomy i j) as [L|[L|L]]; [|exact L|]; [exfalso; apply (slot_lt i j); (lia || exact E)|exfalso; apply (slot_lt j i); (lia || now symmetry)]. Qed.
Lemma slot_onto x c : base <= x < base + nn -> st x <= c < st (x + 1) -> exists i, base <= i < T /\ N i = x /\ slot i = c.
Proof.
  intros Hx Hc. rewrite st_snoc in Hc by lia. destruct (count_reached (fun j => N j =? x) (c - st x) base T T_ge) as (i & Hi & E1 & E2); [unfold cnt in Hc; lia|].
  exists i. split; [exact Hi|]. split; [lia|]. unfold slot, cnt. replace (N i) with x by lia. lia.
Qed.

(** ** Stages of the construction *)

Lemma count_ok : wp (for_ base (ne + base) (dualCount base nn ne eptr eind) (repeat 0 (Z.to_nat (ne + nn + 1)), 0, 0))
  (fun '(vt, dm, en) => zlen vt = ne + nn + 1 /\ en = T - base /\ 0 <= dm /\ (forall v, base <= v < base + ne -> P (v + 1) - P v <= dm) /\
    forall x, base <= x < base + nn -> at_ base vt (ne + x) = cnt T x) noerr.
Proof.
  pose proof (el_nn _ _ _ _ _ EL) as Hnn. pose proof (el_ne _ _ _ _ _ EL) as Hne.
  apply wp_for with (I := fun v '(vt, dm, en) => zlen vt = ne + nn + 1 /\ en = P v - base /\ 0 <= dm /\ (forall w, base <= w < v -> P (w + 1) - P w <= dm) /\
    forall x, base <= x < base + nn -> at_ base vt (ne + x) = cnt (P v) x).
  - lia.
  - split; [rewrite zlen_repeat; lia|]. rewrite ptr_base. repeat split; try lia. intros x Hx. rewrite at_repeat by lia. unfold cnt. rewrite zcount_nil; lia.
  - intros v [[vt dm] en] Hv (I1 & I2 & I3 & I4 & I5). unfold dualCount. rewrite rd_ptr by lia. cbn [bind]. rewrite rd_ptr by lia. cbn [bind].
    pose proof (ptr_in v ltac:(lia)) as A1. pose proof (ptr_in (v + 1) ltac:(lia)) as A2. pose proof (el_mono _ _ _ _ _ EL v ltac:(lia)) as A3.
    change (at_ base eptr v) with (P v) in A3. change (at_ base eptr (v + 1)) with (P (v + 1)) in A3.
    apply wp_bind. eapply wp_for with (I := fun e vt => zlen vt = ne + nn + 1 /\ forall x, base <= x < base + nn -> at_ base vt (ne + x) = cnt e x).
    + lia.
    + split; [exact I1|exact I5].
    + intros e t He (J1 & J2). rewrite dualNode_ok by lia. cbn [bind]. pose proof (node_in e ltac:(lia)) as X. rewrite rd_ok by lia. cbn [bind].
      rewrite wr_ok by lia. cbn [wp]. split; [rewrite zlen_upd; exact J1|]. intros x Hx. rewrite at_upd by lia. unfold cnt. rewrite zcount_snoc by lia. cbv beta.
      destruct (Z.eq_dec (ne + N e) (ne + x)) as [Y|Y].
      * replace (N e =? x) with true by lia. replace x with (N e) by lia. rewrite J2 by lia. cbn. destruct (_ =? _) eqn:E0; [reflexivity|lia].
      * replace (N e =? x) with false by lia. destruct (_ =? _) eqn:E0; [lia|]. rewrite J2 by lia. cbn. unfold cnt. lia.
    + intros t (J1 & J2). cbn [wp]. split; [exact J1|]. split; [lia|].
      split; [destruct (dm <? _) eqn:E0; lia|]. split; [|exact J2].
      intros w Hw. destruct (Z.eq_dec w v) as [->|Nw]; [destruct (dm <? _) eqn:E0; lia|]. specialize (I4 w ltac:(lia)). destruct (dm <? _) eqn:E0; lia.
  - intros [[vt dm] en]. replace (ne + base) with (base + ne) by lia. exact (fun H => H).
Qed.

Lemma elems_ok vt : zlen vt = ne + nn + 1 ->
  wp (dualElems base ne eptr vt) (fun vt' => zlen vt' = ne + nn + 1 /\ (forall v, base <= v < base + ne -> at_ base vt' v = P v) /\
    forall v, base + ne <= v -> at_ base vt' v = at_ base vt v) noerr.
Proof.
  intros L. pose proof (el_nn _ _ _ _ _ EL) as Hnn. pose proof (el_ne _ _ _ _ _ EL) as Hne.
  unfold dualElems. rewrite rd_ptr by lia. cbn [bind]. rewrite ptr_base. replace (base =? base) with true by lia.
  apply wp_for with (I := fun k t => zlen t = ne + nn + 1 /\ (forall v, base <= v < k -> at_ base t v = P v) /\ forall v, base + ne <= v -> at_ base t v = at_ base vt v).
  - lia.
  - repeat split; [exact L|intros; lia].
  - intros k t Hk (I1 & I2 & I3). rewrite rd_ptr by lia. cbn [bind]. rewrite wr_ok by lia. cbn [wp]. split; [rewrite zlen_upd; exact I1|]. split.
    + intros v Hv. rewrite at_upd by lia. destruct (k =? v) eqn:E0; [f_equal; lia|]. apply I2. lia.
    + intros v Hv. rewrite at_upd by lia. destruct (k =? v) eqn:E0; [lia|]. apply I3. lia.
  - intros t. replace (ne + base) with (base + ne) by lia. exact (fun H => H).
Qed.

Lemma starts_ok vt dm : zlen vt = ne + nn + 1 -> 0 <= dm -> (forall x, base <= x < base + nn -> at_ base vt (ne + x) = cnt T x) ->
  wp (for_ (ne + base) (ne + base + nn) (dualStarts base) (vt, dm, T)) (fun '(vt', dm', e1) => zlen vt' = ne + nn + 1 /\ dm <= dm' /\ e1 = st (base + nn) /\
    (forall x, base <= x < base + nn -> at_ base vt' (ne + x) = st x /\ cnt T x <= dm') /\ forall v, base <= v < base + ne -> at_ base vt' v = at_ base vt v) noerr.
Proof.
  intros L Hd C. pose proof (el_nn _ _ _ _ _ EL) as Hnn. pose proof (el_ne _ _ _ _ _ EL) as Hne.
  apply wp_for with (I := fun k '(t, d, e) => zlen t = ne + nn + 1 /\ dm <= d /\ e = st (k - ne) /\
    (forall x, base <= x < k - ne -> at_ base t (ne + x) = st x /\ cnt T x <= d) /\ (forall x, k - ne <= x < base + nn -> at_ base t (ne + x) = cnt T x) /\
    forall v, base <= v < base + ne -> at_ base t v = at_ base vt v).
  - lia.
  - split; [exact L|]. split; [lia|]. split; [replace (ne + base - ne) with base by lia; symmetry; apply st_first|]. split; [intros; lia|]. split; [intros; apply C; lia|]. auto.
  - intros k [[t d] e] Hk (I1 & I2 & I3 & I4 & I5 & I6). unfold dualStarts. rewrite rd_ok by lia. cbn [bind]. rewrite wr_ok by lia. cbn [bind wp].
    pose proof (I5 (k - ne) ltac:(lia)) as X. replace (ne + (k - ne)) with k in X by lia. rewrite X.
    split; [rewrite zlen_upd; exact I1|]. split; [destruct (d <? _) eqn:E0; lia|]. split; [replace (k + 1 - ne) with (k - ne + 1) by lia; rewrite st_snoc by lia; lia|].
    split; [|split].
    + intros x Hx. rewrite at_upd by lia. destruct (k =? ne + x) eqn:E0.
      * replace x with (k - ne) by lia. split; [exact I3|]. destruct (d <? _) eqn:E1; lia.
      * destruct (I4 x ltac:(lia)) as [A B]. split; [exact A|]. destruct (d <? _) eqn:E1; lia.
    + intros x Hx. rewrite at_upd by lia. destruct (k =? ne + x) eqn:E0; [lia|]. apply I5. lia.
    + intros v Hv. rewrite at_upd by lia. destruct (k =? v) eqn:E0; [lia|]. apply I6. lia.
  - intros [[t d] e] (I1 & I2 & I3 & I4 & I5 & I6). replace (ne + base + nn - ne) with (base + nn) in I3, I4 by lia. auto.
Qed.

Lemma copy_ok : wp (for_ base T (fun e ed => do x <- rd base eind e; wr base ed e (x + ne)) (repeat 0 (Z.to_nat ((T - base) * 2))))
  (fun ed => zlen ed = (T - base) * 2 /\ forall i, base <= i < T -> at_ base ed i = N i + ne) noerr.
Proof.
  pose proof T_ge as HT. pose proof (el_room _ _ _ _ _ EL) as HR. change (T <= base + zlen eind) in HR.
  apply wp_for with (I := fun k ed => zlen ed = (T - base) * 2 /\ forall i, base <= i < k -> at_ base ed i = N i + ne).
  - exact HT.
  - split; [rewrite zlen_repeat; lia|intros; lia].
  - intros k ed Hk (I1 & I2). rewrite rd_ok by lia. cbn [bind]. rewrite wr_ok by lia. cbn [wp]. split; [rewrite zlen_upd; exact I1|].
    intros i Hi. rewrite at_upd by lia. destruct (k =? i) eqn:E0; [replace k with i by lia; reflexivity|]. apply I2. lia.
  - auto.
Qed.

(** state of the filling loop before arc [k] *)
Definition fill vt0 k '((vt, ed) : list Z * list Z) := zlen vt = ne + nn + 1 /\ zlen ed = (T - base) * 2 /\ (forall x, base <= x < base + nn -> at_ base vt (ne + x) = st x + cnt k x) /\
  (forall v, base <= v < base + ne \/ v = ne + base + nn -> at_ base vt v = at_ base vt0 v) /\
  (forall i, base <= i < T -> at_ base ed i = N i + ne) /\
  forall i v, base <= i < k -> base <= v < base + ne -> P v <= i < P (v + 1) -> at_ base ed (slot i) = v.

Lemma fill_ok vt ed : zlen vt = ne + nn + 1 -> zlen ed = (T - base) * 2 -> (forall x, base <= x < base + nn -> at_ base vt (ne + x) = st x) ->
  (forall i, base <= i < T -> at_ base ed i = N i + ne) ->
  wp (for_ base (ne + base) (dualFill base nn ne eptr eind) (vt, ed)) (fill vt T) noerr.
Proof.
  intros L1 L2 S1 S2. pose proof (el_nn _ _ _ _ _ EL) as Hnn. pose proof (el_ne _ _ _ _ _ EL) as Hne.
  apply wp_for with (I := fun v => fill vt (P v)).
  - lia.
  - rewrite ptr_base. repeat split; auto; [|intros; lia]. intros x Hx. rewrite S1 by lia. unfold cnt. rewrite zcount_nil by lia. lia.
  - intros v s Hv I. unfold dualFill. rewrite rd_ptr by lia. cbn [bind]. rewrite rd_ptr by lia. cbn [bind].
    pose proof (ptr_in v ltac:(lia)) as A1. pose proof (ptr_in (v + 1) ltac:(lia)) as A2. pose proof (el_mono _ _ _ _ _ EL v ltac:(lia)) as A3.
    change (at_ base eptr v) with (P v) in A3. change (at_ base eptr (v + 1)) with (P (v + 1)) in A3.
    apply wp_for with (I := fill vt); [exact A3|exact I| |auto].
    intros k [t d] Hk (I1 & I2 & I3 & I4 & I5 & I6). rewrite dualNode_ok by lia. cbn [bind]. pose proof (node_in k ltac:(lia)) as X.
    rewrite rd_ok by lia. cbn [bind]. rewrite wr_ok by lia. cbn [bind]. rewrite (Z.add_comm (N k) ne), I3 by lia. fold (slot k). pose proof (slot_in' k ltac:(lia)) as Y.
    rewrite wr_ok by lia. cbn [bind wp]. unfold fill. rewrite !zlen_upd. split; [exact I1|]. split; [exact I2|]. split; [|split; [|split]].
    + intros x Hx. rewrite at_upd by lia. unfold cnt. rewrite zcount_snoc by lia. cbv beta. fold (cnt k x). destruct (ne + N k =? ne + x) eqn:E0.
      * replace (N k =? x) with true by lia. replace x with (N k) by lia. unfold slot. cbn [b2z]. lia.
      * replace (N k =? x) with false by lia. rewrite I3 by lia. cbn [b2z]. lia.
    + intros w Hw. rewrite at_upd by lia. destruct (ne + N k =? w) eqn:E0; [lia|]. apply I4. lia.
    + intros i Hi. rewrite at_upd by lia. destruct (slot k =? i) eqn:E0; [lia|]. apply I5. lia.
    + intros i w Hi Hw Hin. pose proof (slot_in' i ltac:(lia)) as Z1. rewrite at_upd by lia. destruct (Z.eq_dec i k) as [->|Ne].
      * replace (slot k =? slot k) with true by lia. apply (owner_unique k v w); (assumption || lia).
      * destruct (slot k =? slot i) eqn:E0; [exfalso; apply Ne; apply slot_inj; lia|]. apply I6; (assumption || lia).
  - intros s. replace (ne + base) with (base + ne) by lia. exact (fun H => H).
Qed.

Lemma move_ok (vt : list Z) : 1 <= nn -> zlen vt = ne + nn + 1 ->
  wp (for_ (ne + base + 1) (ne + base + nn) (fun v t => do k <- rd base vt (v - 1); wr base t v k) vt)
    (fun t => zlen t = ne + nn + 1 /\ (forall v, ne + base < v < ne + base + nn -> at_ base t v = at_ base vt (v - 1)) /\
      forall v, base <= v < ne + base \/ v = ne + base + nn -> at_ base t v = at_ base vt v) noerr.
Proof.
  intros H1 L. pose proof (el_ne _ _ _ _ _ EL) as Hne.
  apply wp_for with (I := fun k t => zlen t = ne + nn + 1 /\ (forall v, ne + base < v < k -> at_ base t v = at_ base vt (v - 1)) /\
      forall v, base <= v < ne + base \/ v = ne + base + nn -> at_ base t v = at_ base vt v).
  - lia.
  - split; [exact L|]. split; [intros; lia|auto].
  - intros k t Hk (I1 & I2 & I3). rewrite rd_ok by lia. cbn [bind]. rewrite wr_ok by lia. cbn [wp]. split; [rewrite zlen_upd; exact I1|]. split.
    + intros v Hv. rewrite at_upd by lia. destruct (k =? v) eqn:E0; [f_equal; lia|]. apply I2. lia.
    + intros v Hv. rewrite at_upd by lia. destruct (k =? v) eqn:E0; [lia|]. apply I3. lia.
  - auto.
Qed.

Ltac qlia := clear EL; repeat match goal with H : forall _, _ |- _ => clear H end; lia.
Lemma metisMesh_arrays : 1 <= nn -> wp (metisMesh base nn ne eptr eind) (fun m => exists vt ed dm,
    m = mkmesh base ne base (ne + base) 0 nn (ne + base) (nn + (ne + base)) vt None None None ne nn None None ((T - base) * 2) ed dm /\
    zlen vt = ne + nn + 1 /\ zlen ed = (T - base) * 2 /\ 0 <= dm /\
    (forall v, base <= v <= base + ne -> at_ base vt v = P v) /\ (forall x, base <= x <= base + nn -> at_ base vt (ne + x) = st x) /\
    (forall i, base <= i < T -> at_ base ed i = N i + ne) /\
    (forall i v, base <= v < base + ne -> P v <= i < P (v + 1) -> at_ base ed (slot i) = v) /\
    (forall v, base <= v < base + ne -> P (v + 1) - P v <= dm) /\ forall x, base <= x < base + nn -> st (x + 1) - st x <= dm) noerr.
Proof.
  intros H1. pose proof (el_ne _ _ _ _ _ EL) as Hne. unfold metisMesh. apply wp_bind. eapply wp_mono; [apply count_ok|].
  intros [[vt dm] en] (L1 & E1 & D0 & D1 & C1). apply wp_bind. eapply wp_mono; [apply (elems_ok vt L1)|]. intros vt1 (L2 & E2 & O2).
  rewrite rd_ptr by lia. cbn [bind]. replace (P (ne + base)) with T by (unfold T; f_equal; lia).
  apply wp_bind. eapply wp_mono; [apply (starts_ok vt1 dm L2 D0)|].
  { intros x Hx. rewrite O2 by lia. apply C1. exact Hx. }
  intros [[vt2 dm2] e1] (L3 & D2 & Ee & S3 & O3). rewrite wr_ok by lia. cbn [bind]. subst en. apply wp_bind. eapply wp_mono; [apply copy_ok|].
  intros ed (L4 & C4). apply wp_bind. eapply wp_mono; [apply (fill_ok (upd base vt2 (ne + base + nn) e1) ed)|].
  { rewrite zlen_upd. exact L3. } { exact L4. }
  { intros x Hx. rewrite at_upd by lia. destruct (_ =? _) eqn:E0; [lia|]. apply S3. exact Hx. }
  { exact C4. }
  intros [vt3 ed3] F. destruct F as (L5 & L6 & F1 & F2 & F3 & F4). rewrite (proj2 (Z.ltb_ge nn 1) H1).
  apply wp_bind. eapply wp_mono; [apply (move_ok vt3 H1 L5)|]. intros vt4 (L7 & M1 & M2).
  assert (B4 : base <= ne + base < base + zlen vt4) by (clear - L7 H1 Hne; lia). rewrite (wr_ok base vt4 (ne + base) T B4). cbn [bind wp].
  exists (upd base vt4 (ne + base) T), ed3, dm2. split; [reflexivity|]. split; [rewrite zlen_upd; exact L7|]. split; [exact L6|]. split; [qlia|].
  split; [|split; [|split; [exact F3|split; [|split]]]].
  - intros v Hv. rewrite at_upd by qlia. destruct (_ =? v) eqn:E3; [unfold T; f_equal; qlia|]. rewrite M2 by qlia. rewrite F2 by qlia. rewrite at_upd by qlia.
    replace (ne + base + nn =? v) with false by qlia. rewrite O3 by qlia. apply E2. qlia.
  - intros x Hx. rewrite at_upd by qlia. destruct (_ =? _) eqn:E3; [replace x with base by qlia; symmetry; apply st_first|].
    destruct (Z.eq_dec x (base + nn)) as [->|Nx].
    + rewrite M2 by qlia. rewrite F2 by qlia. rewrite at_upd by qlia. replace (ne + base + nn =? ne + (base + nn)) with true by qlia. exact Ee.
    + rewrite M1 by qlia. replace (ne + x - 1) with (ne + (x - 1)) by qlia. rewrite F1 by qlia. rewrite <- st_snoc by qlia. f_equal. qlia.
  - intros i v Hv Hi. pose proof (ptr_in v ltac:(qlia)). pose proof (ptr_in (v + 1) ltac:(qlia)). apply F4; (assumption || qlia).
  - intros v Hv. specialize (D1 v Hv). qlia.
  - intros x Hx. rewrite st_snoc by qlia. destruct (S3 x Hx). qlia.
Qed.

(** ** The mesh is consistent *)

Definition set_veis (z : Z) (m : mesh) : mesh :=
  mkmesh (mbase m) (velmnbr m) (velmbas m) (velmnnd m) z (vnodnbr m) (vnodbas m) (vnodnnd m) (mvert m) (mvend m) (mvelo m) (mvnlo m)
    (mvelosum m) (mvnlosum m) (mvnum m) (mvlbl m) (medgenbr m) (medge m) (mdegrmax m).

Section M.
Variables (vt ed : list Z) (dm : Z).
Hypothesis Hnn : 1 <= nn.
Hypothesis L1 : zlen vt = ne + nn + 1.
Hypothesis L2 : zlen ed = (T - base) * 2.
Hypothesis D0 : 0 <= dm.
Hypothesis V1 : forall v, base <= v <= base + ne -> at_ base vt v = P v.
Hypothesis V2 : forall x, base <= x <= base + nn -> at_ base vt (ne + x) = st x.
Hypothesis E1 : forall i, base <= i < T -> at_ base ed i = N i + ne.
Hypothesis E2 : forall i v, base <= v < base + ne -> P v <= i < P (v + 1) -> at_ base ed (slot i) = v.
Hypothesis D1 : forall v, base <= v < base + ne -> P (v + 1) - P v <= dm.
Hypothesis D2 : forall x, base <= x < base + nn -> st (x + 1) - st x <= dm.
Let m := mkmesh base ne base (ne + base) 0 nn (ne + base) (nn + (ne + base)) vt None None None ne nn None None ((T - base) * 2) ed dm.
Let g := mgraph m.

Lemma m_ne : 0 <= ne. Proof. apply (el_ne _ _ _ _ _ EL). Qed.

Lemma m_vert v : isvert g v <-> base <= v < base + ne \/ exists x, base <= x < base + nn /\ v = ne + x.
Proof.
  pose proof m_ne. unfold isvert, g, m. cbn. split.
  - intros X. destruct (Z_lt_dec v (base + ne)) as [L|L]; [left; lia|]. right. exists (v - ne). lia.
  - intros [X|(x & X & ->)]; lia.
Qed.
Lemma m_rng_e v : base <= v < base + ne -> vert g v = P v /\ vend g v = P (v + 1).
Proof. intros H. change (vert g v) with (at_ base vt v). change (vend g v) with (at_ base vt (v + 1)). rewrite !V1 by lia. auto. Qed.
Lemma m_rng_n x : base <= x < base + nn -> vert g (ne + x) = st x /\ vend g (ne + x) = st (x + 1).
Proof. intros H. change (vert g (ne + x)) with (at_ base vt (ne + x)). change (vend g (ne + x)) with (at_ base vt (ne + x + 1)). replace (ne + x + 1) with (ne + (x + 1)) by lia. rewrite !V2 by lia. auto. Qed.

(** arcs of elements and of nodes *)
Lemma m_arc v e : arc g v e <-> (base <= v < base + ne /\ P v <= e < P (v + 1)) \/ (exists x, base <= x < base + nn /\ v = ne + x /\ st x <= e < st (x + 1)).
Proof.
  unfold arc. rewrite m_vert. split.
  - intros [[Hv|(x & Hx & ->)] He]; [left|right].
    + destruct (m_rng_e v Hv) as [A B]. rewrite A, B in He. auto.
    + destruct (m_rng_n x Hx) as [A B]. rewrite A, B in He. exists x. auto.
  - intros [[Hv He]|(x & Hx & -> & He)].
    + destruct (m_rng_e v Hv) as [A B]. rewrite A, B. auto.
    + destruct (m_rng_n x Hx) as [A B]. rewrite A, B. split; [right; exists x; auto|exact He].
Qed.
Lemma arc_T v i : base <= v < base + ne -> P v <= i < P (v + 1) -> base <= i < T.
Proof. intros Hv Hi. pose proof (ptr_in v ltac:(lia)). pose proof (ptr_in (v + 1) ltac:(lia)). lia. Qed.
Lemma m_edge_e i : base <= i < T -> edge g i = ne + N i.
Proof. intros H. change (edge g i) with (at_ base ed i). rewrite E1 by exact H. lia. Qed.
Lemma m_edge_n i v : base <= v < base + ne -> P v <= i < P (v + 1) -> edge g (slot i) = v.
Proof. intros H Hi. change (edge g (slot i)) with (at_ base ed (slot i)). apply E2; assumption. Qed.

(** an arc of an element is arc [i] of the user; the arc back is at its slot *)
Lemma m_arc_ends v e : arc g v e -> exists i w, base <= i < T /\ base <= w < base + ne /\ P w <= i < P (w + 1) /\
  ((v = w /\ e = i /\ edge g e = ne + N i) \/ (v = ne + N i /\ e = slot i /\ edge g e = w)).
Proof.
  rewrite m_arc. intros [[Hv He]|(x & Hx & -> & He)].
  - pose proof (arc_T v e Hv He) as X. exists e, v. split; [exact X|]. split; [exact Hv|]. split; [exact He|]. left. split; [reflexivity|]. split; [reflexivity|]. apply m_edge_e. exact X.
  - destruct (slot_onto x e Hx He) as (i & Hi & A & B). destruct (owner i Hi) as (w & Hw & Hiw). exists i, w. split; [exact Hi|]. split; [exact Hw|]. split; [exact Hiw|].
    right. subst x e. split; [reflexivity|]. split; [reflexivity|]. now apply m_edge_n.
Qed.
Lemma m_arc_e w i : base <= w < base + ne -> P w <= i < P (w + 1) -> arc g w i. Proof. intros. apply m_arc. left. auto. Qed.
Lemma m_arc_n i : base <= i < T -> arc g (ne + N i) (slot i).
Proof. intros H. apply m_arc. right. exists (N i). split; [now apply node_in|]. split; [reflexivity|]. now apply slot_in. Qed.

Lemma tele lo hi (f : Z -> Z) : lo <= hi -> zsum lo hi (fun v => f (v + 1) - f v) = f hi - f lo.
Proof. intros H. revert hi H. apply zrange_ind; [rewrite zsum_nil; lia|]. intros hi H IH. rewrite zsum_snoc by lia. lia. Qed.

Lemma m_arcs : zsum (baseval g) (vertnnd g) (fun v => vend g v - vert g v) = (T - base) * 2.
Proof.
  pose proof m_ne. change (zsum base (ne + nn + base) (fun v => at_ base vt (v + 1) - at_ base vt v) = (T - base) * 2). rewrite (tele _ _ (at_ base vt)) by lia. replace (ne + nn + base) with (ne + (base + nn)) by lia. rewrite V2 by lia.
  rewrite st_last. rewrite V1 by lia. rewrite ptr_base. lia.
Qed.

Lemma m_graph_valid : graph_valid g.
Proof.
  pose proof m_ne as Hne. constructor.
  - unfold g, m. cbn. lia.
  - unfold g, m. cbn. lia.
  - intros v Hv. apply m_vert in Hv. destruct Hv as [Hv|(x & Hx & ->)].
    + destruct (m_rng_e v Hv) as [-> ->]. pose proof (ptr_mono v (v + 1)). pose proof (ptr_in v ltac:(lia)). unfold g, m. cbn. lia.
    + destruct (m_rng_n x Hx) as [-> ->]. pose proof (st_mono x (x + 1)). pose proof (st_mono base x). pose proof st_first. pose proof T_ge. unfold g, m. cbn. lia.
  - intros v e A. destruct (m_arc_ends v e A) as (i & w & Hi & Hw & Hiw & [(_ & _ & ->)|(_ & _ & ->)]); apply m_vert; [right|left; exact Hw].
    exists (N i). split; [now apply node_in|reflexivity].
  - intros v e A. destruct (m_arc_ends v e A) as (i & w & Hi & Hw & Hiw & [(-> & _ & ->)|(-> & _ & ->)]); pose proof (node_in i Hi); lia.
  - intros v e e' A A' E. destruct (m_arc_ends v e A) as (i & w & Hi & Hw & Hiw & X). destruct (m_arc_ends v e' A') as (i' & w' & Hi' & Hw' & Hiw' & X').
    pose proof (node_in i Hi). pose proof (node_in i' Hi').
    destruct X as [(-> & -> & X3)|(-> & -> & X3)], X' as [(X1' & -> & X3')|(X1' & -> & X3')]; try lia.
    + subst w'. rewrite X3, X3' in E. apply (el_once _ _ _ _ _ EL w i i'); (assumption || (change (N i = N i'); lia)).
    + rewrite X3, X3' in E. subst w'. assert (i = i') as ->; [|reflexivity]. apply (el_once _ _ _ _ _ EL w i i'); (assumption || (change (N i = N i'); lia)).
  - intros v e A. destruct (m_arc_ends v e A) as (i & w & Hi & Hw & Hiw & [(-> & -> & ->)|(-> & -> & ->)]).
    + exists (slot i). split; [now apply m_arc_n|]. split; [now apply m_edge_n|reflexivity].
    + exists i. split; [now apply m_arc_e|]. split; [now apply m_edge_e|reflexivity].
  - rewrite m_arcs. reflexivity.
  - intros. unfold velo, g, m. cbn. lia.
  - change (ne + nn = zsum base (ne + nn + base) (fun _ => 1)). rewrite zsum_const by lia. lia.
  - intros. unfold edlo, g, m. cbn. lia.
  - rewrite (zsum_ext _ _ _ (fun v => vend g v - vert g v)); [rewrite m_arcs; reflexivity|]. intros v Hv.
    assert (X : vert g v <= vend g v).
    { apply m_vert in Hv. destruct Hv as [Hv|(x & Hx & ->)]; [destruct (m_rng_e v Hv) as [-> ->]; apply ptr_mono; lia|destruct (m_rng_n x Hx) as [-> ->]; apply st_mono; lia]. }
    rewrite (zsum_ext _ _ _ (fun _ => 1)) by reflexivity. rewrite zsum_const by exact X. lia.
  - exact D0.
  - intros v Hv. change (degrmax g) with dm. apply m_vert in Hv. destruct Hv as [Hv|(x & Hx & ->)].
    + destruct (m_rng_e v Hv) as [-> ->]. now apply D1.
    + destruct (m_rng_n x Hx) as [-> ->]. now apply D2.
Qed.

Lemma m_inc_e e x : base <= e < base + ne -> (incident m e x <-> exists i, P e <= i < P (e + 1) /\ x = ne + N i).
Proof.
  intros He. unfold incident, S_Color.adjacent. fold g. split.
  - intros (k & A & <-). destruct (m_arc_ends e k A) as (i & w & Hi & Hw & Hiw & [(-> & -> & ->)|(X & _)]); [exists i; auto|]. pose proof (node_in i Hi). lia.
  - intros (i & Hi & ->). exists i. split; [now apply m_arc_e|]. apply m_edge_e. apply (arc_T e); assumption.
Qed.

Lemma m_valid : mesh_valid (set_veis (zcount base (ne + base) (fun v => mdegree m v =? 0)) m) /\ mesh_readable (set_veis (zcount base (ne + base) (fun v => mdegree m v =? 0)) m).
Proof.
  pose proof m_ne as Hne. pose proof (el_base _ _ _ _ _ EL) as Hb. split; constructor.
  - cbn. lia.
  - cbn. lia.
  - cbn. lia.
  - cbn. lia.
  - exact m_graph_valid.
  - intros x y (k & A & <-). destruct (m_arc_ends x k A) as (i & w & Hi & Hw & Hiw & X). pose proof (node_in i Hi).
    set (y := edge _ k). change y with (edge g k). clear y. assert (F : forall a, elem (set_veis (zcount base (ne + base) (fun v => mdegree m v =? 0)) m) a <-> base <= a < ne + base) by (intros; unfold elem; cbn; reflexivity).
    assert (F' : forall a, node (set_veis (zcount base (ne + base) (fun v => mdegree m v =? 0)) m) a <-> ne + base <= a < nn + (ne + base)) by (intros; unfold node; cbn; reflexivity).
    rewrite F, F'. destruct X as [(-> & -> & ->)|(-> & -> & ->)]; lia.
  - intros; cbn; lia.
  - intros; cbn; lia.
  - change (ne = zsum base (ne + base) (fun _ => 1)). rewrite zsum_const by lia. lia.
  - change (nn = zsum (ne + base) (nn + (ne + base)) (fun _ => 1)). rewrite zsum_const by lia. lia.
  - reflexivity.
  - constructor.
    + cbn. rewrite L1. destruct (0 <? ne + nn); cbn; lia.
    + cbn. discriminate.
    + cbn. discriminate.
    + intros v e A. destruct (m_arc_ends v e A) as (i & w & Hi & Hw & Hiw & X). change (edgetab (mgraph _)) with ed. change (baseval (mgraph _)) with base. rewrite L2.
      pose proof (slot_in' i Hi). pose proof T_ge. destruct X as [(_ & -> & _)|(_ & -> & _)]; lia.
    + cbn. discriminate.
  - cbn. discriminate.
  - cbn. discriminate.
Qed.
End M.

Lemma metisMesh_ok : 1 <= nn -> wp (metisMesh base nn ne eptr eind) (fun m => exists z,
    mesh_valid (set_veis z m) /\ mesh_readable (set_veis z m) /\ mbase m = base /\ velmbas m = base /\ velmnbr m = ne /\ velmnnd m = ne + base /\ mvelosum m = ne /\
    (forall e x, base <= e < base + ne -> (incident m e x <-> has_node base eptr eind e (x - ne))) /\
    forall e, base <= e < base + ne -> mdegree m e = node_count base eptr e) noerr.
Proof.
  intros H1. eapply wp_mono; [apply (metisMesh_arrays H1)|]. intros m (vt & ed & dm & -> & A1 & A2 & A3 & A4 & A5 & A6 & A7 & A8 & A9).
  destruct (m_valid vt ed dm H1 A1 A2 A3 A4 A5 A6 A7 A8 A9) as [V R]. eexists. split; [exact V|]. split; [exact R|]. repeat (split; [reflexivity|]). split.
  - intros e x He. rewrite m_inc_e by assumption. unfold has_node. split; intros (i & Hi & E); exists i; (split; [exact Hi|]); unfold N in *; lia.
  - intros e He. unfold mdegree, node_count. change (at_ base vt (e + 1) - at_ base vt e = P (e + 1) - P e). rewrite !A4 by lia. reflexivity.
Qed.
End D.
