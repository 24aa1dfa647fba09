(** The thread system: invariant of all executions. *)
From Verif Require Import Base M_Thread S_Thread.
From Coq Require Import Arith.

Lemma ne_updn {A} (l : list A) i j x y : nth_error (updn l i x) j = Some y -> (i = j /\ y = x /\ exists z, nth_error l i = Some z) \/ (i <> j /\ nth_error l j = Some y).
Proof.
  revert i j. induction l as [|a l IH]; intros i j; [destruct j; discriminate|]. destruct i, j; cbn [updn nth_error]; intros H.
  - injection H as <-. left. eauto.
  - right. split; [lia|auto].
  - right. split; [lia|auto].
  - destruct (IH _ _ H) as [(-> & -> & z)|(D & E)]; [left|right]; auto.
Qed.
Lemma ne_updn_same {A} (l : list A) i x y : nth_error l i = Some y -> nth_error (updn l i x) i = Some x.
Proof. revert i. induction l as [|a l IH]; intros i H; [destruct i; discriminate|]. destruct i; cbn [updn nth_error] in *; auto. Qed.

Definition b2n (b : bool) : nat := if b then 1 else 0.
Fixpoint cnt (P : pc -> bool) (l : list pc) : nat := match l with [] => 0 | p :: l => b2n (P p) + cnt P l end.
Lemma cnt_updn P l i p p' : nth_error l i = Some p -> (cnt P (updn l i p') + b2n (P p) = cnt P l + b2n (P p'))%nat.
Proof. revert i. induction l as [|a l IH]; intros i H; [destruct i; discriminate|]. destruct i; cbn [updn nth_error cnt] in *; [injection H as ->; lia|]. specialize (IH _ H). lia. Qed.
Lemma cnt_map P w l : (forall p, P (w p) = P p) -> cnt P (map w l) = cnt P l.
Proof. intros H. induction l as [|a l IH]; cbn [map cnt]; [auto|]. now rewrite H, IH. Qed.
Lemma cnt_le P l : (cnt P l <= length l)%nat.
Proof. induction l as [|a l IH]; cbn [cnt length]; [lia|]. destruct (P a); cbn [b2n]; lia. Qed.
Lemma cnt_all P l : cnt P l = length l -> forall i p, nth_error l i = Some p -> P p = true.
Proof.
  induction l as [|a l IH]; intros H i p E; [destruct i; discriminate|]. cbn [cnt length] in H. pose proof (cnt_le P l). destruct (P a) eqn:Ea; cbn [b2n] in H; [|lia].
  destruct i; cbn [nth_error] in E; [congruence|]. apply IH with i; auto; lia.
Qed.
Lemma cnt_all_but P l i p : nth_error l i = Some p -> P p = false -> S (cnt P l) = length l -> forall j p', j <> i -> nth_error l j = Some p' -> P p' = true.
Proof.
  revert i. induction l as [|a l IH]; intros i H Hp Hc j p' D E; [destruct i; discriminate|]. cbn [cnt length] in Hc.
  destruct i; cbn [nth_error] in H.
  - injection H as ->. rewrite Hp in Hc. cbn [b2n] in Hc. destruct j; [lia|]. cbn [nth_error] in E. eapply cnt_all; [|eauto]. lia.
  - destruct (P a) eqn:Ea; cbn [b2n] in Hc.
    + destruct j; cbn [nth_error] in E; [congruence|]. apply (IH i) with j; auto; lia.
    + exfalso. pose proof (cnt_all P l ltac:(lia) _ _ H). congruence.
Qed.
Lemma cnt_zero P l : (forall i p, nth_error l i = Some p -> P p = false) -> cnt P l = O.
Proof. induction l as [|a l IH]; intros H; cbn [cnt]; [auto|]. rewrite (H O a) by auto. rewrite IH; [auto|]. intros i p E. apply (H (S i) p E). Qed.

Lemma entered_app i l l' : entered i (l ++ l') = (entered i l + entered i l')%nat.
Proof. unfold entered. rewrite filter_app, app_length. auto. Qed.
Lemma rets_app i l l' : rets i (l ++ l') = rets i l ++ rets i l'.
Proof. apply flat_map_app. Qed.
Lemma runs_app i l l' : runs i (l ++ l') = runs i l ++ runs i l'.
Proof. apply flat_map_app. Qed.
Lemma in_turn_S d : in_turn (S d) = in_turn d ++ [(true, S d); (false, S d)].
Proof. unfold in_turn. rewrite seq_S, flat_map_app. reflexivity. Qed.

Lemma calls_app l l' : calls (l ++ l') = calls l ++ calls l'.
Proof. apply flat_map_app. Qed.

Section Inv.
Context (n : nat) (W : Z) (K : nat -> nat).
Hypothesis Hn : (2 <= n)%nat.
Hypothesis HW : 2 <= W.

(** what the set of threads is doing *)
Inductive phase := QInit | QIdle (f : nat) | QBody (f k : nat) | QDown (f : nat).
Definition base (q : phase) : nat := match q with QInit => 0 | QIdle f => f | QBody f _ => pred f | QDown f => f end.
Definition nextq (q : phase) : phase := match q with QInit => QIdle 0 | QBody f (S k) => QBody f k | QBody f 0 => QIdle f | _ => q end.

(** where a thread can be, when not in a barrier of the current round *)
Definition at_q (q : phase) (i : nat) (p : pc) : Prop :=
  match q with
  | QInit => p = PInit
  | QIdle f => p = PIdle \/ (i <> O /\ exists s, p = PIdleW s) \/ (f <> O /\ p = PBack f)
  | QBody f k => p = PBody f k \/ (k = O /\ p = PRet f) \/ (i <> O /\ k = K f /\ (p = PIdle \/ p = PIdleW false \/ p = PRead \/ p = PBack (pred f)))
  | QDown f => (i = O /\ (p = PSpin \/ p = PExit)) \/ (i <> O /\ (p = PIdle \/ p = PIdleW false \/ p = PBack f \/ p = PAck \/ p = PDone))
  end.
(** where it goes, after a barrier of the current round *)
Definition to_q (q : phase) (p : pc) : Prop :=
  match q with QInit => p = PIdle | QBody f (S k) => p = PBody f k | QBody f O => f <> O /\ p = PBack f | _ => False end.
Definition nowait (p : pc) : Prop := match p with PWait _ _ _ | PIdleW _ | PDone | PExit | PSpin => False | _ => True end.
Definition okp (b : Z) (q : phase) (i : nat) (p : pc) : Prop :=
  match p with
  | PWait b' s nxt => (b' = b /\ to_q q nxt) \/ (b' <> b /\ s = false /\ nowait nxt /\ at_q q i nxt)
  | _ => at_q q i p
  end.
Definition iscur (b : Z) (p : pc) : bool := match p with PWait b' _ _ => b' =? b | _ => false end.
Definition isold (b : Z) (p : pc) : bool := match p with PWait b' _ _ => negb (b' =? b) | _ => false end.
Definition isdone (p : pc) : bool := match p with PDone => true | _ => false end.
Definition counted (b : Z) (q : phase) (p : pc) : bool := match q with QDown _ => isdone p | _ => iscur b p end.

Fixpoint runs_of (q : phase) (p : pc) : list (bool * nat) :=
  match p with
  | PWait _ _ nxt => runs_of q nxt
  | PBody f _ => in_turn (pred f) ++ [(true, f)]
  | PRet f | PBack f => in_turn f
  | _ => in_turn (base q)
  end.
Fixpoint eff (p : pc) : pc := match p with PWait _ _ nxt => eff nxt | _ => p end.
Definition calls_of (q : phase) (p : pc) : list (bool * nat) :=
  match q with
  | QInit => []
  | QIdle f => match eff p with PBack _ => in_turn (pred f) ++ [(true, f)] | _ => in_turn f end
  | QBody f _ => in_turn (pred f) ++ [(true, f)]
  | QDown f => in_turn f
  end.
Definition sh_ok (q : phase) (sh : shr) : Prop :=
  match q with
  | QInit => stat sh = Rdy /\ fptr sh = O
  | QIdle f => stat sh = Rdy /\ fptr sh = f
  | QBody f k => stat sh = Run /\ fptr sh = f /\ (1 <= f)%nat /\ (k <= K f)%nat
  | QDown f => stat sh = Dwn /\ fptr sh = f
  end.
Definition isdown (q : phase) : Prop := match q with QDown _ => True | _ => False end.

(** a bound of the number of moves to come before thread 0 decides something *)
Definition wI (q : phase) : nat := match q with QBody f _ => 10 * K f + 30 | QDown _ => 5 | _ => 0 end.
Definition w0 (q : phase) (p : pc) : nat :=
  match p with
  | PInit => 20
  | PIdle => wI q + 2 | PIdleW s => wI q + b2n (negb s) | PBack _ => wI q + 3
  | PRead => match q with QBody f _ => 10 * K f + 25 | _ => 0 end
  | PBody _ k => 10 * k + 15 | PRet _ => 14
  | PSpin => 1 | PAck => 1 | _ => 0
  end.
Definition wt (b : Z) (q : phase) (p : pc) : nat :=
  match p with
  | PWait b' s nxt => if b' =? b then 5 + b2n (negb s) + w0 (nextq q) nxt else 1 + w0 q nxt
  | _ => w0 q p
  end.
Fixpoint mu (b : Z) (q : phase) (l : list pc) : nat := match l with [] => 0 | p :: l => wt b q p + mu b q l end.
Lemma mu_updn b q l i p p' : nth_error l i = Some p -> (mu b q (updn l i p') + wt b q p = mu b q l + wt b q p')%nat.
Proof. revert i. induction l as [|a l IH]; intros i H; [destruct i; discriminate|]. destruct i; cbn [updn nth_error mu] in *; [injection H as ->; lia|]. specialize (IH _ H). lia. Qed.
Lemma mu_le b q b' q' l l' i p p' :
  length l = length l' -> nth_error l i = Some p -> nth_error l' i = Some p' -> (wt b' q' p' < wt b q p)%nat ->
  (forall j x x', j <> i -> nth_error l j = Some x -> nth_error l' j = Some x' -> (wt b' q' x' <= wt b q x)%nat) -> (mu b' q' l' < mu b q l)%nat.
Proof.
  revert l' i. induction l as [|a l IH]; intros l' i L H H' D O; [destruct i; discriminate|]. destruct l' as [|a' l']; [discriminate|]. cbn [length] in L. injection L as L. cbn [mu].
  destruct i as [|i]; cbn [nth_error] in H, H'.
  - injection H as ->. injection H' as ->. 
    assert (mu b' q' l' <= mu b q l)%nat; [|lia]. assert (O' : forall j x x', nth_error l j = Some x -> nth_error l' j = Some x' -> (wt b' q' x' <= wt b q x)%nat) by (intros j x x' Hx Hx'; apply (O (S j)); auto).
    clear - L O'. revert l' L O'. induction l as [|a l IH]; intros l' L O'; destruct l' as [|a' l']; try discriminate; [auto|]. cbn [mu]. injection L as L. specialize (O' 0%nat a a' eq_refl eq_refl) as O0.
    specialize (IH l' L). assert (mu b' q' l' <= mu b q l)%nat; [|lia]. apply IH. intros j x x' Hx Hx'. apply (O' (S j)); auto.
  - specialize (O 0%nat a a' ltac:(lia) eq_refl eq_refl) as O0. specialize (IH l' i L H H' D). assert (mu b' q' l' < mu b q l)%nat; [|lia]. apply IH. intros j x x' Dj Hx Hx'. apply (O (S j)); auto.
Qed.

(** what must come before an event *)
Definition good (log : list event) (e : event) : Prop :=
  match e with
  | Leave i v => (i < n)%nat /\ forall j, (j < n)%nat -> (length (rets i log) < entered j log)%nat
  | Return f => forall j, (j < n)%nat -> runs j log = in_turn f
  | FStart i f => In (Launch f) log
  | _ => True
  end.
Definition hist (log : list event) : Prop := forall l1 e l2, log = l1 ++ e :: l2 -> good l1 e.
Lemma hist_snoc log e : hist log -> good log e -> hist (log ++ [e]).
Proof.
  intros H G l1 e' l2 E. destruct (rev l2) as [|x r] eqn:R.
  - assert (l2 = []) as -> by (rewrite <- (rev_involutive l2), R; auto). apply app_inj_tail in E. destruct E as [-> ->]. auto.
  - assert (l2 = rev r ++ [x]) as -> by (rewrite <- (rev_involutive l2), R; auto).
    change (l1 ++ e' :: rev r ++ [x]) with (l1 ++ (e' :: rev r) ++ [x]) in E. rewrite app_assoc in E. apply app_inj_tail in E. destruct E as [-> _]. apply (H _ _ _ eq_refl).
Qed.

Definition one_last (R : nat) (log : list event) : Prop :=
  forall r, (r < R)%nat -> exists i, (i < n)%nat /\ nth_error (rets i log) r = Some true /\
    forall j v, (j < n)%nat -> nth_error (rets j log) r = Some v -> v = Nat.eqb i j.

Record inv (R : nat) (q : phase) (sh : shr) (ths : list pc) (log : list event) : Prop := {
  i_len : length ths = n;
  i_num : bnum sh = Z.of_nat R mod W;
  i_sh : sh_ok q sh;
  i_pc : forall i p, nth_error ths i = Some p -> okp (bnum sh) q i p;
  i_cnt : bnbr sh = cnt (counted (bnum sh) q) ths;
  i_lt : (bnbr sh < n)%nat;
  i_runs : forall i p, nth_error ths i = Some p -> runs i log = runs_of q p;
  i_ent : forall i p, nth_error ths i = Some p -> entered i log = (R + b2n (iscur (bnum sh) p))%nat;
  i_ret : forall i p, nth_error ths i = Some p -> (length (rets i log) + b2n (isold (bnum sh) p) = R)%nat;
  i_last : one_last R log;
  i_calls : forall p, nth_error ths 0 = Some p -> calls log = calls_of q p;
  i_launch : forall f, (1 <= f <= fptr sh)%nat -> In (Launch f) log;
  i_hist : hist log;
  i_exit : nth_error ths 0 = Some PExit -> S (bnbr sh) = n
}.

(** a move of one thread that changes neither the round nor the phase *)
Lemma inv_one R q sh sh' ths log i p p' e :
  inv R q sh ths log -> nth_error ths i = Some p ->
  stat sh' = stat sh -> bnum sh' = bnum sh -> fptr sh' = fptr sh ->
  okp (bnum sh) q i p' ->
  (bnbr sh' + b2n (counted (bnum sh) q p) = bnbr sh + b2n (counted (bnum sh) q p'))%nat -> (bnbr sh' < n)%nat ->
  (forall j, runs j e = if Nat.eqb i j then runs i e else []) -> runs_of q p' = runs_of q p ++ runs i e ->
  (forall j, entered j e = if Nat.eqb i j then entered i e else O) -> (b2n (iscur (bnum sh) p') = b2n (iscur (bnum sh) p) + entered i e)%nat ->
  (forall j, rets j e = if Nat.eqb i j then rets i e else []) ->
  (rets i e = [] /\ isold (bnum sh) p' = isold (bnum sh) p \/ rets i e = [false] /\ isold (bnum sh) p' = false /\ isold (bnum sh) p = true) ->
  (i = O -> calls_of q p' = calls_of q p ++ calls e) -> (i <> O -> calls e = []) ->
  hist (log ++ e) -> (bnbr sh <= bnbr sh')%nat -> (i = O -> p' = PExit -> S (bnbr sh') = n) ->
  inv R q sh' (updn ths i p') (log ++ e).
Proof.
  intros V Hp S1 S2 S3 Ok C1 C2 R1 R2 E1 E2 T1 T2 L1 L2 Hh X1 X2. destruct V.
  assert (IN : (i < n)%nat) by (rewrite <- i_len0; apply nth_error_Some; congruence).
  constructor; rewrite ?S2.
  - now rewrite updn_length.
  - auto.
  - unfold sh_ok in *. rewrite S1, S3. auto.
  - intros j pj Hj. apply ne_updn in Hj. destruct Hj as [(<- & -> & _)|(D & Hj)]; auto.
  - pose proof (cnt_updn (counted (bnum sh) q) ths i p p' Hp). lia.
  - auto.
  - intros j pj Hj. rewrite runs_app, R1. apply ne_updn in Hj. destruct Hj as [(<- & -> & _)|(D & Hj)].
    + rewrite Nat.eqb_refl, R2. f_equal. apply i_runs0. auto.
    + apply Nat.eqb_neq in D. rewrite D, app_nil_r. auto.
  - intros j pj Hj. rewrite entered_app, E1. apply ne_updn in Hj. destruct Hj as [(<- & -> & _)|(D & Hj)].
    + rewrite Nat.eqb_refl. specialize (i_ent0 _ _ Hp). lia.
    + apply Nat.eqb_neq in D. rewrite D. rewrite Nat.add_0_r. auto.
  - intros j pj Hj. rewrite rets_app, app_length, T1. apply ne_updn in Hj. destruct Hj as [(<- & -> & _)|(D & Hj)].
    + rewrite Nat.eqb_refl. specialize (i_ret0 _ _ Hp). destruct T2 as [(-> & ->)|(-> & -> & T)]; cbn [length b2n]; [lia|]. rewrite T in i_ret0. cbn [b2n] in i_ret0. lia.
    + apply Nat.eqb_neq in D. rewrite D. cbn [length]. rewrite Nat.add_0_r. auto.
  - intros r Hr. destruct (i_last0 r Hr) as (k & Kn & Kt & Ko). exists k. split; [auto|]. split.
    + rewrite rets_app, nth_error_app1; [auto|]. apply nth_error_Some. congruence.
    + intros j v Jn Jv. rewrite rets_app, T1 in Jv. destruct (Nat.eqb_spec i j) as [<-|D]; [|rewrite app_nil_r in Jv; auto].
      destruct T2 as [(T & _)|(T & OO' & OO)]; rewrite T in Jv; [rewrite app_nil_r in Jv; auto|].
      pose proof (i_ret0 _ _ Hp) as L. rewrite OO in L. cbn [b2n] in L.
      destruct (Nat.lt_ge_cases r (length (rets i log))) as [L'|L']; [rewrite nth_error_app1 in Jv by auto; auto|].
      rewrite nth_error_app2 in Jv by auto. replace (r - length (rets i log))%nat with O in Jv by lia. cbn [nth_error] in Jv. injection Jv as <-.
      symmetry. apply Nat.eqb_neq. intros ->. assert (r < length (rets i log))%nat by (apply nth_error_Some; congruence). lia.
  - intros p0 H0. rewrite calls_app. apply ne_updn in H0. destruct H0 as [(-> & -> & _)|(D & H0)].
    + rewrite L1 by auto. f_equal. auto.
    + rewrite L2 by auto. rewrite app_nil_r. auto.
  - intros f Hf. rewrite S3 in Hf. apply in_or_app. left. auto.
  - auto.
  - intros H0. apply ne_updn in H0. destruct H0 as [(-> & E & _)|(D & H0)]; [auto|]. specialize (i_exit0 H0). lia.
Qed.

Lemma wake_cur b p : iscur b (wake p) = iscur b p. Proof. destruct p; auto. Qed.
Lemma wake_old b p : isold b (wake p) = isold b p. Proof. destruct p; auto. Qed.
Lemma wake_done p : isdone (wake p) = isdone p. Proof. destruct p; auto. Qed.
Lemma wake_runs q p : runs_of q (wake p) = runs_of q p. Proof. destruct p; auto. Qed.
Lemma wake_calls q p : calls_of q (wake p) = calls_of q p. Proof. destruct p; auto. Qed.
Lemma wake_ok b q i p : okp b q i p -> okp b q i (wake p).
Proof.
  destruct p; auto; cbn [wake okp]; intros H.
  - destruct q; cbn [at_q] in *; try discriminate.
    + destruct H as [H|[(H & s & H')|(H0 & H)]]; try discriminate. right. left. eauto.
    + destruct H as [H|[(H & H')|(H1 & H2 & [H|[H|[H|H]]])]]; try discriminate. auto 8.
    + destruct H as [(H & [H'|H'])|(H1 & [H|[H|[H|[H|H]]]])]; try discriminate. auto 8.
  - destruct H as [H|(H & H1 & H2 & H3)]; auto.
Qed.

Lemma mod_succ R : (Z.of_nat R mod W + 1) mod W = Z.of_nat (S R) mod W /\ (Z.of_nat R mod W + 1) mod W <> Z.of_nat R mod W.
Proof.
  split.
  - rewrite Zplus_mod_idemp_l. f_equal. lia.
  - intros E. pose proof (Z.mod_pos_bound (Z.of_nat R) W ltac:(lia)) as B. set (x := Z.of_nat R mod W) in *. clearbody x.
    destruct (Z.eq_dec (x + 1) W) as [e|e]; [rewrite e, Z.mod_same in E by lia; lia|]. rewrite Z.mod_small in E by lia. lia.
Qed.

Lemma to_next q i p : to_q q p -> at_q (nextq q) i p /\ nowait p /\ runs_of (nextq q) p = runs_of q p /\ eff p = p /\ ~ isdown q.
Proof.
  destruct q as [|f|f k|f]; cbn [to_q nextq]; try contradiction.
  - intros ->. cbn. auto 8.
  - destruct k; [intros (H & ->)|intros ->]; cbn; auto 8.
Qed.
Lemma calls_next q p : to_q q (eff p) -> calls_of (nextq q) p = calls_of q p.
Proof.
  destruct q as [|f|f k|f]; cbn [to_q nextq]; try contradiction.
  - intros E. cbn [calls_of]. rewrite E. reflexivity.
  - destruct k; [intros (H & E)|intros E]; cbn [calls_of]; rewrite ?E; auto.
Qed.
Lemma eff_calls q p : calls_of q (eff p) = calls_of q p.
Proof. unfold calls_of. assert (E : eff (eff p) = eff p) by (induction p; auto). rewrite E. auto. Qed.

Lemma one_last_snoc R log i :
  one_last R log -> (i < n)%nat -> (forall j, (j < n)%nat -> length (rets j log) = R) -> one_last (S R) (log ++ [Enter i; Leave i true]).
Proof.
  intros H Hi HL r Hr.
  assert (RE : forall j, rets j (log ++ [Enter i; Leave i true]) = rets j log ++ (if Nat.eqb i j then [true] else [])).
  { intros j. rewrite rets_app. f_equal. unfold rets. cbn [flat_map]. destruct (Nat.eqb i j); auto. }
  destruct (Nat.eq_dec r R) as [->|D].
  - exists i. split; [auto|]. split.
    + rewrite RE, Nat.eqb_refl, nth_error_app2 by (rewrite HL; auto). rewrite HL, Nat.sub_diag by auto. reflexivity.
    + intros j v Hj Jv. rewrite RE, nth_error_app2 in Jv by (rewrite HL; auto). rewrite HL, Nat.sub_diag in Jv by auto.
      destruct (Nat.eqb i j); cbn [nth_error] in Jv; congruence.
  - destruct (H r ltac:(lia)) as (k & Kn & Kt & Ko). exists k. split; [auto|].
    assert (X : forall j, (j < n)%nat -> nth_error (rets j (log ++ [Enter i; Leave i true])) r = nth_error (rets j log) r).
    { intros j Hj. rewrite RE, nth_error_app1; [auto|]. rewrite HL; [lia|auto]. }
    split; [rewrite X; auto|]. intros j v Hj. rewrite X by auto. auto.
Qed.

(** entering a barrier *)
Lemma inv_enter R q sh ths log i p nxt reset :
  inv R q sh ths log -> nth_error ths i = Some p -> (forall b s x, p <> PWait b s x) -> to_q q nxt ->
  runs_of q nxt = runs_of q p -> (i = O -> eff p = p) ->
  (reset = true -> exists f, q = QBody f 0) -> (reset = false -> forall f, q <> QBody f 0) ->
  (6 + w0 (nextq q) nxt <= w0 q p)%nat ->
  let '(sh', bc, p', e) := enter n W reset i sh nxt in
  exists R' q', inv R' q' sh' (updn (if bc then map wake ths else ths) i p') (log ++ e) /\ (mu (bnum sh') q' (updn (if bc then map wake ths else ths) i p') < mu (bnum sh) q ths)%nat.
Proof.
  intros V Hp NW TQ Rn Ef Rs Rs' Wp.
  assert (WP : wt (bnum sh) q p = w0 q p) by (destruct p; auto; exfalso; eapply NW; eauto).
  destruct (to_next _ i _ TQ) as (AN & WN & RN & EN & ND).
  assert (IN : (i < n)%nat) by (rewrite <- (i_len _ _ _ _ _ V); apply nth_error_Some; congruence).
  assert (PC : iscur (bnum sh) p = false) by (destruct p; auto; exfalso; eapply NW; eauto).
  assert (PO : isold (bnum sh) p = false) by (destruct p; auto; exfalso; eapply NW; eauto).
  assert (CQ : forall x, counted (bnum sh) q x = iscur (bnum sh) x) by (intros x; destruct q; auto; exfalso; apply ND; cbn; auto).
  unfold enter. destruct (Nat.eqb_spec (S (bnbr sh)) n) as [Last|Last].
  - exists (S R), (nextq q). pose proof V as V'. destruct V.
    destruct (mod_succ R) as [M1 M2]. rewrite <- i_num0 in M1, M2.
    assert (AC : forall j pj, j <> i -> nth_error ths j = Some pj -> iscur (bnum sh) pj = true).
    { intros j pj D Hj. rewrite <- CQ. apply (cnt_all_but (counted (bnum sh) q) ths i p Hp) with j; auto; [rewrite CQ; auto|lia]. }
    assert (AW : forall j pj, j <> i -> nth_error (map wake ths) j = Some pj -> exists x, pj = PWait (bnum sh) false x /\ to_q q x /\ exists s, nth_error ths j = Some (PWait (bnum sh) s x)).
    { intros j pj D Hj. rewrite nth_error_map in Hj. destruct (nth_error ths j) as [pj'|] eqn:Ej; [|discriminate]. cbn [option_map] in Hj. injection Hj as <-.
      pose proof (AC _ _ D Ej) as C. pose proof (i_pc0 _ _ Ej) as O. destruct pj'; cbn [iscur] in C; try discriminate. apply Z.eqb_eq in C. subst b.
      cbn [okp] in O. destruct O as [(_ & O)|(O & _)]; [|lia]. exists pj'. cbn [wake]. eauto. }
    assert (ER : forall j, (j < n)%nat -> length (rets j log) = R).
    { intros j Hj. destruct (nth_error ths j) as [pj|] eqn:Ej; [|apply nth_error_None in Ej; lia]. pose proof (i_ret0 _ _ Ej) as T.
      destruct (Nat.eq_dec j i) as [->|D]; [replace pj with p in T by congruence; rewrite PO in T; cbn [b2n] in T; lia|].
      pose proof (AC _ _ D Ej) as C. unfold isold in T. destruct pj; cbn [iscur] in C; try discriminate. rewrite C in T. cbn [negb b2n] in T. lia. }
    assert (EE : forall j, (j < n)%nat -> (entered j (log ++ [Enter i]) = S R)%nat).
    { intros j Hj. destruct (nth_error ths j) as [pj|] eqn:Ej; [|apply nth_error_None in Ej; lia]. pose proof (i_ent0 _ _ Ej) as T. rewrite entered_app. unfold entered at 2. cbn [filter].
      destruct (Nat.eqb_spec i j) as [<-|D]; cbn [length]; [replace pj with p in T by congruence; rewrite PC in T; cbn [b2n] in T; lia|].
      rewrite (AC j pj) in T by auto. cbn [b2n] in T. lia. }
    assert (NP : forall x, nowait x -> iscur ((bnum sh + 1) mod W) x = false /\ isold ((bnum sh + 1) mod W) x = false) by (intros x; destruct x; cbn; auto; contradiction).
    split.
    2:{ cbn [bnum]. assert (WN' : wt ((bnum sh + 1) mod W) (nextq q) nxt = w0 (nextq q) nxt) by (destruct nxt; auto; destruct WN).
        apply mu_le with i p nxt; auto.
        - now rewrite updn_length, map_length.
        - apply ne_updn_same with (wake p). rewrite nth_error_map, Hp. reflexivity.
        - rewrite WN', WP. lia.
        - intros j x x' D Hx Hx'. apply ne_updn in Hx'. destruct Hx' as [(E & _)|(_ & Hx')]; [lia|]. destruct (AW j x' ltac:(auto) Hx') as (y & -> & TY & s & Hs).
          rewrite Hs in Hx. injection Hx as <-. cbn [wt]. rewrite Z.eqb_refl. replace (bnum sh =? (bnum sh + 1) mod W) with false by (symmetry; apply Z.eqb_neq; auto). lia. }
    constructor; cbn [bnum bnbr stat fptr].
    + now rewrite updn_length, map_length.
    + auto.
    + destruct q as [|f|f k|f]; cbn [to_q] in TQ; try contradiction; cbn [nextq sh_ok] in *.
      * destruct i_sh0. destruct reset; [destruct (Rs eq_refl); discriminate|]. cbn [stat fptr]. auto.
      * destruct k as [|k]; cbn [sh_ok stat fptr].
        -- destruct reset; [|exfalso; eapply Rs'; eauto]. tauto.
        -- destruct reset; [destruct (Rs eq_refl); discriminate|]. destruct i_sh0 as (? & ? & ? & ?). repeat split; auto. lia.
    + intros j pj Hj. apply ne_updn in Hj. destruct Hj as [(<- & -> & _)|(D & Hj)].
      * destruct nxt; cbn [okp]; auto. destruct WN.
      * destruct (AW j pj ltac:(auto) Hj) as (x & -> & TX & _). cbn [okp]. right. destruct (to_next _ j _ TX) as (? & ? & _). auto.
    + symmetry. apply cnt_zero. intros j pj Hj.
      assert (C : forall x, counted ((bnum sh + 1) mod W) (nextq q) x = iscur ((bnum sh + 1) mod W) x).
      { intros x. destruct q as [|f|f k|f]; cbn [to_q] in TQ; try contradiction; auto. destruct k; auto. }
      rewrite C. apply ne_updn in Hj. destruct Hj as [(<- & -> & _)|(D & Hj)]; [apply NP; auto|].
      destruct (AW j pj ltac:(auto) Hj) as (x & -> & _). cbn [iscur]. apply Z.eqb_neq. auto.
    + lia.
    + intros j pj Hj. rewrite runs_app. cbn [runs flat_map]. rewrite app_nil_r. apply ne_updn in Hj. destruct Hj as [(<- & -> & _)|(D & Hj)].
      * rewrite RN, Rn. auto.
      * destruct (AW j pj ltac:(auto) Hj) as (x & -> & TX & s & Ej). cbn [runs_of]. rewrite (i_runs0 _ _ Ej). cbn [runs_of]. symmetry. apply (to_next _ j _ TX).
    + intros j pj Hj. assert (Jn : (j < n)%nat) by (rewrite <- i_len0, <- (map_length wake ths), <- (updn_length (map wake ths) i nxt); apply nth_error_Some; congruence).
      change [Enter i; Leave i true] with ([Enter i] ++ [Leave i true]). rewrite app_assoc, entered_app, EE by auto. unfold entered. cbn [filter length].
      apply ne_updn in Hj. destruct Hj as [(<- & -> & _)|(D & Hj)]; [rewrite (proj1 (NP _ WN)); cbn [b2n]; lia|].
      destruct (AW j pj ltac:(auto) Hj) as (x & -> & _). cbn [iscur]. replace (bnum sh =? (bnum sh + 1) mod W) with false by (symmetry; apply Z.eqb_neq; auto). cbn [b2n]. lia.
    + intros j pj Hj. assert (Jn : (j < n)%nat) by (rewrite <- i_len0, <- (map_length wake ths), <- (updn_length (map wake ths) i nxt); apply nth_error_Some; congruence).
      rewrite rets_app, app_length, ER by auto. unfold rets. cbn [flat_map].
      apply ne_updn in Hj. destruct Hj as [(<- & -> & _)|(D & Hj)]; [rewrite Nat.eqb_refl, (proj2 (NP _ WN)); cbn [b2n length app]; lia|].
      destruct (AW j pj ltac:(auto) Hj) as (x & -> & _). cbn [isold]. replace (bnum sh =? (bnum sh + 1) mod W) with false by (symmetry; apply Z.eqb_neq; auto).
      apply Nat.eqb_neq in D. rewrite D. cbn [b2n length negb app]. lia.
    + apply one_last_snoc; auto.
    + intros p0 H0. rewrite calls_app. cbn [calls flat_map]. rewrite app_nil_r. apply ne_updn in H0. destruct H0 as [(-> & -> & _)|(D & H0)].
      * rewrite calls_next by (rewrite EN; auto). rewrite (i_calls0 _ Hp). unfold calls_of.
        destruct q as [|f|f k|f]; cbn [to_q] in TQ; try contradiction; auto.
      * destruct (AW O p0 ltac:(auto) H0) as (x & -> & TX & s & Ej). rewrite (i_calls0 _ Ej). destruct (to_next _ O _ TX) as (_ & _ & _ & EX & _).
        rewrite calls_next by (cbn [eff]; rewrite EX; auto). unfold calls_of. cbn [eff]. auto.
    + intros f Hf. apply in_or_app. left. auto.
    + change [Enter i; Leave i true] with ([Enter i] ++ [Leave i true]). rewrite app_assoc. apply hist_snoc; [apply hist_snoc; cbn; auto|].
      cbn [good]. split; [auto|]. intros j Hj. rewrite EE by auto. rewrite rets_app. cbn [rets flat_map]. rewrite app_nil_r, ER by auto. lia.
    + intros H0. exfalso. apply ne_updn in H0. destruct H0 as [(-> & E & _)|(D & H0)].
      * destruct q as [|f|f k|f]; cbn [to_q] in TQ; try contradiction; [subst; discriminate|]. destruct k; [destruct TQ|]; subst; discriminate.
      * destruct (AW O _ ltac:(auto) H0) as (x & E & _). discriminate.
  - exists R, q. pose proof (i_lt _ _ _ _ _ V). split.
    2:{ cbn [bnum]. pose proof (mu_updn (bnum sh) q ths i p (PWait (bnum sh) true nxt) Hp) as U. rewrite WP in U. cbn [wt] in U. rewrite Z.eqb_refl in U. cbn [negb b2n] in U. lia. }
    eapply inv_one; eauto; cbn [bnum bnbr stat fptr]; auto.
    + cbn [okp]. auto.
    + rewrite !CQ, PC. cbn [iscur]. rewrite Z.eqb_refl. cbn [b2n]. lia.
    + lia.
    + intros j. unfold runs. cbn [flat_map]. now destruct (Nat.eqb i j).
    + cbn [runs_of]. unfold runs. cbn [flat_map]. rewrite app_nil_r. auto.
    + intros j. unfold entered. cbn [filter]. rewrite Nat.eqb_refl. now destruct (Nat.eqb i j).
    + rewrite PC. cbn [iscur]. rewrite Z.eqb_refl. unfold entered. cbn [filter]. rewrite Nat.eqb_refl. reflexivity.
    + intros j. unfold rets. cbn [flat_map]. now destruct (Nat.eqb i j).
    + left. split; [auto|]. rewrite PO. cbn [isold]. rewrite Z.eqb_refl. auto.
    + intros ->. cbn [calls flat_map]. rewrite app_nil_r. unfold calls_of. cbn [eff]. rewrite EN.
      destruct q as [|f|f k|f]; cbn [to_q] in TQ; try contradiction; auto.
    + apply hist_snoc; [apply (i_hist _ _ _ _ _ V)|cbn; auto].
    + intros _ E. discriminate.
Qed.

Lemma inv_leave R q sh ths log i b nxt :
  inv R q sh ths log -> nth_error ths i = Some (PWait b false nxt) -> bnum sh <> b ->
  inv R q sh (updn ths i nxt) (log ++ [Leave i false]).
Proof.
  intros V Hp D. pose proof (i_pc _ _ _ _ _ V _ _ Hp) as OK. cbn [okp] in OK. destruct OK as [(-> & _)|(_ & _ & NW & AQ)]; [lia|].
  assert (IN : (i < n)%nat) by (rewrite <- (i_len _ _ _ _ _ V); apply nth_error_Some; congruence).
  assert (BF : (b =? bnum sh) = false) by (apply Z.eqb_neq; lia).
  assert (NC : iscur (bnum sh) nxt = false /\ isold (bnum sh) nxt = false /\ isdone nxt = false /\ eff nxt = nxt) by (destruct nxt; cbn in *; auto; contradiction).
  destruct NC as (N1 & N2 & N3 & N4).
  eapply inv_one; eauto.
  - destruct nxt; cbn [okp]; auto. destruct NW.
  - replace (counted (bnum sh) q nxt) with false by (destruct q; cbn [counted]; auto). replace (counted (bnum sh) q (PWait b false nxt)) with false by (destruct q; cbn [counted iscur]; auto). auto.
  - apply (i_lt _ _ _ _ _ V).
  - intros j. unfold runs. cbn [flat_map]. now destruct (Nat.eqb i j).
  - cbn [runs_of]. unfold runs. cbn [flat_map]. rewrite app_nil_r. auto.
  - intros j. unfold entered. cbn [filter]. now destruct (Nat.eqb i j).
  - rewrite N1. cbn [iscur]. rewrite BF. auto.
  - intros j. unfold rets. cbn [flat_map]. rewrite Nat.eqb_refl. now destruct (Nat.eqb i j).
  - right. cbn [isold]. rewrite BF. unfold rets. cbn [flat_map]. rewrite Nat.eqb_refl. auto.
  - intros _. cbn [calls flat_map]. rewrite app_nil_r. unfold calls_of. cbn [eff]. auto.
  - apply hist_snoc; [apply (i_hist _ _ _ _ _ V)|]. cbn [good]. split; [auto|]. intros j Hj.
    pose proof (i_ret _ _ _ _ _ V _ _ Hp) as L. cbn [isold] in L. rewrite BF in L. cbn [negb b2n] in L.
    destruct (nth_error ths j) as [pj|] eqn:Ej; [|apply nth_error_None in Ej; rewrite (i_len _ _ _ _ _ V) in Ej; lia].
    pose proof (i_ent _ _ _ _ _ V _ _ Ej). lia.
  - intros _ ->. destruct NW.
Qed.

(** a silent move of a thread that is not in a barrier, or that stays in it *)
Lemma inv_silent R q sh ths log i p p' :
  inv R q sh ths log -> nth_error ths i = Some p ->
  okp (bnum sh) q i p' -> isdone p' = isdone p -> runs_of q p' = runs_of q p ->
  iscur (bnum sh) p' = iscur (bnum sh) p -> isold (bnum sh) p' = isold (bnum sh) p -> (i = O -> calls_of q p' = calls_of q p) -> (i = O -> p' = PExit -> S (bnbr sh) = n) ->
  inv R q sh (updn ths i p') log.
Proof.
  intros V Hp Ok D Rn C Ol Ca Ex. rewrite <- (app_nil_r log). eapply inv_one; eauto; try reflexivity.
  - f_equal. f_equal. destruct q; cbn [counted]; auto.
  - apply (i_lt _ _ _ _ _ V).
  - intros j. now destruct (Nat.eqb i j).
  - rewrite app_nil_r. auto.
  - intros j. now destruct (Nat.eqb i j).
  - rewrite C. cbn. lia.
  - intros j. now destruct (Nat.eqb i j).
  - intros E. rewrite app_nil_r. auto.
  - rewrite app_nil_r. apply (i_hist _ _ _ _ _ V).
Qed.

Lemma inv_idle R q sh ths log i p :
  inv R q sh ths log -> nth_error ths i = Some p -> i <> O -> (p = PIdle \/ p = PIdleW false) ->
  let '(sh', bc, p', e) := idle sh in
  inv R q sh' (updn (if bc then map wake ths else ths) i p') (log ++ e).
Proof.
  intros V Hp D Pp. unfold idle. rewrite app_nil_r.
  pose proof (i_pc _ _ _ _ _ V _ _ Hp) as OK. pose proof (i_sh _ _ _ _ _ V) as SH.
  assert (AQ : at_q q i p) by (destruct Pp; subst p; auto). clear OK.
  assert (X : isdone p = false /\ runs_of q p = in_turn (base q) /\ iscur (bnum sh) p = false /\ isold (bnum sh) p = false) by (destruct Pp; subst p; cbn; auto).
  destruct X as (X1 & X2 & X3 & X4).
  assert (NI : p <> PInit /\ (forall f k, p <> PBody f k) /\ (forall f, p <> PRet f)) by (destruct Pp; subst p; repeat split; intros; discriminate). destruct NI as (N1 & N2 & N3).
  assert (A' : okp (bnum sh) q i (match stat sh with Rdy => PIdleW true | Run => PRead | Dwn => PAck end)).
  { destruct q as [|f|f k|f]; cbn [sh_ok] in SH.
    - contradiction.
    - destruct SH as (-> & _). cbn [okp at_q]. eauto 6.
    - destruct SH as (-> & _). cbn [okp at_q]. cbn [at_q] in AQ. destruct AQ as [H|[(_ & H)|(H1 & H2 & _)]]; [exfalso; eapply N2; eauto|exfalso; eapply N3; eauto|]. auto 8.
    - destruct SH as (-> & _). cbn [okp at_q]. auto 8. }
  apply inv_silent with p; auto; destruct (stat sh); cbn; auto; lia.
Qed.

(** a phase of which threads are in no barrier of the current round *)
Lemma inv_all_wake R q q' sh sh' ths log i p p' e :
  inv R q sh ths log -> nth_error ths i = Some p -> i = O -> (exists f, q = QIdle f) -> p = PIdle ->
  bnum sh' = bnum sh -> bnbr sh' = bnbr sh -> sh_ok q' sh' -> base q' = base q -> okp (bnum sh) q' 0 p' ->
  (forall j pj, j <> O -> okp (bnum sh) q j pj -> okp (bnum sh) q' j (wake pj)) ->
  (forall x, eff x = x -> counted (bnum sh) q' x = false \/ isdone x = true \/ iscur (bnum sh) x = true) -> isdone p' = false ->
  runs_of q' p' = in_turn (base q) ++ runs 0 e -> (forall j, j <> O -> runs j e = []) -> (forall j, entered j e = O) -> (forall j, rets j e = []) ->
  iscur (bnum sh) p' = false -> isold (bnum sh) p' = false ->
  calls_of q' p' = in_turn (base q) ++ calls e ->
  (forall f, (1 <= f <= fptr sh')%nat -> (f <= fptr sh)%nat \/ In (Launch f) e) ->
  hist (log ++ e) -> p' <> PExit ->
  inv R q' sh' (updn (map wake ths) i p') (log ++ e).
Proof.
  intros V Hp -> (f & ->) -> E1 E2 S' B' Ok' Oth Cn Dn Rn Rn' En Rt Ci Oi Ca La Hh Ex. destruct V.
  assert (Z0 : bnbr sh = O).
  { rewrite i_cnt0. apply cnt_zero. intros j pj Hj. cbn [counted]. pose proof (i_pc0 _ _ Hj) as OK. destruct pj; auto. cbn [okp to_q] in OK. destruct OK as [(_ & [])|(D & _)]. cbn [iscur]. apply Z.eqb_neq. auto. }
  assert (OT : forall j pj, j <> O -> nth_error (map wake ths) j = Some pj -> exists x, nth_error ths j = Some x /\ pj = wake x).
  { intros j pj D Hj. rewrite nth_error_map in Hj. destruct (nth_error ths j) as [x|]; [|discriminate]. injection Hj as <-. eauto. }
  constructor; rewrite ?E1; auto.
  - now rewrite updn_length, map_length.
  - intros j pj Hj. apply ne_updn in Hj. destruct Hj as [(<- & -> & _)|(D & Hj)]; [auto|]. destruct (OT j pj ltac:(lia) Hj) as (x & Hx & ->). apply Oth; auto.
  - rewrite E2, Z0. symmetry. apply cnt_zero. intros j pj Hj. apply ne_updn in Hj. destruct Hj as [(<- & -> & _)|(D & Hj)].
    + destruct q'; cbn [counted]; auto.
    + destruct (OT j pj ltac:(lia) Hj) as (x & Hx & ->). specialize (i_pc0 _ _ Hx). 
      assert (T : isdone x = false /\ iscur (bnum sh) x = false).
      { destruct x; cbn [isdone iscur]; auto.
        - cbn [okp to_q] in i_pc0. destruct i_pc0 as [(_ & [])|(D' & _)]. split; [auto|]. apply Z.eqb_neq. auto.
        - cbn [okp at_q] in i_pc0. destruct i_pc0 as [H|[(H & s & H')|(H0 & H)]]; discriminate. }
      destruct q'; cbn [counted]; rewrite ?wake_cur, ?wake_done; tauto.
  - lia.
  - intros j pj Hj. rewrite runs_app. apply ne_updn in Hj. destruct Hj as [(<- & -> & _)|(D & Hj)].
    + rewrite (i_runs0 _ _ Hp). cbn [runs_of]. auto.
    + rewrite Rn' by lia. rewrite app_nil_r. destruct (OT j pj ltac:(lia) Hj) as (x & Hx & ->). rewrite (i_runs0 _ _ Hx), wake_runs.
      clear - B'. induction x; cbn [runs_of]; auto; now rewrite B'.
  - intros j pj Hj. rewrite entered_app, En, Nat.add_0_r. apply ne_updn in Hj. destruct Hj as [(<- & -> & _)|(D & Hj)].
    + rewrite Ci. apply (i_ent0 _ _ Hp).
    + destruct (OT j pj ltac:(lia) Hj) as (x & Hx & ->). rewrite wake_cur. auto.
  - intros j pj Hj. rewrite rets_app, Rt, app_nil_r. apply ne_updn in Hj. destruct Hj as [(<- & -> & _)|(D & Hj)].
    + rewrite Oi. apply (i_ret0 _ _ Hp).
    + destruct (OT j pj ltac:(lia) Hj) as (x & Hx & ->). rewrite wake_old. auto.
  - intros r Hr. destruct (i_last0 r Hr) as (k & K1 & K2 & K3). exists k. split; [auto|]. split; [now rewrite rets_app, Rt, app_nil_r|].
    intros j v Hj. rewrite rets_app, Rt, app_nil_r. auto.
  - intros p0 H0. apply ne_updn in H0. destruct H0 as [(_ & -> & _)|(D & H0)]; [|lia]. rewrite calls_app, (i_calls0 _ Hp), Ca. reflexivity.
  - intros g Hg. apply in_or_app. destruct (La g Hg) as [L|L]; [left; apply i_launch0; lia|right; auto].
  - intros H0. apply ne_updn in H0. destruct H0 as [(_ & E & _)|(D & _)]; [congruence|lia].
Qed.

Theorem inv_step st l st' R q :
  inv R q (fst (fst st)) (snd (fst st)) (snd st) -> gstep n W K st l = Some st' ->
  exists R' q', inv R' q' (fst (fst st')) (snd (fst st')) (snd st') /\
    (forall i c, l = Go i c -> st' <> st -> ~ (i = O /\ nth_error (snd (fst st)) 0 = Some PIdle) -> (mu (bnum (fst (fst st'))) q' (snd (fst st')) < mu (bnum (fst (fst st))) q (snd (fst st)))%nat) /\
    (forall i, l = Spur i -> (mu (bnum (fst (fst st'))) q' (snd (fst st')) <= S (mu (bnum (fst (fst st))) q (snd (fst st))))%nat).
Proof.
  destruct st as [[sh ths] log]. cbn [fst snd]. intros V G. unfold gstep in G. destruct l as [i c|i].
  2:{ destruct (nth_error ths i) as [p|] eqn:Hp; [|discriminate]. injection G as <-. cbn [fst snd]. exists R, q. split; [|split; [discriminate|]].
      2:{ intros _ _. pose proof (mu_updn (bnum sh) q ths i p (wake p) Hp) as U. destruct p as [| |[|]| | | | |b' [|] nxt'| | | |]; cbn [wake wt w0 negb b2n] in *; try destruct (b' =? bnum sh); lia. }
      apply inv_silent with p; auto using wake_runs, wake_done, wake_cur, wake_old, wake_calls.
      - apply wake_ok. apply (i_pc _ _ _ _ _ V _ _ Hp).
      - intros -> E. destruct p; try discriminate. apply (i_exit _ _ _ _ _ V Hp). }
  destruct (nth_error ths i) as [p|] eqn:Hp; [|discriminate].
  destruct (tstep n W K i c sh p) as [[[[sh' bc] p'] e]|] eqn:T; [|discriminate]. injection G as <-. cbn [fst snd].
  assert (SP : forall X : nat -> Prop, forall j, Go i c = Spur j -> X j) by discriminate.
  assert (ONE : (wt (bnum sh) q p' < wt (bnum sh) q p)%nat -> (mu (bnum sh) q (updn ths i p') < mu (bnum sh) q ths)%nat).
  { intros H. pose proof (mu_updn (bnum sh) q ths i p p' Hp). lia. }
  pose proof (i_pc _ _ _ _ _ V _ _ Hp) as OK. pose proof (i_sh _ _ _ _ _ V) as SH.
  assert (IN : (i < n)%nat) by (rewrite <- (i_len _ _ _ _ _ V); apply nth_error_Some; congruence).
  destruct p as [| |s| |f k|f|f|b s nxt| | | |]; cbn [tstep] in T.
  - (* PInit *)
    assert (q = QInit) as ->.
    { cbn [okp] in OK. destruct q; cbn [at_q] in OK; auto; [destruct OK as [H|[(H & s & H')|(H0 & H)]]|destruct OK as [H|[(H & H')|(H1 & H2 & [H|[H|[H|H]]])]]|destruct OK as [(H & [H'|H'])|(H1 & [H|[H|[H|[H|H]]]])]]; discriminate. }
    injection T as T. pose proof (inv_enter _ _ _ _ _ _ _ PIdle false V Hp) as X. cbv zeta in T. rewrite T in X. destruct X as (R' & q' & X & M); [..|exists R', q'; split; [exact X|split; [intros; exact M|discriminate]]]; try discriminate; cbn; auto; try lia.
  - (* PIdle *)
    destruct (Nat.eqb_spec i 0) as [->|D].
    + assert (exists f, q = QIdle f) as (f & ->).
      { cbn [okp] in OK. destruct q; cbn [at_q] in OK; eauto; [|destruct OK as [H|[(H & H')|(H1 & H2 & [H|[H|[H|H]]])]]|destruct OK as [(H & [H'|H'])|(H1 & [H|[H|[H|[H|H]]]])]]; try discriminate; lia. }
      cbn [sh_ok] in SH. destruct SH as (SH1 & SH2).
      assert (OTH : forall j pj q', j <> O -> okp (bnum sh) (QIdle f) j pj -> 
                 (forall x, at_q (QIdle f) j x -> (x <> PIdleW true) -> at_q q' j x) -> okp (bnum sh) q' j (wake pj)).
      { intros j pj q' D Ok H. destruct pj; cbn [okp wake] in *; try (apply H; [solve [auto]|discriminate]).
        - apply H; [|discriminate]. right. left. eauto.
        - right. destruct Ok as [(_ & [])|(O1 & O2 & O3 & O4)]. repeat split; auto. apply H; auto. intros ->. destruct O3. }
      destruct c; injection T as <- <- <- <-.
      * exists R, (QBody (S (fptr sh)) (K (S (fptr sh)))). rewrite SH2. split; [|split; [intros j c' E _ N; exfalso; injection E as <- <-; apply N; auto|discriminate]].
        eapply inv_all_wake; eauto; cbn [bnum bnbr fptr]; try reflexivity.
        -- cbn [sh_ok stat fptr]. repeat split; auto; lia.
        -- cbn [okp at_q]. auto.
        -- intros j pj D Ok. apply OTH; auto. intros x Hx Nx. cbn [at_q] in *. right. right. split; [auto|]. split; [auto|]. cbn [pred].
           destruct Hx as [Hx|[(_ & s & Hx)|(H0 & Hx)]]; auto. destruct s; [congruence|]. auto.
        -- intros x _. destruct x; auto. cbn [counted iscur]. destruct (b =? bnum sh); auto.
        -- intros j D. unfold runs. cbn [flat_map]. destruct j; [lia|reflexivity].
        -- intros g Hg. destruct (Nat.eq_dec g (S f)) as [->|]; [right; cbn; auto|left; lia].
        -- change [Launch (S f); FStart 0 (S f)] with ([Launch (S f)] ++ [FStart 0 (S f)]). rewrite app_assoc. apply hist_snoc; [apply hist_snoc; [apply (i_hist _ _ _ _ _ V)|cbn; auto]|].
           cbn [good]. apply in_or_app. right. cbn. auto.
        -- discriminate.
      * exists R, (QDown (fptr sh)). rewrite SH2. split; [|split; [intros j c' E _ N; exfalso; injection E as <- <-; apply N; auto|discriminate]].
        eapply inv_all_wake; eauto; cbn [bnum bnbr fptr]; try reflexivity.
        -- cbn [sh_ok stat fptr]. auto.
        -- cbn [okp at_q]. auto.
        -- intros j pj D Ok. apply OTH; auto. intros x Hx Nx. cbn [at_q] in *. right. split; [auto|].
           destruct Hx as [Hx|[(_ & s & Hx)|(H0 & Hx)]]; auto. destruct s; [congruence|]. auto.
        -- intros x _. destruct x; auto.
        -- cbn. rewrite app_nil_r. auto.
        -- cbn. rewrite app_nil_r. auto.
        -- intros g Hg. left. lia.
        -- rewrite app_nil_r. apply (i_hist _ _ _ _ _ V).
        -- discriminate.
    + assert (T' : idle sh = (sh', bc, p', e)) by congruence. exists R, q. pose proof (inv_idle _ _ _ _ _ _ _ V Hp D ltac:(auto)) as X. rewrite T' in X. split; [exact X|split; [|discriminate]]. intros j c' _ _ _. unfold idle in T'. injection T' as <- <- <- <-. apply ONE. pose proof (i_sh _ _ _ _ _ V) as S'. clear - S' OK. destruct q; cbn [okp at_q sh_ok] in *; destruct (stat sh); cbn; try lia; destruct S'; discriminate.
  - (* PIdleW *)
    destruct s; [discriminate|]. assert (T' : idle sh = (sh', bc, p', e)) by congruence. exists R, q.
    assert (D : i <> O).
    { cbn [okp] in OK. destruct q; cbn [at_q] in OK; [discriminate|destruct OK as [H|[(H & s & H')|(H0 & H)]]|destruct OK as [H|[(H & H')|(H1 & H2 & [H|[H|[H|H]]])]]|destruct OK as [(H & [H'|H'])|(H1 & [H|[H|[H|[H|H]]]])]]; try discriminate; auto. }
    pose proof (inv_idle _ _ _ _ _ _ _ V Hp D ltac:(auto)) as X. rewrite T' in X. split; [exact X|split; [|discriminate]]. intros j c' _ _ _. unfold idle in T'. injection T' as <- <- <- <-. apply ONE. pose proof (i_sh _ _ _ _ _ V) as S'. clear - S' OK. destruct q; cbn [okp at_q sh_ok] in *; destruct (stat sh); cbn; try lia; destruct S'; discriminate.
  - (* PRead *)
    assert (exists f, i <> O /\ q = QBody f (K f)) as (f & D & ->).
    { cbn [okp] in OK. destruct q; cbn [at_q] in OK; [discriminate|destruct OK as [H|[(H & s & H')|(H0 & H)]]|destruct OK as [H|[(H & H')|(H1 & H2 & [H|[H|[H|H]]])]]|destruct OK as [(H & [H'|H'])|(H1 & [H|[H|[H|[H|H]]]])]]; try discriminate; subst; eauto. }
    injection T as <- <- <- <-. cbn [sh_ok] in SH. destruct SH as (SH1 & SH2 & SH3 & _). exists R, (QBody f (K f)). rewrite SH2 in *. split; [|split; [intros; apply ONE; cbn; lia|discriminate]].
    eapply inv_one; eauto; try reflexivity.
    + cbn [okp at_q]. auto.
    + apply (i_lt _ _ _ _ _ V).
    + intros j. unfold runs. cbn [flat_map]. rewrite Nat.eqb_refl. now destruct (Nat.eqb i j).
    + cbn [runs_of base]. unfold runs. cbn [flat_map]. rewrite Nat.eqb_refl. reflexivity.
    + intros j. unfold entered. cbn [filter]. now destruct (Nat.eqb i j).
    + intros j. unfold rets. cbn [flat_map]. now destruct (Nat.eqb i j).
    + intros; lia.
    + apply hist_snoc; [apply (i_hist _ _ _ _ _ V)|]. cbn [good]. apply (i_launch _ _ _ _ _ V). lia.
    + discriminate.
  - (* PBody *)
    assert (q = QBody f k) as ->.
    { cbn [okp] in OK. destruct q; cbn [at_q] in OK; [discriminate|destruct OK as [H|[(H & s & H')|(H0 & H)]]|destruct OK as [H|[(H & H')|(H1 & H2 & [H|[H|[H|H]]])]]|destruct OK as [(H & [H'|H'])|(H1 & [H|[H|[H|[H|H]]]])]]; try discriminate; subst; auto. congruence. }
    cbn [sh_ok] in SH. destruct SH as (SH1 & SH2 & SH3 & SH4).
    destruct k as [|k].
    + injection T as <- <- <- <-. exists R, (QBody f 0). split; [|split; [intros; apply ONE; cbn; lia|discriminate]].
      eapply inv_one; eauto; try reflexivity.
      * cbn [okp at_q]. auto.
      * apply (i_lt _ _ _ _ _ V).
      * intros j. unfold runs. cbn [flat_map]. rewrite Nat.eqb_refl. now destruct (Nat.eqb i j).
      * cbn [runs_of base]. unfold runs. cbn [flat_map]. rewrite Nat.eqb_refl. destruct f as [|f]; [lia|]. cbn [pred]. rewrite in_turn_S, <- app_assoc. reflexivity.
      * intros j. unfold entered. cbn [filter]. now destruct (Nat.eqb i j).
      * intros j. unfold rets. cbn [flat_map]. now destruct (Nat.eqb i j).
      * intros _. cbn [calls_of calls flat_map]. rewrite app_nil_r. reflexivity.
      * apply hist_snoc; [apply (i_hist _ _ _ _ _ V)|]. cbn. auto.
      * discriminate.
    + injection T as T. pose proof (inv_enter _ _ _ _ _ _ _ (PBody f k) false V Hp) as X. cbv zeta in T. rewrite T in X. destruct X as (R' & q' & X & M); [..|exists R', q'; split; [exact X|split; [intros; exact M|discriminate]]]; try discriminate; cbn; auto; try lia.
  - (* PRet *)
    assert (q = QBody f 0) as ->.
    { cbn [okp] in OK. destruct q; cbn [at_q] in OK; [discriminate|destruct OK as [H|[(H & s & H')|(H0 & H)]]|destruct OK as [H|[(H & H')|(H1 & H2 & [H|[H|[H|H]]])]]|destruct OK as [(H & [H'|H'])|(H1 & [H|[H|[H|[H|H]]]])]]; try discriminate; subst; auto. congruence. }
    injection T as T. pose proof (inv_enter _ _ _ _ _ _ _ (PBack f) true V Hp) as X. cbv zeta in T. rewrite T in X. cbn [sh_ok] in SH. destruct X as (R' & q' & X & M); [..|exists R', q'; split; [exact X|split; [intros; exact M|discriminate]]]; try discriminate; cbn; auto; [split; [lia|auto]|eauto|lia].
  - (* PBack *)
    injection T as <- <- <- <-. exists R, q. split; [|split; [intros; apply ONE; cbn; lia|discriminate]].
    destruct (Nat.eqb_spec i 0) as [->|D].
    + assert (q = QIdle f) as ->.
      { cbn [okp] in OK. destruct q; cbn [at_q] in OK; [discriminate|destruct OK as [H|[(H & s & H')|(H0 & H)]]|destruct OK as [H|[(H & H')|(H1 & H2 & [H|[H|[H|H]]])]]|destruct OK as [(H & [H'|H'])|(H1 & [H|[H|[H|[H|H]]]])]]; try discriminate; try congruence; lia. }
      cbn [sh_ok] in SH. destruct SH as (SH1 & SH2).
      assert (F1 : f <> O).
      { cbn [okp at_q] in OK. destruct OK as [H|[(H & s & H')|(H0 & H)]]; [discriminate|discriminate|auto]. }
      eapply inv_one; eauto; try reflexivity.
      * cbn [okp at_q]. auto.
      * apply (i_lt _ _ _ _ _ V).
      * intros j. now destruct (Nat.eqb 0 j).
      * cbn. rewrite app_nil_r. auto.
      * intros j. now destruct (Nat.eqb 0 j).
      * intros j. now destruct (Nat.eqb 0 j).
      * intros _. cbn [calls_of eff calls flat_map]. destruct f; [lia|]. cbn [pred]. rewrite in_turn_S, <- app_assoc. reflexivity.
      * intros; lia.
      * apply hist_snoc; [apply (i_hist _ _ _ _ _ V)|]. cbn [good]. intros j Hj.
        destruct (nth_error ths j) as [pj|] eqn:Ej; [|apply nth_error_None in Ej; rewrite (i_len _ _ _ _ _ V) in Ej; lia].
        rewrite (i_runs _ _ _ _ _ V _ _ Ej). pose proof (i_pc _ _ _ _ _ V _ _ Ej) as O'.
        assert (RR : runs_of (QIdle f) pj = in_turn f).
        { assert (RQ : forall x, at_q (QIdle f) j x -> runs_of (QIdle f) x = in_turn f).
          { intros x Hx. cbn [at_q] in Hx. destruct Hx as [->|[(H & s & ->)|(H0 & ->)]]; reflexivity. }
          destruct pj; cbn [okp] in O'; try (apply RQ; exact O'). cbn [runs_of]. apply RQ. cbn [to_q] in O'. tauto. }
        exact RR.
      * discriminate.
    + rewrite app_nil_r. apply inv_silent with (PBack f); auto; try reflexivity; [| |lia|discriminate].
      * cbn [okp] in *. destruct q; cbn [at_q] in *; [discriminate|destruct OK as [H|[(H & s & H')|(H0 & H)]]|destruct OK as [H|[(H & H')|(H1 & H2 & [H|[H|[H|H]]])]]|destruct OK as [(H & [H'|H'])|(H1 & [H|[H|[H|[H|H]]]])]]; try discriminate; auto 8.
      * cbn [runs_of]. cbn [okp] in *. destruct q; cbn [at_q] in *; [discriminate|destruct OK as [H|[(H & s & H')|(H0 & H)]]|destruct OK as [H|[(H & H')|(H1 & H2 & [H|[H|[H|H]]])]]|destruct OK as [(H & [H'|H'])|(H1 & [H|[H|[H|[H|H]]]])]]; try discriminate; injection H as H; subst; reflexivity.
  - (* PWait *)
    destruct s; [discriminate|]. exists R, q. destruct (Z.eqb_spec (bnum sh) b) as [E|E]; injection T as <- <- <- <-.
    + split; [|split; [intros; apply ONE; cbn [wt]; destruct (b =? bnum sh) eqn:EB; [cbn; lia|apply Z.eqb_neq in EB; lia]|discriminate]].
      rewrite app_nil_r. apply inv_silent with (PWait b false nxt); auto; try reflexivity; [|discriminate]. cbn [okp] in *. destruct OK as [H|(H & _)]; [auto|lia].
    + split; [apply inv_leave with b; auto|split; [|discriminate]]. intros. apply ONE. cbn [okp] in OK. destruct OK as [(H' & _)|(Z1 & Z2 & Z3 & Z4)]; [lia|].
      cbn [wt]. apply Z.eqb_neq in Z1. rewrite Z1. destruct nxt; cbn [wt nowait] in *; try contradiction; lia.
  - (* PSpin *)
    injection T as <- <- <- <-. exists R, q. rewrite app_nil_r.
    assert (exists f, i = O /\ q = QDown f) as (f & -> & ->).
    { cbn [okp] in OK. destruct q; cbn [at_q] in OK; [discriminate|destruct OK as [H|[(H & s & H')|(H0 & H)]]|destruct OK as [H|[(H & H')|(H1 & H2 & [H|[H|[H|H]]])]]|destruct OK as [(H & [H'|H'])|(H1 & [H|[H|[H|[H|H]]]])]]; try discriminate; subst; eauto. }
    split; [|split; [intros j c' _ NE _; destruct (Nat.eqb (bnbr sh) (n - 1)); [apply ONE; cbn; lia|exfalso; apply NE]|discriminate]].
    2:{ f_equal. f_equal. clear - Hp. destruct ths; [discriminate|]. cbn in *. congruence. }
    apply inv_silent with PSpin; auto; destruct (Nat.eqb_spec (bnbr sh) (n - 1)); cbn; auto; try discriminate. intros; lia.
  - discriminate.
  - (* PAck *)
    assert (exists f, i <> O /\ q = QDown f) as (f & D & ->).
    { cbn [okp] in OK. destruct q; cbn [at_q] in OK; [discriminate|destruct OK as [H|[(H & s & H')|(H0 & H)]]|destruct OK as [H|[(H & H')|(H1 & H2 & [H|[H|[H|H]]])]]|destruct OK as [(H & [H'|H'])|(H1 & [H|[H|[H|[H|H]]]])]]; try discriminate; subst; eauto. }
    injection T as <- <- <- <-. exists R, (QDown f). split; [|split; [intros; apply ONE; cbn; lia|discriminate]].
    eapply inv_one; eauto; try reflexivity; cbn [bnbr].
    + cbn [okp at_q]. auto 8.
    + cbn [counted isdone b2n]. lia.
    + rewrite (i_cnt _ _ _ _ _ V). change (cnt (counted (bnum sh) (QDown f)) ths) with (cnt isdone ths).
      assert (C : (cnt isdone (updn ths i PDone) < n)%nat).
      { rewrite <- (i_len _ _ _ _ _ V). pose proof (cnt_le isdone (updn ths i PDone)) as L. rewrite updn_length in L.
        destruct (Nat.eq_dec (cnt isdone (updn ths i PDone)) (length ths)) as [e|e]; [|lia]. exfalso.
        destruct (nth_error ths 0) as [p0|] eqn:E0; [|apply nth_error_None in E0; rewrite (i_len _ _ _ _ _ V) in E0; lia].
        assert (E1 : nth_error (updn ths i PDone) 0 = Some p0).
        { clear - E0 D. destruct ths; [discriminate|]. destruct i; [lia|]. auto. }
        assert (e' : cnt isdone (updn ths i PDone) = length (updn ths i PDone)) by (rewrite updn_length; auto).
        pose proof (cnt_all isdone _ e' _ _ E1) as X. destruct p0; try discriminate. pose proof (i_pc _ _ _ _ _ V _ _ E0) as O'. cbn [okp at_q] in O'.
        destruct O' as [(_ & [H|H])|(H & _)]; [discriminate|discriminate|lia]. }
      pose proof (cnt_updn isdone ths i PAck PDone Hp) as U. cbn [isdone b2n] in U. lia.
    + intros j. now destruct (Nat.eqb i j).
    + rewrite app_nil_r. reflexivity.
    + intros j. now destruct (Nat.eqb i j).
    + intros j. now destruct (Nat.eqb i j).
    + lia.
    + rewrite app_nil_r. apply (i_hist _ _ _ _ _ V).
    + cbn. lia.
    + discriminate.
  - discriminate.
Qed.

Lemma inv_init : inv 0 QInit (mkshr Rdy 0 0 0) (repeat PInit n) [].
Proof.
  assert (A : forall i p, nth_error (repeat PInit n) i = Some p -> p = PInit) by (intros i p H; apply nth_error_In in H; now apply repeat_spec in H).
  constructor; cbn [bnum bnbr stat fptr].
  - apply repeat_length.
  - rewrite Z.mod_small by lia. reflexivity.
  - cbn. auto.
  - intros i p H. rewrite (A _ _ H). cbn. auto.
  - symmetry. apply cnt_zero. intros i p H. rewrite (A _ _ H). reflexivity.
  - lia.
  - intros i p H. rewrite (A _ _ H). reflexivity.
  - intros i p H. rewrite (A _ _ H). reflexivity.
  - intros i p H. rewrite (A _ _ H). reflexivity.
  - intros r Hr. lia.
  - intros p H. reflexivity.
  - intros f Hf. lia.
  - intros l1 e l2 H. destruct l1; discriminate.
  - intros H. apply A in H. discriminate.
Qed.

Definition reached (st : tstate) : Prop := exists R q, inv R q (fst (fst st)) (snd (fst st)) (snd st).
Lemma trun_inv sched st : reached st -> reached (trun n W K sched st).
Proof.
  revert st. induction sched as [|l sched IH]; intros st (R & q & V); [exists R, q; auto|]. cbn [trun]. apply IH.
  destruct (gstep n W K st l) as [st'|] eqn:G; [|exists R, q; auto]. destruct (inv_step _ _ _ _ _ V G) as (R' & q' & V' & _). exists R', q'. auto.
Qed.
Lemma reach_inv sched : reached (trun n W K sched (tinit n)).
Proof. apply trun_inv. exists O, QInit. apply inv_init. Qed.

Lemma moves_bound R q st a b st' :
  inv R q (fst (fst st)) (snd (fst st)) (snd st) -> moves n W K st a b st' -> (a <= mu (bnum (fst (fst st))) q (snd (fst st)) + b)%nat.
Proof.
  intros V M. revert R q V. induction M as [st|st i c st1 a b st2 G NE ND M IH|st i st1 a b st2 G M IH]; intros R q V; [lia| |].
  - destruct (inv_step _ _ _ _ _ V G) as (R' & q' & V' & D & _). specialize (D _ _ eq_refl NE ND). specialize (IH _ _ V'). lia.
  - destruct (inv_step _ _ _ _ _ V G) as (R' & q' & V' & _ & D). specialize (D _ eq_refl). specialize (IH _ _ V'). lia.
Qed.

Lemma not_all_cur R q sh ths log :
  inv R q sh ths log -> (forall i p, nth_error ths i = Some p -> counted (bnum sh) q p = true) -> False.
Proof.
  intros V H. destruct V. assert (C : forall l, (forall i p, nth_error l i = Some p -> counted (bnum sh) q p = true) -> cnt (counted (bnum sh) q) l = length l).
  { induction l as [|a l IH]; intros Hl; [reflexivity|]. cbn [cnt length]. rewrite (Hl O a eq_refl), IH; [reflexivity|]. intros j p Hj. apply (Hl (S j) p Hj). }
  rewrite (C _ H) in i_cnt0. lia.
Qed.
Lemma find_cur (P : pc -> bool) (l : list pc) : (forall i p, nth_error l i = Some p -> P p = true) \/ exists i p, nth_error l i = Some p /\ P p = false.
Proof.
  induction l as [|a l IH]; [left; intros [|i] p; discriminate|]. destruct (P a) eqn:E; [|right; exists O, a; auto].
  destruct IH as [IH|(i & p & H)]; [left|right; exists (S i), p; auto]. intros [|i] p H; cbn [nth_error] in H; [congruence|eauto].
Qed.

Lemma move_state sh ths log i c p sh' bc p' e :
  nth_error ths i = Some p -> tstep n W K i c sh p = Some (sh', bc, p', e) -> p' <> p ->
  exists st', gstep n W K (sh, ths, log) (Go i c) = Some st' /\ st' <> (sh, ths, log).
Proof.
  intros Hp T D. cbn [gstep]. rewrite Hp, T. eexists. split; [reflexivity|]. intros E. injection E as _ E _.
  assert (X : nth_error (updn (if bc then map wake ths else ths) i p') i = Some p').
  { destruct bc; [apply ne_updn_same with (wake p); rewrite nth_error_map, Hp; auto|eapply ne_updn_same; eauto]. }
  rewrite E, Hp in X. congruence.
Qed.

Lemma progress st :
  reached st ->
  at_rest st \/ (destroyed st /\ forall i, (1 <= i < n)%nat -> ended i st) \/
  exists i c st', gstep n W K st (Go i c) = Some st' /\ st' <> st /\ ~ (i = O /\ nth_error (snd (fst st)) 0 = Some PIdle).
Proof.
  intros (R & q & V). destruct st as [[sh ths] log]. cbn [fst snd] in V. unfold at_rest, destroyed, ended. cbn [fst snd].
  (* a thread that is neither asleep nor waiting in the current barrier moves *)
  assert (MV : forall i p, nth_error ths i = Some p -> (exists sh' bc p' e, tstep n W K i true sh p = Some (sh', bc, p', e) /\ p' <> p) -> ~ (i = O /\ p = PIdle) ->
     exists i c st', gstep n W K (sh, ths, log) (Go i c) = Some st' /\ st' <> (sh, ths, log) /\ ~ (i = O /\ nth_error ths 0 = Some PIdle)).
  { intros i p Hp (sh' & bc & p' & e & T & D) N. destruct (move_state sh ths log _ _ _ _ _ _ _ Hp T D) as (st' & G & E). exists i, true, st'. repeat split; auto.
    intros (-> & Hq). apply N. split; congruence. }
  assert (LEN : forall i, (i < n)%nat -> exists p, nth_error ths i = Some p).
  { intros i Hi. destruct (nth_error ths i) as [p|] eqn:E; [eauto|]. apply nth_error_None in E. rewrite (i_len _ _ _ _ _ V) in E. lia. }
  assert (OLD : forall i b s nxt, nth_error ths i = Some (PWait b s nxt) -> b <> bnum sh -> exists sh' bc p' e, tstep n W K i true sh (PWait b s nxt) = Some (sh', bc, p', e) /\ p' <> PWait b s nxt).
  { intros i b s nxt Hp D. pose proof (i_pc _ _ _ _ _ V _ _ Hp) as OK. cbn [okp] in OK. destruct OK as [(H & _)|(_ & -> & NW & _)]; [lia|].
    cbn [tstep]. replace (bnum sh =? b) with false by (symmetry; apply Z.eqb_neq; lia). do 4 eexists. split; [reflexivity|]. intros E. destruct nxt; try discriminate. destruct NW. }
  assert (ENT : forall reset i nxt p, (forall b s x, p <> PWait b s x) -> nxt <> p -> exists sh' bc p' e, Some (enter n W reset i sh nxt) = Some (sh', bc, p', e) /\ p' <> p).
  { intros reset i nxt p N1 N2. unfold enter. destruct (Nat.eqb (S (bnbr sh)) n); do 4 eexists; (split; [reflexivity|]); [auto|]. intros E. eapply N1. symmetry. exact E. }
  assert (IDL : forall i p, nth_error ths i = Some p -> i <> O -> (p = PIdle \/ p = PIdleW false) -> exists sh' bc p' e, tstep n W K i true sh p = Some (sh', bc, p', e) /\ p' <> p).
  { intros i p Hp D Pp. destruct Pp; subst p; cbn [tstep]; [replace (Nat.eqb i 0) with false by (symmetry; apply Nat.eqb_neq; auto)|]; do 4 eexists; (split; [reflexivity|]); destruct (stat sh); discriminate. }
  pose proof (i_pc _ _ _ _ _ V) as OK. pose proof (i_sh _ _ _ _ _ V) as SH.
  destruct (LEN O ltac:(lia)) as (p0 & H0).
  destruct q as [|f|f k|f].
  - destruct (find_cur (counted (bnum sh) QInit) ths) as [A|(i & p & Hp & C)]; [destruct (not_all_cur _ _ _ _ _ V A)|].
    right. right. apply (MV i p Hp); [|intros (_ & ->); specialize (OK _ _ Hp); discriminate].
    specialize (OK _ _ Hp). destruct p; try (cbn in OK; discriminate).
    + cbn [tstep]. apply ENT; discriminate.
    + apply OLD; auto. cbn in C. apply Z.eqb_neq in C. auto.
  - specialize (OK _ _ H0). destruct p0; cbn [okp at_q] in OK; try (destruct OK as [H|[(H & s & H')|(Hz & H)]]; discriminate).
    + auto.
    + destruct OK as [H|[(H & s & H')|(Hz & H)]]; [discriminate|lia|discriminate].
    + right. right. apply (MV O _ H0); [|intros (_ & E); discriminate]. cbn [tstep]. do 4 eexists. split; [reflexivity|discriminate].
    + right. right. apply (MV O _ H0); [|intros (_ & E); discriminate]. apply OLD; auto. destruct OK as [(_ & [])|(D & _)]. auto.
  - destruct (find_cur (counted (bnum sh) (QBody f k)) ths) as [A|(i & p & Hp & C)]; [destruct (not_all_cur _ _ _ _ _ V A)|].
    right. right. specialize (OK _ _ Hp). apply (MV i p Hp).
    2:{ intros (-> & ->). cbn in OK. destruct OK as [H|[(H & H')|(H1 & _)]]; [discriminate|discriminate|lia]. }
    cbn [counted] in C.
    assert (CS : (exists b s nxt, p = PWait b s nxt) \/ at_q (QBody f k) i p) by (destruct p; cbn [okp] in OK; eauto 6). destruct CS as [(b & s & nxt & ->)|AQ].
    + apply OLD; auto. cbn in C. apply Z.eqb_neq in C. auto.
    + cbn [at_q] in AQ. destruct AQ as [->|[(-> & ->)|(H1 & H2 & H)]].
      * destruct k as [|k]; cbn [tstep]; [do 4 eexists; split; [reflexivity|discriminate]|]. apply ENT; [discriminate|]. intros E. injection E as E. lia.
      * cbn [tstep]. apply ENT; discriminate.
      * destruct H as [H|[H|[H|H]]]; [apply IDL; auto|apply IDL; auto| |]; subst p; cbn [tstep]; do 4 eexists; (split; [reflexivity|discriminate]).
  - assert (Z0 : p0 = PSpin \/ p0 = PExit \/ exists b s nxt, p0 = PWait b s nxt).
    { specialize (OK _ _ H0). destruct p0; cbn [okp at_q] in OK; eauto 6; destruct OK as [(H & [H'|H'])|(H1 & _)]; try discriminate; lia. }
    assert (SL : (forall i, (1 <= i < n)%nat -> nth_error ths i = Some PDone) \/ exists i p, i <> O /\ nth_error ths i = Some p /\ p <> PDone).
    { destruct (find_cur isdone (tl ths)) as [A|(i & p & Hp & C)].
      - left. intros i Hi. destruct (LEN i ltac:(lia)) as (p & Hp). rewrite Hp. f_equal. destruct i as [|i]; [lia|]. destruct ths as [|a l]; [discriminate|]. cbn [tl] in A. specialize (A i p Hp). destruct p; try discriminate. auto.
      - right. exists (S i), p. repeat split; [lia| |intros ->; discriminate]. destruct ths; [destruct i; discriminate|]. exact Hp. }
    destruct SL as [SL|(i & p & Di & Hp & Np)].
    + destruct Z0 as [->|[->|(b & s & nxt & ->)]].
      * right. right. apply (MV O _ H0); [|intros (_ & E); discriminate]. cbn [tstep].
        assert (B : bnbr sh = (n - 1)%nat).
        { pose proof (i_cnt _ _ _ _ _ V) as C. pose proof (i_len _ _ _ _ _ V) as L. destruct ths as [|a l]; [discriminate|]. cbn [nth_error] in H0. injection H0 as ->. cbn [cnt counted isdone b2n length] in C, L. rewrite C.
          assert (X : forall l', (forall i p, nth_error l' i = Some p -> p = PDone) -> cnt (counted (bnum sh) (QDown f)) l' = length l').
          { induction l' as [|a' l' IH]; intros Hl; [reflexivity|]. cbn [cnt length]. rewrite (Hl O a' eq_refl), IH; [reflexivity|]. intros j p Hj. apply (Hl (S j) p Hj). }
          rewrite X; [lia|]. intros j p Hj. assert (j < length l)%nat by (apply nth_error_Some; congruence). specialize (SL (S j) ltac:(lia)). cbn [nth_error] in SL. congruence. }
        rewrite B, Nat.eqb_refl. do 4 eexists. split; [reflexivity|discriminate].
      * right. left. auto.
      * right. right. apply (MV O _ H0); [|intros (_ & E); discriminate]. apply OLD; auto. specialize (OK _ _ H0). cbn [okp to_q] in OK. tauto.
    + right. right. specialize (OK _ _ Hp). apply (MV i p Hp); [|lia].
      assert (CS : (exists b s nxt, p = PWait b s nxt) \/ at_q (QDown f) i p) by (destruct p; cbn [okp] in OK; eauto 6). destruct CS as [(b & s & nxt & ->)|AQ].
      * apply OLD; auto. cbn [okp to_q] in OK. tauto.
      * cbn [at_q] in AQ. destruct AQ as [(H & _)|(_ & H)]; [lia|]. destruct H as [H|[H|[H|[H|H]]]]; [apply IDL; auto|apply IDL; auto| | |congruence]; subst p; cbn [tstep]; do 4 eexists; (split; [reflexivity|discriminate]).
Qed.

Lemma exit_done st : reached st -> destroyed st -> forall i, (1 <= i < n)%nat -> ended i st.
Proof.
  intros (R & q & V) H0 i Hi. destruct st as [[sh ths] log]. unfold destroyed, ended in *. cbn [fst snd] in *.
  assert (Dq : exists f, q = QDown f).
  { pose proof (i_pc _ _ _ _ _ V _ _ H0) as OK. cbn [okp] in OK. destruct q; eauto; cbn [at_q] in OK; try discriminate.
    - destruct OK as [H|[(H & s & H')|(Hz & H)]]; discriminate.
    - destruct OK as [H|[(H & H')|(H1 & H2 & [H|[H|[H|H]]])]]; discriminate. }
  destruct Dq as (f & ->). pose proof (i_exit _ _ _ _ _ V H0) as X. rewrite (i_cnt _ _ _ _ _ V) in X. 
  destruct (nth_error ths i) as [p|] eqn:E; [|apply nth_error_None in E; rewrite (i_len _ _ _ _ _ V) in E; lia].
  rewrite <- (i_len _ _ _ _ _ V) in X.
  pose proof (cnt_all_but (counted (bnum sh) (QDown f)) ths O PExit H0 eq_refl X i p ltac:(lia) E) as D. destruct p; try discriminate. auto.
Qed.
End Inv.
