(** C34, C35: barrier and launch of the thread system. *)
From Verif Require Import Base M_Thread S_Thread P_Thread.
From Coq Require Import Arith.

Section Log.
Context (n : nat) (W : Z) (K : nat -> nat).
Hypothesis Hn : (2 <= n)%nat.
Hypothesis HW : 2 <= W.

(** A thread leaves its [r]-th barrier only when all the threads have entered
    their [r]-th barrier; for each barrier one thread exactly, of those that have
    left it, gets the special value.  Whatever the number of barriers already
    passed (the barrier counter wraps), the schedule and the spurious wake-ups. *)
Lemma barrier_log sched :
  let log := snd (trun n W K sched (tinit n)) in
  (forall l1 i v l2, log = l1 ++ Leave i v :: l2 -> (i < n)%nat /\ forall j, (j < n)%nat -> (length (rets i l1) < entered j l1)%nat) /\
  (forall i r, (i < n)%nat -> (r < length (rets i log))%nat ->
    exists k, (k < n)%nat /\ nth_error (rets k log) r = Some true /\ forall j v, (j < n)%nat -> nth_error (rets j log) r = Some v -> v = Nat.eqb k j).
Proof.
  intros log. destruct (reach_inv n W K Hn HW sched) as (R & q & V). fold log in V. split.
  - intros l1 i v l2 E. exact (i_hist _ _ _ _ _ _ _ _ V _ _ _ E).
  - intros i r Hi Hr. apply (i_last _ _ _ _ _ _ _ _ V).
    destruct (nth_error (snd (fst (trun n W K sched (tinit n)))) i) as [p|] eqn:E; [|apply nth_error_None in E; rewrite (i_len _ _ _ _ _ _ _ _ V) in E; lia].
    pose proof (i_ret _ _ _ _ _ _ _ _ V _ _ E). lia.
Qed.

Lemma runs_shape sched i :
  (i < n)%nat -> let log := snd (trun n W K sched (tinit n)) in exists d, runs i log = in_turn d \/ runs i log = in_turn d ++ [(true, S d)].
Proof.
  intros Hi log. destruct (reach_inv n W K Hn HW sched) as (R & q & V). fold log in V.
  destruct (nth_error (snd (fst (trun n W K sched (tinit n)))) i) as [p|] eqn:E; [|apply nth_error_None in E; rewrite (i_len _ _ _ _ _ _ _ _ V) in E; lia].
  rewrite (i_runs _ _ _ _ _ _ _ _ V _ _ E).
  assert (F : forall f k, i_pc _ _ _ _ _ _ _ _ V = i_pc _ _ _ _ _ _ _ _ V -> eff p = PBody f k -> (1 <= f)%nat).
  { intros f k _ Ep. pose proof (i_pc _ _ _ _ _ _ _ _ V _ _ E) as O'. pose proof (i_sh _ _ _ _ _ _ _ _ V) as S'.
    assert (AB : forall x, eff x = PBody f k -> at_q K q i x \/ to_q q x -> nowait x \/ eff x = x -> (1 <= f)%nat).
    { intros x Ex A N. assert (Ex' : x = PBody f k) by (destruct N as [N|N]; [destruct x; cbn in *; auto; contradiction|congruence]). subst x. destruct q as [|g|g h|g]; cbn [at_q to_q sh_ok] in *.
      - destruct A; discriminate.
      - destruct A as [[A|[(_ & s & A)|(_ & A)]]|[]]; discriminate.
      - destruct S' as (_ & _ & S' & _). destruct A as [[A|[(_ & A)|(_ & _ & [A|[A|[A|A]]])]]|A]; try discriminate; [injection A as -> ->; auto|]. destruct h; [destruct A; discriminate|]. injection A as -> _. auto.
      - destruct A as [[(_ & [A|A])|(_ & [A|[A|[A|[A|A]]]])]|[]]; discriminate. }
    destruct p as [| |s| |f' k'|f'|f'|b s nxt| | | |]; cbn [okp] in O'; try discriminate.
    - apply (AB (PBody f' k')); auto.
    - cbn [eff] in Ep. destruct O' as [(_ & O')|(_ & _ & N & O')]; [|apply (AB nxt); auto]. apply (AB nxt); auto. destruct (to_next K q i nxt O') as (_ & N & _). auto. }
  specialize (fun f k => F f k eq_refl). clear - F. induction p; cbn [runs_of eff] in *; eauto.
  specialize (F _ _ eq_refl). destruct f as [|f]; [lia|]. cbn [pred]. eauto.
Qed.

(** When a launch returns, all the threads have run the functions launched so far,
    each once, in order, and nothing else. *)
Lemma launch_log sched :
  let log := snd (trun n W K sched (tinit n)) in
  (forall l1 f l2, log = l1 ++ Return f :: l2 -> forall j, (j < n)%nat -> runs j l1 = in_turn f) /\
  (forall l1 i f l2, log = l1 ++ FStart i f :: l2 -> In (Launch f) l1) /\
  (exists d, calls log = in_turn d \/ calls log = in_turn d ++ [(true, S d)]) /\
  (forall i, (i < n)%nat -> exists d, runs i log = in_turn d \/ runs i log = in_turn d ++ [(true, S d)]).
Proof.
  intros log. destruct (reach_inv n W K Hn HW sched) as (R & q & V). fold log in V. repeat split.
  - intros l1 f l2 E. exact (i_hist _ _ _ _ _ _ _ _ V _ _ _ E).
  - intros l1 i f l2 E. exact (i_hist _ _ _ _ _ _ _ _ V _ _ _ E).
  - destruct (nth_error (snd (fst (trun n W K sched (tinit n)))) 0) as [p|] eqn:E; [|apply nth_error_None in E; rewrite (i_len _ _ _ _ _ _ _ _ V) in E; lia].
    rewrite (i_calls _ _ _ _ _ _ _ _ V _ E). pose proof (i_sh _ _ _ _ _ _ _ _ V) as S'. pose proof (i_pc _ _ _ _ _ _ _ _ V _ _ E) as O'. unfold calls_of. destruct q as [|f|f k|f].
    + exists O. auto.
    + destruct (eff p) eqn:Ep; eauto. assert (f <> O).
      { destruct p as [| |s| |f' k'|f'|f'|b s nxt| | | |]; cbn [okp eff] in *; try discriminate.
        - cbn [at_q] in O'. destruct O' as [A|[(_ & s & A)|(A & _)]]; [discriminate|discriminate|auto].
        - cbn [to_q] in O'. destruct O' as [(_ & [])|(_ & _ & N & O')]. assert (nxt = PBack f0) by (destruct nxt; cbn in *; auto; contradiction). subst nxt. cbn [at_q] in O'. destruct O' as [A|[(_ & s' & A)|(A & _)]]; [discriminate|discriminate|auto]. }
      destruct f as [|f]; [lia|]. cbn [pred]. eauto.
    + cbn [sh_ok] in S'. destruct f as [|f]; [lia|]. cbn [pred]. eauto.
    + eauto.
  - intros i Hi. apply runs_shape. auto.
Qed.
End Log.

Theorem C34_barrier : forall n W K sched, (2 <= n)%nat -> 2 <= W ->
  let log := snd (trun n W K sched (tinit n)) in
  (forall l1 i v l2, log = l1 ++ Leave i v :: l2 -> (i < n)%nat /\ forall j, (j < n)%nat -> (length (rets i l1) < entered j l1)%nat) /\
  (forall i r, (i < n)%nat -> (r < length (rets i log))%nat ->
    exists k, (k < n)%nat /\ nth_error (rets k log) r = Some true /\ forall j v, (j < n)%nat -> nth_error (rets j log) r = Some v -> v = Nat.eqb k j).
Proof. intros n W K sched Hn HW. exact (barrier_log n W K Hn HW sched). Qed.
Print Assumptions C34_barrier.

Theorem C35_launch : forall n W K sched, (2 <= n)%nat -> 2 <= W ->
  let log := snd (trun n W K sched (tinit n)) in
  (forall l1 f l2, log = l1 ++ Return f :: l2 -> forall j, (j < n)%nat -> runs j l1 = in_turn f) /\
  (forall l1 i f l2, log = l1 ++ FStart i f :: l2 -> In (Launch f) l1) /\
  (exists d, calls log = in_turn d \/ calls log = in_turn d ++ [(true, S d)]) /\
  (forall i, (i < n)%nat -> exists d, runs i log = in_turn d \/ runs i log = in_turn d ++ [(true, S d)]).
Proof. intros n W K sched Hn HW. exact (launch_log n W K Hn HW sched). Qed.
Print Assumptions C35_launch.

(** No deadlock, even if no spurious wake-up ever happens. *)
Theorem C35_progress : forall n W K sched, (2 <= n)%nat -> 2 <= W ->
  let st := trun n W K sched (tinit n) in
  at_rest st \/ (destroyed st /\ forall i, (1 <= i < n)%nat -> ended i st) \/
  exists i c st', gstep n W K st (Go i c) = Some st' /\ st' <> st /\ ~ (i = O /\ nth_error (snd (fst st)) 0 = Some PIdle).
Proof. intros n W K sched Hn HW st. apply progress; auto. apply reach_inv; auto. Qed.
Print Assumptions C35_progress.

(** Nor livelock: from any state there is a bound on the number of moves before
    thread 0 is at rest or the context is destroyed. *)
Theorem C35_bounded : forall n W K sched, (2 <= n)%nat -> 2 <= W ->
  let st := trun n W K sched (tinit n) in
  exists B, forall a b st', moves n W K st a b st' -> (a <= B + b)%nat.
Proof. intros n W K sched Hn HW st. destruct (reach_inv n W K Hn HW sched) as (R & q & V). eexists. intros a b st' M. eapply moves_bound; eauto. Qed.
Print Assumptions C35_bounded.

(** The lock and condition are destroyed after all other threads have released them. *)
Theorem C35_exit : forall n W K sched, (2 <= n)%nat -> 2 <= W ->
  let st := trun n W K sched (tinit n) in destroyed st -> forall i, (1 <= i < n)%nat -> ended i st.
Proof. intros n W K sched Hn HW st. eapply exit_done; auto. apply reach_inv; auto. Qed.
Print Assumptions C35_exit.

(** Non-vacuity: three threads run two functions that have two barriers each, then exit. *)
Definition ex_sched (l : nat) (c : bool) : list label := concat (repeat [Go 0 c; Go 2 c; Go 1 c] l).
Definition ex_st1 : tstate := trun 3 4294967296 (fun _ => 2%nat) (ex_sched 20 true) (tinit 3).
Definition ex_st2 : tstate := trun 3 4294967296 (fun _ => 2%nat) (ex_sched 20 false) ex_st1.
Example C35_ex_runs : returns (snd ex_st1) = 2%nat /\ entered 2 (snd ex_st1) = 7%nat /\ rets 1 (snd ex_st1) = [true; true; false; false; true; false; false].
Proof. vm_compute. auto. Qed.
Example C35_ex_exit : destroyed ex_st2 /\ ended 1 ex_st2 /\ ended 2 ex_st2 /\ runs 1 (snd ex_st2) = in_turn 2 /\ returns (snd ex_st2) = 2%nat.
Proof. vm_compute. auto 6. Qed.
(** two threads, and a barrier counter that wraps at each other barrier *)
Example C34_ex_wrap : let st := trun 2 2 (fun _ => 3%nat) (concat (repeat [Go 0 true; Spur 1; Go 1 true; Spur 0] 60)) (tinit 2) in
  (2 <= returns (snd st))%nat /\ (9 <= entered 0 (snd st))%nat.
Proof. vm_compute. split; repeat constructor. Qed.

(** threadContextInit when the creation of thread [m] fails (lines 147-151): threads
    1 to [m - 1] exist, thread 0 sets the number of threads to [m] and exits the
    context.  The threads that exist sleep in the first barrier, where they are
    counted as if they had ended. *)
Definition tfail (m : nat) : tstate := (mkshr Rdy 0 0 0, PIdle :: repeat PInit (m - 1), []).
Theorem C35_init_failure_refuted :
  exists m W K sched, (2 <= m)%nat /\ 2 <= W /\
  let st := trun m W K sched (tfail m) in
  destroyed st /\ forall i, (1 <= i < m)%nat -> nth_error (snd (fst st)) i = Some (PWait 0 true PIdle).
Proof.
  exists 3%nat, 4294967296, (fun _ => O), [Go 1 false; Go 0 false; Go 2 false; Go 1 false; Go 1 false; Go 2 false; Go 0 false]. split; [lia|]. split; [lia|]. split; [reflexivity|].
  intros i Hi. destruct i as [|[|[|i]]]; try lia; reflexivity.
Qed.
Print Assumptions C35_init_failure_refuted.
