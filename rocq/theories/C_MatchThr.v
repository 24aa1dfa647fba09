(** Property C17: multi-threaded matching. *)
From Verif Require Import Base M_Int M_Sort M_Graph M_Match M_MatchThr S_Graph S_Color S_Match P_Match P_Match2 P_MatchThr P_MatchThr2 C_Graph C_Match.

(** C17: on every valid graph, for every number of threads and every interleaving
    of their memory accesses (reads of the mate array may be stale), if all the
    threads reach the barrier then the matching ends without touching anything
    outside its arrays; every vertex gets a mate and is the mate of its mate; the
    count returned is the number of groups; two distinct mates are neighbours, or
    one is isolated and merging isolated vertices was allowed; mates may be
    grouped; and no two neighbours that could have been grouped are both left
    alone.  [Fuel]: [sched] ends before all the threads have reached the barrier. *)
Theorem C17_matching :
  forall stksiz nomerge g fix_ par vfixnbr thrdnbr sched,
    graph_valid g -> graph_readable g -> 0 <= baseval g -> per_vertex g fix_ -> per_vertex g par ->
    32 <= stksiz -> vertnbr g < 2 ^ (stksiz - 1) -> 1 <= thrdnbr ->
    graphMatchThr stksiz nomerge g fix_ par vfixnbr thrdnbr sched = Fuel \/
    exists mate coarvertnbr, graphMatchThr stksiz nomerge g fix_ par vfixnbr thrdnbr sched = Ok (mate, coarvertnbr) /\
      let mt v := at_ (baseval g) mate v in
      is_matching g mate /\
      coarvertnbr = groups g mate /\
      (forall v, isvert g v -> mt v <> v ->
         adjacent g v (mt v) \/ (nomerge = false /\ (isolated g v \/ isolated g (mt v)))) /\
      (forall v, isvert g v -> may_group g fix_ par vfixnbr v (mt v)) /\
      (forall v w, isvert g v -> isvert g w -> may_group g fix_ par vfixnbr v w -> adjacent g v w ->
         ~ (mt v = v /\ mt w = w)).
Proof.
  intros stksiz nomerge g fix_ par vfixnbr thrdnbr sched V R HB PF PP Hst Hsz Hth.
  destruct (graphMatchThr_ok stksiz nomerge g fix_ par vfixnbr thrdnbr sched V R HB PF PP Hst Hsz Hth) as [(E & _)|(mate & ps & E & MI & K & COV)]; [left; exact E|right].
  destruct K as [FR GD SG MX].
  assert (OK : forall v w, ok g (matchFx vfixnbr par) fix_ par v w <-> may_group g fix_ par vfixnbr v w).
  { intros v w. unfold ok, may_group, matchFx. destruct par as [t|]; split.
    - intros H. rewrite orb_true_r in H. destruct (H eq_refl). split; auto.
    - intros (H1 & H2) _. split; [apply H2; right; discriminate | auto].
    - intros H. split; [intros l' [=]|]. intros [Hf|Hf]; [|congruence]. apply H. lia.
    - intros (H1 & H2) Hf. rewrite orb_false_r in Hf. split; [apply H2; lia | auto]. }
  exists mate, (zlen ps). split; [exact E|]. intros mt. split; [apply (whole_matching g mate ps MI COV)|]. split; [symmetry; apply (whole_groups g mate ps MI COV FR)|].
  split; [|split].
  - intros v Hv Hne. destruct (mate_cases g mate ps MI COV v Hv) as (p & q & I & Hp & Hq & E1 & E2 & Ev). destruct (GD p q I) as (_ & _ & _ & [D|[D|(D1 & D2)]]).
    + exfalso. apply Hne. unfold mt. destruct Ev; subst; congruence.
    + left. unfold mt. destruct Ev; subst v; rewrite ?E1, ?E2; [auto|]. apply (adjacent_sym g V). auto.
    + right. split; [auto|]. unfold mt. destruct Ev; subst v; rewrite ?E1, ?E2; auto.
  - intros v Hv. apply OK. destruct (mate_cases g mate ps MI COV v Hv) as (p & q & I & Hp & Hq & E1 & E2 & Ev). destruct (GD p q I) as (_ & _ & O & _).
    unfold mt. destruct Ev; subst v; rewrite ?E1, ?E2; [auto|]. apply ok_sym. auto.
  - intros v w Hv Hw O A (S1 & S2). unfold mt in *.
    destruct (mate_cases g mate ps MI COV v Hv) as (p & q & I & Hp & Hq & E1 & E2 & Ev). destruct (mate_cases g mate ps MI COV w Hw) as (p' & q' & I' & Hp' & Hq' & E1' & E2' & Ev').
    assert (p = v /\ q = v) as (-> & ->) by (destruct Ev; subst; split; congruence). assert (p' = w /\ q' = w) as (-> & ->) by (destruct Ev'; subst; split; congruence).
    apply (MX v w I I' A). apply OK. auto.
Qed.
Print Assumptions C17_matching.

(** C17, no deadlock or livelock: whatever the interleaving, all the threads are
    through once each has been given this many steps. *)
Theorem C17_progress :
  forall stksiz nomerge g fix_ par vfixnbr thrdnbr sched,
    graph_valid g -> graph_readable g -> 0 <= baseval g -> per_vertex g fix_ -> per_vertex g par ->
    32 <= stksiz -> vertnbr g < 2 ^ (stksiz - 1) -> 1 <= thrdnbr ->
    (forall i, (i < Z.to_nat thrdnbr)%nat ->
       (vertnbr g + 1) * (degrmax g + 2 * vertnbr g + 12) <= zlen (filter (fun c => Nat.eqb (fst c) i) sched)) ->
    exists mate coarvertnbr, graphMatchThr stksiz nomerge g fix_ par vfixnbr thrdnbr sched = Ok (mate, coarvertnbr).
Proof.
  intros stksiz nomerge g fix_ par vfixnbr thrdnbr sched V R HB PF PP Hst Hsz Hth HS.
  destruct (graphMatchThr_ok stksiz nomerge g fix_ par vfixnbr thrdnbr sched V R HB PF PP Hst Hsz Hth) as [(_ & i & Hi & Ho)|(mate & ps & E & _)]; [|eauto].
  specialize (HS i Hi). unfold occurs in Ho. lia.
Qed.
Print Assumptions C17_progress.

(** Two threads on a path of six vertices, in turn and with thread 1 first; in the
    first schedule thread 1, whose reads are stale, puts one vertex off to the
    sequential end. *)
Definition ex_mthr : graph :=
  mkgraph 0 6 6 [0; 1; 3; 5; 7; 9; 10] None None 6 None None 10 [1; 0; 2; 1; 3; 2; 4; 3; 5; 4] None 10 2.
Definition ex_turns (n : nat) : list (nat * bool) := concat (repeat [(0%nat, false); (1%nat, true)] n).
Example C17_example :
  graph_valid ex_mthr /\ graph_readable ex_mthr /\
  graphMatchThr 32 false ex_mthr None None 0 2 (ex_turns 30) = Ok ([1; 0; 3; 2; 5; 4], 3) /\
  graphMatchThr 32 false ex_mthr None None 0 2 (repeat (1%nat, false) 40 ++ repeat (0%nat, false) 40) = Ok ([1; 0; 3; 2; 5; 4], 3) /\
  graphMatchThr 32 false ex_mthr None None 0 2 (ex_turns 3) = Fuel.
Proof.
  assert (H : graph_valid ex_mthr /\ graph_readable ex_mthr) by (apply (C09_graphCheck_sound 100); vm_compute; reflexivity).
  split; [apply H|]. split; [apply H|]. repeat split; vm_compute; reflexivity.
Qed.
