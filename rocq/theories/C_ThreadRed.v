(** C36: reductions and scans over threads. *)
From Verif Require Import Base M_ThreadRed S_ThreadRed P_Thread P_ThreadRed P_ThreadRed2 P_ThreadRed3.
From Coq Require Import Arith.
Local Open Scope nat_scope.

Lemma done_1 {A} (op : A -> A -> A) (ths : nat -> list instr) m m' : ths 0 = [] -> pexec op (map ths (seq 0 1)) m m' -> m' = m.
Proof. intros E P. apply (finish op 1); [|lia]. cbn [map seq] in *. now rewrite E in P. Qed.

Theorem C36_reduce : forall A (op : A -> A -> A) n root m m', root < n ->
  pexec op (map (threadReduce n root) (seq 0 n)) m m' -> m' root = total op n root m.
Proof.
  intros A op n root m m' Hr P. destruct (Nat.eq_dec n 1) as [->|D]; [|apply reduce_ok with (2 := Hr); auto; lia].
  apply done_1 in P; [|reflexivity]. subst. unfold total. assert (root = 0) as -> by lia. reflexivity.
Qed.
Print Assumptions C36_reduce.

Theorem C36_reduce_canonical : forall A (op : A -> A -> A) n root ths m m',
  (forall a b c, op a (op b c) = op (op a b) c) -> root < n -> (forall i, i < n -> threadReduceC n root i = Ok (ths i)) ->
  pexec op (map ths (seq 0 n)) m m' -> m' root = total op n root m.
Proof.
  intros A op n root ths m m' As Hr HT P. destruct (Nat.eq_dec n 1) as [->|D]; [|eapply reduceC_ok; eauto; lia].
  apply done_1 in P; [|specialize (HT 0 ltac:(lia)); unfold threadReduceC in HT; cbn in HT; congruence]. subst. unfold total. assert (root = 0) as -> by lia. reflexivity.
Qed.
Print Assumptions C36_reduce_canonical.

Theorem C36_scan : forall A (op : A -> A -> A) n m m' i, i < n ->
  pexec op (map (threadScan n) (seq 0 n)) m m' -> m' (2 * i) = prefix op (fun i => m (2 * i)) i.
Proof.
  intros A op n m m' i Hi P. destruct (Nat.eq_dec n 1) as [->|D]; [|apply (scan_ok op n m m'); auto; lia].
  apply done_1 in P; [|reflexivity]. subst. assert (i = 0) as -> by lia. reflexivity.
Qed.
Print Assumptions C36_scan.

Theorem C36_scan_canonical : forall A (op : A -> A -> A) n ths m m' i,
  (forall a b c, op a (op b c) = op (op a b) c) -> i < n -> (forall i, i < n -> threadScanC n i = Ok (ths i)) ->
  pexec op (map ths (seq 0 n)) m m' -> m' (2 * i) = prefix op (fun i => m (2 * i)) i.
Proof.
  intros A op n ths m m' i As Hi HT P. destruct (Nat.eq_dec n 1) as [->|D]; [|apply (scanC_ok op As n ltac:(lia) ths m m'); auto].
  apply done_1 in P; [|specialize (HT 0 ltac:(lia)); unfold threadScanC in HT; cbn in HT; congruence]. subst. assert (i = 0) as -> by lia. reflexivity.
Qed.
Print Assumptions C36_scan_canonical.

(** Whatever the variant: no undefined behavior, all threads call the barrier the
    same number of times (so that C34 and C35 apply), calls made at the same time
    are harmless, and cells used are those of the [n] threads. *)
Definition in_cells (n w : nat) (p : list instr) : Prop := forall c l, In (Do c) p -> In l (touches c) -> l < w * n.
Definition well_behaved (n w : nat) (ths : nat -> res (list instr)) : Prop :=
  exists p, (forall i, i < n -> ths i = Ok (p i)) /\
    (forall i j, i < n -> j < n -> bars (p i) = bars (p j)) /\
    (forall i j k c c', i < n -> j < n -> i <> j -> In c (after k (p i)) -> In c' (after k (p j)) -> harmless c c') /\
    (forall i, i < n -> in_cells n w (p i)).

Lemma In_tail cs k j i c : In (Do c) (tail cs k j i) -> exists r, j <= r < j + k /\ In c (cs r i).
Proof.
  revert j. induction k as [|k IH]; intros j H; [destruct H|]. cbn [tail] in H. unfold sec in H. apply in_app_iff in H. destruct H as [H|[H|H]]; [|discriminate|].
  - apply in_map_iff in H. destruct H as (c' & E & H). injection E as ->. exists j. split; [lia|auto].
  - destruct (IH _ H) as (r & R & Hc). exists r. split; [lia|auto].
Qed.
Lemma behaved_tail n w ths cs k :
  (forall i, i < n -> ths i = Ok (Bar :: tail cs k 0 i)) -> (forall r, r < k -> free n (cs r)) ->
  (forall r i c l, r < k -> i < n -> In c (cs r i) -> In l (touches c) -> l < w * n) -> well_behaved n w ths.
Proof.
  intros H F C. exists (fun i => Bar :: tail cs k 0 i). split; [auto|]. split; [|split].
  - intros i j _ _. change (S (bars (tail cs k 0 i)) = S (bars (tail cs k 0 j))). now rewrite !bars_tail.
  - intros i j r c c' Hi Hj D Hc Hc'. destruct r as [|r]; [destruct Hc|]. cbn [after] in Hc, Hc'. destruct (Nat.lt_ge_cases r k) as [L|L]; [|rewrite after_tail_end in Hc by auto; destruct Hc].
    rewrite after_tail in Hc, Hc' by auto. cbn [Nat.add] in *. apply (F r L i j); auto.
  - intros i Hi c l [H'|H'] Hl; [discriminate|]. apply In_tail in H'. destruct H' as (r & R & Hc). apply (C r i c l); auto. lia.
Qed.
Lemma behaved_nil n w ths : n = 1 -> ths 0 = Ok [] -> well_behaved n w ths.
Proof.
  intros -> E. exists (fun _ => []). split; [intros i Hi; now assert (i = 0) as -> by lia|]. split; [auto|]. split; [intros i j k c c' _ _ _ []|]. intros i Hi c l [].
Qed.

Theorem C36_well_behaved : forall n root, root < n ->
  well_behaved n 1 (fun i => Ok (threadReduce n root i)) /\ well_behaved n 1 (threadReduceC n root) /\
  well_behaved n 2 (fun i => Ok (threadScan n i)) /\ well_behaved n 2 (threadScanC n).
Proof.
  intros n root Hr. destruct (Nat.eq_dec n 1) as [->|D]; [repeat split; apply behaved_nil; reflexivity|]. assert (Hn : 2 <= n) by lia. clear D.
  split; [|split; [|split]].
  - apply behaved_tail with (rcs n root) 1.
    + intros i Hi. now rewrite threadReduce_tail.
    + intros r _. apply rcs_free.
    + intros r i c l _ Hi Hc Hl. unfold rcs in Hc. destruct (Nat.eqb_spec i root); [|destruct Hc]. unfold redcs in Hc. apply in_map_iff in Hc. destruct Hc as (t & <- & Ht). apply in_seq in Ht.
      cbn in Hl. assert ((root + t) mod n < n) by (apply Nat.mod_upper_bound; lia). lia.
  - apply behaved_tail with (ccs n root) (Nat.log2_up n).
    + intros i Hi. apply redc_prog; auto.
    + intros r _. apply ccs_free; auto.
    + intros r i c l _ Hi Hc Hl. apply ccs_in in Hc. destruct Hc as (_ & G & ->). cbn [touches cdst csrc crem In] in Hl. pose proof (loc_lt n root _ Hr G). lia.
  - apply behaved_tail with (scs n) 1.
    + intros i Hi. now rewrite threadScan_tail.
    + intros r _. apply free_one with 0. intros i D. unfold scs. apply Nat.eqb_neq in D. now rewrite D.
    + intros r i c l _ Hi Hc Hl. unfold scs in Hc. destruct (Nat.eqb i 0); [|destruct Hc]. unfold scancs in Hc. apply in_map_iff in Hc. destruct Hc as (t & <- & Ht). apply in_seq in Ht. cbn [touches cdst csrc crem In] in Hl. lia.
  - apply behaved_tail with (ecs n) (Nat.log2_up n).
    + intros i Hi. apply scanc_prog; auto.
    + intros r _. apply ecs_free; auto.
    + intros r i c l _ Hi Hc Hl. destruct (ecs_foot n Hn r i c l Hc Hl) as [E|[E|(G & E)]]; pose proof (par_01 n Hn r); lia.
Qed.
Print Assumptions C36_well_behaved.

(** Threads that call the barrier the same number of times always finish. *)
Lemma first_do ths : (exists i c p, nth_error ths i = Some (Do c :: p)) \/ forall i p, nth_error ths i = Some p -> p = [] \/ exists p', p = Bar :: p'.
Proof.
  induction ths as [|[|[|c] p] ths IH].
  - right. intros [|i] p; discriminate.
  - destruct IH as [(i & c & p & H)|H]; [left; exists (S i), c, p; auto|right]. intros [|i] p Hp; cbn [nth_error] in Hp; [injection Hp as <-; auto|eauto].
  - destruct IH as [(i & c & p' & H)|H]; [left; exists (S i), c, p'; auto|right]. intros [|i] p' Hp; cbn [nth_error] in Hp; [injection Hp as <-; eauto|eauto].
  - left. exists 0, c, p. reflexivity.
Qed.
Lemma finishes {A} (op : A -> A -> A) k : forall ths m B, length (concat ths) <= k -> (forall i p, nth_error ths i = Some p -> bars p = B) -> exists m', pexec op ths m m'.
Proof.
  induction k as [k IH] using lt_wf_ind. intros ths m B L HB.
  assert (LC : forall (ths : list (list instr)) i c p, nth_error ths i = Some (c :: p) -> length (concat (updn ths i p)) < length (concat ths)).
  { clear. induction ths as [|a ths IH]; intros i c p H; [destruct i; discriminate|]. destruct i; cbn [nth_error updn concat] in *; [injection H as ->|specialize (IH _ _ _ H)]; rewrite !app_length; cbn [length]; lia. }
  assert (LT : forall ths : list (list instr), length (concat (map (@tl instr) ths)) <= length (concat ths)).
  { clear. induction ths as [|[|x a] ths IH]; cbn [map concat tl]; rewrite ?app_length; cbn [length]; lia. }
  destruct (first_do ths) as [(i & c & p & H)|H].
  - destruct (IH (length (concat (updn ths i p))) ltac:(pose proof (LC _ _ _ _ H); lia) (updn ths i p) (exec1 op m c) B (le_n _)) as (m' & P); [|exists m'; eapply pexec_do; eauto].
    intros j q Hj. apply ne_updn in Hj. destruct Hj as [(<- & -> & _)|(_ & Hj)]; [|eauto]. specialize (HB _ _ H). exact HB.
  - destruct B as [|B].
    + exists m. apply pexec_done. intros i p Hp. destruct (H i p Hp) as [->|(p' & ->)]; [auto|]. specialize (HB _ _ Hp). discriminate.
    + assert (HA : forall i p, nth_error ths i = Some p -> exists p', p = Bar :: p') by (intros i p Hp; destruct (H i p Hp) as [->|E]; [specialize (HB _ _ Hp); discriminate|auto]).
      destruct ths as [|[|x a] ths].
      * exists m. apply pexec_done. intros [|i] p; discriminate.
      * destruct (HA 0 [] eq_refl) as (p' & E). discriminate.
      * destruct (IH (length (concat (map (@tl instr) ((x :: a) :: ths)))) ltac:(cbn [map concat tl length] in *; rewrite app_length in *; specialize (LT ths); cbn [length] in *; lia) (map (@tl instr) ((x :: a) :: ths)) m B (le_n _)) as (m' & P); [|exists m'; apply pexec_bar; auto].
        intros i p Hp. rewrite nth_error_map in Hp. destruct (nth_error ((x :: a) :: ths) i) as [q|] eqn:Eq; [|discriminate]. injection Hp as <-. destruct (HA _ _ Eq) as (p' & ->). specialize (HB _ _ Eq). cbn [tl]. injection HB as HB. exact HB.
Qed.
Theorem C36_finishes : forall A (op : A -> A -> A) n w ths p m,
  well_behaved n w ths -> (forall i, i < n -> ths i = Ok (p i)) -> exists m', pexec op (map p (seq 0 n)) m m'.
Proof.
  intros A op n w ths p m (q & H1 & H2 & _) Hp. destruct (Nat.eq_dec n 0) as [->|D]; [exists m; apply pexec_done; intros [|i] x; discriminate|].
  apply finishes with (k := length (concat (map p (seq 0 n)))) (B := bars (q 0)); [lia|]. intros i x Hx. apply nth_map_seq in Hx. destruct Hx as (Hi & ->).
  assert (p i = q i) as -> by (specialize (H1 i Hi); rewrite (Hp i Hi) in H1; congruence). apply H2; lia.
Qed.
Print Assumptions C36_finishes.

(** Non-vacuity: lists with append (associative, not commutative), six threads. *)
Example C36_ex_total : total (@app nat) 6 4 (fun i => [i]) = [4; 5; 0; 1; 2; 3] /\ prefix (@app nat) (fun i => [i]) 5 = [5; 4; 3; 2; 1; 0].
Proof. vm_compute. auto. Qed.
Example C36_ex_prog : threadReduceC 6 4 4 = Ok [Bar; Do (mkcall 4 4 (Some 5)); Bar; Do (mkcall 4 4 (Some 0)); Bar; Do (mkcall 4 4 (Some 2)); Bar] /\
  threadScanC 3 2 = Ok [Bar; Do (mkcall 5 4 (Some 2)); Bar; Do (mkcall 4 5 (Some 1)); Bar].
Proof. vm_compute. auto. Qed.
