(** Reductions and scans. *)
From Verif Require Import Base M_ThreadRed S_ThreadRed P_Thread.
From Coq Require Import Arith.
Local Open Scope nat_scope.

Section Par.
Context {A : Type} (op : A -> A -> A).
Notation mem := (@mem A).

Definition execs (m : mem) (l : list call) : mem := fold_left (exec1 op) l m.

Lemma exec1_other m c l : l <> cdst c -> exec1 op m c l = m l.
Proof. intros H. unfold exec1. apply Nat.eqb_neq in H. now rewrite H. Qed.
Lemma execs_other m cs l : (forall c, In c cs -> l <> cdst c) -> execs m cs l = m l.
Proof. revert m. induction cs as [|c cs IH]; intros m H; [auto|]. cbn. unfold execs in IH. rewrite IH by (intros; apply H; cbn; auto). apply exec1_other. apply H. cbn. auto. Qed.

(** [m] and [m'] agree on what [cs] touch *)
Definition agree (cs : list call) (m m' : mem) : Prop := forall c l, In c cs -> In l (touches c) -> m l = m' l.
Lemma exec1_agree m m' c l : (forall l, In l (touches c) -> m l = m' l) -> m l = m' l -> exec1 op m c l = exec1 op m' c l.
Proof.
  intros H E. unfold exec1. destruct (Nat.eqb l (cdst c)); [|auto]. unfold touches in H. rewrite (H (csrc c)) by (cbn; auto). destruct (crem c) as [b|]; [|auto]. rewrite (H b) by (cbn; auto). auto.
Qed.
Lemma execs_agree cs m m' l : agree cs m m' -> m l = m' l -> execs m cs l = execs m' cs l.
Proof.
  revert m m'. induction cs as [|c cs IH]; intros m m' H E; [auto|]. cbn. apply IH.
  - intros c' l' Hc Hl. apply exec1_agree; [intros l'' Hl''; apply (H c); cbn; auto|]. apply (H c'); cbn; auto.
  - apply exec1_agree; [intros l'' Hl''; apply (H c); cbn; auto|auto].
Qed.

(** one section: thread [i] makes the calls [cs i] then comes to the barrier *)
Definition free (n : nat) (cs : nat -> list call) : Prop :=
  forall i j c c', i < n -> j < n -> i <> j -> In c (cs i) -> In c' (cs j) -> harmless c c'.
Definition sec (cs : list call) (p : list instr) : list instr := map Do cs ++ p.

Lemma updn_map {B} (f g : nat -> B) n i x : i < n -> x = g i -> (forall j, j <> i -> f j = g j) -> updn (map f (seq 0 n)) i x = map g (seq 0 n).
Proof.
  intros Hi -> H. assert (forall s k, k < n -> updn (map f (seq s n)) k (g (s + k)) = map (fun j => if Nat.eqb j (s + k) then g j else f j) (seq s n)) as X.
  { clear. induction n as [|n IH]; intros s k Hk; [lia|]. cbn [seq map]. destruct k as [|k]; cbn [updn].
    - rewrite Nat.add_0_r, Nat.eqb_refl. f_equal. apply map_ext_in. intros a Ha. apply in_seq in Ha. destruct (Nat.eqb_spec a s); [lia|auto].
    - destruct (Nat.eqb_spec s (s + S k)); [lia|]. f_equal. replace (s + S k) with (S s + k) by lia. apply IH. lia. }
  specialize (X 0 i Hi). cbn [Nat.add] in X. rewrite X. apply map_ext. intros a. destruct (Nat.eqb_spec a i) as [->|D]; [auto|]. auto.
Qed.
Lemma nth_map_seq {B} (f : nat -> B) n i x : nth_error (map f (seq 0 n)) i = Some x -> i < n /\ x = f i.
Proof.
  intros H. assert (L : i < n) by (apply nth_error_Some in H || (assert (i < length (map f (seq 0 n))) by (apply nth_error_Some; congruence); rewrite map_length, seq_length in *; auto)).
  split; [auto|]. rewrite nth_error_map in H. rewrite nth_error_nth' with (d := 0) in H by (rewrite seq_length; auto). rewrite seq_nth in H by auto. cbn in H. congruence.
Qed.
Lemma map_seq_nth {B} (f : nat -> B) n i : i < n -> nth_error (map f (seq 0 n)) i = Some (f i).
Proof. intros H. rewrite nth_error_map, nth_error_nth' with (d := 0) by (rewrite seq_length; auto). rewrite seq_nth by auto. reflexivity. Qed.

Lemma section n cs ps m m' :
  n <> 0 -> free n cs -> pexec op (map (fun i => sec (cs i) (Bar :: ps i)) (seq 0 n)) m m' ->
  exists m1, pexec op (map ps (seq 0 n)) m1 m' /\
    (forall i l, i < n -> (forall j c, j < n -> j <> i -> In c (cs j) -> l <> cdst c) -> m1 l = execs m (cs i) l).
Proof.
  intros Hn F H. remember (map (fun i => sec (cs i) (Bar :: ps i)) (seq 0 n)) as ths eqn:E. revert cs F E. induction H as [ths m E0|ths m m' i c p Hi H IH|ths m m' HB H IH]; intros cs F ->.
  - exfalso. specialize (E0 0 _ (map_seq_nth _ n 0 ltac:(lia))). unfold sec in E0. destruct (map Do (cs 0)); discriminate.
  - apply nth_map_seq in Hi. destruct Hi as (Li & Ei). destruct (cs i) as [|c0 r] eqn:Ec; [discriminate|]. unfold sec in Ei. cbn [map app] in Ei. injection Ei as <- ->.
    set (cs' := fun j => if Nat.eqb j i then r else cs j).
    assert (SUB : forall j x, In x (cs' j) -> In x (cs j)).
    { intros j x. unfold cs'. destruct (Nat.eqb_spec j i) as [->|]; [|auto]. rewrite Ec. cbn. auto. }
    destruct (IH cs') as (m1 & P & Q).
    + intros a b x y La Lb Dab Ha Hb. apply (F a b); auto.
    + apply updn_map; auto; unfold cs'; [now rewrite Nat.eqb_refl|]. intros j Dj. apply Nat.eqb_neq in Dj. now rewrite Dj.
    + exists m1. split; [auto|]. intros k l Lk Nk. rewrite (Q k l Lk) by (intros j x Lj Dj Hx; apply (Nk j); auto). unfold cs'.
      destruct (Nat.eqb_spec k i) as [->|D]; [rewrite Ec; reflexivity|].
      apply execs_agree.
      * intros x l' Hx Hl'. apply exec1_other. intros ->. destruct (F i k c x Li Lk ltac:(auto) ltac:(rewrite Ec; cbn; auto) Hx) as (N1 & _). auto.
      * apply exec1_other. apply (Nk i); auto. rewrite Ec. cbn. auto.
  - assert (CE : forall i, i < n -> cs i = []).
    { intros i Hi. destruct (HB i _ (map_seq_nth _ n i Hi)) as (p' & Ep). unfold sec in Ep. destruct (cs i); [auto|discriminate]. }
    exists m. split.
    + rewrite map_map in H. erewrite map_ext_in in H; [exact H|]. intros a Ha. apply in_seq in Ha. cbn beta. unfold sec. rewrite CE by lia. reflexivity.
    + intros i l Li _. rewrite CE by auto. reflexivity.
Qed.

Lemma finish n m m' : pexec op (map (fun _ => []) (seq 0 n)) m m' -> n <> 0 -> m' = m.
Proof.
  intros H Hn. remember (map (fun _ => []) (seq 0 n)) as ths eqn:E. destruct H as [ths m E0|ths m m' i c p Hi H|ths m m' HB H]; subst ths; [auto| |].
  - apply nth_map_seq in Hi. destruct Hi. discriminate.
  - destruct (HB 0 _ (map_seq_nth _ n 0 ltac:(lia))) as (p' & Ep). discriminate.
Qed.
End Par.
