(** Reductions and scans: the programs. *)
From Verif Require Import Base M_ThreadRed S_ThreadRed P_Thread P_ThreadRed.
From Coq Require Import Arith.
Local Open Scope nat_scope.

(** ** skewed ranks *)
Definition loc (n root s : nat) : nat := (root + s) mod n.
Definition rank (n root i : nat) : nat := (i + n - root) mod n.
Lemma loc_eq n root s : root < n -> s < n -> loc n root s = if root + s <? n then root + s else root + s - n.
Proof.
  intros. unfold loc. destruct (Nat.ltb_spec (root + s) n); [apply Nat.mod_small; auto|]. symmetry. apply Nat.mod_unique with 1; lia.
Qed.
Lemma rank_eq n root i : root < n -> i < n -> rank n root i = if root <=? i then i - root else i + n - root.
Proof.
  intros. unfold rank. destruct (Nat.leb_spec root i); [|apply Nat.mod_small; lia]. symmetry. apply Nat.mod_unique with 1; lia.
Qed.
Lemma rank_lt n root i : root < n -> i < n -> rank n root i < n.
Proof. intros. rewrite rank_eq by auto. destruct (Nat.leb_spec root i); lia. Qed.
Lemma loc_lt n root i : root < n -> i < n -> loc n root i < n.
Proof. intros. rewrite loc_eq by auto. destruct (Nat.ltb_spec (root + i) n); lia. Qed.
Lemma loc_rank n root i : root < n -> i < n -> loc n root (rank n root i) = i.
Proof. intros. rewrite loc_eq, rank_eq by auto using rank_lt. destruct (Nat.leb_spec root i); match goal with |- context [?a <? ?b] => destruct (Nat.ltb_spec a b) end; lia. Qed.
Lemma rank_loc n root s : root < n -> s < n -> rank n root (loc n root s) = s.
Proof. intros. rewrite rank_eq, loc_eq by auto using loc_lt. destruct (Nat.ltb_spec (root + s) n); match goal with |- context [?a <=? ?b] => destruct (Nat.leb_spec a b) end; lia. Qed.

(** ** powers of two *)
Lemma lxor_even q j : Nat.lxor (2 * q * 2 ^ j) (2 ^ j) = (2 * q + 1) * 2 ^ j.
Proof.
  replace ((2 * q + 1) * 2 ^ j) with (2 * q * 2 ^ j + 2 ^ j) by ring. symmetry. apply Nat.add_nocarry_lxor.
  apply Nat.bits_inj. intros k. rewrite Nat.land_spec, Nat.pow2_bits_eqb, Nat.bits_0. destruct (Nat.eqb_spec j k) as [<-|]; [|now rewrite andb_false_r].
  rewrite Nat.mul_pow2_bits_high by lia. rewrite Nat.sub_diag. rewrite Nat.testbit_even_0. reflexivity.
Qed.
Lemma lxor_odd q j : Nat.lxor ((2 * q + 1) * 2 ^ j) (2 ^ j) = 2 * q * 2 ^ j.
Proof. rewrite <- lxor_even, Nat.lxor_assoc, Nat.lxor_nilpotent, Nat.lxor_0_r. reflexivity. Qed.
Definition mult (s j : nat) : Prop := exists q, s = q * 2 ^ j.
Lemma mult_S s j : mult s (S j) -> mult s j.
Proof. intros (q & ->). exists (2 * q). cbn [Nat.pow]. ring. Qed.
Lemma mult_dec s j : {mult s j} + {~ mult s j}.
Proof.
  destruct (Nat.eq_dec (s mod 2 ^ j) 0) as [E|E]; [left|right].
  - apply Nat.mod_divides in E; [|apply Nat.pow_nonzero; lia]. destruct E as (q & E). exists q. lia.
  - intros (q & ->). apply E. apply Nat.mod_mul. apply Nat.pow_nonzero. lia.
Qed.
Lemma mult_half s j : mult s j -> mult s (S j) \/ exists q, s = (2 * q + 1) * 2 ^ j.
Proof.
  intros (q & ->). destruct (Nat.Even_or_Odd q) as [(r & ->)|(r & ->)]; [left; exists r; cbn [Nat.pow]; ring|right; eauto].
Qed.
Lemma mult_odd q j : ~ mult ((2 * q + 1) * 2 ^ j) (S j).
Proof.
  intros (r & E). cbn [Nat.pow] in E. assert (2 ^ j <> 0) by (apply Nat.pow_nonzero; lia). assert (2 * q + 1 = 2 * r); [|lia]. apply Nat.mul_cancel_r with (2 ^ j); [auto|]. lia.
Qed.
Lemma pow2_pos j : 1 <= 2 ^ j. Proof. assert (2 ^ j <> 0) by (apply Nat.pow_nonzero; lia). lia. Qed.

(** ** programs as sequences of sections *)
Fixpoint tail (cs : nat -> nat -> list call) (k j i : nat) : list instr :=
  match k with O => [] | S k => sec (cs j i) (Bar :: tail cs k (S j) i) end.
Lemma bars_app p q : bars (p ++ q) = bars p + bars q.
Proof. unfold bars. rewrite filter_app, app_length. auto. Qed.
Lemma bars_tail cs k j i : bars (tail cs k j i) = k.
Proof. revert j. induction k as [|k IH]; intros j; [auto|]. cbn [tail]. unfold sec. rewrite bars_app. unfold bars at 1 2. replace (filter _ (map Do (cs j i))) with (@nil instr); [cbn [length filter Nat.add]; fold (bars (tail cs k (S j) i)); now rewrite IH|]. induction (cs j i); auto. Qed.
Lemma after_do k l p : after (S k) (map Do l ++ p) = after (S k) p. Proof. induction l; auto. Qed.
Lemma after_do0 l p : after 0 (map Do l ++ Bar :: p) = l. Proof. induction l as [|a l IH]; [auto|]. cbn [map app after]. f_equal. auto. Qed.
Lemma after_tail cs k j i r : r < k -> after r (tail cs k j i) = cs (j + r) i.
Proof.
  revert j r. induction k as [|k IH]; intros j r H; [lia|]. cbn [tail]. unfold sec. destruct r as [|r].
  - rewrite after_do0. f_equal. lia.
  - rewrite after_do. cbn [after]. rewrite IH by lia. f_equal. lia.
Qed.
Lemma after_tail_end cs k j i r : k <= r -> after r (tail cs k j i) = [].
Proof.
  revert j r. induction k as [|k IH]; intros j r H; [auto|]. cbn [tail]. unfold sec. destruct r as [|r]; [lia|]. rewrite after_do. cbn [after]. apply IH. lia.
Qed.

Section Prog.
Context {A : Type} (op : A -> A -> A).
Notation mem := (@mem A).

(** threads that run [Bar :: tail cs k j i]: an invariant of the sections *)
Lemma tail_run n cs k j (I : nat -> mem -> Prop) m m' :
  n <> 0 -> (forall r, j <= r < j + k -> free n (cs r)) ->
  (forall r m m1, j <= r < j + k -> I r m -> (forall i l, i < n -> (forall i' c, i' < n -> i' <> i -> In c (cs r i') -> l <> cdst c) -> m1 l = execs op m (cs r i) l) -> I (S r) m1) ->
  I j m -> pexec op (map (tail cs k j) (seq 0 n)) m m' -> I (j + k) m'.
Proof.
  intros Hn. revert j m. induction k as [|k IH]; intros j m F Step H0 P.
  - cbn [tail] in P. apply finish in P; [|auto]. subst. now rewrite Nat.add_0_r.
  - cbn [tail] in P. apply section in P; [|auto|apply F; lia]. destruct P as (m1 & P & Q). replace (j + S k) with (S j + k) by lia. apply (IH (S j) m1); auto.
    + intros r Hr. apply F. lia.
    + intros r m2 m3 Hr. apply Step. lia.
    + apply (Step j m m1); auto. lia.
Qed.
Lemma bar_run n (ps : nat -> list instr) (m m' : mem) : n <> 0 -> pexec op (map (fun i => Bar :: ps i) (seq 0 n)) m m' ->
  exists m1, (forall l, m1 l = m l) /\ pexec op (map ps (seq 0 n)) m1 m'.
Proof.
  intros Hn P. apply (section op n (fun _ => [])) in P; [|auto|intros i j c c' _ _ _ []]. destruct P as (m1 & P & Q). exists m1. split; [|auto]. intros l. apply (Q 0 l); [lia|]. intros i' c _ _ [].
Qed.

(** ** simple reduction *)
Definition redcs (n root t k : nat) : list call := map (fun t => mkcall root root (Some ((root + t) mod n))) (seq t k).
Lemma redLoop_cs n root t k : redLoop n root t k = map Do (redcs n root t k).
Proof. revert t. induction k as [|k IH]; intros t; [auto|]. cbn [redLoop]. unfold redcs. cbn [seq map]. f_equal. apply IH. Qed.
Definition rcs (n root : nat) (j i : nat) : list call := if Nat.eqb i root then redcs n root 1 (n - 1) else [].
Lemma threadReduce_tail n root i : 2 <= n -> threadReduce n root i = Bar :: tail (rcs n root) 1 0 i.
Proof. intros H. unfold threadReduce. destruct (Nat.leb_spec n 1); [lia|]. f_equal. cbn [tail]. unfold sec, rcs. destruct (Nat.eqb i root); [|reflexivity]. now rewrite redLoop_cs. Qed.
Lemma redcs_exec n root t k (m : mem) : root < n -> 1 <= t -> t + k <= n ->
  execs op m (redcs n root t k) root = fold_left op (map (fun t => m ((root + t) mod n)) (seq t k)) (m root).
Proof.
  intros Hr. revert t m. induction k as [|k IH]; intros t m Ht Hk; [auto|]. unfold redcs. cbn [seq map fold_left]. unfold execs. cbn [fold_left].
  fold (redcs n root (S t) k). fold (execs op (exec1 op m (mkcall root root (Some ((root + t) mod n)))) (redcs n root (S t) k)). rewrite IH by lia.
  replace (exec1 op m (mkcall root root (Some ((root + t) mod n))) root) with (op (m root) (m ((root + t) mod n))) by (unfold exec1; cbn; now rewrite Nat.eqb_refl).
  f_equal. apply map_ext_in. intros u Hu. apply in_seq in Hu. apply exec1_other. cbn [cdst]. fold (loc n root u). rewrite loc_eq by lia. destruct (Nat.ltb_spec (root + u) n); lia.
Qed.
Lemma free_one n root cs : (forall i, i <> root -> cs i = []) -> free n cs.
Proof. intros H i j c c' Hi Hj D Hc Hc'. destruct (Nat.eq_dec i root) as [->|Di]; [rewrite (H j) in Hc' by auto; destruct Hc'|rewrite (H i) in Hc by auto; destruct Hc]. Qed.
Lemma rcs_free n root j : free n (rcs n root j).
Proof. apply free_one with root. intros i D. unfold rcs. apply Nat.eqb_neq in D. now rewrite D. Qed.

Lemma reduce_ok n root (m m' : mem) : 2 <= n -> root < n -> pexec op (map (threadReduce n root) (seq 0 n)) m m' -> m' root = total op n root m.
Proof.
  intros Hn Hr P. erewrite map_ext in P; [|intros i; apply threadReduce_tail; auto]. apply bar_run in P; [|lia]. destruct P as (m1 & E & P).
  apply (tail_run n (rcs n root) 1 0 (fun r m2 => match r with O => forall l, m2 l = m l | _ => m2 root = total op n root m end)) in P; auto; try lia.
  - intros r Hr'. apply rcs_free.
  - intros r m2 m3 Hr' H0 H1. assert (r = 0) as -> by lia. rewrite (H1 root root Hr).
    + unfold rcs. rewrite Nat.eqb_refl, redcs_exec by lia. unfold total. rewrite H0. f_equal. apply map_ext. intros t. apply H0.
    + intros i' c Hi' D Hc. unfold rcs in Hc. apply Nat.eqb_neq in D. rewrite D in Hc. destruct Hc.
Qed.

(** ** simple scan *)
Definition scancs (i k : nat) : list call := map (fun i => mkcall (2 * S i) (2 * S i) (Some (2 * i))) (seq i k).
Lemma scanLoop_cs i k : scanLoop i k = map Do (scancs i k).
Proof. revert i. induction k as [|k IH]; intros i; [auto|]. cbn [scanLoop]. unfold scancs. cbn [seq map]. f_equal. apply IH. Qed.
Definition scs (n : nat) (j i : nat) : list call := if Nat.eqb i 0 then scancs 0 (n - 1) else [].
Lemma threadScan_tail n i : 2 <= n -> threadScan n i = Bar :: tail (scs n) 1 0 i.
Proof. intros H. unfold threadScan. destruct (Nat.leb_spec n 1); [lia|]. f_equal. cbn [tail]. unfold sec, scs. destruct (Nat.eqb i 0); [|reflexivity]. now rewrite scanLoop_cs. Qed.
Lemma scancs_exec k (x : nat -> A) : forall i (m : mem), m (2 * i) = prefix op x i -> (forall l, i < l -> m (2 * l) = x l) ->
  (forall l, l < i -> m (2 * l) = prefix op x l) -> forall l, l <= i + k -> execs op m (scancs i k) (2 * l) = prefix op x l.
Proof.
  induction k as [|k IH]; intros i m H1 H2 H3 l Hl.
  - cbn. destruct (Nat.eq_dec l i) as [->|]; [auto|]. apply H3. lia.
  - unfold scancs. cbn [seq map]. unfold execs. cbn [fold_left]. fold (scancs (S i) k). apply (IH (S i)); [| | |lia].
    + unfold exec1. cbn [cdst csrc crem]. rewrite Nat.eqb_refl, H1. cbn [prefix]. rewrite H2 by lia. reflexivity.
    + intros l' Hl'. rewrite exec1_other by (cbn [cdst]; lia). apply H2. lia.
    + intros l' Hl'. rewrite exec1_other by (cbn [cdst]; lia). destruct (Nat.eq_dec l' i) as [->|]; [auto|]. apply H3. lia.
Qed.
Lemma scan_ok n (m m' : mem) : 2 <= n -> pexec op (map (threadScan n) (seq 0 n)) m m' -> forall i, i < n -> m' (2 * i) = prefix op (fun i => m (2 * i)) i.
Proof.
  intros Hn P. erewrite map_ext in P; [|intros i; apply threadScan_tail; auto]. apply bar_run in P; [|lia]. destruct P as (m1 & E & P).
  apply (tail_run n (scs n) 1 0 (fun r m2 => match r with O => forall l, m2 l = m l | _ => forall i, i < n -> m2 (2 * i) = prefix op (fun i => m (2 * i)) i end)) in P; auto; try lia.
  - intros r Hr'. apply free_one with 0. intros i D. unfold scs. apply Nat.eqb_neq in D. now rewrite D.
  - intros r m2 m3 Hr' H0 H1. assert (r = 0) as -> by lia. intros i Hi. rewrite (H1 0 (2 * i)) by (try lia; intros i' c Hi' D Hc; unfold scs in Hc; apply Nat.eqb_neq in D; rewrite D in Hc; destruct Hc).
    unfold scs. rewrite Nat.eqb_refl. apply scancs_exec; [rewrite H0; reflexivity|intros; apply H0|intros; lia|lia].
Qed.
End Prog.

Definition single (cs : list call) (b : bool) (c : call) : Prop := cs = if b then [c] else [].

(** ** canonical reduction *)
Section RedC.
Context {A : Type} (op : A -> A -> A).
Hypothesis assoc : forall a b c, op a (op b c) = op (op a b) c.
Notation mem := (@mem A).
Context (n root : nat).
Hypothesis Hn : 2 <= n.
Hypothesis Hr : root < n.
Let K := Nat.log2_up n.
Lemma K_spec : 1 <= K /\ 2 ^ (K - 1) < n <= 2 ^ K /\ K < n.
Proof.
  clear Hr. unfold K. pose proof (Nat.log2_up_spec n ltac:(lia)) as S. pose proof (Nat.log2_up_pos n ltac:(lia)). pose proof (Nat.log2_up_lt_lin n ltac:(lia)).
  rewrite <- Nat.sub_1_r in S. lia.
Qed.
Lemma K_lt j : 2 ^ j < n <-> j < K.
Proof.
  clear Hr. destruct K_spec as (K1 & K2 & _). split; intros H.
  - destruct (Nat.lt_ge_cases j K) as [|G]; [auto|]. pose proof (Nat.pow_le_mono_r 2 K j ltac:(lia) G). lia.
  - assert (j <= K - 1) as L by lia. pose proof (Nat.pow_le_mono_r 2 j (K - 1) ltac:(lia) L). lia.
Qed.

Definition ccs (j i : nat) : list call :=
  let s := rank n root i in
  if mult_dec s (S j) then if s + 2 ^ j <? n then [mkcall i i (Some (loc n root (s + 2 ^ j)))] else [] else [].

Lemma redc_tail fuel j i nsk :
  i < n -> (mult (rank n root i) j /\ nsk = rank n root i) \/ (~ mult (rank n root i) j /\ n <= nsk) -> j <= K -> K - j <= fuel ->
  redcLoop fuel n root i nsk (2 ^ j) = Ok (Bar :: tail ccs (K - j) j i).
Proof.
  intros Hi. revert j nsk. induction fuel as [|fuel IH]; intros j nsk HN HJ HF.
  - cbn [redcLoop]. destruct (Nat.ltb_spec (2 ^ j) n) as [L|L]; [apply K_lt in L; lia|]. replace (K - j) with 0 by lia. reflexivity.
  - cbn [redcLoop]. destruct (Nat.ltb_spec (2 ^ j) n) as [L|L].
    2:{ assert (~ j < K) by (intros X; apply K_lt in X; lia). replace (K - j) with 0 by lia. reflexivity. }
    apply K_lt in L. replace (K - j) with (S (K - S j)) by lia. change (2 * 2 ^ j) with (2 ^ S j). cbn [tail].
    pose proof (pow2_pos j) as PP. pose proof (rank_lt n root i Hr Hi) as RL.
    assert (G : forall cs nsk', ((mult (rank n root i) (S j) /\ nsk' = rank n root i) \/ (~ mult (rank n root i) (S j) /\ n <= nsk')) -> cs = map Do (ccs j i) ->
       (do rest <- redcLoop fuel n root i nsk' (2 ^ S j); Ok (Bar :: cs ++ rest)) = Ok (Bar :: sec (ccs j i) (Bar :: tail ccs (K - S j) (S j) i))).
    { intros cs nsk' H ->. rewrite (IH (S j) nsk') by (auto; lia). reflexivity. }
    remember (ccs j i) as CC eqn:EC. unfold ccs in EC. destruct HN as [(M & ->)|(NM & NS)].
    + destruct (mult_half _ _ M) as [(q & Eq)|(q & Eq)].
      * assert (X : Nat.lxor (rank n root i) (2 ^ j) = rank n root i + 2 ^ j).
        { rewrite Eq. replace (q * 2 ^ S j) with (2 * q * 2 ^ j) by (cbn [Nat.pow]; ring). rewrite lxor_even. ring. }
        assert (MS : mult (rank n root i) (S j)) by (exists q; auto).
        rewrite X. destruct (mult_dec (rank n root i) (S j)) as [_|N]; [|contradiction].
        destruct (Nat.ltb_spec (rank n root i + 2 ^ j) n) as [L'|L']; rewrite EC.
        -- destruct (Nat.ltb_spec (rank n root i) (rank n root i + 2 ^ j)); [|lia]. rewrite <- EC. apply G; [auto|]. rewrite EC. unfold loc. cbn [map]. rewrite (Nat.add_comm root). reflexivity.
        -- rewrite <- EC. apply G; auto. now rewrite EC.
      * assert (X : Nat.lxor (rank n root i) (2 ^ j) = 2 * q * 2 ^ j) by (rewrite Eq; apply lxor_odd). rewrite X.
        assert (NM : ~ mult (rank n root i) (S j)) by (rewrite Eq; apply mult_odd).
        destruct (mult_dec (rank n root i) (S j)) as [M'|_]; [contradiction|]. rewrite EC.
        destruct (Nat.ltb_spec (2 * q * 2 ^ j) n); [|lia]. destruct (Nat.ltb_spec (rank n root i) (2 * q * 2 ^ j)); [lia|].
        rewrite <- EC. apply G; [|now rewrite EC]. right. split; [auto|lia].
    + assert (NM' : ~ mult (rank n root i) (S j)) by (intros X; apply NM, mult_S; auto).
      destruct (mult_dec (rank n root i) (S j)) as [M'|_]; [contradiction|]. rewrite EC.
      destruct (Nat.ltb_spec (Nat.lxor nsk (2 ^ j)) n); [|rewrite <- EC; apply G; [auto|now rewrite EC]]. destruct (Nat.ltb_spec nsk (Nat.lxor nsk (2 ^ j))); [lia|]. rewrite <- EC. apply G; [right; split; [auto|lia]|now rewrite EC].
Qed.
Lemma redc_prog i : i < n -> threadReduceC n root i = Ok (Bar :: tail ccs K 0 i).
Proof.
  intros Hi. unfold threadReduceC. destruct (Nat.leb_spec n 1); [lia|]. fold (rank n root i). change 1 with (2 ^ 0). rewrite redc_tail; auto.
  - now rewrite Nat.sub_0_r.
  - left. split; [|auto]. exists (rank n root i). cbn [Nat.pow]. lia.
  - lia.
  - destruct K_spec. lia.
Qed.
Lemma ccs_in j i c : In c (ccs j i) -> mult (rank n root i) (S j) /\ rank n root i + 2 ^ j < n /\ c = mkcall i i (Some (loc n root (rank n root i + 2 ^ j))).
Proof.
  unfold ccs. destruct (mult_dec (rank n root i) (S j)); [|intros []]. destruct (Nat.ltb_spec (rank n root i + 2 ^ j) n); [|intros []]. intros [<-|[]]. auto.
Qed.
Lemma ccs_free j : free n (ccs j).
Proof.
  intros i i' c c' Hi Hi' D Hc Hc'. apply ccs_in in Hc, Hc'. destruct Hc as (M & L & ->), Hc' as (M' & L' & ->).
  assert (X : forall a b, a < n -> b < n -> mult (rank n root a) (S j) -> mult (rank n root b) (S j) -> rank n root b + 2 ^ j < n -> a <> loc n root (rank n root b + 2 ^ j)).
  { intros a b Ha Hb Ma (q & Eq) Lb E. rewrite E, rank_loc in Ma by auto. revert Ma. rewrite Eq. replace (q * 2 ^ S j + 2 ^ j) with ((2 * q + 1) * 2 ^ j) by (cbn [Nat.pow]; ring). apply mult_odd. }
  split; cbn [cdst touches csrc crem In]; intros [E|[E|[E|[]]]]; try lia; symmetry in E; revert E; apply X; auto.
Qed.

Fixpoint sg (x : nat -> A) (a k : nat) : A := match k with O => x a | S k => op (x a) (sg x (S a) k) end.
Lemma sg_op x a k b : op (sg x a k) (sg x (a + k + 1) b) = sg x a (k + 1 + b).
Proof.
  revert a. induction k as [|k IH]; intros a; cbn [sg Nat.add].
  - replace (a + 0 + 1) with (S a) by lia. reflexivity.
  - rewrite <- assoc. f_equal. rewrite <- IH. do 2 f_equal. lia.
Qed.
Lemma sg_fold x a k : sg x a k = fold_left op (map x (seq (S a) k)) (x a).
Proof.
  revert a. induction k as [|k IH]; intros a; [auto|]. cbn [sg seq map fold_left]. rewrite IH.
  assert (F : forall l p q, op p (fold_left op l q) = fold_left op l (op p q)) by (induction l as [|y l IHl]; intros p q; [auto|]; cbn; rewrite IHl; now rewrite assoc).
  apply F.
Qed.

Definition inj (m0 : mem) (j : nat) (m : mem) : Prop :=
  forall s, s < n -> mult s j -> m (loc n root s) = sg (fun t => m0 (loc n root t)) s (Nat.min (2 ^ j) (n - s) - 1).

Lemma reduceC_ok ths (m m' : mem) :
  (forall i, i < n -> threadReduceC n root i = Ok (ths i)) -> pexec op (map ths (seq 0 n)) m m' -> m' root = total op n root m.
Proof.
  intros HT P. erewrite map_ext_in in P; [|intros i Hi; apply in_seq in Hi; assert (E : threadReduceC n root i = Ok (ths i)) by (apply HT; lia); rewrite redc_prog in E by lia; injection E as <-; reflexivity].
  apply bar_run in P; [|lia]. destruct P as (m1 & E & P).
  apply (tail_run op n ccs K 0 (inj m)) in P; [| lia | intros; apply ccs_free | |].
  - specialize (P 0 ltac:(lia)). destruct K_spec as (K1 & K2 & _). cbn [Nat.add] in P. rewrite Nat.sub_0_r, Nat.min_r in P by lia.
    assert (L0 : loc n root 0 = root) by (rewrite loc_eq by lia; rewrite Nat.add_0_r; apply Nat.ltb_lt in Hr; now rewrite Hr). rewrite L0 in P. rewrite P by (exists 0; auto). rewrite sg_fold. unfold total. rewrite L0. reflexivity.
  - intros j m2 m3 Hj I2 Q s Hs Ms.
    pose proof (loc_lt n root s Hr Hs) as LL. pose proof (rank_loc n root s Hr Hs) as RL.
    rewrite (Q (loc n root s) (loc n root s) LL).
    2:{ intros i' c Hi' D Hc. apply ccs_in in Hc. destruct Hc as (_ & _ & ->). cbn [cdst]. auto. }
    unfold ccs. rewrite RL. destruct (mult_dec s (S j)) as [_|]; [|contradiction].
    assert (Mj : mult s j) by (apply mult_S; auto). pose proof (pow2_pos j). change (2 ^ S j) with (2 ^ j + (2 ^ j + 0)).
    destruct (Nat.ltb_spec (s + 2 ^ j) n) as [L|L].
    + cbn [execs fold_left]. unfold exec1. cbn [cdst csrc crem]. rewrite Nat.eqb_refl. rewrite (I2 s), (I2 (s + 2 ^ j)) by (auto; destruct Mj as (q & ->); exists (q + 1); ring).
      rewrite (Nat.min_l (2 ^ j) (n - s)) by lia. replace (s + 2 ^ j) with (s + (2 ^ j - 1) + 1) by lia. rewrite sg_op. f_equal. lia.
    + cbn [execs fold_left]. rewrite (I2 s) by auto. f_equal. lia.
  - intros s Hs _. rewrite E. change (2 ^ 0) with 1. rewrite Nat.min_l by lia. reflexivity.
Qed.
End RedC.
