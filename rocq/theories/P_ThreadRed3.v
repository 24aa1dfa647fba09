(** Canonical scan. *)
From Verif Require Import Base M_ThreadRed S_ThreadRed P_Thread P_ThreadRed P_ThreadRed2.
From Coq Require Import Arith.
Local Open Scope nat_scope.

Section ScanC.
Context {A : Type} (op : A -> A -> A).
Hypothesis assoc : forall a b c, op a (op b c) = op (op a b) c.
Notation mem := (@mem A).
Context (n : nat).
Hypothesis Hn : 2 <= n.
Let K := Nat.log2_up n.

Lemma Kl1 j : 2 ^ j < n -> j < K. Proof. apply (K_lt n Hn j). Qed.
Lemma Kl2 j : j < K -> 2 ^ j < n. Proof. apply (K_lt n Hn j). Qed.
Fixpoint par (j : nat) : nat := match j with O => 0 | S j => 1 - par j end.
Lemma par_01 j : par j = 0 \/ par j = 1. Proof. induction j as [|j IH]; [auto|]. cbn [par]. lia. Qed.
Definition act (j i : nat) : bool := match j with O => true | S j => 2 ^ j <=? i end.
Definition dcs (j i : nat) : list call :=
  if act j i then
    if 2 ^ j <=? i then [mkcall (2 * i + (1 - par j)) (2 * i + par j) (Some (2 * (i - 2 ^ j) + par j))]
    else [mkcall (2 * i + (1 - par j)) (2 * i + par j) None]
  else [].
Definition fin (j i : nat) : list call :=
  if Nat.eqb (S j) K then if (2 ^ j <=? i) && Nat.eqb (par (S j)) 1 then [mkcall (2 * i) (2 * i + 1) None] else [] else [].
Definition ecs (j i : nat) : list call := dcs j i ++ fin j i.

Lemma act_S j i : 2 ^ j <= i -> act j i = true.
Proof. intros H. destruct j as [|j]; [auto|]. cbn [act]. apply Nat.leb_le. cbn [Nat.pow] in H. lia. Qed.
Lemma act_S' j i : act (S j) i = true -> act j i = true. Proof. intros H. apply act_S. now apply Nat.leb_le. Qed.

Lemma scanc_tail fuel j i :
  j <= K -> K - j <= fuel -> 1 <= j ->
  (do rest <- scancLoop fuel n i (act j i) (if act j i then par j else 0) (2 ^ j); Ok (map Do (dcs (j - 1) i) ++ rest)) = Ok (tail ecs (S (K - j)) (j - 1) i).
Proof.
  revert j. induction fuel as [|fuel IH]; intros j HJ HF H1.
  - assert (j = K) as -> by lia. cbn [scancLoop]. destruct (Nat.ltb_spec (2 ^ K) n) as [L|_]; [apply Kl1 in L; lia|].
    rewrite Nat.sub_diag. cbn [tail]. unfold ecs, fin. replace (S (K - 1)) with K by lia. rewrite Nat.eqb_refl.
    destruct K as [|k] eqn:EK; [lia|]. cbn [act]. replace (S k - 1) with k by lia.
    destruct (2 ^ k <=? i) eqn:E; cbn [andb].
    + destruct (par_01 (S k)) as [P|P]; rewrite P; cbn [Nat.eqb bind]; unfold sec; rewrite map_app; [rewrite app_nil_r|rewrite <- app_assoc]; reflexivity.
    + cbn [Nat.eqb bind]. unfold sec. rewrite map_app, app_nil_r. reflexivity.
  - destruct (Nat.ltb_spec (2 ^ j) n) as [L|L].
    + assert (J : j < K) by (apply Kl1 in L; auto). replace (K - j) with (S (K - S j)) by lia.
      specialize (IH (S j) ltac:(lia) ltac:(lia) ltac:(lia)). replace (S j - 1) with j in IH by lia.
      assert (FN : fin (j - 1) i = []) by (unfold fin; destruct (Nat.eqb_spec (S (j - 1)) K); [lia|auto]).
      cbn [tail]. replace (S (j - 1)) with j by lia. unfold ecs at 1. rewrite FN, app_nil_r. unfold sec at 1.
      change (sec (ecs j i) (Bar :: tail ecs (K - S j) (S j) i)) with (tail ecs (S (K - S j)) j i).
      remember (tail ecs (S (K - S j)) j i) as T eqn:ET.
      cbn [scancLoop]. destruct (Nat.ltb_spec (2 ^ j) n); [|lia]. change (2 * 2 ^ j) with (2 ^ S j).
      unfold dcs in IH. cbn [act] in IH. destruct (act j i) eqn:AJ.
      * destruct (2 ^ j <=? i) eqn:E; cbn [par] in IH.
        -- destruct (scancLoop fuel n i true (1 - par j) (2 ^ S j)) as [rest| | |]; cbn [bind] in IH |- *; try discriminate. injection IH as <-. reflexivity.
        -- destruct (scancLoop fuel n i false 0 (2 ^ S j)) as [rest| | |]; cbn [bind] in IH |- *; try discriminate. injection IH as <-. reflexivity.
      * destruct (Nat.leb_spec (2 ^ j) i) as [G|G]; [rewrite (act_S _ _ G) in AJ; discriminate|].
        destruct (scancLoop fuel n i false 0 (2 ^ S j)) as [rest| | |]; cbn [bind map app] in IH |- *; try discriminate. injection IH as <-. reflexivity.
    + assert (j = K) as -> by (destruct (Nat.eq_dec j K); [auto|]; assert (j < K) as X by lia; apply Kl2 in X; lia).
      cbn [scancLoop]. destruct (Nat.ltb_spec (2 ^ K) n); [lia|].
      rewrite Nat.sub_diag. cbn [tail]. unfold ecs, fin. replace (S (K - 1)) with K by lia. rewrite Nat.eqb_refl.
      destruct K as [|k] eqn:EK; [lia|]. cbn [act]. replace (S k - 1) with k by lia.
      destruct (2 ^ k <=? i) eqn:E; cbn [andb].
      * destruct (par_01 (S k)) as [P|P]; rewrite P; cbn [Nat.eqb bind]; unfold sec; rewrite map_app; [rewrite app_nil_r|rewrite <- app_assoc]; reflexivity.
      * cbn [Nat.eqb bind]. unfold sec. rewrite map_app, app_nil_r. reflexivity.
Qed.

Lemma scanc_prog i : threadScanC n i = Ok (Bar :: tail ecs K 0 i).
Proof.
  destruct (K_spec n Hn) as (K1 & K2 & K3). fold K in K1, K2, K3.
  unfold threadScanC. destruct (Nat.leb_spec n 1); [lia|].
  assert (G : forall fuel, K <= fuel -> scancLoop fuel n i true 0 1 = Ok (Bar :: tail ecs K 0 i)); [|apply G; lia]. intros fuel HF. destruct fuel as [|n']; [lia|]. cbn [scancLoop]. destruct (Nat.ltb_spec 1 n); [|lia]. change (2 * 1) with (2 ^ 1).
  pose proof (scanc_tail n' 1 i ltac:(lia) ltac:(lia) ltac:(lia)) as T. replace (S (K - 1)) with K in T by lia. cbn [Nat.sub] in T. unfold dcs in T. cbn [act par Nat.sub] in T. change (2 ^ 0) with 1 in T.
  destruct (1 <=? i) eqn:E.
  - change (1 - 0) with 1 in *. destruct (scancLoop n' n i true 1 (2 ^ 1)) as [rest| | |]; cbn [bind] in T |- *; try discriminate. injection T as <-. reflexivity.
  - destruct (scancLoop n' n i false 0 (2 ^ 1)) as [rest| | |]; cbn [bind] in T |- *; try discriminate. injection T as <-. reflexivity.
Qed.

Lemma dcs_in j i c : In c (dcs j i) -> act j i = true /\ cdst c = 2 * i + (1 - par j) /\ csrc c = 2 * i + par j /\ crem c = if 2 ^ j <=? i then Some (2 * (i - 2 ^ j) + par j) else None.
Proof. unfold dcs. destruct (act j i); [|intros []]. destruct (2 ^ j <=? i); intros [<-|[]]; auto. Qed.
Lemma fin_in j i c : In c (fin j i) -> S j = K /\ 2 ^ j <= i /\ par j = 0 /\ cdst c = 2 * i /\ csrc c = 2 * i + 1 /\ crem c = None.
Proof.
  unfold fin. destruct (Nat.eqb_spec (S j) K); [|intros []]. destruct (Nat.leb_spec (2 ^ j) i); [|intros []]. cbn [andb par]. destruct (Nat.eqb_spec (1 - par j) 1); [|intros []].
  intros [<-|[]]. repeat split; auto. lia.
Qed.
Lemma ecs_foot j i c l : In c (ecs j i) -> In l (touches c) -> l = 2 * i \/ l = 2 * i + 1 \/ (2 ^ j <= i /\ l = 2 * (i - 2 ^ j) + par j).
Proof.
  intros H T. destruct (par_01 j) as [P|P]; unfold ecs in H; apply in_app_iff in H; destruct H as [H|H].
  all: try (apply dcs_in in H; destruct H as (_ & E1 & E2 & E3); unfold touches in T; rewrite E1, E2, E3 in T; destruct (Nat.leb_spec (2 ^ j) i) as [G|G]; cbn [In] in T; destruct T as [T|[T|T]]; [..|destruct T as [T|[]]| | |destruct T]; rewrite P in *; try (left; lia); try (right; left; lia); right; right; split; [auto|lia]).
  all: apply fin_in in H; destruct H as (_ & G & _ & E1 & E2 & E3); unfold touches in T; rewrite E1, E2, E3 in T; cbn [In] in T; destruct T as [T|[T|[]]]; lia.
Qed.
Lemma ecs_dst j i c : In c (ecs j i) -> (cdst c = 2 * i + (1 - par j)) \/ (S j = K /\ 2 ^ j <= i /\ par j = 0 /\ cdst c = 2 * i).
Proof. intros H. unfold ecs in H. apply in_app_iff in H. destruct H as [H|H]; [apply dcs_in in H; tauto|apply fin_in in H; tauto]. Qed.
Lemma ecs_free j : free n (ecs j).
Proof.
  assert (X : forall i i' c c', i < n -> i' < n -> i <> i' -> In c (ecs j i) -> In c' (ecs j i') -> ~ In (cdst c) (touches c')).
  { intros i i' c c' Hi Hi' D Hc Hc' T. pose proof (ecs_foot _ _ _ _ Hc' T) as F. apply ecs_dst in Hc. destruct (par_01 j) as [P|P]; rewrite P in *; destruct Hc as [E|(EK & G & _ & E)]; rewrite E in F; try lia.
    destruct F as [F|[F|(F1 & F2)]]; try lia. destruct (K_spec n Hn) as (_ & K2 & _). fold K in K2. rewrite <- EK in K2. cbn [Nat.pow] in K2. lia. }
  intros i i' c c' Hi Hi' D Hc Hc'. split; [apply (X i i')|apply (X i' i)]; auto.
Qed.

Fixpoint dsg (x : nat -> A) (i k : nat) : A := match k with O => x i | S k => op (x i) (dsg x (i - 1) k) end.
Lemma dsg_op x i a b : op (dsg x i a) (dsg x (i - a - 1) b) = dsg x i (a + 1 + b).
Proof.
  revert i. induction a as [|a IH]; intros i; cbn [dsg Nat.add].
  - rewrite Nat.sub_0_r. reflexivity.
  - rewrite <- assoc. f_equal. rewrite <- IH. do 2 f_equal. lia.
Qed.
Lemma dsg_prefix x i : dsg x i i = prefix op x i.
Proof. induction i as [|i IH]; [auto|]. cbn [dsg prefix]. replace (S i - 1) with i by lia. now rewrite IH. Qed.

Definition invs (x : nat -> A) (j : nat) (m : mem) : Prop :=
  (forall i, i < n -> m (2 * i + par j) = dsg x i (Nat.min (2 ^ j) (i + 1) - 1)) /\
  (forall i, i < n -> act j i = false -> forall p, p <= 1 -> m (2 * i + p) = prefix op x i) /\
  (j = K -> forall i, i < n -> m (2 * i) = prefix op x i).

Lemma scanC_ok ths (m m' : mem) :
  (forall i, i < n -> threadScanC n i = Ok (ths i)) -> pexec op (map ths (seq 0 n)) m m' -> forall i, i < n -> m' (2 * i) = prefix op (fun i => m (2 * i)) i.
Proof.
  intros HT P. erewrite map_ext_in in P; [|intros i Hi; apply in_seq in Hi; assert (E : threadScanC n i = Ok (ths i)) by (apply HT; lia); rewrite scanc_prog in E by lia; injection E as <-; reflexivity].
  destruct (K_spec n Hn) as (K1 & K2 & K3). fold K in K1, K2, K3.
  set (x := fun i => m (2 * i)).
  apply bar_run in P; [|lia]. destruct P as (m1 & E & P).
  apply (tail_run op n ecs K 0 (invs x)) in P; [| lia | intros; apply ecs_free | |].
  - cbn [Nat.add] in P. destruct P as (_ & _ & P). auto.
  - intros j m2 m3 Hj (V1 & V2 & _) Q. pose proof (pow2_pos j) as PP.
    (* cells of thread i are written by thread i only *)
    assert (Q' : forall i p, i < n -> p <= 1 -> m3 (2 * i + p) = execs op m2 (ecs j i) (2 * i + p)).
    { intros i p Hi Hp. apply Q; [auto|]. intros i' c Hi' D Hc. apply ecs_dst in Hc. destruct (par_01 j) as [EP|EP]; rewrite EP in Hc; lia. }
    clear Q.
    assert (V1' : forall i, i < n -> execs op m2 (dcs j i) (2 * i + par (S j)) = dsg x i (Nat.min (2 ^ S j) (i + 1) - 1) \/ act j i = false).
    { intros i Hi. destruct (act j i) eqn:AJ; [left|auto]. unfold dcs. rewrite AJ. cbn [par Nat.pow]. destruct (Nat.leb_spec (2 ^ j) i) as [G|G]; cbn [execs fold_left]; unfold exec1; cbn [cdst csrc crem]; rewrite Nat.eqb_refl.
      - rewrite V1 by auto. rewrite (V1 (i - 2 ^ j)) by lia. rewrite (Nat.min_l (2 ^ j) (i + 1)) by lia. replace (i - 2 ^ j) with (i - (2 ^ j - 1) - 1) by lia. rewrite dsg_op. f_equal. lia.
      - rewrite V1 by auto. f_equal. lia. }
    assert (D0 : forall i, i < n -> execs op m2 (dcs j i) (2 * i + par j) = m2 (2 * i + par j)).
    { intros i Hi. apply execs_other. intros c Hc. apply dcs_in in Hc. destruct Hc as (_ & -> & _). destruct (par_01 j) as [EP|EP]; rewrite EP; lia. }
    assert (FD : forall i p, i < n -> p <= 1 -> p = par (S j) \/ fin j i = [] -> m3 (2 * i + p) = execs op m2 (dcs j i) (2 * i + p)).
    { intros i p Hi Hp C. rewrite Q' by auto. unfold ecs, execs. rewrite fold_left_app. apply (execs_other op (fold_left (exec1 op) (dcs j i) m2) (fin j i)). intros c Hc.
      destruct C as [->|C]; [|rewrite C in Hc; destruct Hc]. apply fin_in in Hc. destruct Hc as (_ & _ & EP & -> & _). cbn [par]. rewrite EP. lia. }
    assert (IN : forall i, i < n -> act j i = false -> dcs j i = [] /\ fin j i = [] /\ i + 1 <= 2 ^ j).
    { intros i Hi AJ. unfold dcs, fin. rewrite AJ. destruct (Nat.leb_spec (2 ^ j) i) as [G|G]; [rewrite (act_S _ _ G) in AJ; discriminate|]. cbn [andb]. destruct (Nat.eqb (S j) K); repeat split; auto; lia. }
    assert (W1 : forall i, i < n -> m3 (2 * i + par (S j)) = dsg x i (Nat.min (2 ^ S j) (i + 1) - 1)).
    { intros i Hi. rewrite FD by (auto; destruct (par_01 (S j)); lia). destruct (V1' i Hi) as [H|H]; [auto|]. destruct (IN i Hi H) as (-> & _ & G). cbn [execs fold_left]. rewrite V2 by (auto; destruct (par_01 (S j)); lia).
      cbn [Nat.pow]. rewrite Nat.min_r by lia. rewrite Nat.add_sub. now rewrite dsg_prefix. }
    assert (W2 : forall i, i < n -> act (S j) i = false -> forall p, p <= 1 -> m3 (2 * i + p) = prefix op x i).
    { intros i Hi AJ p Hp. cbn [act] in AJ. apply Nat.leb_gt in AJ.
      assert (FN : fin j i = []) by (unfold fin; destruct (Nat.leb_spec (2 ^ j) i); [lia|]; destruct (Nat.eqb (S j) K); auto).
      destruct (act j i) eqn:AJ'.
      - destruct (Nat.eq_dec p (par (S j))) as [->|D].
        + rewrite W1 by auto. cbn [Nat.pow]. rewrite Nat.min_r by lia. rewrite Nat.add_sub. apply dsg_prefix.
        + assert (p = par j) as -> by (cbn [par] in D; destruct (par_01 j); lia). rewrite FD by auto. rewrite D0, V1 by auto. rewrite Nat.min_r by lia. rewrite Nat.add_sub. apply dsg_prefix.
      - destruct (IN i Hi AJ') as (DE & _ & _). rewrite FD by auto. rewrite DE. cbn [execs fold_left]. apply V2; auto. }
    split; [exact W1|]. split; [exact W2|].
    intros EK i Hi. destruct (par_01 (S j)) as [EP|EP].
    + specialize (W1 i Hi). rewrite EP, Nat.add_0_r, Nat.min_r in W1 by (rewrite EK; lia). rewrite W1, Nat.add_sub. apply dsg_prefix.
    + destruct (act (S j) i) eqn:AJ; [|specialize (W2 i Hi AJ 0 ltac:(lia)); rewrite Nat.add_0_r in W2; auto].
      specialize (Q' i 0 Hi ltac:(lia)). rewrite Nat.add_0_r in Q'. rewrite Q'. unfold ecs, execs. rewrite fold_left_app.
      unfold fin. rewrite EP. apply Nat.eqb_eq in EK as EK'. rewrite EK'. cbn [act] in AJ. rewrite AJ. cbn [andb Nat.eqb fold_left]. unfold exec1 at 1. cbn [cdst csrc crem]. rewrite Nat.eqb_refl.
      fold (execs op m2 (dcs j i)). destruct (V1' i Hi) as [H|H]; [rewrite EP in H; rewrite H|apply Nat.leb_le in AJ; rewrite (act_S _ _ AJ) in H; discriminate].
      rewrite Nat.min_r by (rewrite EK; lia). rewrite Nat.add_sub. apply dsg_prefix.
  - split; [|split].
    + intros i Hi. cbn [par Nat.pow]. rewrite Nat.add_0_r, E. rewrite Nat.min_l by lia. reflexivity.
    + intros i Hi H. discriminate.
    + lia.
Qed.
End ScanC.
