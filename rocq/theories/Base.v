(** Common base of the model: result monad, C-like arrays, loops.

    This file models no particular piece of Scotch; it fixes the meaning of
    "array access", "for loop" and "undefined behaviour" for all model files. *)
From Coq Require Export ZArith List Lia Bool Permutation Sorted.
From Coq Require Export ZifyBool ZifyNat.
Export ListNotations.
Global Open Scope Z_scope.

(** * Results *)

(** [Ok a]: the C code ran normally and produced [a].
    [Err e]: the C code took an error-return path, returning code [e].
    [UB]: the C code would perform an undefined operation (access outside an
    array, overflow where modelled, division by zero, ...).
    [Fuel]: the step bound given to an unbounded loop of the model was
    exhausted (the model does not know what the C code does). *)
Inductive res (A : Type) : Type :=
| Ok (a : A) | Err (e : Z) | UB | Fuel.
Arguments Ok {A} _. Arguments Err {A} _. Arguments UB {A}. Arguments Fuel {A}.

Definition bind {A B} (r : res A) (f : A -> res B) : res B :=
  match r with Ok a => f a | Err e => Err e | UB => UB | Fuel => Fuel end.

Notation "'do' x <- e ; f" := (bind e (fun x => f))
  (at level 200, x name, e at level 100, f at level 200, right associativity).
Notation "'do' ' p <- e ; f" := (bind e (fun x => match x with p => f end))
  (at level 200, p strict pattern, e at level 100, f at level 200, right associativity).

(** Total weakest precondition: no UB, no fuel exhaustion. *)
Definition wp {A} (r : res A) (Q : A -> Prop) (E : Z -> Prop) : Prop :=
  match r with Ok a => Q a | Err e => E e | UB => False | Fuel => False end.

Definition noerr : Z -> Prop := fun _ => False.

(** Partial correctness on the normal outcome only. *)
Definition wlp {A} (r : res A) (Q : A -> Prop) : Prop :=
  match r with Ok a => Q a | _ => True end.

Lemma wp_ok_inv {A} (r : res A) Q : wp r Q noerr -> exists a, r = Ok a /\ Q a.
Proof. destruct r; simpl; unfold noerr; intros; try contradiction; eauto. Qed.

Lemma wp_of_eq {A} (r : res A) a (Q : A -> Prop) E : r = Ok a -> Q a -> wp r Q E.
Proof. intros ->; auto. Qed.

Lemma wp_bind {A B} (r : res A) (f : A -> res B) Q E :
  wp r (fun a => wp (f a) Q E) E -> wp (bind r f) Q E.
Proof. destruct r; simpl; auto. Qed.

Lemma wp_conseq {A} (r : res A) (Q Q' : A -> Prop) (E E' : Z -> Prop) :
  wp r Q E -> (forall a, Q a -> Q' a) -> (forall e, E e -> E' e) -> wp r Q' E'.
Proof. destruct r; simpl; auto. Qed.

Lemma wp_mono {A} (r : res A) (Q Q' : A -> Prop) (E : Z -> Prop) :
  wp r Q E -> (forall a, Q a -> Q' a) -> wp r Q' E.
Proof. destruct r; simpl; auto. Qed.

Lemma wp_and {A} (r : res A) (Q Q' : A -> Prop) (E : Z -> Prop) :
  wp r Q E -> wp r Q' E -> wp r (fun a => Q a /\ Q' a) E.
Proof. destruct r; simpl; auto. Qed.

Lemma wlp_bind {A B} (r : res A) (f : A -> res B) Q :
  wlp r (fun a => wlp (f a) Q) -> wlp (bind r f) Q.
Proof. destruct r; simpl; auto. Qed.

Lemma wlp_mono {A} (r : res A) (Q Q' : A -> Prop) :
  wlp r Q -> (forall a, Q a -> Q' a) -> wlp r Q'.
Proof. destruct r; simpl; auto. Qed.

Lemma wlp_elim {A} (r : res A) (Q : A -> Prop) a : wlp r Q -> r = Ok a -> Q a.
Proof. intros H ->; exact H. Qed.

Lemma wlp_intro {A} (r : res A) (Q : A -> Prop) :
  (forall a, r = Ok a -> Q a) -> wlp r Q.
Proof. destruct r; simpl; auto. Qed.

Lemma bind_ok_inv {A B} (r : res A) (f : A -> res B) b :
  bind r f = Ok b -> exists a, r = Ok a /\ f a = Ok b.
Proof. destruct r; simpl; try discriminate; eauto. Qed.

Lemma bind_assoc {A B C} (r : res A) (f : A -> res B) (g : B -> res C) :
  bind (bind r f) g = bind r (fun a => bind (f a) g).
Proof. destruct r; reflexivity. Qed.

(** * Arrays *)

Class Dflt (A : Type) := dflt : A.
#[global] Instance Dflt_Z : Dflt Z := 0.
#[global] Instance Dflt_nat : Dflt nat := 0%nat.
#[global] Instance Dflt_bool : Dflt bool := false.
#[global] Instance Dflt_list A : Dflt (list A) := [].
#[global] Instance Dflt_option A : Dflt (option A) := None.
#[global] Instance Dflt_prod A B `{Dflt A} `{Dflt B} : Dflt (A * B) := (dflt, dflt).

Definition zlen {A} (a : list A) : Z := Z.of_nat (length a).

(** Proof-level (total) view of the element at based index [i]; meaningful
    only when [b <= i < b + zlen a]. Model code uses [rd]/[wr] below. *)
Definition at_ {A} `{Dflt A} (b : Z) (a : list A) (i : Z) : A :=
  nth (Z.to_nat (i - b)) a dflt.

Fixpoint updn {A} (a : list A) (n : nat) (v : A) : list A :=
  match a, n with
  | [], _ => []
  | _ :: a', O => v :: a'
  | x :: a', S n' => x :: updn a' n' v
  end.

Definition upd {A} (b : Z) (a : list A) (i : Z) (v : A) : list A :=
  updn a (Z.to_nat (i - b)) v.

Definition inb {A} (b : Z) (a : list A) (i : Z) : bool :=
  (b <=? i) && (i <? b + zlen a).

(** [rd b a i] is the C read [atax[i]], where [atax = a - b]. *)
Definition rd {A} `{Dflt A} (b : Z) (a : list A) (i : Z) : res A :=
  if inb b a i then Ok (at_ b a i) else UB.

(** [wr b a i v] is the C write [atax[i] = v]. *)
Definition wr {A} (b : Z) (a : list A) (i : Z) (v : A) : res (list A) :=
  if inb b a i then Ok (upd b a i v) else UB.

Lemma zlen_nonneg {A} (a : list A) : 0 <= zlen a.
Proof. unfold zlen; lia. Qed.

Lemma zlen_nil {A} : zlen (@nil A) = 0. Proof. reflexivity. Qed.
Lemma zlen_cons {A} (x : A) l : zlen (x :: l) = 1 + zlen l.
Proof. unfold zlen; simpl length; lia. Qed.
Lemma zlen_app {A} (l l' : list A) : zlen (l ++ l') = zlen l + zlen l'.
Proof. unfold zlen; rewrite app_length; lia. Qed.
Lemma zlen_snoc {A} (l : list A) x : zlen (l ++ [x]) = zlen l + 1.
Proof. rewrite zlen_app. reflexivity. Qed.
Lemma zlen_one {A} (x : A) : zlen [x] = 1.
Proof. reflexivity. Qed.
Lemma zlen_map {A B} (f : A -> B) l : zlen (map f l) = zlen l.
Proof. unfold zlen; rewrite map_length; lia. Qed.
Lemma zlen_repeat {A} (x : A) n : zlen (repeat x n) = Z.of_nat n.
Proof. unfold zlen; rewrite repeat_length; lia. Qed.
Lemma zlen_rev {A} (l : list A) : zlen (rev l) = zlen l.
Proof. unfold zlen; rewrite rev_length; lia. Qed.
Lemma zlen_firstn {A} n (l : list A) : 0 <= n <= zlen l -> zlen (firstn (Z.to_nat n) l) = n.
Proof. unfold zlen; intros; rewrite firstn_length; lia. Qed.
Lemma zlen_skipn {A} n (l : list A) : 0 <= n <= zlen l -> zlen (skipn (Z.to_nat n) l) = zlen l - n.
Proof. unfold zlen; intros; rewrite skipn_length; lia. Qed.

Lemma updn_length {A} (a : list A) n v : length (updn a n v) = length a.
Proof. revert n; induction a; intros [|n]; simpl; auto. Qed.

Lemma zlen_upd {A} b (a : list A) i v : zlen (upd b a i v) = zlen a.
Proof. unfold zlen, upd; now rewrite updn_length. Qed.

Lemma nth_updn_same {A} (a : list A) n v d : (n < length a)%nat -> nth n (updn a n v) d = v.
Proof. revert n; induction a; intros [|n]; simpl; intros; try lia; auto. apply IHa; lia. Qed.

Lemma nth_updn_other {A} (a : list A) n m v d : n <> m -> nth m (updn a n v) d = nth m a d.
Proof. revert n m; induction a; intros [|n] [|m]; simpl; intros; try lia; auto. Qed.

Lemma at_upd_same {A} `{Dflt A} b (a : list A) i v :
  b <= i < b + zlen a -> at_ b (upd b a i v) i = v.
Proof. unfold at_, upd, zlen; intros; apply nth_updn_same; lia. Qed.

Lemma at_upd_other {A} `{Dflt A} b (a : list A) i j v :
  b <= i -> b <= j -> i <> j -> at_ b (upd b a i v) j = at_ b a j.
Proof. unfold at_, upd, zlen; intros; apply nth_updn_other; lia. Qed.

Lemma at_upd {A} `{Dflt A} b (a : list A) i j v :
  b <= i < b + zlen a -> b <= j ->
  at_ b (upd b a i v) j = if i =? j then v else at_ b a j.
Proof.
  intros; destruct (Z.eqb_spec i j) as [->|].
  - apply at_upd_same; lia.
  - apply at_upd_other; lia.
Qed.

Lemma inb_true {A} b (a : list A) i : b <= i < b + zlen a -> inb b a i = true.
Proof. unfold inb; lia. Qed.

Lemma inb_iff {A} b (a : list A) i : inb b a i = true <-> b <= i < b + zlen a.
Proof. unfold inb; lia. Qed.

Lemma rd_ok {A} `{Dflt A} b (a : list A) i :
  b <= i < b + zlen a -> rd b a i = Ok (at_ b a i).
Proof. intros; unfold rd; rewrite inb_true by lia; auto. Qed.

Lemma wr_ok {A} b (a : list A) i v :
  b <= i < b + zlen a -> wr b a i v = Ok (upd b a i v).
Proof. intros; unfold wr; rewrite inb_true by lia; auto. Qed.

Lemma rd_inv {A} `{Dflt A} b (a : list A) i x :
  rd b a i = Ok x -> b <= i < b + zlen a /\ x = at_ b a i.
Proof.
  unfold rd; destruct (inb b a i) eqn:E; try discriminate.
  apply inb_iff in E; intros [= <-]; auto.
Qed.

Lemma wr_inv {A} b (a : list A) i v a' :
  wr b a i v = Ok a' -> b <= i < b + zlen a /\ a' = upd b a i v.
Proof.
  unfold wr; destruct (inb b a i) eqn:E; try discriminate.
  apply inb_iff in E; intros [= <-]; auto.
Qed.

Lemma wp_rd {A} `{Dflt A} b (a : list A) i (Q : A -> Prop) E :
  b <= i < b + zlen a -> Q (at_ b a i) -> wp (rd b a i) Q E.
Proof. intros; rewrite rd_ok by auto; auto. Qed.

Lemma wp_wr {A} b (a : list A) i v (Q : list A -> Prop) E :
  b <= i < b + zlen a -> Q (upd b a i v) -> wp (wr b a i v) Q E.
Proof. intros; rewrite wr_ok by auto; auto. Qed.

Lemma wlp_rd {A} `{Dflt A} b (a : list A) i (Q : A -> Prop) :
  (b <= i < b + zlen a -> Q (at_ b a i)) -> wlp (rd b a i) Q.
Proof. intros; unfold rd; destruct (inb b a i) eqn:E; simpl; auto. apply inb_iff in E; auto. Qed.

Lemma wlp_wr {A} b (a : list A) i v (Q : list A -> Prop) :
  (b <= i < b + zlen a -> Q (upd b a i v)) -> wlp (wr b a i v) Q.
Proof. intros; unfold wr; destruct (inb b a i) eqn:E; simpl; auto. apply inb_iff in E; auto. Qed.

Lemma at_ext {A} `{Dflt A} b (a a' : list A) :
  zlen a = zlen a' -> (forall i, b <= i < b + zlen a -> at_ b a i = at_ b a' i) -> a = a'.
Proof.
  intros L E. apply (nth_ext _ _ dflt dflt).
  - unfold zlen in L; lia.
  - intros n Hn. specialize (E (b + Z.of_nat n)). unfold at_, zlen in *.
    replace (Z.to_nat (b + Z.of_nat n - b)) with n in E by lia. apply E; lia.
Qed.

Lemma at_cons_0 {A} `{Dflt A} b (x : A) a : at_ b (x :: a) b = x.
Proof. unfold at_; now rewrite Z.sub_diag. Qed.

Lemma at_cons_S {A} `{Dflt A} b (x : A) a i : b < i -> at_ b (x :: a) i = at_ b a (i - 1).
Proof.
  intros; unfold at_. replace (Z.to_nat (i - b)) with (S (Z.to_nat (i - 1 - b))) by lia. auto.
Qed.

Lemma at_app1 {A} `{Dflt A} b (l l' : list A) i : b <= i < b + zlen l -> at_ b (l ++ l') i = at_ b l i.
Proof. unfold at_, zlen; intros; apply app_nth1; lia. Qed.

Lemma at_app2 {A} `{Dflt A} b (l l' : list A) i :
  b + zlen l <= i -> at_ b (l ++ l') i = at_ b l' (i - zlen l).
Proof. unfold at_, zlen; intros; rewrite app_nth2 by lia; f_equal; lia. Qed.

Lemma at_map {A B} `{Dflt A} `{Dflt B} b (f : A -> B) l i :
  b <= i < b + zlen l -> at_ b (map f l) i = f (at_ b l i).
Proof.
  unfold at_, zlen; intros.
  rewrite (nth_indep (map f l) dflt (f dflt)) by (rewrite map_length; lia).
  apply map_nth.
Qed.

Lemma at_repeat {A} `{Dflt A} b (x : A) n i : b <= i < b + Z.of_nat n -> at_ b (repeat x n) i = x.
Proof.
  unfold at_; intros.
  destruct (nth_in_or_default (Z.to_nat (i - b)) (repeat x n) dflt) as [Hin | Hd].
  - now apply repeat_spec in Hin.
  - assert (Hl : (Z.to_nat (i - b) < length (repeat x n))%nat) by (rewrite repeat_length; lia).
    apply (nth_In _ dflt) in Hl. now apply repeat_spec in Hl.
Qed.

Lemma at_In {A} `{Dflt A} b (a : list A) i : b <= i < b + zlen a -> In (at_ b a i) a.
Proof. unfold at_, zlen; intros; apply nth_In; lia. Qed.

Lemma In_at {A} `{Dflt A} b (a : list A) x :
  In x a -> exists i, b <= i < b + zlen a /\ at_ b a i = x.
Proof.
  intros Hin. apply (In_nth _ _ dflt) in Hin as (n & Hn & Hx).
  exists (b + Z.of_nat n). unfold at_, zlen. replace (Z.to_nat (b + Z.of_nat n - b)) with n by lia.
  split; [lia|auto].
Qed.

Lemma at_shift {A} `{Dflt A} b c (a : list A) i : at_ (b + c) a (i + c) = at_ b a i.
Proof. unfold at_; f_equal; lia. Qed.

Lemma at_rebase {A} `{Dflt A} b c (a : list A) i : at_ c a i = at_ b a (i - c + b).
Proof. unfold at_; f_equal; lia. Qed.

Lemma at_firstn {A} `{Dflt A} b (a : list A) n i :
  b <= i < b + n -> at_ b (firstn (Z.to_nat n) a) i = at_ b a i.
Proof.
  intros; unfold at_.
  destruct (Nat.lt_ge_cases (Z.to_nat (i - b)) (length a)) as [Hl|Hl].
  - rewrite <- (firstn_skipn (Z.to_nat n) a) at 2.
    rewrite app_nth1; auto. rewrite firstn_length; lia.
  - rewrite !nth_overflow; auto. rewrite firstn_length; lia.
Qed.

Lemma at_skipn {A} `{Dflt A} b (a : list A) n i :
  0 <= n -> b <= i -> at_ b (skipn (Z.to_nat n) a) i = at_ b a (i + n).
Proof.
  intros; unfold at_.
  replace (Z.to_nat (i + n - b)) with (Z.to_nat n + Z.to_nat (i - b))%nat by lia.
  generalize (Z.to_nat (i - b)) as m. generalize (Z.to_nat n) as k. clear.
  intros k; revert a; induction k; intros [|x a] m; simpl; auto.
  destruct m; auto.
Qed.

Lemma at_rev {A} `{Dflt A} b (a : list A) i :
  b <= i < b + zlen a -> at_ b (rev a) i = at_ b a (2 * b + zlen a - 1 - i).
Proof.
  unfold at_, zlen; intros. rewrite rev_nth by lia. f_equal; lia.
Qed.

(** Integer range as a list: [b; b+1; ...; b+n-1]. *)
Definition zseq (b n : Z) : list Z := map (fun k => b + Z.of_nat k) (seq 0 (Z.to_nat n)).

Lemma zlen_zseq b n : 0 <= n -> zlen (zseq b n) = n.
Proof. intros; unfold zseq, zlen. rewrite map_length, seq_length; lia. Qed.

Lemma at_zseq c b n i : c <= i < c + n -> at_ c (zseq b n) i = b + (i - c).
Proof.
  intros; unfold at_, zseq.
  rewrite (nth_indep _ dflt (b + Z.of_nat 0)) by (rewrite map_length, seq_length; lia).
  rewrite (map_nth (fun k => b + Z.of_nat k)). rewrite seq_nth by lia. lia.
Qed.

Lemma In_zseq b n x : In x (zseq b n) <-> b <= x < b + n.
Proof.
  unfold zseq; rewrite in_map_iff; split.
  - intros (k & <- & Hk); apply in_seq in Hk; lia.
  - intros; exists (Z.to_nat (x - b)); rewrite in_seq; lia.
Qed.

Lemma NoDup_zseq b n : NoDup (zseq b n).
Proof.
  unfold zseq. apply FinFun.Injective_map_NoDup; [intros x y; lia | apply seq_NoDup].
Qed.

Lemma zseq_0 b n : n <= 0 -> zseq b n = [].
Proof. intros; unfold zseq. now replace (Z.to_nat n) with O by lia. Qed.

Lemma zseq_snoc b n : 0 <= n -> zseq b (n + 1) = zseq b n ++ [b + n].
Proof.
  intros; unfold zseq. replace (Z.to_nat (n + 1)) with (S (Z.to_nat n)) by lia.
  rewrite seq_S, map_app. simpl. do 2 f_equal. lia.
Qed.

Lemma zseq_cons b n : 0 < n -> zseq b n = b :: zseq (b + 1) (n - 1).
Proof.
  intros; unfold zseq. replace (Z.to_nat n) with (S (Z.to_nat (n - 1))) by lia.
  simpl. f_equal; [lia|]. rewrite <- seq_shift, map_map. apply map_ext; intros; lia.
Qed.

Lemma zseq_app b n m : 0 <= n -> 0 <= m -> zseq b (n + m) = zseq b n ++ zseq (b + n) m.
Proof.
  intros Hn Hm. apply (at_ext 0).
  - rewrite zlen_app, !zlen_zseq by lia; lia.
  - intros i. rewrite zlen_zseq by lia. intros Hi.
    rewrite at_zseq by lia.
    destruct (Z.lt_ge_cases i n).
    + rewrite at_app1 by (rewrite zlen_zseq; lia). rewrite at_zseq; lia.
    + rewrite at_app2 by (rewrite zlen_zseq; lia). rewrite zlen_zseq by lia.
      rewrite at_zseq; lia.
Qed.

(** * Loops *)

Fixpoint forN {S} (n : nat) (i : Z) (body : Z -> S -> res S) (s : S) : res S :=
  match n with
  | O => Ok s
  | Datatypes.S n' => bind (body i s) (fun s' => forN n' (i + 1) body s')
  end.

(** [for (i = lo; i < hi; i ++) s = body (i, s)] *)
Definition for_ {S} (lo hi : Z) (body : Z -> S -> res S) (s : S) : res S :=
  forN (Z.to_nat (hi - lo)) lo body s.

Lemma wp_for {S} (I : Z -> S -> Prop) lo hi body (s : S) (Q : S -> Prop) (E : Z -> Prop) :
  lo <= hi ->
  I lo s ->
  (forall i s, lo <= i < hi -> I i s -> wp (body i s) (I (i + 1)) E) ->
  (forall s, I hi s -> Q s) ->
  wp (for_ lo hi body s) Q E.
Proof.
  unfold for_; intros Hle. remember (Z.to_nat (hi - lo)) as n eqn:Hn.
  revert lo s Hle Hn; induction n; intros lo s Hle Hn Hi Hstep Hend; simpl.
  - apply Hend. now replace hi with lo by lia.
  - apply wp_bind. eapply wp_mono; [apply Hstep; [lia|auto]|].
    intros s' Hs'. apply IHn; auto; try lia. intros; apply Hstep; auto; lia.
Qed.

Lemma wlp_for {S} (I : Z -> S -> Prop) lo hi body (s : S) (Q : S -> Prop) :
  lo <= hi ->
  I lo s ->
  (forall i s, lo <= i < hi -> I i s -> wlp (body i s) (I (i + 1))) ->
  (forall s, I hi s -> Q s) ->
  wlp (for_ lo hi body s) Q.
Proof.
  unfold for_; intros Hle. remember (Z.to_nat (hi - lo)) as n eqn:Hn.
  revert lo s Hle Hn; induction n; intros lo s Hle Hn Hi Hstep Hend; simpl.
  - apply Hend. now replace hi with lo by lia.
  - apply wlp_bind. eapply wlp_mono; [apply Hstep; [lia|auto]|].
    intros s' Hs'. apply IHn; auto; try lia. intros; apply Hstep; auto; lia.
Qed.

Lemma for_nil {S} lo hi body (s : S) : hi <= lo -> for_ lo hi body s = Ok s.
Proof. intros; unfold for_. now replace (Z.to_nat (hi - lo)) with O by lia. Qed.

Lemma for_cons {S} lo hi body (s : S) :
  lo < hi -> for_ lo hi body s = bind (body lo s) (fun s' => for_ (lo + 1) hi body s').
Proof.
  intros; unfold for_.
  replace (Z.to_nat (hi - lo)) with (Datatypes.S (Z.to_nat (hi - (lo + 1)))) by lia. auto.
Qed.

Lemma forN_app {S} n m i body (s : S) :
  forN (n + m) i body s = bind (forN n i body s) (fun s' => forN m (i + Z.of_nat n) body s').
Proof.
  revert i s; induction n; intros i s.
  - simpl. now replace (i + 0) with i by lia.
  - cbn [forN Nat.add]. rewrite bind_assoc. destruct (body i s); cbn [bind]; auto.
    rewrite IHn. destruct (forN n (i + 1) body a); cbn [bind]; auto.
    f_equal; lia.
Qed.

Lemma for_split {S} lo mid hi body (s : S) :
  lo <= mid <= hi -> for_ lo hi body s = bind (for_ lo mid body s) (fun s' => for_ mid hi body s').
Proof.
  intros; unfold for_.
  replace (Z.to_nat (hi - lo)) with (Z.to_nat (mid - lo) + Z.to_nat (hi - mid))%nat by lia.
  rewrite forN_app. now replace (lo + Z.of_nat (Z.to_nat (mid - lo))) with mid by lia.
Qed.

(** Unbounded loop: [body s] is [inl s'] to go on, [inr r] to leave the loop. *)
Fixpoint loop {S R} (fuel : nat) (body : S -> res (S + R)) (s : S) : res R :=
  match fuel with
  | O => Fuel
  | Datatypes.S f =>
      bind (body s) (fun x => match x with inl s' => loop f body s' | inr r => Ok r end)
  end.

Lemma wp_loop {S R} (I : S -> Prop) (m : S -> Z) fuel body (s : S) (Q : R -> Prop) (E : Z -> Prop) :
  I s -> 0 <= m s < Z.of_nat fuel ->
  (forall s, I s -> wp (body s) (fun x => match x with
      | inl s' => I s' /\ 0 <= m s' < m s | inr r => Q r end) E) ->
  wp (loop fuel body s) Q E.
Proof.
  intros Hi Hm Hb. revert s Hi Hm. induction fuel; intros s Hi Hm; [lia|].
  simpl. apply wp_bind. eapply wp_mono; [apply Hb; auto|].
  intros [s'|r]; auto. intros [H1 H2]. apply IHfuel; auto. lia.
Qed.

Lemma wlp_loop {S R} (I : S -> Prop) fuel body (s : S) (Q : R -> Prop) :
  I s ->
  (forall s, I s -> wlp (body s) (fun x => match x with inl s' => I s' | inr r => Q r end)) ->
  wlp (loop fuel body s) Q.
Proof.
  intros Hi Hb. revert s Hi. induction fuel; intros s Hi; [exact Logic.I|].
  simpl. apply wlp_bind. eapply wlp_mono; [apply Hb; auto|].
  intros [s'|r]; auto.
Qed.

(** * Sums over integer ranges *)

Fixpoint sumN (n : nat) (i : Z) (f : Z -> Z) : Z :=
  match n with O => 0 | S n' => f i + sumN n' (i + 1) f end.

(** [zsum lo hi f] = sum of [f i] for [lo <= i < hi]. *)
Definition zsum (lo hi : Z) (f : Z -> Z) : Z := sumN (Z.to_nat (hi - lo)) lo f.

Lemma zsum_nil lo hi f : hi <= lo -> zsum lo hi f = 0.
Proof. intros; unfold zsum. now replace (Z.to_nat (hi - lo)) with O by lia. Qed.

Lemma zsum_cons lo hi f : lo < hi -> zsum lo hi f = f lo + zsum (lo + 1) hi f.
Proof.
  intros; unfold zsum.
  replace (Z.to_nat (hi - lo)) with (S (Z.to_nat (hi - (lo + 1)))) by lia. auto.
Qed.

Lemma zrange_ind (P : Z -> Prop) lo :
  P lo -> (forall hi, lo <= hi -> P hi -> P (hi + 1)) -> forall hi, lo <= hi -> P hi.
Proof.
  intros H0 HS hi Hle. replace hi with (lo + Z.of_nat (Z.to_nat (hi - lo))) by lia.
  induction (Z.to_nat (hi - lo)).
  - now replace (lo + Z.of_nat 0) with lo by lia.
  - replace (lo + Z.of_nat (S n)) with (lo + Z.of_nat n + 1) by lia. apply HS; auto; lia.
Qed.

Lemma zrange_ind_down (P : Z -> Prop) hi :
  P hi -> (forall lo, lo < hi -> P (lo + 1) -> P lo) -> forall lo, lo <= hi -> P lo.
Proof.
  intros H0 HS lo Hle. replace lo with (hi - Z.of_nat (Z.to_nat (hi - lo))) by lia.
  induction (Z.to_nat (hi - lo)).
  - now replace (hi - Z.of_nat 0) with hi by lia.
  - apply HS; [lia|]. now replace (hi - Z.of_nat (S n) + 1) with (hi - Z.of_nat n) by lia.
Qed.

Lemma zsum_split lo mid hi f : lo <= mid <= hi -> zsum lo hi f = zsum lo mid f + zsum mid hi f.
Proof.
  intros [H1 H2]. revert lo H1.
  apply (zrange_ind_down (fun lo => zsum lo hi f = zsum lo mid f + zsum mid hi f)).
  - rewrite (zsum_nil mid mid) by lia. lia.
  - intros l Hl IH. rewrite (zsum_cons l hi), (zsum_cons l mid) by lia. rewrite IH by lia. lia.
Qed.

Lemma zsum_snoc lo hi f : lo <= hi -> zsum lo (hi + 1) f = zsum lo hi f + f hi.
Proof.
  intros. rewrite (zsum_split lo hi (hi + 1)) by lia.
  rewrite (zsum_cons hi) by lia. rewrite (zsum_nil (hi + 1)) by lia. lia.
Qed.

Lemma zsum_ext lo hi f g : (forall i, lo <= i < hi -> f i = g i) -> zsum lo hi f = zsum lo hi g.
Proof.
  destruct (Z.le_gt_cases lo hi) as [Hle|Hgt].
  - revert hi Hle. apply (zrange_ind (fun hi => (forall i, lo <= i < hi -> f i = g i) -> zsum lo hi f = zsum lo hi g)).
    + intros; rewrite !zsum_nil by lia; lia.
    + intros hi Hle IH He. rewrite !zsum_snoc by lia. rewrite IH by (intros; apply He; lia).
      rewrite He by lia. auto.
  - intros; rewrite !zsum_nil by lia; lia.
Qed.

Lemma zsum_add lo hi f g : zsum lo hi (fun i => f i + g i) = zsum lo hi f + zsum lo hi g.
Proof.
  destruct (Z.le_gt_cases lo hi) as [Hle|Hgt].
  - revert hi Hle. apply (zrange_ind (fun hi => zsum lo hi (fun i => f i + g i) = zsum lo hi f + zsum lo hi g)).
    + rewrite !zsum_nil by lia; lia.
    + intros hi Hle IH. rewrite !zsum_snoc by lia. lia.
  - rewrite !zsum_nil by lia; lia.
Qed.

Lemma zsum_scale lo hi c f : zsum lo hi (fun i => c * f i) = c * zsum lo hi f.
Proof.
  destruct (Z.le_gt_cases lo hi) as [Hle|Hgt].
  - revert hi Hle. apply (zrange_ind (fun hi => zsum lo hi (fun i => c * f i) = c * zsum lo hi f)).
    + rewrite !zsum_nil by lia; lia.
    + intros hi Hle IH. rewrite !zsum_snoc by lia. lia.
  - rewrite !zsum_nil by lia. lia.
Qed.

Lemma zsum_const lo hi c : lo <= hi -> zsum lo hi (fun _ => c) = (hi - lo) * c.
Proof.
  revert hi. apply (zrange_ind (fun hi => zsum lo hi (fun _ => c) = (hi - lo) * c)).
  - rewrite zsum_nil by lia. lia.
  - intros hi Hle IH. rewrite zsum_snoc by lia. lia.
Qed.

Lemma zsum_nonneg lo hi f : (forall i, lo <= i < hi -> 0 <= f i) -> 0 <= zsum lo hi f.
Proof.
  destruct (Z.le_gt_cases lo hi) as [Hle|Hgt].
  - revert hi Hle. apply (zrange_ind (fun hi => (forall i, lo <= i < hi -> 0 <= f i) -> 0 <= zsum lo hi f)).
    + intros; now rewrite zsum_nil by lia.
    + intros hi Hle IH He. rewrite zsum_snoc by lia.
      assert (0 <= f hi) by (apply He; lia).
      assert (0 <= zsum lo hi f) by (apply IH; intros; apply He; lia). lia.
  - intros; rewrite zsum_nil by lia. lia.
Qed.

Lemma zsum_le lo hi f g : (forall i, lo <= i < hi -> f i <= g i) -> zsum lo hi f <= zsum lo hi g.
Proof.
  intros He.
  assert (H : 0 <= zsum lo hi (fun i => g i + (-1) * f i)).
  { apply zsum_nonneg. intros i Hi; specialize (He i Hi); lia. }
  rewrite zsum_add, zsum_scale in H. lia.
Qed.

Lemma zsum_mono lo hi hi' f : hi <= hi' -> (forall i, lo <= i < hi' -> 0 <= f i) -> zsum lo hi f <= zsum lo hi' f.
Proof.
  intros Hle He. destruct (Z.le_gt_cases lo hi) as [Hl|Hl].
  - rewrite (zsum_split lo hi hi') by lia.
    assert (0 <= zsum hi hi' f) by (apply zsum_nonneg; intros; apply He; lia). lia.
  - rewrite (zsum_nil lo hi) by lia. apply zsum_nonneg; auto.
Qed.

Lemma zsum_zero lo hi f : (forall i, lo <= i < hi -> f i = 0) -> zsum lo hi f = 0.
Proof.
  intros He. rewrite (zsum_ext lo hi f (fun _ => 0)) by auto.
  destruct (Z.le_gt_cases lo hi); [rewrite zsum_const by lia; lia | rewrite zsum_nil; lia].
Qed.

(** Pointwise change of one term. *)
Lemma zsum_upd lo hi f g k :
  lo <= k < hi -> (forall i, lo <= i < hi -> i <> k -> f i = g i) ->
  zsum lo hi g = zsum lo hi f - f k + g k.
Proof.
  intros Hk He.
  rewrite (zsum_split lo k hi g), (zsum_split lo k hi f) by lia.
  rewrite (zsum_cons k hi g), (zsum_cons k hi f) by lia.
  rewrite (zsum_ext lo k g f) by (intros; symmetry; apply He; lia).
  rewrite (zsum_ext (k + 1) hi g f) by (intros; symmetry; apply He; lia). lia.
Qed.

Lemma zsum_shift lo hi c f : zsum lo hi (fun i => f (i + c)) = zsum (lo + c) (hi + c) f.
Proof.
  destruct (Z.le_gt_cases lo hi) as [Hle|Hgt].
  - revert hi Hle. apply (zrange_ind (fun hi => zsum lo hi (fun i => f (i + c)) = zsum (lo + c) (hi + c) f)).
    + rewrite !zsum_nil by lia; lia.
    + intros hi Hle IH. rewrite zsum_snoc by lia.
      replace (hi + 1 + c) with (hi + c + 1) by lia. rewrite zsum_snoc by lia. lia.
  - rewrite !zsum_nil by lia; lia.
Qed.

Lemma zsum_swap l1 h1 l2 h2 (f : Z -> Z -> Z) :
  zsum l1 h1 (fun i => zsum l2 h2 (fun j => f i j)) = zsum l2 h2 (fun j => zsum l1 h1 (fun i => f i j)).
Proof.
  destruct (Z.le_gt_cases l1 h1) as [Hle|Hgt].
  - revert h1 Hle. apply (zrange_ind (fun h1 => zsum l1 h1 (fun i => zsum l2 h2 (fun j => f i j)) = zsum l2 h2 (fun j => zsum l1 h1 (fun i => f i j)))).
    + rewrite zsum_nil by lia. symmetry. apply zsum_zero. intros; now rewrite zsum_nil by lia.
    + intros hi Hle IH. rewrite zsum_snoc by lia. rewrite IH, <- zsum_add.
      apply zsum_ext. intros; now rewrite zsum_snoc by lia.
  - rewrite zsum_nil by lia. symmetry. apply zsum_zero. intros; now rewrite zsum_nil by lia.
Qed.

Definition b2z (b : bool) : Z := if b then 1 else 0.

(** Number of [i] in [lo..hi-1] satisfying [p]. *)
Definition zcount (lo hi : Z) (p : Z -> bool) : Z := zsum lo hi (fun i => b2z (p i)).

(** * Swaps and permutations *)

Definition swp {A} `{Dflt A} (b : Z) (a : list A) (i j : Z) : list A :=
  upd b (upd b a i (at_ b a j)) j (at_ b a i).

Lemma zlen_swp {A} `{Dflt A} b (a : list A) i j : zlen (swp b a i j) = zlen a.
Proof. unfold swp; now rewrite !zlen_upd. Qed.

Lemma at_swp {A} `{Dflt A} b (a : list A) i j k :
  b <= i < b + zlen a -> b <= j < b + zlen a -> b <= k ->
  at_ b (swp b a i j) k = if k =? i then at_ b a j else if k =? j then at_ b a i else at_ b a k.
Proof.
  intros. unfold swp. rewrite at_upd by (rewrite ?zlen_upd; lia).
  destruct (Z.eqb_spec j k).
  - subst. destruct (Z.eqb_spec k i); subst; auto. now rewrite Z.eqb_refl.
  - rewrite at_upd by lia. destruct (Z.eqb_spec i k), (Z.eqb_spec k i), (Z.eqb_spec k j); try lia; auto.
Qed.

Lemma updn_split {A} (a : list A) n v d :
  (n < length a)%nat -> exists l r, a = l ++ nth n a d :: r /\ updn a n v = l ++ v :: r /\ length l = n.
Proof.
  revert n; induction a; intros n Hn; simpl in Hn; [lia|].
  destruct n.
  - exists [], a0. auto.
  - destruct (IHa n) as (l & r & E1 & E2 & E3); [lia|].
    exists (a :: l), r. simpl. rewrite E2. repeat split; try congruence.
Qed.

Lemma Permutation_swp {A} `{Dflt A} b (a : list A) i j :
  b <= i < b + zlen a -> b <= j < b + zlen a -> Permutation a (swp b a i j).
Proof.
  intros Hi Hj.
  rewrite (Permutation_nth a (swp b a i j) dflt).
  assert (L : length (swp b a i j) = length a) by (pose proof (zlen_swp b a i j); unfold zlen in *; lia).
  split; auto.
  set (ni := Z.to_nat (i - b)). set (nj := Z.to_nat (j - b)).
  exists (fun n => if Nat.eqb n ni then nj else if Nat.eqb n nj then ni else n).
  unfold zlen in *. repeat split.
  - intros n Hn. destruct (Nat.eqb_spec n ni), (Nat.eqb_spec n nj); lia.
  - intros x y Hx Hy.
    destruct (Nat.eqb_spec x ni), (Nat.eqb_spec x nj), (Nat.eqb_spec y ni), (Nat.eqb_spec y nj); lia.
  - intros n Hn.
    pose proof (at_swp b a i j (b + Z.of_nat n)) as E. unfold zlen in E.
    unfold at_ in E. replace (Z.to_nat (b + Z.of_nat n - b)) with n in E by lia.
    rewrite E by lia.
    destruct (Nat.eqb_spec n ni), (Z.eqb_spec (b + Z.of_nat n) i); try lia.
    + reflexivity.
    + destruct (Nat.eqb_spec n nj), (Z.eqb_spec (b + Z.of_nat n) j); try lia; reflexivity.
Qed.

(** A list is a permutation of the integer range [b .. b+n-1]. *)
Definition perm_range (b n : Z) (l : list Z) : Prop := Permutation (zseq b n) l.

Lemma perm_range_intro b n l :
  zlen l = n -> (forall i, 0 <= i < n -> b <= at_ 0 l i < b + n) -> NoDup l -> perm_range b n l.
Proof.
  intros Hl Hr Hnd. unfold perm_range. symmetry. apply NoDup_Permutation_bis; auto.
  - pose proof (zlen_zseq b n). pose proof (zlen_nonneg l). unfold zlen in *. lia.
  - intros x Hx. apply In_zseq. apply (In_at 0) in Hx as (i & Hi & <-). apply Hr. lia.
Qed.

Lemma NoDup_at {A} `{Dflt A} b (l : list A) :
  (forall i j, b <= i < b + zlen l -> b <= j < b + zlen l -> at_ b l i = at_ b l j -> i = j) <-> NoDup l.
Proof.
  split.
  - intros Hi. apply (NoDup_nth l dflt). intros i j Hli Hlj E.
    specialize (Hi (b + Z.of_nat i) (b + Z.of_nat j)). unfold at_, zlen in Hi.
    replace (Z.to_nat (b + Z.of_nat i - b)) with i in Hi by lia.
    replace (Z.to_nat (b + Z.of_nat j - b)) with j in Hi by lia.
    specialize (Hi ltac:(lia) ltac:(lia) E). lia.
  - intros Hn i j Hli Hlj E. pose proof (proj1 (NoDup_nth l dflt) Hn) as H0.
    unfold at_, zlen in *. specialize (H0 (Z.to_nat (i - b)) (Z.to_nat (j - b)) ltac:(lia) ltac:(lia) E). lia.
Qed.

Lemma perm_range_props b n l : 0 <= n -> perm_range b n l ->
  zlen l = n /\ (forall c i, c <= i < c + n -> b <= at_ c l i < b + n) /\ NoDup l.
Proof.
  unfold perm_range; intros Hn HP.
  assert (L : zlen l = n).
  { rewrite <- (zlen_zseq b n) by lia. unfold zlen. now rewrite (Permutation_length HP). }
  split; [auto|split].
  - intros c i Hi. apply In_zseq. eapply Permutation_in; [symmetry; apply HP|]. apply at_In. lia.
  - eapply Permutation_NoDup; [apply HP|apply NoDup_zseq].
Qed.
