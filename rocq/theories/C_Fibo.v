(** C27: the Fibonacci heap is a priority queue. *)
From Verif Require Import Base M_Fibo S_Fibo P_Fibo P_Fibo2 P_Fibo6.

(** Whatever the memory handed to fiboHeapInit, whatever the comparison routine and
    whatever legal sequence of calls, every call succeeds and every fiboHeapMin answers a
    minimum of the elements then present, or null if there are none.  [D] is the size of
    the degree array; the heap must never hold [fib2 D] elements or more. *)
Theorem C27_heap : forall K (cmp : K -> K -> Z) n cap D fuel h ks os,
  total_preorder cmp -> 0 <= n -> 0 <= cap -> 0 < D -> cap < fib2 (Z.to_nat D) -> 2 * cap + D + 1 < Z.of_nat fuel ->
  fnbr h = n + 1 -> legals cmp n cap [] os ->
  exists st rs, frun fuel cmp D h ks os = Ok (st, rs) /\ right_answers cmp [] os rs.
Proof.
  intros K cmp n cap D fuel h ks os TP Hn Hc HD Hb Hf En Hl.
  destruct (run_ok cmp TP n cap D fuel HD Hb Hf h ks os Hn Hc En Hl) as (st & rs & E & A & _). eauto.
Qed.
Print Assumptions C27_heap.

(** After any such history, emptying the heap yields exactly the elements inserted and not
    deleted, each once, by increasing keys. *)
Theorem C27_drain : forall K (cmp : K -> K -> Z) n cap D fuel h ks os k,
  total_preorder cmp -> 0 <= n -> 0 <= cap -> 0 < D -> cap < fib2 (Z.to_nat D) -> 2 * cap + D + 1 < Z.of_nat fuel ->
  fnbr h = n + 1 -> legals cmp n cap [] os -> zlen (fold_left qstep os []) < Z.of_nat k ->
  exists st rs l qs, frun fuel cmp D h ks os = Ok (st, rs) /\ drain fuel cmp st k = Ok l /\
    map fst qs = l /\ Permutation qs (fold_left qstep os []) /\ StronglySorted (fun a b => cmp (snd a) (snd b) <= 0) qs.
Proof.
  intros K cmp n cap D fuel h ks os k TP Hn Hc HD Hb Hf En Hl Hk.
  destruct (run_ok cmp TP n cap D fuel HD Hb Hf h ks os Hn Hc En Hl) as (st & rs & E & A & S).
  destruct (drain_ok cmp TP n cap D fuel HD Hb Hf k st _ Hn S Hk) as (l & qs & E2 & M & P & SS).
  exists st, rs, l, qs. auto.
Qed.
Print Assumptions C27_drain.

(** With the 32 cells allocated when INT has 32 bits, five million elements are safe. *)
Example C27_cap_32 : 5702886 < fib2 (Z.to_nat 32) /\ 10610209857722 < fib2 (Z.to_nat 62).
Proof. split; vm_compute; reflexivity. Qed.

(** * Non-vacuity *)
Fixpoint legalb (n cap : Z) (q : queue Z) (os : list (fop Z)) : bool :=
  match os with
  | [] => true
  | o :: os' =>
      match o with
      | FAdd x k => (1 <=? x) && (x <=? n) && negb (existsb (Z.eqb x) (map fst q)) && (zlen q <? cap)
      | FDel x => existsb (Z.eqb x) (map fst q)
      | FDecr x k => existsb (fun e => (fst e =? x) && (k <=? snd e)) q
      | FMin | FFree => true
      end && legalb n cap (qstep q o) os'
  end.
Lemma legalb_ok n cap os : forall q, legalb n cap q os = true -> legals Z.sub n cap q os.
Proof.
  assert (X : forall x l, existsb (Z.eqb x) l = true <-> In x l).
  { intros x l. rewrite existsb_exists. split; [intros (y & H & E); apply Z.eqb_eq in E; now subst|intros H; exists x; split; [exact H|apply Z.eqb_refl]]. }
  induction os as [|o os IH]; intros q H; [exact I|]. cbn [legalb] in H. apply andb_prop in H. destruct H as [H1 H2].
  split; [|now apply IH]. destruct o as [x k|x|x k| |]; cbn [legal]; try exact I.
  - rewrite !andb_true_iff, negb_true_iff in H1. destruct H1 as (((A1 & A2) & A3) & A4). split; [lia|]. split; [|lia].
    intros H. apply X in H. congruence.
  - now apply X.
  - apply existsb_exists in H1. destruct H1 as ([y k0] & H & E). cbn [fst snd] in E. apply andb_prop in E. destruct E as [E1 E2].
    apply Z.eqb_eq in E1. subst y. exists k0. split; [exact H|lia].
Qed.

Lemma ex_fibo_tp : total_preorder Z.sub.
Proof. constructor; intros; lia. Qed.
Definition ex_fibo_heap (n : Z) : fheap := mkF (n + 1) (fun _ => 77) (fun _ => 3) (fun _ => -5) (fun _ => 9) (fun _ => 12) [].
Definition ex_fibo_ops : list (fop Z) :=
  [FAdd 1 50; FAdd 2 40; FAdd 3 30; FAdd 4 60; FAdd 5 35; FMin; FDel 3; FMin; FDecr 4 10; FMin; FDecr 1 5; FMin; FDel 1; FAdd 3 40; FMin].
Example C27_ex_legal : legals Z.sub 5 5 [] ex_fibo_ops.
Proof. apply legalb_ok. vm_compute. reflexivity. Qed.
Example C27_ex_run : exists st, frun 100 Z.sub 4 (ex_fibo_heap 5) (fun _ => 0) ex_fibo_ops = Ok (st, [3; 5; 4; 1; 4]) /\
  drain 100 Z.sub st 6 = Ok [4; 5; 2; 3].
Proof. eexists. split; vm_compute; reflexivity. Qed.
Example C27_ex_hyps : exists st rs, frun 100 Z.sub 4 (ex_fibo_heap 5) (fun _ => 0) ex_fibo_ops = Ok (st, rs) /\ right_answers Z.sub [] ex_fibo_ops rs.
Proof.
  apply (C27_heap Z Z.sub 5 5 4 100); try lia; [exact ex_fibo_tp|vm_compute; reflexivity|reflexivity|exact C27_ex_legal].
Qed.

(** * One cell per bit is not enough *)
(** The size given to the degree array, "as many cells as there are bits in an int type"
    (fibo.c:86), presumes that a node of degree [d] has [2^d] descendants, but the bound is
    [fib2 d].  For an 8-bit type, whose values stay below 128, the following history never
    has more than 88 nodes and indexes the array out of bounds. *)
Local Notation A x := (FAdd x 0). Local Notation R x := (FDel x). Local Notation M := (@FMin Z).
Definition ex_fibo_over : list (fop Z) :=
 [A 1; M; A 2; M; A 3; M; A 4; M; R 1; A 1; M; A 5; M; A 6; M; A 7; M; R 1; R 3; A 3; M; A 1; M; A 8; M; A 9; 
M; R 3; A 3; M; A 10; M; A 11; M; A 12; M; R 3; R 8; R 4; R 2; A 2; M; A 4; M; A 8; M; A 3; M; R 2; A 2; M; A 
13; M; A 14; M; A 15; M; R 2; R 8; A 8; M; A 2; M; A 16; M; A 17; M; R 8; A 8; M; A 18; M; A 19; M; A 20; M; 
R 8; R 16; R 3; R 4; R 7; R 6; R 5; A 5; M; A 6; M; A 7; M; A 4; M; R 5; A 5; M; A 3; M; A 16; M; A 8; M; R 
5; R 7; A 7; M; A 5; M; A 21; M; A 22; M; R 7; A 7; M; A 23; M; A 24; M; A 25; M; R 7; R 21; R 4; R 6; A 6; 
M; A 4; M; A 21; M; A 7; M; R 6; A 6; M; A 26; M; A 27; M; A 28; M; R 6; R 21; A 21; M; A 6; M; A 29; M; A 
30; M; R 21; A 21; M; A 31; M; A 32; M; A 33; M; R 21; R 29; R 7; R 4; R 8; R 16; R 3; R 12; R 11; R 10; R 9; 
R 1; A 1; M; A 9; M; A 10; M; A 11; M; R 1; A 1; M; A 12; M; A 3; M; A 16; M; R 1; R 10; A 10; M; A 1; M; A 
8; M; A 4; M; R 10; A 10; M; A 7; M; A 29; M; A 21; M; R 10; R 8; R 11; R 9; A 9; M; A 11; M; A 8; M; A 10; 
M; R 9; A 9; M; A 34; M; A 35; M; A 36; M; R 9; R 8; A 8; M; A 9; M; A 37; M; A 38; M; R 8; A 8; M; A 39; M; 
A 40; M; A 41; M; R 8; R 37; R 10; R 11; R 16; R 3; R 12; A 12; M; A 3; M; A 16; M; A 11; M; R 12; A 12; M; A 
10; M; A 37; M; A 8; M; R 12; R 16; A 16; M; A 12; M; A 42; M; A 43; M; R 16; A 16; M; A 44; M; A 45; M; A 
46; M; R 16; R 42; R 11; R 3; A 3; M; A 11; M; A 42; M; A 16; M; R 3; A 3; M; A 47; M; A 48; M; A 49; M; R 3; 
R 42; A 42; M; A 3; M; A 50; M; A 51; M; R 42; A 42; M; A 52; M; A 53; M; A 54; M; R 42; R 50; R 16; R 11; R 
8; R 37; R 10; R 21; R 29; R 7; R 4; R 1; R 20; R 19; R 18; R 17; R 2; R 15; R 14; R 13; A 13; M; A 14; M; A 
15; M; A 2; M; R 13; A 13; M; A 17; M; A 18; M; A 19; M; R 13; R 15; A 15; M; A 13; M; A 20; M; A 1; M; R 15; 
A 15; M; A 4; M; A 7; M; A 29; M; R 15; R 20; R 2; R 14; A 14; M; A 2; M; A 20; M; A 15; M; R 14; A 14; M; A 
21; M; A 10; M; A 37; M; R 14; R 20; A 20; M; A 14; M; A 8; M; A 11; M; R 20; A 20; M; A 16; M; A 50; M; A 
42; M; R 20; R 8; R 15; R 2; R 19; R 18; R 17; A 17; M; A 18; M; A 19; M; A 2; M; R 17; A 17; M; A 15; M; A 
8; M; A 20; M; R 17; R 19; A 19; M; A 17; M; A 55; M; A 56; M; R 19; A 19; M; A 57; M; A 58; M; A 59; M; R 
19; R 55; R 2; R 18; A 18; M; A 2; M; A 55; M; A 19; M; R 18; A 18; M; A 60; M; A 61; M; A 62; M; R 18; R 55; 
A 55; M; A 18; M; A 63; M; A 64; M; R 55; A 55; M; A 65; M; A 66; M; A 67; M; R 55; R 63; R 19; R 2; R 20; R 
8; R 15; R 29; R 7; R 4; R 1; R 13; A 13; M; A 1; M; A 4; M; A 7; M; R 13; A 13; M; A 29; M; A 15; M; A 8; M; 
R 13; R 4; A 4; M; A 13; M; A 20; M; A 2; M; R 4; A 4; M; A 19; M; A 63; M; A 55; M; R 4; R 20; R 7; R 1; A 
1; M; A 7; M; A 20; M; A 4; M; R 1; A 1; M; A 68; M; A 69; M; A 70; M; R 1; R 20; A 20; M; A 1; M; A 71; M; A 
72; M; R 20; A 20; M; A 73; M; A 74; M; A 75; M; R 20; R 71; R 4; R 7; R 8; R 15; R 29; A 29; M; A 15; M; A 
8; M; A 7; M; R 29; A 29; M; A 4; M; A 71; M; A 20; M; R 29; R 8; A 8; M; A 29; M; A 76; M; A 77; M; R 8; A 
8; M; A 78; M; A 79; M; A 80; M; R 8; R 76; R 7; R 15; A 15; M; A 7; M; A 76; M; A 8; M; R 15; A 15; M; A 81; 
M; A 82; M; A 83; M; R 15; R 76; A 76; M; A 15; M; A 84; M; A 85; M; R 76; A 76; M; A 86; M; A 87; M; A 88; M].

Theorem C27_degree_array_refuted : exists n cap D fuel h ks (os : list (fop Z)),
  D = 8 /\ cap < 2 ^ (D - 1) /\ n < 2 ^ (D - 1) /\ 2 * cap + D + 1 < Z.of_nat fuel /\ fnbr h = n + 1 /\ legals Z.sub n cap [] os /\
  frun fuel Z.sub D h ks os = UB.
Proof.
  exists 88, 88, 8, 300%nat, (ex_fibo_heap 88), (fun _ => 0), ex_fibo_over.
  split; [reflexivity|]. split; [vm_compute; reflexivity|]. split; [vm_compute; reflexivity|]. split; [vm_compute; reflexivity|]. split; [reflexivity|]. split; [apply legalb_ok|]; vm_compute; reflexivity.
Qed.
Print Assumptions C27_degree_array_refuted.
