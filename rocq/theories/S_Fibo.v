(** Specification of a priority queue, and of the histories of the Fibonacci heap.
    Nothing here depends on how the heap is represented. *)
From Verif Require Import Base M_Fibo.

(** Comparison routines, in the manner of strcmp, that are total preorders. *)
Record total_preorder {K : Type} (cmp : K -> K -> Z) : Prop := {
  tp_refl : forall x, cmp x x = 0;
  tp_sym : forall x y, cmp x y < 0 <-> cmp y x > 0;
  tp_trans : forall x y z, cmp x y <= 0 -> cmp y z <= 0 -> cmp x z <= 0
}.

(** Calls of the user: the key of the node is written before the call. *)
Inductive fop (K : Type) :=
| FAdd (x : Z) (k : K)   (* fiboHeapAdd *)
| FDel (x : Z)           (* fiboHeapDel *)
| FDecr (x : Z) (k : K)  (* fiboHeapDecrease *)
| FMin                   (* fiboHeapMin *)
| FFree.                 (* fiboHeapFree *)
Arguments FAdd {K} _ _. Arguments FDel {K} _. Arguments FDecr {K} _ _.
Arguments FMin {K}. Arguments FFree {K}.

(** Contents of the queue: the key of every element it holds. *)
Definition queue (K : Type) := list (Z * K).
Definition remq {K} (x : Z) (q : queue K) : queue K := filter (fun e => negb (fst e =? x)) q.

Definition qstep {K} (q : queue K) (o : fop K) : queue K :=
  match o with
  | FAdd x k => (x, k) :: q
  | FDel x => remq x q
  | FDecr x k => (x, k) :: remq x q
  | FMin => q
  | FFree => []
  end.

(** What the caller must respect: the nodes are [1], ..., [n]; no node is inserted
    twice; only nodes of the heap are deleted or decreased; a decreased key does not
    increase; the heap never holds more than [cap] nodes. *)
Definition legal {K} (cmp : K -> K -> Z) (n cap : Z) (q : queue K) (o : fop K) : Prop :=
  match o with
  | FAdd x k => 1 <= x <= n /\ ~ In x (map fst q) /\ zlen q < cap
  | FDel x => In x (map fst q)
  | FDecr x k => exists k0, In (x, k0) q /\ cmp k k0 <= 0
  | FMin | FFree => True
  end.

Fixpoint legals {K} (cmp : K -> K -> Z) (n cap : Z) (q : queue K) (os : list (fop K)) : Prop :=
  match os with [] => True | o :: os' => legal cmp n cap q o /\ legals cmp n cap (qstep q o) os' end.

(** [r], or null, is a right answer to fiboHeapMin. *)
Definition min_of {K} (cmp : K -> K -> Z) (q : queue K) (r : Z) : Prop :=
  (q = [] /\ r = FNULL) \/
  exists k, In (r, k) q /\ forall x k', In (x, k') q -> cmp k k' <= 0.

(** The answers [rs] to the calls of fiboHeapMin in [os] are all right. *)
Fixpoint right_answers {K} (cmp : K -> K -> Z) (q : queue K) (os : list (fop K)) (rs : list Z) : Prop :=
  match os with
  | [] => rs = []
  | FMin :: os' => exists r rs', rs = r :: rs' /\ min_of cmp q r /\ right_answers cmp q os' rs'
  | o :: os' => right_answers cmp (qstep q o) os' rs
  end.

(** The calls, made on the model.  [ks] are the keys currently stored in the nodes. *)
Definition fstep {K} (fuel : nat) (cmp : K -> K -> Z) (st : fheap * (Z -> K)) (o : fop K) : res (fheap * (Z -> K) * list Z) :=
  let '(h, ks) := st in
  let wkey (x : Z) (k : K) := fun y => if y =? x then k else ks y in
  match o with
  | FAdd x k => do h <- fiboHeapAdd h x; Ok (h, wkey x k, [])
  | FDel x => do h <- fiboHeapDel fuel h x; Ok (h, ks, [])
  | FDecr x k => do h <- fiboHeapDecrease fuel (fun a b => cmp (wkey x k a) (wkey x k b)) h x; Ok (h, wkey x k, [])
  | FMin => do ' (h, r) <- fiboHeapMin fuel (fun a b => cmp (ks a) (ks b)) h; Ok (h, ks, [r])
  | FFree => do h <- fiboHeapFree h; Ok (h, ks, [])
  end.

Fixpoint fsteps {K} (fuel : nat) (cmp : K -> K -> Z) (st : fheap * (Z -> K)) (os : list (fop K)) : res (fheap * (Z -> K) * list Z) :=
  match os with
  | [] => Ok (st, [])
  | o :: os' =>
      do ' (st1, r1) <- fstep fuel cmp st o;
      do ' (st2, r2) <- fsteps fuel cmp st1 os';
      Ok (st2, r1 ++ r2)
  end.

(** A whole history, from fiboHeapInit on arbitrary memory. *)
Definition frun {K} (fuel : nat) (cmp : K -> K -> Z) (dmax : Z) (h : fheap) (ks : Z -> K) (os : list (fop K)) : res (fheap * (Z -> K) * list Z) :=
  do h <- fiboHeapInit dmax h;
  fsteps fuel cmp (h, ks) os.

(** Emptying the heap: fiboHeapMin, then fiboHeapDel, until it is empty. *)
Fixpoint drain {K} (fuel : nat) (cmp : K -> K -> Z) (st : fheap * (Z -> K)) (k : nat) : res (list Z) :=
  match k with
  | O => Fuel
  | S k' =>
      do ' (st, rs) <- fstep fuel cmp st FMin;
      match rs with
      | [r] =>
          if r =? FNULL then Ok [] else
          do ' (st, _) <- fstep fuel cmp st (FDel r);
          do l <- drain fuel cmp st k';
          Ok (r :: l)
      | _ => UB
      end
  end.

(** The Fibonacci numbers 1, 2, 3, 5, 8, ...: a node of degree [d] has at least
    [fib2 d] descendants, itself included. *)
Fixpoint fibp (d : nat) : Z * Z :=
  match d with O => (1, 2) | S d' => let '(a, b) := fibp d' in (b, a + b) end.
Definition fib2 (d : nat) : Z := fst (fibp d).
