(** Specification of target architectures.  A domain denotes the set of the
    terminal (processor) numbers it contains; everything is stated about that
    set. *)
From Verif Require Import Base M_Int S_Int M_Arch.

(** [P] has exactly [n] elements. *)
Definition card (P : Z -> Prop) (n : Z) : Prop :=
  exists l, NoDup l /\ (forall t, In t l <-> P t) /\ zlen l = n.

Section Spec.
Context {D : Type} (N : Z).          (* number of terminals, 0 .. N-1 *)
Context (wf : D -> Prop).            (* domains that belong to the architecture *)
Context (mem : D -> Z -> Prop).      (* terminals of a domain *)

(** The first domain is the whole architecture. *)
Definition frst_ok (frst : res D) : Prop :=
  exists d, frst = Ok d /\ wf d /\ forall t, mem d t <-> 0 <= t < N.

(** The size of a domain is the number of its terminals, at least one. *)
Definition size_ok (size : D -> res Z) : Prop :=
  forall d, wf d -> exists n, size d = Ok n /\ 1 <= n /\ card (mem d) n.

(** Bipartitioning: refused on single terminals; otherwise two domains of the
    architecture that share nothing and together make up the domain. *)
Definition bipart_ok (bip : D -> res (D * D)) : Prop :=
  forall d n, wf d -> card (mem d) n ->
    (n = 1 -> bip d = Err 1) /\
    (1 < n -> exists d0 d1, bip d = Ok (d0, d1) /\ wf d0 /\ wf d1 /\
       (forall t, mem d t <-> mem d0 t \/ mem d1 t) /\ (forall t, mem d0 t -> mem d1 t -> False)).

(** Terminal lookup: the domain holding just that terminal, whose number is
    the one asked for; numbers past the end are refused. *)
Definition term_ok (term : Z -> res D) (num : D -> res Z) : Prop :=
  (forall t, 0 <= t < N -> exists d, term t = Ok d /\ wf d /\ (forall t', mem d t' <-> t' = t) /\ num d = Ok t) /\
  (forall t, N <= t -> term t = Err 1).

(** The number of a domain is its smallest terminal. *)
Definition num_ok (num : D -> res Z) : Prop :=
  forall d, wf d -> exists t, num d = Ok t /\ mem d t /\ forall t', mem d t' -> t <= t'.

(** The number of a domain is the number of one of its terminals. *)
Definition num_in (num : D -> res Z) : Prop :=
  forall d, wf d -> exists t, num d = Ok t /\ mem d t.

(** [incl d0 d1] tells whether [d1] is included in [d0]. *)
Definition incl_ok (incl : D -> D -> res bool) : Prop :=
  forall d0 d1, wf d0 -> wf d1 -> exists b, incl d0 d1 = Ok b /\ (b = true <-> forall t, mem d1 t -> mem d0 t).

(** Distance: defined, not negative, symmetric. *)
Definition dist_sym (dist : D -> D -> res Z) : Prop :=
  forall d0 d1, wf d0 -> wf d1 -> exists x, dist d0 d1 = Ok x /\ dist d1 d0 = Ok x /\ 0 <= x.

(** Distance between the domains of two terminals. *)
Definition dist_term (term : Z -> res D) (dist : D -> D -> res Z) (f : Z -> Z -> Z) : Prop :=
  forall t0 t1 d0 d1, 0 <= t0 < N -> 0 <= t1 < N -> term t0 = Ok d0 -> term t1 = Ok d1 ->
    dist d0 d1 = Ok (f t0 t1).

(** Saved text, wherever it is in a file, is read back as the same domain; the
    reader stops at the blank which ends it.  [fits] tells which domains have
    coordinates representable in the integer type. *)
Definition saveload_ok (fits : D -> Prop) (save : D -> stream) (load : stream -> res (D * stream)) : Prop :=
  forall d ws rest, wf d -> fits d -> Forall blank_char ws -> load (ws ++ save d ++ rest) = Ok (d, 32 :: rest).

(** Recursive bipartitioning down to terminals ([fuel] bounds the depth). *)
Fixpoint expand (bip : D -> res (D * D)) (fuel : nat) (d : D) : res (list D) :=
  match fuel with
  | O => Fuel
  | S f => match bip d with
           | Err 1 => Ok [d]
           | Err e => Err e
           | UB => UB
           | Fuel => Fuel
           | Ok (d0, d1) => do l0 <- expand bip f d0; do l1 <- expand bip f d1; Ok (l0 ++ l1)
           end
  end.

(** Recursive bipartitioning of a domain of [n] terminals ends within [n] levels,
    with exactly one single-terminal domain per terminal of the domain. *)
Definition expand_ok (bip : D -> res (D * D)) : Prop :=
  forall d n fuel, wf d -> card (mem d) n -> n <= Z.of_nat fuel ->
    exists ds ts, expand bip fuel d = Ok ds /\ Forall2 (fun d' t => wf d' /\ forall t', mem d' t' <-> t' = t) ds ts /\
      NoDup ts /\ forall t, In t ts <-> mem d t.
End Spec.

(** ** Complete graph of [n] terminals: the domain [(min, nbr)] has terminals
    [min .. min+nbr-1] *)
Definition interval (a n t : Z) : Prop := a <= t < a + n.
Definition cwf (n : Z) (d : cdom) : Prop := 0 <= c_min d /\ 1 <= c_nbr d /\ c_min d + c_nbr d <= n.
Definition cmem (d : cdom) : Z -> Prop := interval (c_min d) (c_nbr d).

(** ** Hypercube of dimension [n]: the low [cur] bits are free, the others are
    those of [bits] *)
Definition hwf (n : Z) (d : hdom) : Prop :=
  0 <= h_cur d <= n /\ 0 <= h_bits d < 2 ^ n /\ h_bits d mod 2 ^ h_cur d = 0.
Definition hmem (d : hdom) : Z -> Prop := interval (h_bits d) (2 ^ h_cur d).

(** Number of bits, of rank [lo] to [hi]-1, on which two numbers differ *)
Definition hamming (lo hi a b : Z) : Z := zcount lo hi (fun k => xorb (Z.testbit a k) (Z.testbit b k)).

(** ** Meshes: coordinates of terminal [t] in a grid of dimensions [c], first
    coordinate varying fastest *)
Fixpoint coords (c : list Z) (t : Z) : list Z :=
  match c with [] => [] | c0 :: c' => t mod c0 :: coords c' (t / c0) end.
Fixpoint prod (c : list Z) : Z := match c with [] => 1 | c0 :: c' => c0 * prod c' end.
Fixpoint sum2 (f : Z -> Z -> Z) (x y : list Z) : Z :=
  match x, y with x0 :: x', y0 :: y' => f x0 y0 + sum2 f x' y' | _, _ => 0 end.
(** a domain is a box: one range per dimension *)
Definition mwf (c : list Z) (d : mdom) : Prop := Forall2 (fun n b => 0 <= fst b <= snd b /\ snd b < n) c d.
Definition box (x : list Z) (d : mdom) : Prop := Forall2 (fun x b => fst b <= x <= snd b) x d.
Definition mmem (c : list Z) (d : mdom) (t : Z) : Prop := 0 <= t < prod c /\ box (coords c t) d.
(** length of a shortest path in the grid *)
Definition manhattan (c : list Z) (t0 t1 : Z) : Z := sum2 (fun x y => Z.abs (x - y)) (coords c t0) (coords c t1).
(** length of a shortest path in the torus *)
Fixpoint toric (c : list Z) (t0 t1 : Z) : Z :=
  match c with
  | [] => 0
  | c0 :: c' => Z.min (Z.abs (t0 mod c0 - t1 mod c0)) (c0 - Z.abs (t0 mod c0 - t1 mod c0)) + toric c' (t0 / c0) (t1 / c0)
  end.

(** ** Tree leaves: cost of the links climbed from terminals [t0] and [t1] to
    their closest common ancestor, for a tree given from the root down as a
    list of (arity, link cost): a terminal is found under the child of number
    [t / (number of terminals per child)] *)
Fixpoint leaves (tr : list (Z * Z)) : Z := match tr with [] => 1 | (n, _) :: tr' => n * leaves tr' end.
Fixpoint linksum (tr : list (Z * Z)) : Z := match tr with [] => 0 | (_, w) :: tr' => w + linksum tr' end.
Fixpoint leafdist (tr : list (Z * Z)) (t0 t1 : Z) : Z :=
  match tr with
  | [] => 0
  | (_, w) :: tr' =>
      if t0 / leaves tr' =? t1 / leaves tr' then leafdist tr' (t0 mod leaves tr') (t1 mod leaves tr')
      else w + linksum tr'
  end.

(** ** Variable-sized architectures: the domains are the nodes of an infinite
    binary tree, numbered 1 for the root, [2n] and [2n+1] for the sons of [n].
    [descends n m] : node [m] is [n] or below it. *)
Definition descends (n m : Z) : Prop := exists k, 0 <= k /\ n * 2 ^ k <= m < (n + 1) * 2 ^ k.
Definition vwf (d : vdom) : Prop := 1 <= v_num d /\ v_lvl d = Z.log2 (v_num d).

(** ** Tree-leaf architectures.  What the loader accepts: at least two sons per
    node, positive link costs, number of terminals = number of leaves. *)
Definition tleaf_ok (a : tleaf) : Prop :=
  zlen (t_link a) = zlen (t_size a) /\ Forall (fun n => 2 <= n) (t_size a) /\ Forall (fun w => 1 <= w) (t_link a) /\
  t_termnbr a = prod (t_size a).
(** number of terminals below a node of level [l] *)
Definition tblk (a : tleaf) (l : Z) : Z := prod (skipn (Z.to_nat l) (t_size a)).
(** A domain is the whole tree, or some but not all sons of some node: sons
    [min .. min+nbr-1], nodes of a level being numbered from left to right *)
Definition twf (a : tleaf) (d : tdom) : Prop :=
  (d_levl d = 0 /\ d_min d = 0 /\ d_nbr d = 1) \/
  (1 <= d_levl d <= zlen (t_size a) /\
   let s := at_ 0 (t_size a) (d_levl d - 1) in
   1 <= d_nbr d < s /\
   exists p, 0 <= p < prod (firstn (Z.to_nat (d_levl d - 1)) (t_size a)) /\ p * s <= d_min d /\ d_min d + d_nbr d <= (p + 1) * s).
Definition tmem (a : tleaf) (d : tdom) : Z -> Prop :=
  interval (d_min d * tblk a (d_levl d)) (d_nbr d * tblk a (d_levl d)).
Definition ttree (a : tleaf) : list (Z * Z) := combine (t_size a) (t_link a).

(** Labelled tree leaves: terminals are renumbered within blocks of [P]
    consecutive ones by a permutation. [lpos] is the rank of the leaf which
    bears a label. *)
Definition ltleaf_ok (a : tleaf) : Prop :=
  tleaf_ok a /\ let P := zlen (t_perm a) in
  1 <= P /\ (P | t_termnbr a) /\ zlen (t_peri a) = P /\
  (forall i, 0 <= i < P -> 0 <= at_ 0 (t_perm a) i < P /\ at_ 0 (t_peri a) (at_ 0 (t_perm a) i) = i).
Definition lmem (a : tleaf) (d : tdom) (t : Z) : Prop :=
  0 <= t < t_termnbr a /\ exists q, tmem a d q /\ t = q - q mod zlen (t_perm a) + at_ 0 (t_perm a) (q mod zlen (t_perm a)).
