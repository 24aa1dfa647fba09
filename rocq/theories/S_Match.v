(** Specification of matchings. *)
From Verif Require Import Base M_Graph S_Graph S_Color.

Section Match.
Context (g : graph) (mate : list Z).
Let mt (v : Z) : Z := at_ (baseval g) mate v.

(** every vertex has one mate, possibly itself, and is the mate of its mate *)
Definition is_matching : Prop :=
  zlen mate = vertnbr g /\ forall v, isvert g v -> isvert g (mt v) /\ mt (mt v) = v.

(** number of groups (pairs and singletons): one per vertex not above its mate *)
Definition groups : Z := zcount (baseval g) (vertnnd g) (fun v => v <=? mt v).
End Match.

(** same value in the array, if there is one *)
Definition same (b : Z) (t : option (list Z)) (v w : Z) : Prop :=
  forall l, t = Some l -> at_ b l v = at_ b l w.

Definition isolated (g : graph) (v : Z) : Prop := isvert g v /\ forall e, ~ arc g v e.

(** arrays of one value per vertex *)
Definition per_vertex (g : graph) (t : option (list Z)) : Prop := forall l, t = Some l -> vertnbr g <= zlen l.

(** Greedy matching.  [pairs] lists the groups in the order in which they are
    made, as (chooser, chosen).  [ok v w] says that [v] and [w] may be grouped.
    When [p] chooses, the candidates are the vertices of no earlier group. *)
Definition free (pairs : list (Z * Z)) (v : Z) : Prop := forall p q, In (p, q) pairs -> v <> p /\ v <> q.

Definition greedy_choice (g : graph) (nomerge : bool) (ok : Z -> Z -> Prop) (before : list (Z * Z)) (p q : Z) : Prop :=
  isvert g p /\ isvert g q /\ free before p /\ free before q /\
  ((* an isolated vertex stays alone if merging is off, else takes any candidate, itself as a last resort *)
   (isolated g p /\ (nomerge = true -> q = p) /\ (q = p \/ ok p q) /\
     (nomerge = false -> q = p -> forall w, isvert g w -> free before w -> ok p w -> w = p)) \/
   (* else it takes the candidate neighbour over a heaviest edge, itself if none *)
   (~ isolated g p /\ q = p /\ forall e, arc g p e -> free before (edge g e) -> ~ ok p (edge g e)) \/
   (exists e, arc g p e /\ edge g e = q /\ ok p q /\
     forall e', arc g p e' -> free before (edge g e') -> ok p (edge g e') -> edlo g e' <= edlo g e)).

Definition greedy (g : graph) (nomerge : bool) (ok : Z -> Z -> Prop) (pairs : list (Z * Z)) : Prop :=
  (forall before p q after, pairs = before ++ (p, q) :: after -> greedy_choice g nomerge ok before p q) /\
  (forall v, isvert g v -> ~ free pairs v).

(** which vertices may be grouped: same old part; same fixed value as soon as
    there are fixed vertices or old parts *)
Definition may_group (g : graph) (fix_ par : option (list Z)) (vfixnbr : Z) (v w : Z) : Prop :=
  same (baseval g) par v w /\ (0 < vfixnbr \/ par <> None -> same (baseval g) fix_ v w).
