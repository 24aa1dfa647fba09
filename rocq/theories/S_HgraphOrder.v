(** Specification of graph orderings. *)
From Verif Require Import Base M_Graph M_Vgraph M_Hgraph M_Order M_HgraphOrder S_Graph S_Vgraph S_Hgraph S_Order.
From Coq Require Import Permutation.

(** ** Graphs handled by the ordering routines: valid, without edge loads.  The recorded sum of the edge loads
    is that of the user's graph, and is not constrained. *)
Definition unload (g : graph) : graph :=
  mkgraph (baseval g) (vertnbr g) (vertnnd g) (verttab g) (vendtab g) (velotab g) (velosum g) (vnumtab g) (vlbltab g)
    (edgenbr g) (edgetab g) None (edgenbr g) (degrmax g).
Definition hunload (h : hgraph) : hgraph :=
  mkhgraph (unload (hs h)) (vnohnbr h) (vnohnnd h) (vnhdtab h) (vnlosum h) (enohnbr h) (enohnbr h) (hlevl h).
Definition graph_ok (g : graph) : Prop := edlotab g = None /\ graph_valid (unload g) /\ graph_readable (unload g) /\ 0 <= baseval g.
Definition hgraph_ok (h : hgraph) : Prop := edlotab (hs h) = None /\ hgraph_valid (hunload h).

(** ** Separations: the vertices are split into parts 0 and 1, not adjacent, and a separator *)
Record separation (s : graph) (vg : vgraph) : Prop := {
  sn_graph : vs vg = s;
  sn_lpart : vertnbr s <= zlen (vpart vg);
  sn_lfron : vertnbr s <= zlen (vfron vg);
  sn_part : forall v, isvert s v -> 0 <= part vg v <= 2;
  sn_size0 : vcsz0 vg = psize vg 0;
  sn_size1 : vcsz1 vg = psize vg 1;
  sn_size2 : vfronnbr vg = psize vg 2;
  sn_sep : separated vg }.
(** A separation strategy gives a separation, or fails if [tot] is false *)
Definition sep_good (tot : bool) (sep : vgraph -> res vgraph) : Prop :=
  forall jk s, graph_ok s -> 1 <= vertnbr s ->
    (exists vg, sep (vgraph0 jk s) = Ok vg /\ separation s vg) \/ (tot = false /\ exists e, sep (vgraph0 jk s) = Err e).

(** ** Orderings of subgraphs *)
Definition seg (l : list Z) (o n : Z) : list Z := map (at_ 0 l) (zseq o n).
(** The non-halo vertices of [h] fill [vnohnbr h] positions from [o] on, under their original numbers; no other
    position changes; [cb] is a consistent tree for them, and its blocks and nodes have been counted *)
Record ordered (h : hgraph) (st : ost) (o : Z) (st' : ost) (cb : cblk) : Prop := {
  od_len : zlen (os_peri st') = zlen (os_peri st);
  od_frame : forall i, 0 <= i < zlen (os_peri st) -> ~ (o <= i < o + vnohnbr h) -> at_ 0 (os_peri st') i = at_ 0 (os_peri st) i;
  od_perm : Permutation (seg (os_peri st') o (vnohnbr h)) (map (orgnum (hs h)) (zseq (baseval (hs h)) (vnohnbr h)));
  od_vnod : c_vnod cb = vnohnbr h;
  od_tree : tree_ok cb;
  od_cblk : os_cblk st' = os_cblk st + zlen (leaves cb) - 1;
  od_node : os_tree st' = os_tree st + nnodes cb - 1 }.

(** Tree [t] respects the adjacency [A] of vertices [s], listed by position: independent subtrees are not adjacent,
    and separators are single blocks *)
Definition apart (A : Z -> Z -> Prop) (s s' : list Z) : Prop := forall x y, In x s -> In y s' -> ~ A x y /\ ~ A y x.
Inductive respects (A : Z -> Z -> Prop) : cblk -> list Z -> Prop :=
| rs_leaf v s : zlen s = v -> respects A (leaf v) s
| rs_nedi n c0 c1 v s0 s1 s2 : respects A c0 s0 -> respects A c1 s1 -> apart A s0 s1 -> zlen s2 = v ->
    respects A (Cblk ORDERCBLKNEDI n 3 (Some [c0; c1; leaf v])) (s0 ++ s1 ++ s2)
| rs_indep typ n k cs ss : (typ = ORDERCBLKNEDI /\ k = 2 \/ typ = ORDERCBLKDICO) -> rs_list A cs ss -> ForallOrdPairs (apart A) ss ->
    respects A (Cblk typ n k (Some cs)) (concat ss)
| rs_chain n k l s : fold_right Z.add 0 l = zlen s -> respects A (Cblk ORDERCBLKSEQU n k (Some (map leaf l))) s
with rs_list (A : Z -> Z -> Prop) : list cblk -> list (list Z) -> Prop :=
| rl_nil : rs_list A [] []
| rl_cons c s cs ss : respects A c s -> rs_list A cs ss -> rs_list A (c :: cs) (s :: ss).

(** Vertices of [h] which are adjacent in the original graph are adjacent in [h] *)
Definition faithful (A : Z -> Z -> Prop) (h : hgraph) : Prop :=
  forall u v, baseval (hs h) <= u < vnohnnd h -> baseval (hs h) <= v < vnohnnd h ->
    A (orgnum (hs h) u) (orgnum (hs h) v) -> In v (map fst (nbr (hs h) u)).

(** ** Ordering methods.  [top]: the method is only called from the first position; [tot]: it always succeeds;
    [tr]: its trees respect adjacency; [fl]: it makes a single block *)
Definition orders (top tot tr fl : bool) (m : ometh) : Prop :=
  forall h st o, hgraph_ok h -> 1 <= vnohnbr h -> 0 <= o -> o + vnohnbr h <= zlen (os_peri st) -> (top = true -> o = 0) ->
    exists rc st' cb, m h st o (leaf (vnohnbr h)) = Ok (rc, st', cb) /\
      (rc = 0 -> ordered h st o st' cb /\
         (tr = true -> forall A, faithful A h -> respects A cb (seg (os_peri st') o (vnohnbr h))) /\
         (fl = true -> cb = leaf (vnohnbr h))) /\
      (tot = true -> rc = 0).

(** Strategies.  Conditions must have an alternative.  The strategy for leaves of nested
    dissection must always succeed, since its failures are not reported; connected components are only to be
    looked for in the whole graph. *)
Fixpoint sgood (top tot tr fl : bool) (s : strat) : Prop :=
  match s with
  | SEmpty | SSi => True
  | SConcat | SSelect => tot = false
  | SCond test s els =>
      (tot = true -> forall h, test h <> None) /\ sgood top tot tr fl s /\
      match els with Some s' => sgood top tot tr fl s' | None => False end
  | SNd sep lea ose => fl = false /\ sep_good tot sep /\ sgood false true tr false lea /\ sgood false tot false tr ose
  | SCc s => top = true /\ fl = false /\ sgood false tot tr false s
  | SMeth m => orders top tot tr fl m
  end.

(** ** Arrays of an ordering, as seen by the user: base, number of vertices, inverse and direct permutations, number of blocks,
    ranges of the blocks, fathers of the blocks *)
Record ordering (b n : Z) (peri perm : list Z) (nb : Z) (rang tree : list Z) : Prop := {
  or_perm : forall v, b <= v < b + n -> b <= at_ b perm v < b + n /\ at_ b peri (at_ b perm v) = v;
  or_peri : forall p, b <= p < b + n -> b <= at_ b peri p < b + n /\ at_ b perm (at_ b peri p) = p;
  or_nb : 1 <= nb <= n;
  or_first : at_ b rang b = b;
  or_last : at_ b rang (b + nb) = b + n;
  or_rang : forall c, b <= c < b + nb -> at_ b rang c < at_ b rang (c + 1);
  or_tree : forall c, b <= c < b + nb -> at_ b tree c = -1 \/ c < at_ b tree c < b + nb }.

(** Block [d] is [c] or one of its ancestors *)
Inductive anc (b : Z) (tree : list Z) : Z -> Z -> Prop :=
| anc_refl c : anc b tree c c
| anc_up c d : b <= c -> anc b tree (at_ b tree c) d -> anc b tree c d.
(** Block [c] holds vertex [v] *)
Definition holds (b : Z) (perm rang : list Z) (nb c v : Z) : Prop := b <= c < b + nb /\ at_ b rang c <= at_ b perm v < at_ b rang (c + 1).
