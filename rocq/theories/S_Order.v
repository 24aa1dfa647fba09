(** Specification of orderings. *)
From Verif Require Import Base M_Order.

(** Column blocks: the leaves of the tree, from left to right, given by their sizes *)
Fixpoint leaves (t : cblk) : list Z :=
  let 'Cblk _ v _ tab := t in match tab with None => [v] | Some l => flat_map leaves l end.
(** Number of nodes of the tree *)
Fixpoint nnodes (t : cblk) : Z :=
  let 'Cblk _ _ _ tab := t in match tab with None => 1 | Some l => 1 + fold_right (fun c a => nnodes c + a) 0 l end.
Definition vsum (l : list cblk) : Z := fold_right (fun c a => c_vnod c + a) 0 l.

(** Consistent tree: leaves are not empty; a nested dissection node has two or
    three sons, other nodes at least one; sizes add up *)
Fixpoint tree_ok (t : cblk) : Prop :=
  let 'Cblk typ vnod cnbr tab := t in
  match tab with
  | None => typ = ORDERCBLKLEAF /\ 1 <= vnod /\ cnbr = 0
  | Some l =>
      (typ = ORDERCBLKNEDI /\ (cnbr = 2 \/ cnbr = 3) \/ (typ = ORDERCBLKDICO \/ typ = ORDERCBLKSEQU) /\ 1 <= cnbr) /\
      1 <= vnod /\ zlen l = cnbr /\ vnod = vsum l /\ fold_right (fun c P => tree_ok c /\ P) True l
  end.
(** Arrays of sons have the recorded number of cells *)
Fixpoint tree_readable (t : cblk) : Prop :=
  let 'Cblk _ _ cnbr tab := t in
  match tab with
  | None => True
  | Some l => zlen l = Z.max 0 cnbr /\ fold_right (fun c P => tree_readable c /\ P) True l
  end.

(** Valid ordering: a permutation of the vertex range, and a consistent tree
    covering all the vertices, with the recorded numbers of blocks and nodes *)
Record order_valid (o : order) : Prop := {
  ov_perm : perm_range (o_base o) (o_vnod o) (firstn (Z.to_nat (o_vnod o)) (o_peri o));
  ov_tree : tree_ok (o_tree o);
  ov_vnod : c_vnod (o_tree o) = o_vnod o;
  ov_cblk : o_cblknbr o = zlen (leaves (o_tree o));
  ov_treenbr : o_treenbr o = nnodes (o_tree o) }.

(** Fathers of the blocks of a subtree whose first block is number [lo] and
    whose father is block [fa]: the sons of a nested dissection node which has a
    separator have the last block of the separator as father; the blocks of a
    sequence have the last block of the next element as father; the father of
    all other sons is that of their node. *)
Fixpoint fathers (t : cblk) (lo fa : Z) : list Z :=
  let 'Cblk typ _ _ tab := t in
  match tab with
  | None => [fa]
  | Some l =>
      let indep := fix indep (l : list cblk) (lo fa : Z) : list Z :=
        match l with [] => [] | c :: l' => fathers c lo fa ++ indep l' (lo + zlen (leaves c)) fa end in
      let chain := fix chain (l : list cblk) (lo fa : Z) : list Z :=
        match l with
        | [] => []
        | c :: l' => fathers c lo (match l' with [] => fa | d :: _ => lo + zlen (leaves c) + zlen (leaves d) - 1 end) ++ chain l' (lo + zlen (leaves c)) fa
        end in
      if typ =? ORDERCBLKSEQU then chain l lo fa
      else if typ =? ORDERCBLKNEDI then
        match l with
        | [c0; c1; c2] =>
            let top := lo + zlen (leaves c0) + zlen (leaves c1) + zlen (leaves c2) - 1 in
            fathers c0 lo top ++ fathers c1 (lo + zlen (leaves c0)) top ++ fathers c2 (lo + zlen (leaves c0) + zlen (leaves c1)) fa
        | _ => indep l lo fa
        end
      else indep l lo fa
  end.

(** Block [c] (numbered from 0) holds position [p] of the ordering: blocks are
    consecutive, in the order of the leaves *)
Definition in_block (o : order) (p c : Z) : Prop :=
  0 <= c < zlen (leaves (o_tree o)) /\
  o_base o + fold_right Z.add 0 (firstn (Z.to_nat c) (leaves (o_tree o))) <= p
    < o_base o + fold_right Z.add 0 (firstn (Z.to_nat (c + 1)) (leaves (o_tree o))).

(** Text made of [f i] for every [i] of [lo, hi) *)
Definition lines (f : Z -> list Z) (lo hi : Z) : list Z := flat_map f (zseq lo (hi - lo)).
