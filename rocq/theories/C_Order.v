(** Properties C19, C20, C21, C41 and C42: orderings. *)
From Verif Require Import Base M_Int M_Order S_Int S_Order P_Int P_Order P_Order2.

(** C19: direct and inverse permutations.  Both bases are free. *)
Theorem C19_orderPeri :
  forall permtab pb n peritab ib, 0 <= n <= zlen permtab -> n <= zlen peritab -> perm_range pb n (firstn (Z.to_nat n) permtab) ->
    exists t, orderPeri permtab pb n peritab ib = Ok t /\ zlen t = zlen peritab /\
      (forall k, 0 <= k < n -> at_ 0 t (at_ 0 permtab k - pb) = k + ib) /\
      (forall j, 0 <= j < n -> ib <= at_ 0 t j < ib + n /\ at_ 0 permtab (at_ 0 t j - ib) = j + pb) /\
      (forall j, n <= j < zlen peritab -> at_ 0 t j = at_ 0 peritab j) /\
      perm_range ib n (firstn (Z.to_nat n) t).
Proof. exact orderPeri_spec. Qed.
Print Assumptions C19_orderPeri.

(** C19: inverting twice gives the permutation back. *)
Theorem C19_orderPeri_twice :
  forall permtab b n j1 j2, 0 <= n <= zlen permtab -> n <= zlen j1 -> n <= zlen j2 -> perm_range b n (firstn (Z.to_nat n) permtab) ->
    exists t u, orderPeri permtab b n j1 b = Ok t /\ orderPeri t b n j2 b = Ok u /\ forall k, 0 <= k < n -> at_ 0 u k = at_ 0 permtab k.
Proof.
  intros permtab b n j1 j2 H1 H2 H3 HP. destruct (orderPeri_spec permtab b n j1 b H1 H2 HP) as (t & E & Z1 & A1 & A2 & A3 & A4). destruct (orderPeri_spec t b n j2 b ltac:(lia) H3 A4) as (u & E' & Z2 & B1 & B2 & B3 & B4).
  exists t, u. split; [auto|]. split; [auto|]. intros k Hk. pose proof (proj1 (perm_first b n permtab H1) HP) as (Hr & _). specialize (Hr k Hk).
  specialize (A1 k Hk). assert (Hw : 0 <= at_ 0 permtab k - b < n) by lia. specialize (B1 _ Hw). rewrite A1 in B1. replace (k + b - b) with k in B1 by lia. lia.
Qed.
Print Assumptions C19_orderPeri_twice.

Example C19_example : orderPeri [3; 1; 4; 2] 1 4 [0; 0; 0; 0; 7] 1 = Ok [2; 4; 1; 3; 7] /\ perm_range 1 4 (firstn 4 [3; 1; 4; 2]).
Proof. split; [reflexivity|]. apply perm_range_intro; [reflexivity | | ].
  - intros i Hi. assert (H : i = 0 \/ i = 1 \/ i = 2 \/ i = 3) by lia. destruct H as [->|[->|[->| ->]]]; vm_compute; split; congruence.
  - repeat constructor; cbn; intuition lia.
Qed.

(** C20 *)
Theorem C20_orderCheck :
  forall o, o_vnod o <= zlen (o_peri o) -> tree_readable (o_tree o) -> (orderCheck o = Ok tt <-> order_valid o).
Proof. intros o Hz R. split; [now apply orderCheck_sound | now apply orderCheck_complete]. Qed.
Print Assumptions C20_orderCheck.

(** C20: the check never reads out of bounds: it accepts or reports an error. *)
Theorem C20_orderCheck_total :
  forall o, o_vnod o <= zlen (o_peri o) -> tree_readable (o_tree o) -> orderCheck o = Ok tt \/ orderCheck o = Err 1.
Proof. exact orderCheck_total. Qed.
Print Assumptions C20_orderCheck_total.

(** A tree with nested dissection, a sequence and components *)
Definition extree : cblk :=
  Cblk ORDERCBLKNEDI 7 3 (Some [
    Cblk ORDERCBLKNEDI 3 3 (Some [Cblk ORDERCBLKLEAF 1 0 None; Cblk ORDERCBLKLEAF 1 0 None; Cblk ORDERCBLKLEAF 1 0 None]);
    Cblk ORDERCBLKDICO 2 2 (Some [Cblk ORDERCBLKLEAF 1 0 None; Cblk ORDERCBLKLEAF 1 0 None]);
    Cblk ORDERCBLKSEQU 2 2 (Some [Cblk ORDERCBLKLEAF 1 0 None; Cblk ORDERCBLKLEAF 1 0 None])]).
Definition exorder : order := mkorder 1 7 11 7 extree [2; 4; 3; 6; 7; 1; 5].
Example C20_example : o_vnod exorder <= zlen (o_peri exorder) /\ tree_readable (o_tree exorder) /\ orderCheck exorder = Ok tt /\ order_valid exorder.
Proof.
  assert (A : o_vnod exorder <= zlen (o_peri exorder)) by (vm_compute; discriminate).
  assert (B : tree_readable (o_tree exorder)) by (cbn; repeat split).
  assert (C : orderCheck exorder = Ok tt) by reflexivity. repeat (split; [assumption|]). now apply C20_orderCheck.
Qed.
Example C20_reject : orderCheck (mkorder 1 7 11 7 extree [2; 4; 3; 6; 7; 1; 2]) = Err 1 /\ orderCheck (mkorder 1 7 11 6 extree [2; 4; 3; 6; 7; 1; 5]) = Err 1.
Proof. split; reflexivity. Qed.

(** C21: one range per column block. *)
Theorem C21_orderRang :
  forall o rangtab, order_valid o -> o_cblknbr o + 1 <= zlen rangtab ->
    exists rang, orderRang o rangtab = Ok rang /\ zlen rang = zlen rangtab /\
      at_ 0 rang 0 = o_base o /\ at_ 0 rang (o_cblknbr o) = o_base o + o_vnod o /\
      (forall k, 0 <= k < o_cblknbr o -> at_ 0 rang k < at_ 0 rang (k + 1) /\ at_ 0 rang (k + 1) - at_ 0 rang k = at_ 0 (leaves (o_tree o)) k) /\
      (forall k, o_cblknbr o < k < zlen rangtab -> at_ 0 rang k = at_ 0 rangtab k).
Proof.
  intros o rangtab V Hz. pose proof (ov_cblk _ V) as Ec. destruct (orderRang_at o rangtab (ov_tree _ V) ltac:(lia)) as (rang & E & Zr & R0 & Rn & Rs & Ru).
  destruct (leaves_pos _ (ov_tree _ V)) as (_ & La). rewrite Forall_forall in La. rewrite Ec. exists rang. rewrite <- (ov_vnod _ V). repeat (split; [assumption|]). split; [|assumption].
  intros k Hk. rewrite (Rs k Hk). assert (1 <= at_ 0 (leaves (o_tree o)) k) by (apply La, at_In; lia). lia.
Qed.
Print Assumptions C21_orderRang.

(** C21: separator tree. *)
Theorem C21_orderTree :
  forall o treetab, order_valid o -> o_cblknbr o <= zlen treetab ->
    exists tree, orderTree o treetab = Ok tree /\ zlen tree = zlen treetab /\
      (forall i, o_base o <= i < o_base o + o_cblknbr o ->
        at_ (o_base o) tree i = at_ (o_base o) (fathers (o_tree o) (o_base o) (-1)) i /\
        (at_ (o_base o) tree i = -1 \/ i < at_ (o_base o) tree i < o_base o + o_cblknbr o)) /\
      (forall i, o_base o + o_cblknbr o <= i < o_base o + zlen treetab -> at_ (o_base o) tree i = at_ (o_base o) treetab i).
Proof.
  intros o treetab V Hz. pose proof (ov_cblk _ V) as Ec. rewrite (orderTree_spec o treetab (ov_tree _ V) Ec Hz). eexists. split; [reflexivity|].
  assert (F : zlen (fathers (o_tree o) (o_base o) (-1)) = zlen (leaves (o_tree o))) by apply zlen_fathers. pose proof (zlen_nonneg (leaves (o_tree o))).
  split; [rewrite zlen_blit; lia|]. split.
  - intros i Hi. rewrite at_blit by lia. replace ((o_base o <=? i) && (i <? o_base o + zlen (fathers (o_tree o) (o_base o) (-1)))) with true by lia. split; [reflexivity|].
    rewrite Ec in *. apply fathers_range; [apply (ov_tree _ V) | lia].
  - intros i Hi. rewrite at_blit by lia. replace ((o_base o <=? i) && (i <? o_base o + zlen (fathers (o_tree o) (o_base o) (-1)))) with false by lia. reflexivity.
Qed.
Print Assumptions C21_orderTree.

(** C21: consequently the last block is a root. *)
Theorem C21_orderTree_root :
  forall o treetab tree, order_valid o -> o_cblknbr o <= zlen treetab -> orderTree o treetab = Ok tree -> at_ (o_base o) tree (o_base o + o_cblknbr o - 1) = -1.
Proof.
  intros o treetab tree V Hz E. destruct (C21_orderTree o treetab V Hz) as (tree' & E' & _ & A & _). rewrite E in E'. injection E' as <-.
  destruct (leaves_pos _ (ov_tree _ V)) as (Lp & _). pose proof (ov_cblk _ V). destruct (A (o_base o + o_cblknbr o - 1) ltac:(lia)) as (_ & [|]); [auto | lia].
Qed.
Print Assumptions C21_orderTree_root.

Example C21_example : orderRang exorder (repeat 0 8) = Ok [1; 2; 3; 4; 5; 6; 7; 8] /\ orderTree exorder (repeat 0 7) = Ok [3; 3; 7; 7; 7; 7; -1].
Proof. split; reflexivity. Qed.

(** C41: a saved ordering is loaded back.  The ordering loaded into has the
    same base and room for the vertices; the last line end is left unread. *)
Theorem C41_orderSave_orderLoad :
  forall imax o o' junk junk' rest,
    9 <= imax -> 0 <= o_base o -> o_base o + o_vnod o <= imax -> 0 <= o_vnod o <= zlen (o_peri o) -> o_vnod o <= zlen junk -> o_vnod o <= zlen junk' ->
    perm_range (o_base o) (o_vnod o) (firstn (Z.to_nat (o_vnod o)) (o_peri o)) ->
    o_base o' = o_base o -> o_vnod o <= zlen (o_peri o') ->
    exists out r, orderSave o None junk = Ok out /\ orderLoad imax o' false junk' (out ++ rest) = Ok (r, 10 :: rest) /\
      o_base r = o_base o /\ o_vnod r = o_vnod o /\
      o_tree r = o_tree o' /\ o_treenbr r = o_treenbr o' /\ o_cblknbr r = o_cblknbr o' /\ zlen (o_peri r) = zlen (o_peri o') /\
      (forall k, 0 <= k < o_vnod o -> at_ 0 (o_peri r) k = at_ 0 (o_peri o) k).
Proof.
  intros imax o o' junk junk' rest H1 H2 H3 H4 H5 H6 HP H7 H8. destruct (orderSave_spec o junk H4 H5 HP) as (perm & _ & _ & _ & E & _). eexists. 
  destruct (orderLoad_save imax o o' junk junk' _ rest H1 H2 H3 H4 H5 H6 HP E H7 H8) as (r & Er & R). exists r. split; [exact E|]. split; [exact Er | exact R].
Qed.
Print Assumptions C41_orderSave_orderLoad.

(** C41: contents of the file: one line per vertex, with its position. *)
Theorem C41_orderSave :
  forall o junk, 0 <= o_vnod o <= zlen (o_peri o) -> o_vnod o <= zlen junk ->
    perm_range (o_base o) (o_vnod o) (firstn (Z.to_nat (o_vnod o)) (o_peri o)) ->
    exists perm, zlen perm = zlen junk /\
      (forall p, 0 <= p < o_vnod o -> at_ 0 perm (at_ 0 (o_peri o) p - o_base o) = p + o_base o) /\
      perm_range (o_base o) (o_vnod o) (firstn (Z.to_nat (o_vnod o)) perm) /\
      orderSave o None junk = Ok (line1 (o_vnod o) ++ lines (fun v => line2 (v + o_base o) (at_ 0 perm v)) 0 (o_vnod o)) /\
      (forall t, o_vnod o <= zlen t -> orderSave o (Some t) junk = Ok (line1 (o_vnod o) ++ lines (fun v => line2 (at_ 0 t v) (at_ (o_base o) t (at_ 0 perm v))) 0 (o_vnod o))).
Proof. exact orderSave_spec. Qed.
Print Assumptions C41_orderSave.

Example C41_example : exists out r, orderSave exorder None (repeat 0 7) = Ok out /\ orderLoad 2147483647 (orderInit 1 7 (repeat 0 7)) false (repeat 0 7) out = Ok (r, [10]) /\ o_peri r = o_peri exorder.
Proof. eexists. eexists. split; [reflexivity|]. split; reflexivity. Qed.

(** C41: a file is not checked against the ordering it is loaded into: a count
    larger than the number of vertices makes the loading write past the array
    (order_io.c:91-111), and a value out of range is used as an index
    (order_io.c:117, order.c:168).  Text "2\n0\t0\n1\t1\n" into one vertex, and
    text "1\n0\t5\n". *)
Theorem C41_orderLoad_unchecked_refuted :
  exists o junk s1 s2, o_vnod o = zlen junk /\ zlen (o_peri o) = zlen junk /\ orderCheck o = Ok tt /\
    orderLoad 2147483647 o false junk s1 = UB /\ orderLoad 2147483647 o false junk s2 = UB.
Proof.
  exists (orderInit 0 1 [0]), [0], [50; 10; 48; 9; 48; 10; 49; 9; 49; 10], [49; 10; 48; 9; 53; 10]. repeat split; reflexivity.
Qed.
Print Assumptions C41_orderLoad_unchecked_refuted.

(** C42: mapping file: each vertex is listed, in increasing order, with the
    number of the block holding it. *)
Theorem C42_orderSaveMap :
  forall o vlbl j1 j2, order_valid o -> o_vnod o <= zlen (o_peri o) -> zlen (leaves (o_tree o)) + 1 <= zlen j1 -> o_vnod o <= zlen j2 ->
    (forall lt, vlbl = Some lt -> o_vnod o <= zlen lt) ->
    exists t, orderSaveMap o vlbl j1 j2 = Ok (line1 (o_vnod o) ++ lines (fun v => line2 (match vlbl with Some lt => at_ (o_base o) lt v | None => v end) (at_ (o_base o) t v)) (o_base o) (o_base o + o_vnod o)) /\
      forall p, o_base o <= p < o_base o + o_vnod o -> in_block o p (at_ (o_base o) t (at_ (o_base o) (o_peri o) p)).
Proof. exact orderSaveMap_spec. Qed.
Print Assumptions C42_orderSaveMap.

(** C42: tree file: each vertex is listed with the father of its block. *)
Theorem C42_orderSaveTree :
  forall o vlbl j1 j2 j3, order_valid o -> o_vnod o <= zlen (o_peri o) -> zlen (leaves (o_tree o)) + 1 <= zlen j1 -> o_cblknbr o <= zlen j2 -> o_vnod o <= zlen j3 ->
    (forall lt, vlbl = Some lt -> o_vnod o <= zlen lt) ->
    exists t, orderSaveTree o vlbl j1 j2 j3 = Ok (line1 (o_vnod o) ++ lines (fun v => line2 (match vlbl with Some lt => at_ (o_base o) lt v | None => v end) (at_ (o_base o) t v)) (o_base o) (o_base o + o_vnod o)) /\
      forall p, o_base o <= p < o_base o + o_vnod o -> exists c, in_block o p c /\ at_ (o_base o) t (at_ (o_base o) (o_peri o) p) = at_ 0 (fathers (o_tree o) (o_base o) (-1)) c.
Proof. exact orderSaveTree_spec. Qed.
Print Assumptions C42_orderSaveTree.

(** "7\n" and the vertices 1 to 7 with blocks 5 0 2 1 6 3 4, and with their fathers *)
Example C42_example :
  orderSaveMap exorder None (repeat 0 8) (repeat 0 7) = Ok (line1 7 ++ line2 1 5 ++ line2 2 0 ++ line2 3 2 ++ line2 4 1 ++ line2 5 6 ++ line2 6 3 ++ line2 7 4) /\
  orderSaveTree exorder None (repeat 0 8) (repeat 0 7) (repeat 0 7) = Ok (line1 7 ++ line2 1 7 ++ line2 2 3 ++ line2 3 7 ++ line2 4 3 ++ line2 5 (-1) ++ line2 6 7 ++ line2 7 7).
Proof. split; reflexivity. Qed.
