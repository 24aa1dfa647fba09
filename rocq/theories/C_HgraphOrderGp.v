(** Property theorems: Gibbs-Poole-Stockmeyer ordering. *)
From Verif Require Import Base M_Graph M_Hgraph M_Order M_HgraphOrder M_HgraphOrderGp S_Graph S_Hgraph S_Order S_HgraphOrder S_HgraphOrderGp.
From Verif Require Import P_GraphList P_Hgraph P_HgraphOrder P_HgraphOrder5 P_HgraphOrderGp P_HgraphOrderGp2 C_HgraphOrder C_Graph.

(** C74: the method always succeeds, within any strategy and at any place of it, on the non-halo vertices of any
    halo graph, whatever the number of passes: it may be the method of leaves and separators of nested
    dissection (C46, C47). *)
Theorem C74_method : forall jk passnbr top tot tr fl, orders top tot tr fl (hgraphOrderGp jk passnbr).
Proof. exact gp_good. Qed.
Print Assumptions C74_method.

Lemma linked_conn g (Hn : graph_valid g) u v : isvert g u -> conn (halgraf g) u v <-> linked g u v.
Proof.
  intros Hu. pose proof (gv_nnd _ Hn) as Gn. split.
  - intros C. apply (C (fun x => linked g u x)); [constructor|]. intros x y _ Hx (_ & E). rewrite ends_halgraf in E. now apply (lk_arc g u x y).
  - intros Lk. assert (X : isvert g v /\ conn (halgraf g) u v); [|apply X]. induction Lk as [|x y Lk IH E]; [split; [exact Hu|apply conn_refl]|]. destruct IH as [Hx C]. destruct (ends_sym g x y Hn Hx E) as (Hy & _). split; [exact Hy|].
    apply (conn_step (halgraf g) u x y); [unfold isvert in Hx; change (baseval g <= x < baseval g + vertnbr g); lia|exact C|]. split; [unfold isvert in Hy; change (baseval g <= y < baseval g + vertnbr g); lia|]. rewrite ends_halgraf. exact E.
Qed.

(** C74: SCOTCH_graphOrder with this method succeeds; it gives consistent permutations with a single block, where
    the vertices of each connected component have consecutive positions. *)
Theorem C74_order :
  forall jk al passnbr g perm peri rang tree,
    graph_valid g -> graph_readable g -> 0 <= baseval g -> vnumtab g = None -> 1 <= vertnbr g -> 1 <= al <= 2 ->
    vertnbr g <= zlen perm -> vertnbr g <= zlen peri -> vertnbr g + 1 <= zlen rang -> vertnbr g <= zlen tree ->
    exists peri' perm' rang' tree', graphOrder jk al g (SMeth (hgraphOrderGp jk passnbr)) perm peri rang tree = Ok (0, (peri', perm', 1, rang', tree')) /\
      ordering (baseval g) (vertnbr g) peri' perm' 1 rang' tree' /\ together g perm'.
Proof.
  intros jk al passnbr g perm peri rang tree G R Hb Vn Hn Hal Zp Zq Zr Zt. set (s := SMeth (hgraphOrderGp jk passnbr)).
  destruct (C46_graphOrder_partial jk al g s true true perm peri rang tree G R Hb Vn Hn Hal (gp_good jk passnbr true true true false) Zp Zq Zr Zt) as (rc & peri' & perm' & nb & rang' & tree' & E & Z & O).
  rewrite (Z eq_refl) in *. specialize (O eq_refl).
  destruct (gp_run (halgraf g) (halgraf_ok g G R Hb Vn) Hn jk passnbr (mkost peri 1 1) 0 (leaf (vertnbr g)) ltac:(lia) Zq) as (p1 & l & E1 & _ & _ & Zl & (_ & _ & W) & CP). cbn [os_peri os_cblk os_tree] in *.
  assert (X : nb = 1 /\ peri' = p1).
  { unfold graphOrder, graphOrderComputeList in E. replace (vertnbr g =? 0) with false in E by lia. rewrite Z.eqb_refl in E. cbn [orderInit o_peri o_cblknbr o_treenbr o_tree o_base o_vnod] in E.
    assert (E2 : hgraphOrderSt jk al s (halgraf g) (mkost peri 1 1) 0 (Cblk ORDERCBLKLEAF (vertnbr g) 0 None) = Ok (0, mkost p1 1 1, leaf (vertnbr g))).
    { cbn [hgraphOrderSt s]. change (vnohnbr (halgraf g)) with (vertnbr g). replace (vertnbr g =? 0) with false by lia. exact E1. }
    rewrite E2 in E. cbn [bind Z.eqb negb] in E. destruct (orderArrays _ _ _ _ _) as [[[x y] z]| | |]; cbn [bind] in E; try discriminate. inversion E; subst. auto. }
  destruct X as [-> ->]. exists p1, perm', rang', tree'. split; [exact E|]. split; [exact O|].
  change (vnohnbr (halgraf g)) with (vertnbr g) in Zl. rewrite Zl in W.
  assert (A : forall v, isvert g v -> 0 <= at_ (baseval g) perm' v - baseval g < vertnbr g /\ at_ 0 l (at_ (baseval g) perm' v - baseval g) = v).
  { intros v Hv. pose proof (gv_nnd _ G) as Gn. unfold isvert in Hv. destruct (or_perm _ _ _ _ _ _ _ O v ltac:(lia)) as [P1 P2]. split; [lia|]. set (k := at_ (baseval g) perm' v) in *.
    assert (Wm : map (orgnum (hs (halgraf g))) l = l). { rewrite map_ext_in with (g := fun x => x); [apply map_id|]. intros x _. unfold orgnum. change (vnumtab (hs (halgraf g))) with (vnumtab g). now rewrite Vn. }
    rewrite <- Wm, <- W, at_seg by lia. transitivity (at_ (baseval g) p1 k); [unfold at_; f_equal; lia|exact P2]. }
  intros u v w Hu Hv Hw Hp Lk. destruct (A u Hu) as [U1 U2]. destruct (A v Hv) as [V1 V2]. destruct (A w Hw) as [W1 W2].
  assert (X : conn (halgraf g) (at_ 0 l (at_ (baseval g) perm' u - baseval g)) (at_ 0 l (at_ (baseval g) perm' w - baseval g)) -> conn (halgraf g) (at_ 0 l (at_ (baseval g) perm' u - baseval g)) (at_ 0 l (at_ (baseval g) perm' v - baseval g))) by (apply CP; lia). rewrite U2, V2, W2 in X.
  exact (proj1 (linked_conn g G u v Hu) (X (proj2 (linked_conn g G u w Hu) Lk))).
Qed.
Print Assumptions C74_order.

(** Two paths, 4-0-2-6 and 5-1-3, and an isolated vertex, with interleaved numbers *)
Definition ex_gp : graph := mkgraph 0 8 8 [0; 2; 4; 6; 7; 8; 9; 10; 10] None None 8 None None 10 [2; 4; 3; 5; 0; 6; 1; 0; 1; 2] None 10 2.
Example C74_example :
  graph_valid ex_gp /\ graph_readable ex_gp /\
  graphOrder (-7) 1 ex_gp (SMeth (hgraphOrderGp (-7) 3)) (repeat 0 8) (repeat 0 8) (repeat 0 9) (repeat 0 8) =
    Ok (0, ([4; 0; 2; 6; 5; 1; 3; 7], [1; 5; 2; 6; 0; 4; 3; 7], 1, [0; 8; 0; 0; 0; 0; 0; 0; 0], [-1; 0; 0; 0; 0; 0; 0; 0])) /\
  linked ex_gp 4 6 /\ ~ linked ex_gp 4 1.
Proof.
  split; [apply (C09_graphCheck_sound 100); vm_compute; reflexivity|]. split; [apply (C09_graphCheck_sound 100); vm_compute; reflexivity|].
  split; [vm_compute; reflexivity|]. split.
  - apply (lk_arc _ _ 2); [apply (lk_arc _ _ 0); [apply (lk_arc _ _ 4); [constructor|]|]|]; vm_compute; auto.
  - intros H. assert (X : forall x, linked ex_gp 4 x -> x = 6 \/ x = 2 \/ x = 0 \/ x = 4).
    { intros x Hx. induction Hx as [|v w _ IH E]; [auto|]. destruct IH as [->|[->|[->| ->]]]; vm_compute in E; intuition. }
    apply X in H. lia.
Qed.
