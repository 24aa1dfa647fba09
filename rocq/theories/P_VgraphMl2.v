(** Proofs about multilevel vertex separation: coarsening, and use by nested dissection. *)
From Verif Require Import Base Mem M_Int M_Graph M_Match M_Coarsen M_Vgraph M_VgraphSt S_Graph S_Vgraph S_Color S_Match S_Coarsen S_VgraphSt P_Graph P_Vgraph P_VgraphSt P_VgraphMl C_Coarsen.

Lemma graphMatchSeq_set x stksiz nomerge g f p v : graphMatchSeq stksiz nomerge (setsum x g) f p v = graphMatchSeq stksiz nomerge g f p v.
Proof. reflexivity. Qed.
Lemma coarBuild_set x g mate n :
  coarBuild (setsum x g) mate n = do '(cg, fc, mult) <- coarBuild g mate n; Ok (setsum (edlosum cg - edlosum g + x) cg, fc, mult).
Proof.
  unfold coarBuild. cbv zeta. change (coarMult (setsum x g)) with (coarMult g). change (coarEdges (setsum x g)) with (coarEdges g).
  cbn [setsum degrmax baseval edgenbr velosum edlosum]. destruct (coarHashMsk (degrmax g)) as [msk| | |]; cbn [bind]; auto.
  destruct (coarMult g mate n) as [[fc mult]| | |]; cbn [bind]; auto.
  destruct (coarEdges g _ _ _ _ _ _ _ _ _) as [[[[[[vt vd] vl] s] adj] dgm]| | |]; cbn [bind]; auto.
  destruct (wr _ _ _ _) as [vt'| | |]; cbn [bind]; auto. unfold setsum.
  cbn [edlosum baseval vertnbr vertnnd verttab vendtab velotab velosum vnumtab vlbltab edgenbr edgetab edlotab degrmax]. do 5 f_equal. lia.
Qed.

Lemma coarse_set g cg x y mate fc mult : is_coarse (setsum x g) (setsum y cg) mate fc mult -> is_coarse g cg mate fc mult.
Proof. intros [A1 A2 A3 A4 A5 A6 A7 A8 A9]. constructor; assumption. Qed.

Lemma mlCoarsen_good cmax cmin : (forall s, cmax s <= vertnbr s) -> coar_good (mlCoarsen cmax cmin).
Proof.
  intros Hc s (x & V) R B. unfold mlCoarsen. set (stk := if vertnbr s <? 2 ^ 63 then 64 else vertnbr s + 1). pose proof (gv_size _ V) as N. change (vertnbr (setsum x s)) with (vertnbr s) in N.
  assert (Hs : 32 <= stk /\ vertnbr s < 2 ^ (stk - 1)).
  { subst stk. destruct (Z.ltb_spec (vertnbr s) (2 ^ 63)) as [H|H]; [split; [lia | exact H]|]. split; [lia|]. replace (vertnbr s + 1 - 1) with (vertnbr s) by lia. apply Z.pow_gt_lin_r; lia. }
  assert (PV : per_vertex (setsum x s) None) by (intros l; discriminate).
  pose proof (C18_graphCoarsen stk false (setsum x s) None None 0 (cmax s) cmin V (readable_set x s R) B PV PV (proj1 Hs) (proj2 Hs)) as H. clearbody stk.
  unfold graphCoarsen in *. rewrite graphMatchSeq_set in H. destruct (cmax s <? cmin); [left; eauto|].
  destruct (graphMatchSeq stk false s None None 0) as [[mate n]| | |]; cbn [bind] in *; try (left; eauto; fail).
  - destruct (cmax s <=? n); [left; eauto|]. rewrite coarBuild_set in H. destruct (coarBuild s mate n) as [[[cg fc] mult]| | |]; cbn [bind] in H; try (left; eauto; fail).
    + right. destruct H as [H|(cg' & fc' & mult' & mate' & H & V1 & R1 & IM & IC & H1 & H2 & _)]; [discriminate|]. injection H as <- <- <-.
      exists cg, fc, mult, mate'. split; [reflexivity|]. split; [eexists; exact V1|]. split; [destruct R1; constructor; auto|]. split; [exact IM|]. split; [exact (coarse_set _ _ _ _ _ _ _ IC)|].
      change (vertnbr (setsum (edlosum cg - edlosum s + x) cg)) with (vertnbr cg) in H2. specialize (Hc s). lia.
    + destruct H as [H|(? & ? & ? & ? & H & _)]; discriminate.
    + destruct H as [H|(? & ? & ? & ? & H & _)]; discriminate.
  - destruct H as [H|(? & ? & ? & ? & H & _)]; discriminate.
  - destruct H as [H|(? & ? & ? & ? & H & _)]; discriminate.
Qed.
