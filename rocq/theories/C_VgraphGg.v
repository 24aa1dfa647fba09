(** Property C67: vertex separation by greedy graph growing. *)
From Verif Require Import Base Mem M_Graph M_Vgraph M_Coarsen M_Order M_HgraphOrder M_VgraphSt M_VgraphGg M_Wgraph S_Graph S_Vgraph S_Order S_HgraphOrder S_VgraphSt S_VgraphGg.
From Verif Require Import P_Vgraph P_VgraphSt P_VgraphSt2 P_VgraphGg P_VgraphGg2 C_Graph C_Vgraph C_HgraphOrder C_VgraphSt.

(** C67: on a graph with vertices, whatever the random numbers, the gain table and the number of passes, the method neither fails nor
    accesses memory out of bounds, and gives a consistent separation of the same graph, which the checking routine accepts. *)
Theorem C67_grow :
  forall ab frst rnd prm passnbr g, vstate g -> 0 < vertnbr (vs g) -> frst_ok (vs g) frst -> (forall p, perm_ok (vs g) (prm p)) ->
    exists h, vgraphSeparateGg ab frst rnd prm passnbr g = Ok (0, h) /\ vs h = vs g /\ vdw0 h = vdw0 g /\ vdw1 h = vdw1 g /\ vstate h /\ vgraphCheck h = Ok tt.
Proof.
  intros ab frst rnd prm ps g Sg Hn HF HP. destruct (Gg_ok ab frst rnd prm ps g Sg Hn HF HP) as (h & E & Sm & Sh). exists h. split; [exact E|].
  split; [exact (vm_graph _ _ Sm)|]. split; [exact (vm_dw0 _ _ Sm)|]. split; [exact (vm_dw1 _ _ Sm)|]. split; [exact Sh | now apply vstate_checked].
Qed.
Print Assumptions C67_grow.

(** C67: more passes do not give a worse separation: the separator is not larger and, if it is as large, the parts are not less balanced *)
Theorem C67_passes :
  forall frst rnd prm k1 k2 g, vstate g -> 0 < vertnbr (vs g) -> frst_ok (vs g) frst -> (forall p, perm_ok (vs g) (prm p)) -> 1 <= k1 <= k2 ->
    exists h1 h2, vgraphSeparateGg Z.abs frst rnd prm k1 g = Ok (0, h1) /\ vgraphSeparateGg Z.abs frst rnd prm k2 g = Ok (0, h2) /\ ~ vbetter h1 h2.
Proof.
  intros frst rnd prm k1 k2 g Sg Hn HF HP [Hk1 Hk]. revert k2 Hk.
  apply (zrange_ind (fun k2 => exists h1 h2, vgraphSeparateGg Z.abs frst rnd prm k1 g = Ok (0, h1) /\ vgraphSeparateGg Z.abs frst rnd prm k2 g = Ok (0, h2) /\ ~ vbetter h1 h2)).
  - destruct (Gg_ok Z.abs frst rnd prm k1 g Sg Hn HF HP) as (h & E & _). exists h, h. split; [exact E|]. split; [exact E|]. unfold vbetter. lia.
  - intros k2 Hk (h1 & h2 & E1 & E2 & NB). destruct (Gg_better Z.abs frst rnd prm k2 g Sg Hn HF HP ltac:(lia)) as (h & h' & Eh & Eh' & B).
    rewrite E2 in Eh. injection Eh as <-. exists h1, h'. split; [exact E1|]. split; [exact Eh'|]. unfold vbetter in *. lia.
Qed.
Print Assumptions C67_passes.

(** C67: a strategy that tests that there are vertices before using the method never fails, so that it can be used in others;
    in nested dissection, where the graphs have vertices, the test is not needed. The gain table and the permutations may depend on the graph. *)
Theorem C67_guarded :
  forall gs ab frst rnd prm passnbr, 0 < gs -> (forall s, frst_ok s (frst s)) -> (forall s p, valid_upto_sum s -> perm_ok s (prm s p)) ->
    let m := vgraphSeparateSt gs ab (VCond (fun g => Some (0 <? vertnbr (vs g))) (VMeth (fun g => vgraphSeparateGg ab (frst (vs g)) rnd (prm (vs g)) passnbr g)) None) in
    vgood true m /\ sep_good true (sepOf m) /\ sep_good true (sepOf (fun g => vgraphSeparateGg ab (frst (vs g)) rnd (prm (vs g)) passnbr g)).
Proof.
  intros gs ab frst rnd prm ps Hgs HF HP m. assert (G : vgood true m).
  2: { pose proof (sepOf_good true m G) as G'. split; [exact G|]. split; [exact G'|]. intros jk s Hs Hn. destruct (G' jk s Hs Hn) as [(vg & E & Sp)|(X & _)]; [|discriminate]. left. exists vg. split; [|exact Sp].
    rewrite <- E. unfold sepOf, m. cbn [vgraphSeparateSt]. change (vs (vgraph0 jk s)) with s. replace (0 <? vertnbr s) with true by lia. reflexivity. }
  intros g Sg. unfold m. cbn [vgraphSeparateSt]. destruct (Z.ltb_spec 0 (vertnbr (vs g))) as [Hn|Hn].
  - destruct (Gg_ok ab (frst (vs g)) rnd (prm (vs g)) ps g Sg Hn (HF _) (fun p => HP _ p (vt_valid _ Sg))) as (h & E & Sm & Sh). exists 0, h. auto.
  - exists 0, g. split; [reflexivity|]. split; [apply vsame_refl|]. auto.
Qed.
Print Assumptions C67_guarded.

(** ** Examples *)
Definition ex_frst (s : graph) (k : nat) (st gn : list Z) : option Z := find (fun v => at_ (baseval s) st v =? 3) (zseq (baseval s) (vertnnd s - baseval s)).
Lemma ex_frst_ok s : frst_ok s (ex_frst s).
Proof.
  intros k st gn. unfold ex_frst. destruct (find _ _) as [v|] eqn:E.
  - apply find_some in E as (Hi & Ev). apply In_zseq in Hi. split; [unfold isvert; lia | lia].
  - intros v Hv X. assert (Y : In v (zseq (baseval s) (vertnnd s - baseval s))) by (apply In_zseq; unfold isvert in Hv; lia). pose proof (find_none _ _ E v Y) as F. cbv beta in F. lia.
Qed.
Definition ex_prm (s : graph) (p : Z) : list Z := if Z.even p then zseq (baseval s) (vertnbr s) else rev (zseq (baseval s) (vertnbr s)).
Lemma ex_prm_ok s p : valid_upto_sum s -> perm_ok s (ex_prm s p).
Proof.
  intros (x & V). pose proof (gv_size _ V) as N0. pose proof (gv_nnd _ V) as N1. cbn [setsum baseval vertnbr vertnnd] in N0, N1.
  assert (Lz : zlen (zseq (baseval s) (vertnbr s)) = vertnbr s) by (rewrite zlen_zseq; lia). unfold ex_prm, perm_ok, isvert. destruct (Z.even p).
  - split; [exact Lz|]. split; [intros i Hi; rewrite at_zseq by lia; lia|]. intros v Hv. exists (v - baseval s). split; [lia|]. rewrite at_zseq by lia. lia.
  - assert (A : forall i, 0 <= i < vertnbr s -> at_ 0 (rev (zseq (baseval s) (vertnbr s))) i = baseval s + (vertnbr s - 1 - i)).
    { intros i Hi. rewrite at_rev by lia. rewrite Lz. rewrite at_zseq by lia. lia. }
    split; [unfold zlen in *; rewrite rev_length; exact Lz|]. split; [intros i Hi; rewrite A by lia; lia|]. intros v Hv. exists (vertnbr s - 1 - (v - baseval s)). split; [lia|]. rewrite A by lia. lia.
Qed.
Definition ex_rnd (p : Z) : Z := 5 + 3 * p.
Example C67_example :
  vstate ex_c9 /\ 0 < vertnbr (vs ex_c9) /\ frst_ok (vs ex_c9) (ex_frst (vs ex_c9)) /\ (forall p, perm_ok (vs ex_c9) (ex_prm (vs ex_c9) p)) /\
  (exists h, vgraphSeparateGg abs_int64 (ex_frst (vs ex_c9)) ex_rnd (ex_prm (vs ex_c9)) 3 ex_c9 = Ok (0, h) /\ 0 < vcsz0 h /\ 0 < vcsz1 h /\ vcld2 h = 2) /\
  (* disconnected graph, several roots *)
  exists h, graphOrder (-7) 1 ex_og (SNd (sepOf (fun g => vgraphSeparateGg Z.abs (ex_frst (vs g)) ex_rnd (ex_prm (vs g)) 2 g)) SSi SEmpty) (repeat 0 8) (repeat 0 8) (repeat 0 9) (repeat 0 8) = Ok (0, h).
Proof.
  split; [exact ex_c9_state|]. split; [cbn; lia|]. split; [apply ex_frst_ok|]. split; [intros p; apply ex_prm_ok, (vt_valid _ ex_c9_state)|]. split; eexists; vm_compute; auto.
Qed.

(** C67: on the empty graph, the first root is drawn modulo zero; partitioning it with overlap into two parts, by recursive
    bipartitioning with this method, does so *)
Definition ex_empty : graph := mkgraph 0 0 0 [0] None None 0 None None 0 [] None 0 0.
Theorem C67_empty_refuted :
  exists g, graph_valid g /\ graph_readable g /\ vstate (vgraph0 3 g) /\
    (forall ab frst rnd prm passnbr, 1 <= passnbr -> vgraphSeparateGg ab frst rnd prm passnbr (vgraph0 3 g) = UB) /\
    forall ab frst rnd prm, SCOTCH_graphPartOvl 77 g 2 (WMeth (wgraphPartRb 77 1 (vgraphSeparateGg ab frst rnd prm 10) (fun _ => None))) [] = UB.
Proof.
  exists ex_empty. destruct (C09_graphCheck_sound 100 ex_empty ltac:(vm_compute; reflexivity)) as (V & R). split; [exact V|]. split; [exact R|]. split; [|split].
  - assert (NV : forall v, isvert ex_empty v -> False) by (unfold isvert; cbn; lia). constructor; try (cbn; lia).
    + exists 0. exact V.
    + constructor; try (cbn; lia); exact R.
    + constructor; try reflexivity. intros v Hv. destruct (NV v Hv).
    + split; [cbn; lia|]. split; [cbn; lia|]. split; [cbn; lia|]. intros v Hv. destruct (NV v Hv).
    + intros v e Ha. destruct (NV v (proj1 Ha)).
  - intros ab frst rnd prm ps Hp. unfold vgraphSeparateGg, ggPasses. cbv zeta. unfold for_ at 1. replace (Z.to_nat (ps - 0)) with (S (Z.to_nat (ps - 1))) by lia. reflexivity.
  - intros. reflexivity.
Qed.
Print Assumptions C67_empty_refuted.
