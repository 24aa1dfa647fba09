(** Property C69: refinement of vertex separators by moves. *)
From Verif Require Import Base Mem M_Graph M_Vgraph M_Coarsen M_Order M_HgraphOrder M_VgraphSt M_VgraphGg M_VgraphFm S_Graph S_Vgraph S_Order S_HgraphOrder S_VgraphSt S_VgraphGg S_VgraphFm.
From Verif Require Import P_Vgraph P_VgraphSt P_VgraphSt2 P_VgraphGg P_VgraphGg2 P_VgraphFm P_VgraphFm2 P_VgraphFm3 P_VgraphFm4 C_Graph C_Vgraph C_HgraphOrder C_VgraphSt C_VgraphGg.

(** C69: on a graph with vertices, none of which has a null load, whatever the order in which the gain table gives its links, the order of
    the slots of the hash table, the tolerated imbalance and the limits on moves and passes, the method neither fails nor accesses memory
    out of bounds; if it ends (always, in the next theorem), it gives a consistent separation of the same graph, which the
    checking routine accepts. Without separator vertices, the method first tries greedy graph growing. *)
Theorem C69_refine :
  forall ab tb frst rnd prm ord slots gmax bal movemax passnbr fuel g,
    vstate g -> 0 < vertnbr (vs g) -> pos_loads (vs g) -> ord_ok (vs g) ord -> perm_ok (vs g) slots -> frst_ok (vs g) frst -> (forall p, perm_ok (vs g) (prm p)) ->
    let r := vgraphSeparateFm ab tb (vgraphSeparateGg ab frst rnd prm 4) ord slots gmax bal movemax passnbr fuel g in
    r = Fuel \/ exists h, r = Ok (0, h) /\ vs h = vs g /\ vdw0 h = vdw0 g /\ vdw1 h = vdw1 g /\ vstate h /\ vgraphCheck h = Ok tt.
Proof.
  intros ab tb frst rnd prm ord slots gmax bal mm ps fuel g Sg Hn PL HO PO HF HP r.
  assert (Q : r = Fuel \/ exists h, r = Ok (0, h) /\ vsame g h /\ vstate h).
  2: { destruct Q as [Q|(h & E & Sm & Sh)]; [now left|]. right. exists h. split; [exact E|]. split; [exact (vm_graph _ _ Sm)|]. split; [exact (vm_dw0 _ _ Sm)|]. split; [exact (vm_dw1 _ _ Sm)|]. split; [exact Sh | now apply vstate_checked]. }
  subst r. unfold vgraphSeparateFm. assert (exists mat, fmMat bal g = Ok mat) as (mat & ->). { unfold fmMat. destruct bal; [|eauto]. destruct (Z.eqb_spec (vertnbr (vs g)) 0); [lia | eauto]. } cbn [bind].
  assert (RUN : forall h0, vsame g h0 -> vstate h0 -> fmRun ab tb ord slots gmax mat mm ps fuel h0 = Fuel \/ exists h, fmRun ab tb ord slots gmax mat mm ps fuel h0 = Ok (0, h) /\ vsame g h /\ vstate h).
  { intros h0 Sm S0. pose proof (vm_graph _ _ Sm) as E. rewrite <- E in PL, HO, PO. destruct (Run_ok ab tb ord slots gmax mat mm ps fuel h0 S0 PL HO PO) as (X & _).
    destruct (fmRun ab tb ord slots gmax mat mm ps fuel h0) as [[rc h]| | |]; cbn [wpf] in X; try contradiction; [|now left]. destruct X as (-> & Y & Z & _). right. exists h. split; [reflexivity|]. split; [|exact Z].
    destruct Sm, Y. constructor; congruence. }
  destruct (vfronnbr g =? 0); [|apply RUN; auto using vsame_refl].
  destruct (ab (vdlt g) <=? mat); [right; exists g; auto using vsame_refl|]. destruct (Gg_ok ab frst rnd prm 4 g Sg Hn HF HP) as (h0 & -> & Sm & S0). cbn [bind].
  destruct (vfronnbr h0 =? 0); [right; exists h0; auto | apply RUN; auto].
Qed.
Print Assumptions C69_refine.

(** C69: from a separation whose imbalance is within the tolerance [mat], the method ends, and the result is not worse: its imbalance is within the
    tolerance, its separator is not larger and, if it is as large, the parts are not less balanced. *)
Theorem C69_better :
  forall tb gg ord slots gmax bal movemax passnbr fuel g mat,
    vstate g -> 0 < vertnbr (vs g) -> pos_loads (vs g) -> ord_ok (vs g) ord -> perm_ok (vs g) slots ->
    fmMat bal g = Ok mat -> Z.abs (vdlt g) <= mat ->
    (vcld2 g * (mat + 1) + Z.abs (vdlt g)) * (Z.max 0 movemax + 1) + Z.max 0 movemax < Z.of_nat fuel ->
    exists h, vgraphSeparateFm Z.abs tb gg ord slots gmax bal movemax passnbr fuel g = Ok (0, h) /\
      vs h = vs g /\ vstate h /\ Z.abs (vdlt h) <= mat /\ ~ vbetter g h.
Proof.
  intros tb gg ord slots gmax bal mm ps fuel g mat Sg Hn PL HO PO EM Hb HF. unfold vgraphSeparateFm. rewrite EM. cbn [bind].
  destruct (vfronnbr g =? 0).
  - destruct (Z.leb_spec (Z.abs (vdlt g)) mat); [|lia]. exists g. split; [reflexivity|]. split; [reflexivity|]. split; [exact Sg|]. split; [exact Hb|]. unfold vbetter. lia.
  - destruct (Run_ok Z.abs tb ord slots gmax mat mm ps fuel g Sg PL HO PO) as (X & T). destruct (T ltac:(intros; apply Z.abs_nonneg) Hb HF) as ([rc h] & E). rewrite E in *. cbn [wpf] in X.
    destruct X as (-> & Sm & Sh & Q). exists h. split; [reflexivity|]. split; [exact (vm_graph _ _ Sm)|]. split; [exact Sh|]. destruct (Q Hb) as (Q1 & Q2). split; [exact Q1|]. unfold vbetter. lia.
Qed.
Print Assumptions C69_better.

(** ** Examples *)
Definition ex_ord (s : graph) (k : nat) (x : fmst) : list (Z * Z) :=
  flat_map (fun v => if (at_ (baseval s) (fx_st x) v =? 3) && negb (at_ (baseval s) (fx_pt x) v =? -1) then [(v, 0); (v, 1)] else []) (zseq (baseval s) (vertnnd s - baseval s)).
Lemma ex_ord_ok s : ord_ok s (ex_ord s).
Proof.
  intros k x v sd Hi. unfold ex_ord in Hi. apply in_flat_map in Hi as (u & Hu & Hi). apply In_zseq in Hu. destruct (_ && _) eqn:E; [|destruct Hi]. apply andb_true_iff in E as (E1 & E2). apply negb_true_iff in E2.
  unfold isvert. destruct Hi as [Hi|[Hi|[]]]; injection Hi as <- <-; lia.
Qed.
(** A separation which the checking routines accept, whose separator vertices differ *)
Lemma ex_state gmax g : graphCheck gmax (vs g) = Ok tt -> vgraphCheck g = Ok tt -> 0 <= baseval (vs g) -> vertnbr (vs g) <= zlen (vpart g) -> vertnbr (vs g) <= zlen (vfron g) ->
  (forall v, isvert (vs g) v -> 0 <= part g v <= 255) -> 0 <= vdw0 g /\ 0 <= vdw1 g /\ 0 < vdw0 g + vdw1 g -> NoDup (firstn (Z.to_nat (vfronnbr g)) (vfron g)) -> 0 <= vfronnbr g <= zlen (vfron g) -> vstate g.
Proof.
  intros GC VC B L1 L2 HB W ND LF. destruct (C09_graphCheck_sound gmax (vs g) GC) as (V & R).
  assert (N : vertnnd (vs g) = baseval (vs g) + vertnbr (vs g) /\ 0 <= vertnbr (vs g)) by (destruct V; lia).
  destruct (C28_vgraphCheck_sound g) as (A & BB & C & D & E); try tauto; try (intros v Hv; apply HB; exact Hv).
  constructor; auto.
  - exists (edlosum (vs g)). destruct (vs g); exact V.
  - constructor; auto.
  - apply E. intros i j Hi Hj F. unfold fron, at_ in F. rewrite !Z.sub_0_r in F. rewrite NoDup_nth with (d := 0) in ND.
    unfold zlen in LF. assert (X : Z.to_nat i = Z.to_nat j); [|lia]. apply ND; try (rewrite firstn_length; lia).
    rewrite <- (firstn_skipn (Z.to_nat (vfronnbr g)) (vfron g)) in F. rewrite !app_nth1 in F by (rewrite firstn_length; lia). exact F.
Qed.
(** The cycle of nine vertices, with a separator of four vertices *)
Definition ex_c4 : vgraph := mkvgraph ex_cycle [2; 0; 0; 2; 2; 1; 1; 2; 0] [1; 4; 5; 8; 7; 7; 7; 7; 7] 4 3 2 3 2 4 1 1 1.
Lemma ex_c4_state : vstate ex_c4.
Proof.
  apply (ex_state 100); try (vm_compute; reflexivity); try (cbn; lia).
  - intros v Hv. unfold isvert in Hv. cbn in Hv. assert (C : v = 1 \/ v = 2 \/ v = 3 \/ v = 4 \/ v = 5 \/ v = 6 \/ v = 7 \/ v = 8 \/ v = 9) by lia.
    repeat (destruct C as [-> | C]; [vm_compute; split; discriminate|]). subst v. vm_compute; split; discriminate.
  - vm_compute. repeat (constructor; [intros X; cbn in X; intuition discriminate|]). constructor.
Qed.
Lemma ex_cycle_loads : pos_loads ex_cycle.
Proof. intros v _. vm_compute. reflexivity. Qed.
Example C69_example :
  vstate ex_c9 /\ vstate ex_c4 /\ pos_loads ex_cycle /\ ord_ok ex_cycle (ex_ord ex_cycle) /\ (forall p, perm_ok ex_cycle (ex_prm ex_cycle p)) /\ frst_ok ex_cycle (ex_frst ex_cycle) /\
  (* greedy growing, then refinement *)
  (exists h, vgraphSeparateFm Z.abs (fun g => g) (vgraphSeparateGg Z.abs (ex_frst ex_cycle) ex_rnd (ex_prm ex_cycle) 4) (ex_ord ex_cycle) (ex_prm ex_cycle 0) 50 (Some (fun l => l / 10)) 20 5 2000 ex_c9 = Ok (0, h) /\ 0 < vcsz0 h /\ 0 < vcsz1 h /\ vcld2 h = 2) /\
  (* from a balanced separation with four separator vertices to one with two *)
  fmMat (Some (fun l => l / 10)) ex_c4 = Ok 2 /\ Z.abs (vdlt ex_c4) <= 2 /\ (vcld2 ex_c4 * (2 + 1) + Z.abs (vdlt ex_c4)) * (Z.max 0 20 + 1) + Z.max 0 20 < Z.of_nat 500 /\
  exists h, vgraphSeparateFm Z.abs (fun g => g) (fun g => Ok (0, g)) (ex_ord ex_cycle) (ex_prm ex_cycle 1) 50 (Some (fun l => l / 10)) 20 5 500 ex_c4 = Ok (0, h) /\ vcld2 ex_c4 = 4 /\ vcld2 h = 2 /\ Z.abs (vdlt h) = 1.
Proof.
  split; [exact ex_c9_state|]. split; [exact ex_c4_state|]. split; [exact ex_cycle_loads|]. split; [apply ex_ord_ok|]. split; [intros p; apply ex_prm_ok; exact (vt_valid _ ex_c9_state)|]. split; [apply ex_frst_ok|].
  split; [eexists; split; [vm_compute; reflexivity | vm_compute; auto]|]. split; [reflexivity|]. split; [vm_compute; discriminate|]. split; [vm_compute; reflexivity|].
  eexists. split; [vm_compute; reflexivity | vm_compute; auto].
Qed.

(** C69, negative: null vertex loads, which the graph checking routine accepts, break the choice of a move: the first link of a separator vertex is told from the
    second by a negative value, the opposite of its load.  Here, for the path of three vertices whose middle one, of load 0, is the separator, the gain table gives this first link,
    and the routine takes the memory before the slot for the slot of the vertex. *)
Definition ex_p3 : graph := mkgraph 0 3 3 [0; 1; 3; 4] None (Some [1; 0; 1]) 2 None None 4 [1; 0; 2; 1] None 4 2.
Definition ex_z3 : vgraph := mkvgraph ex_p3 [0; 2; 1] [1; 0; 0] 1 1 1 1 1 0 0 1 1.
Theorem C69_zero_load_refuted :
  exists g ord slots, graphCheck 100 (vs g) = Ok tt /\ vstate g /\ 0 < vertnbr (vs g) /\ ord_ok (vs g) ord /\ perm_ok (vs g) slots /\
    forall gg, vgraphSeparateFm Z.abs (fun g => g) gg ord slots 50 (Some (fun l => l / 10)) 10 5 100 g = UB.
Proof.
  exists ex_z3, (ex_ord ex_p3), (ex_prm ex_p3 0).
  assert (S : vstate ex_z3).
  { apply (ex_state 100); try (vm_compute; reflexivity); try (cbn; lia).
    - intros v Hv. unfold isvert in Hv. cbn in Hv. assert (C : v = 0 \/ v = 1 \/ v = 2) by lia. repeat (destruct C as [-> | C]; [vm_compute; split; discriminate|]). subst v. vm_compute; split; discriminate.
    - vm_compute. repeat (constructor; [intros X; cbn in X; intuition discriminate|]). constructor. }
  split; [vm_compute; reflexivity|]. split; [exact S|]. split; [cbn; lia|]. split; [apply ex_ord_ok|]. split; [apply ex_prm_ok; exact (vt_valid _ S)|].
  intros gg. vm_compute. reflexivity.
Qed.
Print Assumptions C69_zero_load_refuted.

(** C69, negative: on the empty graph, with a positive balance ratio, the method divides by the number of vertices. *)
Theorem C69_empty_refuted :
  exists g, graph_valid g /\ graph_readable g /\ vstate (vgraph0 3 g) /\
    forall ab tb gg ord slots gmax f movemax passnbr fuel, vgraphSeparateFm ab tb gg ord slots gmax (Some f) movemax passnbr fuel (vgraph0 3 g) = UB.
Proof.
  exists ex_empty. destruct (C09_graphCheck_sound 100 ex_empty ltac:(vm_compute; reflexivity)) as (V & R). split; [exact V|]. split; [exact R|]. split; [|reflexivity].
  apply (ex_state 100); try (vm_compute; reflexivity); try (cbn; lia); [|constructor]. intros v Hv. unfold isvert in Hv. cbn in Hv. lia.
Qed.
Print Assumptions C69_empty_refuted.
