(** Proofs about multilevel bipartitioning. *)
From Verif Require Import Base Mem M_Graph M_Bgraph M_BgraphSt S_Graph S_Bgraph S_BgraphSt S_Color S_Match S_Coarsen P_Graph P_Vgraph P_Bgraph P_Bgraph2 P_VgraphMl P_BgraphSt.

Section Cut.
Variables (s cg : graph) (mate fc : list Z) (mult : list (Z * Z)).
Hypothesis VS : graph_valid s.
Hypothesis VC : graph_valid cg.
Hypothesis IC : is_coarse s cg mate fc mult.
Notation b := (baseval s).
Notation fcv v := (at_ (baseval s) fc v).
Variable p : Z -> Z.

Lemma arc_sum c (F : Z -> Z) d : isvert cg c -> (c = d -> F d = 0) -> (adjacent cg c d \/ c = d) ->
  zsum (vert cg c) (vend cg c) (fun e' => if edge cg e' =? d then F (edge cg e') else 0) = F d.
Proof.
  intros Hc H0 [(e & Ha & He)|<-].
  - rewrite (zsum_single _ _ _ e).
    + rewrite He, Z.eqb_refl. reflexivity.
    + apply Ha.
    + intros i Hi Hn. destruct (Z.eqb_spec (edge cg i) d) as [E|]; [|reflexivity]. exfalso. apply Hn. apply (gv_simple _ VC c i e (conj Hc Hi) Ha). congruence.
  - rewrite H0 by reflexivity. apply zsum_zero. intros e He. destruct (Z.eqb_spec (edge cg e) c) as [E|]; [|reflexivity]. exfalso. exact (gv_loop _ VC c e (conj Hc He) E).
Qed.

Lemma proj_cut :
  zsum b (vertnnd s) (fun v => zsum (vert s v) (vend s v) (fun e => if (p (fcv v) =? 0) && (p (fcv (edge s e)) =? 1) then edlo s e else 0)) =
  zsum b (vertnnd cg) (fun c => zsum (vert cg c) (vend cg c) (fun e => if (p c =? 0) && (p (edge cg e) =? 1) then edlo cg e else 0)).
Proof.
  rewrite (by_group s cg mate fc mult IC). apply zsum_ext. intros c Hc.
  assert (Vc : isvert cg c) by (unfold isvert; rewrite (ic_base _ _ _ _ _ IC); exact Hc).
  transitivity (zsum (vert cg c) (vend cg c) (fun e' => zsum b (vertnnd s) (fun v => zsum (vert s v) (vend s v) (fun e =>
    if edge cg e' =? fcv (edge s e) then (if (fcv v =? c) && ((p c =? 0) && (p (edge cg e') =? 1)) then edlo s e else 0) else 0)))).
  - rewrite zsum_swap. apply zsum_ext. intros v Hv. rewrite zsum_swap. destruct (Z.eqb_spec (fcv v) c) as [E|E]; cbn [andb].
    + apply zsum_ext. intros e He. rewrite E.
      rewrite (arc_sum c (fun d => if (p c =? 0) && (p d =? 1) then edlo s e else 0)); [reflexivity | exact Vc| |].
      * intros <-. destruct (Z.eqb_spec (p c) 0) as [->|]; reflexivity.
      * destruct (Z.eq_dec c (fcv (edge s e))) as [|Hn]; [now right|]. left. apply (ic_adj _ _ _ _ _ IC). split; [exact Hn|].
        exists v, (edge s e). split; [exists e; split; [split; [exact Hv | exact He] | reflexivity]|]. auto.
    + symmetry. apply zsum_zero. intros e He. apply zsum_zero. intros e' _. destruct (_ =? _); reflexivity.
  - apply zsum_ext. intros e' He'. rewrite (ic_edlo _ _ _ _ _ IC c e' (conj Vc He')). unfold fine_arcs_load.
    destruct ((p c =? 0) && (p (edge cg e') =? 1)).
    + apply zsum_ext. intros v _. apply zsum_ext. intros e _. rewrite (Z.eqb_sym (edge cg e')). destruct (fcv v =? c), (fcv (edge s e) =? edge cg e'); reflexivity.
    + apply zsum_zero. intros v _. apply zsum_zero. intros e _. rewrite andb_false_r. destruct (_ =? _); reflexivity.
Qed.
End Cut.

Lemma mlbOther_ok s pt p v : graph_valid s -> graph_readable s -> vertnbr s <= zlen pt -> isvert s v ->
  exists f, mlbOther s pt p v = Ok f /\ (f = true <-> exists e, arc s v e /\ at_ (baseval s) pt (edge s e) <> p).
Proof.
  intros V R Zp Hv. unfold mlbOther. rewrite (rvert_ok s v R V Hv), (rvend_ok s v R V Hv). cbn [bind]. pose proof (gv_range _ V v Hv) as Hr. pose proof (gv_nnd _ V) as Nn.
  match goal with |- exists f, ?r = _ /\ _ => destruct (wp_ok_inv r (fun f => f = true <-> exists e, vert s v <= e < vend s v /\ at_ (baseval s) pt (edge s e) <> p)) as (f & -> & F) end.
  - apply wp_for with (I := fun k f => f = true <-> exists e, vert s v <= e < k /\ at_ (baseval s) pt (edge s e) <> p); auto.
    + lia.
    + split; [discriminate | intros (e & He & _); lia].
    + intros k f Hk F. destruct f.
      * cbn [wp]. split; [|reflexivity]. intros _. destruct (proj1 F eq_refl) as (e & He & Hn). exists e. split; [lia | exact Hn].
      * assert (A : arc s v k) by (split; auto). rewrite (redge_ok s v k R A). cbn [bind]. pose proof (gv_end _ V v k A) as Hw. unfold isvert in Hw. rewrite rd_ok by lia. cbn [bind wp].
        destruct (Z.eqb_spec (at_ (baseval s) pt (edge s k)) p) as [E|E]; cbn [negb].
        -- split; [discriminate|]. intros (e & He & Hn). assert (false = true); [|assumption]. apply F. exists e. split; [|exact Hn]. destruct (Z.eq_dec e k) as [->|]; [contradiction | lia].
        -- split; [|reflexivity]. intros _. exists k. split; [lia | exact E].
  - exists f. split; [reflexivity|]. rewrite F. split; intros (e & He & Hn); exists e; [split; [split; auto | auto] | split; [apply He | auto]].
Qed.

Section Unc.
Variables (avg : Z -> Z -> Z -> Z) (g ch : bgraph) (mate fc : list Z) (mult : list (Z * Z)).
Hypothesis RG : bg_readable g.
Hypothesis VG : graph_valid (bs g).
Hypothesis BG : 0 <= baseval (bs g).
Hypothesis GG : bcmge0 g = zsum (baseval (bs g)) (vertnnd (bs g)) (veex g).
Hypothesis SC : bstate avg ch.
Hypothesis FR : bfron g = bfron ch.
Hypothesis EQ : bavg ch = bavg g /\ bcmle0 ch = bcmle0 g /\ bdist ch = bdist g /\ bwg0 ch = bwg0 g /\ bwg1 ch = bwg1 g /\ bfx0 ch = bfx0 g /\ bfx1 ch = bfx1 g.
Hypothesis IM : is_matching (bs g) mate.
Hypothesis IC : is_coarse (bs g) (bs ch) mate fc mult.
Notation s := (bs g).
Notation b := (baseval (bs g)).
Notation fcv v := (at_ (baseval (bs g)) fc v).
Hypothesis VX : forall c, isvert (bs ch) c -> veex ch c = zsum b (vertnnd s) (fun v => if fcv v =? c then veex g v else 0).

Lemma ch_part c : isvert (bs ch) c -> bp ch c = 0 \/ bp ch c = 1.
Proof. destruct SC as [_ _ _ _ (x & _ & H)]. exact (bv_part _ _ H c). Qed.
Lemma fcb v : isvert s v -> isvert (bs ch) (fcv v).
Proof. apply (proj2 (ic_fc _ _ _ _ _ IC)). Qed.

(** first loop: parts *)
Lemma unc_part : exists pt sz1, for_ (baseval (bs ch)) (vertnnd (bs ch)) (fun c '(pt, sz1) =>
    do '(v0, v1) <- rd b mult c;
    do p <- rd (baseval (bs ch)) (bpart ch) c;
    do pt <- wr b pt v0 p;
    if negb (v0 =? v1) then do pt <- wr b pt v1 p; Ok (pt, sz1 + p) else Ok (pt, sz1)) (bpart g, vertnbr (bs ch) - bsz0 ch) = Ok (pt, sz1) /\
  zlen pt = zlen (bpart g) /\ (forall v, isvert s v -> at_ b pt v = bp ch (fcv v)) /\ sz1 = zcount b (vertnnd s) (fun v => bp ch (fcv v) =? 1).
Proof.
  pose proof (gv_nnd _ VG) as N1. pose proof (gv_size _ VG) as N2. destruct SC as [VC BC RC _ (x & _ & CC)]. pose proof (gv_nnd _ VC) as N3. pose proof (gv_size _ VC) as N4.
  pose proof (ic_base _ _ _ _ _ IC) as EB. pose proof (br_part _ RG) as Zp. pose proof (br_part _ RC) as Zc. pose proof (proj1 (ic_mult _ _ _ _ _ IC)) as Zm.
  pose proof (bv_size _ _ CC) as Sz. cbn [unfix bsz0] in Sz. change (bsize (unfix x ch) 0) with (bsize ch 0) in Sz.
  set (PC := fun c => zcount b (vertnnd s) (fun v => (fcv v <? c) && (bp ch (fcv v) =? 1))).
  assert (PS : forall c, isvert (bs ch) c -> PC (c + 1) = PC c + (if bp ch c =? 1 then 1 + (if fst (at_ b mult c) =? snd (at_ b mult c) then 0 else 1) else 0)).
  { intros c Hc. pose proof (grp_sum _ _ _ _ _ IM IC (fun _ => if bp ch c =? 1 then 1 else 0) c Hc) as G. unfold PC, zcount.
    transitivity (zsum b (vertnnd s) (fun v => b2z ((fcv v <? c) && (bp ch (fcv v) =? 1)) + (if fcv v =? c then (if bp ch c =? 1 then 1 else 0) else 0))).
    - apply zsum_ext. intros v Hv. destruct (Z.eqb_spec (fcv v) c) as [E|E].
      + rewrite E. destruct (Z.ltb_spec c (c + 1)), (Z.ltb_spec c c); try lia. destruct (bp ch c =? 1); reflexivity.
      + rewrite Z.add_0_r. f_equal. f_equal. destruct (Z.ltb_spec (fcv v) (c + 1)), (Z.ltb_spec (fcv v) c); lia || reflexivity.
    - rewrite zsum_add, G. destruct (bp ch c =? 1); [reflexivity|]. destruct (_ =? _); lia. }
  match goal with |- exists pt sz1, ?X = _ /\ _ => destruct (wp_ok_inv X (fun '(pt, sz1) => zlen pt = zlen (bpart g) /\ (forall v, isvert s v -> at_ b pt v = bp ch (fcv v)) /\ sz1 = zcount b (vertnnd s) (fun v => bp ch (fcv v) =? 1))) as ((pt & sz1) & EX & H) end.
  2: { exists pt, sz1. auto. }
  rewrite N3.
  apply wp_for with (I := fun c '(pt, sz1) => zlen pt = zlen (bpart g) /\ (forall v, isvert s v -> fcv v < c -> at_ b pt v = bp ch (fcv v)) /\ sz1 = vertnbr (bs ch) - bsz0 ch + PC c - zcount (baseval (bs ch)) c (fun d => bp ch d =? 1)).
  - lia.
  - split; [reflexivity|]. split.
    + intros v Hv Hl. pose proof (fcb v Hv) as Hc. unfold isvert in Hc. lia.
    + rewrite zcount_nil by lia. unfold PC. enough (X : zcount b (vertnnd s) (fun v => (fcv v <? baseval (bs ch)) && (bp ch (fcv v) =? 1)) = 0) by lia. apply zsum_zero. intros v Hv. pose proof (fcb v Hv) as Hc. unfold isvert in Hc. destruct (Z.ltb_spec (fcv v) (baseval (bs ch))); [lia | reflexivity].
  - intros c [pt sz1] Hc (I1 & I2 & I3). assert (Vc : isvert (bs ch) c) by (unfold isvert; lia).
    destruct (mult_at _ _ _ _ _ IM IC c Vc) as (v0 & v1 & Em & V0 & V1 & F0 & F1 & G). pose proof (PS c Vc) as PSc. rewrite Em in PSc. cbn [fst snd] in PSc.
    rewrite rd_ok by lia. cbn [bind]. rewrite Em. rewrite rd_ok by lia. cbn [bind]. fold (bp ch c). destruct (ch_part c Vc) as [Ep|Ep].
    all: rewrite Ep in *; cbn [Z.eqb Pos.eqb] in PSc.
    all: assert (ZC : zcount (baseval (bs ch)) (c + 1) (fun d => bp ch d =? 1) = zcount (baseval (bs ch)) c (fun d => bp ch d =? 1) + b2z (bp ch c =? 1)) by (rewrite zcount_snoc by lia; reflexivity); rewrite Ep in ZC; cbn [Z.eqb Pos.eqb b2z] in ZC.
    all: assert (LT : forall v, isvert s v -> fcv v < c + 1 -> v <> v0 -> v <> v1 -> fcv v < c) by (intros v Hv Hl H0 H1; destruct (Z.eq_dec (fcv v) c) as [E|]; [apply G in E; [tauto | exact Hv] | lia]).
    all: unfold isvert in V0, V1; rewrite wr_ok by lia; cbn [bind]; destruct (Z.eqb_spec v0 v1) as [E01|E01]; cbn [negb].
    all: try (rewrite wr_ok by (rewrite zlen_upd; lia); cbn [bind]).
    all: cbn [wp]; rewrite ?zlen_upd; split; [assumption|]; split; [|lia].
    all: intros v Hv Hl; unfold isvert in Hv.
    1, 3: rewrite at_upd by lia; destruct (Z.eqb_spec v0 v) as [<-|]; [rewrite F0; congruence | apply I2; auto; apply LT; auto; congruence].
    all: rewrite at_upd by (rewrite ?zlen_upd; lia); destruct (Z.eqb_spec v1 v) as [<-|]; [rewrite F1; congruence|].
    all: rewrite at_upd by lia; destruct (Z.eqb_spec v0 v) as [<-|]; [rewrite F0; congruence | apply I2; auto; apply LT; auto; congruence].
  - intros [pt sz1] (I1 & I2 & I3). split; [assumption|]. split.
    + intros v Hv. apply I2; [exact Hv|]. pose proof (fcb v Hv) as Hc. unfold isvert in Hc. lia.
    + assert (E1 : PC (baseval (bs ch) + vertnbr (bs ch)) = zcount b (vertnnd s) (fun v => bp ch (fcv v) =? 1)).
      { apply zsum_ext. intros v Hv. pose proof (fcb v Hv) as Hc. unfold isvert in Hc. destruct (Z.ltb_spec (fcv v) (baseval (bs ch) + vertnbr (bs ch))); [reflexivity | lia]. }
      assert (E2 : bsize ch 0 + zcount (baseval (bs ch)) (baseval (bs ch) + vertnbr (bs ch)) (fun d => bp ch d =? 1) = vertnbr (bs ch)).
      { unfold bsize. rewrite N3. unfold zcount. rewrite <- zsum_add. rewrite (zsum_ext _ _ _ (fun _ => 1)); [rewrite zsum_const by lia; lia|]. intros c Hc.
        destruct (ch_part c) as [->| ->]; [unfold isvert; lia | reflexivity | reflexivity]. }
      lia.
Qed.

Section Fron.
Variable pt : list Z.
Hypothesis Zpt : zlen pt = zlen (bpart g).
Hypothesis Ppt : forall v, isvert s v -> at_ b pt v = bp ch (fcv v).
Definition fo (v : Z) : Prop := exists e, arc s v e /\ bp ch (fcv (edge s e)) <> bp ch (fcv v).

Lemma fo_up v : isvert s v -> fo v -> onfront ch (fcv v).
Proof.
  intros Hv (e & Ha & Hn). destruct (proj2 (ic_adj _ _ _ _ _ IC (fcv v) (fcv (edge s e)))) as (e' & Ha' & Ee').
  { split; [congruence|]. exists v, (edge s e). split; [exists e; auto | auto]. }
  exists e'. split; [exact Ha'|]. now rewrite Ee'.
Qed.
Lemma fo_down c : isvert (bs ch) c -> onfront ch c -> exists v, isvert s v /\ fcv v = c /\ fo v.
Proof.
  intros Hc (e' & Ha' & Hn). destruct (proj1 (ic_adj _ _ _ _ _ IC c (edge (bs ch) e'))) as (_ & v & w & (e & Ha & <-) & Ev & Ew); [exists e'; auto|].
  exists v. split; [apply Ha|]. split; [exact Ev|]. exists e. split; [exact Ha|]. now rewrite Ew, Ev.
Qed.
Lemma other_ok v c : isvert s v -> fcv v = c -> exists f, mlbOther s pt (bp ch c) v = Ok f /\ (f = true <-> fo v).
Proof.
  intros Hv <-. destruct (mlbOther_ok s pt (bp ch (fcv v)) v VG (br_graph _ RG) ltac:(rewrite Zpt; apply (br_part _ RG)) Hv) as (f & E & F). exists f. split; [exact E|]. rewrite F.
  split; intros (e & Ha & Hn); exists e; (split; [exact Ha|]); rewrite Ppt in *; auto; apply (gv_end _ VG v e Ha).
Qed.

Notation fr0 := (bfron ch).
Notation nf := (bfronnbr ch).
Record finv (i : Z) (fr : list Z) (k : Z) : Prop := {
  fi_len : zlen fr = zlen (bfron g);
  fi_k : nf <= k;
  fi_old : forall j, i <= j < nf -> at_ 0 fr j = at_ 0 fr0 j;
  fi_in : forall j, (0 <= j < i \/ nf <= j < k) -> isvert s (at_ 0 fr j) /\ fo (at_ 0 fr j) /\ exists i', 0 <= i' < i /\ fcv (at_ 0 fr j) = at_ 0 fr0 i';
  fi_inj : forall j j', (0 <= j < i \/ nf <= j < k) -> (0 <= j' < i \/ nf <= j' < k) -> at_ 0 fr j = at_ 0 fr j' -> j = j';
  fi_all : forall v, isvert s v -> fo v -> (exists i', 0 <= i' < i /\ fcv v = at_ 0 fr0 i') -> exists j, (0 <= j < i \/ nf <= j < k) /\ at_ 0 fr j = v }.

Lemma ch_fron : 0 <= nf <= vertnbr (bs ch) /\ (forall i, 0 <= i < nf -> isvert (bs ch) (at_ 0 fr0 i) /\ onfront ch (at_ 0 fr0 i)) /\
  (forall i j, 0 <= i < nf -> 0 <= j < nf -> at_ 0 fr0 i = at_ 0 fr0 j -> i = j) /\
  (forall c, isvert (bs ch) c -> onfront ch c -> exists i, 0 <= i < nf /\ at_ 0 fr0 i = c).
Proof.
  split; [apply (bstate_fron avg ch SC)|]. destruct SC as [_ _ _ _ (x & _ & H)]. destruct (bv_fron _ _ H) as (F0 & F1 & F2 & F3). auto.
Qed.

(** one group [c], at position [i] of the frontier, replaced with its vertices [v] and perhaps [w] *)
Lemma finv_one i fr k v : 0 <= i < nf -> nf <= zlen (bfron g) -> finv i fr k -> isvert s v -> fcv v = at_ 0 fr0 i -> fo v -> (forall u, isvert s u -> fo u -> fcv u = at_ 0 fr0 i -> u = v) ->
  finv (i + 1) (upd 0 fr i v) k.
Proof.
  intros Hi Hn [I1 I2 I3 I4 I5 I6] Hv Fv Fo Un. pose proof (zlen_nonneg fr) as Zn. destruct ch_fron as (_ & C1 & C2 & _).
  assert (A : forall j, 0 <= j -> at_ 0 (upd 0 fr i v) j = if i =? j then v else at_ 0 fr j).
  { intros j Hj. rewrite at_upd by lia. reflexivity. }
  assert (ND : forall j, (0 <= j < i \/ nf <= j < k) -> at_ 0 fr j <> v).
  { intros j Hj E. destruct (I4 j Hj) as (_ & _ & i' & Hi' & X). rewrite E, Fv in X. apply C2 in X; lia. }
  constructor.
  - now rewrite zlen_upd.
  - exact I2.
  - intros j Hj. rewrite A by lia. destruct (Z.eqb_spec i j); [lia|]. apply I3. lia.
  - intros j Hj. rewrite A by lia. destruct (Z.eqb_spec i j) as [<-|Hne]; [split; [exact Hv|]; split; [exact Fo|]; exists i; split; [lia | exact Fv]|].
    destruct (I4 j ltac:(lia)) as (X1 & X2 & i' & Hi' & X). split; [exact X1|]. split; [exact X2|]. exists i'. split; [lia | exact X].
  - intros j j' Hj Hj'. rewrite !A by lia. destruct (Z.eqb_spec i j), (Z.eqb_spec i j'); intros E; try lia; try (exfalso; symmetry in E; revert E; apply ND; lia); try (exfalso; revert E; apply ND; lia); try (apply I5; auto; lia).
  - intros u Hu Fu (i' & Hi' & Eu). destruct (Z.eq_dec i' i) as [->|].
    + exists i. split; [lia|]. rewrite A, Z.eqb_refl by lia. symmetry. now apply Un.
    + destruct (I6 u Hu Fu) as (j & Hj & Ej); [exists i'; split; [lia | exact Eu]|]. exists j. split; [lia|]. rewrite A by lia. destruct (Z.eqb_spec i j); [lia | exact Ej].
Qed.

Lemma finv_bound i fr k v w : 0 <= i < nf -> finv i fr k -> isvert s v -> isvert s w -> v <> w -> fcv v = at_ 0 fr0 i -> fcv w = at_ 0 fr0 i -> k < vertnbr s.
Proof.
  intros Hi [I1 I2 I3 I4 I5 I6] Hv Hw Hne Fv Fw. destruct ch_fron as (_ & C1 & C2 & _). pose proof (gv_nnd _ VG) as Nn. pose proof (gv_size _ VG) as N2.
  set (F := fun j => if j =? k then w else if j =? i then v else if (i <? j) && (j <? nf) then fst (at_ b mult (at_ 0 fr0 j)) else at_ 0 fr j).
  (* rank, in the coarse frontier, of the group of the image of [j] *)
  assert (RK : forall j, 0 <= j < k + 1 -> isvert s (F j) /\
    ((j = k /\ F j = w) \/ (j = i /\ F j = v) \/ (i < j < nf /\ fcv (F j) = at_ 0 fr0 j) \/ ((0 <= j < i \/ nf <= j < k) /\ F j = at_ 0 fr j /\ exists i', 0 <= i' < i /\ fcv (F j) = at_ 0 fr0 i'))).
  { intros j Hj. unfold F. destruct (Z.eqb_spec j k); [auto|]. destruct (Z.eqb_spec j i); [auto|]. destruct (Z.ltb_spec i j), (Z.ltb_spec j nf); cbn [andb].
    - destruct (C1 j ltac:(lia)) as (Vc & _). destruct (mult_at _ _ _ _ _ IM IC _ Vc) as (v0 & v1 & Em & V0 & _ & F0 & _). rewrite Em. cbn [fst]. split; [exact V0|]. right. right. left. split; [lia | exact F0].
    - destruct (I4 j ltac:(lia)) as (X1 & X2 & X3). split; [exact X1|]. right. right. right. split; [lia|]. auto.
    - destruct (I4 j ltac:(lia)) as (X1 & X2 & X3). split; [exact X1|]. right. right. right. split; [lia|]. auto.
    - destruct (I4 j ltac:(lia)) as (X1 & X2 & X3). split; [exact X1|]. right. right. right. split; [lia|]. auto. }
  assert (k + 1 <= vertnnd s - b); [|lia]. apply (inj_count _ b (vertnnd s) F); try lia.
  - intros j Hj. apply (RK j Hj).
  - intros j j' Hj Hj' E. destruct (RK j Hj) as (_ & Kj), (RK j' Hj') as (_ & Kj').
    assert (CI : forall a c, 0 <= a < nf -> 0 <= c < nf -> at_ 0 fr0 a = at_ 0 fr0 c -> a = c) by exact C2.
    destruct Kj as [(J1 & J2)|[(J1 & J2)|[(J1 & J2)|(J1 & J2 & a & J3 & J4)]]], Kj' as [(J1' & J2')|[(J1' & J2')|[(J1' & J2')|(J1' & J2' & a' & J3' & J4')]]]; try lia; try congruence.
    all: try (exfalso; assert (at_ 0 fr0 i = at_ 0 fr0 j') by congruence; apply CI in H; lia).
    all: try (exfalso; assert (at_ 0 fr0 i = at_ 0 fr0 a') by congruence; apply CI in H; lia).
    all: try (exfalso; assert (at_ 0 fr0 i = at_ 0 fr0 j) by congruence; apply CI in H; lia).
    all: try (exfalso; assert (at_ 0 fr0 i = at_ 0 fr0 a) by congruence; apply CI in H; lia).
    + apply CI; try lia. congruence.
    + exfalso; assert (at_ 0 fr0 j = at_ 0 fr0 a') by congruence; apply CI in H; lia.
    + exfalso; assert (at_ 0 fr0 a = at_ 0 fr0 j') by congruence; apply CI in H; lia.
    + apply I5; auto. congruence.
Qed.

Lemma finv_two i fr k v w : 0 <= i < nf -> k < zlen (bfron g) -> finv i fr k -> isvert s v -> isvert s w -> v <> w -> fcv v = at_ 0 fr0 i -> fcv w = at_ 0 fr0 i -> fo v -> fo w ->
  (forall u, isvert s u -> fcv u = at_ 0 fr0 i -> u = v \/ u = w) -> finv (i + 1) (upd 0 (upd 0 fr i v) k w) (k + 1).
Proof.
  intros Hi Hk [I1 I2 I3 I4 I5 I6] Hv Hw Hne Fv Fw Ov Ow Un. destruct ch_fron as (_ & C1 & C2 & _).
  assert (A : forall j, 0 <= j -> at_ 0 (upd 0 (upd 0 fr i v) k w) j = if k =? j then w else if i =? j then v else at_ 0 fr j).
  { intros j Hj. rewrite at_upd by (rewrite ?zlen_upd; lia). destruct (k =? j); [reflexivity|]. rewrite at_upd by lia. reflexivity. }
  assert (ND : forall j, (0 <= j < i \/ nf <= j < k) -> at_ 0 fr j <> v /\ at_ 0 fr j <> w).
  { intros j Hj. destruct (I4 j Hj) as (_ & _ & i' & Hi' & X). split; intros E; rewrite E in X; [rewrite Fv in X | rewrite Fw in X]; apply C2 in X; lia. }
  constructor.
  - now rewrite !zlen_upd.
  - lia.
  - intros j Hj. rewrite A by lia. destruct (Z.eqb_spec k j); [lia|]. destruct (Z.eqb_spec i j); [lia|]. apply I3. lia.
  - intros j Hj. rewrite A by lia. destruct (Z.eqb_spec k j) as [<-|]; [split; [exact Hw|]; split; [exact Ow|]; exists i; split; [lia | exact Fw]|].
    destruct (Z.eqb_spec i j) as [<-|]; [split; [exact Hv|]; split; [exact Ov|]; exists i; split; [lia | exact Fv]|].
    destruct (I4 j ltac:(lia)) as (X1 & X2 & i' & Hi' & X). split; [exact X1|]. split; [exact X2|]. exists i'. split; [lia | exact X].
  - intros j j' Hj Hj'. rewrite !A by lia. destruct (Z.eqb_spec k j), (Z.eqb_spec k j'), (Z.eqb_spec i j), (Z.eqb_spec i j'); intros E; try lia; try congruence;
      try (exfalso; symmetry in E; revert E; apply ND; lia); try (exfalso; revert E; apply ND; lia); try (apply I5; auto; lia).
  - intros u Hu Fu (i' & Hi' & Eu). destruct (Z.eq_dec i' i) as [->|].
    + destruct (Un u Hu Eu) as [-> | ->].
      * exists i. split; [lia|]. rewrite A by lia. destruct (Z.eqb_spec k i); [lia|]. now rewrite Z.eqb_refl.
      * exists k. split; [lia|]. rewrite A by lia. now rewrite Z.eqb_refl.
    + destruct (I6 u Hu Fu) as (j & Hj & Ej); [exists i'; split; [lia | exact Eu]|]. exists j. split; [lia|]. rewrite A by lia. destruct (Z.eqb_spec k j); [lia|]. destruct (Z.eqb_spec i j); [lia | exact Ej].
Qed.

Lemma unc_fron : exists fr k, for_ 0 nf (fun i '(fr, k) =>
    do c <- rd 0 fr i;
    do '(v0, v1) <- rd b mult c;
    if negb (v0 =? v1) then
      do p <- rd (baseval (bs ch)) (bpart ch) c;
      do f0 <- mlbOther s pt p v0;
      if f0 : bool then
        do fr <- wr 0 fr i v0;
        do f1 <- mlbOther s pt p v1;
        if f1 : bool then do fr <- wr 0 fr k v1; Ok (fr, k + 1) else Ok (fr, k)
      else do fr <- wr 0 fr i v1; Ok (fr, k)
    else do fr <- wr 0 fr i v0; Ok (fr, k)) (bfron g, nf) = Ok (fr, k) /\ finv nf fr k.
Proof.
  pose proof (gv_nnd _ VG) as N1. pose proof (gv_size _ VG) as N2. destruct SC as [VC BC RC _ _]. pose proof (gv_nnd _ VC) as N3. pose proof (gv_size _ VC) as N4.
  pose proof (ic_base _ _ _ _ _ IC) as EB. pose proof (br_fron _ RG) as Zf. pose proof (br_part _ RC) as Zc. pose proof (proj1 (ic_mult _ _ _ _ _ IC)) as Zm.
  pose proof ch_fron as (Hn & C1 & C2 & C3). pose proof (br_fron _ RC) as Zfc.
  match goal with |- exists fr k, ?X = _ /\ _ => destruct (wp_ok_inv X (fun '(fr, k) => finv nf fr k)) as ((fr & k) & EX & H) end; [|exists fr, k; auto].
  apply wp_for with (I := fun i '(fr, k) => finv i fr k).
  - lia.
  - rewrite FR. constructor; [congruence | lia | reflexivity | intros; lia | intros; lia |]. intros v _ _ (i & Hi & _). lia.
  - intros i [fr k] Hi I. pose proof (fi_len _ _ _ I) as Zl. destruct (C1 i Hi) as (Vc & Oc). pose proof (fi_k _ _ _ I) as Hk.
    assert (Zn0 : nf <= zlen (bfron g)) by (rewrite FR; lia).
    rewrite rd_ok by lia. cbn [bind]. rewrite (fi_old _ _ _ I i) by lia. set (c := at_ 0 fr0 i) in *.
    destruct (mult_at _ _ _ _ _ IM IC c Vc) as (v0 & v1 & Em & V0 & V1 & F0 & F1 & G). pose proof Vc as Vc'. unfold isvert in Vc'.
    rewrite rd_ok by lia. cbn [bind]. rewrite Em. destruct (fo_down c Vc Oc) as (u & Vu & Fu & Ou). pose proof (proj1 (G u Vu) Fu) as Uu.
    destruct (Z.eqb_spec v0 v1) as [E01|E01]; cbn [negb].
    + rewrite wr_ok by lia. cbn [bind wp]. subst v1. assert (u = v0) by tauto. subst u. apply finv_one; auto. intros w Vw _ Fw. apply G in Fw; [tauto | exact Vw].
    + rewrite rd_ok by lia. cbn [bind]. fold (bp ch c). destruct (other_ok v0 c V0 F0) as (f0 & -> & Q0). cbn [bind]. destruct f0.
      * rewrite wr_ok by lia. cbn [bind]. destruct (other_ok v1 c V1 F1) as (f1 & -> & Q1). cbn [bind]. destruct f1.
        -- pose proof (finv_bound i fr k v0 v1 Hi I V0 V1 E01 F0 F1) as Hb. rewrite wr_ok by (rewrite zlen_upd; lia). cbn [bind wp].
           apply finv_two; auto; [lia | apply Q0; reflexivity | apply Q1; reflexivity|]. intros w Vw Fw. now apply G.
        -- cbn [wp]. apply finv_one; auto; [apply Q0; reflexivity|]. intros w Vw Ow Fw. apply G in Fw; [|exact Vw]. destruct Fw as [ | -> ]; [assumption|]. apply Q1 in Ow. discriminate.
      * rewrite wr_ok by lia. cbn [bind wp]. assert (N0 : ~ fo v0) by (intros X; apply Q0 in X; discriminate).
        destruct Uu as [ -> | -> ]; [contradiction|]. apply finv_one; auto. intros w Vw Ow Fw. apply G in Fw; [|exact Vw]. destruct Fw as [->|]; [contradiction | assumption].
  - intros [fr k] I. exact I.
Qed.
End Fron.

Lemma mlbUncoarsen_spec : exists h, mlbUncoarsen g ch mult = Ok h /\ bsame g h /\ bstate avg h /\ (forall v, isvert s v -> bp h v = bp ch (fcv v)) /\
  bld0 h = bld0 ch /\ bdlt h = bdlt ch /\ bcml h = bcml ch /\ bcmge h = bcmge ch.
Proof.
  unfold mlbUncoarsen. cbv zeta. destruct unc_part as (pt & sz1 & -> & Zpt & Ppt & Esz). cbn [bind].
  destruct (unc_fron pt Zpt Ppt) as (fr & k & -> & I). cbn [bind]. eexists. split; [reflexivity|]. match goal with |- bsame _ ?z /\ _ => set (h := z) end.
  pose proof (gv_nnd _ VG) as N1. pose proof (gv_size _ VG) as N2. pose proof (ic_base _ _ _ _ _ IC) as EB.
  destruct EQ as (Q1 & Q2 & Q3 & Q4 & Q5 & Q6 & Q7). destruct I as [I1 I2 I3 I4 I5 I6]. pose proof ch_fron as (Hn & C1 & C2 & C3).
  assert (PH : forall v, isvert s v -> bp h v = bp ch (fcv v)) by exact Ppt.
  split; [constructor; auto|]. split; [|auto 10]. pose proof SC as [VC BC RC GC (x & Hx & CC)]. constructor; auto.
  - destruct RG as [R1 R2 R3 R4 R5]. constructor; cbn [h bs bpart bfron bveex]; auto; try lia; intros v Hv; rewrite PH by exact Hv; destruct (ch_part _ (fcb v Hv)) as [-> | ->]; lia.
  - exists x. split; [cbn [h bfx0]; rewrite <- Q6; exact Hx|]. destruct CC as [A1 A2 A3 A4 A5 A6 A7 A8].
    cbn [unfix bs bavg bwg0 bwg1 bfx0 bfx1 bld0 bdlt bsz0 bcml bcmge bdist bcmle0 bfronnbr] in *.
    assert (Lo : forall f q, zsum b (vertnnd s) (fun v => if bp h v =? q then f v else 0) = zsum b (vertnnd s) (fun v => if bp ch (fcv v) =? q then f v else 0)) by (intros f q; apply zsum_ext; intros v Hv; now rewrite PH by exact Hv).
    assert (Ex : forall q, bext (unfix x h) q = bext (unfix x ch) q).
    { intros q. unfold bext. cbn [unfix h bs]. change (bp (unfix x h)) with (bp h). change (veex (unfix x h)) with (veex g). change (bp (unfix x ch)) with (bp ch). change (veex (unfix x ch)) with (veex ch).
      rewrite Lo. rewrite (by_group s (bs ch) mate fc mult IC). rewrite EB. apply zsum_ext. intros c Hc. destruct (Z.eqb_spec (bp ch c) q) as [E|E].
      - rewrite VX by (unfold isvert; rewrite EB; exact Hc). apply zsum_ext. intros v Hv. destruct (Z.eqb_spec (fcv v) c) as [->|]; [now rewrite E, Z.eqb_refl | reflexivity].
      - apply zsum_zero. intros v Hv. destruct (Z.eqb_spec (fcv v) c) as [->|]; [|reflexivity]. destruct (Z.eqb_spec (bp ch c) q); [contradiction | reflexivity]. }
    assert (On : forall v, isvert s v -> (onfront (unfix x h) v <-> fo v)).
    { intros v Hv. unfold onfront, fo. cbn [unfix h bs]. change (bp (unfix x h)) with (bp h). split; intros (e & Ha & Hd); exists e; (split; [exact Ha|]); pose proof (gv_end _ VG v e Ha) as He; [rewrite <- !PH by auto | rewrite !PH by auto]; exact Hd. }
    constructor; cbn [unfix h bs bavg bwg0 bwg1 bfx0 bfx1 bld0 bdlt bsz0 bcml bcmge bdist bcmle0 bfronnbr]; rewrite ?Ex.
    + change (bp (unfix x h)) with (bp h). intros v Hv. rewrite PH by exact Hv. exact (A1 _ (fcb v Hv)).
    + rewrite <- Q1, A2, Q4, Q5, Q6, Q7. unfold bgraphAvg. now rewrite (ic_velosum _ _ _ _ _ IC).
    + lia.
    + rewrite Esz. change (bsize (unfix x h) 0) with (zsum b (vertnnd s) (fun v => b2z (bp h v =? 0))).
      transitivity (zsum b (vertnnd s) (fun v => 1 + (-1) * b2z (bp ch (fcv v) =? 1))).
      * rewrite zsum_add, zsum_const, zsum_scale by lia. unfold zcount. lia.
      * apply zsum_ext. intros v Hv. rewrite PH by exact Hv. destruct (ch_part _ (fcb v Hv)) as [-> | ->]; reflexivity.
    + rewrite A5. unfold bload. cbn [unfix h bs]. change (bp (unfix x h)) with (bp h). change (bp (unfix x ch)) with (bp ch). rewrite Lo, EB. symmetry. exact (proj_load _ _ _ _ _ IC (fun c => bp ch c =? 0)).
    + rewrite A6, Q2, Q3. f_equal. f_equal. unfold bcut. cbn [unfix h bs]. change (bp (unfix x h)) with (bp h). change (bp (unfix x ch)) with (bp ch). rewrite EB.
      rewrite <- (proj_cut s (bs ch) mate fc mult VC IC (bp ch)). apply zsum_ext. intros v Hv. apply zsum_ext. intros e He. rewrite !PH; [reflexivity | exact (gv_end _ VG v e (conj Hv He)) | exact Hv].
    + exact A7.
    + change (bfr (unfix x h)) with (fun i => at_ 0 fr i). cbv beta. split; [lia|]. split; [|split].
      * intros i Hi. destruct (I4 i ltac:(lia)) as (X1 & X2 & _). split; [exact X1|]. now apply On.
      * intros i j Hi Hj. apply I5; lia.
      * intros v Hv Hf. apply On in Hf; [|exact Hv]. destruct (I6 v Hv Hf) as (j & Hj & Ej).
        { destruct (C3 (fcv v) (fcb v Hv) (fo_up v Hv Hf)) as (i & Hi & Ei). exists i. auto. }
        exists j. split; [lia | exact Ej].
Qed.
End Unc.
