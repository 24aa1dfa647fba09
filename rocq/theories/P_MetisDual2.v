(** Dual graphs through the METIS interface. *)
From Verif Require Import Base M_Graph S_Graph S_Color M_Mesh S_Mesh P_MeshGraph3 C_SrcMesh P_Vgraph M_MetisDual S_MetisDual S_Metis P_MetisDual.

Lemma dual_set_veis z m n : meshGraphDual (set_veis z m) n = meshGraphDual m n.
Proof. reflexivity. Qed.

Lemma telescope lo hi (f : Z -> Z) : lo <= hi -> zsum lo hi (fun v => f (v + 1) - f v) = f hi - f lo.
Proof. intros H. revert hi H. apply zrange_ind; [rewrite zsum_nil; lia|]. intros hi H IH. rewrite zsum_snoc by lia. lia. Qed.

(** the vertex array of the dual graph *)
Lemma dual_first m n gr : 0 <= velmnbr m -> meshGraphDual m n = Ok gr -> at_ (mbase m) (verttab gr) (mbase m) = mbase m /\ zlen (verttab gr) = velmnbr m + 1 /\ vendtab gr = None /\ edlotab gr = None.
Proof.
  intros Hn E. refine (wlp_elim _ (fun gr => at_ (mbase m) (verttab gr) (mbase m) = mbase m /\ zlen (verttab gr) = velmnbr m + 1 /\ vendtab gr = None /\ edlotab gr = None) gr _ E). clear E gr.
  unfold meshGraphDual. apply wlp_bind. destruct (meshHashSiz (mdegrmax m)) as [siz| | |]; try exact I. cbn [wlp]. apply wlp_bind.
  unfold meshRows. eapply wlp_for with (I := fun v '(vt, dm, st) => zlen vt = velmnbr m + 1 /\ (v = mbase m -> mnx st = mbase m) /\ (mbase m < v -> at_ (mbase m) vt (mbase m) = mbase m)).
  - lia.
  - split; [rewrite zlen_repeat; lia|]. split; [reflexivity|lia].
  - intros v [[vt dm] s] Hv (I1 & I2 & I3). rewrite wr_ok by lia. cbn [bind].
    repeat (match goal with |- wlp (bind ?r _) _ => destruct r; cbn [bind]; try exact I end). cbn [wlp].
    split; [rewrite zlen_upd; exact I1|]. split; [lia|]. intros _. rewrite at_upd by lia. destruct (v =? mbase m) eqn:E0; [apply I2; lia|]. apply I3. lia.
  - intros [[vt dm] s] (I1 & I2 & I3). apply wlp_bind. rewrite wr_ok by lia. cbn [wlp]. split; [|split; [cbn [verttab]; rewrite zlen_upd; exact I1|split; reflexivity]].
    cbn [verttab]. rewrite at_upd by lia. destruct (_ =? _) eqn:E0; [apply I2; lia|]. apply I3. lia.
Qed.

Lemma meshToDual_ok base nn ne eptr eind ncommon : elements base nn ne eptr eind -> 1 <= nn ->
  exists xadj adjncy, metisMeshToDual base nn ne eptr eind ncommon = Ok (xadj, adjncy) /\
    zlen xadj = ne + 1 /\ at_ base xadj base = base /\ zlen adjncy = at_ base xadj (base + ne) - base /\
    let g := csr base ne xadj adjncy None None in consistent g /\ graph_readable g /\
    forall e e', base <= e < base + ne -> base <= e' < base + ne ->
      (adjacent g e e' <-> e <> e' /\ exists k, sharing base eptr eind e e' k /\ 1 <= k /\ Z.min ncommon (Z.min (node_count base eptr e - 1) (node_count base eptr e' - 1)) <= k).
Proof.
  intros EL Hnn. pose proof (el_ne _ _ _ _ _ EL) as Hne. destruct (wp_ok_inv _ _ (metisMesh_ok base nn ne eptr eind EL Hnn)) as (m & Em & z & V & R & M1 & M2 & M3 & M4 & M5 & MI & MD).
  unfold metisMeshToDual. rewrite Em. cbn [bind]. destruct (C61_dual (set_veis z m) ncommon V R) as (gr & Eg & GR & G1 & G2 & GV & G3 & G4). rewrite dual_set_veis in Eg. rewrite Eg. cbn [bind].
  cbn [mbase velmnbr mvelosum velmbas set_veis] in *. rewrite M1 in *. rewrite M2 in *. rewrite M3 in *. rewrite M5 in *. specialize (GV eq_refl).
  destruct (dual_first m ncommon gr ltac:(lia) Eg) as (F1 & F2 & F3 & F4). rewrite M1, M3 in *.
  assert (NND : vertnnd gr = base + ne) by (rewrite (gv_nnd _ GV); lia).
  assert (VE : forall v, vend gr v = at_ base (verttab gr) (v + 1)) by (intros; unfold vend; rewrite F3, G1; reflexivity).
  assert (VT : forall v, vert gr v = at_ base (verttab gr) v) by (intros; unfold vert; rewrite G1; reflexivity).
  assert (EN : edgenbr gr = at_ base (verttab gr) (base + ne) - base).
  { rewrite (gv_edgenbr _ GV), NND, G1. rewrite (zsum_ext _ _ _ (fun v => at_ base (verttab gr) (v + 1) - at_ base (verttab gr) v)) by (intros; now rewrite VE, VT). rewrite telescope by lia. lia. }
  assert (E0 : 0 <= edgenbr gr). { rewrite (gv_edgenbr _ GV). apply zsum_nonneg. intros v Hv. pose proof (gv_range _ GV v Hv). lia. }
  assert (EZ : edgenbr gr <= zlen (edgetab gr)).
  { destruct (Z.eq_dec (edgenbr gr) 0) as [Y|Y]; [pose proof (zlen_nonneg (edgetab gr)); lia|].
    destruct (between (at_ base (verttab gr)) (base + edgenbr gr - 1) base (base + ne)) as (v & Hv & X); [lia|lia|].
    assert (A : arc gr v (base + edgenbr gr - 1)) by (unfold arc, isvert; rewrite VE, VT, G1, NND; lia). pose proof (gr_edge _ GR _ _ A). lia. }
  unfold dualCopy. rewrite G2, F2. replace (ne + 1 <? ne + 1) with false by lia. cbn [bind]. replace (zlen (edgetab gr) <? edgenbr gr) with false by lia. cbn [bind].
  set (xa := firstn (Z.to_nat (ne + 1)) (verttab gr)). set (aj := firstn (Z.to_nat (edgenbr gr)) (edgetab gr)).
  assert (XL : zlen xa = ne + 1) by (apply zlen_firstn; lia). assert (AL : zlen aj = edgenbr gr) by (apply zlen_firstn; lia).
  assert (XA : forall v, base <= v <= base + ne -> at_ base xa v = at_ base (verttab gr) v) by (intros; apply at_firstn; lia).
  assert (AJ : forall e, base <= e < base + edgenbr gr -> at_ base aj e = at_ base (edgetab gr) e) by (intros; apply at_firstn; lia).
  exists xa, aj. split; [reflexivity|]. split; [exact XL|]. split; [rewrite XA by lia; exact F1|]. split; [rewrite XA by lia; lia|]. cbv zeta.
  set (g := csr base ne xa aj None None).
  assert (IV : forall v, isvert g v <-> isvert gr v) by (intros; unfold isvert, g, csr; cbn [baseval vertnnd]; rewrite G1, NND; lia).
  assert (GVT : forall v, isvert gr v -> vert g v = vert gr v /\ vend g v = vend gr v).
  { intros v Hv. unfold isvert in Hv. rewrite NND, G1 in Hv. rewrite VE, VT. change (vert g v) with (at_ base xa v). change (vend g v) with (at_ base xa (v + 1)). rewrite !XA by lia. auto. }
  assert (MO : forall v w, base <= v -> v <= w -> w <= base + ne -> at_ base (verttab gr) v <= at_ base (verttab gr) w).
  { intros v w Hv H. revert w H. apply (zrange_ind (fun w => w <= base + ne -> at_ base (verttab gr) v <= at_ base (verttab gr) w)); [lia|]. intros w H IH Hw. specialize (IH ltac:(lia)).
    pose proof (gv_range _ GV w) as X. rewrite VE, VT in X. unfold isvert in X. rewrite NND, G1 in X. lia. }
  assert (AR : forall v e, arc g v e <-> arc gr v e).
  { intros v e. unfold arc. rewrite IV. split; intros [A B]; (split; [exact A|]); destruct (GVT v A) as [X Y]; [rewrite <- X, <- Y|rewrite X, Y]; exact B. }
  assert (ED : forall v e, arc gr v e -> edge g e = edge gr e /\ base <= e < base + edgenbr gr).
  { intros v e [Hv A]. unfold isvert in Hv. rewrite VE, VT, NND, G1 in *. pose proof (MO base v). pose proof (MO (v + 1) (base + ne)).
    assert (B : base <= e < base + edgenbr gr) by lia. split; [|exact B]. change (edge g e) with (at_ base aj e). unfold edge. rewrite G1. apply AJ. exact B. }
  split; [|split].
  - constructor.
    + exact Hne.
    + cbn. lia.
    + intros v Hv. apply IV in Hv. destruct (GVT v Hv) as [-> ->]. change (baseval g) with base. rewrite <- G1. now apply (gv_range _ GV).
    + intros v e A. apply AR in A. rewrite (proj1 (ED v e A)). apply IV. now apply (gv_end _ GV v).
    + intros v e A. apply AR in A. rewrite (proj1 (ED v e A)). now apply (gv_loop _ GV v).
    + intros v e e' A A'. apply AR in A, A'. rewrite (proj1 (ED v e A)), (proj1 (ED v e' A')). now apply (gv_simple _ GV v).
    + intros v e A. apply AR in A. rewrite (proj1 (ED v e A)). destruct (gv_sym _ GV v e A) as (e' & A' & X & _). exists e'. split; [now apply AR|]. split; [|reflexivity]. now rewrite (proj1 (ED _ e' A')).
    + intros. cbn. lia.
    + intros. cbn. lia.
  - constructor.
    + cbn [vertnbr vendtab verttab g csr]. fold xa. rewrite XL. destruct (0 <? ne); cbn; lia.
    + discriminate.
    + discriminate.
    + intros v e A. apply AR in A. change (edgetab g) with aj. change (baseval g) with base. rewrite AL. apply (ED v e A).
    + discriminate.
  - intros e e' He He'.
    assert (AD : adjacent g e e' <-> adjacent gr e e').
    { unfold adjacent. split; intros (k & A & B); exists k; [apply AR in A|apply (fun A => proj2 (AR e k) A) in A as A2]; [split; [exact A|]; rewrite <- B; symmetry; apply (ED _ _ A)|split; [exact A2|]; rewrite <- B; apply (ED _ _ A)]. }
    rewrite AD. specialize (G4 e e'). replace (e - base + base) with e in G4 by lia. replace (e' - base + base) with e' in G4 by lia.
    assert (EE : forall x, base <= x < base + ne -> elem (set_veis z m) x) by (intros; unfold elem; cbn; lia). rewrite (G4 (EE e He) (EE e' He')).
    change (mdegree (set_veis z m)) with (mdegree m). rewrite !MD by assumption.
    assert (CS : forall k, common (set_veis z m) e e' k <-> sharing base eptr eind e e' k).
    { intros k. unfold common, sharing. change (incident (set_veis z m)) with (incident m). split; intros (l & N & L & HI).
      - exists (map (fun x => x - ne) l). split; [apply FinFun.Injective_map_NoDup; [intros a b; lia|exact N]|]. split; [rewrite zlen_map; exact L|].
        intros x. rewrite in_map_iff. pose proof (MI e (x + ne) He) as A1. pose proof (MI e' (x + ne) He') as A2. replace (x + ne - ne) with x in A1, A2 by lia. rewrite <- A1, <- A2. 
        rewrite <- HI. split; [intros (y & <- & Y); replace (y - ne + ne) with y by lia; exact Y|intros Y; exists (x + ne); split; [lia|exact Y]].
      - exists (map (fun x => x + ne) l). split; [apply FinFun.Injective_map_NoDup; [intros a b; lia|exact N]|]. split; [rewrite zlen_map; exact L|].
        intros x. rewrite in_map_iff. rewrite !MI by assumption. rewrite <- HI. split; [intros (y & <- & Y); replace (y + ne - ne) with y by lia; exact Y|intros Y; exists (x - ne); split; [lia|exact Y]]. }
    split; intros (N & k & C & K); (split; [exact N|]); exists k; (split; [now apply CS|exact K]).
Qed.
