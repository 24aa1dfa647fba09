(** Neighbour-list view of graphs. *)
From Verif Require Import Base M_Graph S_Graph P_Graph.

Lemma In_nbr g v w l : In (w, l) (nbr g v) <-> exists e, vert g v <= e < vend g v /\ edge g e = w /\ edlo g e = l.
Proof.
  unfold nbr. rewrite in_map_iff. split.
  - intros (e & [= <- <-] & He%In_zseq). exists e. split; auto; lia.
  - intros (e & He & <- & <-). exists e. split; auto. apply In_zseq. lia.
Qed.

Lemma zlen_nbr g v : vert g v <= vend g v -> zlen (nbr g v) = vend g v - vert g v.
Proof. intros. unfold nbr. rewrite zlen_map, zlen_zseq; lia. Qed.

Lemma at_nbr g v k : 0 <= k < vend g v - vert g v -> at_ 0 (nbr g v) k = (edge g (vert g v + k), edlo g (vert g v + k)).
Proof.
  intros Hk. unfold nbr. rewrite at_map by (rewrite zlen_zseq; lia). rewrite at_zseq by lia. now rewrite Z.sub_0_r.
Qed.

Definition lsum {A} (f : A -> Z) (l : list A) : Z := fold_right (fun x s => f x + s) 0 l.
Lemma lsum_cons {A} (f : A -> Z) x l : lsum f (x :: l) = f x + lsum f l.
Proof. reflexivity. Qed.
Lemma lsum_app {A} (f : A -> Z) l l' : lsum f (l ++ l') = lsum f l + lsum f l'.
Proof. induction l; cbn [app]; rewrite ?lsum_cons; [reflexivity|]. rewrite IHl; lia. Qed.
Lemma lsum_zsum {A} `{Dflt A} (f : A -> Z) l : lsum f l = zsum 0 (zlen l) (fun i => f (at_ 0 l i)).
Proof.
  induction l as [|x l IH]; [reflexivity|]. rewrite lsum_cons, zlen_cons. pose proof (zlen_nonneg l).
  rewrite zsum_cons by lia. rewrite at_cons_0. f_equal. rewrite IH.
  change (0 + 1) with (0 + 1). rewrite <- (Z.add_comm (zlen l) 1). rewrite <- zsum_shift. apply zsum_ext. intros i Hi.
  rewrite at_cons_S by lia. f_equal. f_equal. lia.
Qed.
Lemma lsum_nbr g v : vert g v <= vend g v -> lsum snd (nbr g v) = zsum (vert g v) (vend g v) (edlo g).
Proof.
  intros Hle. rewrite lsum_zsum, zlen_nbr by auto.
  replace (vend g v) with (vend g v - vert g v + vert g v) at 2 by lia.
  replace (vert g v) with (0 + vert g v) at 2 by lia. rewrite <- zsum_shift. apply zsum_ext. intros i Hi.
  rewrite at_nbr by lia. cbn [snd]. f_equal. lia.
Qed.

Lemma nbr_simple g v : (forall e e', vert g v <= e < vend g v -> vert g v <= e' < vend g v -> edge g e = edge g e' -> e = e') <->
  NoDup (map fst (nbr g v)).
Proof.
  destruct (Z.le_gt_cases (vert g v) (vend g v)) as [Hle|Hgt].
  2:{ unfold nbr. rewrite zseq_0 by lia. split; [constructor|intros; lia]. }
  rewrite <- (NoDup_at 0). rewrite zlen_map, zlen_nbr by auto. 
  assert (E : forall k, 0 <= k < vend g v - vert g v -> at_ 0 (map fst (nbr g v)) k = edge g (vert g v + k)).
  { intros k Hk. rewrite at_map by (rewrite zlen_nbr; lia). rewrite at_nbr by lia. reflexivity. }
  split.
  - intros H i j Hi Hj. rewrite !E by lia. intros HE. specialize (H (vert g v + i) (vert g v + j)). lia.
  - intros H e e' He He' HE. specialize (H (e - vert g v) (e' - vert g v)). rewrite !E in H by lia.
    replace (vert g v + (e - vert g v)) with e in H by lia. replace (vert g v + (e' - vert g v)) with e' in H by lia.
    specialize (H ltac:(lia) ltac:(lia) HE). lia.
Qed.

(** A graph is valid when its neighbour lists are. *)
Lemma valid_of_nbr g :
  0 <= vertnbr g -> vertnnd g = baseval g + vertnbr g ->
  (forall v, isvert g v -> baseval g <= vert g v <= vend g v) ->
  (forall v w l, isvert g v -> In (w, l) (nbr g v) -> isvert g w /\ w <> v /\ 0 <= l /\ In (v, l) (nbr g w)) ->
  (forall v, isvert g v -> NoDup (map fst (nbr g v))) ->
  (forall v, isvert g v -> 0 <= velo g v) ->
  edgenbr g = zsum (baseval g) (vertnnd g) (fun v => zlen (nbr g v)) ->
  velosum g = zsum (baseval g) (vertnnd g) (velo g) ->
  edlosum g = zsum (baseval g) (vertnnd g) (fun v => lsum snd (nbr g v)) ->
  0 <= degrmax g -> (forall v, isvert g v -> zlen (nbr g v) <= degrmax g) ->
  graph_valid g.
Proof.
  intros H1 H2 H3 H4 H5 H6 H7 H8 H9 H10 H11.
  assert (IN : forall v e, arc g v e -> In (edge g e, edlo g e) (nbr g v)) by (intros v e [_ He]; apply In_nbr; eauto).
  constructor; auto.
  - intros v e A. pose proof (IN v e A) as HI. destruct A as [Hv _]. now apply (H4 v) in HI.
  - intros v e A. pose proof (IN v e A) as HI. destruct A as [Hv _]. now apply (H4 v) in HI.
  - intros v e e' [Hv He] [_ He'] E. apply (proj2 (nbr_simple g v)); auto.
  - intros v e A. pose proof (IN v e A) as HI. destruct A as [Hv He]. apply (H4 v) in HI as (Hw & _ & _ & HI); auto.
    apply In_nbr in HI as (e' & He' & E1 & E2). exists e'. split; [split; auto|auto].
  - rewrite H7. apply zsum_ext. intros v Hv. apply zlen_nbr. apply H3; auto.
  - intros v e A. pose proof (IN v e A) as HI. destruct A as [Hv _]. now apply (H4 v) in HI.
  - rewrite H9. apply zsum_ext. intros v Hv. apply lsum_nbr. apply H3; auto.
  - intros v Hv. rewrite <- zlen_nbr by (apply H3; auto). auto.
Qed.

Lemma nbr_of_valid g v w l : graph_valid g -> isvert g v -> In (w, l) (nbr g v) ->
  isvert g w /\ w <> v /\ 0 <= l /\ In (v, l) (nbr g w).
Proof.
  intros V Hv (e & He & <- & <-)%In_nbr. assert (A : arc g v e) by (split; auto).
  split; [eapply gv_end; eauto|]. split; [eapply gv_loop; eauto|]. split; [eapply gv_edlo; eauto|].
  destruct (gv_sym g V v e A) as (e' & [_ A'] & E1 & E2). apply In_nbr. exists e'. auto.
Qed.

Lemma nbr_NoDup g v : graph_valid g -> isvert g v -> NoDup (map fst (nbr g v)).
Proof. intros V Hv. apply nbr_simple. intros e e' He He' E. eapply gv_simple with (v := v); eauto; split; auto. Qed.

(** ** Compact graphs laid out from lists *)

(** start of the [i]-th list in the concatenation *)
Definition offs {A} (L : Z -> list A) (i : Z) : Z := zsum 0 i (fun k => zlen (L k)).

Lemma offs_0 {A} (L : Z -> list A) : offs L 0 = 0. Proof. apply zsum_nil; lia. Qed.
Lemma offs_S {A} (L : Z -> list A) i : 0 <= i -> offs L (i + 1) = offs L i + zlen (L i).
Proof. intros; unfold offs. now rewrite zsum_snoc by lia. Qed.
Lemma offs_mono {A} (L : Z -> list A) i j : 0 <= i <= j -> offs L i <= offs L j.
Proof. intros; unfold offs. apply zsum_mono; [lia|]. intros; apply zlen_nonneg. Qed.

Record laid_out (g : graph) (L : Z -> list (Z * Z)) : Prop := {
  lo_n : 0 <= vertnbr g;
  lo_nnd : vertnnd g = baseval g + vertnbr g;
  lo_compact : vendtab g = None;
  lo_vlen : vertnbr g + 1 <= zlen (verttab g);
  lo_vert : forall i, 0 <= i <= vertnbr g -> at_ (baseval g) (verttab g) (baseval g + i) = baseval g + offs L i;
  lo_elen : offs L (vertnbr g) <= zlen (edgetab g);
  lo_edge : forall i k, 0 <= i < vertnbr g -> 0 <= k < zlen (L i) -> edge g (baseval g + offs L i + k) = fst (at_ 0 (L i) k);
  lo_edlo : forall i k, 0 <= i < vertnbr g -> 0 <= k < zlen (L i) -> edlo g (baseval g + offs L i + k) = snd (at_ 0 (L i) k);
  lo_ellen : forall t, edlotab g = Some t -> offs L (vertnbr g) <= zlen t }.

Section Laid.
Context (g : graph) (L : Z -> list (Z * Z)) (LO : laid_out g L).

Lemma lo_vert' i : 0 <= i < vertnbr g -> vert g (baseval g + i) = baseval g + offs L i.
Proof. intros. unfold vert. apply (lo_vert g L LO). lia. Qed.
Lemma lo_vend' i : 0 <= i < vertnbr g -> vend g (baseval g + i) = baseval g + offs L i + zlen (L i).
Proof.
  intros. unfold vend. rewrite (lo_compact g L LO). rewrite <- Z.add_assoc.
  rewrite (lo_vert g L LO) by lia. rewrite offs_S; lia.
Qed.

Lemma laid_nbr i : 0 <= i < vertnbr g -> nbr g (baseval g + i) = L i.
Proof.
  intros Hi. pose proof (lo_vert' i Hi) as V. pose proof (lo_vend' i Hi) as E. pose proof (zlen_nonneg (L i)).
  apply (at_ext 0).
  - rewrite zlen_nbr; lia.
  - intros k. rewrite zlen_nbr by lia. intros Hk. rewrite at_nbr by lia. rewrite V.
    rewrite (lo_edge g L LO), (lo_edlo g L LO) by lia. now destruct (at_ 0 (L i) k).
Qed.

Lemma laid_range v : isvert g v -> baseval g <= vert g v <= vend g v.
Proof.
  intros [H1 H2]. rewrite (lo_nnd g L LO) in H2. replace v with (baseval g + (v - baseval g)) by lia.
  rewrite lo_vert', lo_vend' by lia. pose proof (zlen_nonneg (L (v - baseval g))).
  pose proof (offs_mono L 0 (v - baseval g)). rewrite offs_0 in *. lia.
Qed.

Lemma laid_readable : (forall t, velotab g = Some t -> vertnbr g <= zlen t) -> graph_readable g.
Proof.
  intros HV.
  assert (K : forall v e, arc g v e -> baseval g <= e < baseval g + offs L (vertnbr g)).
  { intros v e [[H1 H2] He]. rewrite (lo_nnd g L LO) in H2.
    replace v with (baseval g + (v - baseval g)) in He by lia.
    rewrite lo_vert', lo_vend' in He by lia.
    pose proof (offs_mono L 0 (v - baseval g) ltac:(lia)). rewrite offs_0 in *.
    pose proof (offs_mono L (v - baseval g + 1) (vertnbr g) ltac:(lia)). rewrite offs_S in * by lia. lia. }
  constructor.
  - pose proof (lo_vlen g L LO). rewrite (lo_compact g L LO). unfold b2z. destruct (0 <? vertnbr g); lia.
  - intros t. rewrite (lo_compact g L LO). discriminate.
  - exact HV.
  - intros v e A. specialize (K v e A). pose proof (lo_elen g L LO). lia.
  - intros t v e Et A. specialize (K v e A). pose proof (lo_ellen g L LO t Et). lia.
Qed.

Lemma laid_valid :
  (forall i w l, 0 <= i < vertnbr g -> In (w, l) (L i) ->
     baseval g <= w < vertnnd g /\ w <> baseval g + i /\ 0 <= l /\ In (baseval g + i, l) (L (w - baseval g))) ->
  (forall i, 0 <= i < vertnbr g -> NoDup (map fst (L i))) ->
  (forall v, isvert g v -> 0 <= velo g v) ->
  edgenbr g = offs L (vertnbr g) ->
  velosum g = zsum (baseval g) (vertnnd g) (velo g) ->
  edlosum g = zsum 0 (vertnbr g) (fun i => lsum snd (L i)) ->
  0 <= degrmax g -> (forall i, 0 <= i < vertnbr g -> zlen (L i) <= degrmax g) ->
  graph_valid g.
Proof.
  intros H1 H2 H3 H4 H5 H6 H7 H8.
  pose proof (lo_n g L LO) as Hn. pose proof (lo_nnd g L LO) as Hnd.
  assert (NB : forall v, isvert g v -> nbr g v = L (v - baseval g)).
  { intros v [Hv1 Hv2]. rewrite <- laid_nbr by lia. f_equal. lia. }
  assert (ZS : forall f, zsum (baseval g) (vertnnd g) f = zsum 0 (vertnbr g) (fun i => f (i + baseval g))).
  { intros f. rewrite zsum_shift. f_equal; lia. }
  apply valid_of_nbr; auto.
  - apply laid_range.
  - intros v w l Hv. rewrite NB by auto. intros HI. destruct Hv as [Hv1 Hv2].
    destruct (H1 (v - baseval g) w l ltac:(lia) HI) as (K1 & K2 & K3 & K4).
    split; [auto|]. split; [lia|]. split; [auto|]. rewrite NB by auto.
    now replace (baseval g + (v - baseval g)) with v in K4 by lia.
  - intros v Hv. rewrite NB by auto. apply H2. destruct Hv; lia.
  - rewrite H4, ZS. unfold offs. apply zsum_ext. intros i Hi. rewrite NB by (unfold isvert; lia). do 2 f_equal. lia.
  - rewrite H6, ZS. apply zsum_ext. intros i Hi. rewrite NB by (unfold isvert; lia). do 2 f_equal. lia.
  - intros v Hv. rewrite NB by auto. apply H8. destruct Hv; lia.
Qed.
End Laid.
