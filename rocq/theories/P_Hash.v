(** Proofs about the linear-probing hash tables of mapping.c and kgraph_map_rb.c. *)
From Verif Require Import Base M_KgraphMap.

Lemma hashSize_pow n : 0 <= n -> exists q, 0 <= q /\ hashSize n = 2 ^ q /\ n < 2 ^ q.
Proof.
  intros Hn. unfold hashSize. destruct (Z.eqb_spec n 0) as [->|Hz]; [exists 2; repeat split; lia|].
  pose proof (Z.log2_nonneg n) as L0. exists (Z.log2 n + 1 + 2). split; [lia|]. split; [reflexivity|].
  pose proof (proj2 (Z.log2_spec n ltac:(lia))) as L1. rewrite Z.pow_add_r by lia. replace (Z.succ (Z.log2 n)) with (Z.log2 n + 1) in L1 by lia.
  change (2 ^ 2) with 4. lia.
Qed.

Definition hkey (tab : list (Z * Z)) (i : Z) : Z := fst (at_ 0 tab i).

Section Hash.
Context (q : Z) (Hq : 0 <= q).
Let siz := 2 ^ q.
Definition home (k : Z) : Z := (k * 17) mod 2 ^ q.

Definition path (tab : list (Z * Z)) (k i : Z) : Prop :=
  exists j, 0 <= j /\ i = (home k + j) mod siz /\ forall j', 0 <= j' < j -> hkey tab ((home k + j') mod siz) <> -1 /\ hkey tab ((home k + j') mod siz) <> k.

Record hash_ok (tab : list (Z * Z)) : Prop := {
  h_len : zlen tab = siz;
  h_path : forall i, 0 <= i < siz -> hkey tab i <> -1 -> path tab (hkey tab i) i;
  h_uniq : forall i j, 0 <= i < siz -> 0 <= j < siz -> hkey tab i <> -1 -> hkey tab i = hkey tab j -> i = j }.

Lemma siz_pos : 0 < siz. Proof. apply Z.pow_pos_nonneg; lia. Qed.
Lemma msk_mod x : Z.land x (siz - 1) = x mod siz.
Proof. replace (siz - 1) with (Z.ones q) by (rewrite Z.ones_equiv; unfold siz; lia). now apply Z.land_ones. Qed.
Lemma mod_rng x : 0 <= x mod siz < siz. Proof. apply Z.mod_pos_bound, siz_pos. Qed.

Lemma hash_init : hash_ok (repeat (-1, -1) (Z.to_nat siz)).
Proof.
  pose proof siz_pos as P. assert (K : forall i, 0 <= i < siz -> hkey (repeat (-1, -1) (Z.to_nat siz)) i = -1).
  { intros i Hi. unfold hkey. rewrite at_repeat by lia. reflexivity. }
  constructor; [rewrite zlen_repeat; lia| |]; intros i Hi; intros; exfalso; rewrite K in *; lia.
Qed.
Lemma hash_init_key i : 0 <= i < siz -> hkey (repeat (-1, -1) (Z.to_nat siz)) i = -1.
Proof. intros Hi. unfold hkey. rewrite at_repeat by lia. reflexivity. Qed.

Lemma hash_free tab (L : list Z) : hash_ok tab -> (forall i, 0 <= i < siz -> hkey tab i <> -1 -> In (hkey tab i) L) -> zlen L < siz ->
  exists i, 0 <= i < siz /\ hkey tab i = -1.
Proof.
  intros [H1 H2 H3] HL Hl.
  destruct (forallb (fun x => negb (fst x =? -1)) tab) eqn:F.
  - exfalso. rewrite forallb_forall in F.
    assert (Occ : forall i, 0 <= i < siz -> hkey tab i <> -1).
    { intros i Hi E. specialize (F (at_ 0 tab i) (at_In 0 tab i ltac:(lia))). unfold hkey in E. rewrite E in F. discriminate. }
    assert (M : forall i, 0 <= i < siz -> at_ 0 (map fst tab) i = hkey tab i) by (intros i Hi; rewrite at_map by lia; reflexivity).
    assert (ND : NoDup (map fst tab)).
    { apply (proj1 (NoDup_at 0 (map fst tab))). rewrite zlen_map. intros i j Hi Hj E. rewrite !M in E by lia. apply H3; auto; lia. }
    assert (IN : incl (map fst tab) L).
    { intros x Hx. apply (In_at 0) in Hx. destruct Hx as (i & Hi & <-). rewrite zlen_map in Hi. rewrite M by lia. apply HL; [lia|]. apply Occ. lia. }
    pose proof (NoDup_incl_length ND IN) as X. rewrite map_length in X. unfold zlen in *. lia.
  - assert (E : exists x, In x tab /\ fst x = -1).
    { clear - F. induction tab as [|a l IH]; [discriminate|]. cbn [forallb] in F. apply andb_false_iff in F. destruct F as [F|F].
      - exists a. split; [now left|]. destruct (Z.eqb_spec (fst a) (-1)); [assumption|discriminate].
      - destruct (IH F) as (x & Hx & E). exists x. split; [now right | exact E]. }
    destruct E as (x & Hx & E). apply (In_at 0) in Hx. destruct Hx as (i & Hi & Ei). exists i. split; [lia|]. unfold hkey. now rewrite Ei.
Qed.

Lemma probe_spec tab k : hash_ok tab -> k <> -1 -> (exists i, 0 <= i < siz /\ hkey tab i = -1) ->
  wp (probe (S (length tab)) tab (siz - 1) k) (fun h => 0 <= h < siz /\ path tab k h /\
    (hkey tab h = k \/ hkey tab h = -1 /\ forall i, 0 <= i < siz -> hkey tab i <> k)) noerr.
Proof.
  intros Ho Hk (f & Hf & Ff). pose proof siz_pos as P. destruct Ho as [H1 H2 H3]. unfold probe.
  apply wp_loop with (I := fun h => path tab k h) (m := fun h => (f - h) mod siz).
  - rewrite msk_mod. exists 0. split; [lia|]. split; [|intros; lia]. unfold home. fold siz. rewrite Z.add_0_r, Z.mod_mod by lia. reflexivity.
  - pose proof (mod_rng (f - Z.land (k * 17) (siz - 1))). unfold zlen in H1. lia.
  - intros h Hp. destruct Hp as (j & Hj & E & Pj). pose proof (mod_rng (home k + j)) as Hr. rewrite <- E in Hr. rewrite rd_ok by lia. cbn [bind].
    destruct (Z.eqb_spec (fst (at_ 0 tab h)) k) as [Ek|Nk].
    { cbn [wp]. split; [lia|]. split; [exists j; auto|]. now left. }
    destruct (Z.eqb_spec (fst (at_ 0 tab h)) (-1)) as [Em|Nm].
    { cbn [wp]. split; [lia|]. split; [exists j; auto|]. right. split; [exact Em|]. intros i Hi Ei.
      destruct (H2 i Hi ltac:(lia)) as (ji & Hji & Eji & Pji). rewrite Ei in Eji, Pji.
      destruct (Z.lt_trichotomy ji j) as [L|[L|L]].
      - apply (Pj ji); [lia|]. rewrite <- Eji. exact Ei.
      - subst ji. rewrite <- E in Eji. subst i. contradiction.
      - destruct (Pji j ltac:(lia)) as [X _]. rewrite <- E in X. contradiction. }
    cbn [wp]. split; [|split].
    + rewrite msk_mod. exists (j + 1). split; [lia|]. split; [rewrite E, Z.add_mod_idemp_l by lia; f_equal; lia|].
      intros j' Hj'. destruct (Z.eq_dec j' j) as [->|]; [rewrite <- E; auto|apply Pj; lia].
    + apply mod_rng.
    + rewrite msk_mod. rewrite Zminus_mod_idemp_r. 
      assert (Hne : h <> f) by (intros ->; contradiction).
      assert (X : (f - h) mod siz <> 0).
      { intros Z0. apply Z.mod_divide in Z0; [|lia]. destruct Z0 as [c Hc]. assert (c = 0) by nia. nia. }
      pose proof (mod_rng (f - h)) as Y. replace (f - (h + 1)) with ((f - h) - 1) by lia.
      rewrite <- (Zminus_mod_idemp_l (f - h)). rewrite (Z.mod_small ((f - h) mod siz - 1)) by lia. lia.
Qed.

Lemma path_upd tab k h x k' i : zlen tab = siz -> 0 <= h < siz -> k <> -1 -> hkey tab h = k \/ hkey tab h = -1 -> (forall j, 0 <= j < siz -> hkey tab j = k' -> k' = k -> j = h) ->
  (k' = k -> i = h) -> path tab k' i -> path (upd 0 tab h (k, x)) k' i.
Proof.
  intros L Hh Hk Hkh Hu Hi (j & Hj & E & Pj). exists j. split; [exact Hj|]. split; [exact E|]. intros j' Hj'. specialize (Pj j' Hj').
  pose proof (mod_rng (home k' + j')) as R. unfold hkey in *. rewrite at_upd by lia. destruct (Z.eqb_spec h ((home k' + j') mod siz)) as [Eh|Nh]; [|exact Pj].
  cbn [fst]. split; [exact Hk|]. intros Ek. subst k'. specialize (Hi eq_refl). subst i.
  (* the path to h passes h *) 
  rewrite <- Eh in Pj. destruct Hkh as [X|X]; rewrite X in Pj; tauto.
Qed.

Lemma hash_upd tab k h x : hash_ok tab -> k <> -1 -> 0 <= h < siz -> path tab k h ->
  hkey tab h = k \/ hkey tab h = -1 /\ (forall i, 0 <= i < siz -> hkey tab i <> k) ->
  hash_ok (upd 0 tab h (k, x)) /\ forall i, 0 <= i < siz -> at_ 0 (upd 0 tab h (k, x)) i = if h =? i then (k, x) else at_ 0 tab i.
Proof.
  intros Ho Hk Hh Hp Hc. pose proof Ho as [H1 H2 H3].
  assert (K : forall i, 0 <= i < siz -> at_ 0 (upd 0 tab h (k, x)) i = if h =? i then (k, x) else at_ 0 tab i).
  { intros i Hi. rewrite at_upd by lia. reflexivity. }
  split; [|exact K].
  assert (KK : forall i, 0 <= i < siz -> hkey (upd 0 tab h (k, x)) i = if h =? i then k else hkey tab i).
  { intros i Hi. unfold hkey. rewrite K by exact Hi. now destruct (h =? i). }
  assert (U : forall i, 0 <= i < siz -> hkey tab i = k -> i = h).
  { intros i Hi E. destruct Hc as [X|[_ X]]; [|now destruct (X i Hi)]. apply H3; auto; congruence. }
  constructor.
  - now rewrite zlen_upd.
  - intros i Hi. rewrite KK by exact Hi. destruct (Z.eqb_spec h i) as [<-|N].
    + intros _. apply path_upd; auto. tauto.
    + intros Ne. apply path_upd; auto; [tauto|].
      intros j Hj E1 E2. apply U; auto. congruence.
  - intros i j Hi Hj. rewrite !KK by assumption. destruct (Z.eqb_spec h i) as [<-|N1]; destruct (Z.eqb_spec h j) as [<-|N2]; auto.
    intros _ E. exfalso. apply N2. symmetry. apply U; auto.
Qed.
End Hash.
