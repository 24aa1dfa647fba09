(** Properties C52-C55: graph partitioning by recursive bipartitioning. *)
From Coq Require Import Permutation.
From Verif Require Import Base M_Graph M_Bgraph M_Arch M_Induce M_KgraphMap
  S_Graph S_Bgraph S_Arch S_Induce S_KgraphMap P_Graph P_Vgraph P_Arch P_Hash P_KgraphMap P_KgraphMap2 P_KgraphMap3 P_KgraphMap4 P_KgraphMap5 C_Graph.

Lemma cmplt_ok n : 1 <= n -> arch_ok n (cwf n) cmem (cmplt n).
Proof.
  intros Hn. constructor; cbn [cmplt a_var a_frst a_size a_wght a_bip a_num a_term a_incl a_dist].
  - reflexivity.
  - now apply cmplt_frst.
  - apply cmplt_size.
  - intros d W. destruct (cmplt_size n d W) as (k & -> & _). eauto.
  - apply cmplt_bipart.
  - intros d W. destruct (cmplt_num n d W) as (t & -> & M & _). eauto.
  - apply cmplt_term.
  - apply cmplt_incl.
  - intros d d' W W'. destruct (cmplt_dist_sym n d d' W W') as (x & -> & _). eauto.
Qed.

(** C52: partitioning puts each vertex in one of the parts, and nothing else is written *)
Theorem C52_graphPart :
  forall jkd jk al avg kavg lim bip g n part, 1 <= al <= 2 -> bip_ok avg bip ->
    graph_valid g -> graph_readable g -> 0 <= baseval g -> vnumtab g = None -> 1 <= n -> vertnbr g <= zlen part ->
    exists part', graphPart jkd jk al avg kavg lim bip g n part = Ok (0, part') /\ zlen part' = zlen part /\
      (forall v, isvert g v -> 0 <= at_ (baseval g) part' v < n) /\
      (forall i, vertnbr g <= i < zlen part -> at_ 0 part' i = at_ 0 part i).
Proof.
  intros jkd jk al avg kavg lim bip g n part Hal BO V R B0 VN Hn L.
  destruct (wp_ok_inv _ _ (compute_spec n (cwf n) cmem (cmplt n) (cmplt_ok n Hn) jkd jk al Hal avg kavg lim bip (S (Z.to_nat n)) g part None None 1 1 0
    (fun dt Ed _ => bip_any (cwf n) (cmplt n) avg kavg lim bip dt BO (eq_rect_r (fun x => 0 <= baseval x) B0 Ed))
    V R B0 VN ltac:(lia) L (or_introl eq_refl) ltac:(discriminate) ltac:(discriminate))) as ([rc p'] & E & -> & Lp & P1 & _ & P2).
  exists p'. auto.
Qed.
Print Assumptions C52_graphPart.

(** C53: the same with fixed vertices, which stay in the part they are fixed in *)
Definition fixed_in (n : Z) (g : graph) (part : list Z) : Prop :=
  vertnbr g <= zlen part /\ forall v, isvert g v -> at_ (baseval g) part v = -1 \/ 0 <= at_ (baseval g) part v < n.
Theorem C53_graphPartFixed :
  forall jkd jk al avg kavg lim bip g n part, 1 <= al <= 2 -> bip_ok avg bip ->
    graph_valid g -> graph_readable g -> 0 <= baseval g -> vnumtab g = None -> 1 <= n -> fixed_in n g part ->
    (exists v, isvert g v /\ 0 <= at_ (baseval g) part v /\ velo g v <> 0) ->
    exists part', graphPartFixed jkd jk al avg kavg lim bip g n part = Ok (0, part') /\ zlen part' = zlen part /\
      (forall v, isvert g v -> 0 <= at_ (baseval g) part' v < n) /\
      (forall v, isvert g v -> 0 <= at_ (baseval g) part v -> at_ (baseval g) part' v = at_ (baseval g) part v) /\
      (forall i, vertnbr g <= i < zlen part -> at_ 0 part' i = at_ 0 part i).
Proof.
  intros jkd jk al avg kavg lim bip g n part Hal BO V R B0 VN Hn FX HX. unfold graphPartFixed.
  destruct (wp_ok_inv _ _ (fixedNbr_spec n g part V FX)) as (f & -> & Ef). cbn [bind].
  assert (PF : 0 < f).
  { destruct HX as (v & Hv & Hp & _). subst f. unfold nfix. pose proof (gv_nnd _ V).
    assert (In v (filter (fun v => 0 <=? at_ (baseval g) part v) (vlist g))) as X by (apply filter_In; split; [apply In_zseq; unfold isvert in Hv; lia | lia]).
    destruct (filter (fun v => 0 <=? at_ (baseval g) part v) (vlist g)) as [|y l]; [destruct X|]. rewrite zlen_cons. pose proof (zlen_nonneg l). lia. }
  destruct (wp_ok_inv _ _ (compute_spec n (cwf n) cmem (cmplt n) (cmplt_ok n Hn) jkd jk al Hal avg kavg lim bip (S (Z.to_nat n)) g part None None 1 1 f
    (fun dt Ed _ => bip_any (cwf n) (cmplt n) avg kavg lim bip dt BO (eq_rect_r (fun x => 0 <= baseval x) B0 Ed))
    V R B0 VN ltac:(lia) (proj1 FX) (or_intror (conj FX (conj Ef HX))) ltac:(discriminate) ltac:(discriminate))) as ([rc p'] & E & -> & Lp & P1 & P3 & P2).
  exists p'. split; [exact E|]. split; [exact Lp|]. split; [exact P1|]. split; [now apply P3 | exact P2].
Qed.
Print Assumptions C53_graphPartFixed.

(** The same from an old partition, with or without fixed vertices *)
Theorem C53_graphRepart :
  forall jkd jk al avg kavg lim bip g n old vmlo cr cm part, 1 <= al <= 2 -> bip_ok avg bip ->
    graph_valid g -> graph_readable g -> 0 <= baseval g -> vnumtab g = None -> 1 <= n -> vertnbr g <= zlen part ->
    fixed_in n g old -> (forall l, vmlo = Some l -> vertnbr g <= zlen l) ->
    exists part', graphRepart jkd jk al avg kavg lim bip g n old vmlo cr cm part = Ok (0, part') /\ zlen part' = zlen part /\
      (forall v, isvert g v -> 0 <= at_ (baseval g) part' v < n) /\
      (forall i, vertnbr g <= i < zlen part -> at_ 0 part' i = at_ 0 part i).
Proof.
  intros jkd jk al avg kavg lim bip g n old vmlo cr cm part Hal BO V R B0 VN Hn L FO HM.
  destruct (wp_ok_inv _ _ (compute_spec n (cwf n) cmem (cmplt n) (cmplt_ok n Hn) jkd jk al Hal avg kavg lim bip (S (Z.to_nat n)) g part (Some old) vmlo cr cm 0
    (fun dt Ed _ => bip_any (cwf n) (cmplt n) avg kavg lim bip dt BO (eq_rect_r (fun x => 0 <= baseval x) B0 Ed))
    V R B0 VN ltac:(lia) L (or_introl eq_refl) ltac:(intros o [= <-]; exact FO) HM)) as ([rc p'] & E & -> & Lp & P1 & _ & P2).
  exists p'. auto.
Qed.
Print Assumptions C53_graphRepart.

Theorem C53_graphRepartFixed :
  forall jkd jk al avg kavg lim bip g n old vmlo cr cm part, 1 <= al <= 2 -> bip_ok avg bip ->
    graph_valid g -> graph_readable g -> 0 <= baseval g -> vnumtab g = None -> 1 <= n -> fixed_in n g part ->
    (exists v, isvert g v /\ 0 <= at_ (baseval g) part v /\ velo g v <> 0) ->
    fixed_in n g old -> (forall l, vmlo = Some l -> vertnbr g <= zlen l) ->
    exists part', graphRepartFixed jkd jk al avg kavg lim bip g n old vmlo cr cm part = Ok (0, part') /\ zlen part' = zlen part /\
      (forall v, isvert g v -> 0 <= at_ (baseval g) part' v < n) /\
      (forall v, isvert g v -> 0 <= at_ (baseval g) part v -> at_ (baseval g) part' v = at_ (baseval g) part v) /\
      (forall i, vertnbr g <= i < zlen part -> at_ 0 part' i = at_ 0 part i).
Proof.
  intros jkd jk al avg kavg lim bip g n old vmlo cr cm part Hal BO V R B0 VN Hn FX HX FO HM. unfold graphRepartFixed.
  destruct (wp_ok_inv _ _ (fixedNbr_spec n g part V FX)) as (f & -> & Ef). cbn [bind].
  assert (PF : 0 < f).
  { destruct HX as (v & Hv & Hp & _). subst f. unfold nfix. pose proof (gv_nnd _ V).
    assert (In v (filter (fun v => 0 <=? at_ (baseval g) part v) (vlist g))) as X by (apply filter_In; split; [apply In_zseq; unfold isvert in Hv; lia | lia]).
    destruct (filter (fun v => 0 <=? at_ (baseval g) part v) (vlist g)) as [|y l]; [destruct X|]. rewrite zlen_cons. pose proof (zlen_nonneg l). lia. }
  destruct (wp_ok_inv _ _ (compute_spec n (cwf n) cmem (cmplt n) (cmplt_ok n Hn) jkd jk al Hal avg kavg lim bip (S (Z.to_nat n)) g part (Some old) vmlo cr cm f
    (fun dt Ed _ => bip_any (cwf n) (cmplt n) avg kavg lim bip dt BO (eq_rect_r (fun x => 0 <= baseval x) B0 Ed))
    V R B0 VN ltac:(lia) (proj1 FX) (or_intror (conj FX (conj Ef HX))) ltac:(intros o [= <-]; exact FO) HM)) as ([rc p'] & E & -> & Lp & P1 & P3 & P2).
  exists p'. split; [exact E|]. split; [exact Lp|]. split; [exact P1|]. split; [now apply P3 | exact P2].
Qed.
Print Assumptions C53_graphRepartFixed.

(** C54: on any architecture of fixed size, recursive bipartitioning ends with a mapping of every vertex onto
    a terminal, distinct domains being distinct terminals, fixed vertices being on theirs; and the frontier, the loads and
    the communication load recorded are those of this mapping *)
Theorem C54_kgraphMapRb :
  forall D (DD : Dflt D) N wf mem (A : arch D) jkd jk al avg kavg lim bip fuel k,
    arch_ok N wf mem A -> 1 <= al <= 2 -> bip_on avg (subproblem wf A (kdt k)) bip ->
    dt_ok N wf (kdt k) -> 0 <= baseval (rb_org (kdt k)) -> vnumtab (rb_org (kdt k)) = None -> N <= Z.of_nat fuel ->
    vertnbr (rb_org (kdt k)) <= zlen (m_part (kmap k)) -> vertnbr (rb_org (kdt k)) <= zlen (kfron k) ->
    (forall pf, rb_pfix (kdt k) = Some pf ->
       kvfix k = zlen (filter (fun v => 0 <=? at_ (baseval (rb_org (kdt k))) pf v) (zseq (baseval (rb_org (kdt k))) (vertnbr (rb_org (kdt k))))) /\
       exists v, isvert (rb_org (kdt k)) v /\ 0 <= at_ (baseval (rb_org (kdt k))) pf v /\ velo (rb_org (kdt k)) v <> 0) ->
    exists k', kgraphMapRb jkd jk al avg kavg lim A bip fuel k = Ok (0, k') /\ kdt k' = kdt k /\
      map_ok N wf mem (rb_org (kdt k)) (kmap k') /\ k_ok A k' /\
      forall pf v, rb_pfix (kdt k) = Some pf -> isvert (rb_org (kdt k)) v -> 0 <= at_ (baseval (rb_org (kdt k))) pf v ->
        mem (mdom (kmap k') (mp (rb_org (kdt k)) (kmap k') v)) (at_ (baseval (rb_org (kdt k))) pf v).
Proof.
  intros D DD N wf mem A jkd jk al avg kavg lim bip fuel k AO Hal BO DO B0 VN HF Lm Lf HP.
  destruct (wp_ok_inv _ _ (kgraphMapRb_spec N wf mem A AO jkd jk al Hal avg kavg lim bip fuel k BO DO B0 VN HF Lm Lf HP)) as ([rc k'] & E & -> & K1 & _ & _ & K2 & K3 & K4).
  exists k'. auto.
Qed.
Print Assumptions C54_kgraphMapRb.

(** Terminal numbers turned into a mapping come back *)
Theorem C54_mapping_round_trip :
  forall D (DD : Dflt D) N wf mem (A : arch D) jkd g (term out : list Z) m, arch_ok N wf mem A ->
    graph_valid g -> vertnbr g <= zlen term -> vertnbr g <= zlen (m_part m) -> m_nbr m = 0 -> vertnbr g <= zlen out ->
    (forall v, isvert g v -> 0 <= at_ (baseval g) term v < N) ->
    exists m' out', mapBuild jkd A g term m = Ok m' /\ map_ok N wf mem g m' /\ mapTerm A g m' out = Ok out' /\
      forall v, isvert g v -> at_ (baseval g) out' v = at_ (baseval g) term v.
Proof.
  intros D DD N wf mem A jkd g term out m AO V Lt Lm Nm Lo HT.
  destruct (wp_ok_inv _ _ (mapBuild_spec N wf mem A AO jkd g term m V Lt Lm Nm (fun v Hv => or_intror (HT v Hv)))) as (m' & E & L' & [D1 D2 D3] & P).
  assert (PP : forall v, isvert g v -> 0 <= mp g m' v < m_nbr m' /\ mem (mdom m' (mp g m' v)) (at_ (baseval g) term v)).
  { intros v Hv. specialize (P v Hv). specialize (HT v Hv). destruct (Z.eqb_spec (at_ (baseval g) term v) (-1)); [lia | exact P]. }
  assert (MO : map_ok N wf mem g m') by (constructor; auto; [lia | intros v Hv; now apply PP]).
  destruct (wp_ok_inv _ _ (mapTerm_spec N wf mem A AO g m' out V MO Lo)) as (out' & E' & _ & P1 & _).
  exists m', out'. split; [exact E|]. split; [exact MO|]. split; [exact E'|]. intros v Hv. destruct (P1 v Hv) as [_ M]. destruct (PP v Hv) as [Hp M'].
  destruct (D2 _ Hp) as (_ & t & _ & Et). apply Et in M. apply Et in M'. congruence.
Qed.
Print Assumptions C54_mapping_round_trip.

(** C55: the bipartition problem built at each step, which recursive bipartitioning hands to the bipartitioning method (C54
    only asks the method to succeed on such problems), is exact: the subgraph, the loads, the distance and the weights of
    the two halves, the costs of edges to fixed vertices and of migration *)
Theorem C55_problem_exact :
  forall D (DD : Dflt D) N wf mem (A : arch D) jk avg dt act d d0 d1 f0 f1,
    arch_ok N wf mem A -> dt_ok N wf dt -> subg (rb_org dt) act ->
    (forall pf, rb_pfix dt = Some pf -> vnumtab act <> None /\ forall v, isvert act v -> at_ (baseval (rb_org dt)) pf (orig act v) < 0) ->
    wf d -> a_bip A d = Ok (d0, d1) -> wf d0 -> wf d1 ->
    exists g, rbBgraph jk avg A dt act d0 d1 f0 f1 = Ok g /\ problem wf A dt g /\ bg_valid avg g.
Proof.
  intros D DD N wf mem A jk avg dt act d d0 d1 f0 f1 AO O S U Wd Eb W0 W1.
  destruct (wp_ok_inv _ _ (rbBgraph_spec N wf mem A AO d0 jk avg avg (fun _ _ => (0, 0)) (fun g => Ok (0, g)) dt act d d0 d1 f0 f1 O S U Wd Eb W0 W1)) as (g & E & _ & _ & V & P & _). eauto.
Qed.
Print Assumptions C55_problem_exact.

(** ** Findings *)
(** The loads of fixed vertices handed to the bipartitioning method are wrong: with a terminal in each half, the load
    of the first is also counted for the second; with a single terminal, none is counted. *)
Theorem C55_fixed_loads_refuted :
  (exists tab d d0 d1 tab' n0 n1 w0 w1, a_bip (cmplt 2) d = Ok (d0, d1) /\ vfloSplit (cmplt 2) d0 d1 tab = Ok (tab', n0, n1, w0, w1) /\
    fixload (fun t => t =? 0) tab = 5 /\ fixload (fun t => t =? 1) tab = 3 /\ w0 = 5 /\ w1 = 8) /\
  (exists tab d d0 d1 tab' n0 n1 w0 w1, a_bip (cmplt 2) d = Ok (d0, d1) /\ vfloSplit (cmplt 2) d0 d1 tab = Ok (tab', n0, n1, w0, w1) /\
    fixload (fun t => t =? 0) tab = 5 /\ fixload (fun t => t =? 1) tab = 0 /\ w0 = 0 /\ w1 = 0) /\
  (exists tab d d0 d1 tab' w0 w1, a_bip (cmplt 4) d = Ok (d0, d1) /\ vfloSplit (cmplt 4) d0 d1 tab = Ok (tab', 2, 2, w0, w1) /\ map fst tab' = [0; 1; 2; 3] /\
    fixload (fun t => t <? 2) tab = 9 /\ fixload (fun t => 2 <=? t) tab = 15 /\ w0 = 9 /\ w1 = 22).
Proof.
  split; [|split]; [exists [(0, 5); (1, 3)], (mkc 0 2) | exists [(0, 5)], (mkc 0 2) | exists [(3, 10); (1, 7); (2, 5); (0, 2)], (mkc 0 4)]; repeat eexists; vm_compute; reflexivity.
Qed.
Print Assumptions C55_fixed_loads_refuted.

(** On variable-sized architectures, the slots are sorted and the loads are right. *)
Theorem C55_variable_fixed_loads :
  forall D (DD : Dflt D) (A : arch D) d0 d1 (in0 in1 : Z -> bool) tab, a_var A = true ->
    (forall x, In x tab -> exists d, a_term A (fst x) = Ok d /\ a_incl A d0 d = Ok (in0 (fst x)) /\ a_incl A d1 d = Ok (in1 (fst x))) ->
    (forall t, in0 t = true -> in1 t = true -> False) ->
    exists tab' n0 n1, vfloSplit A d0 d1 tab = Ok (tab', n0, n1, fixload in0 tab, fixload in1 tab) /\ Permutation tab tab' /\
      0 <= n0 /\ 0 <= n1 /\ n0 + n1 <= zlen tab /\
      forall i, 0 <= i < zlen tab -> in0 (fst (at_ 0 tab' i)) = (i <? n0) /\ in1 (fst (at_ 0 tab' i)) = ((n0 <=? i) && (i <? n0 + n1)).
Proof.
  intros D DD A d0 d1 in0 in1 tab HV HT HX. destruct (wp_ok_inv _ _ (splitVar_spec A d0 d1 in0 in1 tab HT HX)) as ([[[[t n0] n1] w0] w1] & E & H1 & H2 & H3 & H4 & H5 & -> & ->).
  exists t, n0, n1. unfold vfloSplit. rewrite HV. split; [exact E|]. split; [exact H1|]. split; [exact H2|]. split; [exact H3|]. split; [exact H4 | exact H5].
Qed.
Print Assumptions C55_variable_fixed_loads.
Definition vcm : arch vdom :=
  mkarch true archVDomFrst archVDomSize archVDomSize (archVDomBipart 32) archVDomNum archVDomTerm archVDomIncl archVcmpltDomDist.
Example C55_variable_example : exists tab', vfloSplit vcm (mkv 1 2) (mkv 1 3) [(6, 10); (1, 7); (4, 5); (5, 2); (3, 1)] = Ok (tab', 2, 2, 7, 11) /\
  Permutation [(6, 10); (1, 7); (4, 5); (5, 2); (3, 1)] tab'.
Proof.
  eexists. split; [vm_compute; reflexivity|]. apply NoDup_Permutation.
  - repeat constructor; cbn; intuition congruence.
  - repeat constructor; cbn; intuition congruence.
  - intros x. cbn. tauto.
Qed.
(** Search in a full table that lacks the key does not end. *)
Lemma probe_full q tab k : 0 <= q -> zlen tab = 2 ^ q -> (forall i, 0 <= i < zlen tab -> fst (at_ 0 tab i) <> -1 /\ fst (at_ 0 tab i) <> k) ->
  forall fuel, probe fuel tab (2 ^ q - 1) k = Fuel.
Proof.
  intros Hq L H. pose proof (Z.pow_pos_nonneg 2 q ltac:(lia) Hq) as P. assert (M : forall x, 0 <= Z.land x (2 ^ q - 1) < zlen tab).
  { intros x. replace (2 ^ q - 1) with (Z.ones q) by (rewrite Z.ones_equiv; lia). rewrite Z.land_ones by lia. rewrite L. apply Z.mod_pos_bound. lia. }
  intros fuel. unfold probe. generalize (M (k * 17)). generalize (Z.land (k * 17) (2 ^ q - 1)). induction fuel as [|f IH]; intros h Hh; [reflexivity|]. cbn [loop].
  rewrite rd_ok by lia. cbn [bind]. destruct (H h Hh) as [H1 H2]. destruct (Z.eqb_spec (fst (at_ 0 tab h)) k); [contradiction|]. destruct (Z.eqb_spec (fst (at_ 0 tab h)) (-1)); [contradiction|].
  cbn [bind]. apply IH. apply M.
Qed.
(** A bipartitioning method: the first half of the vertices in part 0 *)
Definition halve (g : bgraph) : res (Z * bgraph) :=
  let s := bs g in let n0 := vertnbr s / 2 in
  Ok (0, mkbgraph s (bveex g) (repeat 0 (Z.to_nat n0) ++ repeat 1 (Z.to_nat (vertnbr s - n0))) (bfron g) (bfronnbr g) (bmin g) (bmax g) (bavg g) (bdlt g) (bld0 g) n0
            (bcml g) (bcmle0 g) (bcmge0 g) (bcmge g) (bbal g) (bdist g) (bwg0 g) (bwg1 g) (bfx0 g) (bfx1 g)).
Lemma halve_on avg Q : bip_on avg Q halve.
Proof.
  intros g _ V R _. pose proof (gv_size _ V) as Z0. pose proof (gv_nnd _ V) as Nn. unfold halve. cbv zeta.
  set (n0 := vertnbr (bs g) / 2). assert (Hn : 0 <= n0 <= vertnbr (bs g)) by (unfold n0; split; [apply Z.div_pos; lia | apply Z.div_le_upper_bound; lia]).
  eexists. split; [reflexivity|]. cbn [bs bpart bsz0]. split; [reflexivity|].
  assert (AT : forall v, baseval (bs g) <= v < vertnnd (bs g) -> at_ (baseval (bs g)) (repeat 0 (Z.to_nat n0) ++ repeat 1 (Z.to_nat (vertnbr (bs g) - n0))) v = if v <? baseval (bs g) + n0 then 0 else 1).
  { intros v Hv. destruct (Z.ltb_spec v (baseval (bs g) + n0)).
    - rewrite at_app1 by (rewrite zlen_repeat; lia). apply at_repeat. lia.
    - rewrite at_app2 by (rewrite zlen_repeat; lia). rewrite zlen_repeat. apply at_repeat. lia. }
  split; [rewrite zlen_app, !zlen_repeat; lia|]. split.
  - intros v Hv. unfold bp. cbn [bs bpart]. rewrite AT by exact Hv. destruct (v <? baseval (bs g) + n0); auto.
  - unfold bsize, bp. cbn [bs bpart]. rewrite Nn.
    set (cn := fun k => zcount (baseval (bs g)) (baseval (bs g) + k) (fun v => at_ (baseval (bs g)) (repeat 0 (Z.to_nat n0) ++ repeat 1 (Z.to_nat (vertnbr (bs g) - n0))) v =? 0)).
    assert (X : forall k, n0 <= k -> k <= vertnbr (bs g) -> cn k = n0).
    { apply (zrange_ind (fun k => k <= vertnbr (bs g) -> cn k = n0)).
      - intros _. unfold cn. rewrite zcount_all; [lia | lia|]. intros v Hv. rewrite AT by lia. destruct (Z.ltb_spec v (baseval (bs g) + n0)); [reflexivity | lia].
      - intros k Hk IH Hk2. specialize (IH ltac:(lia)). unfold cn in *. rewrite Z.add_assoc, zcount_snoc by lia. rewrite IH. rewrite AT by lia. destruct (Z.ltb_spec (baseval (bs g) + k) (baseval (bs g) + n0)); [lia|]. cbn. lia. }
    symmetry. apply (X (vertnbr (bs g))); lia.
Qed.
Lemma halve_ok avg : bip_ok avg halve.
Proof. apply halve_on. Qed.
Definition ex_path8 : graph := mkgraph 1 8 9 [1; 2; 4; 6; 8; 10; 12; 14; 15] None None 8 None None 14 [2; 1; 3; 2; 4; 3; 5; 4; 6; 5; 7; 6; 8; 7] None 14 2.
Definition ex_avg (s w t : Z) : Z := s * w / t.
Lemma ex_path8_ok : graph_valid ex_path8 /\ graph_readable ex_path8 /\ 0 <= baseval ex_path8 /\ vnumtab ex_path8 = None.
Proof.
  destruct (C09_graphCheck_sound 100 ex_path8 ltac:(vm_compute; reflexivity)) as (V & R). split; [exact V|]. split; [exact R|]. split; [cbn; lia | reflexivity].
Qed.
Definition ex_part := graphPart (mkc 9 9) 77 1 ex_avg ex_avg (fun _ _ => (0, 100)) halve.
Definition ex_partFixed := graphPartFixed (mkc 9 9) 77 1 ex_avg ex_avg (fun _ _ => (0, 100)) halve.
Example C52_example : bip_ok ex_avg halve /\ graph_valid ex_path8 /\ ex_part ex_path8 3 (repeat 55 9) = Ok (0, [0; 0; 0; 0; 1; 1; 2; 2; 55]).
Proof. split; [apply halve_ok|]. split; [apply ex_path8_ok|]. vm_compute. reflexivity. Qed.
Definition ex_fix : list Z := [-1; -1; 2; 1; -1; -1; -1; -1].
Lemma ex_fix_ok : fixed_in 3 ex_path8 ex_fix.
Proof.
  split; [vm_compute; discriminate|]. intros v [H1 H2]. change (baseval ex_path8) with 1 in *. change (vertnnd ex_path8) with 9 in H2.
  assert (C : v = 1 \/ v = 2 \/ v = 3 \/ v = 4 \/ v = 5 \/ v = 6 \/ v = 7 \/ v = 8) by lia.
  repeat (destruct C as [->|C]; [vm_compute; intuition discriminate|]). subst v. vm_compute. intuition discriminate.
Qed.
Example C53_example : fixed_in 3 ex_path8 ex_fix /\ (exists v, isvert ex_path8 v /\ 0 <= at_ 1 ex_fix v /\ velo ex_path8 v <> 0) /\
  (exists p, ex_partFixed ex_path8 3 ex_fix = Ok (0, p) /\ at_ 1 p 3 = 2 /\ at_ 1 p 4 = 1 /\ at_ 1 p 1 = 0) /\
  exists p, graphRepart (mkc 9 9) 77 1 ex_avg ex_avg (fun _ _ => (0, 100)) halve ex_path8 3 ex_fix None 1 1 (repeat 55 8) = Ok (0, p).
Proof.
  split; [exact ex_fix_ok|]. split; [exists 3; split; [split; vm_compute; congruence | vm_compute; split; congruence]|].
  split; eexists; [split; [vm_compute; reflexivity|]; vm_compute; auto | vm_compute; reflexivity].
Qed.
Example C54_example : arch_ok 3 (cwf 3) cmem (cmplt 3) /\ bip_on ex_avg (fun _ => True) halve /\
  (exists m p, mapBuild (mkc 9 9) (cmplt 3) ex_path8 [2; 2; 0; 1; 1; 0; 0; 2] (mkmap (repeat 7 8) [] 0) = Ok m /\ m_nbr m = 3 /\
    mapTerm (cmplt 3) ex_path8 m (repeat 5 8) = Ok p /\ p = [2; 2; 0; 1; 1; 0; 0; 2]).
Proof. split; [apply cmplt_ok; lia|]. split; [apply halve_on|]. eexists. eexists. split; [vm_compute; reflexivity|]. split; [reflexivity|]. split; vm_compute; reflexivity. Qed.

(** A bipartition problem with two fixed vertices and an old mapping, and its external gains *)
Definition ex_dt : rbdata := mkrbdata ex_path8 (Some [-1; -1; 2; 0; -1; -1; -1; -1])
  (Some (mkmap [0; 1; -1; 1; 1; 0; 0; 1] [mkc 0 1; mkc 2 1] 2)) None 2 5.
Definition ex_act : res graph := graphInducePart 77 1 ex_path8 [0; 0; 1; 1; 0; 0; 0; 0] 6 0.
Example C55_example : exists act g, ex_act = Ok act /\ vnumtab act = Some [1; 2; 5; 6; 7; 8] /\
  rbBgraph 77 ex_avg (cmplt 3) ex_dt act (mkc 0 2) (mkc 2 1) 0 0 = Ok g /\ bveex g = Some [5; -7; -3; 5; 5; -5] /\ bcmle0 g = 17.
Proof. eexists. eexists. split; [vm_compute; reflexivity|]. split; [reflexivity|]. split; [vm_compute; reflexivity|]. split; vm_compute; reflexivity. Qed.

(** ** Findings on the partitioning routines *)
(** Ten isolated vertices of load zero, all but one being fixed: the search of the ninth part in the table of domains does not end *)
Definition ex_zero10 : graph := mkgraph 0 10 10 (repeat 0 11) None (Some (repeat 0 10)) 0 None None 0 [] None 0 0.
Theorem C53_zero_loads_refuted : exists g n part, graph_valid g /\ graph_readable g /\ fixed_in n g part /\ 0 < n /\ 0 <= baseval g /\ vnumtab g = None /\
  ex_partFixed g n part = Fuel.
Proof.
  exists ex_zero10, 10, [0; 1; 2; 3; 4; 5; 6; 7; 8; -1].
  destruct (C09_graphCheck_sound 100 ex_zero10 ltac:(vm_compute; reflexivity)) as (V & R). split; [exact V|]. split; [exact R|].
  split. { split; [vm_compute; discriminate|]. intros v [H1 H2]. change (baseval ex_zero10) with 0 in *. change (vertnnd ex_zero10) with 10 in H2.
    assert (C : v = 0 \/ v = 1 \/ v = 2 \/ v = 3 \/ v = 4 \/ v = 5 \/ v = 6 \/ v = 7 \/ v = 8 \/ v = 9) by lia.
    repeat (destruct C as [->|C]; [vm_compute; intuition discriminate|]). subst v. vm_compute. intuition discriminate. }
  split; [lia|]. split; [vm_compute; discriminate|]. split; [reflexivity|]. vm_compute. reflexivity.
Qed.
Print Assumptions C53_zero_loads_refuted.

(** An entry less than -1 is counted as fixed and treated as free; an entry too large makes
    a bipartitioning fail, after which the mapping is read although it was never set. *)
Theorem C53_bad_entries_refuted :
  ex_partFixed ex_path8 3 [-1; -1; 2; 1; -1; -1; -2; -1] = UB /\ ex_partFixed ex_path8 3 [-1; -1; 2; 1; -1; -1; 3; -1] = UB.
Proof. split; vm_compute; reflexivity. Qed.
Print Assumptions C53_bad_entries_refuted.

(** A bipartitioning method that fails: no error is returned, the mapping is read although it was never set *)
Theorem C52_failure_refuted : graphPart (mkc 9 9) 77 1 ex_avg ex_avg (fun _ _ => (0, 100)) (fun g => Ok (1, g)) ex_path8 3 (repeat 55 8) = UB.
Proof. vm_compute. reflexivity. Qed.
Print Assumptions C52_failure_refuted.

(** A graph obtained by inducing a subgraph: original vertex numbers are used to index the mapping of the subgraph *)
Definition ex_ind : graph := match graphInducePart 77 1 ex_path8 [0; 0; 0; 0; 1; 1; 1; 1] 4 1 with Ok g => g | _ => ex_path8 end.
Theorem C52_induced_refuted : exists g part, graph_valid g /\ graph_readable g /\ 0 <= baseval g /\ vertnbr g <= zlen part /\
  (exists h p n, graph_valid h /\ graphInducePart 77 1 h p n 1 = Ok g) /\ ex_part g 2 part = UB.
Proof.
  exists ex_ind, (repeat 55 4). destruct (C09_graphCheck_sound 100 ex_ind ltac:(vm_compute; reflexivity)) as (V & R). split; [exact V|]. split; [exact R|].
  split; [vm_compute; discriminate|]. split; [vm_compute; discriminate|]. split; [|vm_compute; reflexivity].
  exists ex_path8, [0; 0; 0; 0; 1; 1; 1; 1], 4. split; [apply ex_path8_ok | vm_compute; reflexivity].
Qed.
Print Assumptions C52_induced_refuted.
