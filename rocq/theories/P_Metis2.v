(** Proofs: METIS partitioning and ordering routines. *)
From Verif Require Import Base Mem M_Graph M_Order M_Bgraph M_Arch M_KgraphMap M_HgraphOrder M_Metis S_Graph S_Order S_HgraphOrder S_KgraphMap S_Metis P_Graph P_Bgraph P_Metis C_KgraphMap.

Section Csr.
Context (base n : Z) (xadj adjncy : list Z) (vwgt adjwgt : option (list Z)).
Let g := csr base n xadj adjncy vwgt adjwgt.
Hypothesis C : consistent g.
Hypothesis R : graph_readable g.
Hypothesis L : n + 1 <= zlen xadj.
Hypothesis X0 : at_ 0 xadj 0 = base.
Let n0 : 0 <= n := cn_size _ C.

Lemma at_rebase (t : list Z) i : at_ 0 t i = at_ base t (i + base).
Proof. unfold at_. f_equal. lia. Qed.
Lemma xadj0 : at_ base xadj base = base.
Proof. rewrite <- X0 at 3. rewrite at_rebase. f_equal. Qed.
Lemma mono i j : base <= i <= j -> j <= n + base -> at_ base xadj i <= at_ base xadj j.
Proof.
  intros Hi. revert j Hi. intros j (H1 & H2). revert H2. pattern j. revert j. 
  assert (Q : forall k, 0 <= k -> i + k <= n + base -> at_ base xadj i <= at_ base xadj (i + k)).
  { apply (natlike_ind (fun k => i + k <= n + base -> at_ base xadj i <= at_ base xadj (i + k))); [rewrite Z.add_0_r; lia|]. intros k Hk IH H. specialize (IH ltac:(lia)).
    assert (Iv : isvert g (i + k)) by (unfold isvert, g, csr; cbn [baseval vertnnd]; lia). pose proof (cn_range _ C _ Iv) as Q. unfold vert, vend in Q. cbn [g csr vendtab verttab baseval] in Q. replace (i + Z.succ k) with (i + k + 1) by lia. lia. }
  intros j H2 H3. replace j with (i + (j - i)) by lia. apply Q; lia.
Qed.
Lemma tele : zsum base (n + base) (fun v => vend g v - vert g v) = at_ 0 xadj n - base.
Proof.
  rewrite at_rebase.
  assert (Q : forall i, base <= i -> zsum base i (fun v => vend g v - vert g v) = at_ base xadj i - at_ base xadj base).
  { apply zrange_ind; [rewrite zsum_nil; lia|]. intros i Hi IH. rewrite zsum_snoc by lia. rewrite IH. unfold vend, vert. cbn [g csr vendtab verttab baseval]. lia. }
  rewrite Q by lia. now rewrite xadj0.
Qed.
Lemma arc_range v e : arc g v e -> base <= e < base + (at_ 0 xadj n - base).
Proof.
  intros (Iv & He). pose proof (cn_range _ C _ Iv) as Q. unfold isvert in Iv. cbn [g csr baseval vertnnd] in Iv, Q. unfold vert, vend in *. cbn [g csr vendtab verttab baseval] in *.
  pose proof (mono (v + 1) (n + base) ltac:(lia) ltac:(lia)). rewrite at_rebase. lia.
Qed.
Definition metisGraph vs es d := mkgraph base n (n + base) xadj None vwgt vs None None (at_ 0 xadj n - base) adjncy adjwgt es d.
Lemma build : exists vs es d, graphBuild base n xadj None vwgt None (at_ 0 xadj n - base) adjncy adjwgt = Ok (metisGraph vs es d) /\ graph_valid (metisGraph vs es d) /\ graph_readable (metisGraph vs es d).
Proof.
  destruct (build_ok base n xadj None vwgt None (at_ 0 xadj n - base) adjncy adjwgt) as (vs & es & d & E & V & RR & _); [destruct R; constructor; assumption | destruct C; constructor; assumption | symmetry; apply tele|].
  exists vs, es, d. auto.
Qed.
Lemma last_ok : rd 0 xadj n = Ok (at_ 0 xadj n).
Proof. apply rd_ok. lia. Qed.

Lemma Part2_ok jkd jk al avg kavg lim bip nparts part : 1 <= al <= 2 -> bip_ok avg bip -> 0 <= base -> 1 <= nparts -> n <= zlen part ->
  exists part', metisPart2 jkd jk al avg kavg lim bip base n xadj adjncy vwgt adjwgt nparts part = Ok (0, part') /\ zlen part' = zlen part /\
    (forall v, isvert g v -> base <= at_ base part' v < base + nparts) /\ (forall i, n <= i < zlen part -> at_ 0 part' i = at_ 0 part i).
Proof.
  intros Hal BO B0 Hn Lp. unfold metisPart2. rewrite last_ok. cbn [bind]. destruct build as (vs & es & d & -> & V & RR). cbn [bind].
  destruct (C52_graphPart jkd jk al avg kavg lim bip (metisGraph vs es d) nparts part Hal BO V RR B0 eq_refl Hn Lp) as (p' & -> & Lq & P1 & P2). cbn [bind Z.eqb negb].
  cbn [metisGraph vertnbr baseval] in P1, P2.
  destruct (Z.eqb_spec base 0) as [Eb|Nb]; [exists p'; split; [reflexivity|]; split; [exact Lq|]; split; [|exact P2]; intros v Hv; specialize (P1 v Hv); lia|].
  assert (W : wp (for_ 0 n (fun i part => do p <- rd 0 part i; wr 0 part i (p + base)) p') (fun q => zlen q = zlen p' /\ (forall i, 0 <= i -> at_ 0 q i = if i <? n then at_ 0 p' i + base else at_ 0 p' i)) noerr).
  { apply wp_for with (I := fun k q => zlen q = zlen p' /\ forall i, 0 <= i -> at_ 0 q i = if i <? k then at_ 0 p' i + base else at_ 0 p' i); [lia| | |auto].
    - split; [reflexivity|]. intros i Hi. destruct (Z.ltb_spec i 0); [lia | reflexivity].
    - intros k q Hk (Lz & Hq). rewrite rd_ok by lia. cbn [bind]. rewrite wr_ok by lia. cbn [wp]. split; [now rewrite zlen_upd|]. intros i Hi. rewrite at_upd by lia. rewrite (Hq k) by lia. destruct (Z.ltb_spec k k); [lia|].
      destruct (Z.eqb_spec k i) as [->|]; [destruct (Z.ltb_spec i (i + 1)); [reflexivity | lia]|]. rewrite Hq by lia. destruct (Z.ltb_spec i k), (Z.ltb_spec i (k + 1)); try lia; reflexivity. }
  destruct (wp_ok_inv _ _ W) as (q & -> & Lz & Hq). cbn [bind]. exists q. split; [reflexivity|]. split; [lia|]. split.
  - intros v Hv. specialize (P1 v Hv). unfold isvert in Hv. cbn [g csr baseval vertnnd] in Hv. pose proof (at_rebase q (v - base)) as E1. pose proof (at_rebase p' (v - base)) as E2. replace (v - base + base) with v in * by lia. rewrite <- E1, Hq by lia. destruct (Z.ltb_spec (v - base) n); lia.
  - intros i Hi. rewrite Hq by lia. destruct (Z.ltb_spec i n); [lia|]. apply P2. exact Hi.
Qed.

(** The totals do not matter *)
Lemma cut_same vs es d P : cut_load (metisGraph vs es d) P = cut_load g P.
Proof. reflexivity. Qed.
Lemma vol_same vs es d sz np P : comm_volume (metisGraph vs es d) sz base np P = comm_volume g sz base np P.
Proof. reflexivity. Qed.
Lemma PartGraph_ok jkd jk al avg kavg lim bip nparts part : 1 <= al <= 2 -> bip_ok avg bip -> 0 <= base -> 1 <= nparts -> n <= zlen part ->
  exists part', metisPartGraph jkd jk al avg kavg lim bip base n xadj adjncy vwgt adjwgt nparts part = Ok (1, cut_load g (at_ base part'), part') /\ zlen part' = zlen part /\
    (forall v, isvert g v -> base <= at_ base part' v < base + nparts) /\ (forall i, n <= i < zlen part -> at_ 0 part' i = at_ 0 part i).
Proof.
  intros Hal BO B0 Hn Lp. unfold metisPartGraph. destruct (Part2_ok jkd jk al avg kavg lim bip nparts part Hal BO B0 Hn Lp) as (p' & -> & Lz & P1 & P2). cbn [bind Z.eqb negb].
  destruct build as (vs & es & d & _ & V & RR). pose proof (Cut_ok (metisGraph vs es d) V RR eq_refl L xadj0 p') as E. cbn [metisGraph baseval vertnnd verttab edgetab edlotab] in E.
  unfold isvert in E. cbn [metisGraph baseval vertnnd] in E. rewrite E by (intros; lia). cbn [bind]. exists p'. auto.
Qed.
End Csr.

(** ** Communication sizes *)
Section Vol.
Context (base n : Z) (xadj adjncy : list Z) (vwgt : option (list Z)).
Let g := csr base n xadj adjncy vwgt None.
Hypothesis C : consistent g.
Hypothesis R : graph_readable g.
Hypothesis L : n + 1 <= zlen xadj.
Hypothesis X0 : at_ 0 xadj 0 = base.
Let n0 : 0 <= n := cn_size _ C.

Lemma Edlo_ok jk t : n <= zlen t -> exists el, metisEdlo jk base n xadj adjncy t (at_ 0 xadj n - base) = Ok el /\ zlen el = at_ 0 xadj n - base /\ forall v e, arc g v e -> at_ base el e = at_ base t v + at_ base t (edge g e).
Proof.
  intros Lt. assert (E0 : base <= at_ 0 xadj n). { rewrite (at_rebase base). pose proof (mono base n xadj adjncy vwgt None C base (n + base) ltac:(lia) ltac:(lia)). rewrite (xadj0 base xadj X0) in H. lia. }
  unfold metisEdlo.
  match goal with |- exists el, bind ?r _ = _ /\ _ => assert (W : wp r (fun '(_, el) => zlen el = at_ 0 xadj n - base /\ forall v e, arc g v e -> at_ base el e = at_ base t v + at_ base t (edge g e)) noerr) end.
  { apply wp_for with (I := fun i '(e0, el) => e0 = at_ base xadj (i + base) /\ zlen el = at_ 0 xadj n - base /\ forall v e, arc g v e -> v < i + base -> at_ base el e = at_ base t v + at_ base t (edge g e)).
    - lia.
    - split; [symmetry; apply (xadj0 base xadj X0)|]. split; [rewrite zlen_repeat; lia|]. intros v e (Iv & _) Hv. unfold isvert in Iv. cbn [g csr baseval] in Iv. lia.
    - intros i [e0 el] Hi (-> & Lz & He). rewrite (rd_ok 0 t i) by lia. cbn [bind]. rewrite (rd_ok 0 xadj (i + 1)) by lia. cbn [bind]. rewrite !(at_rebase base). set (v := i + base). replace (i + 1 + base) with (v + 1) by lia.
      assert (Iv : isvert g v) by (unfold isvert, v, g, csr; cbn [baseval vertnnd]; lia). pose proof (cn_range _ C v Iv) as Rg. unfold vert, vend in Rg. cbn [g csr vendtab verttab baseval] in Rg.
      apply wp_bind. apply wp_for with (I := fun e el' => zlen el' = zlen el /\ (forall w e', arc g w e' -> w < v -> at_ base el' e' = at_ base t w + at_ base t (edge g e')) /\ forall e', at_ base xadj v <= e' < e -> at_ base el' e' = at_ base t v + at_ base t (edge g e')).
      + lia.
      + split; [reflexivity|]. split; [intros w e' A Hw; apply He; [exact A | unfold v in Hw; lia] | intros; lia].
      + intros e el' Hee (Lz' & H1 & H2). assert (A : arc g v e) by (split; [exact Iv | exact Hee]). pose proof (gr_edge _ R v e A) as G1. cbn [g csr baseval edgetab] in G1. rewrite (rd_ok base adjncy e) by exact G1. cbn [bind]. change (at_ base adjncy e) with (edge g e).
        pose proof (cn_end _ C v e A) as Iu. unfold isvert in Iu. cbn [g csr baseval vertnnd] in Iu. fold g in Iu. rewrite (rd_ok base t (edge g e)) by lia. cbn [bind].
        pose proof (arc_range base n xadj adjncy vwgt None C v e A) as Ar. rewrite wr_ok by lia. cbn [wp]. split; [now rewrite zlen_upd|]. split.
        * intros w e' Aw Hw. pose proof (arc_range base n xadj adjncy vwgt None C w e' Aw). rewrite at_upd by lia. destruct (Z.eqb_spec e e') as [<-|]; [|now apply H1]. exfalso. destruct Aw as (Iw & Aw). unfold isvert in Iw. cbn [g csr baseval vertnnd] in Iw. unfold vend in Aw. cbn [g csr vendtab verttab baseval] in Aw.
          pose proof (mono base n xadj adjncy vwgt None C (w + 1) v ltac:(lia) ltac:(unfold v; lia)). lia.
        * intros e' He'. rewrite at_upd by lia. destruct (Z.eqb_spec e e') as [<-|]; [reflexivity|]. apply H2. lia.
      + intros el' (Lz' & H1 & H2). cbn [wp]. split; [rewrite Z.max_r by lia; reflexivity|]. split; [pose proof (at_rebase base xadj n); lia|]. intros w e' A Hw. destruct (Z.eq_dec w v) as [->|]; [|apply H1; [exact A | unfold v in *; lia]].
        apply H2. destruct A as (_ & A). exact A.
    - intros [e0 el] (_ & Lz & He). split; [exact Lz|]. intros v e A. apply He; [exact A|]. destruct A as (Iv & _). unfold isvert in Iv. cbn [g csr baseval vertnnd] in Iv. lia. }
  destruct (wp_ok_inv _ _ W) as ([e0 el] & -> & H). cbn [bind]. eauto.
Qed.

Definition sizes (vsize : option (list Z)) (v : Z) : Z := match vsize with None => 1 | Some t => at_ base t v end.
Lemma Volume_ok jkd jk al avg kavg lim bip vsize nparts vol part : 1 <= al <= 2 -> bip_ok avg bip -> 0 <= base -> 1 <= nparts -> n <= zlen part ->
  (forall t, vsize = Some t -> n <= zlen t /\ forall v, isvert g v -> 0 <= at_ base t v) ->
  exists part', metisPartVolume jkd jk al avg kavg lim bip base n xadj adjncy vwgt vsize nparts vol part = Ok (1, comm_volume g (sizes vsize) base nparts (at_ base part'), part') /\ zlen part' = zlen part /\
    (forall v, isvert g v -> base <= at_ base part' v < base + nparts) /\ (forall i, n <= i < zlen part -> at_ 0 part' i = at_ 0 part i).
Proof.
  intros Hal BO B0 Hn Lp Hv. unfold metisPartVolume.
  match goal with |- exists part', bind ?r _ = _ /\ _ => assert (exists part', r = Ok (0, part') /\ zlen part' = zlen part /\ (forall v, isvert g v -> base <= at_ base part' v < base + nparts) /\ (forall i, n <= i < zlen part -> at_ 0 part' i = at_ 0 part i)) as (p' & -> & Lz & P1 & P2) end.
  { destruct vsize as [t|]; [|apply (Part2_ok base n xadj adjncy vwgt None C R L X0); auto].
    destruct (Hv t eq_refl) as (Lt & Pt). rewrite (last_ok base n xadj adjncy vwgt None C L). cbn [bind]. destruct (Edlo_ok jk t Lt) as (el & -> & Le & He). cbn [bind].
    apply (Part2_ok base n xadj adjncy vwgt (Some el)); auto.
    - destruct C as [c1 c2 c3 c4 c5 c6 c7 c8 c9]. constructor; auto.
      + intros v e A. destruct (c7 v e A) as (e' & A' & E' & _). exists e'. split; [exact A'|]. split; [exact E'|]. change (at_ base el e' = at_ base el e). rewrite (He _ _ A'), (He v e A). change (edge g e' = v) in E'. rewrite E'. apply Z.add_comm.
      + intros v e A. unfold edlo. cbn [csr edlotab baseval]. rewrite (He v e A). pose proof (Pt v (proj1 A)). pose proof (Pt _ (c4 v e A)). lia.
    - destruct R as [r1 r2 r3 r4 r5]. constructor; auto. intros t' v e Et A. injection Et as <-. pose proof (arc_range base n xadj adjncy vwgt None C v e A). cbn [csr baseval]. lia. }
  cbn [bind Z.eqb negb]. destruct (build base n xadj adjncy vwgt None C R X0) as (vs & es & d & _ & V & RR).
  pose proof (Vol_ok (metisGraph base n xadj adjncy vwgt None vs es d) V RR eq_refl L (xadj0 base xadj X0) p' vsize nparts B0) as E. cbn [metisGraph baseval vertnnd verttab edgetab] in E. unfold isvert in E. cbn [metisGraph baseval vertnnd] in E.
  rewrite E; [|intros v Hw; split; [lia | apply (P1 v Hw)]|intros t v Et Hw; destruct (Hv t Et); lia]. cbn [bind]. exists p'. auto.
Qed.
End Vol.
