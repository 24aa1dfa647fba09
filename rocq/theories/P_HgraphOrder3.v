(** Proofs about the ordering of connected components. *)
From Verif Require Import Base M_Graph M_Vgraph M_Induce M_Hgraph M_Order M_HgraphOrder S_Graph S_Vgraph S_Induce S_Hgraph S_Order S_HgraphOrder.
From Verif Require Import P_GraphList P_Induce P_Order P_Vgraph P_Hgraph P_HgraphOrder P_HgraphOrder2.
From Coq Require Import Permutation.

Lemma NoDup_range b n Q : 0 <= n -> NoDup Q -> (forall w, In w Q -> b <= w < b + n) -> zlen Q <= n.
Proof.
  intros Hn Nd H. assert (I : incl Q (zseq b n)) by (intros w Hw; apply In_zseq; auto). pose proof (NoDup_incl_length Nd I) as L. pose proof (zlen_zseq b n Hn). unfold zlen in *. lia.
Qed.
Lemma missing b n Q : 0 <= n -> zlen Q < n -> exists v, b <= v < b + n /\ ~ In v Q.
Proof.
  intros Hn Hz. destruct (Exists_dec (fun v => ~ In v Q) (zseq b n)) as [H|H].
  - intros v. destruct (in_dec Z.eq_dec v Q); [right | left]; auto.
  - apply Exists_exists in H. destruct H as (v & Hv & Hx). apply In_zseq in Hv. eauto.
  - exfalso. assert (I : incl (zseq b n) Q). { intros v Hv. destruct (in_dec Z.eq_dec v Q); [auto|]. exfalso. apply H. apply Exists_exists. eauto. }
    pose proof (NoDup_incl_length (NoDup_zseq b n) I). pose proof (zlen_zseq b n Hn). unfold zlen in *. lia.
Qed.
Lemma NoDup_snoc1 (s : list Z) x : NoDup s -> ~ In x s -> NoDup (s ++ [x]).
Proof. intros. apply NoDup_app_intro; [auto | repeat constructor; auto |]. intros y Hy [->|[]]. auto. Qed.
Lemma seg_snoc l o n : 0 <= n -> seg l o (n + 1) = seg l o n ++ [at_ 0 l (o + n)].
Proof. intros. rewrite seg_app by lia. f_equal. unfold seg. rewrite zseq_cons by lia. reflexivity. Qed.

Lemma rt_mono rt rn : (forall r, 0 <= r < rn -> at_ 0 rt r < at_ 0 rt (r + 1)) -> forall k r, 0 <= r -> r + Z.of_nat k <= rn -> at_ 0 rt r <= at_ 0 rt (r + Z.of_nat k).
Proof.
  intros H k. induction k as [|k IH]; intros r Hr Hk; [replace (r + Z.of_nat 0) with r by lia; lia|]. specialize (IH r Hr ltac:(lia)). specialize (H (r + Z.of_nat k) ltac:(lia)). replace (r + Z.of_nat (S k)) with (r + Z.of_nat k + 1) by lia. lia.
Qed.

Section Cc.
Variables (h : hgraph).
Hypothesis Ok_ : hgraph_ok h.
Let g := hs h.
Let b := baseval g.
Let n := vnohnbr h.
Hypothesis Hn : 1 <= n.
Let nh (v w : Z) : Prop := b <= w < b + n /\ In w (ends g v).

Lemma cc_facts : vnohnnd h = b + n /\ 0 <= n <= vertnbr g.
Proof. destruct Ok_ as (_ & V). split; [exact (hv_nnd _ V) | exact (hv_nbr _ V)]. Qed.

Lemma nh_sym v w : b <= v < b + n -> nh v w -> nh w v.
Proof.
  intros Hv (Hw & Hi). destruct cc_facts as (F1 & F2). destruct Ok_ as (_ & V). pose proof (hv_graph _ V) as G. pose proof (gv_nnd _ G) as Gn. cbn [hunload hs unload vertnnd vertnbr baseval] in Gn. fold g b in Gn.
  rewrite <- ends_unload in Hi. destruct (ends_sym (unload g) v w G ltac:(unfold isvert; cbn [unload baseval vertnnd]; fold b; lia) Hi) as (_ & _ & Hs). rewrite ends_unload in Hs. split; [lia|auto].
Qed.

Lemma nh_arcs v : b <= v < b + n -> let x := at_ b (vnhdtab h) v in
  rvert g v = Ok (vert g v) /\ rd b (vnhdtab h) v = Ok x /\ vert g v <= x /\
  (forall e, vert g v <= e < x -> redge g e = Ok (edge g e) /\ nh v (edge g e)) /\
  (forall w, nh v w -> exists e, vert g v <= e < x /\ edge g e = w).
Proof.
  intros Hv x. destruct cc_facts as (F1 & F2). destruct Ok_ as (_ & V). pose proof (hv_graph _ V) as G. pose proof (hv_read _ V) as R. pose proof (gv_nnd _ G) as Gn. cbn [hunload hs unload vertnnd vertnbr baseval] in Gn. fold g b in Gn.
  assert (Iv : isvert (unload g) v) by (unfold isvert; cbn [unload baseval vertnnd]; fold b; lia).
  assert (Hs : b <= v < vnohnnd h) by lia. destruct (hv_split _ V v Hs) as (S1 & S2). cbn [hunload hs vnhdtab vnohnnd unload baseval] in S1, S2. fold g b x in S1, S2. change (vert (unload g) v) with (vert g v) in *. change (vend (unload g) v) with (vend g v) in *.
  pose proof (gr_vert _ R) as Rv. cbn [hunload hs unload vertnbr vendtab verttab] in Rv. fold g in Rv.
  assert (0 <= match vendtab g with None => b2z (0 <? vertnbr g) | Some _ => 0 end) by (destruct (vendtab g); unfold b2z; try destruct (0 <? _); lia).
  pose proof (hv_vnhd _ V) as Rn. cbn [hunload vnohnbr vnhdtab] in Rn. fold n in Rn.
  split; [unfold rvert, vert; apply rd_ok; fold b; lia|]. split; [apply rd_ok; lia|]. split; [lia|]. split.
  - intros e He. assert (Ha : arc (unload g) v e) by (split; [exact Iv|]; change (vert g v <= e < vend g v); lia). pose proof (gr_edge _ R v e Ha) as Re. cbn [hunload hs unload baseval edgetab] in Re. fold g b in Re.
    split; [unfold redge, edge; apply rd_ok; fold b; lia|]. pose proof (gv_end _ G v e Ha) as (Ee & _). cbn [hunload hs unload baseval] in Ee. fold g b in Ee. change (edge (unload g) e) with (edge g e) in *. specialize (S2 e ltac:(lia)). split; [|apply In_ends; exists e; split; [lia|auto]].
    split; [exact Ee|]. destruct S2 as (_ & S2). specialize (S2 ltac:(lia)). rewrite F1 in S2. exact S2.
  - intros w (Hw & Hi). apply In_ends in Hi. destruct Hi as (e & He & Ew). exists e. split; [|auto]. split; [lia|]. apply (S2 e); [lia|]. change (edge (unload g) e) with (edge g e). lia.
Qed.

(** Flags and queue agree *)
Definition qinv (fl qu : list Z) (qt : Z) : Prop :=
  zlen fl = n /\ zlen qu = n /\ 0 <= qt <= n /\ NoDup (seg qu 0 qt) /\
  (forall w, In w (seg qu 0 qt) -> b <= w < b + n) /\
  (forall w, b <= w < b + n -> 0 <= at_ b fl w <-> In w (seg qu 0 qt)).

Lemma qinv_add fl qu qt w r : qinv fl qu qt -> b <= w < b + n -> ~ In w (seg qu 0 qt) -> 0 <= r ->
  qt < n /\ qinv (upd b fl w r) (upd 0 qu qt w) (qt + 1) /\ seg (upd 0 qu qt w) 0 (qt + 1) = seg qu 0 qt ++ [w].
Proof.
  intros (Zf & Zq & Hq & Nd & Rg & Fl) Hw Hx Hr. assert (Nd' : NoDup (seg qu 0 qt ++ [w])) by (now apply NoDup_snoc1).
  assert (Rg' : forall x, In x (seg qu 0 qt ++ [w]) -> b <= x < b + n) by (intros x Hi; apply in_app_iff in Hi; destruct Hi as [Hi|[<-|[]]]; auto).
  pose proof (NoDup_range b n _ ltac:(lia) Nd' Rg') as L. rewrite zlen_snoc, zlen_seg in L by lia. split; [lia|].
  assert (E : seg (upd 0 qu qt w) 0 (qt + 1) = seg qu 0 qt ++ [w]).
  { rewrite seg_snoc by lia. rewrite at_upd_same by lia. f_equal. apply seg_ext. intros i Hi. rewrite at_upd_other by lia. reflexivity. }
  split; [|exact E]. unfold qinv. rewrite !zlen_upd, E. repeat (split; [assumption || lia|]). intros x Hxr. rewrite at_upd by lia. rewrite in_app_iff. destruct (Z.eqb_spec w x) as [->|Hne].
  - split; [intros _; right; now left | lia].
  - rewrite (Fl x Hxr). split; [auto|]. intros [H|[H|[]]]; [auto | contradiction].
Qed.

(** The queue grows, by neighbours of the vertex scanned *)
Lemma ccArcs fl qu qt v r : b <= v < b + n -> qinv fl qu qt -> 0 <= r ->
  exists fl' qu' qt', for_ (vert g v) (at_ b (vnhdtab h) v) (ccArc g r) (fl, qu, qt) = Ok (fl', qu', qt') /\ qinv fl' qu' qt' /\ qt <= qt' /\
    seg qu' 0 qt = seg qu 0 qt /\ (forall w, nh v w -> In w (seg qu' 0 qt')).
Proof.
  intros Hv Q Hr. destruct (nh_arcs v Hv) as (_ & _ & Lx & A1 & A2). set (x := at_ b (vnhdtab h) v) in *.
  destruct (wp_ok_inv (for_ (vert g v) x (ccArc g r) (fl, qu, qt)) (fun '(fl', qu', qt') => qinv fl' qu' qt' /\ qt <= qt' /\ seg qu' 0 qt = seg qu 0 qt /\ forall w, nh v w -> In w (seg qu' 0 qt'))) as (((fl', qu'), qt') & E & P); [|eauto 8].
  apply wp_for with (I := fun e '(fl', qu', qt') => qinv fl' qu' qt' /\ qt <= qt' /\ seg qu' 0 qt = seg qu 0 qt /\ forall k, vert g v <= k < e -> In (edge g k) (seg qu' 0 qt')).
  - exact Lx.
  - split; [auto|]. split; [lia|]. split; [auto|]. intros; lia.
  - intros e ((fl', qu'), qt') He (Q' & Hq & Sg & Sc). destruct (A1 e He) as (Er & Hnh). destruct Hnh as (Hw & Hi). unfold ccArc. rewrite Er. cbn [bind].
    pose proof Q' as (Zf & Zq & Hqt & Nd & Rg & Fl). fold b. rewrite rd_ok by lia. cbn [bind]. destruct (Z.ltb_spec (at_ b fl' (edge g e)) 0) as [Hlt|Hge].
    + assert (Hx : ~ In (edge g e) (seg qu' 0 qt')) by (rewrite <- Fl by lia; lia). destruct (qinv_add fl' qu' qt' (edge g e) r Q' Hw Hx Hr) as (L & Q'' & E'').
      rewrite wr_ok by lia. cbn [bind]. rewrite wr_ok by lia. cbn [bind wp]. split; [exact Q''|]. split; [lia|]. split.
      * rewrite <- Sg. apply seg_ext. intros i Hi'. now rewrite at_upd_other by lia.
      * intros k Hk. rewrite E''. apply in_app_iff. destruct (Z.eq_dec k e) as [->|]; [right; now left | left; apply Sc; lia].
    + cbn [wp]. split; [auto|]. split; [auto|]. split; [auto|]. intros k Hk. destruct (Z.eq_dec k e) as [->|]; [apply Fl; lia | apply Sc; lia].
  - intros ((fl', qu'), qt') (Q' & Hq & Sg & Sc). split; [auto|]. split; [auto|]. split; [auto|]. intros w Hw. destruct (A2 w Hw) as (e & He & <-). auto.
Qed.

Definition closed (qu : list Z) (k m : Z) : Prop := forall i w, 0 <= i < k -> nh (at_ 0 qu i) w -> In w (seg qu 0 m).

Lemma ccScan_spec fuel fl qu qt qh r : qinv fl qu qt -> 0 <= qh <= qt -> 0 <= r -> n + 1 < Z.of_nat fuel -> closed qu qh qt ->
  exists fl' qu' qt', ccScan fuel h r (fl, qu, qt, qh) = Ok (fl', qu', qt', qt') /\ qinv fl' qu' qt' /\ qt <= qt' /\ seg qu' 0 qt = seg qu 0 qt /\ closed qu' qt' qt'.
Proof.
  intros Q Hq Hr Hf C. unfold ccScan. cbv zeta. fold g b.
  match goal with |- exists _ _ _, ?X = _ /\ _ => destruct (wp_ok_inv X (fun '(fl', qu', qt', qh') => qh' = qt' /\ qinv fl' qu' qt' /\ qt <= qt' /\ seg qu' 0 qt = seg qu 0 qt /\ closed qu' qt' qt')) as ((((fl', qu'), qt'), qh') & E & -> & P); [|eauto 8] end.
  apply wp_loop with (I := fun '(fl', qu', qt', qh') => qinv fl' qu' qt' /\ qt <= qt' /\ seg qu' 0 qt = seg qu 0 qt /\ 0 <= qh' <= qt' /\ closed qu' qh' qt') (m := fun '(_, _, _, qh') => n - qh').
  - split; [auto|]. split; [lia|]. split; [auto|]. split; [lia|auto].
  - pose proof Q as (_ & _ & ? & _). lia.
  - intros (((fl', qu'), qt'), qh') (Q' & Hq' & Sg & Hh & C'). pose proof Q' as (Zf & Zq & Hqt & Nd & Rg & Fl). destruct (Z.ltb_spec qh' qt') as [Hlt|Hge].
    + rewrite rd_ok by lia. cbn [bind]. set (v := at_ 0 qu' qh'). assert (Iv : In v (seg qu' 0 qt')) by (apply In_seg; exists qh'; split; [lia|reflexivity]). specialize (Rg v Iv) as Hv.
      destruct (nh_arcs v Hv) as (R1 & R2 & _). rewrite R1. cbn [bind]. rewrite R2. cbn [bind]. destruct (ccArcs fl' qu' qt' v r Hv Q' Hr) as (fl2 & qu2 & qt2 & E2 & Q2 & L2 & S2 & N2). rewrite E2. cbn [bind wp].
      pose proof Q2 as (_ & _ & Hq2 & _).
      assert (At : forall i, 0 <= i < qt' -> at_ 0 qu2 i = at_ 0 qu' i). { intros i Hi. replace i with (0 + i) by lia. rewrite <- (at_seg qu2 0 qt' i) by lia. rewrite S2, at_seg by lia. reflexivity. }
      split; [|lia]. split; [auto|]. split; [lia|]. split; [rewrite <- Sg; apply seg_ext; intros i Hi; apply At; lia|]. split; [lia|].
      intros i w Hi Hw. rewrite At in Hw by lia. destruct (Z.eq_dec i qh') as [->|]; [auto|]. replace qt2 with (qt' + (qt2 - qt')) by lia. rewrite seg_app by lia. apply in_app_iff. left. rewrite S2. apply (C' i w ltac:(lia) Hw).
    + cbn [wp]. split; [lia|]. assert (qh' = qt') by lia. subst qh'. auto.
Qed.

(** Result: components, one after the other *)
Definition comps (qu rt : list Z) (rn : Z) : Prop :=
  rn + 1 <= zlen rt /\ 0 <= rn /\ at_ 0 rt 0 = 0 /\
  (forall r, 0 <= r < rn -> at_ 0 rt r < at_ 0 rt (r + 1)) /\
  (forall r, 0 <= r <= rn -> closed qu (at_ 0 rt r) (at_ 0 rt r)).

Lemma closed_ext qu qu' k m : seg qu' 0 m = seg qu 0 m -> 0 <= k <= m -> forall k' : Z, k = k' -> closed qu k k' -> closed qu' k k'.
Proof.
  intros E Hk k' <- C i w Hi Hw. assert (At : forall i, 0 <= i < m -> at_ 0 qu' i = at_ 0 qu i). { intros j Hj. replace j with (0 + j) by lia. rewrite <- (at_seg qu' 0 m j), E, at_seg by lia. reflexivity. }
  rewrite At in Hw by lia. specialize (C i w Hi Hw). apply In_seg in C. destruct C as (j & Hj & ->). apply In_seg. exists j. split; [auto|]. symmetry. apply At. lia.
Qed.

Lemma ccComps_spec jk : exists qu rt rn, ccComps jk h = Ok (qu, rt, rn) /\ zlen qu = n /\ Permutation qu (zseq b n) /\ 1 <= rn /\ at_ 0 rt rn = n /\ comps qu rt rn.
Proof.
  destruct cc_facts as (F1 & F2). unfold ccComps. cbv zeta. fold g b n. set (fuel := S (S (Z.to_nat n))).
  match goal with |- context [bind (loop fuel ?f ?s) _] => destruct (wp_ok_inv (loop fuel f s) (fun '(qu, rt, rn, qt) => qt = n /\ zlen qu = n /\ NoDup (seg qu 0 n) /\ (forall w, In w (seg qu 0 n) -> b <= w < b + n) /\
    zlen rt = n + 1 /\ rn <= n /\ comps qu (upd 0 rt rn qt) rn)) as ((((qu, rt), rn), qt) & E & -> & Zq & Nd & Rg & Zr & Hr & C) end.
  - apply wp_loop with (I := fun '(fl, qu, rt, rn, qt, qh, vr) => qinv fl qu qt /\ qh = qt /\ b <= vr <= b + n /\ (forall v, b <= v < vr -> 0 <= at_ b fl v) /\ zlen rt = n + 1 /\ rn <= qt /\ comps qu (upd 0 rt rn qt) rn)
      (m := fun '(_, _, _, _, qt, _, _) => n - qt).
    + split.
      { unfold qinv. change (seg (repeat jk (Z.to_nat n)) 0 0) with (@nil Z). rewrite !zlen_repeat by lia. split; [lia|]. split; [lia|]. split; [lia|]. split; [constructor|]. split; [intros w []|]. intros w Hw. rewrite at_repeat by lia. cbn [In]. lia. }
      split; [auto|]. split; [lia|]. split; [intros; lia|]. split; [rewrite zlen_repeat; lia|]. split; [lia|]. unfold comps. rewrite zlen_upd, zlen_repeat by lia. split; [lia|]. split; [lia|].
      assert (E0 : at_ 0 (upd 0 (repeat jk (Z.to_nat (n + 1))) 0 0) 0 = 0) by (rewrite at_upd_same; [auto | rewrite zlen_repeat; lia]). split; [exact E0|]. split; [intros; lia|]. intros r Hr. replace r with 0 by lia. rewrite E0. intros i w Hi. lia.
    + unfold fuel. lia.
    + intros ((((((fl, qu), rt), rn), qt), qh), vr) (Q & -> & Hvr & Fv & Zr & Hr & C). pose proof Q as (Zf & Zq & Hqt & Nd & Rg & Fl). pose proof C as (_ & Hrn & C0 & Cs & Cc).
      destruct (Z.ltb_spec qt n) as [Hlt|Hge].
      2:{ cbn [wp]. assert (qt = n) by lia. subst qt. split; [auto|]. split; [auto|]. split; [auto|]. split; [auto|]. split; [auto|]. split; [lia|]. auto. }
      destruct (missing b n (seg qu 0 qt) ltac:(lia) ltac:(rewrite zlen_seg; lia)) as (u & Hu & Mu).
      assert (Fu : at_ b fl u < 0) by (pose proof (Fl u Hu) as Hi; destruct (Z_lt_ge_dec (at_ b fl u) 0); [auto|]; exfalso; apply Mu, Hi; lia).
      match goal with |- context [bind (loop fuel ?f vr) _] => destruct (wp_ok_inv (loop fuel f vr) (fun vr' => vr <= vr' < b + n /\ at_ b fl vr' < 0 /\ forall v, b <= v < vr' -> 0 <= at_ b fl v)) as (vr' & Ev & Hv' & Fv' & Fl') end.
      { apply wp_loop with (I := fun vr' => vr <= vr' <= u /\ forall v, b <= v < vr' -> 0 <= at_ b fl v) (m := fun vr' => b + n - vr').
        - split; [|auto]. split; [lia|]. destruct (Z_lt_ge_dec u vr) as [Hx|]; [|lia]. specialize (Fv u ltac:(lia)). lia.
        - unfold fuel. lia.
        - intros v' (Hv' & Fv'). rewrite rd_ok by lia. cbn [bind]. destruct (Z.leb_spec 0 (at_ b fl v')).
          + cbn [wp]. split; [|lia]. split.
            * assert (v' <> u) by (intros ->; lia). lia.
            * intros v Hv. destruct (Z.eq_dec v v') as [->|]; [auto|]. apply Fv'. lia.
          + cbn [wp]. split; [lia|]. auto. }
      rewrite Ev. cbn [bind]. rewrite (wr_ok 0 rt) by lia. cbn [bind]. rewrite wr_ok by lia. cbn [bind]. rewrite wr_ok by lia. cbn [bind].
      assert (Hx : ~ In vr' (seg qu 0 qt)) by (rewrite <- Fl by lia; lia). destruct (qinv_add fl qu qt vr' rn Q ltac:(lia) Hx Hrn) as (_ & Q1 & S1).
      assert (Cq : closed qu qt qt). { specialize (Cc rn ltac:(lia)). rewrite at_upd_same in Cc by lia. exact Cc. }
      assert (Cq1 : closed (upd 0 qu qt vr') qt (qt + 1)).
      { intros i w Hi Hw. rewrite at_upd_other in Hw by lia. rewrite S1. apply in_app_iff. left. apply (Cq i w Hi Hw). }
      destruct (ccScan_spec fuel _ _ (qt + 1) qt rn Q1 ltac:(lia) Hrn ltac:(unfold fuel; lia) Cq1) as (fl2 & qu2 & qt2 & E2 & Q2 & L2 & S2 & C2). rewrite E2. cbn [bind wp].
      pose proof Q2 as (Zf2 & Zq2 & Hq2 & Nd2 & Rg2 & Fl2). split; [|lia]. split; [auto|]. split; [auto|]. split; [lia|]. split.
      { intros v Hv. apply Fl2; [lia|]. replace qt2 with (qt + 1 + (qt2 - (qt + 1))) by lia. rewrite seg_app by lia. apply in_app_iff. left. rewrite S2, S1. apply in_app_iff. left. apply Fl; [lia|]. apply Fl'. lia. }
      split; [now rewrite zlen_upd|]. split; [lia|].
      assert (Pre : seg qu2 0 qt = seg qu 0 qt).
      { assert (X : seg qu2 0 (qt + 1) = seg qu 0 qt ++ [vr']) by (rewrite S2; exact S1). rewrite seg_snoc in X by lia. apply app_inj_tail in X. apply X. }
      assert (Ar : forall r, 0 <= r <= rn -> at_ 0 (upd 0 (upd 0 rt rn qt) (rn + 1) qt2) r = at_ 0 (upd 0 rt rn qt) r) by (intros r Hr'; apply at_upd_other; lia).
      assert (Al : at_ 0 (upd 0 (upd 0 rt rn qt) (rn + 1) qt2) (rn + 1) = qt2) by (apply at_upd_same; rewrite zlen_upd; lia).
      assert (Aq : at_ 0 (upd 0 rt rn qt) rn = qt) by (apply at_upd_same; lia).
      unfold comps. rewrite !zlen_upd. split; [lia|]. split; [lia|]. split; [rewrite Ar by lia; exact C0|]. split.
      * intros r Hr'. destruct (Z.eq_dec r rn) as [->|]; [rewrite Ar, Al, Aq by lia; lia|]. rewrite !Ar by lia. apply Cs. lia.
      * intros r Hr'. destruct (Z.eq_dec r (rn + 1)) as [->|]; [rewrite Al; exact C2|]. rewrite Ar by lia. apply (closed_ext qu qu2 _ qt Pre); [|reflexivity|apply Cc; lia].
        pose proof (rt_mono _ rn Cs (Z.to_nat r) 0 ltac:(lia) ltac:(lia)) as M1. pose proof (rt_mono _ rn Cs (Z.to_nat (rn - r)) r ltac:(lia) ltac:(lia)) as M2. replace (r + Z.of_nat (Z.to_nat (rn - r))) with rn in M2 by lia. replace (0 + Z.of_nat (Z.to_nat r)) with r in M1 by lia. lia.
  - pose proof C as (_ & C1 & C0 & _). rewrite E. cbn [bind]. rewrite wr_ok by lia. cbn [bind]. exists qu, (upd 0 rt rn n), rn. split; [reflexivity|]. split; [auto|].
    assert (Eq : seg qu 0 n = qu). { apply (at_ext 0); [rewrite zlen_seg; lia|]. intros i. rewrite zlen_seg by lia. intros Hi. rewrite at_seg by lia. reflexivity. }
    rewrite Eq in *. split.
    + apply NoDup_Permutation_bis; auto; [|intros w Hw; apply In_zseq; auto]. pose proof (zlen_zseq b n ltac:(lia)). unfold zlen in *. lia.
    + assert (An : at_ 0 (upd 0 rt rn n) rn = n) by (apply at_upd_same; lia). split; [|auto]. destruct (Z.eq_dec rn 0) as [->|]; [|lia]. rewrite An in C0. lia.
Qed.
End Cc.

Lemma FOP_snoc {A} (R : A -> A -> Prop) l x : ForallOrdPairs R l -> Forall (fun y => R y x) l -> ForallOrdPairs R (l ++ [x]).
Proof.
  induction l as [|y l IH]; intros H F; cbn [app]; [repeat constructor|]. inversion H; subst. inversion F; subst. constructor; [|auto]. apply Forall_app. split; [auto|repeat constructor; auto].
Qed.
Lemma rs_list_snoc A cs ss c s : rs_list A cs ss -> respects A c s -> rs_list A (cs ++ [c]) (ss ++ [s]).
Proof. intros H Hc. induction H; cbn [app]; constructor; auto. constructor. Qed.
Lemma vsum_app l l' : vsum (l ++ l') = vsum l + vsum l'.
Proof. induction l as [|c l IH]; cbn [app vsum fold_right]; [reflexivity|]. change (c_vnod c + vsum (l ++ l') = c_vnod c + vsum l + vsum l'). lia. Qed.
Definition nsum (l : list cblk) : Z := fold_right (fun c a => nnodes c + a) 0 l.
Lemma nsum_app l l' : nsum (l ++ l') = nsum l + nsum l'.
Proof. induction l as [|c l IH]; cbn [app]; [reflexivity|]. change (nnodes c + nsum (l ++ l') = nnodes c + nsum l + nsum l'). lia. Qed.

Section CcGood.
Variables (jk : Z) (sub : ometh) (tot tr : bool).
Hypothesis Hsub : orders false tot tr false sub.

Lemma cc_good : orders true tot tr false (hgraphOrderCc jk sub).
Proof.
  intros h st o Ok_ Hn Ho Hz Ht. specialize (Ht eq_refl). subst o. destruct (ccComps_spec h Ok_ Hn jk) as (qu & rt & rn & E & Zq & Pq & Hr & An & Cp).
  destruct (cc_facts h Ok_) as (F1 & F2). unfold hgraphOrderCc. rewrite E. cbn [bind]. destruct (Z.eqb_spec rn 1) as [R1|R1].
  { destruct (Hsub h st 0 Ok_ Hn ltac:(lia) Hz ltac:(discriminate)) as (rc & st' & cb & E' & P). exists rc, st', cb. auto. }
  set (b := baseval (hs h)) in *. set (n := vnohnbr h) in *. pose proof Cp as (Lr & _ & C0 & Cs & Cc).
  set (D := fun r => at_ 0 rt (r + 1) - at_ 0 rt r).
  assert (Mono : forall r r', 0 <= r <= r' -> r' <= rn -> at_ 0 rt r <= at_ 0 rt r').
  { intros r r' H1 H2. pose proof (rt_mono rt rn Cs (Z.to_nat (r' - r)) r ltac:(lia) ltac:(lia)) as M. replace (r + Z.of_nat (Z.to_nat (r' - r))) with r' in M by lia. exact M. }
  assert (Es : for_ 0 rn (fun r l => do lo <- rd 0 rt r; do hi <- rd 0 rt (r + 1); Ok (l ++ [leaf (hi - lo)])) [] = Ok (map (fun r => leaf (D r)) (zseq 0 rn))).
  { match goal with |- ?X = _ => destruct (wp_ok_inv X (fun l => l = map (fun r => leaf (D r)) (zseq 0 rn))) as (l & El & ->); [|exact El] end.
    apply wp_for with (I := fun r l => l = map (fun r => leaf (D r)) (zseq 0 r)); [lia | reflexivity | | auto].
    intros r l Hr' ->. rewrite !rd_ok by lia. cbn [bind wp]. rewrite zseq_snoc, map_app by lia. reflexivity. }
  cbv zeta. rewrite Es. cbn [bind].
  set (st1 := mkost (os_peri st) (os_cblk st + (rn - 1)) (os_tree st + rn)).
  match goal with |- context [loop ?f ?bd ?s] => destruct (wp_ok_inv (loop f bd s) (fun '(rc, st', cb) =>
      (rc = 0 -> ordered h st 0 st' cb /\ (tr = true -> forall A, faithful A h -> respects A cb (seg (os_peri st') 0 n))) /\ (tot = true -> rc = 0))) as (((rc, st'), cb) & El & P1 & P2) end.
  2:{ exists rc, st', cb. split; [exact El|]. split; [|exact P2]. intros Rz. destruct (P1 Rz) as (X1 & X2). split; [auto|]. split; [auto|discriminate]. }
  apply wp_loop with (m := fun '(r, _, _, _, _) => rn - r)
    (I := fun '(r, io, st', done, todo) => 0 <= r <= rn /\ io = at_ 0 rt r /\ todo = map (fun r => leaf (D r)) (zseq r (rn - r)) /\ zlen done = r /\
      zlen (os_peri st') = zlen (os_peri st) /\ (forall i, 0 <= i < zlen (os_peri st) -> ~ (0 <= i < n) -> at_ 0 (os_peri st') i = at_ 0 (os_peri st) i) /\
      Permutation (seg (os_peri st') 0 io) (map (orgnum (hs h)) (seg qu 0 io)) /\ vsum done = io /\ fold_right (fun c P => tree_ok c /\ P) True done /\
      os_cblk st' = os_cblk st + rn - 1 + zlen (flat_map leaves done) - r /\ os_tree st' = os_tree st + rn + nsum done - r /\
      (tr = true -> forall A, faithful A h -> exists ss, rs_list A done ss /\ concat ss = seg (os_peri st') 0 io /\ ForallOrdPairs (apart A) ss)).
  - split; [lia|]. split; [auto|]. split; [f_equal; f_equal; lia|]. split; [auto|]. split; [auto|]. split; [auto|]. split; [apply Permutation_refl|]. split; [auto|]. split; [exact I|].
    change (zlen (flat_map leaves [])) with 0. change (nsum []) with 0. cbn [st1 os_cblk os_tree]. split; [lia|]. split; [lia|]. intros _ A _. exists []. split; [constructor|]. split; [reflexivity | constructor].
  - lia.
  - intros ((((r, io), st'), done), todo) (Hr' & -> & Et & Ld & L' & Fr & Pm & Vs & Tk & Cb & Tn & Rs).
    destruct todo as [|c todo].
    + assert (Er : r = rn). { destruct (Z.eq_dec r rn); [auto|]. rewrite zseq_cons in Et by lia. discriminate Et. } rewrite Er in *. rewrite An in *. cbn [wp]. split; [intros _|auto]. rewrite app_nil_r in *. split.
      * constructor; auto.
        -- eapply Permutation_trans; [exact Pm|]. fold n. replace (seg qu 0 n) with qu. { apply Permutation_map. exact Pq. }
           apply (at_ext 0); [rewrite zlen_seg; lia|]. intros i Hi. rewrite at_seg by lia. reflexivity.
        -- cbn [tree_ok leaf c_vnod]. fold n. split; [right; split; [now left | lia]|]. split; [lia|]. split; [auto|]. split; [auto|exact Tk].
        -- rewrite leaves_node. lia.
        -- cbn [nnodes]. fold (nsum done). lia.
      * intros Ht A Fa. destruct (Rs Ht A Fa) as (ss & R1' & R2 & R3). rewrite <- R2. apply rs_indep; auto.
    + assert (Hlt : r < rn). { destruct (Z.eq_dec r rn); [|lia]. subst r. rewrite zseq_0 in Et by lia. discriminate Et. }
      rewrite zseq_cons in Et by lia. cbn [map] in Et. injection Et as -> ->. rewrite !rd_ok by lia. cbn [bind].
      set (lo := at_ 0 rt r) in *. set (hi := at_ 0 rt (r + 1)). pose proof (Cs r ltac:(lia)) as Hlh. fold lo hi in Hlh. pose proof (Mono 0 r ltac:(lia) ltac:(lia)) as M0. rewrite C0 in M0. fold lo in M0. pose proof (Mono (r + 1) rn ltac:(lia) ltac:(lia)) as M1. rewrite An in M1. fold hi in M1.
      rewrite sublist_seg by lia. cbn [bind]. set (l := seg qu lo (hi - lo)).
      assert (Zl : zlen l = hi - lo) by (apply zlen_seg; lia).
      assert (Nq : NoDup qu) by (eapply Permutation_NoDup; [apply Permutation_sym; exact Pq | apply NoDup_zseq]).
      assert (Iq : forall i, 0 <= i < n -> b <= at_ 0 qu i < b + n). { intros i Hi. apply In_zseq. eapply Permutation_In; [exact Pq|]. apply at_In. lia. }
      assert (Inj : forall i j, 0 <= i < n -> 0 <= j < n -> at_ 0 qu i = at_ 0 qu j -> i = j) by (intros i j Hi Hj; apply (NoDup_at 0 qu); auto; lia).
      assert (Cl : forall i j, 0 <= i < n -> 0 <= j < n -> In (at_ 0 qu j) (ends (hs h) (at_ 0 qu i)) -> forall r', 0 <= r' <= rn -> i < at_ 0 rt r' -> j < at_ 0 rt r').
      { intros i j Hi Hj Hin r' Hr'' Hlt'. pose proof (Cc r' Hr'' i (at_ 0 qu j) ltac:(lia) (conj (Iq j Hj) Hin)) as Hx. apply In_seg in Hx. destruct Hx as (k & Hk & Ek). pose proof (Mono r' rn ltac:(lia) ltac:(lia)). rewrite An in *. apply Inj in Ek; lia. }
      assert (Cl' : forall i j, 0 <= i < n -> 0 <= j < n -> In (at_ 0 qu j) (ends (hs h) (at_ 0 qu i)) -> forall r', 0 <= r' <= rn -> j < at_ 0 rt r' -> i < at_ 0 rt r').
      { intros i j Hi Hj Hin. apply (Cl j i Hj Hi). apply (nh_sym h Ok_ (at_ 0 qu i) (at_ 0 qu j)); [apply Iq; auto | split; [apply Iq; auto | exact Hin]]. }
      assert (Nl : NoDup l). { unfold l, seg. apply NoDup_map_inj; [|apply NoDup_zseq]. intros x y Hx Hy. apply In_zseq in Hx, Hy. apply Inj; lia. }
      destruct (son_spec jk h l (zseq (vnohnnd h) (vertnbr (hs h) - n)) (vertnbr (hs h) - n) Ok_ Nl) as (h' & E' & Ok' & V' & O' & Fa').
      { intros w Hw. apply In_seg in Hw. destruct Hw as (i & Hi & ->). fold b. rewrite F1. apply Iq. lia. }
      { intros v w Hv Hw Hx. apply In_seg in Hv. destruct Hv as (i & Hi & ->). apply In_zseq.
        destruct Ok_ as (_ & V). pose proof (hv_graph _ V) as G. pose proof (gv_nnd _ G) as Gn. cbn [hunload hs unload vertnnd vertnbr baseval] in Gn. fold b in Gn.
        assert (Hv : isvert (unload (hs h)) (at_ 0 qu i)) by (unfold isvert; cbn [unload baseval vertnnd]; fold b; specialize (Iq i ltac:(lia)); lia).
        pose proof Hw as Hw0. rewrite <- ends_unload in Hw. destruct (ends_sym (unload (hs h)) _ w G Hv Hw) as (Vw & _ & _). unfold isvert in Vw. cbn [unload baseval vertnnd] in Vw. fold b in Vw.
        destruct (Z_lt_ge_dec w (b + n)) as [Hw1|]; [exfalso | lia]. assert (Hq : In w qu) by (eapply Permutation_In; [apply Permutation_sym; exact Pq | apply In_zseq; lia]).
        apply (In_at 0) in Hq. destruct Hq as (j & Hj & Ej). apply Hx. apply In_seg. exists j. split; [|now symmetry]. rewrite <- Ej in Hw0. pose proof (Cl i j ltac:(lia) ltac:(lia) Hw0 (r + 1) ltac:(lia)) as X1. fold hi in X1.
        pose proof (Cl' i j ltac:(lia) ltac:(lia) Hw0 r ltac:(lia)) as X2. fold lo in X2. lia. }
      { rewrite zlen_zseq by lia. lia. }
      fold n. rewrite E'. rewrite Zl in V', O'.
      destruct (Hsub h' st' lo Ok' ltac:(lia) ltac:(lia) ltac:(lia) ltac:(discriminate)) as (rc & st2 & c & Es2 & P & T). change (D r) with (hi - lo). rewrite V' in Es2, P. rewrite Es2. cbn [bind].
      destruct (Z.eqb_spec rc 0) as [Rz|Rz]; cbn [negb].
      2:{ cbn [wp]. split; [lia|]. intros Hc. exfalso. auto. }
      destruct (P Rz) as (Dd & Rs2 & _). pose proof (od_frame _ _ _ _ _ Dd) as Fr2. pose proof (od_perm _ _ _ _ _ Dd) as Pm2. pose proof (od_len _ _ _ _ _ Dd) as L2. rewrite V' in Fr2, Pm2. rewrite O' in Pm2.
      cbn [wp]. split; [|lia]. change (at_ 0 rt (r + 1)) with hi. replace (lo + (hi - lo)) with hi by lia.
      assert (Sg : seg (os_peri st2) 0 hi = seg (os_peri st') 0 lo ++ seg (os_peri st2) lo (hi - lo)).
      { replace hi with (lo + (hi - lo)) at 1 by lia. rewrite seg_app by lia. f_equal. apply seg_ext. intros i Hi. apply Fr2; lia. }
      assert (Sq : seg qu 0 hi = seg qu 0 lo ++ l) by (replace hi with (lo + (hi - lo)) at 1 by lia; rewrite seg_app by lia; reflexivity).
      split; [lia|]. split; [lia|]. split; [f_equal; f_equal; lia|]. split; [rewrite zlen_snoc; lia|]. split; [lia|]. split; [intros i Hi Hx; rewrite Fr2 by lia; apply Fr; auto|].
      split; [rewrite Sg, Sq, map_app; apply Permutation_app; auto|].
      split; [rewrite vsum_app; cbn [vsum fold_right]; rewrite (od_vnod _ _ _ _ _ Dd), V'; lia|].
      split. { clear - Tk Dd. induction done as [|d done IH]; cbn [app fold_right] in *; [split; [apply (od_tree _ _ _ _ _ Dd) | exact I] | destruct Tk; auto]. }
      split. { rewrite flat_map_app. cbn [flat_map]. rewrite app_nil_r, zlen_app, (od_cblk _ _ _ _ _ Dd). lia. }
      split. { rewrite nsum_app, (od_node _ _ _ _ _ Dd). cbn [nsum fold_right]. lia. }
      intros Ht A Fa. destruct (Rs Ht A Fa) as (ss & R1' & R2 & R3). exists (ss ++ [seg (os_peri st2) lo (hi - lo)]). specialize (Rs2 Ht A (Fa' A Fa)). split; [now apply rs_list_snoc|].
      split; [rewrite concat_app, R2, Sg; cbn [concat]; now rewrite app_nil_r|]. apply FOP_snoc; [auto|]. apply Forall_forall. intros s Hs x y Hx Hy.
      assert (Hx' : In x (concat ss)) by (apply in_concat; eauto). rewrite R2 in Hx'. apply (Permutation_In _ _ _ Pm) in Hx'. apply (Permutation_In _ _ _ Pm2) in Hy.
      apply in_map_iff in Hx', Hy. destruct Hx' as (u & <- & Hu), Hy as (w & <- & Hw). apply In_seg in Hu, Hw. destruct Hu as (i & Hi & ->), Hw as (j & Hj & ->).
      assert (Bi : baseval (hs h) <= at_ 0 qu i < vnohnnd h) by (fold b; rewrite F1; apply Iq; lia). assert (Bj : baseval (hs h) <= at_ 0 qu j < vnohnnd h) by (fold b; rewrite F1; apply Iq; lia).
      split; intros HA; apply Fa in HA; auto.
      * pose proof (Cl i j ltac:(lia) ltac:(lia) HA r ltac:(lia)) as X. fold lo in X. lia.
      * pose proof (Cl' j i ltac:(lia) ltac:(lia) HA r ltac:(lia)) as X. fold lo in X. lia.
Qed.
End CcGood.

(** ** Strategies *)
Lemma orders_top top tot tr fl m : orders false tot tr fl m -> orders top tot tr fl m.
Proof. intros H h st o A B C D _. apply H; auto. discriminate. Qed.
Lemma orders_fl top tot tr m : orders top tot tr true m -> orders top tot tr false m.
Proof. intros H h st o A B C D F. destruct (H h st o A B C D F) as (rc & st' & cb & E & P & T). exists rc, st', cb. split; [auto|]. split; [|auto]. intros Rz. destruct (P Rz) as (X & Y & _). split; [auto|]. split; [auto|discriminate]. Qed.

Lemma strat_ind' (P : strat -> Prop) :
  P SEmpty -> P SConcat -> P SSelect -> (forall t s els, P s -> (forall s', els = Some s' -> P s') -> P (SCond t s els)) -> P SSi ->
  (forall sep lea ose, P lea -> P ose -> P (SNd sep lea ose)) -> (forall s, P s -> P (SCc s)) -> (forall m, P (SMeth m)) -> forall s, P s.
Proof.
  intros H1 H2 H3 H4 H5 H6 H7 H8. fix IH 1. intros [ | | |t s els| |sep lea ose|s|m].
  - exact H1.
  - exact H2.
  - exact H3.
  - apply H4; [apply IH|]. destruct els as [s'|]; [intros ? [= <-]; apply IH | discriminate].
  - exact H5.
  - apply H6; apply IH.
  - apply H7, IH.
  - apply H8.
Qed.

Theorem St_good jk al s : 1 <= al <= 2 -> forall top tot tr fl, sgood top tot tr fl s -> orders top tot tr fl (hgraphOrderSt jk al s).
Proof.
  intros Hal. pattern s. apply strat_ind'; clear s.
  - intros top tot tr fl _ h st o A B C D F. cbn [hgraphOrderSt]. replace (vnohnbr h =? 0) with false by lia. apply (si_good top tot tr fl h st o A B C D F).
  - intros top tot tr fl G h st o A B C D F. cbn [hgraphOrderSt]. replace (vnohnbr h =? 0) with false by lia. cbn [sgood] in G. subst tot. exists 1, st, (leaf (vnohnbr h)). split; [auto|]. split; [lia|discriminate].
  - intros top tot tr fl G h st o A B C D F. cbn [hgraphOrderSt]. replace (vnohnbr h =? 0) with false by lia. cbn [sgood] in G. subst tot. exists 1, st, (leaf (vnohnbr h)). split; [auto|]. split; [lia|discriminate].
  - intros t s els IH1 IH2 top tot tr fl (G1 & G2 & G3) h st o A B C D F. cbn [hgraphOrderSt]. replace (vnohnbr h =? 0) with false by lia. destruct (t h) as [[]|] eqn:Et.
    + apply (IH1 _ _ _ _ G2 h st o A B C D F).
    + destruct els as [s'|]; [|contradiction]. apply (IH2 s' eq_refl _ _ _ _ G3 h st o A B C D F).
    + exists 1, st, (leaf (vnohnbr h)). split; [auto|]. split; [lia|]. intros Hc. exfalso. apply (G1 Hc h Et).
  - intros top tot tr fl _ h st o A B C D F. cbn [hgraphOrderSt]. replace (vnohnbr h =? 0) with false by lia. apply (si_good top tot tr fl h st o A B C D F).
  - intros sep lea ose IH1 IH2 top tot tr fl (G0 & G1 & G2 & G3) h st o A B C D F. cbn [hgraphOrderSt]. replace (vnohnbr h =? 0) with false by lia. subst fl.
    destruct (nd_good jk al sep _ _ tot tr Hal G1 (IH1 _ _ _ _ G2) (IH2 _ _ _ _ G3) (S (Z.to_nat (vnohnbr h))) h st o A ltac:(lia) C D) as (rc & st' & cb & X). exists rc, st', cb. exact X.
  - intros s IH top tot tr fl (G0 & G1 & G2) h st o A B C D F. cbn [hgraphOrderSt]. replace (vnohnbr h =? 0) with false by lia. subst fl top. apply (cc_good jk _ tot tr (IH _ _ _ _ G2) h st o A B C D F).
  - intros m top tot tr fl G h st o A B C D F. cbn [hgraphOrderSt]. replace (vnohnbr h =? 0) with false by lia. apply (G h st o A B C D F).
Qed.
