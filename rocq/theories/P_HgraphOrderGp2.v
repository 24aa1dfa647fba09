(** Proofs about Gibbs-Poole-Stockmeyer ordering, continued: the whole ordering. *)
From Verif Require Import Base M_Graph M_Vgraph M_Induce M_Hgraph M_Order M_HgraphOrder S_Graph S_Vgraph S_Induce S_Hgraph S_Order S_HgraphOrder.
From Verif Require Import P_GraphList P_Induce P_Order P_Vgraph P_Hgraph P_HgraphOrder P_HgraphOrder2 P_HgraphOrder3 M_HgraphOrderGp P_HgraphOrderGp.
From Coq Require Import Permutation.

Definition compact (h : hgraph) (l : list Z) : Prop :=
  forall i k j, 0 <= i <= k -> k <= j < zlen l -> conn h (at_ 0 l i) (at_ 0 l j) -> conn h (at_ 0 l i) (at_ 0 l k).

Section Gp2.
Variables (h : hgraph).
Hypothesis Ok_ : hgraph_ok h.
Let g := hs h.
Let b := baseval g.
Let n := vnohnbr h.
Hypothesis Hn : 1 <= n.
Let N v := b <= v < b + n.
Let nh (v w : Z) : Prop := b <= w < b + n /\ In w (ends g v).

Lemma shut_comp L M root : shut h L -> N root -> (forall v, In v M <-> conn h root v) -> ~ In root L -> shut h (L ++ M).
Proof.
  intros SL HR HM NR. split.
  - intros x Hx. apply in_app_iff in Hx. destruct Hx as [Hx|Hx]; [now apply SL|]. apply HM in Hx. now apply (conn_out h Ok_ L root x SL HR NR).
  - intros x y Hx E. apply in_app_iff in Hx. apply in_app_iff. destruct Hx as [Hx|Hx]; [left; now apply (proj2 SL x y)|]. right. apply HM. apply HM in Hx. destruct (conn_out h Ok_ L root x SL HR NR Hx) as [Nx _]. now apply (conn_step h root x y Nx).
Qed.
Lemma compact_comp L M root : shut h L -> N root -> (forall v, In v M <-> conn h root v) -> ~ In root L -> compact h L -> compact h (L ++ M).
Proof.
  intros SL HR HM NR CL i k j Hi Hj C. rewrite zlen_app in Hj. destruct (Z.ltb_spec j (zlen L)) as [Lj|Lj].
  - rewrite !at_app1 in * by lia. apply (CL i k j); auto. lia.
  - rewrite (at_app2 0 L M j) in C by lia. pose proof (at_In 0 M (j - zlen L) ltac:(lia)) as Ij. destruct (Z.ltb_spec i (zlen L)) as [Li|Li].
    + exfalso. rewrite at_app1 in C by lia. pose proof (at_In 0 L i ltac:(lia)) as Ii. apply HM in Ij.
      assert (D : In (at_ 0 M (j - zlen L)) L) by (apply (C (fun x => In x L) Ii); intros x y _ Hx E; apply (proj2 SL x y Hx E)). now apply (conn_out h Ok_ L root _ SL HR NR Ij).
    + rewrite !at_app2 by lia. pose proof (at_In 0 M (i - zlen L) ltac:(lia)) as Ii. pose proof (at_In 0 M (k - zlen L) ltac:(lia)) as Ik. apply HM in Ii, Ik. apply (conn_trans h _ root); [|exact Ik]. now apply (conn_sym h Ok_ root).
Qed.

Lemma gp_run jk passnbr st o cb : 0 <= o -> o + n <= zlen (os_peri st) ->
  exists peri l, hgraphOrderGp jk passnbr h st o cb = Ok (0, mkost peri (os_cblk st) (os_tree st), cb) /\
    NoDup l /\ (forall x, In x l -> N x) /\ zlen l = n /\ wrt h (os_peri st) o peri l /\ compact h l.
Proof.
  intros Ho Hz. unfold hgraphOrderGp. cbv zeta. fold g. fold b. fold n.
  match goal with |- context [bind ?c _] => destruct (wp_ok_inv c (fun peri => exists l, NoDup l /\ (forall x, In x l -> N x) /\ zlen l = n /\ wrt h (os_peri st) o peri l /\ compact h l)) as (peri & E & l & P) end;
    [|rewrite E; cbn [bind]; eauto].
  apply wp_loop with (I := fun '(s, root, peri, ord) => exists L, lens h s /\ shut h L /\ NoDup L /\ wrt h (os_peri st) o peri L /\ compact h L /\ ord = o + zlen L /\ b <= root /\
      (forall v, In v L -> pn h s v <> 0) /\ (forall v, N v -> ~ In v L -> pn h s v = 0) /\ (forall v, N v -> v < root -> In v L)) (m := fun '(s, root, peri, ord) => o + n - ord).
  - exists []. split; [unfold lens; cbn [gp_qu gp_pass gp_dist]; rewrite !zlen_repeat; fold n; lia|]. split; [split; [intros x []|intros x y []]|]. split; [constructor|]. split.
    { split; [reflexivity|]. split; [auto|reflexivity]. }
    split; [intros i k j Hi Hj; change (zlen (@nil Z)) with 0 in Hj; lia|]. split; [change (zlen (@nil Z)) with 0; lia|]. split; [lia|]. split; [intros v []|]. split.
    + intros v Hv _. unfold pn. cbn [gp_pass]. fold g. fold b. unfold N in Hv. rewrite at_repeat by lia. reflexivity.
    + intros v Hv. unfold N in Hv. lia.
  - lia.
  - intros (((s, root), peri), ord) (L & Ln & SL & ND & W & CP & EO & HR & Z1 & Z0 & BR). pose proof (NoDup_range b n L ltac:(lia) ND (proj1 SL)) as RL.
    destruct (ord <? o + n) eqn:El; [|cbn [wp]; exists L; repeat (split; [auto; fail|]); split; [apply SL|]; split; [lia|]; auto].
    destruct (missing b n L ltac:(lia) ltac:(lia)) as (v0 & Hv0 & Nv0).
    assert (Rt : root <= v0). { destruct (Z_lt_le_dec v0 root) as [Hlt|]; [|assumption]. exfalso. apply Nv0. now apply BR. }
    apply wp_bind. eapply wp_mono with (Q := fun r => N r /\ ~ In r L /\ forall v, N v -> v < r -> In v L).
    { apply wp_loop with (I := fun r => b <= r <= v0 /\ forall v, N v -> v < r -> In v L) (m := fun r => v0 - r); [split; [lia|exact BR]|lia|].
      intros r (Hr & Br). destruct Ln as (L1 & L2 & L3). assert (Hr' : N r) by (unfold N; lia). fold n in L1, L2, L3. rewrite rd_ok by lia. cbn [bind]. change (at_ b (gp_pass s) r) with (pn h s r). destruct (pn h s r =? 0) eqn:Ep; cbn [wp].
      - split; [exact Hr'|]. split; [intros X; apply Z1 in X; lia|exact Br].
      - assert (In r L) by (destruct (in_dec Z.eq_dec r L) as [|X]; [assumption|apply (Z0 r Hr') in X; lia]). assert (r <> v0) by (intros ->; contradiction). split; [|lia]. split; [lia|]. intros v Hv Hvr. destruct (Z.eq_dec v r) as [->|]; [assumption|]. apply Br; [exact Hv|lia]. }
    intros r (Hr & Nr & Br). cbn beta. apply wp_bind.
    assert (P1 : pre h L r 1 s). { constructor; [exact Ln| |exact Z1]. intros v Hv Nv. rewrite (Z0 v Hv Nv). split; [lia|lia]. }
    eapply wp_mono; [apply (passes_ok h Ok_ Hn L r passnbr s _ SL Hr Nr P1); lia|]. intros ((s1, dv), pass) (P2 & Cd & Hp). cbn beta iota.
    destruct (start h Ok_ Hn L r pass s1 dv SL Hr Nr Hp P2 Cd) as (s2 & E2 & I2 & T2 & H2). destruct (gpPut dv (gpFlush s1)) as [s1'| | |]; cbn [bind] in *; try discriminate. change (baseval (hs h)) with b in E2. rewrite E2. cbn [bind].
    apply wp_bind. assert (B2 : numb h L r pass (os_peri st) o [] s2 peri ord).
    { constructor; [|rewrite app_nil_r; assumption|rewrite app_nil_r; assumption|rewrite app_nil_r; assumption]. destruct I2 as [A1 A2 A3 A4 A5 A6]. constructor; auto.
      - intros v Hv Nv. destruct (A4 v Hv Nv). split; [lia|auto].
      - intros v. split; [intros []|]. intros (D1 & D2 & D3). destruct (A4 v D1 D2). lia.
      - intros v Hv. apply A6 in Hv. destruct Hv as (D1 & D2 & D3). split; [exact D1|]. split; [exact D2|]. lia.
      - intros v Hv Nv D. apply A6. auto. }
    eapply wp_mono; [apply (levels_ok h Ok_ Hn L r pass SL Hr Nr Hp (os_peri st) o Ho Hz [] s2 peri ord _ B2); [lia|lia|intros x y []|intros i Hi; lia]|].
    intros ((s3, peri'), ord') (M & B3 & H3 & H3' & K3 & T3). cbn beta iota. pose proof (levels_comp h Ok_ L r pass SL Hr Nr Hp (os_peri st) o M s3 peri' ord' B3 H3 H3' K3 T3) as CM. destruct B3 as [I3 N3 W3 O3].
    cbn [wp]. split.
    + exists (L ++ M). split; [apply I3|]. split; [now apply (shut_comp L M r)|]. split; [exact N3|]. split; [exact W3|]. split; [now apply (compact_comp L M r)|]. split; [exact O3|]. split; [unfold N in Hr; lia|]. split; [|split].
      * intros v Hv. apply in_app_iff in Hv. destruct Hv as [Hv|Hv]; [now apply (i2_in _ _ _ _ _ _ I3)|]. apply (i2_m _ _ _ _ _ _ I3) in Hv. lia.
      * intros v Hv Nv. rewrite in_app_iff in Nv. destruct (Z.eq_dec (pn h s3 v) 0) as [|X]; [assumption|]. exfalso. apply Nv. right. apply CM. apply (i2_out _ _ _ _ _ _ I3 v Hv); tauto.
      * intros v Hv Hvr. apply in_app_iff. left. now apply Br.
    + rewrite O3, EO. rewrite zlen_app. assert (Im : In r M) by (apply CM; apply conn_refl). destruct M as [|m M]; [destruct Im|]. rewrite zlen_cons. pose proof (zlen_nonneg M).
      assert (RM : zlen (L ++ m :: M) <= n) by (apply (NoDup_range b n); [lia|exact N3|]; apply (shut_comp L (m :: M) r SL Hr CM Nr)). rewrite zlen_app, zlen_cons in RM. lia.
Qed.
End Gp2.

Lemma gp_good jk passnbr top tot tr fl : orders top tot tr fl (hgraphOrderGp jk passnbr).
Proof.
  intros h st o Ok_ Hn Ho Hz Ht. destruct (gp_run h Ok_ Hn jk passnbr st o (leaf (vnohnbr h)) Ho Hz) as (peri & l & E & ND & Rg & Zl & (W1 & W2 & W3) & _).
  exists 0, (mkost peri (os_cblk st) (os_tree st)), (leaf (vnohnbr h)). split; [exact E|]. split; [|auto]. intros _. split; [|split].
  - constructor; cbn [os_peri os_cblk os_tree]; auto.
    + intros i Hi. apply W2; lia.
    + rewrite Zl in W3. rewrite W3. apply Permutation_map. apply NoDup_Permutation_bis; [exact ND| |].
      * assert (Q := zlen_zseq (baseval (hs h)) (vnohnbr h) ltac:(lia)). unfold zlen in *. lia.
      * intros x Hx. apply In_zseq. apply Rg in Hx. lia.
    + cbn. split; [reflexivity|]. split; [lia|reflexivity].
    + cbn [leaves leaf]. change (zlen [vnohnbr h]) with 1. lia.
    + cbn [nnodes leaf]. lia.
  - intros _ A _. constructor. now apply zlen_seg; lia.
  - reflexivity.
Qed.
