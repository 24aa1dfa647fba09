(** Proofs about Gibbs-Poole-Stockmeyer ordering. *)
From Verif Require Import Base M_Graph M_Vgraph M_Induce M_Hgraph M_Order M_HgraphOrder S_Graph S_Vgraph S_Induce S_Hgraph S_Order S_HgraphOrder.
From Verif Require Import P_GraphList P_Induce P_Order P_Vgraph P_Hgraph P_HgraphOrder P_HgraphOrder2 P_HgraphOrder3 M_HgraphOrderGp.
From Coq Require Import Permutation.

Section Gp.
Variables (h : hgraph).
Hypothesis Ok_ : hgraph_ok h.
Let g := hs h.
Let b := baseval g.
Let n := vnohnbr h.
Hypothesis Hn : 1 <= n.
Let N v := b <= v < b + n.
Let nh (v w : Z) : Prop := b <= w < b + n /\ In w (ends g v).
Let hi v := at_ b (vnhdtab h) v.

Lemma f_sym v w : N v -> nh v w -> nh w v. Proof. apply (nh_sym h Ok_). Qed.
Lemma f_rd v : N v -> rvert g v = Ok (vert g v) /\ rd b (vnhdtab h) v = Ok (hi v) /\ vert g v <= hi v.
Proof. intros H. destruct (nh_arcs h Ok_ v H) as (A & B & C & _). auto. Qed.
Lemma f_arc v e : N v -> vert g v <= e < hi v -> redge g e = Ok (edge g e) /\ nh v (edge g e).
Proof. intros H He. destruct (nh_arcs h Ok_ v H) as (_ & _ & _ & D & _). apply D. exact He. Qed.
Lemma f_nh v w : N v -> nh v w -> exists e, vert g v <= e < hi v /\ edge g e = w.
Proof. intros H He. destruct (nh_arcs h Ok_ v H) as (_ & _ & _ & _ & D). apply D. exact He. Qed.
Lemma f_N v w : nh v w -> N w. Proof. intros [H _]. exact H. Qed.
Lemma f_b : 0 <= b. Proof. destruct Ok_ as (_ & V). exact (hv_base _ V). Qed.

(** ** Reachability *)
Definition conn (r v : Z) : Prop := forall S : Z -> Prop, S r -> (forall x y, N x -> S x -> nh x y -> S y) -> S v.
Lemma conn_refl r : conn r r. Proof. intros S H _. exact H. Qed.
Lemma conn_step r v w : N v -> conn r v -> nh v w -> conn r w.
Proof. intros Hv C E S H1 H2. apply (H2 v w Hv); [|exact E]. apply C; assumption. Qed.
Lemma conn_trans r v w : conn r v -> conn v w -> conn r w.
Proof. intros C D S H1 H2. apply (D S); [apply C; assumption|exact H2]. Qed.
Lemma conn_sym r v : N r -> conn r v -> conn v r.
Proof.
  intros Hr C. apply (C (fun x => N x /\ conn x r)); [split; [exact Hr|apply conn_refl]|].
  intros x y Hx [_ D] E. pose proof (f_N _ _ E) as Hy. split; [exact Hy|]. apply (conn_trans y x r); [|exact D]. apply (conn_step y y x Hy (conn_refl y)). now apply f_sym.
Qed.

(** [L] has been ordered: it is a union of connected components *)
Definition shut (L : list Z) : Prop := (forall x, In x L -> N x) /\ forall x y, In x L -> nh x y -> In y L.
Lemma conn_out L r v : shut L -> N r -> ~ In r L -> conn r v -> N v /\ ~ In v L.
Proof.
  intros [SN SC] Hr Nr C. apply (C (fun x => N x /\ ~ In x L)); [auto|]. intros x y Hx [_ Nx] E. pose proof (f_N _ _ E) as Hy. split; [exact Hy|].
  intros Iy. apply Nx. apply (SC y x Iy). now apply f_sym.
Qed.
Lemma room l x : NoDup l -> (forall y, In y l -> N y) -> N x -> ~ In x l -> zlen l < n.
Proof.
  intros D H Hx Nx. pose proof (NoDup_range b n (l ++ [x]) ltac:(lia) (NoDup_snoc1 _ _ D Nx)) as R. rewrite zlen_snoc in R.
  assert (zlen l + 1 <= n); [|lia]. apply R. intros w Hw. apply in_app_iff in Hw. destruct Hw as [Hw|[<-|[]]]; [now apply H|exact Hx].
Qed.

Definition pn (s : gpst) (v : Z) : Z := at_ b (gp_pass s) v.
Definition lens (s : gpst) : Prop := zlen (gp_qu s) = n /\ zlen (gp_pass s) = n /\ zlen (gp_dist s) = n.
Definition inq (s : gpst) : list Z := seg (gp_qu s) 0 (gp_head s).

Lemma in_inq s v : In v (inq s) <-> exists i, 0 <= i < gp_head s /\ v = at_ 0 (gp_qu s) i.
Proof. unfold inq. rewrite In_seg. split; intros (i & H & E); exists i; (split; [lia|exact E]). Qed.

(** effect of putting a vertex in the queue and setting its pass number *)
Lemma put_set s w p : lens s -> 0 <= gp_head s < n -> N w ->
  exists s', (do s1 <- gpPut w s; gpSetPass b w p s1) = Ok s' /\ lens s' /\ gp_head s' = gp_head s + 1 /\ gp_tail s' = gp_tail s /\ gp_dist s' = gp_dist s /\
    inq s' = inq s ++ [w] /\ (forall i, 0 <= i < gp_head s -> at_ 0 (gp_qu s') i = at_ 0 (gp_qu s) i) /\ at_ 0 (gp_qu s') (gp_head s) = w /\
    forall x, N x -> pn s' x = if w =? x then p else pn s x.
Proof.
  intros (L1 & L2 & L3) Hh Hw. unfold gpPut. rewrite wr_ok by lia. cbn [bind]. unfold gpSetPass. cbn [gp_pass gp_qu gp_head gp_tail gp_dist]. unfold N in Hw. rewrite wr_ok by lia. cbn [bind].
  eexists. split; [reflexivity|]. unfold lens, inq, pn. cbn [gp_pass gp_qu gp_head gp_tail gp_dist]. rewrite !zlen_upd.
  assert (A : forall i, 0 <= i < gp_head s -> at_ 0 (upd 0 (gp_qu s) (gp_head s) w) i = at_ 0 (gp_qu s) i). { intros i Hi. rewrite at_upd by lia. destruct (_ =? i) eqn:E; [lia|reflexivity]. }
  assert (B : at_ 0 (upd 0 (gp_qu s) (gp_head s) w) (gp_head s) = w) by (rewrite at_upd by lia; rewrite Z.eqb_refl; reflexivity).
  repeat (split; [auto; fail|]). split.
  { rewrite seg_snoc by lia. replace (0 + gp_head s) with (gp_head s) by lia. rewrite B. f_equal. apply seg_ext. intros i Hi. apply A. lia. }
  split; [exact A|]. split; [exact B|]. intros x Hx. unfold N in Hx. rewrite at_upd by lia. reflexivity.
Qed.

(** ** Searches *)
Section Search.
Variables (L : list Z) (root pass : Z).
Hypothesis SL : shut L.
Hypothesis HR : N root.
Hypothesis NR : ~ In root L.
Hypothesis Hp : 1 <= pass.
Record inv1 (s : gpst) : Prop := {
  i1_len : lens s;
  i1_head : 0 <= gp_tail s <= gp_head s;
  i1_nd : NoDup (inq s);
  i1_out : forall v, N v -> ~ In v L -> 0 <= pn s v <= pass /\ (pn s v <> 0 -> conn root v);
  i1_in : forall v, In v L -> pn s v <> 0;
  i1_q : forall v, In v (inq s) <-> N v /\ ~ In v L /\ pn s v = pass }.

Lemma out v : conn root v -> N v /\ ~ In v L. Proof. now apply conn_out. Qed.

Lemma put1 s w : inv1 s -> conn root w -> pn s w < pass -> exists s', (do s1 <- gpPut w s; gpSetPass b w pass s1) = Ok s' /\ inv1 s' /\ gp_tail s' = gp_tail s /\ gp_head s' = gp_head s + 1 /\ gp_dist s' = gp_dist s.
Proof.
  intros I C P. destruct (out w C) as [Hw Nw]. assert (Nq : ~ In w (inq s)) by (intros X; apply (i1_q s I) in X; lia).
  pose proof (room (inq s) w (i1_nd s I) (fun y Hy => proj1 (proj1 (i1_q s I y) Hy)) Hw Nq) as R. pose proof (i1_head s I) as H0. unfold inq in R. rewrite zlen_seg in R by lia.
  destruct (put_set s w pass (i1_len s I) ltac:(lia) Hw) as (s' & E & Ln & Hh & Ht & Hd & Q & _ & _ & PN). exists s'. split; [exact E|]. split; [|auto].
  constructor; auto.
  - lia.
  - rewrite Q. apply NoDup_snoc1; [apply I|exact Nq].
  - intros v Hv Nv. rewrite PN by exact Hv. destruct (w =? v) eqn:Ew; [|now apply (i1_out s I)]. replace v with w by lia. split; [lia|auto].
  - intros v Hv. rewrite PN by (now apply SL). destruct (w =? v) eqn:Ew; [lia|]. now apply (i1_in s I).
  - intros v. rewrite Q, in_app_iff, (i1_q s I). split.
    + intros [(A & B & D)|[<-|[]]]; [|split; [exact Hw|split; [exact Nw|rewrite PN by exact Hw; rewrite Z.eqb_refl; reflexivity]]]. split; [exact A|]. split; [exact B|]. rewrite PN by exact A. destruct (w =? v) eqn:Ew; lia.
    + intros (A & B & D). rewrite PN in D by exact A. destruct (w =? v) eqn:Ew; [right; left; lia|left; auto].
Qed.

Lemma dist1 s w d : inv1 s -> N w -> exists s', gpSetDist b w d s = Ok s' /\ inv1 s' /\ gp_tail s' = gp_tail s /\ gp_head s' = gp_head s.
Proof.
  intros I Hw. destruct (i1_len s I) as (L1 & L2 & L3). unfold gpSetDist. unfold N in Hw. rewrite wr_ok by lia. cbn [bind]. eexists. split; [reflexivity|]. split; [|auto].
  destruct I. constructor; auto. split; [exact L1|]. split; [exact L2|]. cbn [gp_dist]. rewrite zlen_upd. exact L3.
Qed.

Lemma arc1 v d s : inv1 s -> N v -> conn root v -> wp (for_ (vert g v) (hi v) (gpArc1 g pass d) s) (fun s' => inv1 s' /\ gp_tail s' = gp_tail s /\ gp_head s <= gp_head s') noerr.
Proof.
  intros I Hv C. destruct (f_rd v Hv) as (_ & _ & R). apply wp_for with (I := fun e s' => inv1 s' /\ gp_tail s' = gp_tail s /\ gp_head s <= gp_head s'); [exact R|split; [exact I|lia]| |auto].
  intros e s1 He (I1 & T1 & H1). destruct (f_arc v e Hv He) as (E & Nw). unfold gpArc1. rewrite E. cbn [bind]. fold b. pose proof (f_N _ _ Nw) as Hw. destruct (i1_len s1 I1) as (L1 & L2 & L3).
  unfold N in Hw. rewrite rd_ok by lia. cbn [bind]. destruct (_ <? pass) eqn:Ep; [|cbn [wp]; auto].
  pose proof (conn_step root v _ Hv C Nw) as Cw. destruct (put1 s1 (edge g e) I1 Cw) as (s2 & E2 & I2 & T2 & H2 & _); [unfold pn; lia|].
  destruct (gpPut (edge g e) s1) as [s1'| | |]; cbn [bind] in *; try discriminate. rewrite E2. cbn [bind]. destruct (dist1 s2 (edge g e) d I2 Hw) as (s3 & E3 & I3 & T3 & H3). rewrite E3. cbn [wp]. split; [exact I3|]. lia.
Qed.

Lemma scan_ok fuel s dv dd dg fl : inv1 s -> gp_tail s < gp_head s -> conn root dv -> n < Z.of_nat fuel ->
  wp (gpScan fuel h pass (s, (dv, dd, dg, fl))) (fun '(s', (dv', _, _, _)) => inv1 s' /\ conn root dv') noerr.
Proof.
  intros I T C F. unfold gpScan. cbv zeta. apply wp_loop with (I := fun '(s, (dv, _, _, _)) => inv1 s /\ gp_tail s < gp_head s /\ conn root dv) (m := fun '(s, _) => n - gp_tail s); [auto| |].
  { pose proof (i1_head s I). pose proof (zlen_nonneg (inq s)). pose proof (NoDup_range b n (inq s) ltac:(lia) (i1_nd s I) (fun y Hy => proj1 (proj1 (i1_q s I y) Hy))) as R. unfold inq in R. rewrite zlen_seg in R by lia. lia. }
  clear s dv dd dg fl I T C. intros (s, (((dv, dd), dg), fl)) (I & T & C). pose proof (i1_head s I) as Hh. destruct (i1_len s I) as (L1 & L2 & L3).
  pose proof (NoDup_range b n (inq s) ltac:(lia) (i1_nd s I) (fun y Hy => proj1 (proj1 (i1_q s I y) Hy))) as R. unfold inq in R. rewrite zlen_seg in R by lia.
  unfold gpGet. rewrite rd_ok by lia. cbn [bind]. set (v := at_ 0 (gp_qu s) (gp_tail s)). assert (Iv : In v (inq s)) by (apply in_inq; exists (gp_tail s); split; [lia|reflexivity]).
  apply (i1_q s I) in Iv. destruct Iv as (Hv & Nv & Pv). pose proof (proj2 (i1_out s I v Hv Nv) ltac:(lia)) as Cv. fold g. fold b. cbn [gp_dist].
  assert (Hv' := Hv). unfold N in Hv'. rewrite rd_ok by lia. cbn [bind]. destruct (f_rd v Hv) as (R1 & R2 & R3). rewrite R1. cbn [bind]. rewrite R2. cbn [bind].
  apply wp_bind. set (s0 := mkgpst _ _ _ _ _). assert (I0 : inv1 s0) by (destruct I; constructor; auto; cbn; lia).
  eapply wp_mono; [apply (arc1 v _ s0 I0 Hv Cv)|]. intros s1 (I1 & T1 & H1). cbn [gp_tail gp_head s0] in T1, H1.
  match goal with |- context [if ?c then (v, ?x, ?y, 0) else _] => set (D := if c then (v, x, y, 0) else (dv, dd, dg, fl)); assert (Cd : conn root (let '(a, _, _, _) := D in a)) by (unfold D; destruct c; auto); destruct D as (((dv', dd'), dg'), fl') end.
  destruct (gp_head s1 <=? gp_tail s1) eqn:Eh; cbn [wp]; [auto|]. split; [split; [exact I1|]; split; [lia|exact Cd]|].
  pose proof (i1_head s1 I1) as Hh1. pose proof (NoDup_range b n (inq s1) ltac:(lia) (i1_nd s1 I1) (fun y Hy => proj1 (proj1 (i1_q s1 I1 y) Hy))) as R'. unfold inq in R'. rewrite zlen_seg in R' by lia. lia.
Qed.
End Search.

Record pre (L : list Z) (root pass : Z) (s : gpst) : Prop := {
  p_len : lens s;
  p_out : forall v, N v -> ~ In v L -> 0 <= pn s v < pass /\ (pn s v <> 0 -> conn root v);
  p_in : forall v, In v L -> pn s v <> 0 }.

Lemma start L root pass s dv : shut L -> N root -> ~ In root L -> 1 <= pass -> pre L root pass s -> conn root dv ->
  exists s', (do s1 <- gpPut dv (gpFlush s); gpSetPass b dv pass s1) = Ok s' /\ inv1 L root pass s' /\ gp_tail s' = 0 /\ gp_head s' = 1.
Proof.
  intros SL HR NR Hp P C. destruct (out L root SL HR NR dv C) as [Hd Nd]. assert (I0 : inv1 L root pass (gpFlush s)).
  { destruct P as [P1 P2 P3]. constructor; auto.
    - cbn. lia.
    - constructor.
    - intros v Hv Nv. destruct (P2 v Hv Nv). change (pn (gpFlush s) v) with (pn s v). split; [lia|auto].
    - intros v. change (pn (gpFlush s) v) with (pn s v). split; [intros []|]. intros (A & B & D). destruct (P2 v A B). lia. }
  destruct (put1 L root pass SL HR NR Hp (gpFlush s) dv I0 C) as (s' & E & I & T & H & _); [change (pn (gpFlush s) dv) with (pn s dv); destruct (p_out L root pass s P dv Hd Nd); lia|].
  exists s'. split; [exact E|]. split; [exact I|]. split; [exact T|exact H].
Qed.
Lemma pre_next L root pass s : inv1 L root pass s -> pre L root (pass + 1) s.
Proof. intros I. constructor; [apply I| |apply I]. intros v Hv Nv. destruct (i1_out L root pass s I v Hv Nv). split; [lia|auto]. Qed.

Lemma passes_ok L root passnbr s fuel : shut L -> N root -> ~ In root L -> pre L root 1 s -> n < Z.of_nat fuel ->
  wp (gpPasses fuel h passnbr root s) (fun '(s', dv, pass) => pre L root pass s' /\ conn root dv /\ 1 <= pass) noerr.
Proof.
  intros SL HR NR P F. unfold gpPasses. cbv zeta. apply wp_loop with (I := fun '(s, dv, dd, fl, pass) => pre L root pass s /\ conn root dv /\ 1 <= pass) (m := fun '(s, dv, dd, fl, pass) => Z.max 0 (passnbr + 1 - pass)).
  - split; [exact P|]. split; [apply conn_refl|lia].
  - rewrite Nat2Z.inj_succ, ZifyInst.of_nat_to_nat_eq. lia.
  - clear s P. intros ((((s, dv), dd), fl), pass) (P & C & Hp). destruct (_ && _) eqn:Ec; [|cbn [wp]; auto]. apply andb_true_iff in Ec. destruct Ec as [_ Ec].
    destruct (start L root pass s dv SL HR NR Hp P C) as (s1 & E1 & I1 & T1 & H1). destruct (gpPut dv (gpFlush s)) as [s0| | |]; cbn [bind] in *; try discriminate. fold g. fold b. rewrite E1. cbn [bind].
    destruct (out L root SL HR NR dv C) as [Hd Nd]. destruct (dist1 L root pass s1 dv 0 I1 Hd) as (s2 & E2 & I2 & T2 & H2). rewrite E2. cbn [bind]. destruct (f_rd dv Hd) as (R1 & R2 & _). rewrite R1. cbn [bind]. rewrite R2. cbn [bind].
    apply wp_bind. eapply wp_mono; [apply (scan_ok L root pass SL HR NR Hp fuel s2); [exact I2|lia|exact C|exact F]|].
    intros (s3, (((dv', dd'), dg'), fl')) (I3 & C3). cbn [wp]. split; [|lia]. split; [now apply pre_next|]. split; [exact C3|lia].
Qed.

(** ** Numbering *)
Section Number.
Variables (L : list Z) (root p : Z).
Hypothesis SL : shut L.
Hypothesis HR : N root.
Hypothesis NR : ~ In root L.
Hypothesis Hp : 1 <= p.
Record inv2 (M : list Z) (s : gpst) : Prop := {
  i2_len : lens s;
  i2_head : 0 <= gp_tail s <= gp_head s;
  i2_nd : NoDup (inq s);
  i2_out : forall v, N v -> ~ In v L -> 0 <= pn s v <= p + 1 /\ (pn s v <> 0 -> conn root v);
  i2_in : forall v, In v L -> pn s v <> 0;
  i2_m : forall v, In v M <-> N v /\ ~ In v L /\ pn s v = p + 1;
  i2_q : forall v, In v (inq s) -> N v /\ ~ In v L /\ p <= pn s v;
  i2_p : forall v, N v -> ~ In v L -> pn s v = p -> In v (inq s) }.
Definition ext (s s' : gpst) : Prop :=
  gp_tail s' = gp_tail s /\ gp_head s <= gp_head s' /\ (forall i, 0 <= i < gp_head s -> at_ 0 (gp_qu s') i = at_ 0 (gp_qu s) i) /\
  gp_dist s' = gp_dist s /\ forall x, N x -> pn s' x = pn s x \/ (pn s x < p /\ pn s' x = p).
Lemma ext_refl s : ext s s. Proof. repeat split; auto. lia. Qed.
Lemma ext_trans s1 s2 s3 : ext s1 s2 -> ext s2 s3 -> ext s1 s3.
Proof.
  intros (A1 & A2 & A3 & A4 & A5) (B1 & B2 & B3 & B4 & B5). split; [lia|]. split; [lia|]. split; [intros i Hi; rewrite B3 by lia; apply A3; lia|]. split; [congruence|].
  intros x Hx. destruct (A5 x Hx), (B5 x Hx); lia.
Qed.
Lemma ext_le s s' x : ext s s' -> N x -> pn s x <= pn s' x. Proof. intros (_ & _ & _ & _ & A) Hx. destruct (A x Hx); lia. Qed.
Lemma ext_p s s' x : ext s s' -> N x -> pn s x <= p -> pn s' x <= p. Proof. intros (_ & _ & _ & _ & A) Hx. destruct (A x Hx); lia. Qed.
Lemma i2_hn M s : inv2 M s -> gp_head s <= n.
Proof. intros I. pose proof (i2_head M s I). pose proof (NoDup_range b n (inq s) ltac:(lia) (i2_nd M s I) (fun y Hy => proj1 (i2_q M s I y Hy))) as R. unfold inq in R. rewrite zlen_seg in R by lia. exact R. Qed.

Lemma enq_ok M s w : inv2 M s -> conn root w -> exists s', gpEnq b p w s = Ok s' /\ inv2 M s' /\ ext s s' /\ p <= pn s' w.
Proof.
  intros I C. destruct (out L root SL HR NR w C) as [Hw Nw]. destruct (i2_len M s I) as (L1 & L2 & L3). unfold gpEnq. assert (Hw' := Hw). unfold N in Hw'. rewrite rd_ok by lia. cbn [bind]. fold (pn s w).
  destruct (pn s w <? p) eqn:Ep; [|exists s; split; [reflexivity|]; split; [exact I|]; split; [apply ext_refl|lia]].
  assert (Nq : ~ In w (inq s)) by (intros X; apply (i2_q M s I) in X; lia).
  pose proof (room (inq s) w (i2_nd M s I) (fun y Hy => proj1 (i2_q M s I y Hy)) Hw Nq) as R. pose proof (i2_head M s I) as H0. unfold inq in R. rewrite zlen_seg in R by lia.
  destruct (put_set s w p (i2_len M s I) ltac:(lia) Hw) as (s' & E & Ln & Hh & Ht & Hd & Q & A & B & PN). exists s'. split; [exact E|].
  assert (X : ext s s'). { split; [exact Ht|]. split; [lia|]. split; [exact A|]. split; [exact Hd|]. intros x Hx. rewrite PN by exact Hx. destruct (w =? x) eqn:Ex; [right; replace x with w by lia; lia|left; reflexivity]. }
  split; [|split; [exact X|rewrite PN by exact Hw; rewrite Z.eqb_refl; lia]].
  constructor; auto.
  - lia.
  - rewrite Q. apply NoDup_snoc1; [apply I|exact Nq].
  - intros v Hv Nv. rewrite PN by exact Hv. destruct (w =? v) eqn:Ew; [|now apply (i2_out M s I)]. replace v with w by lia. split; [lia|auto].
  - intros v Hv. rewrite PN by (now apply SL). destruct (w =? v) eqn:Ew; [lia|]. now apply (i2_in M s I).
  - intros v. rewrite (i2_m M s I). split; intros (A1 & A2 & A3); (split; [exact A1|]); (split; [exact A2|]).
    + rewrite PN by exact A1. destruct (w =? v) eqn:Ew; [|exact A3]. replace v with w in A3 by lia. lia.
    + rewrite PN in A3 by exact A1. destruct (w =? v) eqn:Ew; lia.
  - intros v. rewrite Q, in_app_iff. intros [A1|[<-|[]]].
    + destruct (i2_q M s I v A1) as (A2 & A3 & A4). split; [exact A2|]. split; [exact A3|]. pose proof (ext_le s s' v X A2). lia.
    + split; [exact Hw|]. split; [exact Nw|]. rewrite PN by exact Hw. rewrite Z.eqb_refl. lia.
  - intros v Hv Nv. rewrite PN by exact Hv. rewrite Q, in_app_iff. destruct (w =? v) eqn:Ew; [right; left; lia|]. left. now apply (i2_p M s I).
Qed.

Lemma next_ok M v d s : inv2 M s -> N v -> conn root v ->
  wp (gpNext g p d (vert g v) (hi v) s) (fun '(w, e, s') => inv2 M s' /\ ext s s' /\ vert g v <= e <= hi v /\
     (forall k, vert g v <= k < e -> edge g k = w \/ p <= pn s' (edge g k)) /\ (w = -1 \/ (N w /\ conn root w /\ pn s' w <= p))) noerr.
Proof.
  intros I Hv C. destruct (f_rd v Hv) as (_ & _ & R). unfold gpNext. cbv zeta.
  apply wp_loop with (I := fun '(e, s') => inv2 M s' /\ ext s s' /\ vert g v <= e <= hi v /\ forall k, vert g v <= k < e -> p <= pn s' (edge g k)) (m := fun '(e, s') => hi v - e).
  - split; [exact I|]. split; [apply ext_refl|]. split; [lia|]. intros; lia.
  - lia.
  - intros (e, s1) (I1 & X1 & He & K1). destruct (e <? hi v) eqn:El.
    + destruct (f_arc v e Hv ltac:(lia)) as (E & Nw). rewrite E. cbn [bind]. pose proof (f_N _ _ Nw) as Hw. assert (Hw' := Hw). unfold N in Hw'. pose proof (conn_step root v _ Hv C Nw) as Cw. destruct (i2_len M s1 I1) as (L1 & L2 & L3). fold b.
      rewrite rd_ok by lia. cbn [bind]. rewrite rd_ok by lia. cbn [bind]. fold (pn s1 (edge g e)). destruct (_ && _) eqn:Ec.
      * apply andb_true_iff in Ec. destruct Ec as [_ Ec]. cbn [wp]. split; [exact I1|]. split; [exact X1|]. split; [lia|]. split; [|right; split; [exact Hw|]; split; [exact Cw|lia]].
        intros k Hk. destruct (Z.eq_dec k e) as [->|]; [now left|right; apply K1; lia].
      * destruct (enq_ok M s1 (edge g e) I1 Cw) as (s2 & E2 & I2 & X2 & P2). rewrite E2. cbn [bind wp]. split; [|lia]. split; [exact I2|]. split; [now apply (ext_trans s s1 s2)|]. split; [lia|].
        intros k Hk. destruct (Z.eq_dec k e) as [->|]; [exact P2|]. specialize (K1 k ltac:(lia)). destruct (f_arc v k Hv ltac:(lia)) as (_ & Nk). pose proof (ext_le s1 s2 _ X2 (f_N _ _ Nk)). lia.
    + cbn [wp]. split; [exact I1|]. split; [exact X1|]. split; [lia|]. split; [|now left]. intros k Hk. right. apply K1. exact Hk.
Qed.

Lemma rest_ok M v e0 w s : inv2 M s -> N v -> conn root v -> vert g v <= e0 <= hi v ->
  (forall k, vert g v <= k < e0 -> edge g k = w \/ p <= pn s (edge g k)) ->
  wp (for_ e0 (hi v) (fun e s => do u <- redge g e; gpEnq b p u s) s) (fun s' => inv2 M s' /\ ext s s' /\
     forall k, vert g v <= k < hi v -> edge g k = w \/ p <= pn s' (edge g k)) noerr.
Proof.
  intros I Hv C He0 K. apply wp_for with (I := fun e s' => inv2 M s' /\ ext s s' /\ forall k, vert g v <= k < e -> edge g k = w \/ p <= pn s' (edge g k)); [lia| | |auto].
  - split; [exact I|]. split; [apply ext_refl|exact K].
  - intros e s1 He (I1 & X1 & K1). destruct (f_arc v e Hv ltac:(lia)) as (E & Nw). rewrite E. cbn [bind]. pose proof (conn_step root v _ Hv C Nw) as Cw.
    destruct (enq_ok M s1 (edge g e) I1 Cw) as (s2 & E2 & I2 & X2 & P2). rewrite E2. cbn [wp]. split; [exact I2|]. split; [now apply (ext_trans s s1 s2)|].
    intros k Hk. destruct (Z.eq_dec k e) as [->|]; [now right|]. destruct (K1 k ltac:(lia)) as [D|D]; [now left|right]. destruct (f_arc v k Hv ltac:(lia)) as (_ & Nk). pose proof (ext_le s1 s2 _ X2 (f_N _ _ Nk)). lia.
Qed.

(** a vertex is numbered *)
Lemma mark_ok M s v : inv2 M s -> N v -> conn root v -> pn s v <= p ->
  exists s', gpSetPass b v (p + 1) s = Ok s' /\ inv2 (M ++ [v]) s' /\ gp_tail s' = gp_tail s /\ gp_head s' = gp_head s /\ gp_qu s' = gp_qu s /\
    (forall x, N x -> pn s' x = if v =? x then p + 1 else pn s x) /\ ~ In v M.
Proof.
  intros I Hv C P. destruct (out L root SL HR NR v C) as [_ Nv]. destruct (i2_len M s I) as (L1 & L2 & L3). assert (Hv' := Hv). unfold N in Hv'. unfold gpSetPass. rewrite wr_ok by lia. cbn [bind]. eexists. split; [reflexivity|].
  set (s' := mkgpst _ _ _ _ _). assert (PN : forall x, N x -> pn s' x = if v =? x then p + 1 else pn s x) by (intros x Hx; unfold pn; cbn [s' gp_pass]; unfold N in Hx; rewrite at_upd by lia; reflexivity).
  split; [|repeat (split; [auto; fail|]); rewrite (i2_m M s I); lia]. assert (Q : inq s' = inq s) by reflexivity. constructor.
  - split; [exact L1|]. split; [|exact L3]. cbn [s' gp_pass]. rewrite zlen_upd. exact L2.
  - apply I.
  - apply I.
  - intros x Hx Nx. rewrite PN by exact Hx. destruct (v =? x) eqn:Ex; [|now apply (i2_out M s I)]. replace x with v by lia. split; [lia|auto].
  - intros x Hx. rewrite PN by (now apply SL). destruct (v =? x) eqn:Ex; [lia|]. now apply (i2_in M s I).
  - intros x. rewrite in_app_iff, (i2_m M s I). split.
    + intros [(A1 & A2 & A3)|[<-|[]]]; [|split; [exact Hv|]; split; [exact Nv|]; rewrite PN by exact Hv; rewrite Z.eqb_refl; reflexivity]. split; [exact A1|]. split; [exact A2|]. rewrite PN by exact A1. destruct (v =? x); [reflexivity|exact A3].
    + intros (A1 & A2 & A3). rewrite PN in A3 by exact A1. destruct (v =? x) eqn:Ex; [right; left; lia|left; auto].
  - intros x Hx. rewrite Q in Hx. destruct (i2_q M s I x Hx) as (A1 & A2 & A3). split; [exact A1|]. split; [exact A2|]. rewrite PN by exact A1. destruct (v =? x); lia.
  - intros x Hx Nx. rewrite PN by exact Hx. rewrite Q. destruct (v =? x) eqn:Ex; [lia|]. now apply (i2_p M s I).
Qed.

Variables (peri0 : list Z) (o : Z).
Hypothesis Ho : 0 <= o.
Hypothesis Hpe : o + n <= zlen peri0.
Definition wrt (peri l : list Z) : Prop :=
  zlen peri = zlen peri0 /\ (forall i, 0 <= i -> ~ (o <= i < o + n) -> at_ 0 peri i = at_ 0 peri0 i) /\ seg peri o (zlen l) = map (orgnum g) l.
Lemma wrt_snoc peri l v : wrt peri l -> zlen l < n -> N v -> exists x peri', (match vnumtab g with None => Ok v | Some t => rd b t v end) = Ok x /\
  wr 0 peri (o + zlen l) x = Ok peri' /\ wrt peri' (l ++ [v]).
Proof.
  intros (W1 & W2 & W3) Hl Hv. pose proof (zlen_nonneg l) as Hl0. destruct Ok_ as (_ & V). pose proof (hv_nbr _ V) as Hb. cbn [hunload hs vnohnbr unload vertnbr] in Hb. fold n in Hb.
  exists (orgnum g v), (upd 0 peri (o + zlen l) (orgnum g v)). split.
  { unfold orgnum. destruct (vnumtab g) as [t|] eqn:Et; [|reflexivity]. pose proof (hv_vnum _ V t Et) as Hx. cbn [hunload hs unload vertnbr] in Hx. unfold N in Hv. apply rd_ok. lia. }
  split; [apply wr_ok; lia|]. split; [now rewrite zlen_upd|]. split.
  - intros i Hi Hx. rewrite at_upd by lia. destruct (_ =? i) eqn:E; [lia|]. now apply W2.
  - rewrite zlen_snoc, map_app, seg_snoc by lia. cbn [map]. rewrite at_upd by lia. rewrite Z.eqb_refl. f_equal. rewrite <- W3. apply seg_ext. intros i Hi. rewrite at_upd by lia. destruct (_ =? i) eqn:E; [lia|reflexivity].
Qed.

(** numbered vertices [M]: state between two steps *)
Record numb (M : list Z) (s : gpst) (peri : list Z) (ord : Z) : Prop := {
  nb_inv : inv2 M s;
  nb_nd : NoDup (L ++ M);
  nb_wrt : wrt peri (L ++ M);
  nb_ord : ord = o + zlen (L ++ M) }.

Lemma chain_ok M0 v0 s0 peri1 ord1 d fuel : numb M0 s0 peri1 ord1 -> n < Z.of_nat fuel -> N v0 -> conn root v0 -> pn s0 v0 <= p ->
  (forall x y, In x M0 -> nh x y -> p <= pn s0 y) -> (forall i, 0 <= i < gp_tail s0 -> pn s0 (at_ 0 (gp_qu s0) i) = p + 1 \/ at_ 0 (gp_qu s0) i = v0) ->
  wp (gpChain fuel h p d (v0, s0, peri1, ord1)) (fun '(s, peri, ord) => exists M, numb M s peri ord /\ gp_tail s = gp_tail s0 /\ gp_head s0 <= gp_head s /\
     (forall x y, In x M -> nh x y -> p <= pn s y) /\ (forall i, 0 <= i < gp_tail s -> pn s (at_ 0 (gp_qu s) i) = p + 1)) noerr.
Proof.
  intros B0 F Hv0 C0 P0 K0 T0. unfold gpChain. cbv zeta.
  apply wp_loop with (I := fun '(v, s, peri, ord) => exists M, numb M s peri ord /\ gp_tail s = gp_tail s0 /\ gp_head s0 <= gp_head s /\ N v /\ conn root v /\ pn s v <= p /\
     (forall x y, In x M -> nh x y -> p <= pn s y \/ y = v) /\ (forall i, 0 <= i < gp_tail s -> pn s (at_ 0 (gp_qu s) i) = p + 1 \/ at_ 0 (gp_qu s) i = v)) (m := fun '(v, s, peri, ord) => o + n - ord).
  { exists M0. split; [exact B0|]. split; [reflexivity|]. split; [lia|]. split; [exact Hv0|]. split; [exact C0|]. split; [exact P0|]. split; [|exact T0]. intros x y Hx Hy. left. now apply (K0 x). }
  { destruct B0 as [B1 B2 B3 B4]. pose proof (zlen_nonneg (L ++ M0)). assert (zlen (L ++ M0) <= n); [|lia]. apply (NoDup_range b n); [lia|exact B2|]. intros x Hx. apply in_app_iff in Hx. destruct Hx as [Hx|Hx]; [now apply SL|]. apply (i2_m M0 s0 B1) in Hx. apply Hx. }
  clear M0 v0 peri1 ord1 B0 Hv0 C0 P0 K0 T0. intros (((v, s), peri), ord) (M & B & Ht & Hh & Hv & C & P & K & T). destruct B as [I ND W EO].
  destruct (mark_ok M s v I Hv C P) as (s1 & E1 & I1 & T1 & H1 & Q1 & PN & NM). destruct (out L root SL HR NR v C) as [_ NL].
  assert (Nv : ~ In v (L ++ M)) by (rewrite in_app_iff; tauto).
  assert (RM : forall x, In x (L ++ M) -> N x). { intros x Hx. apply in_app_iff in Hx. destruct Hx as [Hx|Hx]; [now apply SL|]. apply (i2_m M s I) in Hx. apply Hx. }
  pose proof (room _ v ND RM Hv Nv) as R. destruct (wrt_snoc peri (L ++ M) v W R Hv) as (x & peri' & EX & EW & W').
  fold g. fold b. rewrite EX. cbn [bind]. rewrite EO, EW. cbn [bind]. rewrite E1. cbn [bind]. destruct (f_rd v Hv) as (R1 & R2 & R3). rewrite R1. cbn [bind]. rewrite R2. cbn [bind].
  apply wp_bind. eapply wp_mono; [apply (next_ok (M ++ [v]) v d s1 I1 Hv C)|]. intros ((w, e), s2) (I2 & X2 & He & K2 & Cw). cbn beta.
  apply wp_bind. eapply wp_mono; [apply (rest_ok (M ++ [v]) v e w s2 I2 Hv C He K2)|]. intros s3 (I3 & X3 & K3). cbn beta.
  pose proof (ext_trans _ _ _ X2 X3) as X. assert (B3 : numb (M ++ [v]) s3 peri' (o + zlen (L ++ M) + 1)).
  { constructor; [exact I3| | |].
    - rewrite app_assoc. now apply NoDup_snoc1.
    - rewrite app_assoc. exact W'.
    - rewrite app_assoc, zlen_snoc. lia. }
  assert (PV : pn s1 v = p + 1) by (rewrite PN by exact Hv; rewrite Z.eqb_refl; reflexivity).
  assert (LE : forall y, N y -> pn s y <= pn s3 y). { intros y Hy. pose proof (ext_le _ _ _ X Hy). rewrite PN in H by exact Hy. destruct (v =? y) eqn:Ey; [|lia]. replace y with v in * by lia. lia. }
  assert (K4 : forall x y, In x (M ++ [v]) -> nh x y -> p <= pn s3 y \/ y = w).
  { intros u y Hu Hy. pose proof (f_N _ _ Hy) as Ny. apply in_app_iff in Hu. destruct Hu as [Hu|[<-|[]]].
    - left. destruct (K u y Hu Hy) as [D|D]; [pose proof (LE y Ny); lia|subst y; pose proof (ext_le _ _ _ X Hv); lia].
    - destruct (f_nh v y Hv Hy) as (k & Hk & Ek). destruct (K3 k Hk) as [D|D]; [right; congruence|left; rewrite <- Ek; exact D]. }
  destruct X as (Xt & Xh & Xq & Xd & Xp). pose proof (i2_head M s I) as H0.
  assert (T4 : forall i, 0 <= i < gp_tail s3 -> pn s3 (at_ 0 (gp_qu s3) i) = p + 1).
  { intros i Hi. rewrite Xq by lia. rewrite Q1. assert (Hy : N (at_ 0 (gp_qu s) i)) by (apply (i2_q M s I); apply in_inq; exists i; split; [lia|reflexivity]).
    assert (pn s1 (at_ 0 (gp_qu s) i) = p + 1); [|destruct (Xp _ Hy); lia]. rewrite PN by exact Hy. destruct (T i ltac:(lia)) as [D|D]; [|rewrite D, Z.eqb_refl; reflexivity]. destruct (v =? _); [reflexivity|exact D]. }
  destruct (w =? -1) eqn:Ew; cbn [wp].
  - exists (M ++ [v]). split; [exact B3|]. split; [lia|]. split; [lia|]. split; [|exact T4]. intros u y Hu Hy. destruct (K4 u y Hu Hy) as [D|D]; [exact D|]. pose proof (f_N _ _ Hy) as Ny. pose proof f_b. unfold N in Ny. lia.
  - split; [|lia]. destruct Cw as [Cw|(Nw & Cw & Pw)]; [lia|]. exists (M ++ [v]). split; [exact B3|]. split; [lia|]. split; [lia|]. split; [exact Nw|]. split; [exact Cw|]. split; [apply (ext_p s2 s3 w X3 Nw Pw)|]. split; [exact K4|]. intros i Hi. left. now apply T4.
Qed.

Lemma levels_ok M0 s0 peri1 ord1 fuel : numb M0 s0 peri1 ord1 -> n < Z.of_nat fuel -> gp_tail s0 < gp_head s0 ->
  (forall x y, In x M0 -> nh x y -> p <= pn s0 y) -> (forall i, 0 <= i < gp_tail s0 -> pn s0 (at_ 0 (gp_qu s0) i) = p + 1) ->
  wp (gpLevels fuel h p (s0, peri1, ord1)) (fun '(s, peri, ord) => exists M, numb M s peri ord /\ gp_head s <= gp_tail s /\ 1 <= gp_head s /\
     (forall x y, In x M -> nh x y -> p <= pn s y) /\ (forall i, 0 <= i < gp_tail s -> pn s (at_ 0 (gp_qu s) i) = p + 1)) noerr.
Proof.
  intros B0 F H0 K0 T0. unfold gpLevels. cbv zeta.
  apply wp_loop with (I := fun '(s, peri, ord) => exists M, numb M s peri ord /\ gp_tail s < gp_head s /\
     (forall x y, In x M -> nh x y -> p <= pn s y) /\ (forall i, 0 <= i < gp_tail s -> pn s (at_ 0 (gp_qu s) i) = p + 1)) (m := fun '(s, peri, ord) => n - gp_tail s).
  { exists M0. auto. }
  { pose proof (i2_hn M0 s0 (nb_inv _ _ _ _ B0)). pose proof (i2_head M0 s0 (nb_inv _ _ _ _ B0)). lia. }
  clear M0 s0 peri1 ord1 B0 H0 K0 T0. intros ((s, peri), ord) (M & B & H & K & T). destruct B as [I ND W EO].
  pose proof (i2_hn M s I) as R. pose proof (i2_head M s I) as Hh. destruct (i2_len M s I) as (L1 & L2 & L3).
  unfold gpGet. rewrite rd_ok by lia. cbn [bind]. set (v := at_ 0 (gp_qu s) (gp_tail s)). assert (Iv : In v (inq s)) by (apply in_inq; exists (gp_tail s); split; [lia|reflexivity]).
  destruct (i2_q M s I v Iv) as (Hv & Nv & Pv). pose proof (proj2 (i2_out M s I v Hv Nv) ltac:(lia)) as Cv. fold g. fold b. cbn [gp_dist gp_pass].
  assert (Hv' := Hv). unfold N in Hv'. rewrite rd_ok by lia. cbn [bind]. fold (pn s v). set (s1 := mkgpst _ _ _ _ _).
  assert (I1 : inv2 M s1) by (destruct I; constructor; auto; cbn; lia). assert (B1 : numb M s1 peri ord) by (constructor; auto).
  apply wp_bind. eapply wp_mono with (Q := fun '(s', peri', ord') => exists M', numb M' s' peri' ord' /\ gp_tail s' = gp_tail s + 1 /\ gp_head s <= gp_head s' /\
     (forall x y, In x M' -> nh x y -> p <= pn s' y) /\ (forall i, 0 <= i < gp_tail s' -> pn s' (at_ 0 (gp_qu s') i) = p + 1)).
  - destruct (p <? pn s v) eqn:Ep.
    + cbn [wp]. exists M. split; [exact B1|]. split; [reflexivity|]. split; [cbn; lia|]. split; [exact K|]. intros i Hi. cbn [s1 gp_tail] in Hi. change (pn s (at_ 0 (gp_qu s) i) = p + 1). destruct (Z.eq_dec i (gp_tail s)) as [->|]; [|apply T; lia]. fold v. pose proof (i2_out M s I v Hv Nv). lia.
    + rewrite rd_ok by (cbn [s1 gp_dist]; lia). cbn [bind]. apply (chain_ok M v s1 peri ord _ fuel B1 F Hv Cv); [change (pn s v <= p); lia|exact K|].
      intros i Hi. cbn [s1 gp_tail] in Hi. change (pn s (at_ 0 (gp_qu s) i) = p + 1 \/ at_ 0 (gp_qu s) i = v). destruct (Z.eq_dec i (gp_tail s)) as [->|]; [now right|left; apply T; lia].
  - intros ((s', peri'), ord') (M' & B' & T' & H' & K' & A'). destruct (gp_head s' <=? gp_tail s') eqn:Eh; cbn [wp].
    + exists M'. split; [exact B'|]. split; [lia|]. split; [lia|]. auto.
    + split; [exists M'; split; [exact B'|]; split; [lia|]; auto|]. pose proof (i2_hn M' s' (nb_inv _ _ _ _ B')). lia.
Qed.

(** the new vertices are the connected component of the root *)
Lemma levels_comp M s peri ord : numb M s peri ord -> gp_head s <= gp_tail s -> 1 <= gp_head s ->
  (forall x y, In x M -> nh x y -> p <= pn s y) -> (forall i, 0 <= i < gp_tail s -> pn s (at_ 0 (gp_qu s) i) = p + 1) ->
  forall v, In v M <-> conn root v.
Proof.
  intros B Ht H1 K T. pose proof (nb_inv _ _ _ _ B) as I. pose proof (i2_head M s I) as Hh. set (d := at_ 0 (gp_qu s) 0).
  assert (Id : In d (inq s)) by (apply in_inq; exists 0; split; [lia|reflexivity]). destruct (i2_q M s I d Id) as (Hd & Nd & Pd). pose proof (proj2 (i2_out M s I d Hd Nd) ltac:(lia)) as Cd.
  assert (Md : In d M) by (apply (i2_m M s I); split; [exact Hd|]; split; [exact Nd|]; apply T; lia). intros v. split.
  - intros Hv. apply (i2_m M s I) in Hv. destruct Hv as (A1 & A2 & A3). apply (i2_out M s I v A1 A2). lia.
  - intros C. assert (D : conn d v) by (apply (conn_trans d root v); [apply conn_sym; assumption|exact C]). apply (D (fun x => In x M) Md).
    intros x y Hx Ix E. pose proof (f_N _ _ E) as Hy. assert (Cx : conn root x) by (apply (i2_m M s I) in Ix; destruct Ix as (A1 & A2 & A3); apply (i2_out M s I x A1 A2); lia).
    destruct (out L root SL HR NR y (conn_step root x y Hx Cx E)) as [_ Ny]. apply (i2_m M s I). split; [exact Hy|]. split; [exact Ny|].
    pose proof (K x y Ix E) as Py. destruct (i2_out M s I y Hy Ny) as [Q _]. destruct (Z.eq_dec (pn s y) p) as [Ep|]; [|lia]. apply (i2_p M s I y Hy Ny) in Ep. apply in_inq in Ep. destruct Ep as (i & Hi & ->). apply T. lia.
Qed.
End Number.
End Gp.
