(** Proofs about bipartitioning by graph growing from pseudo-peripheral vertices. *)
From Coq Require Import Relations.Relation_Operators.
From Verif Require Import Base Mem M_Graph M_Bgraph M_Vgraph M_VgraphSt M_BgraphSt S_Graph S_Bgraph S_BgraphSt S_Color P_Graph P_Vgraph P_Bgraph P_Bgraph2 P_VgraphGp P_BgraphSt.

Lemma zsum_nz lo hi f : zsum lo hi f <> 0 -> exists i, lo <= i < hi /\ f i <> 0.
Proof.
  intros H. destruct (Z_le_gt_dec lo hi) as [Hl|Hl]; [|rewrite zsum_nil in H by lia; contradiction].
  assert (X : forall k, 0 <= k -> zsum lo (lo + k) f <> 0 -> exists i, lo <= i < lo + k /\ f i <> 0).
  { apply (natlike_ind (fun k => zsum lo (lo + k) f <> 0 -> exists i, lo <= i < lo + k /\ f i <> 0)).
    - rewrite zsum_nil by lia. contradiction.
    - intros k Hk IH Hz. replace (lo + Z.succ k) with (lo + k + 1) in * by lia. rewrite zsum_snoc in Hz by lia. destruct (Z.eq_dec (f (lo + k)) 0) as [E|E].
      + destruct IH as (i & Hi & Hn); [lia|]. exists i. split; [lia | exact Hn].
      + exists (lo + k). split; [lia | exact E]. }
  destruct (X (hi - lo)) as (i & Hi & Hn); [lia | now replace (lo + (hi - lo)) with hi by lia|]. exists i. split; [lia | exact Hn].
Qed.

Lemma zsum_reindex lo hi l h (q F : Z -> Z) : (forall i, l <= i < h -> lo <= q i < hi) -> (forall i j, l <= i < h -> l <= j < h -> q i = q j -> i = j) ->
  (forall v, lo <= v < hi -> F v <> 0 -> exists i, l <= i < h /\ q i = v) -> zsum l h (fun i => F (q i)) = zsum lo hi F.
Proof.
  intros Q1 Q2 Q3. transitivity (zsum l h (fun i => zsum lo hi (fun v => if v =? q i then F v else 0))).
  - apply zsum_ext. intros i Hi. symmetry. rewrite (zsum_single _ _ _ (q i)); [now rewrite Z.eqb_refl | auto|]. intros v _ Hn. destruct (Z.eqb_spec v (q i)); [contradiction | reflexivity].
  - rewrite zsum_swap. apply zsum_ext. intros v Hv. destruct (Z.eq_dec (F v) 0) as [E|E].
    + rewrite E. apply zsum_zero. intros i _. now destruct (v =? q i).
    + destruct (Q3 v Hv E) as (i & Hi & <-). rewrite (zsum_single _ _ _ i); [now rewrite Z.eqb_refl | exact Hi|]. intros j Hj Hn. destruct (Z.eqb_spec (q i) (q j)) as [X|]; [|reflexivity]. apply Q2 in X; auto; congruence.
Qed.

Section Gp.
Variable s : graph.
Hypothesis R : graph_readable s.
Hypothesis V : graph_valid s.
Notation b := (baseval s).
Notation n := (vertnbr s).
Notation nnd := (vertnnd s).
Notation ps st v := (at_ b (gp_pass st) v).
Notation qu st i := (at_ 0 (gp_qu st) i).

(** ** Distances are never negative *)
Definition dnn (st : gpst) : Prop := zlen (gp_dist st) = n /\ forall v, isvert s v -> 0 <= at_ b (gp_dist st) v.
Lemma dnn_wr st v d ps' qu' qh' qt' : dnn st -> b <= v < b + zlen (gp_dist st) -> 0 <= d -> dnn (mkgpst ps' (upd b (gp_dist st) v d) qu' qh' qt').
Proof.
  intros (Z1 & D1) Hv Hd. pose proof (gv_nnd _ V). split; cbn [gp_dist]; [now rewrite zlen_upd|]. intros w Hw. unfold isvert in Hw. rewrite at_upd by lia. destruct (v =? w); [exact Hd | now apply D1].
Qed.
Lemma gpArc_dnn p d e st : 0 <= d -> dnn st -> wlp (gpArc s p d e st) dnn.
Proof.
  intros Hd D. unfold gpArc. apply wlp_bind. destruct (redge s e); cbn [wlp]; auto. apply wlp_bind, wlp_rd. intros Hp. destruct (_ <? p); [|exact D].
  apply wlp_bind, wlp_wr. intros _. apply wlp_bind, wlp_wr. intros _. apply wlp_bind, wlp_wr. intros Hx. cbn [wlp]. now apply dnn_wr.
Qed.
Lemma gpStart_dnn p v st : dnn st -> wlp (gpStart s p v st) dnn.
Proof.
  intros D. unfold gpStart. apply wlp_bind, wlp_wr. intros _. apply wlp_bind, wlp_wr. intros _. apply wlp_bind, wlp_wr. intros Hx. cbn [wlp]. apply dnn_wr; auto. lia.
Qed.
Lemma dnn_head st h t q : dnn st -> dnn (mkgpst (gp_pass st) (gp_dist st) q h t).
Proof. intros D. exact D. Qed.
Lemma gpScan_dnn fuel p st dm : dnn st -> wlp (gpScan fuel s p st dm) (fun '(st', _) => dnn st').
Proof.
  intros D. unfold gpScan. cbv zeta. destruct dm as [[[dn dv] dd] fl].
  apply wlp_loop with (I := fun '(st, (dn, dv, dd, fl)) => dnn st); [exact D|]. clear - V. intros [st [[[dn dv] dd] fl]] D.
  apply wlp_bind, wlp_rd. intros _. cbn [gp_dist]. apply wlp_bind, wlp_rd. intros Hv. apply wlp_bind. destruct (rvert s _) as [lo| | |] eqn:E1; cbn [wlp]; auto. apply wlp_bind. destruct (rvend s _) as [hi| | |] eqn:E2; cbn [wlp]; auto.
  set (v := qu st (gp_qh st)) in *. assert (Hd : 0 <= at_ b (gp_dist st) v) by (destruct D as (Z1 & D); pose proof (gv_nnd _ V); apply D; unfold isvert; lia).
  apply wlp_bind. destruct (Z_le_gt_dec lo hi) as [Hl|Hl].
  - apply wlp_for with (I := fun _ st => dnn st); auto.
    + intros i st1 _ D1. apply gpArc_dnn; [lia | exact D1].
    + intros st1 D1. set (dm := if _ || _ then _ else _). destruct dm as [[[? ?] ?] ?]. destruct (_ =? _); exact D1.
  - rewrite for_nil by lia. cbn [wlp]. set (dm := if _ || _ then _ else _). destruct dm as [[[? ?] ?] ?]. destruct (_ =? _); exact D.
Qed.
Lemma gpPasses_dnn fuel pn root st : dnn st -> wlp (gpPasses fuel s pn root st) (fun '(st', _, _) => dnn st').
Proof.
  intros D. unfold gpPasses. apply wlp_loop with (I := fun '(st, pass, (dn, dv, dd, fl)) => dnn st); [exact D|]. intros [[st1 pass] [[[dn dv] dd] fl]] D1.
  destruct ((pass <? pn) && fl); [|exact D1]. apply wlp_bind. eapply wlp_mono; [apply gpStart_dnn; exact D1|]. intros st2 D2. apply wlp_bind. eapply wlp_mono; [apply gpScan_dnn; exact D2|].
  intros [st3 [[[dn' dv'] dd'] fl']] D3. exact D3.
Qed.

(** ** Frontier *)
Section Front.
Variables (pt : list Z) (q : Z -> Z) (qh qt : Z) (fr0 ds0 : list Z).
Notation P v := (at_ b pt v).
Hypothesis Zpt : n <= zlen pt.
Hypothesis Zfr : n <= zlen fr0.
Hypothesis P01 : forall v, isvert s v -> P v = 0 \/ P v = 1.
Hypothesis Qin : forall i, qh <= i < qt -> isvert s (q i) /\ P (q i) = 0 /\ exists w, adjacent s (q i) w /\ P w = 1.
Hypothesis Qinj : forall i j, qh <= i < qt -> qh <= j < qt -> q i = q j -> i = j.
Hypothesis Qall : forall v w, adjacent s v w -> P v = 0 -> P w = 1 -> exists i, qh <= i < qt /\ q i = v.
Hypothesis Zds : zlen ds0 = n.
Hypothesis Dds : forall v, isvert s v -> 0 <= at_ b ds0 v.
Definition pfo (v : Z) : Prop := exists e, arc s v e /\ P (edge s e) <> P v.
Notation F fr j := (at_ 0 fr j).
Notation ds_ ds v := (at_ b ds v).

Record FI (i : Z) (fr ds : list Z) (k : Z) : Prop := {
  f_len : zlen fr = zlen fr0;
  f_ds : zlen ds = n;
  f_k : 0 <= k;
  f_in : forall j, 0 <= j < k -> isvert s (F fr j) /\ pfo (F fr j) /\ (P (F fr j) = 0 -> exists i', qh <= i' < i /\ q i' = F fr j) /\ (P (F fr j) = 1 -> ds_ ds (F fr j) = -1);
  f_inj : forall j j', 0 <= j < k -> 0 <= j' < k -> F fr j = F fr j' -> j = j';
  f_q : forall i', qh <= i' < i -> exists j, 0 <= j < k /\ F fr j = q i';
  f_m : forall w, isvert s w -> ds_ ds w = -1 -> exists j, 0 <= j < k /\ F fr j = w }.

Lemma fi_bound i fr ds k w : FI i fr ds k -> isvert s w -> (forall j, 0 <= j < k -> F fr j <> w) -> k < n.
Proof.
  intros [_ _ Hk I1 I2 _ _] Hw Hn. pose proof (gv_nnd _ V) as Nn. pose proof (gv_size _ V) as Ns.
  assert (k + 1 <= nnd - b); [|lia]. apply (inj_count _ b nnd (fun j => if j =? k then w else F fr j)); try lia.
  - intros j Hj. destruct (Z.eqb_spec j k); [exact Hw|]. apply (I1 j). lia.
  - intros j j' Hj Hj'. destruct (Z.eqb_spec j k), (Z.eqb_spec j' k); intros E; first [lia | exfalso; symmetry in E; revert E; apply Hn; lia | exfalso; revert E; apply Hn; lia | apply I2; auto; lia].
Qed.

(** one more entry *)
Lemma fi_add i i1 fr ds ds1 k w : FI i fr ds k -> isvert s w -> pfo w -> (forall j, 0 <= j < k -> F fr j <> w) -> i <= i1 <= i + 1 -> (i1 = i + 1 -> w = q i) -> (P w = 0 -> exists i', qh <= i' < i1 /\ q i' = w) ->
  zlen ds1 = n -> (forall u, isvert s u -> ds_ ds u = -1 -> ds_ ds1 u = -1) -> (P w = 1 -> ds_ ds1 w = -1) -> (forall u, isvert s u -> ds_ ds1 u = -1 -> u = w \/ ds_ ds u = -1) ->
  FI i1 (upd 0 fr k w) ds1 (k + 1).
Proof.
  intros I Hw Fw Hn Hi Hq H0 Z1 Hm H1 Hm'. pose proof (fi_bound i fr ds k w I Hw Hn) as Hb. destruct I as [I1 I2 I3 I4 I5 I6 I7].
  assert (A : forall j, 0 <= j -> F (upd 0 fr k w) j = if k =? j then w else F fr j) by (intros j Hj; rewrite at_upd by lia; reflexivity).
  constructor.
  - now rewrite zlen_upd.
  - exact Z1.
  - lia.
  - intros j Hj. rewrite A by lia. destruct (Z.eqb_spec k j); [auto|]. destruct (I4 j ltac:(lia)) as (X1 & X2 & X3 & X4). split; [exact X1|]. split; [exact X2|]. split.
    + intros X. destruct (X3 X) as (i' & Hi' & E). exists i'. split; [lia | exact E].
    + intros X. auto.
  - intros j j' Hj Hj'. rewrite !A by lia. destruct (Z.eqb_spec k j), (Z.eqb_spec k j'); intros E; first [lia | exfalso; symmetry in E; revert E; apply Hn; lia | exfalso; revert E; apply Hn; lia | apply I5; auto; lia].
  - intros i' Hi'. destruct (Z.eq_dec i' i) as [->|].
    + exists k. split; [lia|]. rewrite A, Z.eqb_refl by lia. apply Hq. lia.
    + destruct (I6 i' ltac:(lia)) as (j & Hj & E). exists j. split; [lia|]. rewrite A by lia. destruct (Z.eqb_spec k j); [lia | exact E].
  - intros u Hu Du. destruct (Hm' u Hu Du) as [->|X].
    + exists k. split; [lia|]. now rewrite A, Z.eqb_refl by lia.
    + destruct (I7 u Hu X) as (j & Hj & E). exists j. split; [lia|]. rewrite A by lia. destruct (Z.eqb_spec k j); [lia | exact E].
Qed.

Definition cutv (v : Z) : Z := zsum (vert s v) (vend s v) (fun e => if (P v =? 0) && (P (edge s e) =? 1) then edlo s e else 0).

Lemma gredlo v e : arc s v e -> (match edlotab s with None => Ok 1 | Some t => rd b t e end) = Ok (edlo s e).
Proof.
  intros A. unfold edlo. pose proof (gr_edlo _ R) as G1. destruct (edlotab s) as [t|]; [|reflexivity]. apply rd_ok. eapply G1; eauto.
Qed.

Lemma bgpFront_spec st : gp_qh st = qh -> gp_qt st = qt -> (forall i, qu st i = q i) -> gp_dist st = ds0 -> 0 <= qh <= qt -> qt <= zlen (gp_qu st) ->
  exists fr k ds intn, bgpFront s pt st fr0 0 = Ok (fr, k, ds, intn) /\ zlen fr = zlen fr0 /\ 0 <= k /\
    (forall j, 0 <= j < k -> isvert s (F fr j) /\ pfo (F fr j)) /\ (forall j j', 0 <= j < k -> 0 <= j' < k -> F fr j = F fr j' -> j = j') /\
    (forall v, isvert s v -> pfo v -> exists j, 0 <= j < k /\ F fr j = v) /\
    intn = zsum b nnd cutv.
Proof.
  intros E1 E2 E3 E4 Hq Zq. unfold bgpFront. rewrite E1, E2, E4. pose proof (gv_nnd _ V) as Nn.
  match goal with |- context [for_ ?lo ?hi ?f ?x] => destruct (wp_ok_inv (for_ lo hi f x) (fun '(fr, k, ds, intn) => FI qt fr ds k /\ (forall i w, qh <= i < qt -> adjacent s (q i) w -> P w = 1 -> ds_ ds w = -1) /\ intn = zsum qh qt (fun i => cutv (q i)))) as ((((fr & k) & ds) & intn) & EX & I & M & Ein) end.
  { apply wp_for with (I := fun i '(fr, k, ds, intn) => FI i fr ds k /\ (forall i' w, qh <= i' < i -> adjacent s (q i') w -> P w = 1 -> ds_ ds w = -1) /\ intn = zsum qh i (fun i => cutv (q i))); auto.
    - lia.
    - split; [|split; [intros; lia | rewrite zsum_nil by lia; reflexivity]]. constructor; try (intros; lia); auto; intros w Hw E; specialize (Dds w Hw); lia.
    - intros i [[[fr k] ds] intn] Hi (I & M & Ei). destruct (Qin i Hi) as (Vq & Pq & w0 & Aw0 & Pw0). pose proof (f_len _ _ _ _ I) as Zl. pose proof (f_k _ _ _ _ I) as Hk.
      rewrite rd_ok by lia. cbn [bind]. rewrite E3. set (v := q i) in *.
      assert (Nv : forall j, 0 <= j < k -> F fr j <> v).
      { intros j Hj E. destruct (f_in _ _ _ _ I j Hj) as (_ & _ & X & _). rewrite E in X. destruct (X Pq) as (i' & Hi' & Eq). apply Qinj in Eq; lia. }
      pose proof (fi_bound _ _ _ _ _ I Vq Nv) as Hb. rewrite wr_ok by lia. cbn [bind]. rewrite (rvert_ok s v R V Vq), (rvend_ok s v R V Vq). cbn [bind]. pose proof (gv_range _ V v Vq) as Hr.
      assert (Fv : pfo v). { destruct Aw0 as (e & Ha & <-). exists e. split; [exact Ha|]. congruence. }
      assert (IV : FI (i + 1) (upd 0 fr k v) ds (k + 1)).
      { apply (fi_add i (i + 1) fr ds ds k v); auto; try lia; [|apply (f_ds _ _ _ _ I)]. intros _. exists i. split; [lia | reflexivity]. }
      eapply wp_mono; [|intros x X; exact X].
      apply wp_for with (I := fun e '(fr, k, ds, intn) => FI (i + 1) fr ds k /\ (forall i' w, qh <= i' < i -> adjacent s (q i') w -> P w = 1 -> ds_ ds w = -1) /\ (forall e', vert s v <= e' < e -> P (edge s e') = 1 -> ds_ ds (edge s e') = -1) /\
        intn = zsum qh i (fun i => cutv (q i)) + zsum (vert s v) e (fun e => if (P v =? 0) && (P (edge s e) =? 1) then edlo s e else 0)).
      + lia.
      + split; [exact IV|]. split; [exact M|]. split; [intros; lia|]. rewrite (zsum_nil (vert s v)) by lia. lia.
      + clear fr k ds intn I M Ei Zl Hk Nv Hb IV. intros e [[[fr k] ds] intn] He (I & M & M2 & Ei). pose proof (f_len _ _ _ _ I) as Zl. pose proof (f_k _ _ _ _ I) as Hk. pose proof (f_ds _ _ _ _ I) as Zd.
        assert (Ha : arc s v e) by (split; auto). unfold bgpFrontArc. rewrite (redge_ok s v e R Ha). cbn [bind]. pose proof (gv_end _ V v e Ha) as Vw. set (w := edge s e) in *. pose proof Vw as Vw'. unfold isvert in Vw'.
        rewrite rd_ok by lia. cbn [bind]. rewrite zsum_snoc by lia. fold w. rewrite Pq. cbn [Z.eqb andb]. destruct (Z.eqb_spec (P w) 1) as [Pw|Pw].
        * rewrite (gredlo v e Ha). cbn [bind]. rewrite rd_ok by lia. cbn [bind]. destruct (Z.eqb_spec (ds_ ds w) (-1)) as [Dw|Dw]; cbn [negb].
          -- cbn [wp]. split; [exact I|]. split; [exact M|]. split; [|rewrite Pq in Ei; cbn [Z.eqb andb] in Ei; lia]. intros e' He' Pe. destruct (Z.eq_dec e' e) as [->|]; [exact Dw | apply M2; [lia | exact Pe]].
          -- assert (Nw : forall j, 0 <= j < k -> F fr j <> w).
             { intros j Hj E. destruct (f_in _ _ _ _ I j Hj) as (_ & _ & _ & X). rewrite E in X. now apply X in Pw. }
             pose proof (fi_bound _ _ _ _ _ I Vw Nw) as Hb. rewrite wr_ok by lia. cbn [bind]. rewrite wr_ok by lia. cbn [bind wp].
             assert (DU : forall u, isvert s u -> ds_ (upd b ds w (-1)) u = if w =? u then -1 else ds_ ds u) by (intros u Hu; unfold isvert in Hu; rewrite at_upd by lia; reflexivity).
             assert (Fw : pfo w). { destruct (gv_sym _ V v e Ha) as (e' & Ha' & Ee & _). exists e'. split; [exact Ha'|]. fold w. rewrite Ee. congruence. }
             split; [|split; [|split]].
             ++ apply (fi_add (i + 1) (i + 1) fr ds (upd b ds w (-1)) k w); auto; try lia.
                ** rewrite zlen_upd. exact Zd.
                ** intros u Hu Du. rewrite DU by exact Hu. now destruct (w =? u).
                ** intros _. rewrite DU, Z.eqb_refl by exact Vw. reflexivity.
                ** intros u Hu. rewrite DU by exact Hu. destruct (Z.eqb_spec w u); auto.
             ++ intros i' u Hi' Au Pu. rewrite DU by (apply (adj_vert s V _ _ Au)). destruct (w =? u); [reflexivity|]. exact (M i' u Hi' Au Pu).
             ++ intros e' He' Pe. assert (Ve : isvert s (edge s e')) by (apply (gv_end _ V v); split; [exact Vq | lia]). rewrite DU by exact Ve. destruct (Z.eqb_spec w (edge s e')) as [|Hne]; [reflexivity|]. apply M2; [|exact Pe]. destruct (Z.eq_dec e' e) as [->|]; [contradiction | lia].
             ++ rewrite Pq in Ei; cbn [Z.eqb andb] in Ei; lia.
        * cbn [wp]. split; [exact I|]. split; [exact M|]. split; [|rewrite Pq in Ei; cbn [Z.eqb andb] in Ei; lia]. intros e' He' Pe. destruct (Z.eq_dec e' e) as [->|]; [contradiction | apply M2; [lia | exact Pe]].
      + intros [[[fr' k'] ds'] intn'] (I' & M' & M2' & Ei'). split; [exact I'|]. split.
        * intros i' w Hi' Aw Pw. destruct (Z.eq_dec i' i) as [->|]; [|apply (M' i' w); auto; lia]. destruct Aw as (e & (_ & He) & <-). now apply M2'.
        * rewrite zsum_snoc by lia. exact Ei'. }
  exists fr, k, ds, intn. split; [exact EX|]. destruct I as [I1 I2 I3 I4 I5 I6 I7]. split; [exact I1|]. split; [exact I3|]. split; [intros j Hj; destruct (I4 j Hj) as (X1 & X2 & _); auto|]. split; [exact I5|]. split.
  - intros v Hv (e & Ha & Hn). pose proof (gv_end _ V v e Ha) as Vw. destruct (P01 v Hv) as [P0|P1].
    + destruct (Qall v (edge s e)) as (i & Hi & Ei); [exists e; auto | exact P0 | destruct (P01 _ Vw); congruence|]. destruct (I6 i Hi) as (j & Hj & Ej). exists j. split; [exact Hj | congruence].
    + assert (Aw : adjacent s (edge s e) v) by (apply (adj_sym s V); exists e; auto). destruct (Qall (edge s e) v Aw) as (i & Hi & Ei); [destruct (P01 _ Vw); congruence | exact P1|].
      apply I7; [exact Hv|]. apply (M i v Hi); [rewrite Ei; exact Aw | exact P1].
  - rewrite Ein. apply zsum_reindex.
    + intros i Hi. apply (Qin i Hi).
    + exact Qinj.
    + intros v Hv Hn. destruct (Z.eq_dec (P v) 0) as [P0|P0].
      * assert (X : exists e, vert s v <= e < vend s v /\ P (edge s e) = 1).
        { destruct (zsum_nz _ _ _ Hn) as (e & He & Hz). exists e. split; [exact He|]. destruct (Z.eqb_spec (P (edge s e)) 1); [assumption|]. rewrite andb_false_r in Hz. contradiction. }
        destruct X as (e & He & Pe). apply (Qall v (edge s e)); auto. exists e. split; [split; [exact Hv | exact He] | reflexivity].
      * exfalso. apply Hn. unfold cutv. destruct (Z.eqb_spec (P v) 0); [contradiction|]. cbn [andb]. apply zsum_zero. auto.
Qed.
End Front.

(** ** Growth *)
Variables (vx : option (list Z)) (zp av : Z).
Hypothesis Zvx : forall t, vx = Some t -> n <= zlen t.
Hypothesis Zzp : n <= zp.
Definition vex (v : Z) : Z := match vx with Some t => at_ b t v | None => 0 end.
Record acc (pt : list Z) (dlt sz0 extn : Z) : Prop := {
  a_len : zlen pt = zp;
  a_01 : forall v, isvert s v -> at_ b pt v = 0 \/ at_ b pt v = 1;
  a_dlt : av + dlt = zsum b nnd (fun v => if at_ b pt v =? 0 then velo s v else 0);
  a_sz0 : sz0 = zcount b nnd (fun v => at_ b pt v =? 0);
  a_ext : extn = zsum b nnd (fun v => if at_ b pt v =? 1 then vex v else 0) }.

Lemma acc_move pt dlt sz0 extn v : acc pt dlt sz0 extn -> isvert s v -> at_ b pt v = 0 -> acc (upd b pt v 1) (dlt - velo s v) (sz0 - 1) (extn + vex v).
Proof.
  intros [A1 A2 A3 A4 A5] Hv Pv. pose proof (gv_nnd _ V) as Nn. pose proof Hv as Hv'. unfold isvert in Hv'.
  assert (PU : forall u, isvert s u -> at_ b (upd b pt v 1) u = if v =? u then 1 else at_ b pt u) by (intros u Hu; unfold isvert in Hu; rewrite at_upd by lia; reflexivity).
  assert (NE : forall u, b <= u < nnd -> u <> v -> at_ b (upd b pt v 1) u = at_ b pt u) by (intros u Hu Hn; rewrite PU by exact Hu; destruct (Z.eqb_spec v u); [congruence | reflexivity]).
  assert (PV : at_ b (upd b pt v 1) v = 1) by (rewrite PU, Z.eqb_refl by exact Hv; reflexivity).
  constructor.
  - now rewrite zlen_upd.
  - intros u Hu. rewrite PU by exact Hu. destruct (v =? u); auto.
  - rewrite (zsum_upd b nnd (fun u => if at_ b pt u =? 0 then velo s u else 0) _ v Hv); [rewrite PV, Pv; cbn [Z.eqb]; lia|]. intros u Hu Hn. now rewrite NE.
  - unfold zcount in *. rewrite (zsum_upd b nnd (fun u => b2z (at_ b pt u =? 0)) _ v Hv); [rewrite PV, Pv; cbn [Z.eqb b2z]; lia|]. intros u Hu Hn. now rewrite NE.
  - rewrite (zsum_upd b nnd (fun u => if at_ b pt u =? 1 then vex u else 0) _ v Hv); [rewrite PV, Pv; cbn [Z.eqb Pos.eqb]; lia|]. intros u Hu Hn. now rewrite NE.
Qed.

Section Grow.
Variable D : Z -> Prop.
Hypothesis Dcl : forall v w, D v -> adjacent s v w -> D w.
Variables root p : Z.
Hypothesis Hp : 1 <= p.
Record grown (st : gpst) (pt : list Z) (dlt sz0 extn : Z) : Prop := {
  g_busy : busy s D root p st;
  g_done : done s p st (gp_qh st);
  g_dnn : dnn st;
  g_acc : acc pt dlt sz0 extn;
  g_part : forall v, isvert s v -> (at_ b pt v = 1 <-> D v \/ exists i, 0 <= i < gp_qh st /\ qu st i = v);
  g_par : forall i, 1 <= i < gp_qt st -> exists j, 0 <= j < gp_qh st /\ adjacent s (qu st j) (qu st i) }.

Lemma grow_ok fuel st pt dlt sz0 extn : n < Z.of_nat fuel -> grown st pt dlt sz0 extn -> gp_qh st < gp_qt st -> 0 < dlt ->
  exists st' pt' dlt' sz0' extn', bgpGrow fuel s vx p (st, pt, dlt, sz0, extn) = Ok (st', pt', dlt', sz0', extn') /\ grown st' pt' dlt' sz0' extn' /\
    1 <= gp_qh st' <= gp_qt st' /\ (gp_qh st' = gp_qt st' \/ dlt' <= 0) /\ exists v, isvert s v /\ at_ b pt' v = 1 /\ 0 < dlt' + velo s v.
Proof.
  intros Hf G0 Hl0 Hd0. unfold bgpGrow. cbv zeta.
  match goal with |- context [loop ?f ?B ?x] => destruct (wp_ok_inv (loop f B x) (fun '(st', pt', dlt', sz0', extn') => grown st' pt' dlt' sz0' extn' /\
    1 <= gp_qh st' <= gp_qt st' /\ (gp_qh st' = gp_qt st' \/ dlt' <= 0) /\ exists v, isvert s v /\ at_ b pt' v = 1 /\ 0 < dlt' + velo s v)) as (((((st' & pt') & dlt') & sz0') & extn') & EX & H) end; [|exists st', pt', dlt', sz0', extn'; auto].
  apply wp_loop with (I := fun '(st, pt, dlt, sz0, extn) => grown st pt dlt sz0 extn /\ gp_qh st < gp_qt st /\ 0 < dlt) (m := fun '(st, pt, dlt, sz0, extn) => n - gp_qh st).
  - auto.
  - pose proof (bs_q _ _ _ _ _ (g_busy _ _ _ _ _ G0)). lia.
  - clear - Hp R V Dcl Zvx Zzp. intros [[[[st pt] dlt] sz0] extn] ([B Dn Nn A Pt Pr] & Hl & Hd). destruct (bs_sz _ _ _ _ _ B) as [Z1 Z2 Z3]. pose proof (bs_q _ _ _ _ _ B) as ((Q0 & Q1) & Q2). pose proof (a_len _ _ _ _ A) as Zp.
    rewrite rd_ok by lia. cbn [bind]. set (v := qu st (gp_qh st)). destruct (bs_in _ _ _ _ _ B (gp_qh st) ltac:(lia)) as (Vv & Dv & Pv & Cv). fold v in Vv, Dv, Pv, Cv.
    pose proof (gv_nnd _ V) as Nd. pose proof Vv as Vv'. unfold isvert in Vv'. rewrite wr_ok by lia. cbn [bind]. rewrite (rvelo_ok s R V v Vv). cbn [bind].
    assert (Ex : (match vx with Some t => rd b t v | None => Ok 0 end) = Ok (vex v)) by (unfold vex; destruct vx as [t|]; [apply rd_ok; specialize (Zvx t eq_refl); lia | reflexivity]).
    rewrite Ex. cbn [bind gp_dist]. rewrite rd_ok by lia. cbn [bind]. rewrite (rvert_ok s v R V Vv), (rvend_ok s v R V Vv). cbn [bind]. pose proof (gv_range _ V v Vv) as Hr.
    assert (P0 : at_ b pt v = 0).
    { destruct (a_01 _ _ _ _ A v Vv) as [|E]; [assumption|]. apply (Pt v Vv) in E. destruct E as [|(i & Hi & E)]; [contradiction|]. apply (bs_inj _ _ _ _ _ B) in E; lia. }
    pose proof (acc_move pt dlt sz0 extn v A Vv P0) as A'.
    assert (PU : forall u, isvert s u -> at_ b (upd b pt v 1) u = if v =? u then 1 else at_ b pt u) by (intros u Hu; unfold isvert in Hu; rewrite at_upd by lia; reflexivity).
    assert (Hdd : 0 <= at_ b (gp_dist st) v) by (apply (proj2 Nn); exact Vv). set (d := at_ b (gp_dist st) v) in *. clearbody d.
    match goal with |- context [for_ ?lo ?hi ?f ?x] => destruct (wp_ok_inv (for_ lo hi f x) (fun st' => arcs s D root p (gp_qh st + 1) v lo hi st' /\ dnn st' /\ gp_qt st <= gp_qt st' /\ (forall i, 0 <= i < gp_qt st -> qu st' i = qu st i) /\
      (forall i, 1 <= i < gp_qt st' -> exists j, 0 <= j < gp_qh st + 1 /\ adjacent s (qu st' j) (qu st' i)))) as (st' & -> & A1 & N1 & T1 & U1 & R1) end.
    { apply wp_for with (I := fun e st' => arcs s D root p (gp_qh st + 1) v (vert s v) e st' /\ dnn st' /\ gp_qt st <= gp_qt st' /\ (forall i, 0 <= i < gp_qt st -> qu st' i = qu st i) /\
      (forall i, 1 <= i < gp_qt st' -> exists j, 0 <= j < gp_qh st + 1 /\ adjacent s (qu st' j) (qu st' i))); auto; [lia | |].
      - split; [now apply arcs_start|]. cbn [gp_qt gp_qu]. split; [exact Nn|]. split; [lia|]. split; [reflexivity|]. intros i Hi. destruct (Pr i Hi) as (j & Hj & Aj). exists j. split; [lia | exact Aj].
      - intros e st' He (A1 & N1 & T1 & U1 & R1). assert (Ha : arc s v e) by (split; auto). destruct (gpArc_ok s R V D Dcl root p (d + 1) v e st' Hp (ar_busy _ _ _ _ _ _ _ _ _ A1) Ha Dv Cv) as (X1 & X2 & _ & _ & X5 & X6).
        destruct (Z_lt_le_dec (ps st' (edge s e)) p) as [L|L].
        + destruct (X5 L) as (Cw & EA). pose proof (gpArc_dnn p (d + 1) e st' ltac:(lia) N1) as ND. rewrite EA in *. cbn [wp wlp] in *.
          destruct (push_ok s V D Dcl root p (d + 1) (edge s e) st' Hp (ar_busy _ _ _ _ _ _ _ _ _ A1) X1 X2 Cw L) as (Y1 & Y2 & Y3 & Y4 & _).
          destruct (arcs_push s V D Dcl root p (gp_qh st + 1) v _ e (d + 1) st' (edge s e) Hp ltac:(lia) A1 eq_refl Vv eq_refl (proj2 He) X2 X1 Cw L) as (W1 & W2).
          split; [exact W1|]. split; [exact ND|]. split; [lia|]. split; [intros i Hi; rewrite Y3 by lia; now apply U1|]. rewrite W2. intros i Hi. destruct (Z.eq_dec i (gp_qt st')) as [->|].
          * exists (gp_qh st). split; [lia|]. rewrite Y4, Y3 by lia. rewrite U1 by lia. fold v. exists e. auto.
          * destruct (R1 i ltac:(lia)) as (j & Hj & Aj). exists j. split; [exact Hj|]. rewrite !Y3 by lia. exact Aj.
        + destruct (X6 L) as (Ew & ->). cbn [wp]. split; [now apply arcs_skip | auto]. }
    cbn [bind]. destruct (arcs_end s D Dcl root p _ v st' Vv A1) as (B' & Dn' & H'). pose proof (bs_q _ _ _ _ _ B') as ((Q0' & Q1') & Q2').
    assert (G' : grown st' (upd b pt v 1) (dlt - velo s v) (sz0 - 1) (extn + vex v)).
    { constructor; auto.
      - rewrite H'. exact Dn'.
      - intros u Hu. rewrite PU by exact Hu. rewrite H'. destruct (Z.eqb_spec v u) as [<-|Hne].
        + split; [|reflexivity]. intros _. right. exists (gp_qh st). split; [lia|]. apply U1. lia.
        + rewrite (Pt u Hu). split; (intros [|(i & Hi & Ei)]; [now left|]); right.
          * exists i. split; [lia|]. rewrite U1 by lia. exact Ei.
          * rewrite U1 in Ei by lia. exists i. split; [|exact Ei]. destruct (Z.eq_dec i (gp_qh st)) as [->|]; [exfalso; apply Hne; exact Ei | lia].
      - rewrite H'. exact R1. }
    assert (LB : exists u, isvert s u /\ at_ b (upd b pt v 1) u = 1 /\ 0 < dlt - velo s v + velo s u).
    { exists v. split; [exact Vv|]. split; [rewrite PU, Z.eqb_refl by exact Vv; reflexivity | lia]. }
    destruct (Z.ltb_spec 0 (dlt - velo s v)) as [Hd'|Hd']; cbn [andb].
    + destruct (Z.eqb_spec (gp_qh st') (gp_qt st')) as [E|E]; cbn [negb wp].
      * split; [exact G'|]. split; [lia|]. split; [now left | exact LB].
      * split; [|lia]. split; [exact G'|]. split; [lia | exact Hd'].
    + cbn [wp]. split; [exact G'|]. split; [lia|]. split; [right; exact Hd' | exact LB].
Qed.
End Grow.

(** ** The method *)
Record heads (D : Z -> Prop) (root : Z) (st : gpst) (pt : list Z) (dlt sz0 extn : Z) : Prop := {
  h_sz : sizes s st;
  h_dnn : dnn st;
  h_acc : acc pt dlt sz0 extn;
  h_D : forall v, isvert s v -> (D v <-> ps st v <> 0);
  h_part : forall v, isvert s v -> (at_ b pt v = 1 <-> D v);
  h_cl : forall v w, D v -> adjacent s v w -> D w;
  h_root : b <= root <= nnd /\ forall v, b <= v < root -> ps st v <> 0;
  h_low : dlt = velosum s - av \/ exists v, isvert s v /\ at_ b pt v = 1 /\ 0 < dlt + velo s v }.

Definition gpend (fr0 : list Z) (nb0 : Z) (x : list Z * list Z * Z * Z * Z * Z * Z) : Prop :=
  let '(pt, fr, nbr, dlt, sz0, intn, extn) := x in
  acc pt dlt sz0 extn /\ zlen fr = zlen fr0 /\ 0 <= nbr /\ (forall j, 0 <= j < nbr -> isvert s (at_ 0 fr j) /\ pfo pt (at_ 0 fr j)) /\
  (forall j j', 0 <= j < nbr -> 0 <= j' < nbr -> at_ 0 fr j = at_ 0 fr j' -> j = j') /\ (forall v, isvert s v -> pfo pt v -> exists j, 0 <= j < nbr /\ at_ 0 fr j = v) /\
  intn = zsum b nnd (cutv pt) /\ dlt <= Z.max 0 (velosum s - av) /\ dlt <= 0 /\ (dlt = velosum s - av \/ exists v, isvert s v /\ at_ b pt v = 1 /\ 0 < dlt + velo s v).

Lemma main_ok fuel jk pn fr0 pt0 : n + 1 < Z.of_nat fuel -> 0 <= av -> n <= zlen fr0 -> zlen pt0 = zp -> (forall v, isvert s v -> at_ b pt0 v = 0) ->
  exists x, loop fuel (fun '(root, (st, pt, dlt, sz0, extn)) =>
    if (root <? vertnnd s) && (0 <? dlt) then
      do root <- loop fuel (fun r => do p <- rd b (gp_pass st) r; if negb (p =? 0) then Ok (inl (r + 1)) else Ok (inr r)) root;
      do '(st, dn, pass) <- gpPasses fuel s pn root st;
      do st <- gpStart s pass dn st;
      do '(st, pt, dlt, sz0, extn) <- bgpGrow fuel s vx pass (st, pt, dlt, sz0, extn);
      if negb (gp_qh st =? gp_qt st) then
        do '(fr, k, _, intn) <- bgpFront s pt st fr0 0;
        Ok (inr (pt, fr, k, dlt, sz0, intn, extn))
      else Ok (inl (root + 1, (st, pt, dlt, sz0, extn)))
    else Ok (inr (pt, fr0, 0, dlt, sz0, 0, extn))) (b, (mkgpst (repeat 0 (Z.to_nat n)) (repeat 0 (Z.to_nat n)) (repeat jk (Z.to_nat n)) 0 0, pt0, velosum s - av, n, 0)) = Ok x /\ gpend fr0 0 x.
Proof.
  intros Hf Hav Zfr Zp0 P00. pose proof (gv_nnd _ V) as Nn. pose proof (gv_size _ V) as Ns. apply wp_ok_inv.
  apply wp_loop with (I := fun '(root, (st, pt, dlt, sz0, extn)) => exists D, heads D root st pt dlt sz0 extn) (m := fun '(root, _) => nnd - root).
  - exists (fun _ => False).
    assert (PS : forall v, isvert s v -> at_ b (repeat 0 (Z.to_nat n)) v = 0) by (intros v Hv; unfold isvert in Hv; apply at_repeat; lia).
    constructor; cbn [gp_pass].
    + constructor; cbn [gp_pass gp_dist gp_qu]; rewrite zlen_repeat; lia.
    + split; cbn [gp_dist]; [rewrite zlen_repeat; lia|]. intros v Hv. rewrite PS by exact Hv. lia.
    + constructor; auto.
      * rewrite (zsum_ext _ _ _ (velo s)); [rewrite <- (gv_velosum _ V); lia|]. intros v Hv. now rewrite P00 by exact Hv.
      * rewrite zcount_all; [lia | lia|]. intros v Hv. now rewrite P00 by exact Hv.
      * rewrite zsum_zero; [reflexivity|]. intros v Hv. now rewrite P00 by exact Hv.
    + intros v Hv. rewrite PS by exact Hv. split; [contradiction | intros X; now apply X].
    + intros v Hv. rewrite P00 by exact Hv. split; [discriminate | contradiction].
    + contradiction.
    + split; [lia | intros; lia].
    + now left.
  - lia.
  - intros [root [[[[st pt] dlt] sz0] extn]] (D & [Sz Nd A HD Hpt Hcl (Hr & Hr2) Hlow]).
    assert (Hle0 : forall r, (r = nnd \/ dlt <= 0) -> (forall v, b <= v < r -> ps st v <> 0) -> dlt <= 0).
    { intros r [->|]; [|auto]. intros Hall. pose proof (a_dlt _ _ _ _ A) as Ea. rewrite zsum_zero in Ea; [lia|]. intros v Hv. assert (E : at_ b pt v = 1) by (apply Hpt; [exact Hv|]; apply HD; [exact Hv|]; now apply Hall). now rewrite E. }
    assert (NoCut : forall v w, isvert s v -> adjacent s v w -> at_ b pt w = at_ b pt v).
    { intros v w Hv Ha. destruct (adj_vert s V _ _ Ha) as (_ & Hw). pose proof (Hpt v Hv) as Q1. pose proof (Hpt w Hw) as Q2. pose proof (Hcl v w) as C1. pose proof (Hcl w v) as C2. pose proof (adj_sym s V _ _ Ha) as Ha'.
      destruct (a_01 _ _ _ _ A v Hv) as [E1|E1], (a_01 _ _ _ _ A w Hw) as [E2|E2]; try congruence; exfalso.
      - assert (at_ b pt v = 1) by (apply Q1, C2; [apply Q2; exact E2 | exact Ha']). congruence.
      - assert (at_ b pt w = 1) by (apply Q2, C1; [apply Q1; exact E1 | exact Ha]). congruence. }
    destruct (Z.ltb_spec root nnd) as [Hlt|Hlt]; cbn [andb]; [destruct (Z.ltb_spec 0 dlt) as [Hd|Hd]|].
    2, 3: cbn [wp gpend]; split; [exact A|]; split; [reflexivity|]; split; [lia|]; split; [intros; lia|]; split; [intros; lia|]; split; [intros v Hv (e & Ha & Hn); exfalso; apply Hn; apply NoCut; [exact Hv | exists e; auto]|]; split;
      [symmetry; apply zsum_zero; intros v Hv; unfold cutv; apply zsum_zero; intros e He; rewrite (NoCut v (edge s e) Hv) by (exists e; split; [split; [exact Hv | exact He] | reflexivity]); destruct (Z.eqb_spec (at_ b pt v) 0) as [-> |]; reflexivity|];
      assert (dlt <= 0) by (apply (Hle0 root); [lia | exact Hr2]); split; [lia|]; split; [assumption | exact Hlow].
    (* root vertex *)
    assert (EU : exists u, isvert s u /\ ps st u = 0).
    { pose proof (a_dlt _ _ _ _ A) as Ea. destruct (zsum_nz b nnd (fun v => if at_ b pt v =? 0 then velo s v else 0)) as (u & Hu & Hn); [lia|]. exists u. split; [exact Hu|].
      destruct (Z.eq_dec (ps st u) 0) as [|Hne]; [assumption|]. exfalso. apply HD in Hne; [|exact Hu]. apply Hpt in Hne; [|exact Hu]. rewrite Hne in Hn. now apply Hn. }
    destruct EU as (u & Vu & Pu). destruct Sz as [Z1 Z2 Z3]. pose proof Vu as Vu'. unfold isvert in Vu'.
    match goal with |- context [loop fuel ?B root] => destruct (wp_ok_inv (loop fuel B root) (fun r => root <= r <= u /\ ps st r = 0 /\ forall v, b <= v < r -> ps st v <> 0)) as (r & -> & Hru & Pr & Hr3) end.
    { apply wp_loop with (I := fun r => root <= r <= u /\ forall v, b <= v < r -> ps st v <> 0) (m := fun r => u - r).
      - split; [|exact Hr2]. destruct (Z_le_gt_dec root u); [lia|]. exfalso. apply (Hr2 u); [lia | exact Pu].
      - destruct (Z_le_gt_dec root u); [lia|]. exfalso. apply (Hr2 u); [lia | exact Pu].
      - intros r (H1 & H2). rewrite rd_ok by lia. cbn [bind]. destruct (Z.eqb_spec (ps st r) 0) as [E|E]; cbn [negb wp].
        + auto.
        + assert (r <> u) by congruence. split; [split; [lia|] | lia]. intros v Hv. destruct (Z.eq_dec v r) as [->|]; [exact E | apply H2; lia]. }
    cbn [bind]. assert (Vr : isvert s r) by (unfold isvert; lia). assert (Dr : ~ D r) by (intros X; apply HD in X; [contradiction | exact Vr]).
    assert (I1 : idle s D r 1 st).
    { constructor.
      - constructor; auto.
      - intros v Hv Hn. assert (ps st v = 0); [|lia]. destruct (Z.eq_dec (ps st v) 0) as [|X]; [assumption|]. exfalso. apply Hn. now apply HD.
      - intros v Hv Hn X. exfalso. apply Hn. now apply HD.
      - intros v Hv X. now apply HD. }
    destruct (passes_ok s R V D Hcl r fuel pn st ltac:(lia) I1 Vr Dr) as (st1 & dn & pass & E1 & Hpass & I2 & Vdn & Ddn & Cdn).
    pose proof (wlp_elim _ _ _ (gpPasses_dnn fuel pn r st Nd) E1) as N1. rewrite E1. cbn [bind].
    destruct (start_ok s V D Hcl r pass dn st1 Hpass I2 Vdn Ddn Cdn) as (st2 & E2 & B2 & Qh2 & Qt2 & Q02).
    pose proof (wlp_elim _ _ _ (gpStart_dnn pass dn st1 N1) E2) as N2. rewrite E2. cbn [bind].
    assert (G2 : grown D r pass st2 pt dlt sz0 extn).
    { constructor; auto.
      - intros i Hi. lia.
      - intros v Hv. rewrite (Hpt v Hv). split; [now left|]. intros [|(i & Hi & _)]; [assumption | lia].
      - intros i Hi. lia. }
    destruct (grow_ok D Hcl r pass Hpass fuel st2 pt dlt sz0 extn ltac:(lia) G2 ltac:(lia) Hd) as (st3 & pt3 & dlt3 & sz3 & ex3 & -> & G3 & Hq3 & He3 & Hl3). cbn [bind].
    destruct G3 as [B3 Dn3 N3 A3 Pt3 Pr3]. destruct (bs_sz _ _ _ _ _ B3) as [Y1 Y2 Y3]. pose proof (bs_q _ _ _ _ _ B3) as ((Q0 & Q1) & Q2).
    destruct (Z.eqb_spec (gp_qh st3) (gp_qt st3)) as [E|E]; cbn [negb].
    + (* whole component *)
      destruct (bs_in _ _ _ _ _ B3 0 ltac:(lia)) as (V0 & D0 & P0 & C0).
      assert (Dn3' : done s pass st3 (gp_qt st3)) by (rewrite <- E; exact Dn3).
      pose proof (search_conn s V D Hcl r pass (qu st3 0) st3 Hpass B3 Dn3' C0 P0 V0 D0 r (rt_refl _ _ _)) as (_ & _ & Psr).
      cbn [wp]. split; [|lia]. exists (fun v => isvert s v /\ ps st3 v <> 0).
      assert (PP : forall v, isvert s v -> (at_ b pt3 v = 1 <-> ps st3 v <> 0)).
      { intros v Hv. rewrite (Pt3 v Hv). split.
        - intros [X|(i & Hi & <-)]; [exact (bs_D _ _ _ _ _ B3 v Hv X)|]. destruct (bs_in _ _ _ _ _ B3 i ltac:(lia)) as (_ & _ & -> & _). lia.
        - intros X. assert (DD : D v \/ ~ D v) by (pose proof (HD v Hv); destruct (Z.eq_dec (ps st v) 0); tauto). destruct DD as [|X2]; [now left|]. right.
          pose proof (search_over s V D Hcl r pass (qu st3 0) st3 Hpass B3 Dn3' C0 P0 V0 D0 v Hv X2 X) as Y.
          destruct (bs_all _ _ _ _ _ B3 v Hv X2 Y) as (i & Hi & Ei). exists i. split; [lia | exact Ei]. }
      constructor; auto.
      * constructor; auto.
      * intros v Hv. tauto.
      * intros v Hv. rewrite (PP v Hv). tauto.
      * intros v w (Hv & X) Ha. destruct (adj_vert s V _ _ Ha) as (_ & Hw). split; [exact Hw|]. apply PP in X; [|exact Hv]. apply (Pt3 v Hv) in X. destruct X as [X|(i & Hi & <-)].
        -- apply (bs_D _ _ _ _ _ B3 w Hw). exact (Hcl v w X Ha).
        -- rewrite (Dn3 i Hi w Ha). lia.
      * split; [lia|]. intros v Hv. destruct (Z.eq_dec v r) as [->|]; [rewrite Psr; lia|]. assert (Hv' : isvert s v) by (unfold isvert; lia). apply (bs_D _ _ _ _ _ B3 v Hv'). apply HD; [exact Hv'|]. apply Hr3. lia.
    + (* frontier *)
      assert (Hd3 : dlt3 <= 0) by lia.
      destruct (bgpFront_spec pt3 (fun i => qu st3 i) (gp_qh st3) (gp_qt st3) fr0 (gp_dist st3)) with (st := st3) as (fr & k & ds & intn & -> & F1 & F2 & F3 & F4 & F5 & F6); auto; try lia.
      * rewrite (a_len _ _ _ _ A3). lia.
      * apply (a_01 _ _ _ _ A3).
      * intros i Hi. destruct (bs_in _ _ _ _ _ B3 i ltac:(lia)) as (Vi & Di & _). split; [exact Vi|]. split.
        -- destruct (a_01 _ _ _ _ A3 _ Vi) as [|X]; [assumption|]. apply (Pt3 _ Vi) in X. destruct X as [|(j & Hj & X)]; [contradiction|]. apply (bs_inj _ _ _ _ _ B3) in X; lia.
        -- destruct (Pr3 i ltac:(lia)) as (j & Hj & Aj). exists (qu st3 j). split; [now apply (adj_sym s V)|]. destruct (adj_vert s V _ _ Aj) as (Vj & _). apply (Pt3 _ Vj). right. exists j. auto.
      * intros i j Hi Hj. apply (bs_inj _ _ _ _ _ B3); lia.
      * intros v w Ha Pv Pw. destruct (adj_vert s V _ _ Ha) as (Vv & Vw). apply (Pt3 w Vw) in Pw. destruct Pw as [X|(j & Hj & Ej)].
        -- exfalso. assert (at_ b pt3 v = 1) by (apply (Pt3 v Vv); left; exact (Hcl w v X (adj_sym s V _ _ Ha))). congruence.
        -- assert (Y : ps st3 v = pass) by (apply (Dn3 j Hj); rewrite Ej; now apply (adj_sym s V)).
           assert (Dv : ~ D v) by (intros X; assert (at_ b pt3 v = 1) by (apply (Pt3 v Vv); now left); congruence).
           destruct (bs_all _ _ _ _ _ B3 v Vv Dv Y) as (i & Hi & Ei). exists i. split; [|exact Ei]. destruct (Z_lt_le_dec i (gp_qh st3)); [|lia]. exfalso.
           assert (at_ b pt3 v = 1) by (apply (Pt3 v Vv); right; exists i; split; [lia | exact Ei]). congruence.
      * apply N3.
      * cbn [bind wp gpend]. repeat (split; [assumption|]). split; [lia|]. split; [exact Hd3|]. right. exact Hl3.
Qed.
End Gp.

Lemma bstate_all0 avg g : bstate avg g -> bsz0 g = vertnbr (bs g) -> bfronnbr g = 0 /\ forall v, isvert (bs g) v -> bp g v = 0.
Proof.
  intros [V B R G0 (x & Hx & [A1 A2 A3 A4 A5 A6 A7 A8])] Hs. pose proof (gv_nnd _ V) as Nn. pose proof (gv_size _ V) as Ns.
  assert (P0 : forall v, isvert (bs g) v -> bp g v = 0).
  { intros v Hv. destruct (A1 v Hv) as [|E]; [assumption|]. exfalso. cbn [unfix bsz0] in A4. change (bsize (unfix x g) 0) with (zcount (baseval (bs g)) (vertnnd (bs g)) (fun v => bp g v =? 0)) in A4.
    change (bp (unfix x g) v) with (bp g v) in E.
    assert (X : zcount (baseval (bs g)) (vertnnd (bs g)) (fun v => bp g v =? 0) + zcount (baseval (bs g)) (vertnnd (bs g)) (fun v => negb (bp g v =? 0)) = vertnbr (bs g)).
    { unfold zcount. rewrite <- zsum_add. rewrite (zsum_ext _ _ _ (fun _ => 1)); [rewrite zsum_const by lia; lia|]. intros i _. now destruct (bp g i =? 0). }
    assert (Y : zcount (baseval (bs g)) (vertnnd (bs g)) (fun v => negb (bp g v =? 0)) = 0) by lia. pose proof (proj1 (zcount_0 _ _ _) Y v Hv) as Z. cbv beta in Z. rewrite E in Z. discriminate. }
  split; [|exact P0]. destruct A8 as (F0 & F1 & _). cbn [unfix bfronnbr] in *. destruct (Z.eq_dec (bfronnbr g) 0) as [|Hn]; [assumption|]. exfalso.
  destruct (F1 0 ltac:(lia)) as (Hv & e & Ha & Hd). apply Hd. cbn [unfix bs] in *. change (bp (unfix x g)) with (bp g). rewrite !P0; [reflexivity | exact Hv | exact (gv_end _ V _ _ Ha)].
Qed.

Lemma bGp_spec avg jk pn g : bstate avg g -> 0 <= bavg g -> exists h, bgraphBipartGp jk pn g = Ok (0, h) /\ bsame g h /\ bstate avg h /\ bg_valid avg h /\
  bdlt h <= 0 /\ (bdlt h = velosum (bs g) - bavg g \/ exists v, isvert (bs g) v /\ bp h v = 1 /\ 0 < bdlt h + velo (bs g) v).
Proof.
  intros S Hav. unfold bgraphBipartGp. cbv zeta.
  assert (Z0 : exists g', (if negb (bsz0 g =? vertnbr (bs g)) then bgraphZero g else Ok g) = Ok g' /\ bsame g g' /\ bstate avg g' /\ bfronnbr g' = 0 /\ forall v, isvert (bs g) v -> bp g' v = 0).
  { destruct (Z.eqb_spec (bsz0 g) (vertnbr (bs g))) as [E|E]; cbn [negb].
    - exists g. destruct (bstate_all0 avg g S E). auto using bsame_refl.
    - destruct (bZero_good avg g (bt_valid _ _ S) (bt_base _ _ S) (bt_read _ _ S) (bt_gain0 _ _ S) (bstate_avg avg g S)) as (h & -> & Sm & Sh & _ & F0 & P0). exists h. auto. }
  destruct Z0 as (g' & -> & Sm & S' & F0 & P0). cbn [bind]. rewrite F0.
  assert (Eg : bs g' = bs g) by apply Sm. assert (Ea : bavg g' = bavg g) by apply (bm_load _ _ Sm). clear S. revert P0 Hav. rewrite <- !Eg, <- !Ea. intros P0 Hav. pose proof S' as [V B R G0 _].
  destruct (main_ok (bs g') (br_graph _ R) V (bveex g') (zlen (bpart g')) (bavg g') (br_veex _ R) (br_part _ R) (Datatypes.S (Datatypes.S (Z.to_nat (vertnbr (bs g'))))) jk pn (bfron g') (bpart g')) as (((((((pt & fr) & nbr) & dlt) & sz0) & intn) & extn) & -> & A & F1 & F2 & F3 & F4 & F5 & F6 & _ & F7 & F8); auto.
  { pose proof (gv_size _ V). lia. }
  { apply (br_fron _ R). }
  cbn [bind]. eexists. split; [reflexivity|]. match goal with |- bsame _ ?z /\ _ => set (h := z) end. destruct A as [A1 A2 A3 A4 A5].
  assert (VH : bg_valid avg h).
  { assert (Ex1 : bext h 1 = extn) by (rewrite A5; reflexivity).
    assert (Ex0 : bext h 0 + bext h 1 = bcmge0 g').
    { rewrite G0. unfold bext. rewrite <- zsum_add. apply zsum_ext. intros v Hv. change (veex h v) with (veex g' v). change (bp h v) with (at_ (baseval (bs g')) pt v). destruct (A2 v Hv) as [-> | ->]; cbn [Z.eqb Pos.eqb]; lia. }
    constructor.
    - exact A2.
    - exact (bstate_avg avg g' S').
    - reflexivity.
    - exact A4.
    - exact A3.
    - rewrite Ex1. cbn [h bcml bcmle0 bdist]. change (bcut h) with (zsum (baseval (bs g')) (vertnnd (bs g')) (cutv (bs g') pt)). rewrite <- F6. lia.
    - cbn [h bcmge]. lia.
    - split; [exact F2|]. split; [exact F3|]. split; [exact F4 | exact F5]. }
  split; [apply (bsame_trans _ _ _ Sm); constructor; auto|].
  split; [|split; [exact VH | split; [exact F7 | exact F8]]]. constructor; auto.
  - destruct R as [R1 R2 R3 R4 R5]. constructor; cbn [h bs bpart bfron bveex]; auto; try lia; intros v Hv; destruct (bv_part _ _ VH v Hv) as [-> | ->]; lia.
  - exists 0. split; [now left|]. replace (unfix 0 h) with h; [exact VH|]. unfold unfix. rewrite !Z.sub_0_r. reflexivity.
Qed.

Lemma bGp_good avg jk pn : bgood avg (fun a => 0 <= a) true true (bgraphBipartGp jk pn).
Proof. intros g S Hg. destruct (bGp_spec avg jk pn g S Hg) as (h & E & Sm & Sh & _). exists 0, h. auto 10. Qed.
