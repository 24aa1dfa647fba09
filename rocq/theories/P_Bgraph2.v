(** Proofs about bipartitions: checking, reset, exchange, save structures. *)
From Verif Require Import Base Mem M_Graph M_Vgraph M_Bgraph S_Graph S_Bgraph P_Graph P_Vgraph P_Vgraph2 P_Bgraph.

Lemma lor1 p : 0 <= p -> Z.lor p 1 = 1 -> p = 0 \/ p = 1.
Proof.
  intros Hp H. assert (E : Z.shiftr (Z.lor p 1) 1 = Z.shiftr 1 1) by now rewrite H. rewrite Z.shiftr_lor in E.
  change (Z.shiftr 1 1) with 0 in E. rewrite Z.lor_0_r, Z.shiftr_div_pow2 in E by lia. change (2 ^ 1) with 2 in E. lia.
Qed.

Section Check.
Variable avg : Z -> Z -> Z -> Z.
Variable g : bgraph.
Hypothesis R : bg_readable g.
Hypothesis V : graph_valid (bs g).
Notation s := (bs g).
Notation b := (baseval (bs g)).
Notation e_ := (vertnnd (bs g)).

Definition flginv (k : Z) (flg : list Z) : Prop :=
  zlen flg = vertnbr s /\
  (forall v, isvert s v -> (at_ b flg v = 0 \/ at_ b flg v = -1) /\ (at_ b flg v = 0 <-> exists i, 0 <= i < k /\ bfr g i = v)) /\
  (forall i, 0 <= i < k -> isvert s (bfr g i) /\ onfront g (bfr g i)) /\
  (forall i j, 0 <= i < k -> 0 <= j < k -> bfr g i = bfr g j -> i = j).

Lemma flginv0 : 0 <= vertnbr s -> flginv 0 (repeat (-1) (Z.to_nat (vertnbr s))).
Proof.
  intros H0. split; [rewrite zlen_repeat; lia|]. split; [|split; intros; lia].
  intros v Hv. pose proof (gv_nnd _ V) as Hn. unfold isvert in Hv. rewrite at_repeat by lia. split; [auto|]. split; [discriminate | intros (i & Hi & _); lia].
Qed.

Lemma flginv_step k flg : flginv k flg -> 0 <= k -> isvert s (bfr g k) -> at_ b flg (bfr g k) = -1 -> onfront g (bfr g k) -> flginv (k + 1) (upd b flg (bfr g k) 0).
Proof.
  intros (I1 & I2 & I3 & I4) Hk Hv Ha Hf. pose proof (gv_nnd _ V) as Hn. split; [now rewrite zlen_upd|]. split; [|split].
  - intros v Hv'. unfold isvert in *. rewrite at_upd by lia. destruct (Z.eqb_spec (bfr g k) v) as [<-|Hne].
    + split; [auto|]. split; [exists k; split; [lia | reflexivity] | auto].
    + destruct (I2 v Hv') as (J1 & J2). split; [auto|]. rewrite J2. split.
      * intros (i & Hi & E). exists i. split; [lia | auto].
      * intros (i & Hi & E). destruct (Z.eq_dec i k) as [->|]; [congruence|]. exists i. split; [lia | auto].
  - intros i Hi. destruct (Z.eq_dec i k) as [->|]; [auto | apply I3; lia].
  - intros i j Hi Hj E. destruct (Z.eq_dec i k) as [->|], (Z.eq_dec j k) as [->|]; auto; try (apply I4; auto; lia).
    + exfalso. assert (at_ b flg (bfr g k) = 0); [|lia]. apply (I2 (bfr g k) Hv). exists j. split; [lia | auto].
    + exfalso. assert (at_ b flg (bfr g k) = 0); [|lia]. apply (I2 (bfr g k) Hv). exists i. split; [lia | auto].
Qed.

Lemma bgraphCheck_sound : bgraphCheck avg g = Ok tt -> bg_valid avg g.
Proof.
  intros H. unfold bgraphCheck in H. pose proof (gv_nnd _ V) as Hn. pose proof (gv_size _ V) as H0.
  destruct (Z.eqb_spec (bavg g) (bgraphAvg avg s (bwg0 g) (bwg1 g) (bfx0 g) (bfx1 g))) as [Q1|]; cbn [negb] in H; [|discriminate].
  destruct (Z.eqb_spec (bld0 g) (bavg g + bdlt g)) as [Q2|]; cbn [negb] in H; [|discriminate].
  apply bind_ok_inv in H. destruct H as (u & H1 & H).
  assert (P01 : forall v, isvert s v -> bp g v = 0 \/ bp g v = 1).
  { refine (wlp_elim _ (fun _ => _) u _ H1). apply wlp_for with (I := fun k _ => forall v, b <= v < k -> bp g v = 0 \/ bp g v = 1); try (intros; lia); auto.
    intros k u' Hk Hi. rewrite (bpart_rd g R V) by exact Hk. cbn [bind]. destruct (Z.eqb_spec (Z.lor (bp g k) 1) 1) as [E|]; cbn [negb]; [|exact I]. cbn [wlp].
    intros v Hv. destruct (Z.eq_dec v k) as [->|]; [|apply Hi; lia]. apply lor1; auto. apply (br_byte _ R). exact Hk. }
  destruct ((bfronnbr g <? 0) || (vertnbr s <? bfronnbr g)) eqn:Ef; [discriminate|].
  apply bind_ok_inv in H. destruct H as (flg & H2 & H).
  assert (F : flginv (bfronnbr g) flg).
  { refine (wlp_elim _ (fun flg => _) flg _ H2). apply wlp_for with (I := flginv); auto; [lia | now apply flginv0|].
    intros k fl Hk Hi. rewrite rd_ok by (pose proof (br_fron _ R); lia). cbn [bind]. fold (bfr g k).
    destruct ((bfr g k <? b) || (e_ <=? bfr g k)) eqn:Eb; [exact I|]. assert (Hv : isvert s (bfr g k)) by (unfold isvert; lia).
    rewrite rd_ok by (destruct Hi as (Z1 & _); unfold isvert in Hv; lia). cbn [bind]. destruct (Z.eqb_spec (at_ b fl (bfr g k)) (-1)) as [Ex|]; cbn [negb]; [|exact I].
    rewrite wr_ok by (destruct Hi as (Z1 & _); unfold isvert in Hv; lia). cbn [bind]. destruct (checkFlag_spec g R V (bfr g k) Hv P01) as (f & -> & Hf). cbn [bind].
    destruct (Z.eqb_spec f 0) as [|Nf]; [exact I|]. cbn [wlp]. apply flginv_step; auto; [lia|].
    apply (isf_spec g P01); auto. destruct (isf g (bfr g k)) eqn:Ei; auto. exfalso. apply Nf. apply Hf. intros X. apply (isf_spec g P01) in X; auto. congruence. }
  apply bind_ok_inv in H. destruct H as (u3 & H3 & H).
  assert (F2 : forall v, isvert s v -> onfront g v -> at_ b flg v = 0).
  { refine (wlp_elim _ (fun _ => _) u3 _ H3). apply wlp_for with (I := fun k _ => forall v, b <= v < k -> onfront g v -> at_ b flg v = 0); try (intros; lia); auto.
    intros k u' Hk Hi. destruct (checkFlag_spec g R V k Hk P01) as (f & -> & Hf). cbn [bind]. destruct (Z.eqb_spec f 0) as [E0|E0]; cbn [negb].
    - cbn. intros v Hv Hvf. destruct (Z.eq_dec v k) as [->|]; [|apply Hi; auto; lia]. destruct (proj1 Hf E0 Hvf).
    - rewrite rd_ok by (destruct F as (Z1 & _); lia). cbn [bind]. destruct (Z.eqb_spec (at_ b flg k) 0) as [Ex|]; cbn [negb]; [|exact I].
      cbn. intros v Hv Hvf. destruct (Z.eq_dec v k) as [->|]; [auto | apply Hi; auto; lia]. }
  destruct (bgraphCost2_spec g R V P01 None ltac:(discriminate)) as (c & Ec & C1 & C2 & C3 & C4 & C5 & _). rewrite Ec in H. cbn [bind] in H.
  destruct (Z.eqb_spec (vertnbr s - k_sz1 c) (bsz0 g)) as [Q3|]; cbn [negb] in H; [|discriminate].
  destruct (Z.eqb_spec (velosum s - k_ld1 c) (bld0 g)) as [Q4|]; cbn [negb] in H; [|discriminate].
  destruct (Z.eqb_spec (k_int c * bdist g + k_ext c) (bcml g)) as [Q5|]; cbn [negb] in H; [|discriminate].
  destruct (Z.eqb_spec (k_gain c) (bcmge g)) as [Q6|]; cbn [negb] in H; [|discriminate].
  destruct F as (Z1 & I2 & I3 & I4). constructor; auto; try congruence.
  - split; [lia|]. split; [exact I3|]. split; [exact I4|]. intros v Hv Hf. apply (I2 v Hv). now apply F2.
Qed.

Lemma bgraphCheck_complete : bg_valid avg g -> bfronnbr g <= vertnbr s -> bgraphCheck avg g = Ok tt.
Proof.
  intros [P01 A1 A2 A3 A4 A5 A6 (F0 & F1 & F2 & F3)] Fle. unfold bgraphCheck. pose proof (gv_nnd _ V) as Hn. pose proof (gv_size _ V) as H0.
  rewrite <- A1, Z.eqb_refl. cbn [negb]. rewrite A2 at 1. rewrite Z.eqb_refl. cbn [negb].
  match goal with |- bind ?r _ = _ => destruct (wp_ok_inv r (fun _ => True)) as (u & -> & _) end.
  { apply wp_for with (I := fun _ _ => True); auto; [lia|]. intros v u Hv _. rewrite (bpart_rd g R V) by exact Hv. cbn [bind]. destruct (P01 v Hv) as [->| ->]; exact I. }
  cbn [bind]. destruct ((bfronnbr g <? 0) || (vertnbr s <? bfronnbr g)) eqn:Ef; [lia|].
  match goal with |- bind ?r _ = _ => destruct (wp_ok_inv r (flginv (bfronnbr g))) as (flg & -> & F) end.
  { apply wp_for with (I := flginv); auto; [now apply flginv0|]. intros k fl Hk Hi. rewrite rd_ok by (pose proof (br_fron _ R); lia). cbn [bind]. fold (bfr g k).
    destruct (F1 k Hk) as (Hv & Hf). assert (Hv' := Hv). unfold isvert in Hv'. destruct ((bfr g k <? b) || (e_ <=? bfr g k)) eqn:Eb; [lia|].
    pose proof Hi as (Z1 & I2 & _). rewrite rd_ok by lia. cbn [bind].
    assert (Ex : at_ b fl (bfr g k) = -1).
    { destruct (I2 _ Hv) as ([E|E] & J2); [|exact E]. exfalso. apply J2 in E. destruct E as (i & Hi' & E). apply F2 in E; lia. }
    rewrite Ex, Z.eqb_refl. cbn [negb]. rewrite wr_ok by lia. cbn [bind]. destruct (checkFlag_spec g R V (bfr g k) Hv P01) as (f & -> & Hff). cbn [bind].
    destruct (Z.eqb_spec f 0) as [E|]; [exfalso; now apply Hff in E|]. cbn [wp]. apply flginv_step; auto. lia. }
  cbn [bind].
  match goal with |- bind ?r _ = _ => destruct (wp_ok_inv r (fun _ => True)) as (u3 & -> & _) end.
  { apply wp_for with (I := fun _ _ => True); auto; [lia|]. intros v u3 Hv _. destruct (checkFlag_spec g R V v Hv P01) as (f & -> & Hff). cbn [bind].
    destruct F as (Z1 & I2 & _). destruct (Z.eqb_spec f 0) as [E|E]; cbn [negb bind]; [exact I|]. rewrite rd_ok by lia. cbn [bind].
    assert (Ex : at_ b flg v = 0).
    { apply (I2 v Hv). apply F3; auto. apply (isf_spec g P01); auto. destruct (isf g v) eqn:Ei; auto. exfalso. apply E. apply Hff. intros X. apply (isf_spec g P01) in X; auto. congruence. }
    rewrite Ex. exact I. }
  cbn [bind].
  destruct (bgraphCost2_spec g R V P01 None ltac:(discriminate)) as (c & -> & C1 & C2 & C3 & C4 & C5 & _). cbn [bind].
  rewrite C1, C2, C3, C4, C5, <- A3, <- A4, <- A5, <- A6, !Z.eqb_refl. reflexivity.
Qed.
End Check.

(** The frontier of a valid bipartition fits in the array *)
Lemma inj_count n lo hi (f : Z -> Z) : 0 <= n -> lo <= hi -> (forall i, 0 <= i < n -> lo <= f i < hi) -> (forall i j, 0 <= i < n -> 0 <= j < n -> f i = f j -> i = j) -> n <= hi - lo.
Proof.
  intros Hn Hl Hr Hi.
  assert (N : NoDup (map f (zseq 0 n))).
  { assert (D := NoDup_zseq 0 n). assert (Rr : forall x, In x (zseq 0 n) -> 0 <= x < n) by (intros x; rewrite In_zseq; lia).
    revert D Rr. generalize (zseq 0 n). induction l as [|a l IH]; intros D Rr; [constructor|]. assert (D1 : ~ In a l) by (inversion D; auto). assert (D2 : NoDup l) by (inversion D; auto). cbn [map]. constructor.
    - rewrite in_map_iff. intros (x & Ex & Hx). apply D1. rewrite (Hi a x); auto; apply Rr; [now left | now right].
    - apply IH; auto. intros x Hx. apply Rr. now right. }
  assert (I : incl (map f (zseq 0 n)) (zseq lo (hi - lo))).
  { intros x Hx. rewrite in_map_iff in Hx. destruct Hx as (i & <- & Hx). rewrite In_zseq in Hx. rewrite In_zseq. specialize (Hr i ltac:(lia)). lia. }
  pose proof (NoDup_incl_length N I) as L. rewrite map_length in L.
  assert (zlen (zseq 0 n) = n) by (apply zlen_zseq; lia). assert (zlen (zseq lo (hi - lo)) = hi - lo) by (apply zlen_zseq; lia). unfold zlen in *. lia.
Qed.
Lemma bg_fronnbr avg g : graph_valid (bs g) -> bg_valid avg g -> bfronnbr g <= vertnbr (bs g).
Proof.
  intros V [_ _ _ _ _ _ _ (F0 & F1 & F2 & _)]. pose proof (gv_nnd _ V). pose proof (gv_size _ V).
  pose proof (inj_count (bfronnbr g) (baseval (bs g)) (vertnnd (bs g)) (bfr g) F0 ltac:(lia)) as X. specialize (X ltac:(intros i Hi; apply F1; auto) F2). lia.
Qed.

(** Properties of the specification that only depend on the parts and fixed data *)
Lemma bgraphCost_spec avg g : bg_readable g -> graph_valid (bs g) -> (forall v, isvert (bs g) v -> bp g v = 0 \/ bp g v = 1) ->
  bavg g = bgraphAvg avg (bs g) (bwg0 g) (bwg1 g) (bfx0 g) (bfx1 g) ->
  exists h, bgraphCost g = Ok h /\ bs h = bs g /\ bveex h = bveex g /\ bpart h = bpart g /\ zlen (bfron h) = zlen (bfron g) /\ bg_valid avg h /\
    (bdist h, bcmle0 h, bcmge0 h, (bwg0 h, bwg1 h, bfx0 h, bfx1 h), bavg h) = (bdist g, bcmle0 g, bcmge0 g, (bwg0 g, bwg1 g, bfx0 g, bfx1 g), bavg g).
Proof.
  intros R V P01 Av. unfold bgraphCost.
  destruct (bgraphCost2_spec g R V P01 (Some (bfron g))) as (c & -> & C1 & C2 & C3 & C4 & C5 & C6); [intros fr [= <-]; apply (br_fron _ R)|].
  cbn [bind]. destruct C6 as (fr & -> & Zf & Nf & Af). eexists. split; [reflexivity|]. cbn [bs bveex bpart bfron bdist bcmle0 bcmge0 bwg0 bwg1 bfx0 bfx1 bavg].
  repeat (split; [first [reflexivity | assumption]|]). split; [|reflexivity].
  match goal with |- bg_valid avg ?z => set (h := z) end.
  assert (Nz := zlen_nonneg (frs g (vertnnd (bs g)))).
  constructor; auto.
  - cbn [h bld0 bavg bdlt]. lia.
  - cbn [h bcml]. rewrite C3, C4. reflexivity.
  - change (bfronnbr h) with (k_nbr c). rewrite Nf. change (onfront h) with (onfront g). change (bs h) with (bs g).
    assert (Fi : forall i, 0 <= i < zlen (frs g (vertnnd (bs g))) -> bfr h i = at_ 0 (frs g (vertnnd (bs g))) i) by (intros i Hi; apply Af; auto).
    split; [lia|]. split; [|split].
    + intros i Hi. rewrite Fi by auto. apply (frs_In g V P01). apply at_In. lia.
    + intros i j Hi Hj. rewrite !Fi by auto. intros E. apply (proj2 (NoDup_at 0 (frs g (vertnnd (bs g)))) (frs_NoDup g)); auto; lia.
    + intros v Hv Hf. assert (I : In v (frs g (vertnnd (bs g)))) by (apply (frs_In g V P01); auto).
      apply (In_at 0) in I. destruct I as (i & Hi & E). exists i. split; [lia|]. rewrite Fi by lia. auto.
Qed.

(** Everything in part 0 *)
Lemma all0_valid avg h : graph_valid (bs h) -> (forall v, isvert (bs h) v -> bp h v = 0) ->
  bavg h = bgraphAvg avg (bs h) (bwg0 h) (bwg1 h) (bfx0 h) (bfx1 h) -> bld0 h = bavg h + bdlt h -> bfronnbr h = 0 ->
  bsz0 h = vertnbr (bs h) -> bld0 h = velosum (bs h) -> bcml h = bcmle0 h -> bcmge h = zsum (baseval (bs h)) (vertnnd (bs h)) (veex h) -> bg_valid avg h.
Proof.
  intros V P0 A1 A2 F0 S0 L0 C0 G0. pose proof (gv_nnd _ V) as Hn. pose proof (gv_size _ V) as Hs.
  assert (X1 : bext h 1 = 0) by (apply zsum_zero; intros v Hv; rewrite P0 by exact Hv; reflexivity).
  assert (N : forall v, isvert (bs h) v -> ~ onfront h v).
  { intros v Hv (e & A & H). apply H. rewrite (P0 v Hv). apply P0. apply (gv_end _ V v e A). }
  constructor; auto.
  - unfold bsize. rewrite S0. symmetry. rewrite zcount_all by (try lia; intros v Hv; rewrite P0 by exact Hv; reflexivity). lia.
  - rewrite L0, (gv_velosum _ V). apply zsum_ext. intros v Hv. rewrite P0 by exact Hv. reflexivity.
  - rewrite C0, X1. assert (E : bcut h = 0); [|rewrite E; lia]. apply zsum_zero. intros v Hv. apply zsum_zero. intros e He.
    rewrite (P0 (edge (bs h) e)) by (apply (gv_end _ V v e); split; auto). cbn [Z.eqb]. rewrite andb_false_r. reflexivity.
  - rewrite G0, X1. unfold bext. rewrite (zsum_ext _ _ _ (fun v => if bp h v =? 0 then veex h v else 0)); [lia|]. intros v Hv. rewrite P0 by exact Hv. reflexivity.
  - rewrite F0. split; [lia|]. split; [intros; lia|]. split; [intros; lia|]. intros v Hv Hf. destruct (N v Hv Hf).
Qed.

Lemma bzero_part g : bg_readable g -> graph_valid (bs g) -> exists pt, memst (baseval (bs g)) (bpart g) (baseval (bs g)) (vertnbr (bs g)) 0 = Ok pt /\
  zlen pt = zlen (bpart g) /\ forall v, isvert (bs g) v -> at_ (baseval (bs g)) pt v = 0.
Proof.
  intros R V. pose proof (gv_nnd _ V) as Hn. pose proof (gv_size _ V) as Hs. pose proof (br_part _ R).
  destruct (memst_spec (baseval (bs g)) (bpart g) (vertnbr (bs g)) 0) as (pt & -> & Hz & Hp); [lia|]. exists pt. split; [reflexivity|]. split; [auto|].
  intros v Hv. unfold isvert in Hv. rewrite Hp by lia. destruct (Z.ltb_spec v (baseval (bs g) + vertnbr (bs g))); [reflexivity | lia].
Qed.

Lemma bgraphInit2_spec avg g dist w0 w1 f0 f1 : bg_readable g -> graph_valid (bs g) -> bveex g = None ->
  exists h, bgraphInit2 avg g dist w0 w1 f0 f1 = Ok h /\ bs h = bs g /\ bdist h = dist /\ bwg0 h = w0 /\ bwg1 h = w1 /\ bfx0 h = f0 /\ bfx1 h = f1 /\
    (forall v, isvert (bs g) v -> bp h v = 0) /\ zlen (bpart h) = zlen (bpart g) /\ zlen (bfron h) = zlen (bfron g) /\ bveex h = None /\ bcmge0 h = bcmge h /\ bg_valid avg h.
Proof.
  intros R V Vx. unfold bgraphInit2. destruct (bzero_part g R V) as (pt & -> & Hz & Hp). cbn [bind]. eexists. split; [reflexivity|].
  cbn [bs bdist bwg0 bwg1 bfx0 bfx1 bpart bfron bveex bcmge0 bcmge]. repeat (split; [first [reflexivity | assumption]|]).
  apply all0_valid; auto; cbn [bs bavg bwg0 bwg1 bfx0 bfx1 bld0 bdlt bcmge]; try reflexivity; try lia.
  symmetry. apply zsum_zero. intros v _. unfold veex. cbn [bveex]. now rewrite Vx.
Qed.

Lemma bgraphZero_spec avg g : bg_readable g -> graph_valid (bs g) ->
  bavg g = bgraphAvg avg (bs g) (bwg0 g) (bwg1 g) (bfx0 g) (bfx1 g) -> bfx0 g = 0 -> bcmge0 g = zsum (baseval (bs g)) (vertnnd (bs g)) (veex g) ->
  exists h, bgraphZero g = Ok h /\ bs h = bs g /\ bveex h = bveex g /\ (forall v, isvert (bs g) v -> bp h v = 0) /\
    zlen (bpart h) = zlen (bpart g) /\ zlen (bfron h) = zlen (bfron g) /\ bg_valid avg h.
Proof.
  intros R V Av F0 G0. unfold bgraphZero. destruct (bzero_part g R V) as (pt & -> & Hz & Hp). cbn [bind]. eexists. split; [reflexivity|].
  cbn [bs bdist bwg0 bwg1 bfx0 bfx1 bpart bfron bveex bcmge0 bcmge]. repeat (split; [first [reflexivity | assumption]|]).
  apply all0_valid; auto; cbn [bs bavg bwg0 bwg1 bfx0 bfx1 bld0 bdlt bcmge bcml bcmle0]; try reflexivity; try assumption; lia.
Qed.

Lemma bgraphSwal_spec avg g : bg_readable g -> graph_valid (bs g) -> bg_valid avg g -> bfx0 g + bfx1 g = 0 ->
  exists h, bgraphSwal g = Ok h /\ bs h = bs g /\ bveex h = bveex g /\ (forall v, isvert (bs g) v -> bp h v = 1 - bp g v) /\
    zlen (bpart h) = zlen (bpart g) /\ bfron h = bfron g /\ bfronnbr h = bfronnbr g /\ bg_valid avg h.
Proof.
  intros R V [P01 A1 A2 A3 A4 A5 A6 A7] Fx. pose proof (gv_nnd _ V) as Hn. pose proof (gv_size _ V) as Hs. pose proof (br_part _ R) as Rp. unfold bgraphSwal.
  set (b := baseval (bs g)) in *. set (e_ := vertnnd (bs g)) in *.
  match goal with |- exists h, bind ?r _ = _ /\ _ => destruct (wp_ok_inv r (fun pt => zlen pt = zlen (bpart g) /\ forall v, isvert (bs g) v -> at_ b pt v = 1 - bp g v)) as (pt & -> & Hz & Hp) end.
  { apply wp_for with (I := fun k pt => zlen pt = zlen (bpart g) /\ (forall v, b <= v < k -> at_ b pt v = 1 - bp g v) /\ forall v, k <= v < e_ -> at_ b pt v = bp g v).
    - lia.
    - split; [reflexivity|]. split; [intros; lia | reflexivity].
    - intros k pt Hk (Z1 & I1 & I2). rewrite rd_ok by lia. cbn [bind]. apply wp_wr; [lia|]. split; [now rewrite zlen_upd|]. rewrite I2 by lia. split; intros v Hv; rewrite at_upd by lia; destruct (Z.eqb_spec k v) as [<-|].
      + destruct (P01 k Hk) as [->| ->]; reflexivity.
      + apply I1. lia.
      + lia.
      + apply I2. lia.
    - intros pt (Z1 & I1 & _). split; auto. }
  cbn [bind]. eexists. split; [reflexivity|]. cbn [bs bveex bpart bfron bfronnbr]. repeat (split; [first [reflexivity | assumption]|]).
  match goal with |- bg_valid avg ?z => set (h := z) end.
  assert (Ph : forall v, isvert (bs g) v -> bp h v = 1 - bp g v) by (intros v Hv; apply Hp; auto).
  assert (Xe : forall p, p = 0 \/ p = 1 -> bext h p = bext g (1 - p)).
  { intros p Hp'. unfold bext. apply zsum_ext. intros v Hv. rewrite Ph by exact Hv. change (veex h v) with (veex g v). destruct (P01 v Hv) as [->| ->], Hp' as [->| ->]; reflexivity. }
  assert (B : forall f, zsum b e_ f = zsum b e_ (fun v => if bp g v =? 0 then f v else 0) + zsum b e_ (fun v => if bp g v =? 1 then f v else 0)) by (apply (bsum g P01)).
  assert (Sw : forall f, zsum b e_ (fun v => if bp h v =? 0 then f v else 0) = zsum b e_ (fun v => if bp g v =? 1 then f v else 0)).
  { intros f. apply zsum_ext. intros v Hv. rewrite Ph by exact Hv. destruct (P01 v Hv) as [->| ->]; reflexivity. }
  assert (Fr : forall v, isvert (bs g) v -> (onfront h v <-> onfront g v)).
  { intros v Hv. unfold onfront. change (bs h) with (bs g). split; intros (e & A & H); exists e; (split; [auto|]); pose proof (gv_end _ V v e A) as Hw.
    - rewrite !Ph in H by auto. lia.
    - rewrite !Ph by auto. lia. }
  constructor.
  - intros v Hv. rewrite Ph by auto. destruct (P01 v Hv); lia.
  - exact A1.
  - cbn [h bld0 bavg bdlt]. lia.
  - cbn [h bsz0]. rewrite A3. unfold bsize, zcount. change (bs h) with (bs g). fold b e_. pose proof (B (fun _ => 1)) as B1. rewrite zsum_const in B1 by lia.
    pose proof (Sw (fun _ => 1)) as S1. unfold b2z. cbn beta in *. lia.
  - cbn [h bld0]. rewrite A4. unfold bload. change (bs h) with (bs g). fold b e_. rewrite (Sw (velo (bs g))). rewrite (gv_velosum _ V). pose proof (B (velo (bs g))). fold b e_. lia.
  - cbn [h bcml bdist bcmle0]. rewrite Xe by auto. change (1 - 1) with 0. rewrite A5, A6.
    assert (E : bcut h = bcut g); [|rewrite E; lia].
    set (F := fun v w => if (bp g v =? 0) && (bp g w =? 1) then 1 else 0).
    assert (E1 : bcut g = zsum b e_ (fun v => zsum (vert (bs g) v) (vend (bs g) v) (fun e => F v (edge (bs g) e) * edlo (bs g) e))).
    { unfold bcut. apply zsum_ext. intros v _. apply zsum_ext. intros e _. unfold F. destruct (_ && _); lia. }
    rewrite E1. unfold b, e_. rewrite (arcs_reverse (bs g) F V). unfold bcut. change (bs h) with (bs g). apply zsum_ext. intros v Hv. apply zsum_ext. intros e He.
    assert (A : arc (bs g) v e) by (split; auto). rewrite !Ph by (try exact Hv; apply (gv_end _ V v e A)). unfold F. destruct (P01 v Hv) as [->| ->], (P01 _ (gv_end _ V v e A)) as [->| ->]; cbn [Z.sub Z.opp Z.add Z.eqb Pos.eqb Z.pos_sub andb]; lia.
  - cbn [h bcmge]. rewrite !Xe by auto. change (1 - 1) with 0. change (1 - 0) with 1. lia.
  - destruct A7 as (F0 & F1 & F2 & F3). change (bfronnbr h) with (bfronnbr g). change (bfr h) with (bfr g). change (bs h) with (bs g). split; [auto|]. split; [|split; [auto|]].
    + intros i Hi. destruct (F1 i Hi) as (X1 & X2). split; [auto|]. now apply Fr.
    + intros v Hv Hf. apply F3; auto. now apply Fr.
Qed.

(** ** Save structures *)
Lemma bgraphStore_round gs g data :
  0 < gs -> bg_readable g -> graph_valid (bs g) -> 0 <= bfronnbr g <= vertnbr (bs g) -> zlen data = zlen (bgraphStoreInit gs g) -> bld0 g = bavg g + bdlt g ->
  exists t, bgraphStoreSave gs g data = Ok t /\
    forall h, bs h = bs g -> bavg h = bavg g -> vertnbr (bs g) <= zlen (bpart h) -> vertnbr (bs g) <= zlen (bfron h) ->
    exists h', bgraphStoreUpdt gs h t = Ok h' /\ bs h' = bs g /\
      (forall v, isvert (bs g) v -> bp h' v = bp g v) /\ bfronnbr h' = bfronnbr g /\ (forall i, 0 <= i < bfronnbr g -> bfr h' i = bfr g i) /\
      zlen (bpart h') = zlen (bpart h) /\ zlen (bfron h') = zlen (bfron h) /\
      bdlt h' = bdlt g /\ bld0 h' = bld0 g /\ bsz0 h' = bsz0 g /\ bcml h' = bcml g /\ bcmge h' = bcmge g /\ bbal h' = (Z.abs (bdlt g), bavg g) /\
      bveex h' = bveex h /\ bavg h' = bavg g /\ (bmin h', bmax h', bcmle0 h', bcmge0 h', bdist h', (bwg0 h', bwg1 h', bfx0 h', bfx1 h')) = (bmin h, bmax h, bcmle0 h, bcmge0 h, bdist h, (bwg0 h, bwg1 h, bfx0 h, bfx1 h)).
Proof.
  intros Hg R V Hk Hd Hl. pose proof (gv_nnd _ V) as Hn. pose proof (gv_size _ V) as Hs. pose proof (br_part _ R) as Rp. pose proof (br_fron _ R) as Rf.
  assert (Hn' : vertnnd (bs g) - baseval (bs g) = vertnbr (bs g)) by lia.
  assert (Hd' : zlen data = vertnbr (bs g) * (1 + gs)) by (rewrite Hd; unfold bgraphStoreInit; rewrite zlen_repeat, Hn'; nia).
  destruct (storeSave_updt gs (baseval (bs g)) (vertnbr (bs g)) (bfronnbr g) (bpart g) (bfron g) data Hg Hk Rp ltac:(lia) Hd') as (d & Es & Hu).
  unfold bgraphStoreSave. rewrite Hn', Es. cbn [bind]. eexists. split; [reflexivity|]. intros h Es' Ea Hp Hf.
  destruct (Hu (bpart h) (bfron h) Hp ltac:(lia)) as (pt & fr & Eu & Z1 & Z2 & P1 & P2 & F1 & F2).
  unfold bgraphStoreUpdt. cbn [bt_fronnbr bt_dlt bt_sz0 bt_cml bt_cmge bt_data]. rewrite Es', Hn', Eu. cbn [bind]. eexists. split; [reflexivity|].
  cbn [bs bfronnbr bdlt bld0 bsz0 bcml bcmge bbal bpart bfron bmin bmax bcmle0 bcmge0 bdist bwg0 bwg1 bfx0 bfx1 bveex bavg]. split; [auto|]. split.
  { intros v Hv. unfold bp. cbn [bs bpart]. apply P1. unfold isvert in Hv. lia. }
  split; [reflexivity|]. split. { intros i Hi. unfold bfr. cbn [bfron]. now apply F1. }
  repeat (split; [first [assumption | reflexivity | lia]|]). split; [|split; [reflexivity | split; [assumption | reflexivity]]].
  f_equal; [|assumption]. destruct (Z.ltb_spec (bdlt g) 0); lia.
Qed.
