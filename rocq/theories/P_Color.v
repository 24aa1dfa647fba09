(** Proofs about graph colouring. *)
From Verif Require Import Base M_Int M_Graph M_GraphIo M_Color S_Graph S_Color S_GraphIo P_Int P_Rand P_Graph P_GraphList P_Induce.

Lemma filter_incr p b n : 0 <= n -> increasing (filter p (zseq b n)).
Proof.
  intros Hn. assert (G : forall n, 0 <= n -> increasing (filter p (zseq b n)) /\ forall x, In x (filter p (zseq b n)) -> x < b + n); [|now apply G].
  clear n Hn. apply zrange_ind.
  - cbn [zseq]. rewrite zseq_0 by lia. split; [intros i j; change (zlen (filter p [])) with 0; lia | intros x []].
  - intros n Hn (I1 & I2). rewrite zseq_snoc by lia. rewrite filter_app. cbn [filter]. set (F := filter p (zseq b n)) in *. split.
    + destruct (p (b + n)); [|rewrite app_nil_r; auto]. intros i j Hij Hj. rewrite zlen_snoc in Hj. destruct (Z.eq_dec j (zlen F)) as [->|].
      * rewrite at_app1 by lia. rewrite at_app2 by lia. rewrite Z.sub_diag, at_cons_0. apply I2, at_In. lia.
      * rewrite !at_app1 by lia. apply I1; lia.
    + intros x Hx. apply in_app_or in Hx as [Hx|Hx]; [specialize (I2 x Hx); lia|]. destruct (p (b + n)); [destruct Hx as [<-|[]]; lia | destruct Hx].
Qed.

Lemma filter_filter_sub {A} (p q : A -> bool) l : (forall x, In x l -> p x = true -> q x = true) -> filter p (filter q l) = filter p l.
Proof.
  induction l as [|x l IH]; intros H; [reflexivity|]. cbn [filter]. destruct (q x) eqn:Q; cbn [filter].
  - destruct (p x); rewrite IH; auto; intros; apply H; auto; now right.
  - destruct (p x) eqn:P; [|apply IH; intros; apply H; auto; now right]. specialize (H x (or_introl eq_refl) P). congruence.
Qed.
Lemma filter_zlen_le {A} (p : A -> bool) l : zlen (filter p l) <= zlen l.
Proof. induction l as [|x l IH]; [reflexivity|]. cbn [filter]. destruct (p x); rewrite ?zlen_cons; lia. Qed.
Lemma filter_zlen_lt {A} (p : A -> bool) l x : In x l -> p x = false -> zlen (filter p l) < zlen l.
Proof.
  induction l as [|y l IH]; intros I Hp; [destruct I|]. cbn [filter]. rewrite zlen_cons. destruct I as [->|I].
  - rewrite Hp. pose proof (filter_zlen_le p l). lia.
  - specialize (IH I Hp). destruct (p y); rewrite ?zlen_cons; lia.
Qed.
Lemma filter_all_len {A} (p : A -> bool) l : zlen (filter p l) = zlen l -> filter p l = l.
Proof.
  induction l as [|y l IH]; intros H; [reflexivity|]. cbn [filter] in *. pose proof (filter_zlen_le p l). destruct (p y); rewrite !zlen_cons in *; [f_equal; apply IH; lia | lia].
Qed.

Section Color.
Context (g : graph) (V : graph_valid g) (R : graph_readable g) (rnd : list Z) (HR : zlen rnd = vertnbr g).
Notation b := (baseval g).
Notation n := (vertnbr g).

(** [w] comes before [v] *)
Definition before (w v : Z) : bool := (at_ b rnd v <? at_ b rnd w) || ((at_ b rnd w =? at_ b rnd v) && (v <? w)).
Definition unc (col : list Z) (v : Z) : bool := at_ b col v <? 0.
Definition U (col : list Z) : list Z := filter (unc col) (zseq b n).

Lemma before_max l : l <> [] -> exists v, In v l /\ forall w, In w l -> before w v = false.
Proof.
  induction l as [|x l IH]; [congruence|]. intros _. destruct l as [|y l].
  - exists x. split; [now left|]. intros w [<-|[]]. unfold before. lia.
  - destruct IH as (v & I & H); [discriminate|]. destruct (before x v) eqn:E.
    + exists x. split; [now left|]. intros w [<-|Iw]; [unfold before; lia|]. specialize (H w Iw). unfold before in *. lia.
    + exists v. split; [now right|]. intros w [<-|Iw]; auto.
Qed.

Lemma colorScan_spec col v : isvert g v -> zlen col = n ->
  exists o, colorScan g rnd col v (at_ b rnd v) (vert g v) (vend g v) = Ok o /\
    (o = true <-> forall w, adjacent g v w -> unc col w = true -> before w v = false).
Proof.
  intros Hv Hc. pose proof (gv_range g V v Hv) as Hr. pose proof (gv_nnd g V) as Hn. unfold colorScan.
  match goal with |- exists o, ?r = _ /\ _ => destruct (wp_ok_inv r (fun o => o = true <-> forall w, adjacent g v w -> unc col w = true -> before w v = false)) as (o & -> & H) end; [|eauto].
  apply wp_loop with (I := fun e => vert g v <= e <= vend g v /\ forall e', vert g v <= e' < e -> unc col (edge g e') = true -> before (edge g e') v = false) (m := fun e => vend g v - e).
  - split; [lia|]. intros; lia.
  - lia.
  - intros e (He & HI). destruct (Z.ltb_spec e (vend g v)) as [Hlt|Hge]; cbn [wp].
    + assert (A : arc g v e) by (split; [auto|lia]). rewrite redge_ok with (v := v) by auto. cbn [bind]. pose proof (gv_end g V v e A) as (W1 & W2).
      rewrite rd_ok by lia. cbn [bind]. destruct (Z.leb_spec 0 (at_ b col (edge g e))) as [Hc0|Hc0]; cbn [wp].
      * split; [|lia]. split; [lia|]. intros e' He' Hu. destruct (Z.eq_dec e' e) as [->|]; [unfold unc in Hu; lia|]. apply HI; auto; lia.
      * rewrite rd_ok by lia. cbn [bind]. fold (before (edge g e) v). destruct (before (edge g e) v) eqn:Eb; cbn [wp].
        -- split; [discriminate|]. intros H. rewrite H in Eb; [discriminate | exists e; auto | unfold unc; lia].
        -- split; [|lia]. split; [lia|]. intros e' He' Hu. destruct (Z.eq_dec e' e) as [->|]; [auto|]. apply HI; auto; lia.
    + split; [|auto]. intros _ w (e' & (_ & He') & <-) Hu. apply HI; auto; lia.
Qed.

(** [clash]: neighbours of one colour are in decreasing order of their values *)
Definition clash (col : list Z) : Prop := forall v w, isvert g v -> v < w -> adjacent g v w -> 0 <= at_ b col v -> at_ b col v = at_ b col w -> at_ b rnd w < at_ b rnd v.
Definition inrange (col : list Z) (cn : Z) : Prop := zlen col = n /\ forall v, isvert g v -> at_ b col v < cn.
Definition used (col : list Z) (cn : Z) : Prop := forall c, 0 <= c < cn -> exists v, isvert g v /\ at_ b col v = c.

Lemma colorPass_spec cn col0 que0 : inrange col0 cn -> 0 <= cn -> clash col0 -> used col0 cn -> U col0 <> [] -> zlen que0 = n ->
  (zlen (U col0) = n \/ firstn (Z.to_nat (zlen (U col0))) que0 = U col0) ->
  exists col que, colorPass g rnd (b + zlen (U col0)) cn col0 que0 = Ok (col, que, b + zlen (U col)) /\
    inrange col (cn + 1) /\ clash col /\ used col (cn + 1) /\ zlen que = n /\ firstn (Z.to_nat (zlen (U col))) que = U col /\ zlen (U col) < zlen (U col0).
Proof.
  intros (Lc & Rc) Hcn HC HU Hne Lq HQ. pose proof (gv_size g V) as Hn. pose proof (gv_nnd g V) as Hnnd.
  set (Q := U col0) in *. set (k := zlen Q) in *. assert (Hk : k <= n) by (unfold k, Q, U; pose proof (filter_zlen_le (unc col0) (zseq b n)); rewrite zlen_zseq in *; lia).
  assert (Qin : forall v, In v Q <-> isvert g v /\ at_ b col0 v < 0).
  { intros v. unfold Q, U. rewrite filter_In, In_zseq. unfold isvert, unc. lia. }
  assert (Qinc : increasing Q) by (apply filter_incr; lia).
  assert (Qat : forall i, 0 <= i < k -> isvert g (at_ 0 Q i) /\ at_ b col0 (at_ 0 Q i) < 0) by (intros; apply Qin, at_In; fold k; lia).
  (* the vertex read from the queue *)
  assert (Qrd : forall que i, 0 <= i < k -> zlen que = n -> (forall j, i <= j < n -> at_ 0 que j = at_ 0 que0 j) -> (if b + k =? n + b then Ok (b + i) else rd b que (b + i)) = Ok (at_ 0 Q i)).
  { intros que i Hi Lq' Hrest. destruct (Z.eqb_spec (b + k) (n + b)) as [E|NE].
    - f_equal. assert (EQ : Q = zseq b n) by (apply filter_all_len; fold Q; fold (U col0); fold Q; rewrite zlen_zseq by lia; fold k; lia). rewrite EQ. rewrite at_zseq by lia. lia.
    - rewrite rd_ok by lia. f_equal. rewrite (at_rebase 0 b). replace (b + i - b + 0) with i by lia. rewrite Hrest by lia. destruct HQ as [HQ|HQ]; [fold k in HQ; lia|].
      rewrite <- HQ. fold k. symmetry. apply at_firstn. lia. }
  unfold colorPass.
  set (I := fun (qi : Z) (st : list Z * list Z * Z) => let '(col, que, qn) := st in let i := qi - b in
     zlen col = n /\ zlen que = n /\
     (forall v, isvert g v -> at_ b col v = at_ b col0 v \/ (at_ b col v = cn /\ In v (firstn (Z.to_nat i) Q))) /\
     qn = b + zlen (filter (unc col) (firstn (Z.to_nat i) Q)) /\
     firstn (Z.to_nat (qn - b)) que = filter (unc col) (firstn (Z.to_nat i) Q) /\
     (forall j, i <= j < n -> at_ 0 que j = at_ 0 que0 j) /\
     clash col /\
     (forall v w, isvert g v -> at_ b col v = cn -> adjacent g v w -> unc col w = true -> before w v = false) /\
     (forall v, In v (firstn (Z.to_nat i) Q) -> (forall w, In w Q -> before w v = false) -> at_ b col v = cn)).
  match goal with |- exists _ _, ?r = _ /\ _ => destruct (wp_ok_inv r (I (b + k))) as (((col & que) & qn) & -> & HI) end.
  { apply wp_for with (I := I); [pose proof (zlen_nonneg Q); lia | | | auto].
    - unfold I. cbv beta zeta. rewrite Z.sub_diag. cbn [Z.to_nat firstn filter]. change (zlen (@nil Z)) with 0; rewrite Z.add_0_r. cbn [Z.to_nat firstn].
      split; [auto|]. split; [auto|]. split; [auto|]. split; [auto|]. split; [auto|]. split; [auto|]. split; [auto|]. split; [|intros v []].
      intros v w Hv Hcv. specialize (Rc v Hv). lia.
    - intros qi ((col & que) & qn) Hqi (I1 & I2 & I3 & I4 & I5 & I6 & I7 & I8 & I9). set (i := qi - b) in *. replace qi with (b + i) by lia. assert (Hi : 0 <= i < k) by lia.
      rewrite Qrd by auto. cbn [bind]. set (v := at_ 0 Q i) in *. destruct (Qat i Hi) as (Hv & Hv0). fold v in Hv, Hv0. pose proof Hv as (Hv1 & Hv2).
      rewrite rd_ok by lia. cbn [bind]. rewrite rvert_ok, rvend_ok by auto. cbn [bind].
      destruct (colorScan_spec col v Hv I1) as (o & -> & Ho). cbn [bind].
      set (P := firstn (Z.to_nat i) Q) in *.
      assert (FS : firstn (Z.to_nat (b + i + 1 - b)) Q = P ++ [v]) by (replace (b + i + 1 - b) with (i + 1) by lia; apply firstn_snoc; fold k; lia).
      assert (LP : zlen P = i) by (unfold P, zlen; rewrite firstn_length; unfold k, zlen in Hi; lia).
      assert (Pin : forall w, In w P -> w < v /\ In w Q).
      { intros w Hw. apply (In_at 0) in Hw as (j & Hj & <-). unfold P at 1 2. rewrite LP in Hj. rewrite at_firstn by lia. split; [apply Qinc; fold k; lia | apply at_In; fold k; lia]. }
      assert (Hvcol : at_ b col v = at_ b col0 v) by (destruct (I3 v Hv) as [?|(_ & Hin)]; [auto|]; apply Pin in Hin; lia).
      pose proof (filter_zlen_le (unc col) P) as LF. pose proof (zlen_nonneg (filter (unc col) P)) as LF0.
      destruct o.
      + rewrite wr_ok by lia. cbn [bind wp]. unfold I. rewrite FS.
        assert (Au : forall w, isvert g w -> at_ b (upd b col v cn) w = if v =? w then cn else at_ b col w) by (intros w (W1 & W2); apply at_upd; lia).
        assert (Fe : filter (unc (upd b col v cn)) (P ++ [v]) = filter (unc col) P).
        { rewrite filter_app. cbn [filter]. unfold unc at 2. rewrite Au, Z.eqb_refl by auto. replace (cn <? 0) with false by lia. rewrite app_nil_r.
          apply filter_ext_in. intros w Hw. destruct (Pin w Hw) as (Hlt & HwQ). apply Qin in HwQ as (Hw' & _). unfold unc. rewrite Au by auto. now replace (v =? w) with false by lia. }
        rewrite Fe. split; [now rewrite zlen_upd|]. split; [auto|]. split; [|split; [auto|split; [auto|split; [|split; [|split]]]]].
        * intros w Hw. rewrite Au by auto. destruct (Z.eqb_spec v w) as [<-|Hne']; [right; split; [auto|apply in_or_app; right; now left]|]. destruct (I3 w Hw) as [?|(? & ?)]; [auto|right; split; [auto|apply in_or_app; auto]].
        * intros j Hj. apply I6. lia.
        * intros x y Hx Hlt Hadj. destruct Hadj as (e & A & <-). pose proof (gv_end g V x e A) as Hy. set (y := edge g e) in *. rewrite !Au by auto.
          assert (Hadj : adjacent g x y) by (exists e; auto).
          destruct (Z.eqb_spec v x) as [<-|Nx], (Z.eqb_spec v y) as [Ey|Ny]; try lia.
          -- (* v has just been coloured, a later neighbour already has the colour: impossible *)
             intros _ E. destruct (I3 y Hy) as [E'|(_ & Hin)]; [|apply Pin in Hin; lia]. specialize (Rc y Hy). lia.
          -- intros H1 H2. assert (unc col y = true) by (unfold unc; rewrite <- Ey, Hvcol; lia). specialize (I8 x y Hx ltac:(lia) Hadj H). unfold before in I8. lia.
          -- intros. apply I7; auto.
        * intros x w Hx. rewrite Au by auto. intros Hcx Hadj. assert (Hw : isvert g w) by (destruct Hadj as (e & A & <-); eapply gv_end; eauto). unfold unc. rewrite Au by auto.
          destruct (Z.eqb_spec v w) as [<-|Nw]; [lia|]. intros Hu. destruct (Z.eqb_spec v x) as [<-|Nx]; [apply Ho; auto | apply I8; auto].
        * intros x Hx Hmax. apply in_app_or in Hx as [Hx|[<-|[]]]; [|rewrite Au by auto; now rewrite Z.eqb_refl].
          pose proof (Pin x Hx) as (Hlt & HxQ). apply Qin in HxQ as (Hx' & _). rewrite Au by auto. replace (v =? x) with false by lia. apply I9; auto.
      + rewrite wr_ok by lia. cbn [bind wp]. unfold I. rewrite FS.
        assert (Fe : filter (unc col) (P ++ [v]) = filter (unc col) P ++ [v]) by (rewrite filter_app; cbn [filter]; unfold unc at 2; rewrite Hvcol; now replace (at_ b col0 v <? 0) with true by lia).
        rewrite Fe. split; [auto|]. split; [now rewrite zlen_upd|]. split; [|split; [rewrite zlen_snoc; lia|split; [|split; [|split; [auto|split; [auto|]]]]]].
        * intros w Hw. destruct (I3 w Hw) as [?|(? & ?)]; [auto|right; split; [auto|apply in_or_app; auto]].
        * rewrite <- I5. replace (qn + 1 - b) with (qn - b + 1) by lia. rewrite firstn_snoc by (rewrite zlen_upd; lia). f_equal.
          -- apply (at_ext 0); [rewrite !zlen_firstn; rewrite ?zlen_upd; lia|]. intros j Hj.
             assert (Hj' : 0 <= j < qn - b) by (unfold zlen in Hj; rewrite firstn_length in Hj; lia). rewrite !at_firstn by lia. rewrite (at_rebase b 0). rewrite at_upd_other by lia. rewrite (at_rebase 0 b). f_equal. lia.
          -- f_equal. rewrite (at_rebase b 0). replace (qn - b - 0 + b) with qn by lia. rewrite at_upd_same by lia. reflexivity.
        * intros j Hj. rewrite (at_rebase b 0). rewrite at_upd_other by lia. rewrite (at_rebase 0 b). replace (j - 0 + b - b + 0) with j by lia. apply I6. lia.
        * intros x Hx Hmax. apply in_app_or in Hx as [Hx|[<-|[]]]; [apply I9; auto|]. exfalso. assert (false = true); [|discriminate]. apply Ho. intros w Hadj Hu. apply Hmax. apply Qin.
          assert (Hw : isvert g w) by (destruct Hadj as (e & A & <-); eapply gv_end; eauto). split; [auto|]. unfold unc in Hu. destruct (I3 w Hw) as [E|(E & _)]; lia. }
  unfold I in HI. destruct HI as (I1 & I2 & I3 & I4 & I5 & I6 & I7 & I8 & I9). replace (b + k - b) with k in * by lia.
  assert (FQ : firstn (Z.to_nat k) Q = Q) by apply firstn_zlen. rewrite FQ in *.
  assert (UF : U col = filter (unc col) Q).
  { unfold Q, U. symmetry. apply filter_filter_sub. intros v Hv%In_zseq. unfold unc. assert (Hv' : isvert g v) by (split; lia). destruct (I3 v Hv') as [->|(E & _)]; lia. }
  exists col, que. rewrite UF. subst qn. split; [reflexivity|].
  destruct (before_max Q Hne) as (v & HvQ & Hmax). pose proof (I9 v HvQ Hmax) as Hcv. pose proof (proj1 (Qin v) HvQ) as (Hv & Hv0).
  split; [split; [auto|]|].
  { intros w Hw. destruct (I3 w Hw) as [->|(-> & _)]; [specialize (Rc w Hw)|]; lia. }
  split; [auto|]. split.
  { intros c Hc. destruct (Z.eq_dec c cn) as [->|]; [eauto|]. destruct (HU c ltac:(lia)) as (w & Hw & E). exists w. split; [auto|]. destruct (I3 w Hw) as [->|(_ & Hin)]; [auto|]. apply Qin in Hin. lia. }
  split; [auto|]. split.
  { replace (b + zlen (filter (unc col) Q) - b) with (zlen (filter (unc col) Q)) in I5 by lia. exact I5. }
  apply filter_zlen_lt with (x := v); auto. unfold unc. lia.
Qed.

Theorem colorLoop_spec que0 : zlen que0 = n ->
  exists col cn, colorLoop g rnd que0 = Ok (col, cn) /\ colours g col cn /\ cn <= n /\ clash col.
Proof.
  intros Lq. pose proof (gv_size g V) as Hn. pose proof (gv_nnd g V) as Hnnd. unfold colorLoop.
  match goal with |- exists _ _, ?r = _ /\ _ => destruct (wp_ok_inv r (fun '(col, cn) => colours g col cn /\ cn <= n /\ clash col)) as ((col & cn) & -> & H) end; [|eauto].
  apply wp_loop with (I := fun '(col, que, qn, cn) => inrange col cn /\ 0 <= cn /\ cn + zlen (U col) <= n /\ clash col /\ used col cn /\ zlen que = n /\ qn = b + zlen (U col) /\
      (zlen (U col) = n \/ firstn (Z.to_nat (zlen (U col))) que = U col)) (m := fun '(col, que, qn, cn) => zlen (U col)).
  - assert (A : forall v, isvert g v -> at_ b (repeat (-1) (Z.to_nat n)) v = -1) by (intros v (H1 & H2); apply at_repeat; lia).
    assert (EU : U (repeat (-1) (Z.to_nat n)) = zseq b n).
    { unfold U. transitivity (filter (fun _ => true) (zseq b n)); [|clear; induction (zseq b n) as [|x l IH]; cbn [filter]; congruence].
      apply filter_ext_in. intros v Hv%In_zseq. unfold unc. rewrite A; [reflexivity | split; lia]. }
    rewrite EU, zlen_zseq by lia. split; [split; [rewrite zlen_repeat; lia | intros v Hv; rewrite A by auto; lia]|]. split; [lia|]. split; [lia|]. split; [intros v w Hv _ _; rewrite A by auto; lia|]. split; [intros c; lia|]. split; [auto|]. split; [lia|auto].
  - assert (zlen (U (repeat (-1) (Z.to_nat n))) <= n) by (unfold U; pose proof (filter_zlen_le (unc (repeat (-1) (Z.to_nat n))) (zseq b n)); rewrite zlen_zseq in *; lia). pose proof (zlen_nonneg (U (repeat (-1) (Z.to_nat n)))). lia.
  - intros (((col & que) & qn) & cn) (I1 & I2 & I3 & I4 & I5 & I6 & -> & I8). destruct (Z.ltb_spec b (b + zlen (U col))) as [Hlt|Hge].
    + destruct (colorPass_spec cn col que) as (col' & que' & -> & J1 & J2 & J3 & J4 & J5 & J6); auto; [intros E; rewrite E, zlen_nil in Hlt; lia|]. cbn [bind wp].
      pose proof (zlen_nonneg (U col')). split; [|lia]. split; [auto|]. split; [lia|]. split; [lia|]. split; [auto|]. split; [auto|]. split; [auto|]. split; auto.
    + cbn [wp]. destruct I1 as (L1 & L2). pose proof (zlen_nonneg (U col)). assert (E : U col = []) by (destruct (U col) as [|x l] eqn:E; [auto|]; rewrite zlen_cons in *; pose proof (zlen_nonneg l); lia).
      split; [|split; [lia|auto]]. split; [auto|]. split; [|auto]. intros v Hv. specialize (L2 v Hv). split; [|lia]. destruct (Z.le_gt_cases 0 (at_ b col v)) as [?|Hneg]; [auto|].
      assert (Hin : In v (U col)) by (unfold U; apply filter_In; rewrite In_zseq; unfold unc; destruct Hv; lia). rewrite E in Hin. destruct Hin.
Qed.
End Color.

Lemma colorRand_spec w r g : 0 <= w -> 0 <= vertnbr g -> exists rnd r', colorRand w r g = Ok (rnd, r') /\ zlen rnd = vertnbr g /\ Forall (fun x => 0 <= x < 32768) rnd.
Proof.
  intros Hw Hn. unfold colorRand. match goal with |- exists _ _, ?c = _ /\ _ => destruct (wp_ok_inv c (fun '(rnd, r') => zlen rnd = vertnbr g /\ Forall (fun x => 0 <= x < 32768) rnd)) as ((rnd & r') & -> & H) end; [|eauto].
  apply wp_for with (I := fun v '(rnd, r') => zlen rnd = v - baseval g /\ Forall (fun x => 0 <= x < 32768) rnd).
  - lia.
  - split; [rewrite zlen_nil; lia | constructor].
  - intros v (rnd & r1) Hv (H1 & H2). destruct (intRandVal_spec w r1 32768 Hw ltac:(lia)) as (x & E & Hx). rewrite E. cbn [bind wp]. rewrite zlen_snoc. split; [lia|]. apply Forall_app. auto.
  - intros (rnd & r1) (H1 & H2). split; [lia|auto].
Qed.

Theorem graphColor_spec w r g que0 : 0 <= w -> graph_valid g -> graph_readable g -> zlen que0 = vertnbr g ->
  exists rnd r' col cn, colorRand w r g = Ok (rnd, r') /\ graphColor w r g que0 = Ok (col, cn, r') /\ colours g col cn /\ cn <= vertnbr g /\
    (forall v w, adjacent g v w -> at_ (baseval g) col v = at_ (baseval g) col w -> v < w -> at_ (baseval g) rnd w < at_ (baseval g) rnd v).
Proof.
  intros Hw V R Lq. destruct (colorRand_spec w r g Hw (gv_size g V)) as (rnd & r' & E & L & _). destruct (colorLoop_spec g V R rnd L que0 Lq) as (col & cn & E2 & HC & Hcn & HX).
  exists rnd, r', col, cn. split; [auto|]. unfold graphColor. rewrite E. cbn [bind]. rewrite E2. cbn [bind]. split; [auto|]. split; [auto|]. split; [auto|].
  intros v x Hadj Heq Hlt. assert (Hv : isvert g v) by (destruct Hadj as (e & (A & _) & _); auto). apply HX; auto. destruct HC as (_ & HC & _). specialize (HC v Hv). lia.
Qed.
