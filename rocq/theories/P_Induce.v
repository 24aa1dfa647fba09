(** Proofs about induced subgraphs. *)
From Verif Require Import Base M_Graph S_Graph P_Graph P_GraphList M_Induce S_Induce.

(** ** posn *)
Lemma posn_some l w k : posn l w = Some k -> 0 <= k < zlen l /\ at_ 0 l k = w.
Proof.
  revert k; induction l as [|x l IH]; cbn [posn]; [discriminate|]. intros k.
  rewrite zlen_cons. pose proof (zlen_nonneg l).
  destruct (Z.eqb_spec x w).
  - intros [= <-]. split; [lia|]. now rewrite at_cons_0.
  - destruct (posn l w); [|discriminate]. intros [= <-]. destruct (IH z eq_refl). split; [lia|].
    rewrite at_cons_S by lia. now replace (z + 1 - 1) with z by lia.
Qed.
Lemma posn_none l w : posn l w = None <-> ~ In w l.
Proof.
  induction l as [|x l IH]; cbn [posn In]; [tauto|].
  destruct (Z.eqb_spec x w); [split; [discriminate|intros H; exfalso; apply H; auto]|].
  destruct (posn l w); split; try discriminate.
  - intros H. exfalso. assert (~ In w l) by tauto. apply IH in H0. discriminate.
  - intros _. assert (~ In w l) by (apply IH; auto). tauto.
  - auto.
Qed.
Lemma posn_at l k : NoDup l -> 0 <= k < zlen l -> posn l (at_ 0 l k) = Some k.
Proof.
  intros ND Hk. destruct (posn l (at_ 0 l k)) as [j|] eqn:E.
  - apply posn_some in E as [Hj E]. f_equal. apply (proj2 (NoDup_at 0 l) ND); auto; lia.
  - exfalso. apply posn_none in E. apply E. apply at_In. lia.
Qed.

(** ** Concatenation of indexed lists *)
Definition cat {A} (L : Z -> list A) (n : Z) : list A := flat_map L (zseq 0 n).

Lemma cat_0 {A} (L : Z -> list A) : cat L 0 = []. Proof. reflexivity. Qed.
Lemma cat_S {A} (L : Z -> list A) n : 0 <= n -> cat L (n + 1) = cat L n ++ L n.
Proof.
  intros. unfold cat. rewrite zseq_snoc by auto. rewrite flat_map_app. cbn [flat_map]. now rewrite app_nil_r.
Qed.
Lemma zlen_cat {A} (L : Z -> list A) n : 0 <= n -> zlen (cat L n) = offs L n.
Proof.
  revert n. apply zrange_ind; [reflexivity|]. intros n Hn IH. rewrite cat_S, zlen_app, offs_S by auto. lia.
Qed.
Lemma at_cat {A} `{Dflt A} (L : Z -> list A) n i k : 0 <= i < n -> 0 <= k < zlen (L i) ->
  at_ 0 (cat L n) (offs L i + k) = at_ 0 (L i) k.
Proof.
  intros Hi Hk.
  assert (G : forall m, i + 1 <= m -> at_ 0 (cat L m) (offs L i + k) = at_ 0 (L i) k); [|apply G; lia].
  pose proof (offs_mono L 0 i ltac:(lia)) as Hm. rewrite offs_0 in Hm.
  apply zrange_ind.
  - rewrite cat_S by lia. rewrite at_app2 by (rewrite zlen_cat; lia). rewrite zlen_cat by lia. f_equal. lia.
  - intros m Hm' IH. rewrite cat_S by lia. rewrite at_app1; auto.
    pose proof (offs_mono L (i + 1) m ltac:(lia)). rewrite offs_S in * by lia. rewrite zlen_cat by lia. lia.
Qed.

Lemma zlen_flat_map_le {A B} (f : A -> list B) l : (forall x, zlen (f x) <= 1) -> zlen (flat_map f l) <= zlen l.
Proof.
  intros Hf. induction l; cbn [flat_map]; [change (0 <= 0); lia|]. rewrite zlen_app, zlen_cons. specialize (Hf a). lia.
Qed.

Lemma restrict_len b l nb : zlen (restrict b l nb) <= zlen nb.
Proof. apply zlen_flat_map_le. intros [w ld]. destruct (posn l w); rewrite ?zlen_cons, zlen_nil; lia. Qed.

(** ** Counting: kept arcs are an even number, and bounded *)

Lemma restrict_count b l g v : graph_valid g -> isvert g v -> NoDup l -> (forall w, In w l -> isvert g w) ->
  zlen (restrict b l (nbr g v)) = zsum 0 (zlen l) (fun j => mult g v (at_ 0 l j)).
Proof.
  intros V Hv ND HL. unfold restrict, nbr, mult, zcount.
  rewrite (zsum_swap 0 (zlen l)).
  pose proof (gv_range g V v Hv) as Hr.
  set (hi := vend g v) in *. assert (Hle : vert g v <= hi) by lia. clearbody hi. clear Hr. revert hi Hle.
  apply zrange_ind.
  - rewrite Z.sub_diag. rewrite zsum_nil by lia. reflexivity.
  - intros hi Hle IH. replace (hi + 1 - vert g v) with (hi - vert g v + 1) by lia.
    rewrite zseq_snoc by lia. rewrite map_app, flat_map_app, zlen_app, IH. rewrite zsum_snoc by lia. f_equal.
    cbn [map flat_map]. rewrite app_nil_r. replace (vert g v + (hi - vert g v)) with hi by lia.
    destruct (posn l (edge g hi)) as [k|] eqn:E.
    + apply posn_some in E as [Hk E]. rewrite (zsum_single _ _ _ k); auto.
      * rewrite E, Z.eqb_refl; reflexivity.
      * intros i Hi Hne. destruct (Z.eqb_spec (edge g hi) (at_ 0 l i)); auto. exfalso. apply Hne.
        apply (proj2 (NoDup_at 0 l) ND); lia.
    + apply posn_none in E. rewrite zsum_zero; auto. intros i Hi.
      destruct (Z.eqb_spec (edge g hi) (at_ 0 l i)) as [Eq|]; auto. exfalso. apply E. rewrite Eq. apply at_In. lia.
Qed.

Lemma kept_even b l g : graph_valid g -> NoDup l -> (forall w, In w l -> isvert g w) ->
  Z.even (offs (fun i => restrict b l (nbr g (at_ 0 l i))) (zlen l)) = true.
Proof.
  intros V ND HL. unfold offs.
  set (c := fun i j => if (0 <=? i) && (i <? zlen l) && (0 <=? j) && (j <? zlen l) then mult g (at_ 0 l i) (at_ 0 l j) else 0).
  assert (Iv : forall i, 0 <= i < zlen l -> isvert g (at_ 0 l i)) by (intros; apply HL, at_In; lia).
  rewrite (zsum_ext _ _ _ (fun i => zsum 0 (zlen l) (fun j => c i j))).
  - apply sym_even; [| |apply zlen_nonneg].
    + intros i. unfold c. destruct (_ && _) eqn:E; auto.
      destruct (mult_01 g (at_ 0 l i) (at_ 0 l i) V) as [(E1 & e & A & Ee)|(E1 & N1)]; auto; [apply Iv; lia|].
      exfalso. eapply gv_loop; eauto.
    + intros i j. unfold c.
      destruct ((0 <=? i) && (i <? zlen l) && (0 <=? j) && (j <? zlen l)) eqn:E.
      * replace ((0 <=? j) && (j <? zlen l) && (0 <=? i) && (i <? zlen l)) with true by lia.
        apply mult_sym; auto; apply Iv; lia.
      * now replace ((0 <=? j) && (j <? zlen l) && (0 <=? i) && (i <? zlen l)) with false by lia.
  - intros i Hi. rewrite restrict_count by auto. apply zsum_ext. intros j Hj. unfold c.
    now replace ((0 <=? i) && (i <? zlen l) && (0 <=? j) && (j <? zlen l)) with true by lia.
Qed.

(** sum over a duplicate-free selection is at most the whole sum *)
Lemma zsum_select lo hi f l : NoDup l -> (forall x, In x l -> lo <= x < hi) -> (forall i, lo <= i < hi -> 0 <= f i) ->
  lsum f l <= zsum lo hi f.
Proof.
  intros ND. revert f. induction ND as [|x l Hx ND IH]; intros f HI Hf.
  - cbn. now apply zsum_nonneg.
  - rewrite lsum_cons. assert (Hxr : lo <= x < hi) by (apply HI; left; auto).
    set (f' := fun i => if i =? x then 0 else f i).
    assert (E : lsum f l = lsum f' l).
    { clear IH ND HI. induction l as [|y l IHl]; auto. rewrite !lsum_cons. unfold f' at 1.
      destruct (Z.eqb_spec y x); [subst; destruct Hx; left; auto|]. f_equal. apply IHl. intros H; apply Hx; right; auto. }
    rewrite (zsum_upd lo hi f' f x) by (auto; intros i _ Hne; unfold f'; now replace (i =? x) with false by lia).
    unfold f' at 2. rewrite Z.eqb_refl. rewrite E.
    specialize (IH f' ltac:(intros y Hy; apply HI; right; auto) ltac:(intros i Hi; unfold f'; destruct (i =? x); auto; lia)). lia.
Qed.

Definition degsum (g : graph) (l : list Z) : Z := lsum (fun v => vend g v - vert g v) l.

Lemma degsum_cap g l : graph_valid g -> NoDup l -> (forall w, In w l -> isvert g w) ->
  induceCap g (zlen l) = (match edlotab g with Some _ => 2 | None => 1 end) * (let m := if (0 <? degrmax g) && (zlen l <? Z.quot (edgenbr g) (degrmax g))
           then zlen l * degrmax g else edgenbr g in m) /\
  degsum g l <= (if (0 <? degrmax g) && (zlen l <? Z.quot (edgenbr g) (degrmax g))
           then zlen l * degrmax g else edgenbr g).
Proof.
  intros V ND HL. split; [unfold induceCap; destruct (edlotab g); lia|].
  destruct (_ && _).
  - clear ND. unfold degsum. induction l as [|x l IH]; [cbn; lia|]. rewrite lsum_cons, zlen_cons.
    pose proof (gv_degr g V x (HL x (or_introl eq_refl))). specialize (IH ltac:(intros; apply HL; right; auto)). nia.
  - rewrite (gv_edgenbr g V). apply (zsum_select (baseval g) (vertnnd g) (fun v => vend g v - vert g v)); auto.
    intros i Hi. pose proof (gv_range g V i Hi). lia.
Qed.

Lemma kept_le_degsum b l g : graph_valid g -> (forall w, In w l -> isvert g w) ->
  offs (fun i => restrict b l (nbr g (at_ 0 l i))) (zlen l) <= degsum g l.
Proof.
  intros V HL. unfold degsum, offs. rewrite lsum_zsum. apply zsum_le. intros i Hi.
  rewrite <- zlen_nbr. apply restrict_len.
  assert (isvert g (at_ 0 l i)) by (apply HL, at_In; lia). pose proof (gv_range g V _ H). lia.
Qed.

(** ** The main loop *)

Lemma ralign_spec al x : 1 <= al <= 2 -> 0 <= x -> x <= ralign al x /\ ralign al x <= x + al - 1 /\ (al = 2 -> Z.even (ralign al x) = true).
Proof.
  intros Hal Hx. unfold ralign. assert (al = 1 \/ al = 2) as [->| ->] by lia.
  - rewrite Z.mul_1_r, Z.div_1_r. split; [lia|]. split; [lia|discriminate].
  - pose proof (Z.div_mod (x + 2 - 1) 2 ltac:(lia)). pose proof (Z.mod_pos_bound (x + 2 - 1) 2 ltac:(lia)).
    split; [lia|]. split; [lia|]. intros _. rewrite Z.even_mul. apply orb_true_r.
Qed.

Section Main.
Context (g : graph) (V : graph_valid g) (R : graph_readable g) (l : list Z) (ND : NoDup l)
  (HL : forall w, In w l -> isvert g w) (B0 : 0 <= baseval g) (al : Z) (Hal : 1 <= al <= 2).

Notation b := (baseval g).
Notation n := (zlen l).
Notation idxoff := (ralign al (induceCap g (zlen l))).
Notation off := (ralign al (degsum g l)).
Notation haslo := (match edlotab g with Some _ => true | None => false end).

Definition ix (w : Z) : Z := match posn l w with Some k => b + k | None => -1 end.
Definition Lst (i : Z) : list (Z * Z) := restrict b l (nbr g (at_ 0 l i)).
Definition K : Z := offs Lst n.

Lemma K_bounds : 0 <= K /\ K <= degsum g l /\ K <= idxoff /\ 0 <= degsum g l /\ 0 <= idxoff /\
  (haslo = true -> K <= off /\ off + K <= idxoff).
Proof.
  assert (K0 : 0 <= K). { unfold K. pose proof (offs_mono Lst 0 n). rewrite offs_0 in *. pose proof (zlen_nonneg l). lia. }
  assert (K1 : K <= degsum g l) by (apply kept_le_degsum; auto).
  destruct (degsum_cap g l V ND HL) as [E C]. cbv zeta in E.
  assert (Kev : Z.even K = true) by (apply kept_even; auto).
  set (m := if (0 <? degrmax g) && (n <? Z.quot (edgenbr g) (degrmax g)) then n * degrmax g else edgenbr g) in *.
  assert (Cp : 0 <= induceCap g n) by (rewrite E; destruct (edlotab g); lia).
  destruct (ralign_spec al _ Hal Cp) as (A1 & A2 & A3).
  destruct (ralign_spec al (degsum g l) Hal ltac:(lia)) as (D1 & D2 & D3).
  split; [auto|]. split; [auto|]. split; [destruct (edlotab g); lia|]. split; [lia|]. split; [lia|].
  intros Hlo. destruct (edlotab g); [|discriminate]. split; [lia|].
  assert (al = 1 \/ al = 2) as [Ha|Ha] by lia; [lia|].
  specialize (D3 Ha). apply Z.even_spec in D3 as [d D3], Kev as [k Kk]. lia.
Qed.

Definition blkOk (blk : list Z) (AL : list (Z * Z)) : Prop :=
  zlen blk = idxoff + vertnbr g /\
  (forall p, 0 <= p < zlen AL -> at_ 0 blk p = fst (at_ 0 AL p)) /\
  (haslo = true -> forall p, 0 <= p < zlen AL -> at_ 0 blk (off + p) = snd (at_ 0 AL p)) /\
  (forall w, isvert g w -> at_ 0 blk (idxoff + (w - b)) = ix w).

Lemma ix_neg w : isvert g w -> (ix w =? -1) = match posn l w with Some _ => false | None => true end.
Proof.
  intros _. unfold ix. destruct (posn l w) eqn:E; auto. apply posn_some in E as [E _]. lia.
Qed.

Lemma induceArc_spec v e blk es AL : arc g v e -> blkOk blk AL ->
  zlen AL + zlen (restrict b l [(edge g e, edlo g e)]) <= K ->
  wp (induceArc g idxoff (if haslo then Some off else None) e (blk, es, b + zlen AL))
     (fun '(blk', es', en') => exists P, P = restrict b l [(edge g e, edlo g e)] /\
        blkOk blk' (AL ++ P) /\ en' = b + zlen (AL ++ P) /\
        es' = es + (if haslo then lsum snd P else 0)) noerr.
Proof.
  intros A (L1 & Ed & Lo & Ix) HK. unfold induceArc.
  destruct K_bounds as (K0 & K1 & K2 & K3 & K4 & K5).
  pose proof (gv_end g V v e A) as Hw.
  pose proof (gv_nnd g V) as Hnd. pose proof (zlen_nonneg AL) as HAL.
  assert (Hw' : 0 <= edge g e - b < vertnbr g) by (destruct Hw; lia).
  rewrite (redge_ok g v e R A). cbn [bind].
  rewrite rd_ok by lia. cbn [bind].
  assert (Rx : at_ (b - idxoff) blk (edge g e) = ix (edge g e)).
  { rewrite (at_rebase 0). rewrite <- (Ix _ Hw). f_equal. lia. }
  rewrite Rx, (ix_neg _ Hw).
  cbn [restrict flat_map] in *. unfold restrict in *. cbn [flat_map] in *.
  destruct (posn l (edge g e)) as [k|] eqn:Ep.
  2:{ cbn [wp]. exists []. split; auto. rewrite app_nil_r. split; [|split; [auto|destruct (edlotab g); cbn; lia]].
      split; auto. }
  cbn [app] in HK. rewrite zlen_cons, zlen_nil in HK.
  assert (Ek : ix (edge g e) = b + k) by (unfold ix; now rewrite Ep).
  destruct (edlotab g) as [t|] eqn:Et.
  - specialize (K5 eq_refl). destruct K5 as [K5 K6].
    rewrite rd_ok by (eapply gr_edlo; eauto). cbn [bind].
    rewrite wr_ok by lia. cbn [bind].
    set (ld := at_ b t e). set (blk1 := upd (b - off) blk (b + zlen AL) ld).
    assert (U1 : forall p, 0 <= p -> at_ 0 blk1 p = if off + zlen AL =? p then ld else at_ 0 blk p).
    { intros p Hp. rewrite (at_rebase (b - off) 0). unfold blk1.
      destruct (Z_le_dec (b - off) (p - 0 + (b - off))); [|lia].
      rewrite at_upd by lia. rewrite <- (at_rebase (b - off) 0).
      destruct (Z.eqb_spec (b + zlen AL) (p - 0 + (b - off))), (Z.eqb_spec (off + zlen AL) p); auto; lia. }
    assert (L2 : zlen blk1 = idxoff + vertnbr g) by (unfold blk1; now rewrite zlen_upd).
    rewrite rd_ok by lia. cbn [bind].
    assert (Rx2 : at_ (b - idxoff) blk1 (edge g e) = b + k).
    { rewrite (at_rebase 0). rewrite U1 by lia. replace (off + zlen AL =? edge g e - (b - idxoff) + 0) with false by lia.
      rewrite <- Ek, <- (Ix _ Hw). f_equal. lia. }
    rewrite Rx2. rewrite wr_ok by lia. cbn [bind wp].
    exists [(b + k, edlo g e)]. split; auto.
    assert (Eld : edlo g e = ld) by (unfold edlo; now rewrite Et).
    assert (U2 : forall p, 0 <= p -> at_ 0 (upd b blk1 (b + zlen AL) (b + k)) p = if zlen AL =? p then b + k else at_ 0 blk1 p).
    { intros p Hp. rewrite (at_rebase b 0). rewrite at_upd by lia. rewrite <- (at_rebase b 0).
      destruct (Z.eqb_spec (b + zlen AL) (p - 0 + b)), (Z.eqb_spec (zlen AL) p); auto; lia. }
    split; [|split].
    + split; [now rewrite zlen_upd|]. rewrite Et. split; [|split].
      * intros p. rewrite zlen_snoc. intros Hp. rewrite U2 by lia.
        destruct (Z.eqb_spec (zlen AL) p) as [<-|].
        -- rewrite at_app2 by lia. rewrite Z.sub_diag. reflexivity.
        -- rewrite at_app1 by lia. rewrite U1 by lia. replace (off + zlen AL =? p) with false by lia. apply Ed. lia.
      * intros _ p. rewrite zlen_snoc. intros Hp. rewrite U2 by lia.
        replace (zlen AL =? off + p) with false by lia. rewrite U1 by lia.
        destruct (Z.eqb_spec (off + zlen AL) (off + p)) as [E|].
        -- assert (p = zlen AL) as -> by lia. rewrite at_app2 by lia. rewrite Z.sub_diag. now rewrite Eld.
        -- rewrite at_app1 by lia. apply Lo; auto. lia.
      * intros w Hw2. assert (0 <= w - b) by (destruct Hw2; lia). rewrite U2 by lia. replace (zlen AL =? idxoff + (w - b)) with false by lia.
        rewrite U1 by lia. replace (off + zlen AL =? idxoff + (w - b)) with false by lia. apply Ix; auto.
    + rewrite zlen_snoc. lia.
    + rewrite lsum_cons. cbn [snd lsum fold_right]. lia.
  - cbn [bind]. rewrite rd_ok by lia. cbn [bind]. rewrite Rx, Ek. rewrite wr_ok by lia. cbn [bind wp].
    exists [(b + k, edlo g e)]. split; auto.
    assert (U2 : forall p, 0 <= p -> at_ 0 (upd b blk (b + zlen AL) (b + k)) p = if zlen AL =? p then b + k else at_ 0 blk p).
    { intros p Hp. rewrite (at_rebase b 0). rewrite at_upd by lia. rewrite <- (at_rebase b 0).
      destruct (Z.eqb_spec (b + zlen AL) (p - 0 + b)), (Z.eqb_spec (zlen AL) p); auto; lia. }
    split; [|split].
    + split; [now rewrite zlen_upd|]. rewrite Et. split; [|split].
      * intros p. rewrite zlen_snoc. intros Hp. rewrite U2 by lia.
        destruct (Z.eqb_spec (zlen AL) p) as [<-|].
        -- rewrite at_app2 by lia. rewrite Z.sub_diag. reflexivity.
        -- rewrite at_app1 by lia. apply Ed. lia.
      * discriminate.
      * intros w Hw2. assert (0 <= w - b) by (destruct Hw2; lia). rewrite U2 by lia. replace (zlen AL =? idxoff + (w - b)) with false by lia.
        apply Ix; auto.
    + rewrite zlen_snoc. lia.
    + lia.
Qed.

Lemma nbr_snoc v e : vert g v <= e -> 
  map (fun e => (edge g e, edlo g e)) (zseq (vert g v) (e + 1 - vert g v)) =
  map (fun e => (edge g e, edlo g e)) (zseq (vert g v) (e - vert g v)) ++ [(edge g e, edlo g e)].
Proof.
  intros. replace (e + 1 - vert g v) with (e - vert g v + 1) by lia. rewrite zseq_snoc by lia.
  rewrite map_app. cbn [map]. now replace (vert g v + (e - vert g v)) with e by lia.
Qed.

Lemma restrict_app nb nb' : restrict b l (nb ++ nb') = restrict b l nb ++ restrict b l nb'.
Proof. apply flat_map_app. Qed.

Lemma induceArcs_spec i blk es : 0 <= i < n -> blkOk blk (cat Lst i) ->
  let v := at_ 0 l i in
  wp (for_ (vert g v) (vend g v) (induceArc g idxoff (if haslo then Some off else None)) (blk, es, b + zlen (cat Lst i)))
     (fun '(blk', es', en') => blkOk blk' (cat Lst (i + 1)) /\ en' = b + zlen (cat Lst (i + 1)) /\
        es' = es + (if haslo then lsum snd (Lst i) else 0)) noerr.
Proof.
  intros Hi HB v. assert (Hv : isvert g v) by (apply HL, at_In; lia).
  pose proof (gv_range g V v Hv) as Hr.
  apply wp_for with (I := fun e '(blk', es', en') =>
     let P := restrict b l (map (fun e => (edge g e, edlo g e)) (zseq (vert g v) (e - vert g v))) in
     blkOk blk' (cat Lst i ++ P) /\ en' = b + zlen (cat Lst i ++ P) /\ es' = es + (if haslo then lsum snd P else 0)); [lia| | |].
  - cbv zeta. rewrite Z.sub_diag. cbn [zseq Z.to_nat seq map restrict flat_map]. rewrite app_nil_r.
    split; auto. split; auto. destruct (edlotab g); cbn; lia.
  - intros e [[blk1 es1] en1] He. cbv zeta. intros (H1 & -> & ->).
    set (P := restrict b l (map (fun e => (edge g e, edlo g e)) (zseq (vert g v) (e - vert g v)))) in *.
    eapply wp_mono; [apply (induceArc_spec v e); auto; [split; auto|]|].
    + rewrite zlen_app. 
      assert (E : zlen (Lst i) >= zlen P + zlen (restrict b l [(edge g e, edlo g e)])).
      { unfold Lst, nbr. fold v. replace (vend g v - vert g v) with ((e + 1 - vert g v) + (vend g v - (e + 1))) by lia.
        rewrite zseq_app by lia. rewrite map_app, restrict_app, zlen_app. rewrite nbr_snoc by lia. rewrite restrict_app, zlen_app.
        fold P. pose proof (zlen_nonneg (restrict b l (map (fun e => (edge g e, edlo g e)) (zseq (vert g v + (e + 1 - vert g v)) (vend g v - (e + 1)))))). lia. }
      rewrite zlen_cat by lia. unfold K. pose proof (offs_mono Lst (i + 1) n ltac:(lia)). rewrite offs_S in * by lia. lia.
    + intros [[blk2 es2] en2] (P2 & -> & H2 & -> & ->). rewrite nbr_snoc by lia. rewrite restrict_app. fold P.
      rewrite app_assoc. split; auto. split; auto. rewrite lsum_app. destruct (edlotab g); lia.
  - intros [[blk1 es1] en1]. cbv zeta. rewrite cat_S by lia. intros H; exact H.
Qed.

(** ** graphInduce3 *)

Lemma induce3_spec jk blk : (forall t, vnumtab g = Some t -> vertnbr g <= zlen t) -> blkOk blk [] ->
  wp (graphInduce3 jk al g idxoff l blk n (degsum g l))
     (fun h => induced g l h /\ graph_valid h /\ graph_readable h) noerr.
Proof.
  intros HVn HB. unfold graphInduce3.
  pose proof (gv_nnd g V) as Hnd. pose proof (zlen_nonneg l) as Hn.
  destruct K_bounds as (K0 & K1 & K2 & K3 & K4 & K5).
  replace (match edlotab g with Some _ => Some off | None => None end) with (if haslo then Some off else None)
    by (destruct (edlotab g); reflexivity).
  apply wp_bind.
  eapply wp_mono; [apply wp_for with (I := fun i '(vt, vl, blk, vs, es, en) =>
     zlen vt = n + 1 /\ (forall k, b <= k < i -> at_ b vt k = b + offs Lst (k - b)) /\
     match vl, velotab g with
     | Some t, Some ot => zlen t = n /\ (forall k, b <= k < i -> at_ b t k = velo g (at_ 0 l (k - b)))
     | None, None => True | _, _ => False end /\
     vs = (match velotab g with Some _ => zsum 0 (i - b) (fun k => velo g (at_ 0 l k)) | None => n end) /\
     blkOk blk (cat Lst (i - b)) /\ en = b + zlen (cat Lst (i - b)) /\
     es = (if haslo then zsum 0 (i - b) (fun k => lsum snd (Lst k)) else 0)); [lia| | |]|].
  - rewrite Z.sub_diag, cat_0, !zsum_nil by lia. split; [rewrite zlen_repeat; lia|]. split; [intros; lia|].
    split; [destruct (velotab g); auto; split; [rewrite zlen_repeat; lia|intros; lia]|].
    split; [destruct (velotab g); auto|]. split; [auto|]. rewrite zlen_nil. split; [lia|]. destruct (edlotab g); auto.
  - intros i [[[[[vt vl] blk1] vs] es] en] Hi (L1 & E1 & E2 & -> & HB1 & -> & ->).
    unfold induceVert. rewrite rd_ok by lia. cbn [bind].
    replace (at_ b l i) with (at_ 0 l (i - b)) by (rewrite (at_rebase b 0); f_equal; lia).
    set (v := at_ 0 l (i - b)). assert (Hv : isvert g v) by (apply HL, at_In; lia).
    rewrite wr_ok by lia. cbn [bind].
    set (vt1 := upd b vt i (b + zlen (cat Lst (i - b)))).
    assert (Q1 : zlen vt1 = n + 1 /\ (forall k, b <= k < i + 1 -> at_ b vt1 k = b + offs Lst (k - b))).
    { unfold vt1. rewrite zlen_upd. split; auto. intros k Hk. rewrite at_upd by lia.
      destruct (Z.eqb_spec i k) as [<-|]; [rewrite zlen_cat by lia; auto|]. apply E1; lia. }
    apply wp_bind.
    eapply wp_mono with (Q := fun '(vl1, vs1) => 
      match vl1, velotab g with
       | Some t, Some ot => zlen t = n /\ (forall k, b <= k < i + 1 -> at_ b t k = velo g (at_ 0 l (k - b)))
       | None, None => True | _, _ => False end /\
       vs1 = (match velotab g with Some _ => zsum 0 (i + 1 - b) (fun k => velo g (at_ 0 l k)) | None => n end)).
    { destruct vl as [t|], (velotab g) as [ot|] eqn:Eo; try contradiction.
      - destruct E2 as [L2 E2]. rewrite rd_ok by (pose proof (gr_velo g R ot Eo); destruct Hv; lia). cbn [bind].
        rewrite wr_ok by lia. cbn [bind wp]. rewrite zlen_upd.
        assert (Ev : at_ b ot v = velo g v) by (unfold velo; now rewrite Eo).
        split; [split; auto|].
        + intros k Hk. rewrite at_upd by lia. destruct (Z.eqb_spec i k) as [<-|]; auto. apply E2; lia.
        + replace (i + 1 - b) with (i - b + 1) by lia. rewrite zsum_snoc by lia. rewrite Ev. reflexivity.
      - cbn [wp]. auto. }
    intros [vl1 vs1] (E3 & ->). rewrite rvert_ok, rvend_ok by auto. cbn [bind].
    apply wp_bind. eapply wp_mono; [apply (induceArcs_spec (i - b)); auto; lia|].
    intros [[blk2 es2] en2] (H1 & -> & ->). cbn [wp].
    replace (i + 1 - b) with (i - b + 1) by lia.
    replace (i + 1 - b) with (i - b + 1) in E3 by lia.
    destruct Q1 as [Q1 Q2]. split; auto. split; auto. split; auto.
    split; auto. split; auto. split; auto. rewrite zsum_snoc by lia. destruct (edlotab g); lia.
  - intros s Hs; exact Hs.
  - intros [[[[[vt vl] blk1] vs] es] en] (L1 & E1 & E2 & -> & HB1 & -> & ->).
    replace (b + n - b) with n in * by lia.
    rewrite wr_ok by lia. cbn [bind].
    set (vt1 := upd b vt (b + n) (b + zlen (cat Lst n))).
    assert (Q1 : zlen vt1 = n + 1 /\ (forall k, 0 <= k <= n -> at_ b vt1 (b + k) = b + offs Lst k)).
    { unfold vt1. rewrite zlen_upd. split; auto. intros k Hk. rewrite at_upd by lia.
      destruct (Z.eqb_spec (b + n) (b + k)); [rewrite zlen_cat by lia; f_equal; f_equal; lia|].
      rewrite E1 by lia. f_equal. f_equal. lia. }
    apply wp_bind.
    eapply wp_mono with (Q := fun vn => zlen vn = n /\
       forall i, 0 <= i < n -> at_ 0 vn i = match vnumtab g with Some t => at_ b t (at_ 0 l i) | None => at_ 0 l i end).
    { destruct (vnumtab g) as [t|] eqn:Ev; [|cbn [wp]; auto].
      specialize (HVn t eq_refl).
      apply wp_for with (I := fun i vn => zlen vn = n /\ forall k, 0 <= k < n -> at_ 0 vn k = if b + k <? i then at_ b t (at_ 0 l k) else at_ 0 l k); [lia| | |].
      - split; auto. intros k Hk. now replace (b + k <? b) with false by lia.
      - intros i vn Hi [Lv Ev1]. rewrite rd_ok by lia. cbn [bind].
        assert (Rv : at_ b vn i = at_ 0 l (i - b)).
        { rewrite (at_rebase 0). rewrite Ev1 by lia. replace (b + (i - b + 0) <? i) with false by lia. f_equal. lia. }
        rewrite Rv. assert (Hv : isvert g (at_ 0 l (i - b))) by (apply HL, at_In; lia).
        rewrite rd_ok by (destruct Hv; lia). cbn [bind]. apply wp_wr; [lia|]. rewrite zlen_upd. split; auto.
        intros k Hk. rewrite (at_rebase b 0). rewrite at_upd by lia. rewrite <- (at_rebase b 0).
        destruct (Z.eqb_spec i (k - 0 + b)).
        + replace (b + k <? i + 1) with true by lia. do 2 f_equal. lia.
        + rewrite Ev1 by lia. now replace (b + k <? i + 1) with (b + k <? i) by lia.
      - intros vn [Lv Ev1]. split; auto. intros i Hi. rewrite Ev1 by lia. now replace (b + i <? b + n) with true by lia. }
    intros vn [Lv Ev]. cbn [wp].
    replace (b + zlen (cat Lst n) - b) with K by (rewrite zlen_cat by lia; unfold K; lia).
    assert (ZK : zlen (cat Lst n) = K) by (rewrite zlen_cat by lia; reflexivity).
    destruct HB1 as (LB & EB1 & EB2 & _). rewrite ZK in EB1, EB2.
    match goal with |- induced g l ?h /\ _ => set (h0 := h) end.
    assert (Hvb : forall w, In w l -> 0 <= w - b < vertnbr g) by (intros w Hw; destruct (HL w Hw); lia).
    assert (LO : laid_out h0 Lst).
    { constructor; cbn [h0 baseval vertnbr vertnnd verttab vendtab velotab velosum vnumtab vlbltab edgenbr edgetab edlotab edlosum degrmax]; auto.
      - lia.
      - apply Q1.
      - rewrite zlen_firstn; [unfold K; lia|]. pose proof (gv_size g V). lia.
      - intros i k Hi Hk. unfold edge, h0; cbn [edgetab baseval].
        assert (Hp : 0 <= offs Lst i + k < K).
        { pose proof (offs_mono Lst 0 i ltac:(lia)). rewrite offs_0 in *. pose proof (offs_mono Lst (i + 1) n ltac:(lia)). rewrite offs_S in * by lia. unfold K; lia. }
        rewrite at_firstn by lia. rewrite (at_rebase 0). replace (b + offs Lst i + k - b + 0) with (offs Lst i + k) by lia.
        rewrite EB1 by lia. now rewrite (at_cat Lst n i k) by lia.
      - intros i k Hi Hk. unfold edlo, h0; cbn [edlotab baseval].
        assert (Hp : 0 <= offs Lst i + k < K).
        { pose proof (offs_mono Lst 0 i ltac:(lia)). rewrite offs_0 in *. pose proof (offs_mono Lst (i + 1) n ltac:(lia)). rewrite offs_S in * by lia. unfold K; lia. }
        destruct (edlotab g) as [ot|] eqn:Eo.
        + specialize (K5 eq_refl). rewrite at_firstn by lia. rewrite at_skipn by lia. rewrite (at_rebase 0).
          replace (b + offs Lst i + k + off - b + 0) with (off + (offs Lst i + k)) by lia.
          rewrite EB2 by (auto; lia). now rewrite (at_cat Lst n i k) by lia.
        + (* without loads every kept arc has load 1 *)
          assert (HI : In (at_ 0 (Lst i) k) (Lst i)) by (apply at_In; lia).
          unfold Lst at 2, restrict in HI. apply in_flat_map in HI as ([w ld] & HI1 & HI2).
          apply In_nbr in HI1 as (e & _ & _ & El). unfold edlo in El. rewrite Eo in El.
          destruct (posn l w); [destruct HI2 as [<-|[]]; auto|destruct HI2].
      - intros t. destruct (edlotab g); [|discriminate]. intros [= <-]. specialize (K5 eq_refl).
        pose proof (gv_size g V). rewrite zlen_firstn; [unfold K; lia|]. rewrite zlen_skipn by lia. lia. }
    assert (Nb : forall i, 0 <= i < n -> nbr h0 (b + i) = Lst i) by (intros i Hi; apply (laid_nbr h0 Lst LO i Hi)).
    assert (VE : forall i, 0 <= i < n -> velo h0 (b + i) = velo g (at_ 0 l i)).
    { intros i Hi. unfold h0, velo at 1; cbn [velotab baseval]. destruct vl as [t|].
      - destruct (velotab g) eqn:Evl; [|contradiction]. destruct E2 as [_ E2]. rewrite E2 by lia. f_equal. f_equal. lia.
      - unfold velo. destruct (velotab g); [contradiction|]. reflexivity. }
    split; [|split].
    + constructor; auto.
      * exists vn. cbn [h0 vnumtab]. auto.
      * unfold h0; cbn [velotab edlotab]. split.
        -- destruct vl, (velotab g); try contradiction; split; auto; discriminate.
        -- destruct (edlotab g); split; auto; discriminate.
    + apply (laid_valid h0 Lst LO).
      * intros i w ld Hi HI. cbn [h0 baseval vertnnd vertnbr] in *.
        unfold Lst, restrict in HI. apply in_flat_map in HI as ([w0 ld0] & HI1 & HI2).
        destruct (posn l w0) as [k|] eqn:Ep; [|destruct HI2]. destruct HI2 as [[= <- <-]|[]].
        apply posn_some in Ep as [Hk Ep].
        assert (Hv : isvert g (at_ 0 l i)) by (apply HL, at_In; lia).
        destruct (nbr_of_valid g _ _ _ V Hv HI1) as (N1 & N2 & N3 & N4).
        split; [lia|]. split; [intros E; apply N2; rewrite <- Ep; f_equal; lia|]. split; [auto|].
        replace (b + k - b) with k by lia. unfold Lst, restrict. apply in_flat_map.
        exists (at_ 0 l i, ld0). rewrite Ep. split; auto. rewrite posn_at by auto. left; auto.
      * intros i Hi. unfold Lst. cbn [h0 vertnbr] in Hi.
        assert (Hv : isvert g (at_ 0 l i)) by (apply HL, at_In; lia).
        pose proof (nbr_NoDup g _ V Hv) as Hnd0. revert Hnd0. generalize (nbr g (at_ 0 l i)) as nb. clear - ND.
        induction nb as [|[w ld] nb IH]; cbn [map restrict flat_map]; [intros; constructor|].
        intros Hn0. cbn [fst] in Hn0. apply NoDup_cons_iff in Hn0 as [Hn1 Hn2]. specialize (IH Hn2).
        destruct (posn l w) as [k|] eqn:Ep; [|exact IH]. cbn [app map fst]. constructor; auto.
        intros HI. apply in_map_iff in HI as ([w' ld'] & E & HI). cbn [fst] in E. subst w'.
        apply in_flat_map in HI as ([w2 ld2] & HI1 & HI2). destruct (posn l w2) as [k2|] eqn:Ep2; [|destruct HI2].
        destruct HI2 as [[= E <-]|[]]. assert (k2 = k) as -> by lia.
        apply posn_some in Ep as [_ Ep], Ep2 as [_ Ep2]. apply Hn1. apply in_map_iff. exists (w2, ld2). split; auto. cbn. congruence.
      * intros v [Hv1 Hv2]. cbn [h0 baseval vertnnd] in *. replace v with (b + (v - b)) by lia. rewrite VE by lia.
        apply (gv_velo g V). apply HL, at_In. lia.
      * reflexivity.
      * cbn [h0 velosum baseval vertnnd].
        assert (ZS : zsum b (b + n) (velo h0) = zsum 0 n (fun i => velo g (at_ 0 l i))).
        { replace b with (0 + b) at 1 by lia. replace (b + n) with (n + b) by lia. rewrite <- zsum_shift. apply zsum_ext.
          intros i Hi. rewrite Z.add_comm. apply VE; lia. }
        rewrite ZS. destruct (velotab g) eqn:Evl; auto.
        rewrite (zsum_ext _ _ _ (fun _ => 1)) by (intros; unfold velo; now rewrite Evl). rewrite zsum_const by lia. lia.
      * cbn [h0 edlosum vertnbr edgenbr]. destruct (edlotab g) eqn:Eo; auto.
        unfold K, offs. apply zsum_ext. intros i Hi. unfold Lst.
        assert (G : forall nb : list (Z * Z), (forall w ld, In (w, ld) nb -> ld = 1) -> zlen (restrict b l nb) = lsum snd (restrict b l nb)).
        { induction nb as [|[w ld] nb IH]; intros Hall; [reflexivity|]. cbn [restrict flat_map].
          change (flat_map _ nb) with (restrict b l nb). specialize (IH ltac:(intros w' ld' HI'; apply (Hall w'); right; auto)).
          assert (ld = 1) by (apply (Hall w); left; auto). subst ld.
          destruct (posn l w); cbn [app]; auto. rewrite lsum_cons, zlen_cons, IH. reflexivity. }
        apply G. intros w ld HI. apply In_nbr in HI as (e & _ & _ & El). unfold edlo in El. rewrite Eo in El. auto.
      * apply (gv_degr0 g V).
      * intros i Hi. cbn [h0 vertnbr degrmax] in *. unfold Lst.
        assert (Hv : isvert g (at_ 0 l i)) by (apply HL, at_In; lia).
        etransitivity; [apply restrict_len|]. pose proof (gv_range g V _ Hv). rewrite zlen_nbr by lia. apply (gv_degr g V); auto.
    + apply (laid_readable h0 Lst LO). cbn [h0 velotab vertnbr]. intros t Et. subst vl.
      destruct (velotab g); [|contradiction]. lia.
Qed.
End Main.

(** ** graphInduceList *)

Lemma posn_app l l' w : posn (l ++ l') w =
  match posn l w with Some k => Some k | None => match posn l' w with Some k => Some (zlen l + k) | None => None end end.
Proof.
  induction l as [|x l IH]; cbn [app posn].
  - destruct (posn l' w); auto.
  - destruct (x =? w); auto. rewrite IH. rewrite zlen_cons. destruct (posn l w); auto.
    destruct (posn l' w); auto. f_equal. lia.
Qed.

Lemma firstn_snoc {A} `{Dflt A} (l : list A) i : 0 <= i < zlen l ->
  firstn (Z.to_nat (i + 1)) l = firstn (Z.to_nat i) l ++ [at_ 0 l i].
Proof.
  intros Hi. apply (at_ext 0).
  - rewrite zlen_snoc, !zlen_firstn; lia.
  - intros k. rewrite zlen_firstn by lia. intros Hk. rewrite at_firstn by lia.
    destruct (Z.eq_dec k i) as [->|].
    + rewrite at_app2 by (rewrite zlen_firstn; lia). rewrite zlen_firstn by lia. rewrite Z.sub_diag. reflexivity.
    + rewrite at_app1 by (rewrite zlen_firstn; lia). rewrite at_firstn by lia. reflexivity.
Qed.

Lemma firstn_zlen {A} (l : list A) : firstn (Z.to_nat (zlen l)) l = l.
Proof. unfold zlen. rewrite Nat2Z.id. apply firstn_all. Qed.

Lemma lsum_nonneg {A} (f : A -> Z) l : (forall x, In x l -> 0 <= f x) -> 0 <= lsum f l.
Proof. induction l; intros H; [cbn; lia|]. rewrite lsum_cons. pose proof (H a (or_introl eq_refl)). specialize (IHl ltac:(intros; apply H; right; auto)). lia. Qed.

Theorem induceList_spec jk al g l :
  graph_valid g -> graph_readable g -> 0 <= baseval g -> 1 <= al <= 2 ->
  (forall t, vnumtab g = Some t -> vertnbr g <= zlen t) ->
  NoDup l -> (forall w, In w l -> isvert g w) ->
  wp (graphInduceList jk al g l) (fun h => induced g l h /\ graph_valid h /\ graph_readable h) noerr.
Proof.
  intros V R B0 Hal HVn ND HL. unfold graphInduceList. cbn [graphInduce2].
  destruct (K_bounds g V l ND HL al Hal) as (_ & _ & _ & _ & K4 & _).
  pose proof (gv_size g V) as Hs. pose proof (gv_nnd g V) as Hnd. pose proof (zlen_nonneg l) as Hn.
  set (idxoff := ralign al (induceCap g (zlen l))) in *. set (b := baseval g) in *.
  apply wp_bind.
  eapply wp_mono; [apply wp_for with (I := fun v blk => zlen blk = idxoff + vertnbr g /\
     forall w, b <= w < v -> at_ 0 blk (idxoff + (w - b)) = -1); [lia| | |]|].
  - split; [rewrite zlen_repeat; lia|intros; lia].
  - intros v blk Hv [L1 E1]. apply wp_wr; [lia|]. rewrite zlen_upd. split; auto. intros w Hw.
    rewrite (at_rebase (b - idxoff) 0). rewrite at_upd by lia. rewrite <- (at_rebase (b - idxoff) 0).
    destruct (Z.eqb_spec v (idxoff + (w - b) - 0 + (b - idxoff))); auto. apply E1; lia.
  - intros s Hs'; exact Hs'.
  - intros blk [L1 E1]. apply wp_bind.
    eapply wp_mono; [apply wp_for with (I := fun i '(blk, s) => zlen blk = idxoff + vertnbr g /\
       (forall w, isvert g w -> at_ 0 blk (idxoff + (w - b)) = match posn (firstn (Z.to_nat (i - b)) l) w with Some k => b + k | None => -1 end) /\
       s = degsum g (firstn (Z.to_nat (i - b)) l)); [lia| | |]|].
    + rewrite Z.sub_diag. cbn [Z.to_nat firstn posn]. split; auto. split; [|reflexivity]. intros w [Hw1 Hw2]. apply E1. fold b in Hw1; lia.
    + intros i [blk1 s] Hi (L2 & E2 & ->). rewrite rd_ok by lia. cbn [bind].
      replace (at_ b l i) with (at_ 0 l (i - b)) by (rewrite (at_rebase b 0); f_equal; lia).
      set (v := at_ 0 l (i - b)). assert (Hv : isvert g v) by (apply HL, at_In; lia).
      assert (Hvr : b <= v < b + vertnbr g) by (destruct Hv; fold b in H; lia).
      replace ((b <=? v) && (v <? b + vertnbr g)) with true by lia.
      rewrite wr_ok by lia. cbn [bind]. rewrite rvert_ok, rvend_ok by auto. cbn [bind wp].
      replace (i + 1 - b) with (i - b + 1) by lia. rewrite (firstn_snoc l) by lia. fold v.
      rewrite zlen_upd. split; auto. split.
      * intros w Hw. assert (Hwr : b <= w < b + vertnbr g) by (destruct Hw; fold b in H; lia).
        rewrite (at_rebase (b - idxoff) 0). rewrite at_upd by lia. rewrite <- (at_rebase (b - idxoff) 0).
        rewrite posn_app, zlen_firstn by lia. cbn [posn].
        destruct (Z.eqb_spec v (idxoff + (w - b) - 0 + (b - idxoff))) as [E|E].
        -- assert (v = w) by lia. subst w. rewrite Z.eqb_refl.
           replace (posn (firstn (Z.to_nat (i - b)) l) v) with (@None Z); [lia|]. symmetry. apply posn_none. intros HI.
           apply (In_at 0) in HI as (k & Hk & Ek). rewrite zlen_firstn in Hk by lia. rewrite at_firstn in Ek by lia.
           assert (k = i - b); [|lia]. apply (proj2 (NoDup_at 0 l) ND); try lia. 
        -- replace (v =? w) with false by lia. rewrite E2 by auto. destruct (posn (firstn _ l) w); auto.
      * unfold degsum. rewrite lsum_app, lsum_cons. cbn [lsum fold_right]. lia.
    + intros s Hs'; exact Hs'.
    + intros [blk1 s] (L2 & E2 & ->). replace (b + zlen l - b) with (zlen l) in * by lia. rewrite firstn_zlen in *.
      apply induce3_spec; auto. split; auto. split; [intros p Hp; change (0 <= p < 0) in Hp; lia|].
      split; [intros _ p Hp; change (0 <= p < 0) in Hp; lia|]. exact E2.
Qed.

(** ** graphInducePart *)

Lemma part_list_snoc g part p k : 0 <= k ->
  filter (fun v => at_ (baseval g) part v =? p) (zseq (baseval g) (k + 1)) =
  filter (fun v => at_ (baseval g) part v =? p) (zseq (baseval g) k) ++
  (if at_ (baseval g) part (baseval g + k) =? p then [baseval g + k] else []).
Proof. intros. rewrite zseq_snoc by auto. rewrite filter_app. cbn [filter]. destruct (_ =? _); auto. Qed.

Lemma filter_len_mono {A} (f : A -> bool) l l' : zlen (filter f l) <= zlen (filter f (l ++ l')).
Proof. rewrite filter_app, zlen_app. pose proof (zlen_nonneg (filter f l')). lia. Qed.

Theorem inducePart_spec jk al g part n p :
  graph_valid g -> graph_readable g -> 0 <= baseval g -> 1 <= al <= 2 ->
  (forall t, vnumtab g = Some t -> vertnbr g <= zlen t) ->
  vertnbr g <= zlen part -> n = zlen (part_list g part p) ->
  wp (graphInducePart jk al g part n p) (fun h => induced g (part_list g part p) h /\ graph_valid h /\ graph_readable h) noerr.
Proof.
  intros V R B0 Hal HVn HP ->. unfold graphInducePart. cbn [graphInduce2].
  set (l := part_list g part p).
  pose proof (gv_size g V) as Hs. pose proof (gv_nnd g V) as Hnd. pose proof (zlen_nonneg l) as Hn.
  assert (ND : NoDup l) by (apply NoDup_filter, NoDup_zseq).
  assert (HL : forall w, In w l -> isvert g w).
  { intros w Hw. apply filter_In in Hw as [Hw _]. apply In_zseq in Hw. unfold isvert. lia. }
  destruct (K_bounds g V l ND HL al Hal) as (_ & _ & _ & _ & K4 & _).
  set (idxoff := ralign al (induceCap g (zlen l))) in *. set (b := baseval g) in *.
  set (F := fun k => filter (fun v => at_ b part v =? p) (zseq b k)).
  assert (Fmono : forall k, 0 <= k <= vertnbr g -> zlen (F k) <= zlen l).
  { intros k Hk. unfold l, part_list, F. fold b. replace (vertnbr g) with (k + (vertnbr g - k)) by lia. rewrite zseq_app by lia. apply filter_len_mono. }
  apply wp_bind.
  eapply wp_mono; [apply wp_for with (I := fun v '(blk, vnum, iv, s) => zlen blk = idxoff + vertnbr g /\
     (forall w, b <= w < v -> at_ 0 blk (idxoff + (w - b)) = match posn (F (v - b)) w with Some k => b + k | None => -1 end) /\
     zlen vnum = zlen l /\ (forall k, 0 <= k < zlen (F (v - b)) -> at_ 0 vnum k = at_ 0 (F (v - b)) k) /\
     iv = b + zlen (F (v - b)) /\ s = degsum g (F (v - b))); [lia| | |]|].
  - rewrite Z.sub_diag. change (F 0) with (@nil Z). split; [rewrite zlen_repeat; lia|]. split; [intros; lia|].
    split; [rewrite zlen_repeat; lia|]. change (zlen (@nil Z)) with 0. split; [intros; lia|]. split; [lia|reflexivity].
  - intros v [[[blk vnum] iv] s] Hv (L1 & E1 & L2 & E2 & -> & ->).
    assert (Hiv : isvert g v) by (split; fold b; lia).
    rewrite rd_ok by lia. cbn [bind].
    assert (FS : F (v + 1 - b) = F (v - b) ++ (if at_ b part v =? p then [v] else [])).
    { replace (v + 1 - b) with (v - b + 1) by lia. unfold F, b. rewrite part_list_snoc by (fold b; lia). fold b.
      now replace (b + (v - b)) with v by lia. }
    pose proof (Fmono (v + 1 - b) ltac:(lia)) as Hle. rewrite FS in Hle |- *.
    assert (Hnone : posn (F (v - b)) v = None).
    { apply posn_none. intros HI. apply filter_In in HI as [HI _]. apply In_zseq in HI. lia. }
    assert (IXu : forall x w, b <= w < v + 1 -> at_ 0 (upd (b - idxoff) blk v x) (idxoff + (w - b)) = if v =? w then x else at_ 0 blk (idxoff + (w - b))).
    { intros x w Hw. rewrite (at_rebase (b - idxoff) 0). rewrite at_upd by lia. rewrite <- (at_rebase (b - idxoff) 0).
      destruct (Z.eqb_spec v (idxoff + (w - b) - 0 + (b - idxoff))), (Z.eqb_spec v w); auto; lia. }
    destruct (Z.eqb_spec (at_ b part v) p) as [Ep|Ep].
    + rewrite zlen_snoc in Hle. pose proof (zlen_nonneg (F (v - b))).
      rewrite wr_ok by lia. cbn [bind]. rewrite wr_ok by lia. cbn [bind].
      rewrite rvert_ok, rvend_ok by auto. cbn [bind wp]. rewrite !zlen_upd, zlen_snoc.
      split; auto. split; [|split; [auto|split; [|split]]].
      * intros w Hw. rewrite IXu by auto. rewrite posn_app. cbn [posn].
        destruct (Z.eqb_spec v w) as [<-|].
        -- rewrite Hnone. lia.
        -- rewrite E1 by lia. destruct (posn _ w); auto.
      * intros k Hk. rewrite (at_rebase b 0). rewrite at_upd by lia. rewrite <- (at_rebase b 0).
        destruct (Z.eqb_spec (b + zlen (F (v - b))) (k - 0 + b)).
        -- rewrite at_app2 by lia. replace (k - zlen (F (v - b))) with 0 by lia. reflexivity.
        -- rewrite at_app1 by lia. apply E2; lia.
      * lia.
      * unfold degsum. rewrite lsum_app, lsum_cons. cbn [lsum fold_right]. lia.
    + rewrite wr_ok by lia. cbn [bind wp]. rewrite zlen_upd, app_nil_r. split; auto. split; [|auto].
      intros w Hw. rewrite IXu by auto. destruct (Z.eqb_spec v w) as [<-|]; [now rewrite Hnone|]. apply E1; lia.
  - intros s Hs'; exact Hs'.
  - intros [[[blk vnum] iv] s] (L1 & E1 & L2 & E2 & -> & ->). rewrite Hnd in *. replace (b + vertnbr g - b) with (vertnbr g) in * by lia.
    change (F (vertnbr g)) with l in *.
    assert (vnum = l) as ->.
    { apply (at_ext 0); auto. intros k Hk. apply E2. lia. }
    apply induce3_spec; auto. split; auto. split; [intros q Hq; change (0 <= q < 0) in Hq; lia|].
    split; [intros _ q Hq; change (0 <= q < 0) in Hq; lia|]. intros w [Hw1 Hw2]. apply E1. fold b in Hw1, Hw2. lia.
Qed.

(** ** The induced graph passes graphCheck *)
Lemma lsum_restrict_le b l nb : (forall w ld, In (w, ld) nb -> 0 <= ld) ->
  lsum snd (restrict b l nb) <= lsum snd nb.
Proof.
  induction nb as [|[w ld] nb IH]; intros H; [cbn; lia|].
  change (restrict b l ((w, ld) :: nb)) with ((match posn l w with Some k => [(b + k, ld)] | None => [] end) ++ restrict b l nb).
  rewrite lsum_app, lsum_cons. cbn [snd]. specialize (IH ltac:(intros w' ld' H'; apply (H w'); right; auto)).
  pose proof (H w ld (or_introl eq_refl)). destruct (posn l w); [rewrite lsum_cons; cbn [snd lsum fold_right]; lia|cbn [lsum fold_right]; lia].
Qed.

Lemma induced_check gmax g l h : graph_valid g -> NoDup l -> (forall w, In w l -> isvert g w) ->
  velosum g <= gmax -> edlosum g <= gmax ->
  induced g l h -> graph_valid h -> graph_readable h -> graphCheck gmax h = Ok tt.
Proof.
  intros V ND HL Hv He I VH RH.
  apply graphCheck_complete; auto.
  - rewrite (gv_velosum h VH), (in_base _ _ _ I), (in_nnd _ _ _ I).
    replace (baseval g) with (0 + baseval g) at 1 by lia. replace (baseval g + zlen l) with (zlen l + baseval g) by lia.
    rewrite <- zsum_shift. rewrite (zsum_ext _ _ _ (fun i => velo g (at_ 0 l i))) by (intros i Hi; rewrite Z.add_comm; apply (in_velo _ _ _ I); lia).
    rewrite <- lsum_zsum. etransitivity; [|exact Hv]. rewrite (gv_velosum g V). apply zsum_select; auto. apply (gv_velo g V).
  - rewrite (gv_edlosum h VH), (in_base _ _ _ I), (in_nnd _ _ _ I).
    replace (baseval g) with (0 + baseval g) at 1 by lia. replace (baseval g + zlen l) with (zlen l + baseval g) by lia.
    rewrite <- zsum_shift.
    transitivity (zsum 0 (zlen l) (fun i => lsum snd (nbr g (at_ 0 l i)))).
    + apply zsum_le. intros i Hi. assert (Hvi : isvert g (at_ 0 l i)) by (apply HL, at_In; lia).
      rewrite <- lsum_nbr by (apply (gv_range h VH); unfold isvert; rewrite (in_base _ _ _ I), (in_nnd _ _ _ I); lia).
      rewrite Z.add_comm. rewrite (in_arcs _ _ _ I) by auto. apply lsum_restrict_le.
      intros w ld HI. apply (nbr_of_valid g _ _ _ V Hvi HI).
    + rewrite <- (lsum_zsum (fun v => lsum snd (nbr g v)) l). etransitivity; [|exact He]. rewrite (gv_edlosum g V).
      rewrite (zsum_ext _ _ _ (fun v => lsum snd (nbr g v))) by (intros v Hv'; symmetry; apply lsum_nbr; apply (gv_range g V v Hv')).
      apply zsum_select; auto. intros v Hv'. apply lsum_nonneg. intros [w ld] HI. apply (nbr_of_valid g v w ld V Hv' HI).
Qed.
