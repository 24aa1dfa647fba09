(** Proofs about sequential matching: the queue and the whole matching. *)
From Verif Require Import Base M_Sort M_Graph M_Match S_Graph S_Color S_Match S_Sort P_Sort P_Sort2 P_Graph P_GraphList P_Induce P_Match.

Definition flat2 (ps : list (Z * Z)) : list Z := flat_map (fun p => [fst p; snd p]) ps.

Lemma zlen_flat2 ps : zlen (flat2 ps) = 2 * zlen ps.
Proof. induction ps as [|p ps IH]; [reflexivity|]. unfold flat2 in *. cbn [flat_map]. rewrite zlen_app, IH, zlen_cons, !zlen_cons. change (zlen (@nil Z)) with 0. lia. Qed.
Lemma at_flat2 ps i : 0 <= i < zlen ps -> at_ 0 (flat2 ps) (1 + i * 2) = at_ 0 (map snd ps) i.
Proof.
  revert i. induction ps as [|p ps IH]; intros i Hi; [change (zlen (@nil (Z * Z))) with 0 in Hi; lia|]. rewrite zlen_cons in Hi. unfold flat2 in *. cbn [flat_map map app].
  destruct (Z.eq_dec i 0) as [->|].
  - rewrite at_cons_S by lia. replace (1 + 0 * 2 - 1) with 0 by lia. rewrite !at_cons_0. reflexivity.
  - rewrite at_cons_S by lia. rewrite at_cons_S by lia. rewrite at_cons_S by lia. replace (1 + i * 2 - 1 - 1) with (1 + (i - 1) * 2) by lia. apply IH. lia.
Qed.

Lemma matchQueue_spec stksiz g lo hi : graph_valid g -> graph_readable g -> baseval g <= lo <= hi -> hi <= vertnnd g -> 32 <= stksiz -> hi - lo < 2 ^ (stksiz - 1) ->
  exists ps, matchQueue stksiz g lo hi = Ok (flat2 ps) /\ zlen ps = hi - lo /\ Permutation (zseq lo (hi - lo)) (map snd ps).
Proof.
  intros V R Hlo Hhi Hst Hsz. unfold matchQueue.
  match goal with |- exists ps, bind ?r _ = _ /\ _ => destruct (wp_ok_inv r (fun ps => ps = map (fun v => (vend g v - vert g v, v)) (zseq lo (hi - lo)))) as (ps & -> & ->) end.
  { apply wp_for with (I := fun k ps => ps = map (fun v => (vend g v - vert g v, v)) (zseq lo (k - lo))); [lia | rewrite Z.sub_diag; reflexivity | | auto].
    intros k ps Hk ->. assert (Hv : isvert g k) by (split; lia). rewrite rvert_ok, rvend_ok by auto. cbn [bind wp].
    replace (k + 1 - lo) with (k - lo + 1) by lia. rewrite zseq_snoc by lia. rewrite map_app. replace (lo + (k - lo)) with k by lia. reflexivity. }
  cbn [bind]. set (ps0 := map _ _). assert (L0 : zlen ps0 = hi - lo) by (unfold ps0; rewrite zlen_map, zlen_zseq; lia).
  destruct (intPsort_spec (@cmp_fst Z) stksiz ps0 (hi - lo) 3 swo_cmp_fst) as (ps & E & P & _); auto; try lia.
  unfold intPsort2asc1. rewrite E. cbn [bind]. exists ps. split; [reflexivity|].
  split; [unfold zlen in *; rewrite <- (Permutation_length P); auto|].
  apply (Permutation_map snd) in P. unfold ps0 in P. rewrite map_map in P. cbn [snd] in P. rewrite map_id in P. auto.
Qed.

Lemma zcount_list lo hi p l : NoDup l -> (forall v, In v l <-> lo <= v < hi /\ p v = true) -> zcount lo hi p = zlen l.
Proof.
  intros ND H. destruct (Z.ltb_spec hi lo) as [Hlt|Hle].
  - replace l with (@nil Z); [unfold zcount; rewrite zsum_nil by lia; reflexivity|]. destruct l as [|x l]; [auto|]. assert (I : In x (x :: l)) by now left. apply H in I. lia.
  - assert (P : Permutation l (filter p (zseq lo (hi - lo)))).
    { apply NoDup_Permutation; [auto | apply NoDup_filter, NoDup_zseq |]. intros x. rewrite H, filter_In, In_zseq. intuition lia. }
    unfold zlen. rewrite (Permutation_length P). fold (zlen (filter p (zseq lo (hi - lo)))). clear. unfold zcount. 
    destruct (Z.ltb_spec hi lo); [rewrite zsum_nil by lia; rewrite zseq_0 by lia; reflexivity|].
    revert hi H. apply zrange_ind; [rewrite zsum_nil by lia; rewrite zseq_0 by lia; reflexivity|].
    intros i Hi IH. rewrite zsum_snoc by lia. rewrite IH. replace (i + 1 - lo) with (i - lo + 1) by lia. rewrite zseq_snoc by lia. rewrite filter_app, zlen_app. replace (lo + (i - lo)) with i by lia.
    cbn [filter]. destruct (p i); cbn [b2z]; rewrite ?zlen_cons; change (zlen (@nil Z)) with 0; lia.
Qed.

Section Whole.
Context (g : graph) (V : graph_valid g) (R : graph_readable g) (HB : 0 <= baseval g) (mate : list Z) (ps : list (Z * Z)).
Context (MI : minv g mate ps) (COV : forall v, isvert g v -> ~ free ps v).
Context (FR : forall before p q after, ps = before ++ (p, q) :: after -> free before p /\ free before q).
Notation b := (baseval g).

Lemma notfree_in v : ~ free ps v -> exists p q, In (p, q) ps /\ (v = p \/ v = q).
Proof.
  clear. intros H. induction ps as [|(p, q) l IH]; [exfalso; apply H; intros ? ? []|].
  destruct (Z.eq_dec v p) as [->|N1]; [exists p, q; split; [now left|auto]|]. destruct (Z.eq_dec v q) as [->|N2]; [exists p, q; split; [now left|auto]|].
  destruct IH as (p' & q' & I & E); [|exists p', q'; split; [now right|auto]]. intros F. apply H. intros a z [[= <- <-]|I]; auto.
Qed.

Lemma mate_cases v : isvert g v -> exists p q, In (p, q) ps /\ isvert g p /\ isvert g q /\ at_ b mate p = q /\ at_ b mate q = p /\ (v = p \/ v = q).
Proof.
  intros Hv. destruct (notfree_in v (COV v Hv)) as (p & q & I & E). destruct MI as (_ & M2 & _). destruct (M2 p q I) as (H1 & H2 & H3 & H4). exists p, q. auto 10.
Qed.

Lemma whole_matching : is_matching g mate.
Proof.
  split; [apply MI|]. intros v Hv. destruct (mate_cases v Hv) as (p & q & I & Hp & Hq & E1 & E2 & [->| ->]).
  - rewrite E1, E2. auto.
  - rewrite E2, E1. auto.
Qed.

Lemma mins_NoDup : NoDup (map (fun x => Z.min (fst x) (snd x)) ps).
Proof.
  assert (G : forall l, (forall before p q after, l = before ++ (p, q) :: after -> free before p /\ free before q) -> NoDup (map (fun x => Z.min (fst x) (snd x)) l)); [|apply G; apply FR].
  clear. intros l. induction l as [|(p, q) l IH] using rev_ind; intros H; [constructor|].
  rewrite map_app. cbn [map fst snd]. apply (Permutation_NoDup (Permutation_cons_append _ _)). constructor.
  - intros I. apply in_map_iff in I as ((p' & q') & E & I). destruct (H l p q []) as (F1 & F2); [reflexivity|]. cbn [fst snd] in E. destruct (F1 p' q' I), (F2 p' q' I). lia.
  - apply IH. intros bf p' q' a E. apply (H bf p' q' (a ++ [(p, q)])). rewrite E. rewrite <- app_assoc. reflexivity.
Qed.

Lemma whole_groups : groups g mate = zlen ps.
Proof.
  unfold groups. rewrite <- (zlen_map (fun x => Z.min (fst x) (snd x)) ps). apply zcount_list; [apply mins_NoDup|].
  intros v. destruct MI as (_ & M2 & _). split.
  - intros I. apply in_map_iff in I as ((p & q) & E & I). cbn [fst snd] in E. destruct (M2 p q I) as ((P1 & P2) & (Q1 & Q2) & E1 & E2).
    destruct (Z.min_spec p q) as [(H & E')|(H & E')]; rewrite E' in E; subst v; rewrite ?E1, ?E2; split; lia.
  - intros (Hv & Hle). destruct (mate_cases v Hv) as (p & q & I & Hp & Hq & E1 & E2 & [->| ->]); apply in_map_iff; exists (p, q); cbn [fst snd]; split; auto; lia.
Qed.
End Whole.

Theorem graphMatchSeq_greedy stksiz nomerge g fix_ par vfixnbr :
  graph_valid g -> graph_readable g -> 0 <= baseval g -> per_vertex g fix_ -> per_vertex g par -> 32 <= stksiz -> vertnbr g < 2 ^ (stksiz - 1) ->
  exists mate pairs, graphMatchSeq stksiz nomerge g fix_ par vfixnbr = Ok (mate, zlen pairs) /\
    greedy g nomerge (may_group g fix_ par vfixnbr) pairs /\
    is_matching g mate /\ groups g mate = zlen pairs /\ (forall p q, In (p, q) pairs -> at_ (baseval g) mate p = q).
Proof.
  intros V R HB PF PP Hst Hsz. pose proof (gv_nnd g V) as Hn. pose proof (gv_size g V) as Hn0. unfold graphMatchSeq.
  destruct (matchQueue_spec stksiz g (baseval g) (vertnnd g)) as (qs & -> & Lq & Pq); auto; try lia. cbn [bind].
  replace (vertnnd g - baseval g) with (vertnbr g) in * by lia. set (qv := map snd qs) in *. assert (Lv : zlen qv = vertnbr g) by (unfold qv; rewrite zlen_map; auto).
  assert (Qin : forall v, In v qv <-> isvert g v).
  { intros v. split; intros I; [apply (Permutation_in _ (Permutation_sym Pq)) in I; apply In_zseq in I; split; lia | apply (Permutation_in _ Pq); apply In_zseq; destruct I; lia]. }
  set (mate0 := repeat (-1) (Z.to_nat (vertnbr g))).
  assert (MI0 : minv g mate0 []).
  { split; [unfold mate0; rewrite zlen_repeat; lia|]. split; [intros p q []|]. intros v (V1 & V2) _. unfold mate0. rewrite at_repeat by lia. lia. }
  destruct (matchSeq_spec g V R HB (matchFx vfixnbr par) (matchEl g) nomerge fix_ par PF PP eq_refl (flat2 qs) qv 2) with (mate0 := mate0) (ps0 := @nil (Z * Z)) (c0 := 0) as (mate & l & E & MI & CH & COV); auto.
  - intros i Hi. change (Z.shiftr 2 1) with 1. apply at_flat2. lia.
  - change (Z.shiftr 2 1) with 1. rewrite zlen_flat2. lia.
  - intros v I. apply Qin. auto.
  - apply (Permutation_NoDup Pq), NoDup_zseq.
  - rewrite Lv in E. rewrite E. cbn [app] in *.
    assert (COV' : forall v, isvert g v -> ~ free l v) by (intros v Hv; apply COV, Qin; auto).
    assert (FR : forall before p q after, l = before ++ (p, q) :: after -> free before p /\ free before q) by (intros bf p q a El; specialize (CH bf p q a El); unfold choice in CH; tauto).
    assert (OK : forall v w, ok g (matchFx vfixnbr par) fix_ par v w <-> may_group g fix_ par vfixnbr v w).
    { intros v w. unfold ok, may_group, matchFx. destruct par as [t|]; split.
      - intros H. rewrite orb_true_r in H. destruct (H eq_refl). split; auto.
      - intros (H1 & H2) _. split; [apply H2; right; discriminate | auto].
      - intros H. split; [intros l' [=]|]. intros [Hf|Hf]; [|congruence]. apply H. lia.
      - intros (H1 & H2) Hf. rewrite orb_false_r in Hf. split; [apply H2; lia | auto]. }
    exists mate, l. split; [auto|]. split; [split; [|auto]|].
    + intros bf p q a El. destruct (CH bf p q a El) as (C1 & C2 & C3 & C4 & C5). repeat (split; [solve [auto]|]). destruct C5 as [(D1 & D2 & D3 & D4)|[(D1 & D2 & D3)|(e & D1 & D2 & D3 & D4)]].
      * left. split; [auto|]. split; [auto|]. split; [rewrite OK in D3; auto|]. intros Hnm Eq w Hw F O. apply D4; auto; [apply Qin; auto | apply OK; auto].
      * right; left. split; [auto|]. split; [auto|]. intros e A F O. apply OK in O. eapply D3; eauto.
      * right; right. exists e. split; [auto|]. split; [auto|]. split; [apply OK; auto|]. intros e' A F O. apply D4; auto. apply OK; auto.
    + split; [apply (whole_matching g mate l); auto|]. split; [apply (whole_groups g mate l); auto|]. intros p q I. apply MI in I. apply I.
Qed.

(** Consequences of greediness on the result *)
Section Conseq.
Context (g : graph) (V : graph_valid g) (nomerge : bool) (okk : Z -> Z -> Prop) (ps : list (Z * Z)) (mate : list Z) (GR : greedy g nomerge okk ps)
  (IM : is_matching g mate) (HM : forall p q, In (p, q) ps -> at_ (baseval g) mate p = q) (OR : forall v, okk v v) (OS : forall v w, okk v w -> okk w v).
Notation b := (baseval g).

Lemma pair_split v : isvert g v -> exists before p q after, ps = before ++ (p, q) :: after /\ greedy_choice g nomerge okk before p q /\ at_ b mate p = q /\ at_ b mate q = p /\ (v = p \/ v = q).
Proof.
  intros Hv. destruct (notfree_in ps v) as (p & q & I & E); [apply GR; auto|]. destruct (in_split _ _ I) as (bf & a & El). exists bf, p, q, a. split; [auto|].
  assert (C : greedy_choice g nomerge okk bf p q) by (apply (proj1 GR bf p q a); auto). split; [auto|]. split; [auto|]. split; [|auto]. destruct C as (Hp & _). rewrite <- (HM p q I). apply IM; auto.
Qed.

Lemma greedy_nbr v : isvert g v -> at_ b mate v <> v -> adjacent g v (at_ b mate v) \/ (nomerge = false /\ (isolated g v \/ isolated g (at_ b mate v))).
Proof.
  intros Hv Hne. destruct (pair_split v Hv) as (bf & p & q & a & _ & C & E1 & E2 & Ev). assert (q <> p) by (destruct Ev; subst; congruence).
  destruct C as (_ & _ & _ & _ & [(D1 & D2 & _)|[(_ & D2 & _)|(e & A & Ee & _)]]); [| contradiction |].
  - right. split; [destruct nomerge; [exfalso; auto | auto]|]. destruct Ev as [-> | ->]; [auto|]. rewrite E2. auto.
  - left. destruct Ev as [-> | ->]; [rewrite E1; exists e; auto|]. rewrite E2. subst q. destruct (gv_sym g V p e A) as (e' & A' & Ee' & _). exists e'. auto.
Qed.

Lemma greedy_ok v : isvert g v -> okk v (at_ b mate v).
Proof.
  intros Hv. destruct (pair_split v Hv) as (bf & p & q & a & _ & C & E1 & E2 & Ev).
  assert (O : okk p q). { destruct C as (_ & _ & _ & _ & [(_ & _ & [-> | O] & _)|[(_ & -> & _)|(e & _ & _ & O & _)]]); auto. }
  destruct Ev as [-> | ->]; [now rewrite E1 | rewrite E2; auto].
Qed.

Lemma free_later bf p q a v : ps = bf ++ (p, q) :: a -> at_ b mate v = v -> v <> p -> isvert g v -> ~ free bf v -> free bf p -> exists bf' a', bf = bf' ++ (v, v) :: a'.
Proof.
  intros El Es Hne Hv F Fp. destruct (notfree_in bf v F) as (p' & q' & I & E). destruct (in_split _ _ I) as (b' & a' & Eb).
  assert (I' : In (p', q') ps) by (rewrite El; apply in_or_app; auto). pose proof (HM p' q' I') as Hm.
  assert (p' = v /\ q' = v) as (-> & ->).
  { assert (HP : isvert g p') by (destruct (proj1 GR b' p' q' (a' ++ (p, q) :: a)) as (? & _); [rewrite El, Eb, <- app_assoc; reflexivity | auto]).
    destruct IM as (_ & IM2). destruct (IM2 p' HP) as (_ & Hinv). rewrite Hm in Hinv. destruct E as [-> | ->]; split; congruence. }
  eauto.
Qed.

(** no two vertices that could be grouped are both left alone *)
Lemma greedy_maximal v w : isvert g v -> isvert g w -> v <> w -> okk v w -> (adjacent g v w \/ (nomerge = false /\ isolated g v /\ isolated g w)) -> at_ b mate v = v -> at_ b mate w = w -> False.
Proof.
  intros Hv Hw Hne O Hm Sv Sw.
  assert (G : forall x y, isvert g x -> isvert g y -> x <> y -> okk x y -> (adjacent g x y \/ (nomerge = false /\ isolated g x /\ isolated g y)) -> at_ b mate x = x -> at_ b mate y = y ->
     forall bf a, ps = bf ++ (x, x) :: a -> ~ free bf y).
  { clear v w Hv Hw Hne O Hm Sv Sw. intros x y Hx Hy Hne O Hm Sx Sy bf a El F. destruct (proj1 GR bf x x a El) as (_ & _ & _ & _ & C). destruct C as [(D1 & _ & _ & D4)|[(D1 & _ & D3)|(e & A & Ee & _)]].
    - destruct Hm as [(e & A & _)|(Enm & _ & _)]; [destruct D1 as (_ & D1); apply (D1 e A)|]. apply Hne. symmetry. apply D4; auto.
    - destruct Hm as [(e & A & Ee)|(_ & I1 & _)]; [|contradiction]. apply (D3 e A); rewrite Ee; auto.
    - apply (gv_loop g V x e A). auto. }
  destruct (pair_split v Hv) as (bf & p & q & a & El & C & E1 & E2 & Ev). assert (p = v /\ q = v) as (-> & ->) by (destruct Ev; subst; split; congruence).
  destruct (pair_split w Hw) as (bf2 & p & q & a2 & El2 & C2 & E3 & E4 & Ev2). assert (p = w /\ q = w) as (-> & ->) by (destruct Ev2; subst; split; congruence).
  pose proof (G v w Hv Hw Hne O Hm Sv Sw bf a El) as N1.
  destruct C as (_ & _ & Fv & _). destruct C2 as (_ & _ & Fw & _).
  destruct (free_later bf v v a w El Sw ltac:(auto) Hw N1 Fv) as (b' & a' & Eb).
  assert (Hm' : adjacent g w v \/ (nomerge = false /\ isolated g w /\ isolated g v)).
  { destruct Hm as [(e & A & Ee)|?]; [|tauto]. left. destruct (gv_sym g V v e A) as (e' & A' & Ee' & _). exists e'. rewrite Ee in A'. auto. }
  apply (G w v Hw Hv ltac:(auto) (OS _ _ O) Hm' Sw Sv b' (a' ++ (v, v) :: a)); [rewrite El, Eb, <- app_assoc; reflexivity|].
  rewrite Eb in Fv. apply free_app in Fv. apply Fv.
Qed.
End Conseq.
