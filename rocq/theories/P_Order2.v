(** Proofs about orderings: permutations, check, files. *)
From Verif Require Import Base M_Int M_Order S_Int S_Order P_Int P_Order.

(** Permutation of a range held in the first cells of an array *)
Lemma perm_first b n l : 0 <= n <= zlen l -> (perm_range b n (firstn (Z.to_nat n) l) <->
  (forall k, 0 <= k < n -> b <= at_ 0 l k < b + n) /\ (forall i j, 0 <= i < n -> 0 <= j < n -> at_ 0 l i = at_ 0 l j -> i = j)).
Proof.
  intros Hn. split.
  - intros H. destruct (perm_range_props b n _ ltac:(lia) H) as (Hz & Hr & Hd). split.
    + intros k Hk. specialize (Hr 0 k ltac:(lia)). now rewrite at_firstn in Hr by lia.
    + intros i j Hi Hj E. apply (proj2 (NoDup_at 0 (firstn (Z.to_nat n) l))); rewrite ?Hz; auto. now rewrite !at_firstn by lia.
  - intros (Hr & Hi). apply perm_range_intro.
    + apply zlen_firstn. lia.
    + intros i Hi'. rewrite at_firstn by lia. now apply Hr.
    + apply (NoDup_at 0). rewrite zlen_firstn by lia. intros i j Hi' Hj'. rewrite !at_firstn by lia. apply Hi; lia.
Qed.
Lemma perm_onto b n l x : 0 <= n <= zlen l -> perm_range b n (firstn (Z.to_nat n) l) -> b <= x < b + n -> exists k, 0 <= k < n /\ at_ 0 l k = x.
Proof.
  intros Hn H Hx. assert (I : In x (firstn (Z.to_nat n) l)) by (eapply Permutation_in; [apply H | now apply In_zseq]).
  apply (In_at 0) in I. rewrite zlen_firstn in I by lia. destruct I as (k & Hk & E). rewrite at_firstn in E by lia. exists k. split; [lia | auto].
Qed.

Lemma orderPeri_spec permtab pb n peritab ib :
  0 <= n <= zlen permtab -> n <= zlen peritab -> perm_range pb n (firstn (Z.to_nat n) permtab) ->
  exists t, orderPeri permtab pb n peritab ib = Ok t /\ zlen t = zlen peritab /\
    (forall k, 0 <= k < n -> at_ 0 t (at_ 0 permtab k - pb) = k + ib) /\
    (forall j, 0 <= j < n -> ib <= at_ 0 t j < ib + n /\ at_ 0 permtab (at_ 0 t j - ib) = j + pb) /\
    (forall j, n <= j < zlen peritab -> at_ 0 t j = at_ 0 peritab j) /\
    perm_range ib n (firstn (Z.to_nat n) t).
Proof.
  intros Hn Hm HP. pose proof (proj1 (perm_first pb n permtab Hn) HP) as (Hr & Hi). unfold orderPeri.
  match goal with |- exists t, ?r = _ /\ _ => destruct (wp_ok_inv r (fun t => zlen t = zlen peritab /\ (forall k, 0 <= k < n -> at_ 0 t (at_ 0 permtab k - pb) = k + ib) /\
     (forall j, n <= j < zlen peritab -> at_ 0 t j = at_ 0 peritab j))) as (t & -> & T1 & T2 & T3) end.
  { apply wp_for with (I := fun k t => zlen t = zlen peritab /\ (forall i, 0 <= i < k -> at_ 0 t (at_ 0 permtab i - pb) = i + ib) /\ (forall j, n <= j < zlen peritab -> at_ 0 t j = at_ 0 peritab j)).
    - lia.
    - split; [auto|]. split; [intros; lia | auto].
    - intros k t Hk (I1 & I2 & I3). rewrite rd_ok by lia. cbn [bind]. pose proof (Hr k Hk). apply wp_wr; [lia|]. split; [now rewrite zlen_upd|]. split.
      + intros i Hi'. pose proof (Hr i ltac:(lia)). rewrite at_upd by lia. destruct (Z.eqb_spec (at_ 0 permtab k - pb) (at_ 0 permtab i - pb)) as [E|E].
        * f_equal. apply Hi; lia.
        * apply I2. destruct (Z.eq_dec i k); [subst; lia | lia].
      + intros j Hj. rewrite at_upd_other by lia. auto.
    - auto. }
  exists t. split; [reflexivity|]. split; [auto|]. split; [auto|].
  assert (A : forall j, 0 <= j < n -> ib <= at_ 0 t j < ib + n /\ at_ 0 permtab (at_ 0 t j - ib) = j + pb).
  { intros j Hj. destruct (perm_onto pb n permtab (j + pb) Hn HP ltac:(lia)) as (k & Hk & E). pose proof (T2 k Hk) as T. rewrite E in T. replace (j + pb - pb) with j in T by lia. rewrite T.
    split; [lia|]. now replace (k + ib - ib) with k by lia. }
  split; [exact A|]. split; [exact T3|]. apply perm_first; [lia|]. split; [intros k Hk; now apply A|].
  intros i j Hi' Hj' E. destruct (A i Hi') as (_ & A1). destruct (A j Hj') as (_ & A2). rewrite E in A1. lia.
Qed.

(** ** Check *)
Lemma orderCheck_sound o : o_vnod o <= zlen (o_peri o) -> tree_readable (o_tree o) -> orderCheck o = Ok tt -> order_valid o.
Proof.
  intros Hz R H. unfold orderCheck in H. set (b := o_base o) in *. set (n := o_vnod o) in *.
  destruct (Z.eqb_spec n (c_vnod (o_tree o))) as [Ev|]; cbn [negb] in H; [|discriminate].
  destruct ((o_cblknbr o <? 0) || (o_treenbr o <? o_cblknbr o)); [discriminate|]. destruct (Z.ltb_spec n 0); [discriminate|].
  apply bind_ok_inv in H. destruct H as (perm & Hp & H). apply bind_ok_inv in H. destruct H as (u & _ & H). apply bind_ok_inv in H. destruct H as ((c & t) & Hc & H).
  destruct (Z.eqb_spec c (o_cblknbr o)) as [Ec|]; cbn [negb] in H; [|discriminate]. destruct (Z.eqb_spec t (o_treenbr o)) as [Et|]; cbn [negb] in H; [|discriminate].
  destruct (orderCheck2_sound _ R 1 1 _ Hc) as (T & E). apply pair_equal_spec in E. destruct E as (E1 & E2).
  constructor; auto; try lia. fold b n. apply perm_first; [lia|].
  set (I := fun (k : Z) (perm : list Z) => zlen perm = n /\ (forall i, 0 <= i < k -> b <= at_ 0 (o_peri o) i < b + n /\ at_ b perm (at_ 0 (o_peri o) i) = i)).
  assert (J : I n perm).
  { refine (wlp_elim _ (fun p => I n p) perm _ Hp). apply wlp_for with (I := I); auto.
    - split; [rewrite zlen_repeat; lia | intros; lia].
    - intros k p Hk (I1 & I2). rewrite rd_ok by lia. cbn [bind]. set (x := at_ 0 (o_peri o) k). destruct ((x <? b) || (b + n <=? x)) eqn:Ex; [exact Logic.I|].
      rewrite rd_ok by lia. cbn [bind]. destruct (Z.eqb_spec (at_ b p x) (-1)) as [Ey|]; cbn [negb]; [|exact Logic.I].
      rewrite wr_ok by lia. cbn. split; [now rewrite zlen_upd|]. intros i Hi. destruct (Z.eq_dec i k) as [->|].
      + fold x. split; [lia|]. rewrite at_upd_same; lia.
      + destruct (I2 i ltac:(lia)) as (K1 & K2). split; [exact K1|]. rewrite at_upd_other; [exact K2 | lia | lia|]. intros X. rewrite X in Ey. lia. }
  destruct J as (J1 & J2). split; [intros k Hk; now apply J2|]. intros i j Hi Hj Eij. destruct (J2 i Hi) as (_ & A1). destruct (J2 j Hj) as (_ & A2). rewrite Eij in A1. lia.
Qed.

Lemma orderCheck_complete o : o_vnod o <= zlen (o_peri o) -> order_valid o -> orderCheck o = Ok tt.
Proof.
  intros Hz [P T Ev Ec Et]. unfold orderCheck. set (b := o_base o) in *. set (n := o_vnod o) in *.
  assert (Hn : 1 <= n) by (destruct (o_tree o) as [ty v m [l|]]; cbn in T, Ev; lia).
  destruct (leaves_pos _ T) as (Lp & _). assert (Nn : zlen (leaves (o_tree o)) <= nnodes (o_tree o)).
  { clear. generalize (o_tree o). induction c as [ty v m | ty v m l IH] using cblk_ind'; [cbn; lia|]. rewrite leaves_node. cbn [nnodes].
    enough (zlen (flat_map leaves l) <= fold_right (fun c a => nnodes c + a) 0 l) by lia. induction IH as [|c l Hc Hl IHl]; cbn [flat_map fold_right]; [cbn; lia|]. rewrite zlen_app. lia. }
  rewrite Ev, Z.eqb_refl. cbn [negb]. pose proof (zlen_nonneg (leaves (o_tree o))). destruct ((o_cblknbr o <? 0) || (o_treenbr o <? o_cblknbr o)) eqn:Eb; [lia|]. destruct (Z.ltb_spec n 0); [lia|].
  pose proof (proj1 (perm_first b n (o_peri o) ltac:(lia)) P) as (Hr & Hi).
  set (I := fun (k : Z) (perm : list Z) => zlen perm = n /\ (forall i, 0 <= i < k -> at_ b perm (at_ 0 (o_peri o) i) = i) /\ (forall i, k <= i < n -> at_ b perm (at_ 0 (o_peri o) i) = -1)).
  match goal with |- bind ?r _ = _ => destruct (wp_ok_inv r (I n)) as (perm & -> & J1 & J2 & _) end.
  { apply wp_for with (I := I); [lia| | |auto].
    - split; [rewrite zlen_repeat; lia|]. split; [intros; lia|]. intros i Hi'. pose proof (Hr i Hi'). rewrite at_repeat by lia. reflexivity.
    - intros k p Hk (I1 & I2 & I3). rewrite rd_ok by lia. cbn [bind]. pose proof (Hr k Hk) as Hx. destruct ((at_ 0 (o_peri o) k <? b) || (b + n <=? at_ 0 (o_peri o) k)) eqn:Ex; [lia|].
      rewrite rd_ok by lia. cbn [bind]. rewrite (I3 k) by lia. cbn [Z.eqb Pos.eqb negb]. apply wp_wr; [lia|]. split; [now rewrite zlen_upd|]. split; intros i Hi'; pose proof (Hr i ltac:(lia)).
      + rewrite at_upd by lia. destruct (Z.eqb_spec (at_ 0 (o_peri o) k) (at_ 0 (o_peri o) i)) as [E|E]; [apply Hi; lia|]. apply I2. destruct (Z.eq_dec i k); [subst; congruence | lia].
      + rewrite at_upd_other by (try lia; intros E; apply Hi in E; lia). apply I3. lia. }
  cbn [bind]. match goal with |- bind ?r _ = _ => destruct (wp_ok_inv r (fun _ => True)) as (u & -> & _) end.
  { apply wp_for with (I := fun _ _ => True); [lia|exact Logic.I| |auto]. intros k u Hk _. rewrite rd_ok by lia. cbn [bind].
    destruct (perm_onto b n (o_peri o) (b + k) ltac:(lia) P ltac:(lia)) as (i & Hi' & E). specialize (J2 i Hi'). rewrite E, (at_rebase 0) in J2. replace (b + k - b + 0) with k in J2 by lia. rewrite J2.
    destruct (Z.eqb_spec i (-1)); [lia | exact Logic.I]. }
  cbn [bind]. rewrite (orderCheck2_complete _ T). cbn [bind]. replace (1 + zlen (leaves (o_tree o)) - 1 =? o_cblknbr o) with true by lia. replace (1 + nnodes (o_tree o) - 1 =? o_treenbr o) with true by lia. reflexivity.
Qed.

(** ** Files *)
Lemma lines_snoc f lo hi : lo <= hi -> lines f lo (hi + 1) = lines f lo hi ++ f hi.
Proof.
  intros H. unfold lines. replace (hi + 1 - lo) with (hi - lo + 1) by lia. rewrite zseq_snoc by lia. rewrite flat_map_app. cbn [flat_map]. rewrite app_nil_r. f_equal. f_equal. lia.
Qed.
Lemma lines_cons f lo hi : lo < hi -> lines f lo hi = f lo ++ lines f (lo + 1) hi.
Proof. intros H. unfold lines. rewrite zseq_cons by lia. cbn [flat_map]. do 2 f_equal. f_equal. lia. Qed.
Lemma lines_nil f lo hi : hi <= lo -> lines f lo hi = [].
Proof. intros H. unfold lines. now rewrite zseq_0 by lia. Qed.

Lemma orderSave_spec o junk : 0 <= o_vnod o <= zlen (o_peri o) -> o_vnod o <= zlen junk ->
  perm_range (o_base o) (o_vnod o) (firstn (Z.to_nat (o_vnod o)) (o_peri o)) ->
  exists perm, zlen perm = zlen junk /\
    (forall p, 0 <= p < o_vnod o -> at_ 0 perm (at_ 0 (o_peri o) p - o_base o) = p + o_base o) /\
    perm_range (o_base o) (o_vnod o) (firstn (Z.to_nat (o_vnod o)) perm) /\
    orderSave o None junk = Ok (line1 (o_vnod o) ++ lines (fun v => line2 (v + o_base o) (at_ 0 perm v)) 0 (o_vnod o)) /\
    (forall t, o_vnod o <= zlen t -> orderSave o (Some t) junk = Ok (line1 (o_vnod o) ++ lines (fun v => line2 (at_ 0 t v) (at_ (o_base o) t (at_ 0 perm v))) 0 (o_vnod o))).
Proof.
  intros Hn Hj HP. destruct (orderPeri_spec (o_peri o) (o_base o) (o_vnod o) junk (o_base o) Hn Hj HP) as (perm & E & Z1 & P1 & P2 & P3 & P4).
  exists perm. split; [auto|]. split; [auto|]. split; [auto|]. unfold orderSave. rewrite E. cbn [bind]. split.
  - match goal with |- ?r = Ok ?v => destruct (wp_ok_inv r (fun s => s = v)) as (x & -> & ->); [|reflexivity] end.
    apply wp_for with (I := fun k s => s = line1 (o_vnod o) ++ lines (fun v => line2 (v + o_base o) (at_ 0 perm v)) 0 k); [lia | | | auto].
    + rewrite lines_nil by lia. now rewrite app_nil_r.
    + intros k s Hk ->. rewrite rd_ok by lia. cbn [bind wp]. rewrite lines_snoc by lia. now rewrite app_assoc.
  - intros t Ht. match goal with |- ?r = Ok ?v => destruct (wp_ok_inv r (fun s => s = v)) as (x & -> & ->); [|reflexivity] end.
    apply wp_for with (I := fun k s => s = line1 (o_vnod o) ++ lines (fun v => line2 (at_ 0 t v) (at_ (o_base o) t (at_ 0 perm v))) 0 k); [lia | | | auto].
    + rewrite lines_nil by lia. now rewrite app_nil_r.
    + intros k s Hk ->. pose proof (proj1 (P2 k Hk)). rewrite rd_ok by lia. cbn [bind]. rewrite rd_ok by lia. cbn [bind]. rewrite rd_ok by lia. cbn [bind wp]. rewrite lines_snoc by lia. rewrite <- app_assoc.
      rewrite (at_rebase 0 (o_base o) t (k + o_base o)). now replace (k + o_base o - o_base o + 0) with k by lia.
Qed.

Lemma nodigit_9 l : nodigit_head (9 :: l).
Proof. simpl. unfold digit_char; lia. Qed.
Lemma nodigit_10 l : nodigit_head (10 :: l).
Proof. simpl. unfold digit_char; lia. Qed.

Lemma orderLoad_save imax o o' junk junk' out rest :
  9 <= imax -> 0 <= o_base o -> o_base o + o_vnod o <= imax -> 0 <= o_vnod o <= zlen (o_peri o) -> o_vnod o <= zlen junk -> o_vnod o <= zlen junk' ->
  perm_range (o_base o) (o_vnod o) (firstn (Z.to_nat (o_vnod o)) (o_peri o)) ->
  orderSave o None junk = Ok out ->
  o_base o' = o_base o -> o_vnod o <= zlen (o_peri o') ->
  exists r, orderLoad imax o' false junk' (out ++ rest) = Ok (r, 10 :: rest) /\ o_base r = o_base o /\ o_vnod r = o_vnod o /\
    o_tree r = o_tree o' /\ o_treenbr r = o_treenbr o' /\ o_cblknbr r = o_cblknbr o' /\ zlen (o_peri r) = zlen (o_peri o') /\
    (forall k, 0 <= k < o_vnod o -> at_ 0 (o_peri r) k = at_ 0 (o_peri o) k).
Proof.
  intros Hm Hb Hx Hn Hj Hj' HP HS Eb Hp'. destruct (orderSave_spec o junk Hn Hj HP) as (perm & Z1 & P1 & P2 & E & _). rewrite E in HS. injection HS as <-. clear E.
  set (n := o_vnod o) in *. set (b := o_base o) in *. pose proof (proj1 (perm_first b n perm ltac:(lia)) P2) as (Hr & Hi).
  unfold orderLoad. set (f := fun v => line2 (v + b) (at_ 0 perm v)). unfold line1. rewrite <- !app_assoc.
  pose proof (intLoad_intSave imax [] n ([10] ++ lines f 0 n ++ rest) Hm ltac:(lia) ltac:(constructor) (nodigit_10 _)) as E1. cbn [app] in E1. cbn [app]. rewrite E1. clear E1. rewrite Eb.
  match goal with |- exists r, bind ?r' _ = _ /\ _ => destruct (wp_ok_inv r' (fun x => zlen (fst x) = zlen junk' /\ (forall k, 0 <= k < n -> at_ 0 (fst x) k = at_ 0 perm k) /\ snd x = 10 :: rest)) as ((t & s) & -> & T1 & T2 & T3) end.
  { apply wp_for with (I := fun k x => zlen (fst x) = zlen junk' /\ (forall i, 0 <= i < k -> at_ 0 (fst x) i = at_ 0 perm i) /\ snd x = 10 :: lines f k n ++ rest).
    - lia.
    - cbn [fst snd]. split; [auto|]. split; [intros; lia | auto].
    - intros k (t & s) Hk (I1 & I2 & I3). cbn [fst snd] in *. subst s. rewrite lines_cons by lia. unfold f at 1, line2. rewrite <- !app_assoc. pose proof (Hr k Hk).
      pose proof (intLoad_intSave imax [10] (k + b) ([9] ++ intSave (at_ 0 perm k) ++ [10] ++ lines f (k + 1) n ++ rest) Hm ltac:(lia) (blank1 10 eq_refl) (nodigit_9 _)) as E1. cbn [app] in E1. cbn [app]. rewrite E1.
      assert (Hy : - imax <= at_ 0 perm k <= imax) by lia. clear E1.
      pose proof (intLoad_intSave imax [9] (at_ 0 perm k) ([10] ++ lines f (k + 1) n ++ rest) Hm Hy (blank1 9 eq_refl) (nodigit_10 _)) as E2. cbn [app] in E2. rewrite E2.
      rewrite wr_ok by lia. cbn [bind]. rewrite Z.eqb_refl. cbn [negb wp fst snd]. split; [now rewrite zlen_upd|]. split; [|reflexivity].
      intros i Hi'. destruct (Z.eq_dec i k) as [->|]; [rewrite at_upd_same by lia; auto|]. rewrite at_upd_other by lia. apply I2. lia.
    - intros (t & s) (I1 & I2 & I3). cbn [fst snd] in *. rewrite lines_nil in I3 by lia. auto. }
  cbn [fst snd] in *. subst s. cbn [bind].
  assert (Q2 : perm_range b n (firstn (Z.to_nat n) t)).
  { apply perm_first; [lia|]. split; [intros k Hk; rewrite T2 by auto; auto|]. intros i j Hi' Hj'' E. rewrite !T2 in E by auto. now apply Hi. }
  destruct (orderPeri_spec t b n (o_peri o') b ltac:(lia) Hp' Q2) as (pr & -> & Y1 & Y2 & Y3 & Y4 & _). cbn [bind]. eexists. split; [reflexivity|]. cbn.
  repeat (split; [first [reflexivity | assumption]|]). intros k Hk.
  pose proof (proj1 (perm_first b n (o_peri o) Hn) HP) as (Hr' & _). specialize (Hr' k Hk). specialize (P1 k Hk).
  assert (Hw : 0 <= at_ 0 (o_peri o) k - b < n) by lia. specialize (Y2 _ Hw).
  rewrite (T2 _ Hw) in Y2. rewrite P1 in Y2. replace (k + b - b) with k in Y2 by lia. change (at_ 0 pr k = at_ 0 (o_peri o) k). lia.
Qed.

(** Block of each vertex *)
Lemma blockValues_spec o rang (val : Z -> res Z) junk nb :
  let b := o_base o in let n := o_vnod o in
  0 <= n <= zlen (o_peri o) -> n <= zlen junk -> perm_range b n (firstn (Z.to_nat n) (o_peri o)) ->
  nb + 1 <= zlen rang -> 1 <= nb -> at_ 0 rang 0 = b -> at_ 0 rang nb = b + n -> (forall c, 0 <= c < nb -> at_ 0 rang c < at_ 0 rang (c + 1)) ->
  (forall c, 0 <= c < nb -> exists x, val c = Ok x) ->
  exists t, blockValues o rang val junk = Ok t /\ zlen t = zlen junk /\
    forall p, b <= p < b + n -> exists c, 0 <= c < nb /\ at_ 0 rang c <= p < at_ 0 rang (c + 1) /\ val c = Ok (at_ b t (at_ b (o_peri o) p)).
Proof.
  intros b n Hn Hj HP Hz Hnb R0 Rn Rm Hv. pose proof (proj1 (perm_first b n (o_peri o) Hn) HP) as (Hr & Hi).
  assert (Pr : forall p, b <= p < b + n -> b <= at_ b (o_peri o) p < b + n) by (intros p Hp; rewrite (at_rebase 0); apply Hr; lia).
  assert (Pi : forall p q, b <= p < b + n -> b <= q < b + n -> at_ b (o_peri o) p = at_ b (o_peri o) q -> p = q).
  { intros p q Hp Hq. rewrite (at_rebase 0 b (o_peri o) p), (at_rebase 0 b (o_peri o) q). intros E. apply Hi in E; lia. }
  unfold blockValues. fold b n.
  match goal with |- exists t, bind ?r' _ = _ /\ _ => destruct (wp_ok_inv r' (fun x => zlen (snd x) = zlen junk /\
    forall p, b <= p < b + n -> exists c, 0 <= c < nb /\ at_ 0 rang c <= p < at_ 0 rang (c + 1) /\ val c = Ok (at_ b (snd x) (at_ b (o_peri o) p)))) as ((c & t) & -> & T1 & T2) end.
  { apply wp_for with (I := fun p x => 0 <= fst x < nb /\ at_ 0 rang (fst x) <= p <= at_ 0 rang (fst x + 1) /\ zlen (snd x) = zlen junk /\
      forall q, b <= q < p -> exists c, 0 <= c < nb /\ at_ 0 rang c <= q < at_ 0 rang (c + 1) /\ val c = Ok (at_ b (snd x) (at_ b (o_peri o) q))).
    - lia.
    - cbn [fst snd]. split; [lia|]. pose proof (Rm 0 ltac:(lia)). split; [lia|]. split; [auto|]. intros; lia.
    - intros p (c & t) Hp (I1 & I2 & I3 & I4). cbn [fst snd] in *. rewrite rd_ok by lia. cbn [bind].
      set (c' := if at_ 0 rang (c + 1) <=? p then c + 1 else c).
      assert (C' : 0 <= c' < nb /\ at_ 0 rang c' <= p < at_ 0 rang (c' + 1)).
      { unfold c'. destruct (Z.leb_spec (at_ 0 rang (c + 1)) p) as [L|L]; [|lia]. assert (c + 1 < nb) by (destruct (Z.eq_dec (c + 1) nb) as [E|]; [rewrite E in L; lia | lia]). pose proof (Rm (c + 1) ltac:(lia)). lia. }
      rewrite rd_ok by lia. cbn [bind]. destruct (Hv c' ltac:(lia)) as (x & Ex). rewrite Ex. cbn [bind]. pose proof (Pr p Hp). rewrite wr_ok by lia. cbn [bind wp fst snd].
      split; [lia|]. split; [lia|]. split; [now rewrite zlen_upd|]. intros q Hq. pose proof (Pr q ltac:(lia)). destruct (Z.eq_dec q p) as [->|].
      + exists c'. split; [lia|]. split; [lia|]. rewrite at_upd_same by lia. exact Ex.
      + rewrite at_upd_other by (try lia; intros E; apply Pi in E; lia). apply I4. lia.
    - intros (c & t) (I1 & I2 & I3 & I4). auto. }
  cbn [bind fst snd] in *. exists t. auto.
Qed.

Lemma saveValues_spec o vlbl t : 0 <= o_vnod o <= zlen t -> (forall lt, vlbl = Some lt -> o_vnod o <= zlen lt) ->
  saveValues o vlbl t = Ok (line1 (o_vnod o) ++ lines (fun v => line2 (match vlbl with Some lt => at_ (o_base o) lt v | None => v end) (at_ (o_base o) t v)) (o_base o) (o_base o + o_vnod o)).
Proof.
  intros Hn Hl. unfold saveValues. match goal with |- ?r = Ok ?v => destruct (wp_ok_inv r (fun s => s = v)) as (x & -> & ->); [|reflexivity] end.
  apply wp_for with (I := fun k s => s = line1 (o_vnod o) ++ lines (fun v => line2 (match vlbl with Some lt => at_ (o_base o) lt v | None => v end) (at_ (o_base o) t v)) (o_base o) k); [lia | | | auto].
  - rewrite lines_nil by lia. now rewrite app_nil_r.
  - intros k s Hk ->. destruct vlbl as [lt|].
    + specialize (Hl lt eq_refl). rewrite rd_ok by lia. cbn [bind]. rewrite rd_ok by lia. cbn [bind wp]. rewrite lines_snoc by lia. now rewrite app_assoc.
    + cbn [bind]. rewrite rd_ok by lia. cbn [bind wp]. rewrite lines_snoc by lia. now rewrite app_assoc.
Qed.

Lemma lsum_fold l : fold_right Z.add 0 l = lsum l.
Proof. induction l as [|x l IH]; cbn [fold_right lsum]; lia. Qed.

(** The range array in terms of the sizes of the leaves *)
Lemma orderRang_blocks o rangtab : order_valid o -> zlen (leaves (o_tree o)) + 1 <= zlen rangtab ->
  exists rang, orderRang o rangtab = Ok rang /\ zlen rang = zlen rangtab /\ at_ 0 rang 0 = o_base o /\ at_ 0 rang (zlen (leaves (o_tree o))) = o_base o + o_vnod o /\
    (forall k, 0 <= k < zlen (leaves (o_tree o)) -> at_ 0 rang k < at_ 0 rang (k + 1)) /\
    (forall p c, 0 <= c < zlen (leaves (o_tree o)) -> at_ 0 rang c <= p < at_ 0 rang (c + 1) -> in_block o p c).
Proof.
  intros V Hz. destruct (orderRang_at o rangtab (ov_tree _ V) Hz) as (rang & E & Zr & R0 & Rn & Rs & _). exists rang. split; [auto|]. split; [auto|]. split; [auto|].
  split; [now rewrite <- (ov_vnod _ V)|]. destruct (leaves_pos _ (ov_tree _ V)) as (Lp & La). rewrite Forall_forall in La. split.
  - intros k Hk. rewrite Rs by auto. enough (1 <= at_ 0 (leaves (o_tree o)) k) by lia. apply La. apply at_In. lia.
  - assert (A : forall k, 0 <= k -> k <= zlen (leaves (o_tree o)) -> at_ 0 rang k = o_base o + lsum (firstn (Z.to_nat k) (leaves (o_tree o)))).
    { intros k Hk. revert k Hk. apply (zrange_ind (fun k => k <= zlen (leaves (o_tree o)) -> at_ 0 rang k = o_base o + lsum (firstn (Z.to_nat k) (leaves (o_tree o))))).
      - intros _. rewrite R0. cbn. lia.
      - intros k Hk IH Hk'. rewrite Rs by lia. rewrite IH by lia. rewrite lsum_firstn_S by lia. lia. }
    intros p c Hc Hp. rewrite !A in Hp by lia. split; [auto|]. rewrite !lsum_fold. exact Hp.
Qed.

Lemma orderSaveMap_spec o vlbl j1 j2 : order_valid o -> o_vnod o <= zlen (o_peri o) -> zlen (leaves (o_tree o)) + 1 <= zlen j1 -> o_vnod o <= zlen j2 ->
  (forall lt, vlbl = Some lt -> o_vnod o <= zlen lt) ->
  exists t, orderSaveMap o vlbl j1 j2 = Ok (line1 (o_vnod o) ++ lines (fun v => line2 (match vlbl with Some lt => at_ (o_base o) lt v | None => v end) (at_ (o_base o) t v)) (o_base o) (o_base o + o_vnod o)) /\
    forall p, o_base o <= p < o_base o + o_vnod o -> in_block o p (at_ (o_base o) t (at_ (o_base o) (o_peri o) p)).
Proof.
  intros V Hp H1 H2 Hl. destruct (orderRang_blocks o j1 V H1) as (rang & E & Zr & R0 & Rn & Rm & Rb). unfold orderSaveMap. rewrite E. cbn [bind].
  destruct (leaves_pos _ (ov_tree _ V)) as (Lp & _). assert (Hv : 1 <= o_vnod o).
  { pose proof (ov_vnod _ V) as Ev. pose proof (ov_tree _ V) as T. destruct (o_tree o) as [ty v m [l|]]; cbn in T, Ev; lia. }
  destruct (blockValues_spec o rang (fun c => Ok c) j2 (zlen (leaves (o_tree o)))) as (t & -> & Zt & T); try lia; auto.
  - apply (ov_perm _ V).
  - intros c _. eauto.
  - cbn [bind]. exists t. split; [apply saveValues_spec; [lia | auto]|]. intros p Hpp. destruct (T p Hpp) as (c & Hc & Hpc & Ec). injection Ec as Ec. rewrite <- Ec. now apply Rb.
Qed.

Lemma orderSaveTree_spec o vlbl j1 j2 j3 : order_valid o -> o_vnod o <= zlen (o_peri o) -> zlen (leaves (o_tree o)) + 1 <= zlen j1 -> o_cblknbr o <= zlen j2 -> o_vnod o <= zlen j3 ->
  (forall lt, vlbl = Some lt -> o_vnod o <= zlen lt) ->
  exists t, orderSaveTree o vlbl j1 j2 j3 = Ok (line1 (o_vnod o) ++ lines (fun v => line2 (match vlbl with Some lt => at_ (o_base o) lt v | None => v end) (at_ (o_base o) t v)) (o_base o) (o_base o + o_vnod o)) /\
    forall p, o_base o <= p < o_base o + o_vnod o -> exists c, in_block o p c /\ at_ (o_base o) t (at_ (o_base o) (o_peri o) p) = at_ 0 (fathers (o_tree o) (o_base o) (-1)) c.
Proof.
  intros V Hp H1 H2 H3 Hl. destruct (orderRang_blocks o j1 V H1) as (rang & E & Zr & R0 & Rn & Rm & Rb). unfold orderSaveTree. rewrite E. cbn [bind].
  destruct (leaves_pos _ (ov_tree _ V)) as (Lp & _). assert (Hv : 1 <= o_vnod o).
  { pose proof (ov_vnod _ V) as Ev. pose proof (ov_tree _ V) as T. destruct (o_tree o) as [ty v m [l|]]; cbn in T, Ev; lia. }
  pose proof (ov_cblk _ V) as Ec. rewrite (orderTree_spec o j2 (ov_tree _ V) Ec H2). cbn [bind]. set (tree := blit _ _ _ _).
  assert (Zt' : zlen tree = zlen j2) by (unfold tree; rewrite zlen_blit; rewrite ?zlen_fathers; lia).
  assert (At : forall c, 0 <= c < zlen (leaves (o_tree o)) -> at_ 0 tree c = at_ 0 (fathers (o_tree o) (o_base o) (-1)) c).
  { intros c Hc. assert (F : zlen (fathers (o_tree o) (o_base o) (-1)) = zlen (leaves (o_tree o))) by apply zlen_fathers.
    pose proof (at_blit (o_base o) j2 (o_base o) (fathers (o_tree o) (o_base o) (-1)) (c + o_base o) ltac:(lia) ltac:(lia) ltac:(lia)) as A. fold tree in A.
    replace ((o_base o <=? c + o_base o) && (c + o_base o <? o_base o + zlen (fathers (o_tree o) (o_base o) (-1)))) with true in A by lia.
    rewrite (at_rebase 0 (o_base o) tree) in A. rewrite (at_rebase 0 (o_base o) (fathers _ _ _)) in A. now replace (c + o_base o - o_base o + 0) with c in A by lia. }
  destruct (blockValues_spec o rang (fun c => rd 0 tree c) j3 (zlen (leaves (o_tree o)))) as (t & -> & Zt & T); try lia; auto.
  - apply (ov_perm _ V).
  - intros c Hc. rewrite rd_ok by lia. eauto.
  - cbn [bind]. exists t. split; [apply saveValues_spec; [lia | auto]|]. intros p Hpp. destruct (T p Hpp) as (c & Hc & Hpc & Ecc). exists c. split; [now apply Rb|].
    rewrite rd_ok in Ecc by lia. injection Ecc as Ecc. rewrite <- Ecc. now apply At.
Qed.

(** The check always answers *)
Lemma orderCheck2_total t : tree_readable t -> forall st, (exists r, orderCheck2 t st = Ok r) \/ orderCheck2 t st = Err 1.
Proof.
  induction t as [ty v n | ty v n l IH] using cblk_ind'; intros R st.
  - cbn. destruct (v <? 1); [auto|]. destruct (negb (ty =? ORDERCBLKLEAF)); [auto|]. destruct (negb (n =? 0)); [auto|]. eauto.
  - rewrite orderCheck2_eq. destruct (v <? 1); [auto|]. destruct (negb _ && negb _ && negb _); [auto|]. destruct (_ || _) eqn:E; [auto|]. destruct R as (Rl & Rs).
    assert (A : forall k sum st, zlen l = Z.max 0 k -> (exists r, checkSons l k sum st = Ok r) \/ checkSons l k sum st = Err 1).
    { clear - IH Rs. induction IH as [|c l Hc Hl IHl]; intros k sum st Hk; cbn [checkSons].
      - unfold zlen in Hk; cbn in Hk. destruct (Z.leb_spec k 0); [eauto | lia].
      - rewrite zlen_cons in Hk. pose proof (zlen_nonneg l). destruct (Z.leb_spec k 0); [eauto|]. destruct Rs as (Rc & Rs). destruct (Hc Rc st) as [(r & ->)| ->]; cbn [bind]; [|auto]. apply IHl; [auto | lia]. }
    destruct (A n 0 (fst st + (n - 1), snd st + n) Rl) as [((sum & st') & ->)| ->]; cbn [bind]; [|auto]. destruct (negb _); eauto.
Qed.
Lemma orderCheck_total o : o_vnod o <= zlen (o_peri o) -> tree_readable (o_tree o) -> orderCheck o = Ok tt \/ orderCheck o = Err 1.
Proof.
  intros Hz R. unfold orderCheck. destruct (negb _); [auto|]. destruct (_ || _); [auto|]. destruct (Z.ltb_spec (o_vnod o) 0); [auto|].
  set (b := o_base o). set (n := o_vnod o) in *.
  match goal with |- context [bind ?r _] => set (r1 := r) end.
  assert (A : (exists perm, r1 = Ok perm /\ zlen perm = n) \/ r1 = Err 1).
  { assert (W : wp r1 (fun p => zlen p = n) (fun e => e = 1)).
    { apply wp_for with (I := fun _ p => zlen p = n); [lia | rewrite zlen_repeat; lia | | auto].
      intros k p Hk I1. rewrite rd_ok by lia. cbn [bind]. destruct ((_ <? b) || _) eqn:Ex; [reflexivity|]. rewrite rd_ok by lia. cbn [bind]. destruct (negb _); [reflexivity|]. apply wp_wr; [lia|]. now rewrite zlen_upd. }
    destruct r1 as [p|e| |]; cbn in W; try contradiction; [left; eauto | right; now subst]. }
  destruct A as [(perm & -> & Zp)| ->]; cbn [bind]; [|auto].
  match goal with |- context [bind ?r _] => set (r2 := r) end.
  assert (B : r2 = Ok tt \/ r2 = Err 1).
  { assert (W : wp r2 (fun _ => True) (fun e => e = 1)).
    { apply wp_for with (I := fun _ _ => True); [lia | auto | | auto]. intros k u Hk _. rewrite rd_ok by lia. cbn [bind]. destruct (_ =? -1); cbn; auto. }
    destruct r2 as [[]|e| |]; cbn in W; try contradiction; [auto | right; now subst]. }
  destruct B as [-> | ->]; cbn [bind]; [|auto]. destruct (orderCheck2_total _ R (1, 1)) as [((c & t) & ->)| ->]; cbn [bind]; [|auto]. destruct (negb _); [auto|]. destruct (negb _); auto.
Qed.
