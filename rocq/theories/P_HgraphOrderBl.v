(** Proofs about block splitting. *)
From Verif Require Import Base M_Int M_Graph M_Hgraph M_Order M_HgraphOrder M_HgraphOrderBl S_Graph S_Hgraph S_Order S_HgraphOrder.
From Verif Require Import P_GraphList P_Induce P_Rand P_Hgraph P_HgraphOrder P_HgraphOrder4.
From Coq Require Import Permutation.

Definition lsm (l : list Z) : Z := fold_right Z.add 0 l.
Lemma lsm_app l l' : lsm (l ++ l') = lsm l + lsm l'.
Proof. induction l as [|x l IH]; [reflexivity|]. cbn [app]. unfold lsm in *. cbn [fold_right]. lia. Qed.
Lemma lsm_perm l l' : Permutation l l' -> lsm l = lsm l'.
Proof. induction 1; unfold lsm in *; cbn [fold_right]; lia. Qed.
Lemma lsm_zsum f lo k : 0 <= k -> lsm (map f (zseq lo k)) = zsum lo (lo + k) f.
Proof.
  intros Hk. revert k Hk. apply (natlike_ind (fun k => lsm (map f (zseq lo k)) = zsum lo (lo + k) f)).
  - rewrite zsum_nil by lia. reflexivity.
  - intros k Hk IH. replace (Z.succ k) with (k + 1) by lia. rewrite zseq_snoc, map_app, lsm_app, IH by lia. replace (lo + (k + 1)) with (lo + k + 1) by lia. rewrite zsum_snoc by lia. cbn. lia.
Qed.

Record sizes (n m : Z) (sz : list Z) : Prop := {
  sz_pos : Forall (fun x => 1 <= x) sz;
  sz_sum : lsm sz = n;
  sz_nbr : 1 <= zlen sz <= m }.

(** Loads of consecutive blocks, given by their sizes, are at most [B]; [W] gives the load of the first positions *)
Inductive bal (W : Z -> Z) (B : Z) : list Z -> Prop :=
| bal_nil : bal W B []
| bal_snoc sz y : bal W B sz -> W (lsm sz + y) - W (lsm sz) <= B -> bal W B (sz ++ [y]).
Lemma bal_at W B sz : bal W B sz -> forall i, 0 <= i < zlen sz -> W (lsm (firstn (Z.to_nat (i + 1)) sz)) - W (lsm (firstn (Z.to_nat i) sz)) <= B.
Proof.
  induction 1 as [|sz y Hb IH Hy]; intros i Hi; [change (zlen (@nil Z)) with 0 in Hi; lia|]. rewrite zlen_snoc in Hi. destruct (Z.eq_dec i (zlen sz)) as [->|].
  - rewrite (firstn_all2 (n := Z.to_nat (zlen sz + 1))) by (rewrite app_length; cbn; unfold zlen; lia). rewrite firstn_app. replace (Z.to_nat (zlen sz) - length sz)%nat with O by (unfold zlen; lia). cbn [firstn]. rewrite app_nil_r, firstn_all2 by (unfold zlen; lia). rewrite lsm_app. replace (lsm [y]) with y by (cbn; lia). exact Hy.
  - rewrite !firstn_app. replace (Z.to_nat (i + 1) - length sz)%nat with O by (unfold zlen in *; lia). replace (Z.to_nat i - length sz)%nat with O by (unfold zlen in *; lia). cbn [firstn]. rewrite !app_nil_r. apply IH. lia.
Qed.
Lemma bal_le W B B' sz : bal W B sz -> B <= B' -> bal W B' sz.
Proof. induction 1 as [|sz y Hb IH Hy]; intros Hle; constructor; [now apply IH|lia]. Qed.
Lemma bal_one W B n : W n - W 0 <= B -> bal W B [n].
Proof. intros H. change [n] with ([] ++ [n]). constructor; [constructor|]. exact H. Qed.
Lemma bal_even W B sz : (forall k, 0 <= k -> W k = k) -> Forall (fun x => 1 <= x <= B) sz -> 0 <= lsm sz /\ bal W B sz.
Proof.
  intros HW. induction sz as [|y sz IH] using rev_ind; intros F; [split; [cbn; lia|constructor]|]. apply Forall_app in F. destruct F as [F1 F2]. inversion F2; subst. destruct (IH F1) as [L Hb]. rewrite lsm_app. replace (lsm [y]) with y by (cbn; lia). split; [lia|]. constructor; [exact Hb|]. rewrite !HW by lia. lia.
Qed.

(** ** Even splitting *)
Lemma even_ok n c : 1 <= c <= n -> exists sz, blEven n c c = map leaf sz /\ sizes n c sz /\ zlen sz = c /\ Forall (fun x => n / c <= x <= n / c + 1) sz.
Proof.
  intros Hc. exists (map (datasize n c) (zseq 0 c)). unfold blEven. rewrite map_map. split; [reflexivity|].
  assert (Zl : zlen (map (datasize n c) (zseq 0 c)) = c) by (rewrite zlen_map; apply zlen_zseq; lia).
  assert (Fa : Forall (fun x => n / c <= x <= n / c + 1) (map (datasize n c) (zseq 0 c))). { apply Forall_forall. intros x Hx. apply in_map_iff in Hx. destruct Hx as (i & <- & Hi). apply In_zseq in Hi. apply datasize_bounds; lia. }
  split; [|auto]. constructor.
  - apply Forall_forall. intros x Hx. rewrite Forall_forall in Fa. specialize (Fa x Hx). assert (1 <= n / c) by (apply Z.div_le_lower_bound; lia). lia.
  - rewrite lsm_zsum by lia. rewrite <- (datascan_p n c) at 2 by lia. replace (0 + c) with c by lia.
    assert (Q : forall j, 0 <= j -> j <= c -> zsum 0 j (datasize n c) = datascan n c j); [|apply Q; lia].
    apply (natlike_ind (fun j => j <= c -> zsum 0 j (datasize n c) = datascan n c j)); [intros _; rewrite zsum_nil, datascan_0 by lia; reflexivity|].
    intros j Hj IH Hjc. replace (Z.succ j) with (j + 1) by lia. rewrite zsum_snoc, IH, datascan_succ by lia. reflexivity.
  - lia.
Qed.

(** ** Splitting by loads *)
Section Loads.
Variables (h : hgraph) (vl peri : list Z) (c : Z).
Let n := vnohnbr h.
Let b := baseval (hs h).
Let tot := vnlosum h.
Let W k := zsum 0 k (fun i => at_ b vl (at_ 0 peri i)).
Hypothesis Hn : 1 <= n.
Hypothesis Hc : 1 <= c.
Hypothesis HP : n <= zlen peri.
Hypothesis HI : forall i, 0 <= i < n -> b <= at_ 0 peri i < b + zlen vl.
Hypothesis HL : forall i, 0 <= i < n -> 1 <= at_ b vl (at_ 0 peri i).
Hypothesis HT : W n = tot.
Variable M : Z.
Hypothesis HM : forall i, 0 <= i < n -> at_ b vl (at_ 0 peri i) <= M.

Lemma W_mono i j : 0 <= i <= j -> j <= n -> W i + (j - i) <= W j.
Proof.
  intros Hi Hj. unfold W. rewrite (zsum_split 0 i j) by lia. assert (zsum i j (fun _ => 1) <= zsum i j (fun i => at_ b vl (at_ 0 peri i))) by (apply zsum_le; intros x Hx; apply HL; lia). rewrite zsum_const in H by lia. lia.
Qed.
Lemma W_0 : W 0 = 0. Proof. unfold W. apply zsum_nil. lia. Qed.

Lemma bound_ok lo idx : 0 <= idx <= c -> datascan tot c idx <= lo -> 0 <= lo < tot ->
  wp (blBound tot c lo idx) (fun '(idx', mx) => idx < idx' <= c /\ mx = datascan tot c idx' /\ lo < mx <= tot /\ mx <= lo + tot / c + 1) noerr.
Proof.
  intros Hi Hs Hl. pose proof (datascan_p tot c ltac:(lia) ltac:(lia)) as Dp. assert (idx < c) by (destruct (Z.eq_dec idx c) as [->|]; lia). unfold blBound.
  apply wp_loop with (I := fun j => idx <= j < c /\ datascan tot c j <= lo) (m := fun j => c - j); [lia|lia|]. intros j Hj. destruct (datascan tot c (j + 1) <=? lo) eqn:E; cbn [wp].
  - assert (j + 1 <> c) by (intros Q; rewrite Q in E; lia). lia.
  - split; [lia|]. split; [reflexivity|]. pose proof (datascan_mono tot c (j + 1) c ltac:(lia) ltac:(lia) ltac:(lia) ltac:(lia)). pose proof (datascan_succ tot c j ltac:(lia)). pose proof (datasize_bounds tot c j ltac:(lia) ltac:(lia) ltac:(lia)). lia.
Qed.

Lemma fill_ok mx k : 0 <= k < n -> W k < mx <= tot ->
  wp (blFill (S (length peri)) b vl peri mx (W k) k) (fun '(lo, k') => k < k' <= n /\ lo = W k' /\ mx <= lo < mx + M) noerr.
Proof.
  intros Hk Hm. unfold blFill. apply wp_loop with (I := fun '(lo, j) => k <= j < n /\ lo = W j /\ lo < mx) (m := fun '(lo, j) => n - j); [lia|unfold zlen in HP; lia|].
  intros (lo, j) (Hj & -> & Hlo). rewrite rd_ok by lia. cbn [bind]. rewrite rd_ok by (apply HI; lia). cbn [bind].
  assert (E : W j + at_ b vl (at_ 0 peri j) = W (j + 1)) by (unfold W; rewrite zsum_snoc by lia; reflexivity). rewrite E. destruct (W (j + 1) <? mx) eqn:El; cbn [wp].
  - assert (j + 1 < n); [|split; [|lia]; split; [lia|]; split; [reflexivity|lia]]. destruct (Z.eq_dec (j + 1) n) as [Q|]; [rewrite Q in El; lia|lia].
  - split; [lia|]. split; [reflexivity|]. pose proof (HM j ltac:(lia)). lia.
Qed.

Lemma loads_ok : wp (blLoads h vl peri c (Z.min c n)) (fun l => exists sz, l = map leaf sz /\ sizes n c sz /\ bal W (tot / c + M) sz) noerr.
Proof.
  pose proof W_0 as W0. pose proof (W_mono 0 n ltac:(lia) ltac:(lia)) as Wn. unfold blLoads. fold n b tot.
  apply wp_loop with (I := fun '(lo, k, idx, l) => exists sz, l = map leaf sz /\ Forall (fun x => 1 <= x) sz /\ lsm sz = k /\ 0 <= k < n /\ lo = W k /\ lo < tot /\ 0 <= idx <= c /\ datascan tot c idx <= lo /\ zlen sz <= idx /\ zlen sz <= k /\ bal W (tot / c + M) sz) (m := fun '(lo, k, idx, l) => n - k).
  - exists []. split; [reflexivity|]. split; [constructor|]. split; [reflexivity|]. rewrite datascan_0 by lia. change (zlen (@nil Z)) with 0. repeat (split; [lia|]). constructor.
  - unfold zlen in HP. lia.
  - intros (((lo, k), idx), l) (sz & -> & Fp & Sm & Hk & -> & Hlo & Hi & Hs & Z1 & Z2 & Bl). pose proof (W_mono 0 k ltac:(lia) ltac:(lia)) as Wk.
    apply wp_bind. eapply wp_mono; [apply bound_ok; [lia|exact Hs|lia]|]. intros (idx', mx) (Hi' & Em & Hm & Hx). cbn beta iota.
    apply wp_bind. eapply wp_mono; [apply fill_ok; [lia|lia]|]. intros (lo', k') (Hk' & -> & Hge). cbn beta iota. rewrite zlen_map. replace (Z.min c n <=? zlen sz) with false by lia.
    assert (El : map leaf sz ++ [leaf (k' - k)] = map leaf (sz ++ [k' - k])) by (rewrite map_app; reflexivity). rewrite El.
    assert (Fp' : Forall (fun x => 1 <= x) (sz ++ [k' - k])) by (apply Forall_app; split; [exact Fp|repeat constructor; lia]).
    assert (Sm' : lsm (sz ++ [k' - k]) = k') by (rewrite lsm_app, Sm; cbn; lia). assert (Bl' : bal W (tot / c + M) (sz ++ [k' - k])) by (constructor; [exact Bl|]; rewrite Sm; replace (k + (k' - k)) with k' by lia; lia). destruct (W k' <? tot) eqn:Et; cbn [wp].
    + split; [|lia]. exists (sz ++ [k' - k]). rewrite zlen_snoc. split; [reflexivity|]. split; [exact Fp'|]. split; [exact Sm'|]. assert (k' <> n) by (intros ->; lia). repeat (split; [lia|]). exact Bl'.
    + exists (sz ++ [k' - k]). split; [reflexivity|]. split; [|exact Bl']. constructor; [exact Fp'| |rewrite zlen_snoc; pose proof (zlen_nonneg sz); lia]. rewrite Sm'. pose proof (W_mono k' n ltac:(lia) ltac:(lia)). lia.
Qed.
End Loads.

(** ** The method *)
Definition splits (h : hgraph) (o : Z) : bool :=
  match velotab (hs h) with
  | None => true
  | Some _ => (o =? 0) && (match vnumtab (hs h) with None => true | Some _ => false end) && forallb (fun v => 1 <=? velo (hs h) v) (zseq (baseval (hs h)) (vnohnbr h))
  end.

Lemma tree_sizes n m sz : 1 <= n -> sizes n m sz ->
  tree_ok (Cblk ORDERCBLKSEQU n (zlen sz) (Some (map leaf sz))) /\ leaves (Cblk ORDERCBLKSEQU n (zlen sz) (Some (map leaf sz))) = sz /\ nnodes (Cblk ORDERCBLKSEQU n (zlen sz) (Some (map leaf sz))) = 1 + zlen sz.
Proof.
  intros Hn [P S_ N]. split; [|split].
  - cbn [tree_ok]. split; [right; split; [auto|lia]|]. split; [exact Hn|]. split; [apply zlen_map|]. split.
    + rewrite <- S_. clear. induction sz as [|x sz IH]; [reflexivity|]. cbn [map]. unfold lsm, vsum in *. cbn [fold_right leaf c_vnod]. now rewrite IH.
    + clear - P. induction P as [|x sz Hx P IH]; [exact I|]. cbn [map fold_right]. split; [|exact IH]. cbn. auto.
  - cbn [leaves]. apply leaves_leafs.
  - cbn [nnodes]. f_equal. clear. induction sz as [|x sz IH]; [reflexivity|]. cbn [map fold_right leaf nnodes]. rewrite IH, zlen_cons. reflexivity.
Qed.

(** Load of the first [k] positions, where vertices have their own numbers *)
Definition pload (h : hgraph) (peri : list Z) (k : Z) : Z := zsum 0 k (fun i => velo (hs h) (at_ 0 peri i)).

Lemma bl_run h f blkmin sub top tot tr st o M : orders top tot tr true sub -> 1 <= blkmin -> hgraph_ok h -> 1 <= vnohnbr h -> 0 <= o ->
  o + vnohnbr h <= zlen (os_peri st) -> (top = true -> o = 0) -> splits h o = true ->
  (forall v, baseval (hs h) <= v < baseval (hs h) + vnohnbr h -> velo (hs h) v <= M) ->
  exists rc st' cb, hgraphOrderBl (S f) blkmin sub h st o (leaf (vnohnbr h)) = Ok (rc, st', cb) /\
    (rc = 0 -> ordered h st o st' cb /\ (forall A, respects A cb (seg (os_peri st') o (vnohnbr h))) /\
       zlen (leaves cb) <= Z.max 1 (vnlosum h / blkmin) /\
       (velotab (hs h) = None -> zlen (leaves cb) = Z.max 1 (vnohnbr h / blkmin) /\
          let q := vnohnbr h / zlen (leaves cb) in Forall (fun x => q <= x <= q + 1) (leaves cb)) /\
       (o = 0 -> vnumtab (hs h) = None -> bal (pload h (os_peri st')) (2 * blkmin + M - 1) (leaves cb))) /\
    (tot = true -> rc = 0).
Proof.
  intros Sb Hb Hok Hn Ho Hz Ht Sp HM. destruct (Sb h st o Hok Hn Ho Hz Ht) as (rc & st1 & cb & E & P & T). cbn [hgraphOrderBl]. replace (blkmin <=? 0) with false by lia. rewrite E. cbn [bind].
  destruct (Z.eqb_spec rc 0) as [->|Hne]; cbn [negb]; [|exists 1, st1, cb; split; [reflexivity|]; split; [lia|]; intros X; specialize (T X); contradiction].
  destruct (P eq_refl) as (O & _ & F). rewrite (F eq_refl) in *. cbn [leaf c_tab c_vnod]. destruct Hok as (_ & V).
  assert (Vl : vnlosum h = zsum (baseval (hs h)) (baseval (hs h) + vnohnbr h) (velo (hs h))). { pose proof (hv_vnlo _ V) as Q. cbn in Q. pose proof (hv_nnd _ V) as Q'. cbn in Q'. rewrite Q' in Q. exact Q. }
  assert (Zs : zlen (seg (os_peri st1) o (vnohnbr h)) = vnohnbr h) by (apply zlen_seg; lia).
  assert (U : velotab (hs h) = None -> vnlosum h = vnohnbr h). { intros N. rewrite Vl. rewrite (zsum_ext _ _ _ (fun _ => 1)); [rewrite zsum_const by lia; lia|]. intros i _. unfold velo. now rewrite N. }
  assert (Vg : vnohnbr h <= vnlosum h).
  { unfold splits in Sp. destruct (velotab (hs h)) as [vl|] eqn:Ev; [|rewrite U by reflexivity; lia]. apply andb_prop in Sp. destruct Sp as [_ Sp]. rewrite forallb_forall in Sp.
    assert (Q : zsum (baseval (hs h)) (baseval (hs h) + vnohnbr h) (fun _ => 1) <= vnlosum h); [|rewrite zsum_const in Q by lia; lia]. rewrite Vl. apply zsum_le. intros v Hv. apply Z.leb_le. apply Sp. apply In_zseq. lia. }
  assert (Vm : vnlosum h <= vnohnbr h * M). { rewrite Vl. replace (vnohnbr h * M) with (zsum (baseval (hs h)) (baseval (hs h) + vnohnbr h) (fun _ => M)) by (rewrite zsum_const by lia; lia). apply zsum_le. intros v Hv. apply HM. lia. }
  assert (Hm1 : 1 <= M) by nia.
  assert (Pm : o = 0 -> vnumtab (hs h) = None -> Permutation (seg (os_peri st1) 0 (vnohnbr h)) (zseq (baseval (hs h)) (vnohnbr h))). { intros -> Vn. pose proof (od_perm _ _ _ _ _ O) as Q. rewrite map_ext_in with (g := fun x => x) in Q; [now rewrite map_id in Q|]. intros x _. unfold orgnum. now rewrite Vn. }
  assert (Wt : o = 0 -> vnumtab (hs h) = None -> pload h (os_peri st1) (vnohnbr h) = vnlosum h).
  { intros Eo Vn. rewrite Vl. rewrite <- lsm_zsum by lia. rewrite <- (lsm_perm _ _ (Permutation_map (velo (hs h)) (Pm Eo Vn))). unfold seg. rewrite map_map. rewrite lsm_zsum by lia. reflexivity. }
  assert (W0 : pload h (os_peri st1) 0 = 0) by (apply zsum_nil; lia).
  destruct (Z.leb_spec (vnohnbr h) 1) as [H1|H1]; [|destruct (Z.ltb_spec (vnlosum h) (2 * blkmin)) as [H2|H2]]; cbn [orb].
  - exists 0, st1, (leaf (vnohnbr h)). split; [reflexivity|]. split; [|auto]. intros _. split; [exact O|]. split; [intros A; constructor; exact Zs|]. cbn [leaves leaf]. change (zlen [vnohnbr h]) with 1. split; [lia|]. split; [|intros Eo Vn; apply bal_one; rewrite (Wt Eo Vn), W0; nia]. intros N. split.
    + assert (vnohnbr h / blkmin <= 1) by (apply Z.div_le_upper_bound; lia). lia.
    + cbv zeta. rewrite Z.div_1_r. repeat constructor; lia.
  - exists 0, st1, (leaf (vnohnbr h)). split; [reflexivity|]. split; [|auto]. intros _. split; [exact O|]. split; [intros A; constructor; exact Zs|]. cbn [leaves leaf]. change (zlen [vnohnbr h]) with 1. split; [lia|]. split; [|intros Eo Vn; apply bal_one; rewrite (Wt Eo Vn), W0; lia]. intros N. split.
    + assert (vnohnbr h / blkmin < 2) by (apply Z.div_lt_upper_bound; lia). lia.
    + cbv zeta. rewrite Z.div_1_r. repeat constructor; lia.
  - rewrite Z.quot_div_nonneg by lia. set (c := vnlosum h / blkmin). assert (Hc : 2 <= c <= vnlosum h) by (unfold c; split; [apply Z.div_le_lower_bound; lia|apply Z.div_le_upper_bound; nia]).
    assert (Hq : vnlosum h / c < 2 * blkmin). { apply Z.div_lt_upper_bound; [lia|]. pose proof (Z.mul_succ_div_gt (vnlosum h) blkmin ltac:(lia)) as Q. fold c in Q. nia. }
    assert (Fin : forall l sz, l = map leaf sz -> sizes (vnohnbr h) c sz ->
      (velotab (hs h) = None -> zlen sz = c /\ let q := vnohnbr h / c in Forall (fun x => q <= x <= q + 1) sz) ->
      (o = 0 -> vnumtab (hs h) = None -> bal (pload h (os_peri st1)) (2 * blkmin + M - 1) sz) ->
      exists rc st' cb, Ok (0, mkost (os_peri st1) (os_cblk st1 + zlen sz - 1) (os_tree st1 + zlen sz), Cblk ORDERCBLKSEQU (vnohnbr h) (zlen sz) (Some l)) = Ok (rc, st', cb) /\
        (rc = 0 -> ordered h st o st' cb /\ (forall A, respects A cb (seg (os_peri st') o (vnohnbr h))) /\
           zlen (leaves cb) <= Z.max 1 c /\
           (velotab (hs h) = None -> zlen (leaves cb) = Z.max 1 (vnohnbr h / blkmin) /\ let q := vnohnbr h / zlen (leaves cb) in Forall (fun x => q <= x <= q + 1) (leaves cb)) /\
           (o = 0 -> vnumtab (hs h) = None -> bal (pload h (os_peri st')) (2 * blkmin + M - 1) (leaves cb))) /\
        (tot = true -> rc = 0)).
    { intros l sz -> Sz Ev Eb. exists 0, (mkost (os_peri st1) (os_cblk st1 + zlen sz - 1) (os_tree st1 + zlen sz)), (Cblk ORDERCBLKSEQU (vnohnbr h) (zlen sz) (Some (map leaf sz))). split; [reflexivity|]. split; [|auto]. intros _.
      destruct (tree_sizes _ _ _ Hn Sz) as (T1 & T2 & T3). destruct O as [O1 O2 O3 O4 O5 O6 O7]. cbn [leaves leaf nnodes] in O6, O7. change (zlen [vnohnbr h]) with 1 in O6. split; [|split; [|split; [|split]]].
      - constructor; cbn [os_peri os_cblk os_tree c_vnod]; auto; [rewrite T2; lia|rewrite T3; lia].
      - intros A. cbn [os_peri]. constructor. rewrite Zs. exact (sz_sum _ _ _ Sz).
      - rewrite T2. pose proof (sz_nbr _ _ _ Sz). lia.
      - intros N. rewrite T2. destruct (Ev N) as (Z1 & Z2). rewrite Z1. split; [|exact Z2]. rewrite <- (U N). fold c. lia.
      - rewrite T2. exact Eb. }
    unfold splits in Sp. destruct (velotab (hs h)) as [vl|] eqn:Ev.
    + apply andb_prop in Sp. destruct Sp as [Sp Sl]. apply andb_prop in Sp. destruct Sp as [So Sv]. assert (o = 0) by lia. subst o. rewrite forallb_forall in Sl.
      assert (Vn : vnumtab (hs h) = None) by (destruct (vnumtab (hs h)); [discriminate|reflexivity]).
      assert (Hv : velo (hs h) = fun v => at_ (baseval (hs h)) vl v) by (unfold velo; rewrite Ev; reflexivity).
      assert (Zv : vnohnbr h <= zlen vl). { pose proof (gr_velo _ (hv_read _ V) vl Ev) as Q. pose proof (hv_nbr _ V) as Q'. cbn in Q, Q'. lia. }
      specialize (Pm eq_refl Vn). specialize (Wt eq_refl Vn).
      assert (In_ : forall i, 0 <= i < vnohnbr h -> baseval (hs h) <= at_ 0 (os_peri st1) i < baseval (hs h) + vnohnbr h).
      { intros i Hi. apply In_zseq. apply (Permutation_in _ Pm). unfold seg. apply in_map. apply In_zseq. lia. }
      assert (Ew : pload h (os_peri st1) = fun k => zsum 0 k (fun i => at_ (baseval (hs h)) vl (at_ 0 (os_peri st1) i))) by (unfold pload; rewrite Hv; reflexivity). rewrite Ew in *.
      assert (Q : wp (blLoads h vl (os_peri st1) c (Z.min c (vnohnbr h))) (fun l => exists sz, l = map leaf sz /\ sizes (vnohnbr h) c sz /\ bal (fun k => zsum 0 k (fun i => at_ (baseval (hs h)) vl (at_ 0 (os_peri st1) i))) (vnlosum h / c + M) sz) noerr).
      { apply loads_ok; [lia|lia|pose proof (od_len _ _ _ _ _ O); lia|intros i Hi; specialize (In_ i Hi); lia| | |].
        - intros i Hi. specialize (In_ i Hi). apply Z.leb_le. specialize (Sl (at_ 0 (os_peri st1) i)). rewrite Hv in Sl. apply Sl. apply In_zseq. lia.
        - exact Wt.
        - intros i Hi. specialize (In_ i Hi). rewrite Hv in HM. apply HM. lia. }
      apply wp_ok_inv in Q. destruct Q as (l & El & sz & -> & Sz & Bl). rewrite El. cbn [bind]. rewrite zlen_map. apply Fin; [reflexivity|exact Sz|discriminate|]. intros _ _. apply (bal_le _ _ _ _ Bl). lia.
    + pose proof (U eq_refl) as Eu. replace (Z.min c (vnohnbr h)) with c by lia. cbn [bind]. destruct (even_ok (vnohnbr h) c ltac:(lia)) as (sz & Es & Sz & Zz & Fz).
      assert (Eb : bal (pload h (os_peri st1)) (2 * blkmin + M - 1) sz).
      { apply bal_even; [|apply Forall_forall; intros x Hx; pose proof (proj1 (Forall_forall _ _) Fz x Hx) as Q; pose proof (proj1 (Forall_forall _ _) (sz_pos _ _ _ Sz) x Hx) as Q'; cbn beta in Q, Q'; rewrite Eu in Hq; lia].
        intros k Hk. unfold pload. rewrite (zsum_ext _ _ _ (fun _ => 1)); [rewrite zsum_const by lia; lia|]. intros i _. unfold velo. now rewrite Ev. }
      replace (blEven (vnlosum h) c c) with (map leaf sz) by (rewrite Eu; auto). pose proof (Fin (map leaf sz) sz eq_refl Sz (fun _ => conj Zz Fz) (fun _ _ => Eb)) as Q. rewrite Zz in Q. exact Q.
Qed.

(** The method, where it is sound, and simple ordering elsewhere *)
Definition blOrSi (f : nat) (blkmin : Z) (sub : ometh) : ometh := fun h st o cb =>
  if splits h o then hgraphOrderBl (S f) blkmin sub h st o cb else hgraphOrderSi h st o cb.
Lemma load_bound h : exists M, forall v, baseval (hs h) <= v < baseval (hs h) + vnohnbr h -> velo (hs h) v <= M.
Proof.
  destruct (Z.le_gt_cases 0 (vnohnbr h)) as [Hn|Hn]; [|exists 0; intros; lia].
  exists (zsum (baseval (hs h)) (baseval (hs h) + vnohnbr h) (fun v => Z.max 0 (velo (hs h) v))). intros v Hv.
  rewrite (zsum_split _ v) by lia. rewrite (zsum_split v (v + 1)) by lia.
  assert (A : forall lo hi f, lo <= hi -> 0 <= zsum lo hi (fun v => Z.max 0 (f v))). { intros lo hi f Hl. replace 0 with (zsum lo hi (fun _ => 0)) at 1 by (rewrite zsum_const by lia; lia). apply zsum_le. intros; lia. }
  pose proof (A (baseval (hs h)) v (velo (hs h)) ltac:(lia)). pose proof (A (v + 1) (baseval (hs h) + vnohnbr h) (velo (hs h)) ltac:(lia)). rewrite (zsum_snoc v v) by lia. rewrite (zsum_nil v v) by lia. lia.
Qed.
Lemma blOrSi_good f blkmin sub top tot tr : orders top tot tr true sub -> 1 <= blkmin -> orders top tot true false (blOrSi f blkmin sub).
Proof.
  intros Sb Hb h st o Ok_ Hn Ho Hz Ht. unfold blOrSi. destruct (splits h o) eqn:E.
  - destruct (load_bound h) as [M HM]. destruct (bl_run h f blkmin sub top tot tr st o M Sb Hb Ok_ Hn Ho Hz Ht E HM) as (rc & st' & cb & R & P & T). exists rc, st', cb. split; [exact R|]. split; [|exact T]. intros Z. destruct (P Z) as (P1 & P2 & _). split; [exact P1|]. split; [intros _ A _; apply P2|discriminate].
  - exact (si_good top tot true false h st o Ok_ Hn Ho Hz Ht).
Qed.
