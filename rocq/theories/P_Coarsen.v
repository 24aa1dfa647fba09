(** Proofs about coarse graph building: multinodes and hash table. *)
From Verif Require Import Base M_Int M_Graph M_Match M_Coarsen S_Graph S_Color S_Match S_Coarsen P_Graph P_GraphList P_Induce P_Vgraph P_Match P_Match2.

(** ** Multinodes *)
Section Mult.
Context (g : graph) (V : graph_valid g) (HB : 0 <= baseval g) (mate : list Z) (IM : is_matching g mate).
Notation b := (baseval g).
Notation mt v := (at_ b mate v).

Record multok (n : Z) (fc : list Z) (mult : list (Z * Z)) : Prop := {
  mo_fc : zlen fc = vertnbr g;
  mo_mult : zlen mult = n;
  mo_v : forall v, isvert g v -> b <= at_ b fc v < b + n /\ (v = fst (at_ b mult (at_ b fc v)) \/ v = snd (at_ b mult (at_ b fc v)));
  mo_c : forall c, b <= c < b + n -> exists v0 v1, at_ b mult c = (v0, v1) /\ isvert g v0 /\ isvert g v1 /\ v0 <= v1 /\ mt v0 = v1 /\ mt v1 = v0 /\ at_ b fc v0 = c /\ at_ b fc v1 = c }.

Lemma coarMult_ok : exists fc mult, coarMult g mate (groups g mate) = Ok (fc, mult) /\ multok (groups g mate) fc mult.
Proof.
  pose proof (gv_nnd g V) as Hn. pose proof (gv_size g V) as Hn0. destruct IM as (Lm & IM'). unfold coarMult. set (N := groups g mate). set (p := fun v => v <=? mt v).
  assert (HN : N = zcount b (vertnnd g) p) by reflexivity. assert (HN0 : 0 <= N) by (rewrite HN; apply zcount_nonneg).
  assert (CB : forall v, b <= v <= vertnnd g -> zcount b v p <= v - b).
  { intros v Hv. unfold zcount. replace (v - b) with ((v - b) * 1) by lia. rewrite <- zsum_const by lia. apply zsum_le. intros i Hi. unfold p, b2z. destruct (i <=? mt i); lia. }
  match goal with |- exists fc mult, bind ?r _ = _ /\ _ => destruct (wp_ok_inv r (fun '(fc, mult, c) => multok N fc mult)) as (((fc & mult) & c) & -> & H) end; [|cbn [bind]; eauto].
  apply wp_for with (I := fun v '(fc, mult, c) => zlen fc = vertnbr g /\ zlen mult = N /\ c = b + zcount b v p /\
    (forall u, isvert g u -> u < v \/ mt u < v -> b <= at_ b fc u < c /\ (u = fst (at_ b mult (at_ b fc u)) \/ u = snd (at_ b mult (at_ b fc u)))) /\
    (forall u, isvert g u -> v <= u -> v <= mt u -> at_ b fc u = mt u) /\
    (forall k, b <= k < c -> exists v0 v1, at_ b mult k = (v0, v1) /\ isvert g v0 /\ isvert g v1 /\ v0 <= v1 /\ v0 < v /\ mt v0 = v1 /\ mt v1 = v0 /\ at_ b fc v0 = k /\ at_ b fc v1 = k)).
  - lia.
  - split; [auto|]. split; [rewrite zlen_repeat; lia|]. split; [rewrite zcount_nil by lia; lia|]. split; [|split].
    + intros u Hu [H|H]; [destruct Hu; lia|]. destruct (IM' u Hu) as ((H1 & _) & _). lia.
    + auto.
    + intros k Hk. lia.
  - intros v ((fc & mult) & c) Hv (L1 & L2 & Ec & HA & HBB & HC). assert (Vv : isvert g v) by (split; lia). rewrite rd_ok by lia. cbn [bind]. destruct (IM' v Vv) as (Vm & Em).
    assert (Cv : c <= v) by (specialize (CB v ltac:(lia)); lia). rewrite zcount_snoc by lia.
    destruct (Z.leb_spec v (at_ b fc v)) as [Hle|Hlt].
    + assert (Hmv : v <= mt v). { destruct (Z.leb_spec v (mt v)); [auto|]. destruct (HA v Vv (or_intror H)) as (H1 & _). lia. }
      rewrite (HBB v Vv ltac:(lia) Hmv). set (m := mt v) in *. assert (Pv : p v = true) by (unfold p; fold m; apply Z.leb_le; auto). rewrite Pv. cbn [b2z].
      assert (Hc : c < b + N).
      { rewrite HN. assert (zcount b (v + 1) p <= zcount b (vertnnd g) p) by (unfold zcount; apply zsum_mono; [lia|]; intros i _; unfold b2z; destruct (p i); lia). rewrite zcount_snoc, Pv in H by lia. cbn [b2z] in H. lia. }
      assert (Hc0 : b <= c) by (rewrite Ec; pose proof (zcount_nonneg b v p); lia).
      rewrite wr_ok by lia. cbn [bind]. rewrite wr_ok by lia. cbn [bind]. rewrite wr_ok by (rewrite zlen_upd; destruct Vm; lia). cbn [bind wp].
      assert (AF : forall u, isvert g u -> at_ b (upd b (upd b fc v c) m c) u = if m =? u then c else if v =? u then c else at_ b fc u).
      { intros u (U1 & U2). rewrite at_upd by (rewrite ?zlen_upd; destruct Vm; lia). destruct (m =? u); [auto|]. rewrite at_upd by lia. auto. }
      assert (AM : forall k, b <= k -> at_ b (upd b mult c (v, m)) k = if c =? k then (v, m) else at_ b mult k) by (intros k Hk; rewrite at_upd by lia; auto).
      rewrite !zlen_upd. split; [auto|]. split; [auto|]. split; [lia|]. split; [|split].
      * intros u Hu H. rewrite AF by auto. destruct (Z.eqb_spec m u) as [E|N1].
        -- split; [lia|]. rewrite AM by lia. rewrite Z.eqb_refl. cbn [fst snd]. auto.
        -- destruct (Z.eqb_spec v u) as [E|N2]; [split; [lia|]; rewrite AM by lia; rewrite Z.eqb_refl; cbn [fst snd]; auto|].
           destruct (HA u Hu) as (H1 & H2). { destruct H as [H|H]; [left; lia|]. right. destruct (Z.eq_dec (mt u) v) as [E|]; [|lia]. exfalso. apply N1. unfold m. rewrite <- E. apply IM'; auto. }
           split; [lia|]. rewrite AM by lia. destruct (Z.eqb_spec c (at_ b fc u)); [lia|auto].
      * intros u Hu H1 H2. rewrite AF by auto. destruct (Z.eqb_spec m u) as [E|N1]; [exfalso; rewrite <- E in H2; lia|]. destruct (Z.eqb_spec v u); [lia|]. apply HBB; auto; lia.
      * intros k Hk. rewrite AM by lia. destruct (Z.eqb_spec c k) as [<-|N1].
        -- exists v, m. split; [auto|]. split; [auto|]. split; [auto|]. split; [auto|]. split; [lia|]. split; [auto|]. split; [auto|]. rewrite !AF by auto. rewrite !Z.eqb_refl. split; [destruct (m =? v); auto|auto].
        -- destruct (HC k ltac:(lia)) as (v0 & v1 & E & I0 & I1 & Hle' & Hlt & E1 & E2 & F0 & F1). exists v0, v1. split; [auto|]. split; [auto|]. split; [auto|]. split; [auto|]. split; [lia|]. split; [auto|]. split; [auto|].
           rewrite !AF by auto. assert (v0 <> m) by (intros ->; assert (v1 = v) by congruence; lia). assert (v1 <> v) by (intros ->; assert (m = v0) by (subst m; auto); congruence). assert (v1 <> m) by (intros ->; assert (v0 = v) by congruence; lia). split; eqbs; try lia.
    + assert (Hmv : mt v < v). { destruct (Z.ltb_spec (mt v) v); [auto|]. rewrite (HBB v Vv) in Hlt by lia. lia. }
      assert (Pv : p v = false) by (unfold p; apply Z.leb_gt; auto). rewrite Pv. cbn [b2z wp]. split; [auto|]. split; [auto|]. split; [lia|]. split; [|split].
      * intros u Hu H. apply HA; auto. destruct H as [H|H].
        -- destruct (Z.eq_dec u v) as [->|]; [right; auto|left; lia].
        -- destruct (Z.eq_dec (mt u) v) as [E|]; [|right; lia]. left. rewrite <- E in Hmv. destruct (IM' u Hu) as (_ & E'). rewrite E' in Hmv. rewrite E in Hmv. auto.
      * intros u Hu H1 H2. apply HBB; auto; lia.
      * intros k Hk. destruct (HC k Hk) as (v0 & v1 & H). exists v0, v1. intuition lia.
  - intros ((fc & mult) & c) (L1 & L2 & Ec & HA & HBB & HC). rewrite <- HN in Ec. constructor; auto.
    + intros v Hv. rewrite <- Ec. apply HA; auto. left. destruct Hv; auto.
    + intros k Hk. destruct (HC k ltac:(lia)) as (v0 & v1 & H). exists v0, v1. tauto.
Qed.
End Mult.

(** ** The hash table *)
Lemma coarHashMsk_ok dm : 0 <= dm -> exists k msk, coarHashMsk dm = Ok msk /\ 0 <= k /\ msk = 2 ^ k - 1 /\ 4 * dm <= msk.
Proof.
  intros Hd. unfold coarHashMsk.
  match goal with |- exists k msk, bind ?r _ = _ /\ _ => destruct (wp_ok_inv r (fun m => dm <= m /\ exists k, 0 <= k /\ m = 2 ^ k - 1)) as (m & -> & (Hm & k & Hk & ->)) end.
  { apply wp_loop with (I := fun m => 31 <= m /\ exists k, 0 <= k /\ m = 2 ^ k - 1) (m := fun m => Z.max 0 (dm - m)).
    - split; [lia|]. exists 5. split; [lia|reflexivity].
    - lia.
    - intros m (H1 & k & Hk & ->). destruct (Z.ltb_spec (2 ^ k - 1) dm) as [H|H]; cbn [wp]; [|split; [lia|eauto]]. split; [split; [lia|]|lia].
      exists (k + 1). split; [lia|]. rewrite Z.pow_add_r by lia. lia. }
  cbn [bind]. exists (k + 2), ((2 ^ k - 1) * 4 + 3). split; [auto|]. split; [lia|]. rewrite Z.pow_add_r by lia. split; lia.
Qed.

Fixpoint madd (d l : Z) (A : list (Z * Z)) : list (Z * Z) :=
  match A with
  | [] => [(d, l)]
  | (d', x) :: A => if d' =? d then (d', x + l) :: A else (d', x) :: madd d l A
  end.

Lemma madd_new d l A : ~ In d (map fst A) -> madd d l A = A ++ [(d, l)].
Proof.
  induction A as [|(d', x) A IH]; intros H; [reflexivity|]. cbn [madd map fst app] in *. destruct (Z.eqb_spec d' d); [exfalso; apply H; now left|]. rewrite IH; [reflexivity|]. intros I. apply H. now right.
Qed.
Lemma madd_found d l A k : NoDup (map fst A) -> 0 <= k < zlen A -> fst (at_ 0 A k) = d -> madd d l A = upd 0 A k (d, snd (at_ 0 A k) + l).
Proof.
  revert k. induction A as [|(d', x) A IH]; intros k ND Hk E; [change (zlen (@nil (Z * Z))) with 0 in Hk; lia|]. rewrite zlen_cons in Hk. cbn [map fst] in ND. inversion ND as [|? ? NI ND']; subst x0 l0.
  destruct (Z.eq_dec k 0) as [->|].
  - rewrite at_cons_0 in *. cbn [fst snd] in *. cbn [madd]. subst d'. rewrite Z.eqb_refl. reflexivity.
  - rewrite at_cons_S in * by lia. cbn [madd]. destruct (Z.eqb_spec d' d) as [->|]; [exfalso; apply NI; rewrite <- E; apply in_map, at_In; lia|]. rewrite (IH (k - 1)) by (auto; lia).
    unfold upd. replace (Z.to_nat (k - 0)) with (S (Z.to_nat (k - 1 - 0))) by lia. reflexivity.
Qed.

Lemma msk_land k msk x : 0 <= k -> msk = 2 ^ k - 1 -> Z.land x msk = x mod 2 ^ k.
Proof. intros Hk ->. replace (2 ^ k - 1) with (Z.ones k) by (rewrite Z.ones_equiv; lia). apply Z.land_ones. auto. Qed.

Section Hash.
Context (g : graph) (HB : 0 <= baseval g) (M msk : Z) (M_pos : 0 < M) (land_mod : forall x, Z.land x msk = x mod M).
Notation b := (baseval g).
Definition hm (x : Z) : Z := x mod M.
Lemma hm_bound x : 0 <= hm x < M. Proof. apply Z.mod_pos_bound. auto. Qed.
Lemma hm_small x : 0 <= x < M -> hm x = x. Proof. apply Z.mod_small. Qed.
Lemma hm_sub a i : 0 <= i < M -> hm (hm (a + i) - a) = i.
Proof. intros H. unfold hm. rewrite Zminus_mod_idemp_l. replace (a + i - a) with i by lia. apply Z.mod_small. auto. Qed.
Lemma hm_add a x : 0 <= x < M -> hm (a + hm (x - a)) = x.
Proof. intros H. unfold hm. rewrite Zplus_mod_idemp_r. replace (a + (x - a)) with x by lia. apply Z.mod_small. auto. Qed.
Lemma hm_succ a i : hm (hm (a + i) + 1) = hm (a + (i + 1)).
Proof. unfold hm. rewrite Zplus_mod_idemp_l. f_equal. lia. Qed.
Lemma hm_land x : Z.land x msk = hm x. Proof. apply land_mod. Qed.

Definition hsh (d : Z) : Z := hm (d * 1049).

Record hinv (c e0 : Z) (s : cedg) : Prop := {
  hi_len : zlen (horg s) = M /\ zlen (hend s) = M /\ zlen (hnum s) = M;
  hi_nxt : b <= e0 <= cnxt s;
  hi_old : forall x, 0 <= x < M -> at_ 0 (horg s) x <= c;
  hi_slot : forall x, 0 <= x < M -> at_ 0 (horg s) x = c -> e0 <= at_ 0 (hnum s) x < cnxt s /\ at_ b (cedge s) (at_ 0 (hnum s) x) = at_ 0 (hend s) x;
  hi_edge : forall e, e0 <= e < cnxt s -> exists x, 0 <= x < M /\ at_ 0 (horg s) x = c /\ at_ 0 (hnum s) x = e;
  hi_dist : forall x y, 0 <= x < M -> 0 <= y < M -> at_ 0 (horg s) x = c -> at_ 0 (horg s) y = c -> at_ 0 (hend s) x = at_ 0 (hend s) y -> x = y;
  hi_prob : forall x i, 0 <= x < M -> at_ 0 (horg s) x = c -> 0 <= i < hm (x - hsh (at_ 0 (hend s) x)) -> at_ 0 (horg s) (hm (hsh (at_ 0 (hend s) x) + i)) = c }.

(** the edges written so far for the current coarse vertex *)
Definition seg (s : cedg) (e0 : Z) (A : list (Z * Z)) : Prop :=
  zlen A = cnxt s - e0 /\ forall i, 0 <= i < zlen A -> at_ 0 A i = (at_ b (cedge s) (e0 + i), at_ b (cedlo s) (e0 + i)).

Lemma free_slot c e0 s : hinv c e0 s -> cnxt s - e0 < M -> exists x, 0 <= x < M /\ at_ 0 (horg s) x <> c.
Proof.
  intros [] Hc. pose proof M_pos as MP.
  assert (D : (exists x, 0 <= x < M /\ at_ 0 (horg s) x <> c) \/ forall x, 0 <= x < M -> at_ 0 (horg s) x = c).
  { assert (G : forall hi, 0 <= hi -> (exists x, 0 <= x < hi /\ at_ 0 (horg s) x <> c) \/ forall x, 0 <= x < hi -> at_ 0 (horg s) x = c).
    { apply zrange_ind; [right; intros; lia|]. intros i Hi [(x & Hx & N)|A]; [left; exists x; split; [lia|auto]|].
      destruct (Z.eq_dec (at_ 0 (horg s) i) c); [right|left; exists i; split; [lia|auto]]. intros x Hx. destruct (Z.eq_dec x i) as [->|]; [auto|apply A; lia]. }
    apply G. lia. }
  destruct D as [D|D]; [auto|]. exfalso.
  assert (ND : NoDup (map (fun x => at_ 0 (hnum s) x) (zseq 0 M))).
  { apply (NoDup_at 0). rewrite zlen_map, zlen_zseq by lia. intros i j Hi Hj. rewrite !at_map by (rewrite zlen_zseq; lia). rewrite !at_zseq by lia. intros E.
    assert (i = j); [|auto]. replace (0 + (i - 0)) with i in E by lia. replace (0 + (j - 0)) with j in E by lia. apply hi_dist0; auto; try lia. destruct (hi_slot0 i) as (_ & E1); [lia|apply D; lia|]. destruct (hi_slot0 j) as (_ & E2); [lia|apply D; lia|]. rewrite <- E1, <- E2, E. auto. }
  assert (IC : incl (map (fun x => at_ 0 (hnum s) x) (zseq 0 M)) (zseq e0 (cnxt s - e0))).
  { intros e I. apply in_map_iff in I as (x & <- & Ix). apply In_zseq in Ix. apply In_zseq. destruct (hi_slot0 x) as (H & _); [lia|apply D; lia|]. lia. }
  pose proof (NoDup_incl_length ND IC) as HL. rewrite map_length in HL. assert (zlen (zseq 0 M) <= zlen (zseq e0 (cnxt s - e0))) by (unfold zlen; lia). rewrite !zlen_zseq in H by lia. lia.
Qed.

Lemma coarHash_ok c d l s e0 A : hinv c e0 s -> seg s e0 A -> cnxt s - e0 < M -> cnxt s < b + zlen (cedge s) -> zlen (cedlo s) = zlen (cedge s) ->
  exists s', coarHash g msk c d l s = Ok s' /\ hinv c e0 s' /\ seg s' e0 (madd d l A) /\ zlen (cedge s') = zlen (cedge s) /\ zlen (cedlo s') = zlen (cedge s) /\
    cnxt s <= cnxt s' <= cnxt s + 1 /\ (forall e, b <= e -> e < e0 \/ cnxt s' <= e -> at_ b (cedge s') e = at_ b (cedge s) e /\ at_ b (cedlo s') e = at_ b (cedlo s) e).
Proof.
  intros HI SG Hcap Hroom Hll. pose proof M_pos as MP. pose proof HI as []. destruct hi_len0 as (L1 & L2 & L3). destruct SG as (SA & SV).
  assert (NDA : NoDup (map fst A)).
  { apply (NoDup_at 0). rewrite zlen_map. intros i j Hi Hj. rewrite !at_map by auto. rewrite !SV by auto. cbn [fst]. intros E.
    destruct (hi_edge0 (e0 + i)) as (x & Hx & Ox & Nx); [lia|]. destruct (hi_edge0 (e0 + j)) as (y & Hy & Oy & Ny); [lia|].
    destruct (hi_slot0 x Hx Ox) as (_ & E1). destruct (hi_slot0 y Hy Oy) as (_ & E2). rewrite Nx in E1. rewrite Ny in E2. assert (x = y) by (apply hi_dist0; auto; congruence). subst y. lia. }
  destruct (free_slot c e0 s HI Hcap) as (x0 & Hx0 & NO).
  unfold coarHash. rewrite hm_land. change (hm (d * 1049)) with (hsh d).
  assert (HH : 0 <= hsh d < M) by apply hm_bound.
  match goal with |- exists s', ?r = _ /\ @?P s' => destruct (wp_ok_inv r P) as (s' & -> & H) end; [|eauto].
  apply wp_loop with (I := fun h => exists i, 0 <= i < M /\ h = hm (hsh d + i) /\ forall j, 0 <= j < i -> at_ 0 (horg s) (hm (hsh d + j)) = c /\ at_ 0 (hend s) (hm (hsh d + j)) <> d)
    (m := fun h => M - 1 - hm (h - hsh d)).
  - exists 0. split; [lia|]. split; [rewrite Z.add_0_r, hm_small by auto; auto|]. intros; lia.
  - rewrite Z.sub_diag, hm_small by lia. unfold zlen in L1. lia.
  - intros h (i & Hi & Eh & HJ). assert (Hh : 0 <= h < M) by (rewrite Eh; apply hm_bound). rewrite rd_ok by lia. cbn [bind].
    assert (Emi : hm (h - hsh d) = i). { rewrite Eh. apply hm_sub. auto. }
    destruct (Z.eqb_spec (at_ 0 (horg s) h) c) as [Ec|Nc]; cbn [negb].
    + rewrite rd_ok by lia. cbn [bind]. destruct (Z.eqb_spec (at_ 0 (hend s) h) d) as [Ed|Nd].
      * (* found *) rewrite rd_ok by lia. cbn [bind]. destruct (hi_slot0 h Hh Ec) as (Hnh & Eeh). set (e := at_ 0 (hnum s) h) in *. rewrite rd_ok by lia. cbn [bind]. rewrite wr_ok by lia. cbn [bind wp cedge cedlo cnxt].
        split; [constructor; cbn [horg hend hnum cedge cedlo cnxt]; auto|]. assert (Hi0 : 0 <= e - e0 < zlen A) by lia. assert (EA : at_ 0 A (e - e0) = (d, at_ b (cedlo s) e)) by (rewrite SV by auto; replace (e0 + (e - e0)) with e by lia; rewrite Eeh, Ed; auto).
        split; [|rewrite zlen_upd; split; [auto|split; [auto|split; [lia|]]]].
        -- rewrite (madd_found d l A (e - e0)) by (auto; rewrite EA; auto). split; [rewrite zlen_upd; auto|]. rewrite zlen_upd. intros j Hj. cbn [cedge cedlo]. clear - Hj Hnh hi_nxt0 Hroom Hll Hi0 EA SA SV Eeh Ed. rewrite at_upd by lia. rewrite at_upd by lia. rewrite EA. cbn [snd].
           destruct (Z.eqb_spec (e - e0) j) as [Eq|]; destruct (Z.eqb_spec e (e0 + j)); try lia; [subst j|rewrite SV by auto; auto]. replace (e0 + (e - e0)) with e by lia. rewrite Eeh, Ed. auto.
        -- intros e1 He1 Ho. split; [auto|]. clear - He1 Ho Hnh hi_nxt0 Hroom Hll. rewrite at_upd by lia. destruct (Z.eqb_spec e e1); [lia|auto].
      * (* go on *) cbn [wp]. assert (Hlast : i <> M - 1).
        { intros ->. apply NO. set (j := hm (x0 - hsh d)). assert (Hj : 0 <= j < M) by apply hm_bound. assert (Ej : hm (hsh d + j) = x0) by (apply hm_add; auto).
          destruct (Z.eq_dec j (M - 1)) as [E|]; [rewrite <- Ej, E, <- Eh; auto|]. rewrite <- Ej. apply HJ. lia. }
        rewrite hm_land. assert (E1 : hm (h + 1) = hm (hsh d + (i + 1))) by (rewrite Eh; apply hm_succ). split.
        -- exists (i + 1). split; [lia|]. split; [auto|]. intros j Hj. destruct (Z.eq_dec j i) as [->|]; [rewrite <- Eh; auto|apply HJ; lia].
        -- rewrite Emi, E1. rewrite hm_sub by lia. lia.
    + (* new *) rewrite wr_ok by lia. cbn [bind]. rewrite wr_ok by lia. cbn [bind]. rewrite wr_ok by lia. cbn [bind]. rewrite wr_ok by lia. cbn [bind]. rewrite wr_ok by lia. cbn [bind wp cedge cedlo cnxt].
      assert (ABS : forall x, 0 <= x < M -> at_ 0 (horg s) x = c -> at_ 0 (hend s) x <> d).
      { intros x Hx Ox Ex. set (j := hm (x - hsh d)). assert (Hj : 0 <= j < M) by apply hm_bound. assert (Ej : hm (hsh d + j) = x) by (apply hm_add; auto).
        destruct (Z.ltb_spec j i) as [H|H]; [destruct (HJ j ltac:(lia)) as (_ & H2); rewrite Ej in H2; auto|]. destruct (Z.eq_dec j i) as [Eji|]; [apply Nc; rewrite Eh, <- Eji, Ej; auto|].
        apply Nc. rewrite Eh. pose proof (hi_prob0 x i Hx Ox) as HP. rewrite Ex in HP. apply HP. fold j. lia. }
      assert (O' : forall x, 0 <= x -> at_ 0 (upd 0 (horg s) h c) x = if h =? x then c else at_ 0 (horg s) x) by (intros; rewrite at_upd by lia; auto).
      assert (E' : forall x, 0 <= x -> at_ 0 (upd 0 (hend s) h d) x = if h =? x then d else at_ 0 (hend s) x) by (intros; rewrite at_upd by lia; auto).
      assert (N' : forall x, 0 <= x -> at_ 0 (upd 0 (hnum s) h (cnxt s)) x = if h =? x then cnxt s else at_ 0 (hnum s) x) by (intros; rewrite at_upd by lia; auto).
      assert (G' : forall e, b <= e -> at_ b (upd b (cedge s) (cnxt s) d) e = if cnxt s =? e then d else at_ b (cedge s) e) by (clear - hi_nxt0 Hroom; intros; rewrite at_upd by lia; auto).
      split; [constructor; cbn [horg hend hnum cedge cedlo cnxt]|].
      * rewrite !zlen_upd. auto.
      * clear - hi_nxt0. lia.
      * intros x Hx. rewrite O' by lia. destruct (h =? x); [lia|auto].
      * intros x Hx. rewrite O', N', E' by lia. destruct (Z.eqb_spec h x) as [<-|NE].
        -- intros _. split; [lia|]. rewrite G' by lia. now rewrite Z.eqb_refl.
        -- intros Ox. destruct (hi_slot0 x Hx Ox) as (H1 & H2). split; [lia|]. rewrite G' by lia. destruct (Z.eqb_spec (cnxt s) (at_ 0 (hnum s) x)); [lia|auto].
      * intros e He. destruct (Z.eq_dec e (cnxt s)) as [->|].
        -- exists h. rewrite O', N' by lia. rewrite Z.eqb_refl. auto.
        -- destruct (hi_edge0 e) as (x & Hx & Ox & Nx); [lia|]. exists x. rewrite O', N' by lia. destruct (Z.eqb_spec h x) as [<-|]; [contradiction|]. auto.
      * intros x y Hx Hy. rewrite !O', !E' by lia. destruct (Z.eqb_spec h x) as [<-|N1], (Z.eqb_spec h y) as [<-|N2]; auto; intros Ox Oy E.
        -- exfalso. apply (ABS y); auto.
        -- exfalso. apply (ABS x); auto.
      * intros x j Hx. rewrite O', !E' by lia. destruct (Z.eqb_spec h x) as [<-|N1].
        -- intros _ Hj. rewrite Emi in Hj. assert (Hp : 0 <= hm (hsh d + j) < M) by apply hm_bound. rewrite O' by lia. destruct (h =? hm (hsh d + j)); [auto|]. apply HJ. auto.
        -- intros Ox Hj. assert (Hp : 0 <= hm (hsh (at_ 0 (hend s) x) + j) < M) by apply hm_bound. rewrite O' by lia. destruct (h =? _); [auto|]. apply hi_prob0; auto.
      * split; [|rewrite !zlen_upd; split; [auto|split; [auto|split; [lia|]]]].
        -- rewrite madd_new.
           ++ split; [cbn [cnxt]; rewrite zlen_app; change (zlen [(d, l)]) with 1; lia|]. rewrite zlen_app. change (zlen [(d, l)]) with 1. intros j Hj. cbn [cedge cedlo]. rewrite G' by lia. rewrite at_upd by lia.
              destruct (Z.eqb_spec (cnxt s) (e0 + j)) as [E|NE]; [rewrite at_app2 by lia; replace (j - zlen A) with 0 by lia; apply at_cons_0|]. rewrite at_app1 by lia. apply SV. lia.
           ++ intros I. apply in_map_iff in I as ((d' & x') & E & I). cbn [fst] in E. subst d'. apply (In_at 0) in I as (j & Hj & EJ). rewrite SV in EJ by auto. injection EJ as EJ _.
              destruct (hi_edge0 (e0 + j)) as (x & Hx & Ox & Nx); [clear - Hj SA; lia|]. destruct (hi_slot0 x Hx Ox) as (_ & E1). rewrite Nx, EJ in E1. apply (ABS x Hx Ox). auto.
        -- intros e He Ho. clear - G' He Ho hi_nxt0 Hroom Hll. rewrite G' by lia. rewrite at_upd by lia. destruct (Z.eqb_spec (cnxt s) e); [lia|auto].
Qed.
End Hash.
