(** Proofs about string substitution. *)
From Verif Require Import Base Mem M_String S_String.

(** [s] followed by a zero is in memory at index [i] *)
Definition hat (b : list Z) (i : Z) (s : list Z) : Prop :=
  0 <= i /\ i + zlen s < zlen b /\ (forall k, 0 <= k < zlen s -> at_ 0 b (i + k) = at_ 0 s k) /\ at_ 0 b (i + zlen s) = 0.

Lemma hat_tail b i a c : hat b i (a ++ c) -> hat b (i + zlen a) c.
Proof.
  intros (H0 & H1 & H2 & H3). rewrite zlen_app in *. pose proof (zlen_nonneg a). pose proof (zlen_nonneg c).
  split; [lia|]. split; [lia|]. split; [|rewrite <- H3; f_equal; lia].
  intros k Hk. rewrite <- Z.add_assoc, H2 by lia. rewrite at_app2 by lia. f_equal. lia.
Qed.

Lemma app_inj_1 {A} (a a' c c' : list A) : zlen a = zlen a' -> a ++ c = a' ++ c' -> a = a' /\ c = c'.
Proof.
  revert a'. induction a as [|x a IH]; intros [|y a'] L E; rewrite ?zlen_cons in L; change (zlen (@nil A)) with 0 in L.
  - auto.
  - pose proof (zlen_nonneg a'). lia.
  - pose proof (zlen_nonneg a). lia.
  - cbn [app] in E. injection E as -> E. destruct (IH a') as [-> ->]; auto. lia.
Qed.

Definition prefix (p s : list Z) : Prop := exists t, s = p ++ t.

Lemma matchat_spec p : forall b i s, hat b i s -> cstring s -> cstring p ->
  exists m, matchat b i p = Ok m /\ (m = true <-> prefix p s).
Proof.
  induction p as [|c p IH]; intros b i s HB HS HP.
  { exists true. split; [reflexivity|]. split; [|auto]. intros _. exists s. reflexivity. }
  assert (Hc : c <> 0 /\ cstring p) by (inversion HP; auto). destruct Hc as [Hc HP']. cbn [matchat]. destruct HB as (H0 & H1' & H2' & H3). pose proof (zlen_nonneg s). rewrite rd_ok by lia. cbn [bind].
  destruct s as [|x s].
  { change (zlen (@nil Z)) with 0 in *. rewrite Z.add_0_r in H3. rewrite H3. destruct (Z.eqb_spec 0 c); [congruence|].
    exists false. split; [auto|]. split; [discriminate|]. intros (t & E). discriminate. }
  rewrite zlen_cons in *. pose proof (zlen_nonneg s).
  pose proof (H2' 0 ltac:(lia)) as E0. rewrite Z.add_0_r, at_cons_0 in E0. rewrite E0.
  destruct (Z.eqb_spec x c) as [<-|Hne].
  - assert (HS' : cstring s) by (inversion HS; auto). destruct (IH b (i + 1) s) as (m & -> & Hm); auto.
    { apply (hat_tail b i [x] s). split; [lia|]. cbn [app]. rewrite zlen_cons. auto. }
    exists m. split; [auto|]. rewrite Hm. split; intros (t & E); exists t; [now rewrite E|]. injection E; auto.
  - exists false. split; [auto|]. split; [discriminate|]. intros (t & E). injection E; intros; congruence.
Qed.

(** first occurrence *)
Lemma strstr_spec p b i s : hat b i s -> cstring s -> cstring p ->
  exists o, strstr b i p = Ok o /\
    match o with
    | None => forall a c, s <> a ++ p ++ c
    | Some q => exists a c, s = a ++ p ++ c /\ q = i + zlen a /\ forall a' c', s = a' ++ p ++ c' -> zlen a <= zlen a'
    end.
Proof.
  intros HB HS HP. unfold strstr. apply wp_ok_inv.
  pose proof HB as (H0 & H1 & _). pose proof (zlen_nonneg s).
  apply wp_loop with (I := fun j => exists a c, s = a ++ c /\ j = i + zlen a /\ forall a' c', s = a' ++ p ++ c' -> zlen a <= zlen a')
     (m := fun j => i + zlen s - j).
  - exists [], s. split; [auto|]. split; [change (zlen (@nil Z)) with 0; lia|]. intros. change (zlen (@nil Z)) with 0. apply zlen_nonneg.
  - unfold zlen in *. lia.
  - intros j (a & c & E & -> & HM). subst s. pose proof (hat_tail _ _ _ _ HB) as HC.
    apply Forall_app in HS as [HSa HSc].
    destruct (matchat_spec p b (i + zlen a) c HC HSc HP) as (m & -> & Hm). cbn [bind]. destruct m; cbn [wp].
    + destruct Hm as [Hm _]. destruct (Hm eq_refl) as (t & ->). exists a, t. split; [auto|]. split; [auto|auto].
    + destruct HC as (C0 & C1 & C2 & C3). pose proof (zlen_nonneg c). rewrite rd_ok by lia. cbn [bind].
      assert (HM' : forall a' c', a ++ c = a' ++ p ++ c' -> zlen a + 1 <= zlen a').
      { intros a' c' E. pose proof (HM a' c' E). destruct (Z.eq_dec (zlen a) (zlen a')) as [El|]; [|lia]. exfalso.
        assert (Ea : a = a' /\ c = p ++ c').
        { apply app_inj_1 in E; auto. }
        destruct Ea as [_ Ec]. assert (false = true) by (apply Hm; exists c'; auto). discriminate. }
      destruct (Z.eqb_spec (at_ 0 b (i + zlen a)) 0) as [Ez|Ez]; cbn [wp].
      * assert (c = []) as ->.
        { destruct c as [|x c]; auto. exfalso. rewrite zlen_cons in *. pose proof (zlen_nonneg c).
          pose proof (C2 0 ltac:(lia)) as E0. rewrite Z.add_0_r, at_cons_0 in E0. inversion HSc; subst. congruence. }
        intros a' c' E. specialize (HM' a' c' E). rewrite app_nil_r in E. rewrite E in HM'. rewrite zlen_app in HM'. pose proof (zlen_nonneg (p ++ c')). lia.
      * destruct c as [|x c]; [change (zlen (@nil Z)) with 0 in C3; rewrite Z.add_0_r in C3; congruence|].
        split.
        -- exists (a ++ [x]), c. split; [now rewrite <- app_assoc|]. rewrite zlen_snoc. split; [lia|]. intros a' c' E. apply (HM' a' c' E).
        -- rewrite zlen_app, zlen_cons in *. pose proof (zlen_nonneg c). lia.
Qed.

Lemma strlen_spec b i s : hat b i s -> cstring s -> strlen b i = Ok (zlen s).
Proof.
  intros (H0 & H1 & H2 & H3) HS. unfold strlen. pose proof (zlen_nonneg s).
  match goal with |- ?r = Ok ?v => destruct (wp_ok_inv r (fun s => s = v)) as (x & -> & ->); [|reflexivity] end.
  apply wp_loop with (I := fun j => i <= j <= i + zlen s) (m := fun j => i + zlen s - j).
  - lia.
  - unfold zlen in *. lia.
  - intros j Hj. rewrite rd_ok by lia. cbn [bind]. destruct (Z.eq_dec j (i + zlen s)) as [->|].
    + rewrite H3. cbn [Z.eqb wp]. lia.
    + assert (at_ 0 b j <> 0).
      { replace j with (i + (j - i)) by lia. rewrite H2 by lia. unfold cstring in HS. rewrite Forall_forall in HS. apply HS. apply at_In. lia. }
      destruct (Z.eqb_spec (at_ 0 b j) 0); [lia|]. cbn [wp]. lia.
Qed.

Lemma memcp_wp (src dst : list Z) i j n (Q : list Z -> Prop) E :
  0 <= i -> 0 <= j -> 0 <= n -> i + n <= zlen src -> j + n <= zlen dst ->
  (forall d, zlen d = zlen dst -> (forall k, 0 <= k < j -> at_ 0 d k = at_ 0 dst k) ->
     (forall k, j + n <= k < zlen dst -> at_ 0 d k = at_ 0 dst k) ->
     (forall k, 0 <= k < n -> at_ 0 d (j + k) = at_ 0 src (i + k)) -> Q d) ->
  wp (memcp src dst i j n) Q E.
Proof.
  intros ? ? ? ? ? HQ. pose proof (memcp_ok src dst i j n) as E0. eapply wp_of_eq; [apply E0; lia|].
  specialize (E0 ltac:(lia) ltac:(lia) ltac:(lia) ltac:(lia) ltac:(lia)).
  apply HQ; [eapply zlen_memcp; eauto| | |]; intros k Hk; erewrite at_memcp by (eauto; lia).
  - now replace ((j <=? k) && (k <? j + n)) with false by lia.
  - now replace ((j <=? k) && (k <? j + n)) with false by lia.
  - replace ((j <=? j + k) && (j + k <? j + n)) with true by lia. f_equal. lia.
Qed.

Lemma subst2_spec p r : p <> [] -> cstring p -> forall fuel b src dst s t,
  subst p r s t -> cstring s -> hat b src s -> zlen s < Z.of_nat fuel ->
  0 <= dst -> dst + zlen t < zlen b ->
  (zlen r < zlen p /\ dst <= src) \/ (zlen p < zlen r /\ src <= dst) \/ (zlen r = zlen p /\ src = dst) ->
  wp (stringSubst2 fuel b src dst p r)
    (fun b' => zlen b' = zlen b /\ (forall k, 0 <= k < dst -> at_ 0 b' k = at_ 0 b k) /\
       (forall k, src + zlen s < k -> dst + zlen t < k < zlen b -> at_ 0 b' k = at_ 0 b k) /\ hat b' dst t) noerr.
Proof.
  intros Hp HP. pose proof (zlen_nonneg r) as Hr0.
  assert (Hp0 : 1 <= zlen p) by (destruct p; [congruence|]; rewrite zlen_cons; pose proof (zlen_nonneg p); lia).
  induction fuel as [|f IH]; intros b src dst s t HSub HS HB Hf Hd Ht CC. { pose proof (zlen_nonneg s). lia. }
  cbn [stringSubst2].
  destruct (strstr_spec p b src s HB HS HP) as (o & -> & Ho). cbn [bind].
  pose proof HB as (B0 & B1 & B2 & B3). pose proof (zlen_nonneg s) as Ls.
  destruct o as [q|].
  - (* an occurrence *)
    destruct Ho as (a & c & -> & -> & Hmin). cbn [bind].
    replace (src + zlen a - src) with (zlen a) by lia.
    assert (HST : exists t', subst p r c t' /\ t = a ++ r ++ t').
    { inversion HSub as [s0 Hn E1 E2|a0 c0 t0 Hm HS0 E1 E2]; subst.
      - exfalso. apply (Hn a c). reflexivity.
      - assert (EL : zlen a0 = zlen a).
        { pose proof (Hm a c E1) as X1. pose proof (Hmin a0 c0 (eq_sym E1)) as X2. lia. }
        assert (a0 = a /\ p ++ c0 = p ++ c) as [-> E] by (apply app_inj_1; [exact EL|exact E1]).
        apply app_inv_head in E. subst. eauto. }
    destruct HST as (t' & HS' & ->). rewrite !zlen_app in *.
    pose proof (zlen_nonneg a) as La. pose proof (zlen_nonneg c) as Lc. pose proof (zlen_nonneg t') as Lt.
    apply Forall_app in HS as [HSa HSpc]. apply Forall_app in HSpc as [_ HSc].
    assert (HC : hat b (src + zlen a + zlen p) c).
    { rewrite app_assoc in HB. apply hat_tail in HB. rewrite zlen_app in HB. now rewrite <- Z.add_assoc. }
    clear HSub Hmin HB HSa.
    assert (Ba : forall k, 0 <= k < zlen a -> at_ 0 b (src + k) = at_ 0 a k) by (intros; rewrite B2 by lia; now rewrite at_app1 by lia).
    clear B2 B3.
    (* state after the possible pre-move *)
    apply wp_bind.
    assert (PRE : wp (if zlen r <? zlen p then memcp b b src dst (zlen a) else Ok b)
      (fun b1 => zlen b1 = zlen b /\ (forall k, 0 <= k < dst -> at_ 0 b1 k = at_ 0 b k) /\
         (forall k, src + zlen a <= k < zlen b -> at_ 0 b1 k = at_ 0 b k) /\
         (zlen r <= zlen p -> forall k, 0 <= k < zlen a -> at_ 0 b1 (dst + k) = at_ 0 a k) /\
         (zlen p < zlen r -> b1 = b)) noerr).
    { destruct (Z.ltb_spec (zlen r) (zlen p)).
      - destruct CC as [[_ CC]|CC]; [|lia]. apply memcp_wp; try lia. intros d Ld D1 D2 D3. split; [auto|]. split; [|split; [|split; [|lia]]].
        + intros k Hk. apply D1; lia.
        + intros k Hk. apply D2; lia.
        + intros _ k Hk. rewrite D3 by lia. auto.
      - cbn [wp]. split; [auto|]. split; [auto|]. split; [auto|]. split; [|auto].
        intros Hle k Hk. replace dst with src by lia. auto. }
    eapply wp_mono; [exact PRE|]. clear PRE. intros b1 (L1 & F1 & G1 & A1 & U1). apply wp_bind.
    eapply wp_mono.
    { apply (IH b1 (src + zlen a + zlen p) (dst + zlen a + zlen r) c t'); auto; try lia.
      destruct HC as (c0 & c1 & c2 & c3). split; [lia|]. split; [lia|]. clear CC A1 U1. split.
      - intros k Hk. rewrite G1 by lia. now apply c2.
      - rewrite G1 by lia. exact c3. }
    clear IH HC Hf. intros b2 (L2 & F2 & G2 & H2). apply wp_bind.
    assert (POST : wp (if zlen p <? zlen r then memcp b2 b2 src dst (zlen a) else Ok b2)
      (fun b3 => zlen b3 = zlen b /\ (forall k, 0 <= k < dst -> at_ 0 b3 k = at_ 0 b k) /\
         (forall k, dst + zlen a <= k < zlen b -> at_ 0 b3 k = at_ 0 b2 k) /\
         (forall k, 0 <= k < zlen a -> at_ 0 b3 (dst + k) = at_ 0 a k)) noerr).
    { destruct (Z.ltb_spec (zlen p) (zlen r)).
      - specialize (U1 ltac:(lia)). subst b1. destruct CC as [CC|[CC|CC]]; [qlia| |qlia]. destruct CC as [_ CC]. clear A1.
        apply memcp_wp; try qlia. intros d Ld D1 D2 D3. split; [qlia|]. split; [|split].
        + intros k Hk. rewrite D1 by qlia. apply F2. qlia.
        + intros k Hk. apply D2. qlia.
        + intros k Hk. rewrite D3 by qlia. rewrite F2 by qlia. auto.
      - cbn [wp]. clear CC U1. split; [qlia|]. split; [|split; [auto|]].
        + intros k Hk. rewrite F2 by qlia. apply F1. qlia.
        + intros k Hk. rewrite F2 by qlia. apply A1; lia. }
    eapply wp_mono; [exact POST|]. clear POST CC A1 U1. intros b3 (L3 & F3 & G3 & A3).
    destruct H2 as (h0 & h1 & h2 & h3).
    apply memcp_wp; try qlia. intros d Ld D1 D2 D3. split; [qlia|]. split; [|split].
    + intros k Hk. rewrite D1 by qlia. apply F3. qlia.
    + intros k Hk1 Hk. rewrite D2 by qlia. rewrite G3 by qlia. rewrite G2 by qlia. apply G1. qlia.
    + split; [qlia|]. rewrite !zlen_app. split; [qlia|]. split.
      * intros k Hk. destruct (Z_lt_le_dec k (zlen a)) as [Hka|Hka].
        -- rewrite D1 by qlia. rewrite A3 by qlia. now rewrite at_app1 by qlia.
        -- rewrite at_app2 by qlia. destruct (Z_lt_le_dec k (zlen a + zlen r)) as [Hkr|Hkr].
           ++ rewrite at_app1 by qlia. replace (dst + k) with (dst + zlen a + (k - zlen a)) by qlia. rewrite D3 by qlia. f_equal.
           ++ rewrite at_app2 by qlia. rewrite D2 by qlia. rewrite G3 by qlia.
              replace (dst + k) with (dst + zlen a + zlen r + (k - zlen a - zlen r)) by qlia. rewrite h2 by qlia. reflexivity.
      * rewrite D2 by qlia. rewrite G3 by qlia. etransitivity; [|exact h3]. f_equal. qlia.
  - (* no occurrence *)
    rewrite (strlen_spec b src s HB HS). cbn [bind].
    assert (t = s) as ->.
    { inversion HSub as [s0 Hn E1 E2|a0 c0 t0 Hm HS0 E1 E2]; subst; auto. exfalso. eapply Ho. reflexivity. }
    assert (MV : wp (memcp b b src dst (zlen s + 1))
      (fun b' => zlen b' = zlen b /\ (forall k, 0 <= k < dst -> at_ 0 b' k = at_ 0 b k) /\
       (forall k, src + zlen s < k -> dst + zlen s < k < zlen b -> at_ 0 b' k = at_ 0 b k) /\ hat b' dst s) noerr).
    { clear CC. apply memcp_wp; try qlia. intros d Ld D1 D2 D3. split; [auto|]. split; [|split].
      - intros k Hk. apply D1. qlia.
      - intros k Hk1 Hk. apply D2. qlia.
      - split; [qlia|]. split; [qlia|]. split.
        + intros k Hk. rewrite D3 by qlia. apply B2. qlia.
        + rewrite D3 by qlia. exact B3. }
    apply wp_bind. destruct (Z.ltb_spec (zlen r) (zlen p)).
    + eapply wp_mono; [exact MV|]. intros b1 Hb1. cbn [bind]. destruct (Z.ltb_spec (zlen p) (zlen r)); [qlia|]. exact Hb1.
    + cbn [wp bind]. apply wp_bind. destruct (Z.ltb_spec (zlen p) (zlen r)).
      * eapply wp_mono; [exact MV|]. intros b1 Hb1. exact Hb1.
      * cbn [wp]. split; [auto|]. split; [auto|]. split; [auto|]. replace dst with src by qlia. exact HB.
Qed.

Lemma subst_total p r : p <> [] -> forall n s, (length s < n)%nat -> exists t, subst p r s t.
Proof.
  intros Hp. 
  assert (DEC : forall s, (forall a c, s <> a ++ p ++ c) \/ exists a c, s = a ++ p ++ c /\ forall a' c', s = a' ++ p ++ c' -> zlen a <= zlen a').
  { assert (PD : forall s, prefix p s \/ ~ prefix p s).
    { clear. induction p as [|c q IH]; intros s. { left. exists s. auto. }
      destruct s as [|x s]; [right; intros (t & E); discriminate|].
      destruct (Z.eq_dec x c) as [->|]; [|right; intros (t & E); injection E; intros; congruence].
      destruct (IH s) as [(t & ->)|N]; [left; exists t; auto|right; intros (t & E); apply N; exists t; injection E; auto]. }
    induction s as [|x s IH].
    - left. intros a c E. destruct a; [|discriminate]. destruct p; [congruence|discriminate].
    - destruct (PD (x :: s)) as [(t & E)|N].
      + right. exists [], t. split; [exact E|]. intros. change (zlen (@nil Z)) with 0. apply zlen_nonneg.
      + destruct IH as [IH|(a & c & E & M)].
        * left. intros a c E. destruct a as [|y a]; [apply N; exists c; exact E|]. injection E as -> E. eapply IH; eauto.
        * right. exists (x :: a), c. split; [now rewrite E|]. intros a' c' E'. destruct a' as [|y a'].
          -- exfalso. apply N. exists c'. exact E'.
          -- injection E' as -> E'. rewrite !zlen_cons. specialize (M _ _ E'). lia. }
  induction n as [|n IH]; intros s Hs; [lia|].
  destruct (DEC s) as [N|(a & c & -> & M)]; [exists s; constructor; auto|].
  destruct (IH c) as (t & Ht).
  { rewrite !app_length in Hs. destruct p; [congruence|]. cbn [length] in Hs. lia. }
  exists (a ++ r ++ t). constructor; auto.
Qed.

Lemma holds_hat b s : holds b s -> hat b 0 s.
Proof.
  intros (rest & ->). pose proof (zlen_nonneg s). pose proof (zlen_nonneg rest). split; [lia|].
  rewrite zlen_app, zlen_cons. split; [lia|]. split.
  - intros k Hk. rewrite Z.add_0_l. now rewrite at_app1 by lia.
  - rewrite at_app2 by lia. replace (0 + zlen s - zlen s) with 0 by lia. apply at_cons_0.
Qed.
Lemma hat_holds b s : hat b 0 s -> holds b s.
Proof.
  intros (_ & H1 & H2 & H3). pose proof (zlen_nonneg s). exists (skipn (Z.to_nat (zlen s + 1)) b).
  apply (at_ext 0).
  - rewrite zlen_app, zlen_cons, zlen_skipn by lia. lia.
  - intros i Hi. destruct (Z_lt_le_dec i (zlen s)).
    + rewrite at_app1 by lia. rewrite <- H2 by lia. reflexivity.
    + rewrite at_app2 by lia. destruct (Z.eq_dec i (zlen s)) as [->|].
      * rewrite Z.sub_diag, at_cons_0. exact H3.
      * rewrite at_cons_S by lia. rewrite at_skipn by lia. f_equal. lia.
Qed.

Lemma stringSubst_spec fuel b p r s t :
  p <> [] -> cstring p -> cstring s -> holds b s -> subst p r s t ->
  zlen t < zlen b -> zlen s < Z.of_nat fuel ->
  exists b', stringSubst fuel b p r = Ok b' /\ holds b' t /\ zlen b' = zlen b /\
    (forall k, Z.max (zlen s) (zlen t) < k < zlen b -> at_ 0 b' k = at_ 0 b k).
Proof.
  intros Hp HP HS HB HSub Ht Hf. unfold stringSubst.
  pose proof (zlen_nonneg t).
  destruct (wp_ok_inv _ _ (subst2_spec p r Hp HP fuel b 0 0 s t HSub HS (holds_hat _ _ HB) Hf ltac:(lia) ltac:(lia) ltac:(lia))) as (b' & E & L & _ & G & HH).
  exists b'. split; [auto|]. split; [now apply hat_holds|]. split; [auto|]. intros k Hk. apply G; lia.
Qed.

Lemma subst_det p r s t t' : subst p r s t -> subst p r s t' -> t = t'.
Proof.
  intros H. revert t'. induction H as [s Hn|a c t Hm Hs IH]; intros t' H'.
  - inversion H' as [s0 Hn' E1 E2|a0 c0 t0 Hm HS0 E1 E2]; subst; auto. exfalso. eapply Hn. reflexivity.
  - inversion H' as [s0 Hn' E1 E2|a0 c0 t0 Hm' HS0 E1 E2]; subst; [exfalso; eapply Hn'; reflexivity|].
    assert (EL : zlen a0 = zlen a) by (pose proof (Hm a0 c0 (eq_sym E1)); pose proof (Hm' a c E1); lia).
    destruct (app_inj_1 _ _ _ _ EL E1) as [-> E]. apply app_inv_head in E. subst c0. now rewrite (IH t0 HS0).
Qed.

Lemma subst2_empty r : forall fuel b src dst, 0 <= src -> src = 0 \/ True -> stringSubst2 fuel b src dst [] r = Fuel.
Proof.
  induction fuel as [|f IH]; intros b src dst Hs _; [reflexivity|]. cbn [stringSubst2].
  assert (E : strstr b src [] = Ok (Some src)) by reflexivity. rewrite E. cbn [bind].
  change (zlen (@nil Z)) with 0. pose proof (zlen_nonneg r). destruct (Z.ltb_spec (zlen r) 0); [lia|]. cbn [bind].
  rewrite IH by (auto; lia). reflexivity.
Qed.
