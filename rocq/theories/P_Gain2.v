(** Proofs about gain tables: search, enumeration, flush, relocation, histories. *)
From Verif Require Import Base Mem M_Gain S_Gain P_Gain.

Section Rep.
Variables (w n : Z) (bk : Z -> Z).
Notation rep := (rep w n bk).

Lemma hd_chain lb m i p nx l : chain lb m i p nx l -> nx = match l with [] => GDum | a :: _ => GLnk (lb + a) end.
Proof. destruct l; [auto | intros (H & _); exact H]. Qed.

Lemma entr_head s t e : rep s t -> 0 <= e < g_totsize s ->
  rd 0 (g_entr s) e = Ok (match inbk bk t e with [] => GDum | a :: _ => GLnk (g_lb s + a) end).
Proof.
  intros R He. rewrite rd_ok by (rewrite (r_entr _ _ _ _ _ R); lia). f_equal. eapply hd_chain, (r_chain _ _ _ _ _ R e He).
Qed.

Lemma rep_ext s t lo hi : rep s t -> 0 <= lo < g_totsize s -> 0 <= hi < g_totsize s ->
  (forall e, 0 <= e < g_totsize s -> e < lo \/ hi < e -> inbk bk t e = []) -> rep (set_ext s lo hi) t.
Proof. intros [C M E Tn Tx N G Ch O] H1 H2 H3. constructor; gs; auto. Qed.

Lemma ordered_nil t e : 0 <= e -> (forall i, 0 <= i < e -> inbk bk t i = []) -> ordered bk e t = [].
Proof. intros He H. apply bylist_nil. intros b Hb. rewrite In_zseq in Hb. apply H. lia. Qed.

Lemma frst_rep s t : rep s t -> exists s', gainTablFrst s = Ok (s', option_map (fun k => g_lb s + k) (hd_error (ordered bk (g_totsize s) t))) /\
  rep s' t /\ same s s' /\ g_lb s' = g_lb s /\ g_mem s' = g_mem s.
Proof.
  intros R. assert (R' := R). destruct R' as [C M E Tn Tx N G Ch O]. destruct C as (C1 & C2 & _).
  unfold gainTablFrst. rewrite (entr_head s t) by auto. cbn [bind].
  assert (OL : forall i, 0 <= i < g_tmin s -> inbk bk t i = []) by (intros; apply O; lia).
  destruct (inbk bk t (g_tmin s)) as [|a l] eqn:Eh.
  - match goal with |- exists s', bind ?r _ = _ /\ _ => destruct (wp_ok_inv r (fun x => match x with
        | Some (e, h) => g_tmin s < e < g_totsize s /\ (forall i, 0 <= i < e -> inbk bk t i = []) /\ exists a l, inbk bk t e = a :: l /\ h = GLnk (g_lb s + a)
        | None => forall i, 0 <= i < g_totsize s -> inbk bk t i = [] end)) as (x & -> & Hx) end.
    + apply wp_loop with (I := fun e => g_tmin s < e <= g_totsize s /\ forall i, 0 <= i < e -> inbk bk t i = []) (m := fun e => g_totsize s - e).
      * split; [lia|]. intros i Hi. destruct (Z.eq_dec i (g_tmin s)) as [->|]; [exact Eh|]. apply OL. lia.
      * lia.
      * intros e (He & Hl). destruct (Z.leb_spec e (g_tend s)).
        -- rewrite (entr_head s t) by (auto; lia). cbn [bind]. destruct (inbk bk t e) as [|a l] eqn:Ee; cbn [wp].
           ++ split; [split; [lia|] | lia]. intros i Hi. destruct (Z.eq_dec i e) as [->|]; [exact Ee|]. apply Hl. lia.
           ++ split; [lia|]. split; [exact Hl|]. eauto.
        -- cbn [wp]. intros i Hi. apply Hl. lia.
    + cbn [bind]. destruct x as [[e h]|].
      * destruct Hx as (He & Hl & a & l & Ee & ->). cbn [retlink bind]. exists (set_ext s e (g_tmax s)). split; [|split; [|split; [repeat split | split; reflexivity]]].
        -- rewrite (ordered_split bk (g_totsize s) t e) by lia. rewrite ordered_nil by (auto; lia). rewrite Ee. reflexivity.
        -- apply rep_ext; auto; try lia. intros i Hi [H|H]; [apply Hl; lia | apply O; lia].
      * exists (set_ext s (g_tend s) 0). split; [|split; [|split; [repeat split | split; reflexivity]]].
        -- rewrite ordered_nil by (auto; lia). reflexivity.
        -- apply rep_ext; auto; lia.
  - cbn [retlink bind]. exists s. split; [|split; [exact R | split; [apply same_refl | split; reflexivity]]].
    rewrite (ordered_split bk (g_totsize s) t (g_tmin s)) by lia. rewrite ordered_nil by (auto; lia). rewrite Eh. reflexivity.
Qed.

(** The successor of an element *)
Definition succ_of (tot : Z) (t : gtable) (k : Z) : option Z :=
  if in_dec Z.eq_dec k (inbk bk t (tot - 1)) then after k (inbk bk t (tot - 1)) else after k (ordered bk (tot - 1) t).

Lemma next_rep s t k : rep s t -> In k (elems t) ->
  gainTablNext s (g_lb s + k) = Ok (option_map (fun k => g_lb s + k) (succ_of (g_totsize s) t k)).
Proof.
  intros R Hin. assert (Hk := rep_range _ _ _ _ _ _ R Hin). assert (R' := R). destruct R' as [C M E Tn Tx N G Ch O].
  unfold elems in Hin. rewrite in_map_iff in Hin. destruct Hin as ([k' g] & Ek & Hin). cbn in Ek. subst k'.
  assert (C' := C). destruct C' as (C1 & C2 & C3). destruct (C3 g (G _ _ Hin)) as (_ & He). set (e := bk g) in *.
  assert (Hke : In k (inbk bk t e)) by (rewrite In_inbk; eauto). assert (Hke' := Hke). apply in_split in Hke. destruct Hke as (l1 & l2 & El).
  assert (Ce := Ch e He). rewrite El in Ce. assert (Nd := NoDup_inbk bk t e N). rewrite El in Nd.
  destruct (chain_nbr _ _ _ _ _ _ _ _ Ce) as (_ & B1 & _ & B3 & _).
  assert (Hk1 : ~ In k l1) by (apply NoDup_remove_2 in Nd; rewrite in_app_iff in Nd; tauto).
  unfold gainTablNext. rewrite rdl_at by auto. cbn [bind].
  (* the successor *)
  assert (Hlast : e = g_totsize s - 1 -> succ_of (g_totsize s) t k = hd_error l2).
  { intros Ee. unfold succ_of. rewrite <- Ee. destruct (in_dec Z.eq_dec k (inbk bk t e)); [|tauto]. rewrite El. now apply after_mid. }
  assert (Hnot : e < g_totsize s - 1 -> succ_of (g_totsize s) t k = hd_error (l2 ++ bylist bk t (zseq (e + 1) (g_totsize s - 1 - e - 1)))).
  { intros Ee. unfold succ_of. destruct (in_dec Z.eq_dec k (inbk bk t (g_totsize s - 1))) as [H|H].
    - pose proof (inbk_disj bk t _ _ k N H Hke'). lia.
    - rewrite (ordered_split bk _ t e) by lia. rewrite El, <- app_assoc. cbn [app]. rewrite app_assoc. rewrite after_mid; [reflexivity|].
      rewrite in_app_iff. intros [H1|H1]; [|tauto]. rewrite In_ordered in H1. destruct H1 as (b & Hb & H1).
      pose proof (inbk_disj bk t _ _ k N H1 Hke'). lia. }
  destruct l2 as [|c l2].
  - rewrite B3. rewrite B1.
    match goal with |- bind ?r _ = _ => destruct (wp_ok_inv r (fun x => match x with
        | Some h => e < g_totsize s - 1 /\ exists a, hd_error (bylist bk t (zseq (e + 1) (g_totsize s - 1 - e - 1))) = Some a /\ h = GLnk (g_lb s + a)
        | None => e < g_totsize s - 1 -> hd_error (bylist bk t (zseq (e + 1) (g_totsize s - 1 - e - 1))) = None end)) as (x & -> & Hx) end.
    + apply wp_loop with (I := fun i => e < i <= g_totsize s /\ (i <= g_totsize s - 1 \/ e = g_totsize s - 1) /\ forall j, e < j < i -> inbk bk t j = []) (m := fun e => g_totsize s - e).
      * split; [lia|]. split; [lia|]. intros; lia.
      * lia.
      * intros i (Hi & Hi2 & Hl). destruct (Z.ltb_spec i (g_tend s)).
        -- rewrite (entr_head s t) by (auto; lia). cbn [bind]. destruct (inbk bk t i) as [|a l] eqn:Ee; cbn [wp].
           ++ split; [split; [lia|] | lia]. split; [lia|]. intros j Hj. destruct (Z.eq_dec j i) as [->|]; [exact Ee|]. apply Hl. lia.
           ++ split; [lia|]. exists a. split; [|reflexivity].
              replace (g_totsize s - 1 - e - 1) with ((i - e - 1) + (1 + (g_totsize s - 1 - i - 1))) by lia. rewrite !zseq_app by lia. rewrite !bylist_app.
              rewrite bylist_nil; [|intros b Hb; rewrite In_zseq in Hb; apply Hl; lia].
              replace (e + 1 + (i - e - 1)) with i by lia. change (zseq i 1) with [i + Z.of_nat 0]. cbn [bylist]. rewrite Z.add_0_r, Ee. reflexivity.
        -- cbn [wp]. intros He'. rewrite bylist_nil; [reflexivity|]. intros b Hb. rewrite In_zseq in Hb. apply Hl. lia.
    + cbn [bind]. destruct x as [h|].
      * destruct Hx as (He' & a & Ea & ->). cbn [retlink]. rewrite Hnot by lia. cbn [app]. rewrite Ea. reflexivity.
      * destruct (Z.eq_dec e (g_totsize s - 1)) as [Ee|]; [rewrite Hlast by auto; reflexivity|]. rewrite Hnot by lia. cbn [app]. rewrite Hx by lia. reflexivity.
  - rewrite B3. cbn [retlink]. do 2 f_equal. destruct (Z.eq_dec e (g_totsize s - 1)) as [Ee|]; [rewrite Hlast by auto; reflexivity|].
    rewrite Hnot by lia. reflexivity.
Qed.

Lemma free_rep s t : rep s t -> exists s', gainTablFree s = Ok s' /\ rep s' [] /\ same s s' /\ g_lb s' = g_lb s /\ g_mem s' = g_mem s.
Proof.
  intros [C M E Tn Tx N G Ch O]. unfold gainTablFree.
  match goal with |- exists s', bind ?r _ = _ /\ _ => destruct (wp_ok_inv r (fun x => zlen x = g_totsize s /\ forall i, 0 <= i < g_totsize s -> at_ 0 x i = GDum)) as (x & -> & Hz & Hx) end.
  - assert (OL : forall i, 0 <= i < g_totsize s -> i < g_tmin s \/ g_tmax s < i -> at_ 0 (g_entr s) i = GDum).
    { intros i Hi Ho. rewrite (hd_chain _ _ _ _ _ _ (Ch i Hi)). rewrite (O i Hi Ho). reflexivity. }
    destruct (Z.leb_spec (g_tmin s) (g_tmax s + 1)).
    + apply wp_for with (I := fun k x => zlen x = g_totsize s /\ (forall i, 0 <= i < k -> at_ 0 x i = GDum) /\ (forall i, g_tmax s < i < g_totsize s -> at_ 0 x i = GDum)).
      * lia.
      * split; [auto|]. split; intros; apply OL; lia.
      * intros k x Hk (H1 & H2 & H3). apply wp_wr; [lia|]. split; [now rewrite zlen_upd|]. split; intros i Hi; rewrite at_upd by lia; destruct (Z.eqb_spec k i); auto; apply H2; lia.
      * intros x (H1 & H2 & H3). split; [auto|]. intros i Hi. destruct (Z.leb_spec i (g_tmax s)); [apply H2 | apply H3]; lia.
    + rewrite for_nil by lia. cbn [wp]. split; [auto|]. intros i Hi. apply OL; lia.
  - cbn [bind]. eexists. split; [reflexivity|]. split; [|split; [repeat split | split; reflexivity]].
    assert (C' := C). destruct C' as (C1 & C2 & C3).
    constructor; gs; auto; try lia; try easy.
    constructor.
Qed.

(** ** Relocation *)
Lemma move_list i d l : forall (fuel : nat) s p,
  (length l < fuel)%nat -> NoDup (p :: l) -> 0 <= p < zlen (g_mem s) ->
  chain (g_lb s - d) (g_mem s) i (GLnk (g_lb s - d + p)) (l_next (at_ 0 (g_mem s) p)) l ->
  exists m', loop fuel (fun '(s, p) =>
    do l <- rdl s p;
    match l_next l with
    | GDum => Ok (inr s)
    | h => do q <- skew d h;
           do s <- set_next s (GLnk p) (GLnk q);
           do s <- set_prev s (GLnk q) (GLnk p);
           Ok (inl (s, q))
    end) (s, g_lb s + p) = Ok (set_mem s m') /\ zlen m' = zlen (g_mem s) /\
    (forall a, 0 <= a -> ~ In a (p :: l) -> at_ 0 m' a = at_ 0 (g_mem s) a) /\
    l_prev (at_ 0 m' p) = l_prev (at_ 0 (g_mem s) p) /\ l_tabl (at_ 0 m' p) = l_tabl (at_ 0 (g_mem s) p) /\
    chain (g_lb s) m' i (GLnk (g_lb s + p)) (l_next (at_ 0 m' p)) l.
Proof.
  induction l as [|q l IH]; intros fuel s p Hf Hnd Hp Hc; (destruct fuel as [|fuel]; [cbn [length] in Hf; lia|]); cbn [loop]; rewrite rdl_at by auto; cbn [bind].
  - cbn [chain] in Hc. rewrite Hc. cbn [bind]. exists (g_mem s). split; [destruct s; reflexivity|]. split; [auto|]. split; [auto|]. split; [auto|]. split; [auto|]. exact Hc.
  - destruct Hc as (E1 & Hq & E2 & E3 & Hc). rewrite E1. cbn [skew bind]. replace (g_lb s - d + q + d) with (g_lb s + q) by lia.
    assert (Hpq : p <> q) by (inversion Hnd as [|? ? N1 N2]; subst; intros ->; apply N1; now left).
    gr set_next_lnk. gr set_prev_lnk. rewrite !at_upd_other by lia.
    match goal with |- context [loop _ _ (?z, _)] => set (s1 := z) end.
    destruct (IH fuel s1 q) as (m' & E0 & Z0 & F0 & F1 & F2 & F3).
    + cbn [length] in Hf. lia.
    + now inversion Hnd.
    + cbn. rewrite !zlen_upd. lia.
    + unfold s1. gs. rewrite at_upd_same by (rewrite zlen_upd; lia). gs. apply (chain_ext _ (g_mem s)); [now rewrite !zlen_upd | | exact Hc].
      intros a Ha. assert (a <> p /\ a <> q). { inversion Hnd as [|? ? N1 N2]; subst. inversion N2; subst. split; intros ->; [apply N1; now right | auto]. }
      assert (0 <= a < zlen (g_mem s)) by (eapply chain_range; eauto). rewrite !at_upd_other by lia. reflexivity.
    + unfold s1 in E0, Z0, F0, F1, F2, F3. revert E0 Z0 F0 F1 F2 F3. gs. intros E0 Z0 F0 F1 F2 F3. rewrite !zlen_upd in Z0.
      rewrite at_upd_same in F1, F2 by (rewrite zlen_upd; lia). revert F1 F2. gs. intros F1 F2.
      exists m'. split; [exact E0|]. split; [auto|].
      assert (Fp : at_ 0 m' p = {| l_next := GLnk (g_lb s + q); l_prev := l_prev (at_ 0 (g_mem s) p); l_tabl := l_tabl (at_ 0 (g_mem s) p) |}).
      { rewrite F0; [|lia | now inversion Hnd]. rewrite at_upd_other by lia. now rewrite at_upd_same by lia. }
      split.
      { intros a Ha Hn. rewrite F0; [|lia | intros H; apply Hn; now right]. rewrite !at_upd_other; auto; try lia; intros ->; apply Hn; cbn; tauto. }
      rewrite Fp. gs. split; [auto|]. split; [auto|]. apply chain_cons. split; [auto|]. split; [lia|]. split; [auto|]. split; [congruence | exact F3].
Qed.

Lemma move_rep s t b : rep s t ->
  exists s', gainTablMove (relocate s b) (b - g_lb s) = Ok s' /\ rep s' t /\ g_lb s' = b /\ same s s'.
Proof.
  intros R. assert (R' := R). destruct R' as [C M E Tn Tx N G Ch O]. assert (C' := C). destruct C' as (C1 & C2 & C3).
  assert (H : exists s', gainTablMove (relocate s b) (b - g_lb s) = Ok s' /\
     same s s' /\ g_lb s' = b /\ g_tmin s' = g_tmin s /\ g_tmax s' = g_tmax s /\ zlen (g_mem s') = zlen (g_mem s) /\ zlen (g_entr s') = zlen (g_entr s) /\
     forall e, 0 <= e < g_totsize s -> chain b (g_mem s') e (GEnt e) (at_ 0 (g_entr s') e) (inbk bk t e)); cycle 1.
  { destruct H as (s' & E0 & Sm & Hb & H1 & H2 & H3 & H4 & H5). exists s'. split; [exact E0|]. split; [|auto].
    assert (Et : g_totsize s' = g_totsize s) by (destruct Sm as (_ & _ & _ & ? & _); auto).
    constructor; rewrite ?Et, ?H1, ?H2, ?Hb, ?H3, ?H4; auto. eapply same_cfg; eauto. }
  assert (OE : forall e m' x, 0 <= e < g_totsize s -> e < g_tmin s \/ g_tmax s < e -> chain (g_lb s) (g_mem s) e (GEnt e) x (inbk bk t e) -> chain b m' e (GEnt e) x (inbk bk t e)).
  { intros e m' x He Ho H. rewrite (O e He Ho) in *. exact H. }
  match goal with |- exists s', ?r = _ /\ _ => destruct (wp_ok_inv r (fun s' =>
     same s s' /\ g_lb s' = b /\ g_tmin s' = g_tmin s /\ g_tmax s' = g_tmax s /\ zlen (g_mem s') = zlen (g_mem s) /\ zlen (g_entr s') = zlen (g_entr s) /\
     forall e, 0 <= e < g_totsize s -> chain b (g_mem s') e (GEnt e) (at_ 0 (g_entr s') e) (inbk bk t e))) as (x & -> & H) end; [|eauto].
  unfold gainTablMove. gs. destruct (Z.leb_spec (g_tmin s) (g_tmax s + 1)).
  2:{ rewrite for_nil by lia. cbn [wp]. gs. split; [repeat split|]. repeat (split; [reflexivity|]). intros e He. apply OE; auto. lia. }
  apply wp_for with (I := fun k s' => same s s' /\ g_lb s' = b /\ g_tmin s' = g_tmin s /\ g_tmax s' = g_tmax s /\ zlen (g_mem s') = zlen (g_mem s) /\ zlen (g_entr s') = zlen (g_entr s) /\
     (forall e, 0 <= e < k -> chain b (g_mem s') e (GEnt e) (at_ 0 (g_entr s') e) (inbk bk t e)) /\
     (forall e, k <= e < g_totsize s -> at_ 0 (g_entr s') e = at_ 0 (g_entr s) e) /\
     (forall a e, k <= e < g_totsize s -> In a (inbk bk t e) -> at_ 0 (g_mem s') a = at_ 0 (g_mem s) a)).
  - lia.
  - gs. split; [repeat split|]. repeat (split; [reflexivity|]). split; [|split; reflexivity]. intros e He. apply OE; auto; try lia. apply Ch. lia.
  - intros k s1 Hk (Sm & Hb & H1 & H2 & H3 & H4 & H5 & H6 & H7). rewrite rd_ok by lia. cbn [bind]. rewrite H6 by lia.
    assert (Ck := Ch k ltac:(lia)). destruct (inbk bk t k) as [|p l] eqn:El.
    + cbn [chain] in Ck. rewrite Ck. cbn [wp]. repeat (split; [assumption|]). split; [|split; intros; eauto].
      * intros e He. destruct (Z.eq_dec e k) as [->|]; [|apply H5; lia]. rewrite El, H6 by lia. exact Ck.
      * apply H6. lia.
      * apply (H7 a e); auto. lia.
    + assert (Ndk := NoDup_inbk bk t k N). rewrite El in Ndk. assert (Rg := chain_range _ _ _ _ _ _ Ck).
      destruct Ck as (E1 & Hp & E2 & E3 & Ck). rewrite E1. cbn [skew bind]. replace (g_lb s + p + (b - g_lb s)) with (b + p) by lia.
      rewrite set_next_ent by lia. cbn [bind]. unfold moveList.
      match goal with |- context [loop _ _ (?z, _)] => set (s2 := z) end.
      assert (Hpl : forall a, In a (p :: l) -> at_ 0 (g_mem s1) a = at_ 0 (g_mem s) a) by (intros a Ha; apply (H7 a k); [lia | now rewrite El]).
      replace (b + p) with (g_lb s2 + p) by (unfold s2; gs; lia).
      destruct (move_list k (b - g_lb s) l (length (g_mem s2) + 1) s2 p) as (m' & E0 & Z0 & F0 & F1 & F2 & F3).
      * assert (incl (p :: l) (zseq 0 (zlen (g_mem s)))) by (intros a Ha; rewrite In_zseq; apply Rg in Ha; lia).
        pose proof (NoDup_incl_length Ndk H0) as HL. cbn [length] in HL. unfold s2. gs.
        assert (length (zseq 0 (zlen (g_mem s))) = length (g_mem s)) by (unfold zseq; rewrite map_length, seq_length; unfold zlen; lia).
        assert (length (g_mem s1) = length (g_mem s)) by (unfold zlen in H3; lia). lia.
      * exact Ndk.
      * cbn. lia.
      * unfold s2. gs. rewrite Hb. replace (b - (b - g_lb s)) with (g_lb s) by lia. rewrite Hpl by now left.
        apply (chain_ext _ (g_mem s)); [lia | | exact Ck]. intros a Ha. apply Hpl. now right.
      * rewrite E0. cbn [wp]. gs. unfold s2. gs. unfold s2 in Z0, F0, F1, F2, F3. revert Z0 F0 F1 F2 F3. gs. intros Z0 F0 F1 F2 F3. rewrite Hpl in F1, F2 by now left.
        split; [eapply same_trans; [exact Sm | repeat split]|]. split; [exact Hb|]. split; [exact H1|]. split; [exact H2|]. split; [lia|]. split; [now rewrite zlen_upd|].
        split; [|split].
        -- intros e He. rewrite at_upd by lia. destruct (Z.eqb_spec k e) as [<-|Hke].
           ++ rewrite El. apply chain_cons. split; [reflexivity|]. split; [lia|]. split; [congruence|]. split; [congruence|]. rewrite Hb in F3. exact F3.
           ++ apply (chain_ext _ (g_mem s1)); [lia | | apply H5; lia]. intros a Ha. apply F0.
              ** assert (0 <= a < zlen (g_mem s)) by (apply (chain_range _ _ _ _ _ _ (Ch e ltac:(lia))); auto). lia.
              ** intros Hin. apply Hke. rewrite <- El in Hin. eapply inbk_disj; eauto.
        -- intros e He. rewrite at_upd_other by lia. apply H6. lia.
        -- intros a e He Ha. rewrite F0.
           ++ apply (H7 a e); auto. lia.
           ++ assert (0 <= a < zlen (g_mem s)) by (apply (chain_range _ _ _ _ _ _ (Ch e ltac:(lia))); auto). lia.
           ++ intros Hin. rewrite <- El in Hin. pose proof (inbk_disj bk t k e a N Hin Ha). lia.
  - intros s' (Sm & Hb & H1 & H2 & H3 & H4 & H5 & H6 & H7). repeat (split; [assumption|]). intros e He. destruct (Z.leb_spec e (g_tmax s)); [apply H5; lia|].
    rewrite H6 by lia. apply OE; auto.
Qed.

(** ** Enumeration *)
Lemma visited_incl tot t k : 0 < tot -> In k (visited bk tot t) -> In k (elems t).
Proof.
  intros Ht H. assert (exists b, In k (inbk bk t b)).
  { unfold visited in H. destruct (ordered bk (tot - 1) t) eqn:E; [eauto|]. rewrite <- E, In_ordered in H. destruct H as (b & _ & H). eauto. }
  destruct H0 as (b & H0). rewrite In_inbk in H0. destruct H0 as (g & H0 & _). apply (in_map fst) in H0. exact H0.
Qed.
Lemma visited_succ tot t k : 0 < tot -> NoDup (elems t) -> In k (visited bk tot t) -> succ_of tot t k = after k (visited bk tot t).
Proof.
  intros Ht N H. unfold visited, succ_of in *. destruct (ordered bk (tot - 1) t) eqn:E.
  - destruct (in_dec Z.eq_dec k (inbk bk t (tot - 1))); tauto.
  - destruct (in_dec Z.eq_dec k (inbk bk t (tot - 1))) as [H1|]; [|reflexivity]. exfalso. rewrite <- E, In_ordered in H. destruct H as (b & Hb & H).
    pose proof (inbk_disj bk t _ _ k N H H1). lia.
Qed.
Lemma NoDup_visited tot t : NoDup (elems t) -> NoDup (visited bk tot t).
Proof. intros N. unfold visited. destruct (ordered bk (tot - 1) t) eqn:E; [now apply NoDup_inbk|]. rewrite <- E. now apply NoDup_ordered. Qed.
Lemma hd_visited tot t : 0 < tot -> hd_error (ordered bk tot t) = hd_error (visited bk tot t).
Proof.
  intros Ht. unfold visited. replace tot with (tot - 1 + 1) at 1 by lia. rewrite ordered_snoc by lia. destruct (ordered bk (tot - 1) t); reflexivity.
Qed.

Lemma enum_rep s t : rep s t -> exists s', gainEnum s = Ok (s', map (fun k => g_lb s' + k) (visited bk (g_totsize s) t)) /\ rep s' t /\ same s s' /\ g_lb s' = g_lb s.
Proof.
  intros R. unfold gainEnum. destruct (frst_rep s t R) as (s1 & -> & R1 & Sm & Hlb & Hmem). cbn [bind].
  assert (Et : g_totsize s1 = g_totsize s) by (destruct Sm as (_ & _ & _ & ? & _); auto). rewrite <- Et, <- Hlb. set (tot := g_totsize s1) in *.
  assert (Htot : 0 < tot) by (destruct (r_cfg _ _ _ _ _ R1); auto).
  assert (N := r_nd _ _ _ _ _ R1). assert (Nv := NoDup_visited tot t N).
  match goal with |- exists s', bind ?r _ = _ /\ _ => destruct (wp_ok_inv r (fun x => x = map (fun k => g_lb s1 + k) (visited bk tot t))) as (x & -> & ->) end.
  - apply wp_loop with (I := fun '(o, acc) => exists l1 l2, visited bk tot t = l1 ++ l2 /\ o = option_map (fun k => g_lb s1 + k) (hd_error l2) /\ rev acc = map (fun k => g_lb s1 + k) l1)
      (m := fun '(o, acc) => zlen (g_mem s1) - zlen acc).
    + exists [], (visited bk tot t). rewrite hd_visited by auto. auto.
    + change (zlen (@nil Z)) with 0. unfold zlen. lia.
    + intros [o acc] (l1 & l2 & Ev & -> & Ea). destruct l2 as [|k l2]; cbn [hd_error option_map].
      * cbn [wp]. rewrite Ea, Ev, app_nil_r. reflexivity.
      * assert (Hin : In k (visited bk tot t)) by (rewrite Ev, in_app_iff; cbn; tauto).
        rewrite (next_rep s1 t) by (auto; eapply visited_incl; eauto). cbn [bind wp]. fold tot. rewrite visited_succ by auto. split.
        -- exists (l1 ++ [k]), l2. split; [now rewrite <- app_assoc|]. split.
           ++ rewrite Ev in Nv. rewrite Ev, after_mid; [reflexivity|]. apply NoDup_remove_2 in Nv. rewrite in_app_iff in Nv. tauto.
           ++ cbn [rev]. rewrite Ea, map_app. reflexivity.
        -- rewrite zlen_cons. enough (zlen acc < zlen (g_mem s1)) by lia.
           assert (incl (visited bk tot t) (zseq 0 (zlen (g_mem s1)))).
           { intros a Ha. rewrite In_zseq. pose proof (rep_range _ _ _ _ _ a R1 (visited_incl _ _ _ Htot Ha)). lia. }
           pose proof (NoDup_incl_length Nv H) as HL. rewrite Ev, app_length in HL. cbn [length] in HL.
           assert (length (zseq 0 (zlen (g_mem s1))) = length (g_mem s1)) by (unfold zseq; rewrite map_length, seq_length; unfold zlen; lia).
           assert (length acc = length l1) by (rewrite <- rev_length, Ea, map_length; reflexivity). unfold zlen. lia.
  - cbn [bind]. eexists. split; [reflexivity|]. auto.
Qed.

(** ** Histories *)
Lemma map_sub_add lb l : map (fun a => a - lb) (map (fun k => lb + k) l) = l.
Proof. rewrite map_map. rewrite <- (map_id l) at 2. apply map_ext. intros; lia. Qed.
Lemma rank_add lb o : option_map (fun a => a - lb) (option_map (fun k => lb + k) o) = o.
Proof. destruct o; cbn; [f_equal; lia | reflexivity]. Qed.

Lemma add_same s k g s' : gainTablAdd s k g = Ok s' -> g_totsize s' = g_totsize s.
Proof.
  unfold gainTablAdd, gainTablAddLog, gainTablAddLin, set_tabl, set_prev, set_next, wrl. intros H.
  destruct (g_log s); cbn zeta in H;
  repeat match goal with
  | H : bind _ _ = Ok _ |- _ => apply bind_ok_inv in H; destruct H as (? & ? & ?)
  | H : match ?p with _ => _ end = Ok _ |- _ => destruct p; try discriminate
  | H : Ok _ = Ok _ |- _ => injection H as <-
  end; reflexivity.
Qed.
Lemma del_same s k s' : gainTablDel s k = Ok s' -> g_totsize s' = g_totsize s.
Proof.
  unfold gainTablDel, set_prev, set_next, wrl. intros H.
  repeat match goal with
  | H : bind _ _ = Ok _ |- _ => apply bind_ok_inv in H; destruct H as (? & ? & ?)
  | H : match ?p with _ => _ end = Ok _ |- _ => destruct p; try discriminate
  | H : Ok _ = Ok _ |- _ => injection H as <-
  end; reflexivity.
Qed.

Lemma step_rep s t o : rep s t -> gpre w n t o ->
  exists s', gstep s o = Ok (s', gres bk (g_totsize s) t o) /\ rep s' (gpost t o) /\ g_totsize s' = g_totsize s.
Proof.
  intros R P. destruct o as [k g|k| |k| |b|]; cbn [gstep gpost gres].
  - destruct (add_rep w n bk s t k g R P) as (s' & E & R'). exists s'. rewrite E. split; [reflexivity|]. split; [auto|]. eapply add_same; eauto.
  - destruct (del_rep w n bk s t k R P) as (s' & E & R'). exists s'. rewrite E. split; [reflexivity|]. split; [auto|]. eapply del_same; eauto.
  - destruct (frst_rep s t R) as (s' & E & R' & Sm & Hlb & _). exists s'. rewrite E. cbn [bind]. unfold rank. rewrite Hlb, rank_add. split; [reflexivity|].
    split; [auto|]. now destruct Sm as (_ & _ & _ & ? & _).
  - exists s. rewrite (next_rep s t k R P). cbn [bind]. unfold rank. rewrite rank_add. split; [reflexivity|]. auto.
  - destruct (free_rep s t R) as (s' & E & R' & Sm & _). exists s'. rewrite E. split; [reflexivity|]. split; [auto|]. now destruct Sm as (_ & _ & _ & ? & _).
  - destruct (move_rep s t b R) as (s' & E & R' & _ & Sm). exists s'. rewrite E. split; [reflexivity|]. split; [auto|]. now destruct Sm as (_ & _ & _ & ? & _).
  - destruct (enum_rep s t R) as (s' & E & R' & Sm & Hlb). exists s'. rewrite E. cbn [bind]. rewrite map_sub_add. split; [reflexivity|]. split; [auto|].
    now destruct Sm as (_ & _ & _ & ? & _).
Qed.

Lemma run_rep l : forall s t, rep s t -> gvalid w n t l ->
  exists s', grun s l = Ok (s', gouts bk (g_totsize s) t l) /\ rep s' (gfinal t l) /\ g_totsize s' = g_totsize s.
Proof.
  induction l as [|o l IH]; intros s t R V; cbn [grun gouts gfinal].
  - exists s. auto.
  - destruct V as (P & V). destruct (step_rep s t o R P) as (s1 & -> & R1 & E1). cbn [bind]. destruct (IH s1 _ R1 V) as (s2 & -> & R2 & E2). cbn [bind].
    exists s2. rewrite E1. split; [reflexivity|]. split; [auto | congruence].
Qed.
End Rep.

(** ** Initialisation *)
Lemma init_lin w gainmax subbits lb mem : gainmax < 1024 -> exists s, gainTablInit w gainmax subbits lb mem = Ok s /\
  g_totsize s = 2048 /\ rep w (zlen mem) (linbk 2048) s [].
Proof.
  intros H. unfold gainTablInit. unfold GAIN_LINMAX. destruct (Z.leb_spec 1024 gainmax); [lia|]. cbn [bind]. eexists. split; [reflexivity|]. gs. split; [reflexivity|].
  constructor; gs; try easy; try lia.
  - split; gs; [lia|]. split; [reflexivity|]. intros g Hg. unfold entr, entrLin. gs. cbn [Z.sub Z.add]. unfold linbk.
    change (2 * 1024 / 2) with 1024. change (2048 / 2) with 1024. change (2 * 1024 - 1) with 2047. change (2048 - 1) with 2047.
    split; [|lia]. f_equal. destruct (Z.ltb_spec (1024 + g) 0); [lia|]. destruct (Z.ltb_spec 2047 (1024 + g)); lia.
  - constructor.
  - intros e He. rewrite inbk_nil. cbn [chain]. apply at_repeat. lia.
Qed.

Lemma init_log w gainmax s0 lb mem : 1024 <= gainmax -> 0 <= s0 <= 29 -> s0 <= w - 2 -> w <= 64 -> (w - s0) * 2 ^ (s0 + 1) < 2 ^ (w - 1) ->
  exists s, gainTablInit w gainmax s0 lb mem = Ok s /\
  g_totsize s = (w - s0) * 2 ^ (s0 + 1) /\ rep w (zlen mem) (logbk ((w - s0) * 2 ^ (s0 + 1)) s0) s [].
Proof.
  intros H Hs Hw Hw2 Hb. unfold gainTablInit. unfold GAIN_LINMAX. destruct (Z.leb_spec 1024 gainmax); [|lia].
  replace (_ && _) with true by (symmetry; rewrite !andb_true_iff, !Z.leb_le, Z.ltb_lt; lia). cbn [bind]. eexists. split; [reflexivity|]. gs. split; [reflexivity|].
  assert (P2 := pow_pos s0 ltac:(lia)). assert (Etot : (w - s0) * 2 ^ (s0 + 1) = ((w - s0) * 2 ^ s0) * 2) by (rewrite Z.pow_add_r by lia; ring).
  assert (Eh : (w - s0) * 2 ^ (s0 + 1) / 2 = (w - s0) * 2 ^ s0) by (rewrite Etot; now rewrite Z.div_mul by lia).
  assert (0 < (w - s0) * 2 ^ s0) by nia. rewrite Eh in *.
  constructor; gs; try easy; try lia.
  - split; gs; [lia|]. split; [reflexivity|]. intros g Hg. unfold entr, entrLog. gs. unfold logbk. rewrite Eh.
    destruct (Z.leb_spec 0 g).
    + pose proof (logidx_range w s0 g ltac:(lia) ltac:(lia)). split; [|lia].
      match goal with |- context [logLoop ?z _] => destruct (logLoop_spec z w s0 g) as (i & -> & Hi); try (gs; lia) end. cbn [bind]. unfold logidx. rewrite <- Hi. cbn zeta.
      rewrite Z.shiftl_mul_pow2 by lia. reflexivity.
    + pose proof (logidx_range w s0 (-1 - g) ltac:(lia) ltac:(lia)). split; [|lia]. replace (- (g + 1)) with (-1 - g) by lia.
      match goal with |- context [logLoop ?z _] => destruct (logLoop_spec z w s0 (-1 - g)) as (i & -> & Hi); try (gs; lia) end. cbn [bind]. unfold logidx. rewrite <- Hi. cbn zeta.
      rewrite Z.shiftl_mul_pow2 by lia. f_equal. lia.
  - rewrite zlen_repeat. lia.
  - constructor.
  - intros e He. rewrite inbk_nil. cbn [chain]. apply at_repeat. lia.
Qed.
