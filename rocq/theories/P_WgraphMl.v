(** Proofs about multilevel partitioning with overlap. *)
From Verif Require Import Base Mem M_Graph M_Vgraph M_VgraphSt M_Wgraph M_WgraphMl S_Graph S_Vgraph S_Color S_Match S_Coarsen S_VgraphSt S_Wgraph
  P_Graph P_Vgraph P_Match2 P_VgraphSt P_VgraphMl P_Wgraph P_WgraphSt.

Fixpoint chain (nx : list Z) (hd : Z) (L : list Z) : Prop :=
  match L with [] => hd = -1 | p :: L => hd = p /\ 0 <= p /\ chain nx (at_ (-1) nx p) L end.
Lemma chain_upd nx p x : -1 <= p < zlen nx - 1 -> forall L hd, ~ In p L -> chain nx hd L -> chain (upd (-1) nx p x) hd L.
Proof.
  intros Hp. induction L as [|q L IH]; intros hd Hn H; [exact H|]. destruct H as (-> & Hq & H). cbn [chain]. split; [reflexivity|]. split; [exact Hq|].
  rewrite at_upd by lia. destruct (Z.eqb_spec p q) as [->|]; [destruct Hn; now left|]. apply IH; auto. intros C. apply Hn. now right.
Qed.

Lemma walk_ok n l nx : n < zlen nx -> forall L fuel hd cl cs, (length L < fuel)%nat -> chain nx hd L -> NoDup L -> (forall p, In p L -> 0 <= p < n) -> n <= zlen cl -> n <= zlen cs ->
  exists cl' cs', loop fuel (fun '(hd, cl, cs) => if hd =? -1 then Ok (inr (cl, cs)) else do cl <- addat cl hd l; do cs <- addat cs hd 1; do hd <- rd (-1) nx hd; Ok (inl (hd, cl, cs))) (hd, cl, cs) = Ok (cl', cs') /\
    zlen cl' = zlen cl /\ zlen cs' = zlen cs /\
    forall q, 0 <= q < n -> at_ 0 cl' q = at_ 0 cl q + (if in_dec Z.eq_dec q L then l else 0) /\ at_ 0 cs' q = at_ 0 cs q + (if in_dec Z.eq_dec q L then 1 else 0).
Proof.
  intros Hx. induction L as [|p L IH]; intros fuel hd cl cs Hf Hc ND HL Lc Ls; (destruct fuel as [|fuel]; [cbn in Hf; lia|]).
  - cbn [chain] in Hc. subst hd. cbn [loop]. change (Z.eqb (-1) (-1)) with true. cbn [bind]. exists cl, cs. do 3 (split; [reflexivity|]). intros q Hq. destruct (in_dec Z.eq_dec q []) as [[]|]. lia.
  - destruct Hc as (-> & Hp & Hc). inversion ND as [|? ? Hn ND']; subst. pose proof (HL p (or_introl eq_refl)) as Hpn. cbn [loop]. destruct (Z.eqb_spec p (-1)); [lia|].
    rewrite addat_ok by lia. cbn [bind]. rewrite addat_ok by lia. cbn [bind]. rewrite rd_ok by lia. cbn [bind].
    destruct (IH fuel (at_ (-1) nx p) (upd 0 cl p (at_ 0 cl p + l)) (upd 0 cs p (at_ 0 cs p + 1))) as (cl' & cs' & E & L1 & L2 & A); rewrite ?zlen_upd; auto.
    { cbn in Hf. lia. } { intros q Hq. apply HL. now right. }
    exists cl', cs'. split; [exact E|]. rewrite !zlen_upd in L1, L2. split; [exact L1|]. split; [exact L2|]. intros q Hq. destruct (A q Hq) as [A1 A2]. rewrite A1, A2, !at_upd by lia.
    destruct (Z.eqb_spec p q) as [<-|Hne].
    + destruct (in_dec Z.eq_dec p L); [contradiction|]. destruct (in_dec Z.eq_dec p (p :: L)) as [|X]; [lia|]. destruct X. now left.
    + destruct (in_dec Z.eq_dec q L) as [I1|I1], (in_dec Z.eq_dec q (p :: L)) as [I2|I2]; try lia.
      * destruct I2. now right. * destruct I2 as [->|]; [congruence|contradiction].
Qed.

Section Unc1.
Variable g : wgraph.
Notation s := (ws g).
Notation b := (baseval (ws g)).
Notation n := (wnbr g).
Hypothesis V : graph_valid s.
Hypothesis R : graph_readable s.
Hypothesis B0 : 0 <= b.
Hypothesis N0 : 0 <= n.
Hypothesis LP : vertnbr s <= zlen (wpart g).
Hypothesis RG : forall v, isvert s v -> -1 <= wpt g v < n.

Lemma chain_ok v vn nx : isvert s v -> zlen vn = n + 1 -> zlen nx = n + 1 -> at_ (-1) vn (-1) = v -> (forall p, 0 <= p < n -> at_ (-1) vn p < v) ->
  wp (wmlChain g v (vert s v) (vend s v) vn nx) (fun '(vn', nx', hd) => zlen vn' = n + 1 /\ zlen nx' = n + 1 /\ (forall p, 0 <= p < n -> at_ (-1) vn' p <= v) /\
    exists L, chain nx' hd L /\ NoDup L /\ (forall p, In p L <-> 0 <= p < n /\ near s (wpt g) v p = true)) noerr.
Proof.
  intros Hv Lf Lx Fv Fp. unfold wmlChain. pose proof (gv_range _ V v Hv) as Hr.
  apply wp_for with (I := fun e '(vn', nx', hd) => zlen vn' = n + 1 /\ zlen nx' = n + 1 /\ at_ (-1) vn' (-1) = v /\
    (forall p, 0 <= p < n -> at_ (-1) vn' p = (if nearto s (wpt g) (vert s v) e p then v else at_ (-1) vn p)) /\
    exists L, chain nx' hd L /\ NoDup L /\ (forall p, In p L <-> 0 <= p < n /\ nearto s (wpt g) (vert s v) e p = true)).
  - lia.
  - do 3 (split; [auto|]). split; [intros p Hp; now rewrite nearto_nil|]. exists []. split; [reflexivity|]. split; [constructor|]. intros p. rewrite nearto_nil. split; [intros []|intros [_ H]; discriminate H].
  - intros e [[vn1 nx1] hd] He (L1 & L2 & F1 & I1 & L & C & ND & HL). assert (A : arc s v e) by (split; [exact Hv|lia]). pose proof (arc_isvert _ _ _ V A) as Hw.
    rewrite (redge_ok _ v) by auto. cbn [bind]. rewrite rdpart by auto. cbn [bind]. pose proof (RG _ Hw) as Hp. set (p := wpt g (edge s e)) in *.
    rewrite rd_ok by lia. cbn [bind].
    assert (NS : forall q, nearto s (wpt g) (vert s v) (e + 1) q = nearto s (wpt g) (vert s v) e q || (p =? q)) by (intros q; apply nearto_snoc; lia).
    destruct (Z.eqb_spec (at_ (-1) vn1 p) v) as [Ef|Ef]; cbn [negb].
    + cbn [wp]. assert (EQ : forall q, 0 <= q < n -> nearto s (wpt g) (vert s v) (e + 1) q = nearto s (wpt g) (vert s v) e q).
      { intros q Hq. rewrite NS. destruct (Z.eqb_spec p q) as [<-|]; [|apply orb_false_r]. rewrite I1 in Ef by exact Hq. destruct (nearto s (wpt g) (vert s v) e p); [reflexivity|]. specialize (Fp p Hq). lia. }
      do 3 (split; [assumption|]). split; [intros q Hq; rewrite EQ by exact Hq; auto|]. exists L. split; [exact C|]. split; [exact ND|]. intros q. rewrite HL. split; intros [H1 H2]; split; auto; [now rewrite EQ|now rewrite EQ in H2].
    + assert (Hp1 : p <> -1) by (intros E; apply Ef; rewrite E; exact F1). rewrite wr_ok by lia. cbn [bind]. rewrite wr_ok by lia. cbn [bind wp].
      assert (NI : ~ In p L). { intros I. apply HL in I. destruct I as [_ I]. rewrite I1, I in Ef by lia. congruence. }
      rewrite !zlen_upd. do 2 (split; [assumption|]). split; [rewrite at_upd by lia; destruct (Z.eqb_spec p (-1)); [lia|assumption]|]. split.
      * intros q Hq. rewrite NS, at_upd by lia. destruct (Z.eqb_spec p q) as [<-|]; [now rewrite orb_true_r|]. rewrite orb_false_r. auto.
      * exists (p :: L). split; [|split; [now constructor|]].
        -- cbn [chain]. split; [reflexivity|]. split; [lia|]. rewrite at_upd by lia. rewrite Z.eqb_refl. apply chain_upd; auto. lia.
        -- intros q. cbn [In]. rewrite HL, NS. destruct (Z.eqb_spec p q) as [<-|Hne]; [rewrite orb_true_r; split; [intros _; split; [lia|reflexivity]|auto]|]. rewrite orb_false_r. split; [intros [?|?]; [congruence|assumption]|auto].
  - intros [[vn1 nx1] hd] (L1 & L2 & F1 & I1 & H). do 2 (split; [assumption|]). split; [|exact H]. intros p Hp. rewrite I1 by exact Hp. destruct (nearto _ _ _ _ _); [lia|]. specialize (Fp p Hp). lia.
Qed.

Lemma verts_ok tab cl cs : zlen tab = n + 1 -> (forall p, 0 <= p < n -> at_ (-1) tab p < b) -> n <= zlen cl -> n <= zlen cs -> (forall p, 0 <= p < n -> at_ 0 cl p = 0 /\ at_ 0 cs p = 0) ->
  wp (for_ b (vertnnd s) (wmlVert g) (tab, tab, cl, cs)) (fun '(_, _, cl', cs') => zlen cl' = zlen cl /\ zlen cs' = zlen cs /\
    forall p, 0 <= p < n -> at_ 0 cl' p = oload s (wpt g) p /\ at_ 0 cs' p = osize s (wpt g) p) noerr.
Proof.
  intros Lt Ft Lc Ls Z0. pose proof (gv_nnd _ V) as Nn. pose proof (gv_size _ V) as Zn.
  apply wp_for with (I := fun k '(vn, nx, cl', cs') => zlen vn = n + 1 /\ zlen nx = n + 1 /\ zlen cl' = zlen cl /\ zlen cs' = zlen cs /\
    forall p, 0 <= p < n -> at_ (-1) vn p < k /\ at_ 0 cl' p = ldto g k p /\ at_ 0 cs' p = szto g k p).
  - lia.
  - do 4 (split; [auto|]). intros p Hp. split; [auto|]. unfold ldto, szto. rewrite zsum_nil, zcount_nil by lia. auto.
  - intros v [[[vn nx] cl1] cs1] Hv (L1 & L2 & L3 & L4 & I1). assert (Hv' : isvert s v) by exact Hv. unfold wmlVert. rewrite rdpart by auto. cbn [bind]. pose proof (RG _ Hv') as Hp.
    assert (SL : forall q, ldto g (v + 1) q = ldto g v q + (if inpart s (wpt g) v q then velo s v else 0)) by (intros q; unfold ldto; now rewrite zsum_snoc by lia).
    assert (SC : forall q, szto g (v + 1) q = szto g v q + (if inpart s (wpt g) v q then 1 else 0)) by (intros q; unfold szto; rewrite zcount_snoc by lia; destruct (inpart _ _ _ _); reflexivity).
    destruct (Z.leb_spec 0 (wpt g v)) as [Hg|Hg].
    + rewrite rvelo_ok2 by auto. cbn [bind]. rewrite addat_ok by lia. cbn [bind]. rewrite addat_ok by lia. cbn [bind wp]. rewrite !zlen_upd. do 4 (split; [assumption|]).
      intros q Hq. destruct (I1 q Hq) as (J1 & J2 & J3). split; [lia|]. rewrite SL, SC, !at_upd by lia. unfold inpart.
      destruct (Z.eqb_spec (wpt g v) (-1)); [lia|]. cbn [andb]. rewrite orb_false_r. destruct (Z.eqb_spec (wpt g v) q) as [Eq|Eq]; [rewrite Eq; split; lia|]. lia.
    + assert (Ev : wpt g v = -1) by lia. rewrite wr_ok by lia. cbn [bind]. rewrite rvert_ok by auto. cbn [bind]. rewrite rvend_ok by auto. cbn [bind]. apply wp_bind.
      eapply wp_mono; [apply chain_ok; auto; rewrite ?zlen_upd; try lia|].
      * rewrite at_upd by lia. now rewrite Z.eqb_refl.
      * intros p Hp'. rewrite at_upd by lia. destruct (Z.eqb_spec (-1) p); [lia|]. apply I1; lia.
      * intros [[vn2 nx2] hd] (M1 & M2 & M3 & L & C & ND & HL). rewrite rvelo_ok2 by auto. cbn [bind]. unfold wmlWalk.
        assert (LL : (length L <= length (zseq 0 n))%nat) by (apply NoDup_incl_length; [exact ND|intros q Hq; apply In_zseq; apply HL in Hq; lia]).
        pose proof (zlen_zseq 0 n N0) as Lz. unfold zlen in Lz.
        destruct (walk_ok n (velo s v) nx2 ltac:(lia) L (S (Z.to_nat n)) hd cl1 cs1) as (cl2 & cs2 & -> & K1 & K2 & K3); auto; try lia.
        { intros q Hq. apply HL in Hq. apply Hq. }
        cbn [bind wp]. split; [assumption|]. split; [assumption|]. split; [lia|]. split; [lia|].
        intros q Hq. destruct (I1 q Hq) as (J1 & J2 & J3). destruct (K3 q Hq) as [K4 K5]. split; [specialize (M3 q Hq); lia|]. rewrite SL, SC. unfold inpart. rewrite Ev.
        destruct (Z.eqb_spec (-1) q); [lia|]. change (Z.eqb (-1) (-1)) with true. cbn [orb andb]. rewrite K4, K5, J2, J3.
        destruct (in_dec Z.eq_dec q L) as [I|I].
        -- apply HL in I. destruct I as [_ ->]. auto.
        -- destruct (near s (wpt g) v q) eqn:En; [|auto]. destruct I. apply HL. auto.
  - intros [[[vn nx] cl1] cs1] (L1 & L2 & L3 & L4 & I1). do 2 (split; [assumption|]). intros p Hp. destruct (I1 p Hp) as (_ & J2 & J3). auto.
Qed.
End Unc1.
