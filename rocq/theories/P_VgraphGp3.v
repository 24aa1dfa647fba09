(** Proofs about separation by graph growing: the method. *)
From Verif Require Import Base Mem M_Graph M_Vgraph M_VgraphSt S_Graph S_Vgraph S_Color S_VgraphSt P_Graph P_Vgraph P_Vgraph2 P_Bgraph2 P_VgraphSt P_VgraphGp P_VgraphGp2.

Section Fin.
Variables (s : graph) (pt fr : list Z).
Hypothesis N : vertnnd s = baseval s + vertnbr s /\ 0 <= vertnbr s.
Hypothesis Zp : vertnbr s <= zlen pt.
Hypothesis Zf : vertnbr s <= zlen fr.
Notation b := (baseval s).
Hypothesis P3 : forall v, isvert s v -> 0 <= at_ b pt v <= 2.
Definition pc (k q : Z) : Z := zcount b k (fun v => at_ b pt v =? q).
Lemma pc_S k q : b <= k -> pc (k + 1) q = pc k q + b2z (at_ b pt k =? q).
Proof. intros. unfold pc. now rewrite zcount_snoc by lia. Qed.

Lemma fin_ok : exists fr', for_ b (vertnnd s) (fun v '(fr, k, sz1, sz2) =>
    do p <- rd b pt v;
    let sz1 := sz1 + Z.land p 1 in let sz2 := sz2 + Z.shiftr p 1 in
    if p =? 2 then do fr <- wr 0 fr k v; Ok (fr, k + 1, sz1, sz2) else Ok (fr, k, sz1, sz2)) (fr, 0, 0, 0) =
    Ok (fr', pc (vertnnd s) 2, pc (vertnnd s) 1, pc (vertnnd s) 2) /\ zlen fr' = zlen fr /\
  (forall i, 0 <= i < pc (vertnnd s) 2 -> isvert s (at_ 0 fr' i) /\ at_ b pt (at_ 0 fr' i) = 2) /\
  (forall i j, 0 <= i < pc (vertnnd s) 2 -> 0 <= j < pc (vertnnd s) 2 -> at_ 0 fr' i = at_ 0 fr' j -> i = j) /\
  (forall v, isvert s v -> at_ b pt v = 2 -> exists i, 0 <= i < pc (vertnnd s) 2 /\ at_ 0 fr' i = v).
Proof.
  destruct N as (N1 & N2).
  match goal with |- context [for_ ?lo ?hi ?f ?x] => destruct (wp_ok_inv (for_ lo hi f x) (fun '(fr', k, z1, z2) => k = pc hi 2 /\ z1 = pc hi 1 /\ z2 = pc hi 2 /\ zlen fr' = zlen fr /\
    (forall i, 0 <= i < k -> isvert s (at_ 0 fr' i) /\ at_ b pt (at_ 0 fr' i) = 2) /\ (forall i j, 0 <= i < k -> 0 <= j < k -> at_ 0 fr' i = at_ 0 fr' j -> i = j) /\
    (forall v, isvert s v -> at_ b pt v = 2 -> exists i, 0 <= i < k /\ at_ 0 fr' i = v))) as ((((fr' & k) & z1) & z2) & EX & Q1 & Q2 & Q3 & Q4 & Q5 & Q6 & Q7) end.
  { apply wp_for with (I := fun x '(fr', k, z1, z2) => k = pc x 2 /\ z1 = pc x 1 /\ z2 = pc x 2 /\ zlen fr' = zlen fr /\
      (forall i, 0 <= i < k -> b <= at_ 0 fr' i < x /\ at_ b pt (at_ 0 fr' i) = 2) /\ (forall i j, 0 <= i < k -> 0 <= j < k -> at_ 0 fr' i = at_ 0 fr' j -> i = j) /\
      (forall v, b <= v < x -> at_ b pt v = 2 -> exists i, 0 <= i < k /\ at_ 0 fr' i = v)).
    - lia.
    - unfold pc. rewrite !zcount_nil by lia. repeat (split; [auto; try (intros; lia)|]). intros; lia.
    - intros v [[[fr' k] z1] z2] Hv (I1 & I2 & I3 & I4 & I5 & I6 & I7). rewrite rd_ok by lia. cbn [bind]. cbv zeta. pose proof (P3 v Hv) as Pv.
      pose proof (pc_S v 1 (proj1 Hv)) as S1. pose proof (pc_S v 2 (proj1 Hv)) as S2. set (p := at_ b pt v) in *.
      assert (E1 : Z.land p 1 = b2z (p =? 1)) by (assert (p = 0 \/ p = 1 \/ p = 2) as [-> | [-> | ->]] by lia; reflexivity).
      assert (E2 : Z.shiftr p 1 = b2z (p =? 2)) by (assert (p = 0 \/ p = 1 \/ p = 2) as [-> | [-> | ->]] by lia; reflexivity).
      rewrite E1, E2. assert (Kb : 0 <= pc v 2 <= v - b).
      { unfold pc. split; [apply zcount_nonneg|]. replace (v - b) with (zsum b v (fun _ => 1)) by (rewrite zsum_const by lia; lia). apply zsum_le. intros i _. unfold b2z. destruct (at_ b pt i =? 2); lia. }
      destruct (Z.eqb_spec p 2) as [Ep|Ep]; cbn [b2z] in *.
      + rewrite wr_ok by lia. cbn [bind wp]. rewrite zlen_upd. split; [lia|]. split; [lia|]. split; [lia|]. split; [auto|]. split; [|split].
        * intros i Hi. rewrite at_upd by lia. destruct (Z.eqb_spec k i); [split; [lia | exact Ep]|]. destruct (I5 i ltac:(lia)). split; [lia | auto].
        * intros i j Hi Hj. rewrite !at_upd by lia. destruct (Z.eqb_spec k i), (Z.eqb_spec k j); intros E; first [lia | destruct (I5 j ltac:(lia)); lia | destruct (I5 i ltac:(lia)); lia | apply I6; auto; lia].
        * intros u Hu Eu. destruct (Z.eq_dec u v) as [->|].
          -- exists k. split; [lia|]. rewrite at_upd by lia. now rewrite Z.eqb_refl.
          -- destruct (I7 u ltac:(lia) Eu) as (i & Hi & Ei). exists i. split; [lia|]. rewrite at_upd by lia. destruct (Z.eqb_spec k i); [lia | exact Ei].
      + cbn [wp]. split; [lia|]. split; [lia|]. split; [lia|]. split; [assumption|]. split; [|split; [assumption|]].
        * intros i Hi. destruct (I5 i Hi). split; [lia | auto].
        * intros u Hu Eu. destruct (Z.eq_dec u v) as [->|]; [contradiction|]. apply I7; auto. lia.
    - intros [[[fr' k] z1] z2] (I1 & I2 & I3 & I4 & I5 & I6 & I7). repeat (split; [assumption|]). exact I7. }
  subst k z1 z2. exists fr'. auto.
Qed.
End Fin.

Lemma Gp_valid jk passnbr g : graph_valid (vs g) -> vg_readable g -> vg_counts g -> separated g -> 0 <= vdw0 g /\ 0 <= vdw1 g /\ 0 < vdw0 g + vdw1 g ->
  exists h, vgraphSeparateGp jk passnbr g = Ok (0, h) /\ vsame g h /\ vg_counts h /\ fron_exact h /\ separated h /\ vdlt h <= 0.
Proof.
  intros V RG CG SG (W0 & W1 & W). unfold vgraphSeparateGp. cbv zeta.
  pose proof (vr_nnd _ RG) as (N1 & N2). pose proof (vr_part _ RG) as Zp. pose proof (vr_fron _ RG) as Zf.
  match goal with |- context [bind (if ?c then _ else Ok g) _] => destruct (wp_ok_inv (if c then vgraphZero g else Ok g) (fun g1 => vsame g g1 /\ forall v, isvert (vs g) v -> part g1 v = 0)) as (g1 & -> & Sm & P0) end.
  { destruct (Z.eqb_spec (vcsz0 g) (vertnbr (vs g))) as [E|E]; cbn [negb].
    - cbn [wp]. split; [apply vsame_refl|]. intros v Hv. rewrite (vc_size0 _ CG) in E. unfold psize in E.
      destruct (Z.eqb_spec (part g v) 0) as [|Hn]; [assumption|]. exfalso.
      assert (zcount (baseval (vs g)) (vertnnd (vs g)) (fun v => part g v =? 0) < vertnbr (vs g)); [|lia].
      replace (vertnbr (vs g)) with (zcount (baseval (vs g)) (vertnnd (vs g)) (fun _ => true)) by (rewrite zcount_all by (auto; lia); lia).
      unfold zcount. rewrite (zsum_upd (baseval (vs g)) (vertnnd (vs g)) (fun u => if u =? v then 0 else 1) (fun _ => b2z true) v); [|exact Hv | intros i _ Hi; destruct (Z.eqb_spec i v); [congruence | reflexivity]].
      rewrite Z.eqb_refl. cbn [b2z]. assert (zsum (baseval (vs g)) (vertnnd (vs g)) (fun i => b2z (part g i =? 0)) <= zsum (baseval (vs g)) (vertnnd (vs g)) (fun u => if u =? v then 0 else 1)); [|lia].
      apply zsum_le. intros i _. destruct (Z.eqb_spec i v) as [->|]; [destruct (Z.eqb_spec (part g v) 0); [congruence | cbn [b2z]; lia]|]. destruct (_ =? _); cbn [b2z]; lia.
    - assert (VU : valid_upto_sum (vs g)) by (exists (edlosum (vs g)); destruct (vs g); exact V).
      destruct (vgraphZero_spec g RG (vupto_struct _ VU) (vupto_sum _ VU)) as (h & E' & Es & _ & _ & _ & _ & P0 & D0 & D1). unfold vgraphZero in E'. cbv zeta in E'.
      destruct (memst_spec (baseval (vs g)) (vpart g) (vertnbr (vs g)) 0) as (pt & Em & Hz & _); [lia|]. unfold vgraphZero. cbv zeta. rewrite Em in E' |- *. cbn [bind wp] in E' |- *. injection E' as <-. split; [constructor; auto | exact P0]. }
  cbn [bind]. destruct Sm as [Sg Sw0 Sw1 Sp Sf]. rewrite Sw0, Sw1.
  set (s := vs g) in *. set (L := zlen (vpart g)) in *. set (w0 := vdw0 g) in *. set (w1 := vdw1 g) in *.
  set (fuel := S (S (Z.to_nat (vertnbr s)))). assert (Hf : Z.of_nat fuel = vertnbr s + 2) by (unfold fuel; lia). clearbody fuel.
  set (st0 := mkgpst _ _ _ 0 0).
  assert (P0' : forall v, isvert s v -> at_ (baseval s) (vpart g1) v = 0) by (intros v Hv; specialize (P0 v Hv); unfold part in P0; rewrite Sg in P0; exact P0).
  assert (LD0 : forall q, LD s (vpart g1) q = if q =? 0 then velosum s else 0).
  { intros q. unfold LD. destruct (Z.eqb_spec q 0) as [->|Hq].
    - rewrite (gv_velosum _ V). apply zsum_ext. intros v Hv. now rewrite P0' by exact Hv.
    - apply zsum_zero. intros v Hv. rewrite P0' by exact Hv. destruct (Z.eqb_spec 0 q); [lia | reflexivity]. }
  match goal with |- context [loop ?f ?B ?x] => destruct (wp_ok_inv (loop f B x) (fun '(pt, dlt, c2) => psep s w0 w1 L pt dlt c2 /\ dlt <= 0)) as (((pt & dlt) & c2) & -> & PS & DL) end.
  { apply wp_loop with (I := fun '(root, (st, pt, dlt, c2)) => baseval s <= root <= vertnnd s /\ psep s w0 w1 L pt dlt c2 /\ (0 < dlt -> fresh s root st pt)) (m := fun '(root, (st, pt, dlt, c2)) => vertnnd s - root).
    - split; [lia|]. assert (E0 : forall v, isvert s v -> at_ (baseval s) (gp_pass st0) v = 0) by (intros v Hv; unfold st0, isvert in *; cbn [gp_pass]; apply at_repeat; lia). split.
      + constructor; rewrite ?LD0; auto.
        * intros v Hv. rewrite P0' by exact Hv. lia.
        * intros v w Ha. destruct (adj_vert s V v w Ha) as (Hv & _). rewrite P0' by exact Hv. lia.
        * change (0 =? 0) with true. change (1 =? 0) with false. cbv iota. lia.
      + intros _. constructor.
        * unfold st0. constructor; cbn [gp_pass gp_dist gp_qu]; rewrite zlen_repeat; lia.
        * intros v Hv X. rewrite E0 in X by auto. congruence.
        * intros v Hv _. auto.
        * intros v w Hv X. rewrite E0 in X by auto. congruence.
        * intros v Hv Hl. unfold isvert in Hv. lia.
    - lia.
    - intros [root [[[st pt] dlt] c2]] (Hr & PS & FR). destruct (Z.ltb_spec root (vertnnd s)) as [Hl|Hl]; cbn [andb].
      2: { cbn [wp]. split; [exact PS|]. destruct (Z_lt_le_dec 0 dlt) as [Hd|]; [|assumption]. specialize (FR Hd). replace root with (vertnnd s) in FR by lia.
        assert (LD s pt 0 = 0).
        { apply zsum_zero. intros v Hv. rewrite (fr_1 _ _ _ _ FR v Hv); [reflexivity|]. apply (fr_lt _ _ _ _ FR); [exact Hv | apply Hv]. }
        pose proof (LD_nonneg s V pt 1). destruct PS. nia. }
      destruct (Z.ltb_spec 0 dlt) as [Hd|Hd]; [|cbn [wp]; auto].
      destruct (gp_comp s (vr_graph _ RG) V w0 w1 L Zp (conj W0 W1) fuel passnbr root st pt dlt c2 ltac:(lia) ltac:(lia) Hd PS (FR Hd)) as (root' & Hr' & -> & st1 & dn & pass & E1 & st2 & E2 & E3 & E4 & st4 & pt' & dlt' & c2' & E5 & PS' & FR').
      cbn [bind]. rewrite E1. cbn [bind]. rewrite E2. cbn [bind]. rewrite E3. cbn [bind]. rewrite E4. cbn [bind]. rewrite E5. cbn [bind wp]. split; [split; [lia|]|lia]. auto. }
  cbn [bind]. destruct (Z.eqb_spec (w0 + w1) 0); [lia|].
  destruct PS as [Q1 Q2 Q3 Q4 Q5].
  destruct (fin_ok s pt (vfron g1) (conj N1 N2) ltac:(lia) ltac:(lia) Q2) as (fr' & EF & F1 & F2 & F3 & F4). cbv zeta in EF. rewrite EF. cbn [bind].
  eexists. split; [reflexivity|]. match goal with |- vsame _ ?z /\ _ => set (h := z) end.
  assert (RH : vg_readable h).
  { destruct RG as [R1 R2 R3 R4 R5]. constructor; cbn [h vs vpart vfron]; auto; try lia. intros v Hv. specialize (Q2 v Hv). unfold part. cbn [h vs vpart]. lia. }
  assert (LP : forall q, pload h q = LD s pt q) by reflexivity. assert (SP : forall q, psize h q = pc s pt (vertnnd s) q) by reflexivity.
  assert (VU : valid_upto_sum s) by (exists (edlosum s); destruct s; exact V).
  pose proof (pload_all h VU Q2) as LA. pose proof (psize_all h RH Q2) as SA. rewrite !LP in LA. rewrite !SP in SA. change (vs h) with s in LA, SA.
  assert (C0 : Z.quot (dlt + (velosum s - c2) * w0) (w0 + w1) = LD s pt 0).
  { replace (dlt + (velosum s - c2) * w0) with (LD s pt 0 * (w0 + w1)) by nia. apply Z.quot_mul. lia. }
  split; [constructor; cbn [h vs vpart vfron vdw0 vdw1]; auto; lia|]. split; [|split; [|split; [|exact DL]]].
  - constructor; rewrite ?LP, ?SP; cbn [h vcsz0 vcsz1 vcld0 vcld1 vcld2 vdlt vdw0 vdw1]; auto; rewrite ?C0; try lia.
  - split; [cbn [h vfronnbr]; apply zcount_nonneg|]. split; [exact F2|]. split; [exact F3 | exact F4].
  - intros v e Ha. change (vs h) with s in *. assert (Hadj : adjacent s v (edge s e)) by (exists e; auto). split; intros (X1 & X2).
    + exact (Q3 _ _ (adj_sym s V _ _ Hadj) X2 X1).
    + exact (Q3 _ _ Hadj X1 X2).
Qed.

Lemma Zero_set x g : vgraphZero (vset x g) = do h <- vgraphZero g; Ok (vset x h).
Proof. unfold vgraphZero. cbv zeta. change (memst (baseval (vs (vset x g))) (vpart (vset x g)) (baseval (vs (vset x g))) (vertnbr (vs (vset x g))) 0) with (memst (baseval (vs g)) (vpart g) (baseval (vs g)) (vertnbr (vs g)) 0). destruct (memst _ _ _ _ _); reflexivity. Qed.
Lemma Zero_vs g h : vgraphZero g = Ok h -> vs h = vs g.
Proof. unfold vgraphZero. cbv zeta. destruct (memst _ _ _ _ _); [|discriminate..]. cbn [bind]. intros E. injection E as <-. reflexivity. Qed.

Lemma Gp_set jk passnbr x g : vgraphSeparateGp jk passnbr (vset x g) = do '(rc, h) <- vgraphSeparateGp jk passnbr g; Ok (rc, vset x h).
Proof.
  unfold vgraphSeparateGp. cbv zeta. change (vcsz0 (vset x g)) with (vcsz0 g). change (vertnbr (vs (vset x g))) with (vertnbr (vs g)). rewrite Zero_set.
  destruct (negb (vcsz0 g =? vertnbr (vs g))).
  - destruct (vgraphZero g) as [g1| | |]; try reflexivity. cbn [bind]. change (vdw0 (vset x g1)) with (vdw0 g1). change (vdw1 (vset x g1)) with (vdw1 g1). change (vpart (vset x g1)) with (vpart g1). change (vfron (vset x g1)) with (vfron g1).
    match goal with |- bind ?A _ = bind (bind ?B _) _ => change A with B; destruct B as [[[pt dlt] c2]| | |]; try reflexivity end. cbn [bind]. destruct (_ =? 0); [reflexivity|].
    match goal with |- bind ?A _ = bind (bind ?B _) _ => change A with B; destruct B as [[[[fr k] z1] z2]| | |]; reflexivity end.
  - cbn [bind]. change (vdw0 (vset x g)) with (vdw0 g). change (vdw1 (vset x g)) with (vdw1 g). change (vpart (vset x g)) with (vpart g). change (vfron (vset x g)) with (vfron g).
    match goal with |- bind ?A _ = bind (bind ?B _) _ => change A with B; destruct B as [[[pt dlt] c2]| | |]; try reflexivity end. cbn [bind]. destruct (_ =? 0); [reflexivity|].
    match goal with |- bind ?A _ = bind (bind ?B _) _ => change A with B; destruct B as [[[[fr k] z1] z2]| | |]; reflexivity end.
Qed.

Lemma Gp_state jk passnbr g : vstate g -> exists h, vgraphSeparateGp jk passnbr g = Ok (0, h) /\ vsame g h /\ vstate h /\ vdlt h <= 0.
Proof.
  intros [(x & V) B R D C F S]. destruct (Gp_valid jk passnbr (vset x g) V (vreadable_set x g R) (counts_set x g C) S D) as (h & E & Sm & Ch & Fh & Sh & DL).
  rewrite Gp_set in E. destruct (vgraphSeparateGp jk passnbr g) as [[rc h0]| | |] eqn:E0; try discriminate. cbn [bind] in E. injection E as -> <-.
  assert (Eg : vs h0 = vs g).
  { unfold vgraphSeparateGp in E0. cbv zeta in E0. destruct (if negb _ then _ else _) as [g1| | |]; [|discriminate..]. cbn [bind] in E0.
    match type of E0 with bind ?X _ = _ => destruct X as [[[pt dlt] c2]| | |]; [|discriminate..] end. cbn [bind] in E0. destruct (_ =? 0); [discriminate|].
    match type of E0 with bind ?X _ = _ => destruct X as [[[[fr k] z1] z2]| | |]; [|discriminate..] end. cbn [bind] in E0. injection E0 as <-. reflexivity. }
  destruct Sm as [S1 S2 S3 S4 S5]. cbn [vset vdw0 vdw1 vpart vfron] in S2, S3, S4, S5.
  assert (Sm : vsame g h0) by (constructor; auto).
  exists h0. split; [reflexivity|]. split; [exact Sm|]. split; [|exact DL]. destruct Ch as [C1 C2 C3 C4 C5 C6 C7]. destruct R as [R1 R2 R3 R4 R5].
  constructor; rewrite ?Eg, ?S2, ?S3; auto.
  - exists x. exact V.
  - constructor; rewrite ?Eg; auto; try lia. intros v Hv. assert (Hv' : isvert (vs (vset x h0)) v) by (cbn [vset vs]; rewrite Eg; exact Hv). specialize (C1 v Hv').
    change (part (vset x h0) v) with (part h0 v) in C1. lia.
  - constructor; auto.
Qed.
Lemma Gp_good jk passnbr : vgood true (vgraphSeparateGp jk passnbr).
Proof. intros g S. destruct (Gp_state jk passnbr g S) as (h & E & Sm & Sh & _). exists 0, h. auto. Qed.
