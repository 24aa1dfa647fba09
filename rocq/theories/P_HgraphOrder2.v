(** Proofs about nested dissection. *)
From Verif Require Import Base M_Graph M_Vgraph M_Induce M_Hgraph M_Order M_HgraphOrder S_Graph S_Vgraph S_Induce S_Hgraph S_Order S_HgraphOrder.
From Verif Require Import P_GraphList P_Induce P_Order P_Vgraph P_Hgraph P_HgraphOrder.
From Coq Require Import Permutation.

(** Outcome of a method *)
Definition outcome (tot tr fl : bool) (h : hgraph) (st : ost) (o : Z) (r : res (Z * ost * cblk)) : Prop :=
  exists rc st' cb, r = Ok (rc, st', cb) /\
    (rc = 0 -> ordered h st o st' cb /\
       (tr = true -> forall A, faithful A h -> respects A cb (seg (os_peri st') o (vnohnbr h))) /\
       (fl = true -> cb = leaf (vnohnbr h))) /\
    (tot = true -> rc = 0).

Lemma Permutation_In {A} (l l' : list A) x : Permutation l l' -> In x l -> In x l'.
Proof. intros P. apply (Permutation_in _ P). Qed.

Section Nd.
Variables (jk al : Z) (sep : vgraph -> res vgraph) (lea ose : ometh) (tot tr : bool).
Hypotheses (Hal : 1 <= al <= 2) (Hsep : sep_good tot sep) (Hlea : orders false true tr false lea) (Hose : orders false tot false tr ose).

Lemma nd_good fuel : forall h st o, hgraph_ok h -> 1 <= vnohnbr h < Z.of_nat fuel -> 0 <= o -> o + vnohnbr h <= zlen (os_peri st) ->
  outcome tot tr false h st o (hgraphOrderNd jk al sep lea ose fuel h st o (leaf (vnohnbr h))).
Proof.
  induction fuel as [|fuel IH]; intros h st o Ok_ Hn Ho Hz; [lia|]. cbn [hgraphOrderNd].
  pose proof (unhalo_ok h Ok_) as Uo. destruct (Hsep jk (hgraphUnhalo h) Uo) as [(vg & Es & S)|(Et & e & Es)].
  { cbn [hgraphUnhalo vertnbr]. lia. }
  2:{ rewrite Es. exists 1, st, (leaf (vnohnbr h)). split; [reflexivity|]. split; [lia|]. rewrite Et. discriminate. }
  rewrite Es. destruct ((vcsz0 vg =? 0) || (vcsz1 vg =? 0)) eqn:Ez.
  { destruct (Hlea h st o Ok_ ltac:(lia) Ho Hz ltac:(discriminate)) as (rc & st' & cb & E & P & T). rewrite E. cbn [bind]. exists 0, st', cb. split; [reflexivity|]. split; [intros _; apply P, T; reflexivity | reflexivity]. }
  destruct (ndLists_spec _ vg Uo S) as (S0 & S1 & S2 & Ss & fr & Ef & F0 & F1 & F2). cbn [hgraphUnhalo vertnbr] in S0, S1, S2, Ss, F0, F1, F2.
  rewrite Ef. cbn [bind]. rewrite F0, F1, F2. cbn [bind]. cbv zeta.
  pose proof Ok_ as (El & V). pose proof (hv_nbr _ V) as Hb. pose proof (hv_nnd _ V) as Hd. cbn [hunload hs vnohnnd vnohnbr unload baseval vertnbr] in Hb, Hd.
  set (l0 := plist vg 0 (vnohnbr h)) in *. set (l1 := plist vg 1 (vnohnbr h)) in *. set (l2 := plist vg 2 (vnohnbr h)) in *.
  set (b := baseval (hs h)) in *. assert (Eb : baseval (vs vg) = b) by (rewrite (sn_graph _ _ S); reflexivity).
  assert (Il : forall p w, In w (plist vg p (vnohnbr h)) -> b <= w < vnohnnd h) by (intros p w Hw; apply In_plist in Hw; rewrite Eb in Hw; lia).
  rewrite S0, S1, S2. set (n0 := zlen l0) in *. set (n1 := zlen l1) in *. set (n2 := zlen l2) in *.
  assert (N0 : 1 <= n0) by (assert (0 <= n0) by apply zlen_nonneg; lia). assert (N1 : 1 <= n1) by (assert (0 <= n1) by apply zlen_nonneg; lia). assert (N2 : 0 <= n2) by (unfold n2; apply zlen_nonneg).
  assert (Sep01 : forall u w, In u l0 -> In w l1 -> ~ In w (ends (hs h) u) /\ ~ In u (ends (hs h) w)).
  { intros u w Hu Hw. apply In_plist in Hu as Hu', Hw as Hw'. destruct Hu' as (_ & Pu), Hw' as (_ & Pw). pose proof (sn_sep _ _ S) as Hs. unfold separated in Hs. rewrite (sn_graph _ _ S) in Hs. split; intros Hin.
    - destruct (unhalo_arc h u w Ok_ (Il _ _ Hu) (Il _ _ Hw) Hin) as (e & Ha & He). destruct (Hs u e Ha) as (H1 & H2). rewrite He in H1. apply H1. auto.
    - destruct (unhalo_arc h w u Ok_ (Il _ _ Hw) (Il _ _ Hu) Hin) as (e & Ha & He). destruct (Hs w e Ha) as (H1 & H2). rewrite He in H2. apply H2. auto. }
  (* neighbours of the parts *)
  assert (Cap : forall p w u, p = 0 \/ p = 1 -> In u (plist vg p (vnohnbr h)) -> In w (ends (hs h) u) -> ~ In w (plist vg p (vnohnbr h)) -> In w (l2 ++ zseq (vnohnnd h) (vertnbr (hs h) - vnohnbr h))).
  { intros p w u Hp Hu Hw Hnw. apply in_app_iff. rewrite In_zseq. pose proof (hv_graph _ V) as G. pose proof (gv_nnd _ G) as Gn. cbn [hunload hs unload vertnnd vertnbr baseval] in Gn. fold b in Gn.
    pose proof (Il _ _ Hu) as Hur. rewrite <- ends_unload in Hw.
    destruct (ends_sym (unload (hs h)) u w G ltac:(unfold isvert; cbn [unload baseval vertnnd]; fold b; lia) Hw) as (Vw & _ & _). unfold isvert in Vw. cbn [unload baseval vertnnd] in Vw. fold b in Vw. rewrite ends_unload in Hw.
    destruct (Z_lt_ge_dec w (vnohnnd h)) as [Hlt|]; [left | right; lia].
    assert (Pw : 0 <= part vg w <= 2) by (apply (sn_part _ _ S); unfold isvert; cbn [hgraphUnhalo baseval vertnnd]; fold b; lia).
    assert (Iw : In w (plist vg (part vg w) (vnohnbr h))) by (apply In_plist; rewrite Eb; split; [lia|reflexivity]).
    assert (C : part vg w = 0 \/ part vg w = 1 \/ part vg w = 2) by lia. destruct C as [C|[C|C]]; rewrite C in Iw; [| |exact Iw]; exfalso.
    - destruct Hp as [-> | ->]; [auto|]. apply (proj2 (Sep01 w u Iw Hu) Hw).
    - destruct Hp as [-> | ->]; [|auto]. apply (proj1 (Sep01 u w Hu Iw) Hw). }
  assert (CapZ : zlen (l2 ++ zseq (vnohnnd h) (vertnbr (hs h) - vnohnbr h)) <= n2 + vertnbr (hs h) - vnohnbr h) by (rewrite zlen_app, zlen_zseq by lia; fold n2; lia).
  destruct (son_spec jk h l0 _ _ Ok_ (NoDup_plist vg 0 _) (Il 0) (fun u w => Cap 0 w u (or_introl eq_refl)) CapZ) as (h0 & E0 & Ok0 & V0 & O0 & Fa0).
  destruct (son_spec jk h l1 _ _ Ok_ (NoDup_plist vg 1 _) (Il 1) (fun u w => Cap 1 w u (or_intror eq_refl)) CapZ) as (h1 & E1 & Ok1 & V1 & O1 & Fa1).
  rewrite E0, E1. fold n0 in V0, O0. fold n1 in V1, O1.
  assert (Perm : Permutation (map (orgnum (hs h)) l0 ++ map (orgnum (hs h)) l1 ++ map (orgnum (hs h)) l2) (map (orgnum (hs h)) (zseq b (vnohnbr h)))).
  { rewrite <- !map_app. apply Permutation_map. rewrite <- Eb. apply plist_perm; [lia|]. intros v Hv. rewrite Eb in Hv. apply (sn_part _ _ S). unfold isvert. cbn [hgraphUnhalo baseval vertnnd]. fold b. lia. }
  assert (Apart : forall A s0 s1, faithful A h -> Permutation s0 (map (orgnum (hs h)) l0) -> Permutation s1 (map (orgnum (hs h)) l1) -> apart A s0 s1).
  { intros A s0 s1 Fa P0 P1 x y Hx Hy. apply (Permutation_In _ _ _ P0) in Hx. apply (Permutation_In _ _ _ P1) in Hy. apply in_map_iff in Hx, Hy. destruct Hx as (u & <- & Hu), Hy as (w & <- & Hw).
    pose proof (Sep01 u w Hu Hw) as (X1 & X2). split; intros HA; apply Fa in HA; eauto. }
  (* separator *)
  assert (Hsp : exists rc st2 seps, (if n2 =? 0 then Ok (0, mkost (os_peri st) (os_cblk st + 1) (os_tree st + 2), [])
        else match graphInduceList jk al (hs h) l2 with
          | UB => UB | Fuel => Fuel
          | Err _ => Ok (1, mkost (os_peri st) (os_cblk st + 2) (os_tree st + 3), [leaf n2])
          | Ok ind => do '(rc, st, c2) <- ose (nohalo ind (hlevl h)) (mkost (os_peri st) (os_cblk st + 2) (os_tree st + 3)) (o + n0 + n1) (leaf n2); Ok (rc, st, [c2])
          end) = Ok (rc, st2, seps) /\ (tot = true -> rc = 0) /\
      (rc = 0 -> zlen (os_peri st2) = zlen (os_peri st) /\
        (forall i, 0 <= i < zlen (os_peri st) -> ~ (o + n0 + n1 <= i < o + vnohnbr h) -> at_ 0 (os_peri st2) i = at_ 0 (os_peri st) i) /\
        Permutation (seg (os_peri st2) (o + n0 + n1) n2) (map (orgnum (hs h)) l2) /\
        (seps = [] /\ n2 = 0 \/ exists c2, seps = [c2] /\ c_vnod c2 = n2 /\ tree_ok c2 /\ (tr = true -> c2 = leaf n2)) /\
        os_cblk st2 = os_cblk st + 1 + zlen (flat_map leaves seps) /\ os_tree st2 = os_tree st + 2 + fold_right (fun c a => nnodes c + a) 0 seps)).
  { destruct (Z.eqb_spec n2 0) as [Z2|Z2].
    - eexists _, _, _. split; [reflexivity|]. split; [auto|]. intros _. cbn [os_peri os_cblk os_tree flat_map fold_right]. split; [auto|]. split; [auto|]. split.
      + rewrite Z2. assert (Q2 : l2 = []) by (clear - Z2; unfold n2 in Z2; clearbody l2; destruct l2 as [|x l']; [auto | rewrite zlen_cons in Z2; pose proof (zlen_nonneg l'); lia]). rewrite Q2. apply Permutation_refl.
      + change (zlen (@nil Z)) with 0. split; [auto|]. split; lia.
    - destruct (sep_spec jk al h l2 (hlevl h) Hal Ok_ (NoDup_plist vg 2 _) (Il 2)) as (g2 & E2 & Ok2 & V2 & O2). fold n2 in V2, O2. rewrite E2.
      assert (Vn : vnohnbr (nohalo g2 (hlevl h)) = n2) by exact V2.
      destruct (Hose (nohalo g2 (hlevl h)) (mkost (os_peri st) (os_cblk st + 2) (os_tree st + 3)) (o + n0 + n1) Ok2) as (rc & st2 & c2 & Ec & P & T); try rewrite Vn; cbn [os_peri]; try lia; try discriminate.
      rewrite Vn in *. rewrite Ec. cbn [bind]. exists rc, st2, [c2]. split; [reflexivity|]. split; [exact T|]. intros Rz. destruct (P Rz) as (D & _ & Fl).
      pose proof (od_frame _ _ _ _ _ D) as Df. pose proof (od_cblk _ _ _ _ _ D) as Dc. pose proof (od_node _ _ _ _ _ D) as Dn. pose proof (od_perm _ _ _ _ _ D) as Dp. rewrite Vn in Df, Dp. cbn [os_cblk os_tree os_peri] in *.
      split; [apply (od_len _ _ _ _ _ D)|]. split; [intros i Hi Hx; apply Df; lia|]. split.
      + change (hs (nohalo g2 (hlevl h))) with g2 in Dp. rewrite O2 in Dp. exact Dp.
      + split; [|rewrite Dc, Dn; cbn [flat_map fold_right]; rewrite app_nil_r; split; lia]. right. exists c2. split; [auto|]. split; [rewrite <- Vn; apply (od_vnod _ _ _ _ _ D)|]. split; [apply (od_tree _ _ _ _ _ D) | exact Fl]. }
  destruct Hsp as (rc2 & st2 & seps & Esp & T2 & P2). cbv zeta in Esp. rewrite Esp. cbn [bind]. clear Esp.
  destruct (Z.eqb_spec rc2 0) as [R2|R2]; cbn [negb].
  2:{ eexists rc2, st2, _. split; [reflexivity|]. split; [intros; contradiction | exact T2]. }
  destruct (P2 R2) as (L2 & Fr2 & Pm2 & Sp & Cb2 & Tn2). clear P2 T2.
  (* first part *)
  pose proof (IH h0 st2 o Ok0 ltac:(lia) Ho ltac:(lia)) as (rc3 & st3 & c0 & E3 & P3 & T3). rewrite V0 in E3, P3. rewrite E3. cbn [bind].
  destruct (Z.eqb_spec rc3 0) as [R3|R3]; cbn [negb].
  2:{ eexists 1, st3, _. split; [reflexivity|]. split; [lia|]. intros Hc. apply T3 in Hc. contradiction. }
  destruct (P3 R3) as (D3 & Rs3 & _). clear P3 T3. pose proof (od_frame _ _ _ _ _ D3) as Fr3. pose proof (od_perm _ _ _ _ _ D3) as Pm3. pose proof (od_len _ _ _ _ _ D3) as L3. rewrite V0 in Fr3, Pm3. rewrite O0 in Pm3.
  (* second part *)
  pose proof (IH h1 st3 (o + n0) Ok1 ltac:(lia) ltac:(lia) ltac:(lia)) as (rc4 & st4 & c1 & E4 & P4 & T4). rewrite V1 in E4, P4. rewrite E4. cbn [bind].
  eexists _, st4, _. split; [reflexivity|]. split.
  2:{ intros Hc. rewrite (T4 Hc). reflexivity. }
  destruct (Z.eqb_spec rc4 0) as [R4|R4]; [|intros; lia]. intros _.
  destruct (P4 R4) as (D4 & Rs4 & _). clear P4 T4. pose proof (od_frame _ _ _ _ _ D4) as Fr4. pose proof (od_perm _ _ _ _ _ D4) as Pm4. pose proof (od_len _ _ _ _ _ D4) as L4. rewrite V1 in Fr4, Pm4. rewrite O1 in Pm4.
  assert (G0 : seg (os_peri st4) o n0 = seg (os_peri st3) o n0) by (apply seg_ext; intros i Hi; apply Fr4; lia).
  assert (G2 : seg (os_peri st4) (o + n0 + n1) n2 = seg (os_peri st2) (o + n0 + n1) n2) by (apply seg_ext; intros i Hi; rewrite Fr4 by lia; apply Fr3; lia).
  assert (Gs : seg (os_peri st4) o (vnohnbr h) = seg (os_peri st4) o n0 ++ seg (os_peri st4) (o + n0) n1 ++ seg (os_peri st4) (o + n0 + n1) n2).
  { replace (vnohnbr h) with (n0 + (n1 + n2)) by lia. rewrite !seg_app by lia. reflexivity. }
  pose proof (od_vnod _ _ _ _ _ D3) as Vn3. pose proof (od_vnod _ _ _ _ _ D4) as Vn4. rewrite V0 in Vn3. rewrite V1 in Vn4.
  split; [|split; [|discriminate]].
  - constructor.
    + lia.
    + intros i Hi Hx. rewrite Fr4, Fr3, Fr2 by lia. reflexivity.
    + rewrite Gs, G0, G2. eapply Permutation_trans; [|exact Perm]. apply Permutation_app; [auto|]. apply Permutation_app; auto.
    + reflexivity.
    + cbn [tree_ok c_vnod leaf app]. split; [|split; [lia|split; [reflexivity|]]].
      * left. split; [reflexivity|]. destruct Sp as [(-> & _)|(c2 & -> & _)]; [left | right]; reflexivity.
      * cbn [fold_right vsum]. split.
        -- destruct Sp as [(-> & Z2)|(c2 & -> & Vc & _)]; cbn [fold_right]; unfold vsum; cbn [fold_right]; lia.
        -- split; [apply (od_tree _ _ _ _ _ D3)|]. split; [apply (od_tree _ _ _ _ _ D4)|]. destruct Sp as [(-> & _)|(c2 & -> & _ & Tk & _)]; cbn [fold_right]; auto.
    + rewrite leaves_node. cbn [flat_map app]. rewrite !zlen_app. rewrite (od_cblk _ _ _ _ _ D4), (od_cblk _ _ _ _ _ D3). lia.
    + cbn [nnodes fold_right app]. rewrite (od_node _ _ _ _ _ D4), (od_node _ _ _ _ _ D3). lia.
  - intros Ht A Fa. rewrite Gs, G0, G2. specialize (Rs3 Ht A (Fa0 A Fa)). specialize (Rs4 Ht A (Fa1 A Fa)). pose proof (Apart A _ _ Fa Pm3 Pm4) as Ap.
    destruct Sp as [(-> & Z2)|(c2 & -> & Vc & _ & Lf)].
    + rewrite Z2. change (seg (os_peri st2) (o + n0 + n1) 0) with (@nil Z). rewrite !app_nil_r. pose proof (rs_indep A ORDERCBLKNEDI (c_vnod (leaf (vnohnbr h))) 2 [c0; c1] [seg (os_peri st3) o n0; seg (os_peri st4) (o + n0) n1]) as X.
      cbn [concat] in X. rewrite app_nil_r in X. apply X; [left; split; reflexivity | apply rl_cons; [auto | apply rl_cons; [auto | apply rl_nil]] | apply FOP_cons; [apply Forall_cons; [exact Ap | apply Forall_nil] | apply FOP_cons; [apply Forall_nil | apply FOP_nil]]].
    + rewrite (Lf Ht). cbn [app]. apply rs_nedi; auto. now rewrite zlen_seg by lia.
Qed.
End Nd.
