(** Proofs about partitioning with overlap by recursive bipartitioning: the recursion. *)
From Verif Require Import Base Mem M_Graph M_Vgraph M_VgraphSt M_Induce M_Wgraph S_Graph S_Induce S_Vgraph S_VgraphSt S_KgraphMap S_Wgraph
  P_Graph P_Vgraph P_VgraphSt P_KgraphMap P_Gain P_Wgraph P_WgraphRb.

(** Success, or error, only if [U] *)
Definition wpu {A} (U : Prop) (r : res A) (Q : A -> Prop) : Prop := (exists a, r = Ok a /\ Q a) \/ (r = UB /\ U).
Lemma wpu_bind {A B} U (r : res A) (f : A -> res B) Q : wpu U r (fun a => wpu U (f a) Q) -> wpu U (bind r f) Q.
Proof. intros [(a & -> & H)|[-> H]]; [exact H|now right]. Qed.
Lemma wpu_mono {A} (U U' : Prop) (r : res A) (Q Q' : A -> Prop) : wpu U r Q -> (U -> U') -> (forall a, Q a -> Q' a) -> wpu U' r Q'.
Proof. intros [(a & -> & H)|[-> H]] HU HQ; [left; eauto|right; auto]. Qed.
Definition pow2 (n : Z) : Prop := exists k, 0 <= k /\ n = 2 ^ k.
Lemma pow2_half n : 2 < n -> pow2 n -> pow2 (n / 2) /\ pow2 (n - n / 2).
Proof.
  intros Hn (k & Hk & ->). assert (1 <= k) by (destruct (Z.eq_dec k 0); [subst; cbn in Hn; lia|lia]).
  replace (2 ^ k) with (2 * 2 ^ (k - 1)) by (rewrite <- Z.pow_succ_r by lia; f_equal; lia). rewrite (Z.mul_comm 2), Z.div_mul by lia.
  replace (2 ^ (k - 1) * 2 - 2 ^ (k - 1)) with (2 ^ (k - 1)) by lia. split; exists (k - 1); split; auto; lia.
Qed.
Lemma pow2_3 : ~ pow2 3.
Proof.
  intros (k & Hk & E). destruct (Z.eq_dec k 0); [subst; discriminate|]. replace k with (Z.succ (k - 1)) in E by lia. rewrite Z.pow_succ_r in E by lia. lia.
Qed.

Lemma unlabel_subg org g : subg org g -> subg org (unlabel g).
Proof.
  intros [V R B0 Bs Vn Si Sj Sv Sa]. constructor; auto.
  - destruct V. constructor; assumption.
  - destruct R. constructor; assumption.
Qed.
Lemma rbVgraph_ok org jk s siz : subg org s -> 1 <= siz -> exists v0, rbVgraph jk s siz = Ok v0 /\ vs v0 = s /\ vstate v0.
Proof.
  intros S Hs. unfold rbVgraph. set (G := mkvgraph _ _ _ _ _ _ _ _ _ _ _ _). pose proof (sg_valid _ _ S) as V. pose proof (gv_size _ V) as Zs. pose proof (gv_nnd _ V) as Ns.
  assert (VU : valid_upto_sum s) by (exists (edlosum s); destruct V; constructor; assumption).
  assert (RG : vg_readable G).
  { constructor; cbn [G vs vpart vfron]; rewrite ?zlen_repeat; auto; try lia; [exact (sg_read _ _ S)|]. intros v Hv. unfold part. cbn [G vs vpart]. unfold isvert in Hv. rewrite at_repeat by lia.
    pose proof (Z.mod_pos_bound jk 256). lia. }
  destruct (vgraphZero_spec G RG (vupto_struct _ VU) (vupto_sum _ VU)) as (h & E & Es & Rh & Ch & Fh & Sh & _ & D0 & D1). exists h. split; [exact E|]. split; [exact Es|].
  pose proof (Z.div_pos siz 2). pose proof (Z.div_le_upper_bound siz 2 siz). constructor; rewrite ?Es; auto; [exact (sg_base0 _ _ S)|]. rewrite D0, D1. cbn [G vdw0 vdw1]. lia.
Qed.

Lemma vstate_fok v : vstate v -> vertnnd (vs v) = baseval (vs v) + vertnbr (vs v) -> fok (vs v) (vfron v) (vfronnbr v).
Proof.
  intros [VU B0 R Dw C F Sp] Nn. pose proof (vr_nnd _ R) as (_ & Zn). destruct (fron_exact_counted v Nn Zn F) as (Ec & _). destruct F as (F0 & F1 & F2 & F3). split; [|split].
  - split; [lia|]. pose proof (vr_fron _ R). assert (psize v 2 <= vertnbr (vs v)); [|lia]. unfold psize. replace (vertnbr (vs v)) with (zcount (baseval (vs v)) (vertnnd (vs v)) (fun _ => true)) by (rewrite zcount_all by (auto; lia); lia).
    apply zsum_le. intros j _. destruct (part v j =? 2); cbn; lia.
  - intros i Hi. now apply F1.
  - exact F2.
Qed.

Definition rsep (g : graph) (fr : list Z) (n ip w : Z) : Prop := ip = 0 /\ In w (flist g fr n).
Definition resp (g : graph) (fr : list Z) (n : Z) (op : option (list Z)) (ip w : Z) : Prop := rsep g fr n ip w \/ job g op ip w.
Definition jobok (g : graph) (fr : list Z) (n : Z) (op : option (list Z)) (ip vn : Z) : Prop :=
  fok g fr n /\
  match op with
  | None => n = 0 /\ (ip = 0 -> 0 < vertnbr g)
  | Some p => vertnbr g <= zlen p /\ (forall v, isvert g v -> 0 <= at_ (baseval g) p v <= 2) /\
      (forall v, isvert g v -> at_ (baseval g) p v = 2 <-> exists i, 0 <= i < n /\ at_ 0 fr i = v) /\ vn = zlen (part_list g p ip)
  end.

Section Rb.
Variables (jk al : Z) (sep : vmeth) (sched : graph -> option bool) (tot : bool) (org : graph).
Hypothesis AL : 1 <= al <= 2.
Hypothesis SG : vgood tot sep.
Hypothesis VO : graph_valid org.

Lemma job_vert g op ip w : subg org g -> job g op ip w -> isvert org w.
Proof. intros S (v & Hv & _ & <-). now apply (sg_in _ _ S). Qed.
Lemma flist_vert g fr n w : subg org g -> fok g fr n -> In w (flist g fr n) -> isvert org w.
Proof. intros S (_ & I & _) H. apply flist_In in H. destruct H as (i & Hi & <-). apply (sg_in _ _ S). now apply I. Qed.

(** Terminal job on a part and its separator *)
Lemma one_spec g fr n p vn dn d : subg org g -> jobok g fr n (Some p) 0 vn -> dok org (resp g fr n (Some p) 0) d ->
  exists d1 d2, rb3Fron d g fr n = Ok d1 /\ rb3One d1 g (Some p) 0 dn = Ok d2 /\ rstep org (resp g fr n (Some p) 0) (rsep g fr n 0) dn (dn + 1) d 0 d2.
Proof.
  intros S (F & Lp & Pr & Pf & _) D. assert (Room : snd d + n <= zlen (snd (fst d))) by (eapply (dok_room org); eauto; intros w Hw; left; split; auto).
  destruct d as [[pt fl] k]. destruct D as (D1 & D2 & D3 & D4 & D5). cbn [fst snd] in Room. pose proof F as ((N0 & N1) & FI & FD).
  destruct (rb3Fron_spec org g fr n pt fl k S F ltac:(lia) Room) as (fl' & E1 & L1 & E2). exists (pt, fl', k + n).
  pose proof (gv_nnd _ (sg_valid _ _ S)) as Ns. pose proof (sg_base _ _ S) as Bs.
  assert (HW : wp (for_ (baseval g) (vertnnd g) (fun v pt => do x <- rd (baseval g) p v; if negb (x =? 1 - 0) then do w <- vnumOf g v; wr (baseval g) pt w (if x =? 0 then dn else -1) else Ok pt) pt)
    (fun pt' => zlen pt' = zlen pt /\ (forall v, isvert g v -> negb (at_ (baseval g) p v =? 1) = true -> at_ (baseval org) pt' (orig g v) = if at_ (baseval g) p v =? 0 then dn else -1) /\
      forall w, isvert org w -> (forall v, isvert g v -> negb (at_ (baseval g) p v =? 1) = true -> orig g v <> w) -> at_ (baseval org) pt' w = at_ (baseval org) pt w) noerr).
  { apply part_writef; auto. intros v pt' Hv _. unfold isvert in Hv. rewrite rd_ok by lia. cbn [bind]. rewrite (vnumOf_ok org) by auto. reflexivity. }
  destruct (wp_ok_inv _ _ HW) as (pt' & E3 & L3 & P1 & P2). exists (pt', fl', k + n). split; [exact E1|]. split; [unfold rb3One; rewrite E3; reflexivity|].
  assert (SP : forall v, isvert g v -> In (orig g v) (flist g fr n) <-> at_ (baseval g) p v = 2).
  { intros v Hv. rewrite Pf, flist_In by exact Hv. split; intros (i & Hi & E); exists i; split; auto; [apply (sg_inj _ _ S); auto | now rewrite E]. }
  assert (RV : forall w, resp g fr n (Some p) 0 w <-> exists v, isvert g v /\ at_ (baseval g) p v <> 1 /\ orig g v = w).
  { intros w. split.
    - intros [[_ Hw]|(v & Hv & E & Ew)]; [apply flist_In in Hw; destruct Hw as (i & Hi & <-) | exists v; split; [exact Hv|]; cbn [sel] in E; split; [lia|exact Ew]].
      exists (at_ 0 fr i). split; [now apply FI|]. split; [|reflexivity]. assert (at_ (baseval g) p (at_ 0 fr i) = 2); [|lia]. apply Pf; [now apply FI|]. eauto.
    - intros (v & Hv & E & <-). pose proof (Pr v Hv). destruct (Z.eq_dec (at_ (baseval g) p v) 0); [right; exists v; split; [exact Hv|]; split; [assumption|reflexivity]|].
      left. split; [reflexivity|]. apply SP; [exact Hv|lia]. }
  exists (flist g fr n). constructor; cbn [fst snd]; auto.
  - rewrite zlen_flist by lia. lia.
  - eapply flist_NoDup; eauto.
  - intros w Hw. left. split; auto.
  - intros w Hw HN. apply P2; [exact Hw|]. intros v Hv Hc E. apply HN. apply RV. exists v. apply negb_true_iff, Z.eqb_neq in Hc. auto.
  - intros _ w Hw. apply RV in Hw. destruct Hw as (v & Hv & Hc & <-). rewrite P1 by (auto; apply negb_true_iff, Z.eqb_neq; exact Hc). rewrite SP by exact Hv. pose proof (Pr v Hv).
    destruct (Z.eqb_spec (at_ (baseval g) p v) 0); [right; lia | left; lia].
  - intros _ w [_ Hw]. apply flist_In in Hw. destruct Hw as (i & Hi & <-). assert (Hv : isvert g (at_ 0 fr i)) by now apply FI.
    assert (E : at_ (baseval g) p (at_ 0 fr i) = 2) by (apply Pf; [exact Hv|eauto]). rewrite P1, E by (auto; rewrite E; reflexivity). reflexivity.
  - intros _ v w Hv Hw _. apply RV in Hv, Hw. destruct Hv as (v' & Hv & Hc & <-). destruct Hw as (w' & Hw & Hc' & <-).
    rewrite !P1 by (auto; apply negb_true_iff, Z.eqb_neq; assumption). destruct (_ =? 0); [|auto]. destruct (_ =? 0); auto.
Qed.

(** Terminal job on both parts *)
Lemma both_spec v dn d : subg org (vs v) -> vstate v -> dok org (job (vs v) None 0) d ->
  exists d1 d2, rb3Fron d (vs v) (vfron v) (vfronnbr v) = Ok d1 /\ rb3Both d1 (vs v) (vpart v) dn = Ok d2 /\ rstep org (job (vs v) None 0) (fun _ => False) dn (dn + 2) d 0 d2.
Proof.
  intros S St D. set (g := vs v) in *. set (fr := vfron v). set (n := vfronnbr v). pose proof (gv_nnd _ (sg_valid _ _ S)) as Ns. pose proof (vstate_fok v St Ns) as F. fold g fr n in F.
  assert (FJ : forall w, In w (flist g fr n) -> job g None 0 w) by (intros w Hw; apply flist_In in Hw; destruct Hw as (i & Hi & <-); exists (at_ 0 fr i); split; [now apply F|]; split; [exact Logic.I|reflexivity]).
  assert (Room : snd d + n <= zlen (snd (fst d))) by (eapply (dok_room org); eauto).
  destruct d as [[pt fl] k]. destruct D as (D1 & D2 & D3 & D4 & D5). cbn [fst snd] in Room. pose proof F as ((N0 & N1) & FI & FD).
  destruct (rb3Fron_spec org g fr n pt fl k S F ltac:(lia) Room) as (fl' & E1 & L1 & E2). exists (pt, fl', k + n).
  pose proof (sg_base _ _ S) as Bs. destruct St as [VU B0 R Dw C Fe Sp].
  assert (HW : wp (for_ (baseval g) (vertnnd g) (fun x pt => do p <- rd (baseval g) (vpart v) x; do w <- vnumOf g x; wr (baseval g) pt w (if p <? 2 then dn + p else -1)) pt)
    (fun pt' => zlen pt' = zlen pt /\ (forall x, isvert g x -> true = true -> at_ (baseval org) pt' (orig g x) = if part v x <? 2 then dn + part v x else -1) /\
      forall w, isvert org w -> (forall x, isvert g x -> true = true -> orig g x <> w) -> at_ (baseval org) pt' w = at_ (baseval org) pt w) noerr).
  { apply (part_writef org g (fun _ => true) (fun x => if part v x <? 2 then dn + part v x else -1)); auto. intros x pt' Hv _. pose proof (vr_part _ R) as Lp. fold g in Lp. unfold isvert in Hv. rewrite rd_ok by lia. cbn [bind]. rewrite (vnumOf_ok org) by auto. reflexivity. }
  destruct (wp_ok_inv _ _ HW) as (pt' & E3 & L3 & P1 & P2). exists (pt', fl', k + n). split; [exact E1|]. split; [unfold rb3Both; rewrite E3; reflexivity|].
  pose proof (vc_part _ C) as Pr. fold g in Pr.
  assert (SP : forall x, isvert g x -> In (orig g x) (flist g fr n) <-> part v x = 2).
  { intros x Hv. destruct Fe as (_ & G1 & G2 & G3). rewrite flist_In. split.
    - intros (i & Hi & E). apply (sg_inj _ _ S) in E; auto. subst x. now apply G1.
    - intros E. destruct (G3 x Hv E) as (i & Hi & Ei). exists i. split; [exact Hi|]. unfold fron in Ei. fold fr in Ei. now rewrite Ei. }
  exists (flist g fr n). constructor; cbn [fst snd]; auto.
  - rewrite zlen_flist by lia. lia.
  - eapply flist_NoDup; eauto.
  - intros w Hw HN. apply P2; [exact Hw|]. intros x Hv _ E. apply HN. exists x. split; [exact Hv|]. split; [exact Logic.I|exact E].
  - intros _ w (x & Hx & _ & <-). rewrite P1 by auto. rewrite SP by exact Hx. pose proof (Pr x Hx). destruct (Z.ltb_spec (part v x) 2); [right; lia | left; lia].
  - intros _ w [].
  - intros _ a w (x & Hx & _ & <-) (y & Hy & _ & <-) Ha. rewrite !P1 by auto. apply (subg_adj org) in Ha; auto. destruct Ha as (e & Ae & <-). pose proof (Sp x e Ae) as (S1 & S2). fold g in S1, S2.
    pose proof (Pr x Hx). pose proof (Pr _ Hy). destruct (Z.ltb_spec (part v x) 2); [|auto]. destruct (Z.ltb_spec (part v (edge g e)) 2); [|auto]. right. right. f_equal. lia.
Qed.

Lemma Rb2_spec fuel : forall (U : Prop) d g fr n op ip vn dn siz, (Z.to_nat siz < fuel)%nat -> subg org g -> ip = 0 \/ ip = 1 -> 1 <= siz -> (ip = 1 -> 2 <= siz) ->
  jobok g fr n op ip vn -> dok org (resp g fr n op ip) d -> (op = None -> ip = 0 -> siz <= 1 -> U) -> (~ pow2 siz -> U) ->
  wpu U (wgraphPartRb2 jk al sep sched fuel d g fr n op ip vn dn siz)
    (fun '(rc, d') => rstep org (resp g fr n op ip) (rsep g fr n ip) dn (dn + siz) d rc d' /\ (tot = true -> rc = 0)).
Proof.
  induction fuel as [|fuel IH]; [intros; lia|]. intros U d g fr n op ip vn dn siz Hf S Hip Hs1 Hs2 J D HU1 HU2. cbn [wgraphPartRb2].
  pose proof (sg_valid _ _ S) as Vg. pose proof (gv_nnd _ Vg) as Ng. pose proof (gv_size _ Vg) as Zg.
  destruct ((ip =? 0) && (siz <=? 1)) eqn:Et.
  { assert (ip = 0) as -> by lia. assert (siz = 1) as -> by lia. destruct op as [p|].
    - destruct (one_spec g fr n p vn dn d S J D) as (d1 & d2 & -> & E2 & St). left. exists (0, d2). cbn [bind]. rewrite E2. split; [reflexivity|]. split; [exact St|auto].
    - right. split; [|apply HU1; auto; lia]. destruct J as (F & -> & Jp). specialize (Jp eq_refl). destruct d as [[pt fl] k]. destruct D as (D1 & D2 & D3 & D4 & D5).
      destruct (rb3Fron_spec org g fr 0 pt fl k S F ltac:(lia) ltac:(lia)) as (fl' & -> & _). cbn [bind]. unfold rb3One. rewrite for_cons by lia. reflexivity. }
  pose proof J as (F & JO). pose proof F as ((N0 & N1) & FI & FD).
  assert (K0 : 0 <= snd d) by (destruct d as [[pt fl] k]; destruct D as (D1 & D2 & D3 & D4 & D5); cbn; lia).
  (* separator of the father *)
  assert (H1 : exists d1, (if ip =? 0 then rb3SepFron d g fr n else Ok d) = Ok d1 /\ rstep org (rsep g fr n ip) (rsep g fr n ip) dn dn d 0 d1).
  { destruct (Z.eqb_spec ip 0) as [->|Hne].
    - assert (Room : snd d + n <= zlen (snd (fst d))) by (eapply (dok_room org); eauto; intros w Hw; left; split; auto).
      destruct d as [[pt fl] k]. destruct D as (D1 & D2 & D3 & D4 & D5). cbn [fst snd] in Room.
      destruct (rb3SepFron_spec org g fr n pt fl k S VO F ltac:(lia) Room D1) as (pt' & fl' & -> & L1 & L2 & E2 & P1). exists (pt', fl', k + n). split; [reflexivity|].
      assert (PV : forall w, In w (flist g fr n) -> at_ (baseval org) pt' w = -1) by (intros w Hw; apply P1; [eapply flist_vert; eauto|exact Hw]).
      exists (flist g fr n). constructor; cbn [fst snd]; auto.
      + rewrite zlen_flist by lia. lia.
      + eapply flist_NoDup; eauto.
      + intros w Hw. split; auto.
      + intros w Hw HN. apply P1; [exact Hw|]. intros Hl. apply HN. split; auto.
      + intros _ w [_ Hw]. left. auto.
      + intros _ w [_ Hw]. auto.
      + intros _ v w [_ Hv] _ _. left. auto.
    - exists d. split; [reflexivity|]. eapply rstep_mono; [| | apply Z.le_refl | apply Z.le_refl | apply (rstep_none org (fun _ => False))].
      + intros w. split; [intros []|]. intros [E _]. contradiction.
      + intros w [E _]. contradiction.
      + destruct d as [[pt fl] k]. destruct D as (D1 & D2 & D3 & D4 & D5). lia.
      + auto. }
  destruct H1 as (d1 & -> & St1). cbn [bind].
  assert (DJ : forall w, rsep g fr n ip w -> job g op ip w -> False).
  { intros w [-> Hw] (v & Hv & Hsel & Ew). destruct op as [p|]; [|destruct JO as (-> & _); apply flist_In in Hw; destruct Hw as (i & Hi & _); lia]. destruct JO as (_ & _ & Jf & _). cbn [sel] in Hsel.
    apply flist_In in Hw. destruct Hw as (i & Hi & E). rewrite <- Ew in E. apply (sg_inj _ _ S) in E; auto. assert (at_ (baseval g) p v = 2) by (apply Jf; eauto). lia. }
  assert (RV : forall w, rsep g fr n ip w -> isvert org w) by (intros w [_ Hw]; eapply flist_vert; eauto).
  assert (Dj : dok org (job g op ip) d1) by (eapply (dok_next org (rsep g fr n ip)); eauto).
  (* active graph *)
  assert (HI : exists act, match op with None => Ok (unlabel g) | Some p => graphInducePart jk al g p vn ip end = Ok act /\ subg org act /\ forall w, job act None 0 w <-> job g op ip w).
  { destruct op as [p|].
    - destruct JO as (Lp & _ & _ & ->). destruct (wp_ok_inv _ _ (induce_subg jk al org g p ip AL S Lp)) as (act & -> & Sa & _ & Ja & _). exists act. auto.
    - exists (unlabel g). split; [reflexivity|]. split; [now apply unlabel_subg|]. intros w. reflexivity. }
  destruct HI as (act & -> & Sa & Ja). cbn [bind].
  destruct (rbVgraph_ok org jk act siz Sa Hs1) as (v0 & -> & Ev0 & Sv0). cbn [bind].
  destruct (SG v0 Sv0) as (rc & v & -> & Sm & Sr & St). cbn [bind].
  assert (Ev : vs v = act) by (rewrite (vm_graph _ _ Sm); exact Ev0).
  (* the rest of the job *)
  cut (wpu U (if negb (rc =? 0) then Ok (1, d1) else
      if siz <=? 2 then do d <- rb3Fron d1 (vs v) (vfron v) (vfronnbr v); do d <- rb3Both d (vs v) (vpart v) dn; Ok (0, d)
      else let siz0 := siz / 2 in let siz1 := siz - siz0 in
        if vcsz0 v <=? 0 then wgraphPartRb2 jk al sep sched fuel d1 (vs v) [] 0 None 1 (vertnbr (vs v)) (dn + siz0) siz1
        else if vcsz1 v <=? 0 then wgraphPartRb2 jk al sep sched fuel d1 (vs v) [] 0 None 0 (vertnbr (vs v)) dn siz0
        else let job0 d := wgraphPartRb2 jk al sep sched fuel d (vs v) (vfron v) (vfronnbr v) (Some (vpart v)) 0 (vcsz0 v) dn siz0 in
          let job1 d := wgraphPartRb2 jk al sep sched fuel d (vs v) (vfron v) (vfronnbr v) (Some (vpart v)) 1 (vcsz1 v) (dn + siz0) siz1 in
          match sched (vs v) with
          | None => do '(rc0, d) <- job0 d1; if rc0 =? 0 then job1 d else Ok (1, d)
          | Some true => do '(rc0, d) <- job0 d1; do '(rc1, d) <- job1 d; Ok (if rc0 =? 0 then rc1 else 1, d)
          | Some false => do '(rc1, d) <- job1 d1; do '(rc0, d) <- job0 d; Ok (if rc0 =? 0 then rc1 else 1, d)
          end) (fun '(rc, d') => rstep org (job g op ip) (fun _ => False) dn (dn + siz) d1 rc d' /\ (tot = true -> rc = 0))).
  { intros W. eapply wpu_mono; [exact W|auto|]. intros [rc' d'] [Hr Ht]. split; [|exact Ht]. 
    pose proof (rstep_seq org (rsep g fr n ip) (job g op ip) (rsep g fr n ip) (fun _ => False) dn (dn + siz) dn dn dn (dn + siz) d 0 d1 rc' d' VO RV (fun w => job_vert g op ip w S) DJ (fun w H => H)
      (fun v w Hv _ _ => Hv) ltac:(lia) ltac:(lia) ltac:(lia) ltac:(lia) K0 St1 Hr) as X. exact X. }
  assert (Kd : let '(pt, fl, k) := d1 in k <= zlen fl) by (destruct d1 as [[pt fl] k]; destruct Dj as (D1 & D2 & D3 & D4 & D5); lia).
  destruct (Z.eqb_spec rc 0) as [->|Hne]; cbn [negb].
  2: { left. exists (1, d1). split; [reflexivity|]. split; [now apply rstep_fail|]. intros T. exfalso. apply Hne. auto. }
  specialize (Sr eq_refl). rewrite <- Ev in Sa, Ja. pose proof (sg_valid _ _ Sa) as Va. pose proof (gv_nnd _ Va) as Na. pose proof (gv_size _ Va) as Za.
  assert (Da : dok org (job (vs v) None 0) d1) by (eapply dok_mono; [|exact Dj]; intros w Hw; now apply Ja).
  destruct (Z.leb_spec siz 2) as [Hs|Hs].
  { destruct (both_spec v dn d1 Sa Sr Da) as (d2 & d3 & -> & E3 & St3). left. exists (0, d3). cbn [bind]. rewrite E3. split; [reflexivity|]. split; [|auto].
    eapply rstep_mono; [exact Ja | intros w [] | apply Z.le_refl | | exact St3]. 
    destruct (Z.eqb_spec ip 0); cbn [andb] in Et; lia. }
  cbv zeta. assert (Hd : siz / 2 * 2 <= siz < siz / 2 * 2 + 2) by (pose proof (Z.div_mod siz 2); pose proof (Z.mod_pos_bound siz 2); lia).
  assert (U0 : ~ pow2 (siz / 2) -> U) by (intros H; apply HU2; intros P; apply H; now apply pow2_half).
  assert (U1 : ~ pow2 (siz - siz / 2) -> U) by (intros H; apply HU2; intros P; apply H; now apply pow2_half).
  pose proof (vstate_fok v Sr Na) as Fv. destruct Sr as [VU B0 R Dw C Fe Sp]. pose proof (vc_part _ C) as Pr.
  assert (FN : fok (vs v) [] 0) by (split; [cbn; lia|]; split; intros; lia).
  assert (RN : forall i w, resp (vs v) [] 0 None i w <-> job g op ip w).
  { intros i w. unfold resp, rsep. rewrite <- Ja. unfold flist, zseq. cbn [Z.to_nat seq map In]. tauto. }
  destruct (Z.leb_spec (vcsz0 v) 0) as [C0|C0].
  { eapply wpu_mono; [eapply (IH U d1 (vs v) [] 0 None 1); auto; try lia| auto|].
    - split; [exact FN|]. split; [reflexivity|]. discriminate.
    - eapply dok_mono; [|exact Dj]. intros w Hw. now apply RN in Hw.
    - intros [rc' d'] [Hr Ht]. split; [|exact Ht]. eapply rstep_mono; [apply RN | intros w [] | | | exact Hr]; lia. }
  destruct (Z.leb_spec (vcsz1 v) 0) as [C1|C1].
  { eapply wpu_mono; [eapply (IH U d1 (vs v) [] 0 None 0); auto; try lia| auto|].
    - split; [exact FN|]. split; [reflexivity|]. intros _. rewrite (vc_size0 _ C) in C0. unfold psize in C0. destruct (Z.eq_dec (vertnbr (vs v)) 0); [|lia]. rewrite zcount_nil in C0 by lia. lia.
    - eapply dok_mono; [|exact Dj]. intros w Hw. now apply RN in Hw.
    - intros _ _ Hs0. assert (siz = 3) as -> by lia. apply HU2. exact pow2_3.
    - intros [rc' d'] [Hr Ht]. split; [|exact Ht]. eapply rstep_mono; [apply RN | intros w [] | | | exact Hr]; lia. }
  (* both halves *)
  assert (SZ : forall i, psize v i = zlen (part_list (vs v) (vpart v) i)).
  { intros i. unfold psize, part_list. rewrite zcount_filter by lia. do 2 f_equal. f_equal. lia. }
  assert (JO0 : jobok (vs v) (vfron v) (vfronnbr v) (Some (vpart v)) 0 (vcsz0 v)).
  { split; [exact Fv|]. split; [exact (vr_part _ R)|]. split; [exact Pr|]. split; [|rewrite (vc_size0 _ C); apply SZ]. intros x Hx. destruct Fe as (_ & G1 & G2 & G3). split; [intros E; now apply G3|]. intros (i & Hi & <-). now apply G1. }
  assert (JO1 : jobok (vs v) (vfron v) (vfronnbr v) (Some (vpart v)) 1 (vcsz1 v)).
  { destruct JO0 as (X1 & X2 & X3 & X4 & _). split; [exact X1|]. split; [exact X2|]. split; [exact X3|]. split; [exact X4|]. rewrite (vc_size1 _ C). apply SZ. }
  set (P0 := resp (vs v) (vfron v) (vfronnbr v) (Some (vpart v)) 0) in *. set (P1 := resp (vs v) (vfron v) (vfronnbr v) (Some (vpart v)) 1) in *.
  set (Q0 := rsep (vs v) (vfron v) (vfronnbr v) 0) in *. set (Q1 := rsep (vs v) (vfron v) (vfronnbr v) 1) in *.
  assert (SP : forall x, isvert (vs v) x -> Q0 (orig (vs v) x) <-> part v x = 2).
  { intros x Hx. unfold Q0, rsep. rewrite flist_In. destruct JO0 as (_ & _ & _ & X4 & _). unfold part. rewrite X4 by exact Hx. split.
    - intros (_ & i & Hi & E). exists i. split; [exact Hi|]. apply (sg_inj _ _ Sa); auto. now apply Fv.
    - intros (i & Hi & <-). split; [reflexivity|]. exists i. auto. }
  assert (C0' : forall w, P0 w <-> exists x, isvert (vs v) x /\ part v x <> 1 /\ orig (vs v) x = w).
  { intros w. split.
    - intros [Hq|(x & Hx & Hsel & E)]; [|exists x; split; [exact Hx|]; unfold part; cbn [sel] in Hsel; split; [lia|exact E]].
      pose proof Hq as [_ Hw]. apply flist_In in Hw. destruct Hw as (i & Hi & <-). exists (at_ 0 (vfron v) i). assert (Hx : isvert (vs v) (at_ 0 (vfron v) i)) by now apply Fv. split; [exact Hx|]. split; [|reflexivity].
      apply SP in Hq; [lia|exact Hx].
    - intros (x & Hx & E & <-). pose proof (Pr x Hx). destruct (Z.eq_dec (part v x) 0); [right; exists x; split; [exact Hx|]; split; [assumption|reflexivity]|]. left. apply SP; [exact Hx|lia]. }
  assert (C1' : forall w, P1 w <-> exists x, isvert (vs v) x /\ part v x = 1 /\ orig (vs v) x = w).
  { intros w. unfold P1, resp, rsep. split; [intros [[? _]|X]; [lia|exact X]|]. intros X. right. exact X. }
  assert (CJ : forall w, P0 w \/ P1 w <-> job g op ip w).
  { intros w. rewrite <- Ja, C0', C1'. split.
    - intros [(x & Hx & _ & E)|(x & Hx & _ & E)]; exists x; (split; [exact Hx|]; split; [exact Logic.I|exact E]).
    - intros (x & Hx & _ & E). destruct (Z.eq_dec (part v x) 1); [right|left]; exists x; auto. }
  assert (CJ' : forall w, P1 w \/ P0 w <-> job g op ip w) by (intros w; rewrite <- CJ; tauto).
  assert (V0 : forall w, P0 w -> isvert org w) by (intros w Hw; apply C0' in Hw; destruct Hw as (x & Hx & _ & <-); now apply (sg_in _ _ Sa)).
  assert (V1 : forall w, P1 w -> isvert org w) by (intros w Hw; apply C1' in Hw; destruct Hw as (x & Hx & _ & <-); now apply (sg_in _ _ Sa)).
  assert (X01 : forall w, P0 w -> P1 w -> False).
  { intros w H0 H1. apply C0' in H0. apply C1' in H1. destruct H0 as (x & Hx & Ex & <-). destruct H1 as (y & Hy & Ey & E). apply (sg_inj _ _ Sa) in E; auto. subst y. contradiction. }
  assert (Q0P : forall w, Q0 w -> P0 w) by (intros w Hw; left; exact Hw).
  assert (A01 : forall a w, P0 a -> P1 w -> adj org a w -> Q0 a).
  { intros a w H0 H1 Ha. apply C0' in H0. apply C1' in H1. destruct H0 as (x & Hx & Ex & <-). destruct H1 as (y & Hy & Ey & <-). apply SP; [exact Hx|].
    apply (subg_adj org) in Ha; auto. destruct Ha as (e & Ae & <-). pose proof (Sp x e Ae) as (S1 & S2). pose proof (Pr x Hx). lia. }
  assert (K1 : 0 <= snd d1) by (destruct d1 as [[pt fl] k]; destruct Dj as (D1 & D2 & D3 & D4 & D5); cbn; lia).
  assert (I0 : forall d, dok org P0 d -> wpu U (wgraphPartRb2 jk al sep sched fuel d (vs v) (vfron v) (vfronnbr v) (Some (vpart v)) 0 (vcsz0 v) dn (siz / 2))
     (fun '(rc, d') => rstep org P0 Q0 dn (dn + siz / 2) d rc d' /\ (tot = true -> rc = 0))).
  { intros d' Hd'. eapply (IH U d' (vs v)); auto; try lia; discriminate. }
  assert (I1 : forall d, dok org P1 d -> wpu U (wgraphPartRb2 jk al sep sched fuel d (vs v) (vfron v) (vfronnbr v) (Some (vpart v)) 1 (vcsz1 v) (dn + siz / 2) (siz - siz / 2))
     (fun '(rc, d') => rstep org P1 Q1 (dn + siz / 2) (dn + siz) d rc d' /\ (tot = true -> rc = 0))).
  { intros d' Hd'. replace (dn + siz) with (dn + siz / 2 + (siz - siz / 2)) by lia. eapply (IH U d' (vs v)); auto; try lia; discriminate. }
  assert (Db : dok org (fun w => P0 w \/ P1 w) d1) by (eapply dok_mono; [|exact Dj]; intros w Hw; now apply CJ).
  assert (Db' : dok org (fun w => P1 w \/ P0 w) d1) by (eapply dok_mono; [|exact Dj]; intros w Hw; now apply CJ').
  assert (D0 : dok org P0 d1) by (eapply dok_mono; [|exact Db]; intros w Hw; now left).
  assert (D1 : dok org P1 d1) by (eapply dok_mono; [|exact Db]; intros w Hw; now right).
  assert (SQ : forall rc0 d2 rc1 d3, rstep org P0 Q0 dn (dn + siz / 2) d1 rc0 d2 -> rstep org P1 Q1 (dn + siz / 2) (dn + siz) d2 rc1 d3 ->
    rstep org (job g op ip) (fun _ => False) dn (dn + siz) d1 (if rc0 =? 0 then rc1 else 1) d3).
  { intros rc0 d2 rc1 d3 R0 R1. eapply rstep_mono; [exact CJ | intros w [] | apply Z.le_refl | apply Z.le_refl|].
    eapply (rstep_seq org P0 P1 Q0 Q1 dn (dn + siz) dn (dn + siz / 2) (dn + siz / 2) (dn + siz)); eauto; lia. }
  destruct (sched (vs v)) as [[|]|].
  - apply wpu_bind. eapply wpu_mono; [apply I0, D0|auto|]. intros [rc0 d2] [R0 T0]. apply wpu_bind. eapply wpu_mono; [apply I1|auto|].
    + eapply (dok_next org P0 P1); eauto.
    + intros [rc1 d3] [R1 T1]. left. exists (if rc0 =? 0 then rc1 else 1, d3). split; [reflexivity|]. split; [eapply SQ; eauto|]. intros T. rewrite (T0 T), (T1 T). reflexivity.
  - apply wpu_bind. eapply wpu_mono; [apply I1, D1|auto|]. intros [rc1 d2] [R1 T1]. apply wpu_bind. eapply wpu_mono; [apply I0|auto|].
    + eapply (dok_next org P1 P0); eauto.
    + intros [rc0 d3] [R0 T0]. left. exists (if rc0 =? 0 then rc1 else 1, d3). split; [reflexivity|]. split; [|intros T; rewrite (T0 T), (T1 T); reflexivity].
      eapply rstep_mono; [exact CJ' | intros w [] | apply Z.le_refl | apply Z.le_refl|].
      eapply (rstep_swap org P1 P0 Q1 Q0 dn (dn + siz) (dn + siz / 2) (dn + siz) dn (dn + siz / 2)); eauto; try lia. 
      intros a w H1 H0 Ha. apply (A01 w a); auto. destruct Ha as (e & Ae & <-). destruct (gv_sym _ VO a e Ae) as (e' & A' & E' & _). exists e'. auto.
  - apply wpu_bind. eapply wpu_mono; [apply I0, D0|auto|]. intros [rc0 d2] [R0 T0]. destruct (Z.eqb_spec rc0 0) as [->|Hne].
    + eapply wpu_mono; [apply I1|auto|].
      * eapply (dok_next org P0 P1); eauto.
      * intros [rc1 d3] [R1 T1]. split; [|exact T1]. exact (SQ 0 d2 rc1 d3 R0 R1).
    + left. exists (1, d2). split; [reflexivity|]. split; [|intros T; exfalso; apply Hne; auto].
      pose proof (SQ rc0 d2 1 d2 R0) as X. destruct (Z.eqb_spec rc0 0); [contradiction|]. apply X. apply rstep_fail.
      assert (Dn : dok org P1 d2) by (eapply (dok_next org P0 P1); eauto). destruct d2 as [[pt fl] k]. destruct Dn as (? & ? & ? & ? & ?). lia.
Qed.
End Rb.
