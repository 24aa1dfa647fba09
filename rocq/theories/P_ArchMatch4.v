(** Coarsening of meshes by matching. *)
From Verif Require Import Base M_Arch S_Arch M_ArchMatch S_ArchMatch P_ArchMatch P_ArchMatch2 P_ArchMatch3.

Section Grid.
  (** [n]: size of the dimension; [fs]: the first index is left alone *)
  Context (U n d : Z) (fs : bool).
  Context (HU : 0 <= U) (Hn : 2 <= n) (Hd : 1 <= d).
  Notation n' := ((n + 1) / 2).
  Definition gpass := if Z.odd n then if fs then 1 else 0 else 0.
  Definition gval := if Z.odd n then if fs then 0 else n - 1 else -1.
  Definition gcr (i : Z) : bool := (i =? gval) || (Z.land i 1 =? gpass).
  Definition grank (i : Z) : Z := if Z.odd n && fs then if i =? 0 then 0 else 1 + i / 2 else (i + 1) / 2.

  Lemma grank_S i : 0 <= i -> i < n -> grank (i + 1) = grank i + if gcr i then 1 else 0.
  Proof.
    clear HU Hd. intros Hi Hin. unfold grank, gcr, gval, gpass. half n h. half i k. half (i + 1) k'. half (i + 1 + 1) k''. rewrite H6.
    destruct H as [[En ->]|[En ->]]; cbn [andb].
    - destruct (Z.eqb_spec i (-1)); [lia|]. cbn [orb]. destruct H3 as [[Ei Eo]|[Ei Eo]]; rewrite ?Eo; cbn [Z.eqb]; lia.
    - destruct fs.
      + destruct (Z.eqb_spec (i + 1) 0); [lia|]. destruct (Z.eqb_spec i 0).
        * cbn [orb]. lia.
        * cbn [orb]. destruct H3 as [[Ei Eo]|[Ei Eo]]; rewrite ?Eo; cbn [Z.eqb Pos.eqb]; lia.
      + destruct (Z.eqb_spec i (n - 1)); cbn [orb]; destruct H3 as [[Ei Eo]|[Ei Eo]]; rewrite ?Eo; cbn [Z.eqb]; lia.
  Qed.
  Lemma grank_n : grank n = n'.
  Proof.
    clear HU Hd. unfold grank. half n h. half (n + 1) h'. destruct H as [[En ->]|[En ->]]; cbn [andb]; [reflexivity|].
    destruct fs; [|reflexivity]. destruct (Z.eqb_spec n 0); lia.
  Qed.
  Lemma grank_0 : grank 0 = 0.
  Proof. unfold grank. destruct (Z.odd n && fs); reflexivity. Qed.
  Lemma grank_lt i : 0 <= i < n -> 0 <= grank i /\ (gcr i = true -> grank i < n').
  Proof.
    clear HU Hd. intros Hi. unfold grank, gcr, gval, gpass. half n h. half i k. half (i + 1) k'. half (n + 1) h'. rewrite H6.
    destruct H as [[En ->]|[En ->]]; cbn [andb].
    - split; [lia|]. destruct (Z.eqb_spec i (-1)); [lia|]. cbn [orb]. destruct H3 as [[Ei Eo]|[Ei Eo]]; rewrite ?Eo; cbn [Z.eqb]; intros; try discriminate; lia.
    - destruct fs.
      + destruct (Z.eqb_spec i 0); [lia|]. split; [lia|]. cbn [orb]. destruct H3 as [[Ei Eo]|[Ei Eo]]; rewrite ?Eo; cbn [Z.eqb Pos.eqb]; intros; try discriminate; lia.
      + split; [lia|]. destruct (Z.eqb_spec i (n - 1)); cbn [orb]; destruct H3 as [[Ei Eo]|[Ei Eo]]; rewrite ?Eo; cbn [Z.eqb]; intros; try discriminate; lia.
  Qed.
  Lemma mates_rank i : 0 <= i < n -> gcr i = true -> mates n fs (grank i) = (i, if i =? gval then i else i + 1).
  Proof.
    clear HU Hd. intros Hi. unfold mates, grank, gcr, gval, gpass. half n h. half i k. half (i + 1) k'. rewrite H6.
    destruct H as [[En ->]|[En ->]]; cbn [andb].
    - destruct (Z.eqb_spec i (-1)); [lia|]. cbn [orb]. destruct H3 as [[Ei Eo]|[Ei Eo]]; rewrite ?Eo; cbn [Z.eqb]; intros; try discriminate. f_equal; lia.
    - destruct fs.
      + destruct (Z.eqb_spec i 0) as [->|Hi0]; [reflexivity|]. cbn [orb]. destruct H3 as [[Ei Eo]|[Ei Eo]]; rewrite ?Eo; cbn [Z.eqb Pos.eqb]; intros; try discriminate.
        destruct (Z.eqb_spec (1 + i / 2) 0); [lia|]. f_equal; lia.
      + destruct (Z.eqb_spec i (n - 1)); cbn [orb]; destruct H3 as [[Ei Eo]|[Ei Eo]]; rewrite ?Eo; cbn [Z.eqb]; intros; try discriminate; try lia.
        * destruct (Z.eqb_spec ((i + 1) / 2) (n / 2)); [|lia]. f_equal; lia.
        * destruct (Z.eqb_spec ((i + 1) / 2) (n / 2)); [lia|]. f_equal; lia.
  Qed.

  Definition gbody (f : Z) (s : multi * Z * Z * Z) : res (multi * Z * Z * Z) :=
    let '(mt, c, indx, tmp) := s in
    do '(mt, c) <- (if indx =? gval then do mt <- wr 0 mt c (f, f); Ok (mt, c + 1)
                    else if Z.land indx 1 =? gpass then do mt <- wr 0 mt c (f, f + d); Ok (mt, c + 1)
                    else Ok (mt, c));
    if f =? tmp then if n =? 0 then UB else Ok (mt, c, Z.rem (indx + 1) n, tmp + d)
    else Ok (mt, c, indx, tmp).

  Definition cells (mt : multi) (c : Z) : Prop :=
    forall u i r, 0 <= u -> 0 <= i < n' -> 0 <= r < d -> (u * n' + i) * d + r < c ->
      at_ 0 mt ((u * n' + i) * d + r) = ((u * n + fst (mates n fs i)) * d + r, (u * n + snd (mates n fs i)) * d + r).

  Lemma grid_loop mt : U * n' * d <= zlen mt ->
    exists mt' x y, for_ 0 (U * n * d) gbody (mt, 0, 0, d - 1) = Ok (mt', U * n' * d, x, y) /\ zlen mt' = zlen mt /\ grid_mating U n d fs mt' (U * n' * d).
  Proof.
    intros Hl. assert (Hn' : 1 <= n') by (half (n + 1) h; lia).
    set (I := fun f (s : multi * Z * Z * Z) => let '(m, c, indx, tmp) := s in
      exists u r, 0 <= u /\ 0 <= indx < n /\ 0 <= r < d /\ f = (u * n + indx) * d + r /\ tmp = (u * n + indx) * d + d - 1 /\
        c = (u * n' + grank indx) * d + (if gcr indx then r else 0) /\ zlen m = zlen mt /\ cells m c).
    destruct (wp_ok_inv (for_ 0 (U * n * d) gbody (mt, 0, 0, d - 1))
      (fun s => let '(m, c, indx, tmp) := s in c = U * n' * d /\ zlen m = zlen mt /\ cells m c)) as ([[[mt' c] x] y] & E & -> & Z1 & C).
    - apply wp_for with (I := I).
      + nia.
      + unfold I. exists 0, 0. rewrite grank_0. repeat split; try lia; try (destruct (gcr 0); lia).
        intros u i r Hu Hi Hr Hc. exfalso. destruct (gcr 0); nia.
      + intros f [[[m c] i] tmp] Hf (u & r & Hu & Hi & Hr & Ef & Et & Ec & Z1 & C).
        assert (HuU : u < U).
        { destruct (Z_lt_ge_dec u U); [assumption|]. exfalso. assert (U * n <= u * n + i) by nia. assert (U * n * d <= (u * n + i) * d) by nia. lia. }
        assert (Hw : exists m' c', (if i =? gval then do mt <- wr 0 m c (f, f); Ok (mt, c + 1)
                    else if Z.land i 1 =? gpass then do mt <- wr 0 m c (f, f + d); Ok (mt, c + 1)
                    else Ok (m, c)) = Ok (m', c') /\ c' = (u * n' + grank i) * d + (if gcr i then r + 1 else 0) /\ zlen m' = zlen mt /\ cells m' c').
        { destruct (gcr i) eqn:Eg.
          - destruct (grank_lt i Hi) as [G1 G2]. specialize (G2 Eg).
            assert (Hcb : 0 <= c < U * n' * d) by (rewrite Ec; apply dm_range; lia).
            assert (HX : forall w, w = ((u * n + fst (mates n fs (grank i))) * d + r, (u * n + snd (mates n fs (grank i))) * d + r) ->
              cells (upd 0 m c w) (c + 1)).
            { intros w Ew u1 i1 r1 Hu1 Hi1 Hr1 Hlt. assert (0 <= (u1 * n' + i1) * d + r1) by nia. rewrite at_upd by lia.
              destruct (Z.eqb_spec c ((u1 * n' + i1) * d + r1)) as [E|E]; [|apply C; auto; lia].
              rewrite Ec in E. apply dm_uniq in E; [|lia..]. destruct E as [E <-]. apply dm_uniq in E; [|lia..]. destruct E as [<- <-]. exact Ew. }
            pose proof (mates_rank i Hi Eg) as Em. unfold gcr in Eg.
            destruct (Z.eqb_spec i gval) as [Ei|Ei].
            + rewrite wr_ok by lia. cbn [bind]. eexists _, _. split; [reflexivity|]. split; [lia|]. rewrite zlen_upd. split; [exact Z1|].
              apply HX. rewrite Em. cbn [fst snd]. f_equal; lia.
            + cbn [orb] in Eg. rewrite Eg. rewrite wr_ok by lia. cbn [bind]. eexists _, _. split; [reflexivity|]. split; [lia|]. rewrite zlen_upd. split; [exact Z1|].
              apply HX. rewrite Em. cbn [fst snd]. f_equal; lia.
          - unfold gcr in Eg. apply orb_false_elim in Eg. destruct Eg as [E1 E2]. rewrite E1, E2. eexists _, _. split; [reflexivity|]. repeat split; auto. }
        destruct Hw as (m' & c' & E & Ec' & Z2 & C'). unfold gbody. rewrite E. cbn [bind]. clear E.
        pose proof (grank_S i ltac:(lia) ltac:(lia)) as GS.
        destruct (Z.eqb_spec f tmp) as [Eft|Eft].
        * destruct (Z.eqb_spec n 0); [lia|]. cbn [wp]. assert (r = d - 1) by lia. subst r.
          destruct (Z.eq_dec (i + 1) n) as [Ein|Ein].
          -- rewrite Ein, Z.rem_same by lia. exists (u + 1), 0. rewrite grank_0. rewrite Ein, grank_n in GS.
             assert (Eq : c' = ((u + 1) * n' + 0) * d + (if gcr 0 then 0 else 0)).
             { rewrite Ec'. destruct (gcr i); destruct (gcr 0); nia. }
             repeat split; try lia; auto.
          -- rewrite Z.rem_small by lia. exists u, 0. 
             assert (Eq : c' = (u * n' + grank (i + 1)) * d + (if gcr (i + 1) then 0 else 0)).
             { rewrite Ec', GS. destruct (gcr i); destruct (gcr (i + 1)); nia. }
             repeat split; try lia; auto.
        * cbn [wp]. exists u, (r + 1). repeat split; try lia; auto. 
      + intros [[[m c] i] tmp] (u & r & Hu & Hi & Hr & Ef & Et & Ec & Z1 & C).
        assert (E : U * n * d + 0 = (u * n + i) * d + r) by lia. apply dm_uniq in E; [|lia..]. destruct E as [E <-].
        assert (E2 : U * n + 0 = u * n + i) by lia. apply dm_uniq in E2; [|lia..]. destruct E2 as [-> <-].
        rewrite grank_0 in Ec. split; [|auto]. destruct (gcr 0); lia.
    - exists mt', x, y. split; [exact E|]. split; [exact Z1|]. split; [reflexivity|]. intros u i r Hu Hi Hr. apply C; try lia. apply dm_range; lia.
  Qed.
End Grid.

(** ** The dimension to coarsen *)
Definition xinv (n : Z) (st : xmatch) : Prop :=
  0 <= xm_num st < zlen (xm_dim st) /\ Forall (fun z => 1 <= z) (xm_dim st) /\ zlen (xm_pass st) = zlen (xm_dim st) /\
  (forall k, 0 <= k < zlen (xm_pass st) -> 0 <= at_ 0 (xm_pass st) k <= 1) /\ n = prod (xm_dim st) /\
  (n <= zlen (xm_mt st) \/ xm_num st = 0 /\ n / at_ 0 (xm_dim st) 0 * Z.shiftr (at_ 0 (xm_dim st) 0 + 1) 1 <= zlen (xm_mt st)).

Lemma prod_ones c : Forall (fun z => z = 1) c -> prod c = 1.
Proof. induction 1; cbn [prod]; lia. Qed.

Lemma meshdim_ok st : 0 <= xm_num st < zlen (xm_dim st) -> Forall (fun z => 1 <= z) (xm_dim st) ->
  (Forall (fun z => z = 1) (xm_dim st) /\ meshMatchDim st = Err (-1)) \/
  (exists k, meshMatchDim st = Ok k /\ 0 <= k < zlen (xm_dim st) /\ 1 < at_ 0 (xm_dim st) k /\ (xm_num st = 0 -> forall j, 0 <= j < k -> at_ 0 (xm_dim st) j = 1)).
Proof.
  intros Hn Hf. set (c := xm_dim st) in *. set (n := zlen c) in *. set (m := xm_num st) in *.
  assert (H1 : forall k, 0 <= k < n -> 1 <= at_ 0 c k) by (intros k Hk; rewrite Forall_forall in Hf; apply Hf; apply at_In; exact Hk).
  unfold meshMatchDim. fold c n m. assert (Ec : zlen c = n) by reflexivity. clearbody n m c. destruct (Z.eqb_spec n 0); [lia|].
  assert (Hpos : exists pos : Z -> Z, (forall j, 0 <= j < n -> 0 <= pos j < n /\ (m + j < n /\ pos j = m + j \/ n <= m + j /\ pos j = m + j - n)) /\
    (forall j, 0 <= j < n - 1 -> Z.rem (pos j + 1) n = pos (j + 1)) /\ Z.rem (m + n - 1) n = pos (n - 1)).
  { exists (fun j => if m + j <? n then m + j else m + j - n). split; [|split].
    - intros j Hj. destruct (Z.ltb_spec (m + j) n); lia.
    - intros j Hj. destruct (Z.ltb_spec (m + j) n), (Z.ltb_spec (m + (j + 1)) n); try lia.
      + rewrite Z.rem_small; lia.
      + replace (m + j + 1) with n by lia. rewrite Z.rem_same; lia.
      + rewrite Z.rem_small; lia.
    - destruct (Z.ltb_spec (m + (n - 1)) n); [rewrite Z.rem_small; lia|].
      replace (m + n - 1) with (m - 1 + 1 * n) by lia. rewrite Z.rem_add by nia. rewrite Z.rem_small; lia. }
  destruct Hpos as (pos & Hpos & Hnext & Etmp). rewrite Etmp. clear Etmp.
  (* [j]: dimensions already seen *)
  assert (L : forall f j, 0 <= j < n -> n - j < Z.of_nat f -> (forall i, 0 <= i < j -> at_ 0 c (pos i) = 1) ->
    let r := loop f (fun k => do d <- rd 0 c k; if d <=? 1 then if k =? pos (n - 1) then Err (-1) else Ok (inl (Z.rem (k + 1) n)) else Ok (inr k)) (pos j) in
    (Forall (fun z => z = 1) c /\ r = Err (-1)) \/ (exists k', r = Ok k' /\ 0 <= k' < n /\ 1 < at_ 0 c k' /\ (m = 0 -> forall j, 0 <= j < k' -> at_ 0 c j = 1))).
  { induction f as [|f IH]; intros j Hj Hf' Hs; [lia|]. cbn zeta in IH |- *. rewrite loop_S.
    destruct (Hpos j Hj) as [Hk Hkj]. rewrite rd_ok by lia. cbn [bind]. destruct (Z.leb_spec (at_ 0 c (pos j)) 1) as [Hle|Hgt].
    - assert (Hk1 : at_ 0 c (pos j) = 1) by (specialize (H1 _ Hk); lia).
      destruct (Hpos (n - 1) ltac:(lia)) as [Hl Hlj].
      destruct (Z.eqb_spec (pos j) (pos (n - 1))) as [E|E].
      + left. split; [|reflexivity]. assert (j = n - 1) by lia.
        assert (Hall : forall i, 0 <= i < n -> at_ 0 c (pos i) = 1).
        { intros i Hi. destruct (Z.eq_dec i j) as [Eij|Eij]; [rewrite Eij; exact Hk1|apply Hs; lia]. }
        apply Forall_forall. intros z Hz. apply In_at with (b := 0) in Hz. destruct Hz as (i & Hi & <-). rewrite Ec in Hi.
        destruct (Z_le_gt_dec m i).
        * destruct (Hpos (i - m) ltac:(lia)) as [_ Q]. rewrite <- (Hall (i - m)) by lia. f_equal. lia.
        * destruct (Hpos (i + n - m) ltac:(lia)) as [_ Q]. rewrite <- (Hall (i + n - m)) by lia. f_equal. lia.
      + assert (j <> n - 1) by (intros Ej; apply E; rewrite Ej; reflexivity).
        rewrite Hnext by lia. apply IH; try lia.
        intros i Hi. destruct (Z.eq_dec i j) as [Eij|]; [rewrite Eij; exact Hk1|]. apply Hs. lia.
    - right. exists (pos j). split; [reflexivity|]. repeat split; try lia. intros Hm0 i Hi.
      destruct (Hpos i ltac:(lia)) as [_ Q]. rewrite <- (Hs i) by lia. f_equal. lia. }
  specialize (L (S (length c)) 0 ltac:(lia)). cbn zeta in L. destruct (Hpos 0 ltac:(lia)) as [_ Q].
  replace (pos 0) with m in L by lia. apply L; [unfold zlen in Ec; lia|intros; lia].
Qed.

Lemma prod_split c k : 0 <= k < zlen c -> prod c = prod (skipn (Z.to_nat (k + 1)) c) * at_ 0 c k * prod (firstn (Z.to_nat k) c).
Proof.
  intros Hk. rewrite <- (firstn_skipn (Z.to_nat (k + 1)) c) at 1. rewrite prod_app, firstn_at by assumption. rewrite prod_app. cbn [prod]. lia.
Qed.
Lemma upd_split (c : list Z) k v : 0 <= k < zlen c -> upd 0 c k v = firstn (Z.to_nat k) c ++ v :: skipn (Z.to_nat (k + 1)) c.
Proof.
  intros Hk. unfold upd. rewrite Z.sub_0_r. replace (Z.to_nat (k + 1)) with (S (Z.to_nat k)) by lia.
  assert (H : (Z.to_nat k < length c)%nat) by (unfold zlen in Hk; lia). revert H. generalize (Z.to_nat k). clear.
  intros m. revert c. induction m; intros [|x c] H; cbn [length] in H; try lia; [reflexivity|].
  cbn [updn firstn app]. rewrite IHm by lia. reflexivity.
Qed.
Lemma Forall_firstn' {A} (P : A -> Prop) m (l : list A) : Forall P l -> Forall P (firstn m l).
Proof. intros H. rewrite <- (firstn_skipn m l) in H. apply Forall_app in H. tauto. Qed.
Lemma Forall_skipn' {A} (P : A -> Prop) m (l : list A) : Forall P l -> Forall P (skipn m l).
Proof. intros H. rewrite <- (firstn_skipn m l) in H. apply Forall_app in H. tauto. Qed.
Lemma Forall_upd (P : Z -> Prop) (c : list Z) k v : 0 <= k < zlen c -> Forall P c -> P v -> Forall P (upd 0 c k v).
Proof.
  intros Hk H Hv. rewrite upd_split by assumption. apply Forall_app. split; [now apply Forall_firstn'|].
  constructor; [assumption|]. now apply Forall_skipn'.
Qed.

Lemma mesh_step n st : xinv n st -> 1 <= n /\ (n = 1 /\ Forall (fun z => z = 1) (xm_dim st) /\ archMeshXMatchMate st = Err (-1) \/
  exists c st' k fs, archMeshXMatchMate st = Ok (c, st') /\ xinv c st' /\ 0 <= k < zlen (xm_dim st) /\ 1 < at_ 0 (xm_dim st) k /\
    xm_dim st' = upd 0 (xm_dim st) k ((at_ 0 (xm_dim st) k + 1) / 2) /\
    grid_mating (prod (skipn (Z.to_nat (k + 1)) (xm_dim st))) (at_ 0 (xm_dim st) k) (prod (firstn (Z.to_nat k) (xm_dim st))) fs (xm_mt st') c /\
    c <= zlen (xm_mt st') /\ groups n (xm_mt st') c /\ c < n <= 2 * c).
Proof.
  intros (Hn & Hf & Hp & Hpv & En & Hb). pose proof (prod_pos _ Hf) as HP. split; [lia|].
  destruct (meshdim_ok st Hn Hf) as [[H1 E]|(k & E & Hk & Hk1 & Hk0)].
  - left. rewrite (prod_ones _ H1) in En. split; [exact En|]. split; [exact H1|]. unfold archMeshXMatchMate. rewrite E. reflexivity.
  - right. set (c := xm_dim st) in *. unfold archMeshXMatchMate. fold c. rewrite E. cbn [bind]. clear E.
    destruct (for_prod c 0 k 1) as (d & E1 & _ & Ed); [lia..|]. rewrite E1. cbn [bind]. clear E1. change (Z.to_nat 0) with O in Ed. cbn [skipn] in Ed. rewrite Z.mul_1_l in Ed.
    destruct (for_prod c k (zlen c) d) as (nb & E1 & Enb & _); [lia..|]. rewrite E1. cbn [bind]. clear E1.
    rewrite <- Ed in Enb. rewrite firstn_all2 in Enb by (unfold zlen; lia).
    assert (Hd1 : 1 <= d) by (rewrite Ed; apply prod_pos; now apply Forall_firstn').
    assert (nb = prod c) as -> by nia. clear Enb.
    rewrite rd_ok by lia. cbn [bind]. set (x := at_ 0 c k) in *. rewrite wr_ok by lia. cbn [bind].
    pose proof (prod_split c k Hk) as HS. fold x in HS. rewrite <- Ed in HS. set (U := prod (skipn (Z.to_nat (k + 1)) c)) in *.
    assert (HU : 1 <= U) by (apply prod_pos; now apply Forall_skipn').
    assert (Hps : exists pt fs, (if negb (Z.land x 1 =? 0) then
        do p <- rd 0 (xm_pass st) k;
        let p := Z.lxor p 1 in
        do pt <- wr 0 (xm_pass st) k p;
        Ok (pt, p, if negb (p =? 0) then 0 else x - 1)
      else Ok (xm_pass st, 0, -1)) = Ok (pt, gpass x fs, gval x fs) /\ zlen pt = zlen c /\ (forall k, 0 <= k < zlen pt -> 0 <= at_ 0 pt k <= 1)).
    { half x h. rewrite H2. unfold gpass, gval. destruct (Z.odd x); cbn [Z.eqb negb].
      - rewrite rd_ok by lia. cbn [bind]. rewrite wr_ok by lia. cbn [bind]. pose proof (Hpv k ltac:(lia)).
        assert (Ep : at_ 0 (xm_pass st) k = 0 \/ at_ 0 (xm_pass st) k = 1) by lia.
        destruct Ep as [-> | ->]; [exists (upd 0 (xm_pass st) k 1), true|exists (upd 0 (xm_pass st) k 0), false];
          (split; [reflexivity|]; rewrite zlen_upd; split; [lia|]; intros j Hj; rewrite at_upd by lia; destruct (k =? j); [lia|auto]).
      - exists (xm_pass st), false. auto. }
    destruct Hps as (pt & fs & E1 & Hpt & Hptv). cbn zeta in E1. rewrite E1. cbn [bind]. clear E1.
    rewrite <- (half_up x). assert (Hx' : 1 <= (x + 1) / 2 < x) by (half (x + 1) h; lia).
    assert (Hroom : U * ((x + 1) / 2) * d <= zlen (xm_mt st)).
    { destruct Hb as [Hb|[Hm Hb]].
      - assert (U * ((x + 1) / 2) <= U * x) by nia. nia.
      - destruct (Z.eq_dec k 0) as [Ek|Ek].
        + subst x. rewrite Ek in *. change (firstn (Z.to_nat 0) c) with (@nil Z) in Ed. cbn [prod] in Ed. rewrite Ed in *.
          rewrite <- half_up in Hb. rewrite En, HS in Hb. rewrite Z.mul_1_r, Z.div_mul in Hb by lia. lia.
        + rewrite (Hk0 Hm 0 ltac:(lia)) in Hb. change (Z.shiftr (1 + 1) 1) with 1 in Hb. rewrite Z.div_1_r in Hb.
          assert (U * ((x + 1) / 2) <= U * x) by nia. nia. }
    destruct (grid_loop U x d fs) with (mt := xm_mt st) as (mt' & y & z & E1 & Z1 & G); [lia..|exact Hroom|].
    unfold gbody in E1. rewrite HS. rewrite E1. cbn [bind]. clear E1.
    eexists _, _, k, fs. split; [reflexivity|]. cbn [xm_dim xm_mt]. fold x. rewrite <- Ed. fold U.
    assert (Hd' : prod (upd 0 c k ((x + 1) / 2)) = U * ((x + 1) / 2) * d).
    { rewrite upd_split by assumption. rewrite prod_app. cbn [prod]. fold U. rewrite <- Ed. lia. }
    assert (Gr : groups n mt' (U * ((x + 1) / 2) * d)).
    { rewrite En, HS. apply (grid_groups U x d fs); try lia. exact G. }
    split; [|split; [exact Hk|split; [exact Hk1|split; [reflexivity|split; [exact G|split; [lia|split; [exact Gr|]]]]]]].
    + unfold xinv. cbn [xm_dim xm_mt xm_num xm_pass]. rewrite zlen_upd. split; [|split; [|split; [exact Hpt|split; [exact Hptv|split; [symmetry; exact Hd'|]]]]].
      * assert (H : 0 <= Z.rem (k + 1) (zlen c) < zlen c) by (apply Z.rem_bound_pos; lia). exact H.
      * apply Forall_upd; auto. lia.
      * left. lia.
    + rewrite En, HS. half (x + 1) h. assert (h < x <= 2 * h) by lia. rewrite H0 in *.
      split; [assert (U * h < U * x) by nia; nia|]. assert (U * x <= U * (2 * h)) by nia. nia.
Qed.

Lemma mesh_init c : Forall (fun z => 1 <= z) c -> c <> [] -> exists st, archMeshXMatchInit c = Ok st /\ xinv (prod c) st /\ xm_dim st = c.
Proof.
  intros Hf Hne. destruct c as [|d0 c]; [contradiction|]. clear Hne. unfold archMeshXMatchInit.
  pose proof (zlen_nonneg c) as Hzc. assert (Hz : zlen (d0 :: c) = zlen c + 1) by (rewrite zlen_cons; lia).
  rewrite rd_ok by lia. cbn [bind]. rewrite at_cons_0.
  destruct (for_prod (d0 :: c) 1 (zlen (d0 :: c)) (Z.shiftr (d0 + 1) 1)) as (y & E & _ & Ey); [lia..|]. rewrite E. cbn [bind]. clear E.
  rewrite firstn_all2 in Ey by (unfold zlen; lia). change (Z.to_nat 1) with 1%nat in Ey. cbn [skipn] in Ey.
  eexists. split; [reflexivity|]. split; [|reflexivity]. unfold xinv. cbn [xm_dim xm_mt xm_num xm_pass].
  split; [lia|]. split; [exact Hf|]. split; [rewrite zlen_repeat; unfold zlen; lia|]. split; [|split; [reflexivity|]].
  - intros k Hk. rewrite zlen_repeat in Hk. rewrite at_repeat by lia. lia.
  - right. split; [reflexivity|]. unfold mult0. rewrite zlen_repeat, at_cons_0. inversion Hf; subst. cbn [prod].
    rewrite (Z.mul_comm d0), Z.div_mul by lia. lia.
Qed.
