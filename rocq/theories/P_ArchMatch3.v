(** Coarsening of tree-leaf architectures and of meshes. *)
From Verif Require Import Base M_Arch S_Arch M_ArchMatch S_ArchMatch P_ArchMatch P_ArchMatch2.

Lemma loop_S {S R} f (body : S -> res (S + R)) (s : S) :
  loop (Datatypes.S f) body s = bind (body s) (fun x => match x with inl s' => loop f body s' | inr r => Ok r end).
Proof. reflexivity. Qed.

(** ** Tree leaves *)
Section Tleaf.
  Context (a : tleaf) (Hsz : Forall (fun z => 1 <= z) (t_size a)).
  Notation P l := (prod (firstn (Z.to_nat l) (t_size a))).

  Lemma size_at l : 0 <= l < zlen (t_size a) -> 1 <= at_ 0 (t_size a) l.
  Proof. intros Hl. rewrite Forall_forall in Hsz. apply Hsz. now apply at_In. Qed.
  Lemma P_S l : 0 <= l < zlen (t_size a) -> P (l + 1) = P l * at_ 0 (t_size a) l.
  Proof. intros Hl. rewrite firstn_at by assumption. rewrite prod_app. cbn [prod]. lia. Qed.
  Lemma P_pos l : 1 <= P l.
  Proof.
    apply prod_pos. rewrite Forall_forall in *. intros z Hz. apply Hsz. revert Hz. generalize (t_size a), (Z.to_nat l). clear.
    intros s m. revert s. induction m; intros [|x s]; cbn; try tauto. intros [H|H]; auto.
  Qed.

  Definition tminv (n : Z) (st : tmatch) : Prop :=
    0 <= tm_levl st < t_levlnbr a /\ 1 <= tm_siz st /\ n = tm_vert st /\ n = P (tm_levl st) * tm_siz st /\
    0 <= tm_pass st <= 1 /\ P (tm_levl st) * Z.shiftr (tm_siz st + 1) 1 <= zlen (tm_mt st).

  Lemma tlevel_ok n l0 : forall f pass levl siz, (Z.to_nat levl < f)%nat -> 0 <= levl < t_levlnbr a -> 1 <= siz -> 0 <= pass <= 1 ->
    n = P levl * siz -> P levl * Z.shiftr (siz + 1) 1 <= l0 ->
    let r := loop (S f) (fun '(pass, levl, siz) =>
      if siz =? 1 then
        let levl := levl - 1 in
        if levl <? 0 then Err (-1) else
        do siz <- rd 0 (t_size a) levl;
        Ok (inl (0, levl, siz))
      else Ok (inr (pass, levl, siz))) (pass, levl, siz) in
    (n = 1 /\ r = Err (-1)) \/
    (exists pass' levl' siz', r = Ok (pass', levl', siz') /\ 0 <= levl' < t_levlnbr a /\ 2 <= siz' /\ 0 <= pass' <= 1 /\
       n = P levl' * siz' /\ P levl' * Z.shiftr (siz' + 1) 1 <= l0).
  Proof.
    unfold t_levlnbr. induction f as [|f IH]; intros pass levl siz Hf Hl Hs Hp En Hb; [lia|]. cbn zeta in IH |- *.
    rewrite loop_S. cbn beta iota. destruct (Z.eqb_spec siz 1) as [->|Hne].
    - destruct (Z.ltb_spec (levl - 1) 0) as [H0|H0].
      + left. assert (levl = 0) as -> by lia. cbn in En. split; [lia|reflexivity].
      + rewrite rd_ok by lia. cbn [bind]. pose proof (size_at (levl - 1) ltac:(lia)) as Hz. pose proof (P_S (levl - 1) ltac:(lia)) as HP.
        replace (levl - 1 + 1) with levl in HP by lia. change (Z.shiftr (1 + 1) 1) with 1 in Hb. apply IH; try lia.
        pose proof (P_pos (levl - 1)). half (at_ 0 (t_size a) (levl - 1) + 1) h. assert (h <= at_ 0 (t_size a) (levl - 1)) by lia. nia.
    - right. eexists _, _, _. split; [reflexivity|]. repeat split; try lia.
  Qed.

  (** one block *)
  Definition blk (pass bloksiz : Z) (s : multi * Z * Z) : res (multi * Z * Z) :=
    let '(mt, f, c) := s in
    do '(mt, f, c) <- (if pass =? 0 then do mt <- wr 0 mt c (f, f); Ok (mt, f + 1, c + 1) else Ok (mt, f, c));
    do '(mt, f, c) <- for_ 0 bloksiz (fun _ '(mt, f, c) => do mt <- wr 0 mt c (f, f + 1); Ok (mt, f + 2, c + 1)) (mt, f, c);
    if pass =? 1 then do mt <- wr 0 mt c (f, f); Ok (mt, f + 1, c + 1) else Ok (mt, f, c).

  Lemma blk_ok siz pass mt f c : 2 <= siz -> (Z.odd siz = false /\ pass = -1 \/ Z.odd siz = true /\ 0 <= pass <= 1) ->
    0 <= c -> c + (siz + 1) / 2 <= zlen mt ->
    exists mt', blk pass (Z.shiftr siz 1) (mt, f, c) = Ok (mt', f + siz, c + (siz + 1) / 2) /\ zlen mt' = zlen mt /\
      (forall x, 0 <= x < c -> at_ 0 mt' x = at_ 0 mt x) /\
      forall i, 0 <= i < (siz + 1) / 2 -> at_ 0 mt' (c + i) = (f + fst (mates siz (pass =? 0) i), f + snd (mates siz (pass =? 0) i)).
  Proof.
    intros Hs Hp Hc Hl. half siz h. half (siz + 1) h'. rewrite H1. unfold blk, mates.
    destruct Hp as [[Eo ->]|[Eo Hp]]; (destruct H as [[En En']|[En En']]; try congruence).
    - change (-1 =? 0) with false. change (-1 =? 1) with false. cbn [bind]. rewrite Eo. cbn [andb].
      destruct (pairs_ok h mt f c) as (mt' & E & Z1 & A & B); try lia. rewrite E. cbn [bind].
      exists mt'. split; [f_equal; apply f_equal2; [apply f_equal2|]; (reflexivity || lia)|]. split; [exact Z1|]. split; [exact A|].
      intros i Hi. rewrite B by lia. cbn [fst snd]. f_equal; lia.
    - rewrite Eo. cbn [andb]. assert (Ep : pass = 0 \/ pass = 1) by lia. destruct Ep as [->| ->].
      + change (0 =? 0) with true. change (0 =? 1) with false. cbn iota. rewrite wr_ok by lia. cbn [bind].
        destruct (pairs_ok h (upd 0 mt c (f, f)) (f + 1) (c + 1)) as (mt' & E & Z1 & A & B); rewrite ?zlen_upd in *; try lia. rewrite E. cbn [bind].
        exists mt'. split; [f_equal; apply f_equal2; [apply f_equal2|]; (reflexivity || lia)|]. split; [lia|]. split.
        * intros x Hx. rewrite A by lia. rewrite at_upd by lia. destruct (Z.eqb_spec c x); [lia|reflexivity].
        * intros i Hi. destruct (Z.eqb_spec i 0) as [->|Hi0].
          -- rewrite A by lia. rewrite at_upd by lia. rewrite Z.add_0_r, Z.eqb_refl. cbn [fst snd]. f_equal; lia.
          -- replace (c + i) with (c + 1 + (i - 1)) by lia. rewrite B by lia. cbn [fst snd]. f_equal; lia.
      + change (1 =? 0) with false. change (1 =? 1) with true. cbn [bind].
        destruct (pairs_ok h mt f c) as (mt' & E & Z1 & A & B); try lia. rewrite E. cbn [bind]. rewrite wr_ok by lia. cbn [bind].
        exists (upd 0 mt' (c + h) (f + 2 * h, f + 2 * h)). split; [f_equal; apply f_equal2; [apply f_equal2|]; (reflexivity || lia)|]. rewrite zlen_upd. split; [lia|]. split.
        * intros x Hx. rewrite at_upd by lia. destruct (Z.eqb_spec (c + h) x); [lia|]. now apply A.
        * intros i Hi. rewrite at_upd by lia. rewrite H0. destruct (Z.eqb_spec i h) as [->|Hi0].
          -- rewrite Z.eqb_refl. cbn [fst snd]. f_equal; lia.
          -- destruct (Z.eqb_spec (c + h) (c + i)); [lia|]. rewrite B by lia. cbn [fst snd]. f_equal; lia.
  Qed.

  Lemma blks_ok siz pass B mt : 2 <= siz -> (Z.odd siz = false /\ pass = -1 \/ Z.odd siz = true /\ 0 <= pass <= 1) ->
    0 <= B -> B * ((siz + 1) / 2) <= zlen mt ->
    exists mt', for_ 0 B (fun _ => blk pass (Z.shiftr siz 1)) (mt, 0, 0) = Ok (mt', B * siz, B * ((siz + 1) / 2)) /\ zlen mt' = zlen mt /\
      grid_mating B siz 1 (pass =? 0) mt' (B * ((siz + 1) / 2)).
  Proof.
    intros Hs Hp HB Hl. set (n' := (siz + 1) / 2) in *.
    assert (Hn' : 1 <= n') by (unfold n'; half (siz + 1) h; lia).
    destruct (wp_ok_inv (for_ 0 B (fun _ => blk pass (Z.shiftr siz 1)) (mt, 0, 0))
      (fun s => let '(mt', f, c) := s in f = B * siz /\ c = B * n' /\ zlen mt' = zlen mt /\
        forall u i, 0 <= u < B -> 0 <= i < n' -> at_ 0 mt' (u * n' + i) = (u * siz + fst (mates siz (pass =? 0) i), u * siz + snd (mates siz (pass =? 0) i))))
      as ([[mt' f] c] & E & -> & -> & Z1 & A).
    - apply wp_for with (I := fun q s => let '(mt', f, c) := s in f = q * siz /\ c = q * n' /\ zlen mt' = zlen mt /\
        forall u i, 0 <= u < q -> 0 <= i < n' -> at_ 0 mt' (u * n' + i) = (u * siz + fst (mates siz (pass =? 0) i), u * siz + snd (mates siz (pass =? 0) i))); [lia| | |].
      + repeat split; auto; lia.
      + intros q [[mt' f] c] Hq (-> & -> & Z1 & A).
        assert (q * n' + n' <= B * n') by nia.
        destruct (blk_ok siz pass mt' (q * siz) (q * n') Hs Hp) as (mt2 & E & Z2 & A1 & A2); fold n'; [nia|lia|].
        rewrite E. cbn [wp]. split; [lia|]. split; [fold n'; lia|]. split; [lia|]. intros u i Hu Hi.
        destruct (Z.eq_dec u q) as [->|Hne]; [now apply A2|]. rewrite A1; [apply A; lia|]. assert (u * n' + n' <= q * n') by nia. nia.
      + intros [[mt' f] c] H. exact H.
    - exists mt'. split; [exact E|]. split; [exact Z1|]. split; [fold n'; lia|]. fold n'. intros u i r Hu Hi Hr.
      assert (r = 0) as -> by lia. rewrite Z.mul_1_r, Z.add_0_r. rewrite A by assumption. f_equal; lia.
  Qed.

  Lemma tleaf_step n st : tminv n st -> 1 <= n /\ (n = 1 /\ archTleafMatchMate a st = Err (-1) \/
    exists c st', archTleafMatchMate a st = Ok (c, st') /\ tminv c st' /\ groups n (tm_mt st') c /\ c < n <= 2 * c /\
      exists l s fs, 0 <= l < zlen (t_size a) /\ 1 < s /\ n = P l * s /\ grid_mating (P l) s 1 fs (tm_mt st') c).
  Proof.
    intros (Hl & Hs & Ev & En & Hp & Hb). pose proof (P_pos (tm_levl st)) as HP. split; [nia|].
    destruct (tlevel_ok n (zlen (tm_mt st)) (S (length (t_size a))) (tm_pass st) (tm_levl st) (tm_siz st)) as [[E1 E]|(pass & levl & siz & E & Hl' & Hs' & Hp' & En' & Hb')]; auto.
    { unfold t_levlnbr, zlen in Hl. lia. }
    - left. split; [exact E1|]. unfold archTleafMatchMate. assert (E' : tleafLevel a (tm_pass st, tm_levl st, tm_siz st) = Err (-1)) by exact E. rewrite E'. reflexivity.
    - right. unfold archTleafMatchMate. assert (E' : tleafLevel a (tm_pass st, tm_levl st, tm_siz st) = Ok (pass, levl, siz)) by exact E. rewrite E'. cbn [bind]. clear E E'.
      pose proof (P_pos levl) as HP'. set (B := P levl) in *. rewrite <- Ev. rewrite En'. rewrite Z.quot_mul by lia.
      assert (Hc : exists mp p, (if negb (Z.land siz 1 =? 0) then (Z.lxor pass 1, Z.lxor pass 1) else (pass, -1)) = (mp, p) /\ 0 <= mp <= 1 /\
        (Z.odd siz = false /\ p = -1 \/ Z.odd siz = true /\ 0 <= p <= 1)).
      { half siz h. rewrite H2. destruct (Z.odd siz) eqn:Eo; cbn [Z.eqb negb].
        - assert (Ep : pass = 0 \/ pass = 1) by lia. destruct Ep as [->| ->]; eexists _, _; (split; [reflexivity|]); cbn; lia.
        - eexists _, _. split; [reflexivity|]. lia. }
      destruct Hc as (mp & p & -> & Hmp & Hpp).
      rewrite <- half_up in *.
      destruct (blks_ok siz p B (tm_mt st) Hs' Hpp ltac:(lia) Hb') as (mt' & E & Z1 & G).
      unfold blk in E. rewrite E. cbn [bind]. clear E.
      eexists _, _. split; [reflexivity|]. half (siz + 1) h. rewrite H0 in *. split; [|split; [|split]].
      + unfold tminv. cbn [tm_levl tm_siz tm_vert tm_pass tm_mt]. fold B. half (h + 1) h2. rewrite H5.
        repeat split; try lia. rewrite Z1. assert (h2 <= h) by lia. nia.
      + cbn [tm_mt]. replace (B * siz) with (B * siz * 1) by lia. apply (grid_groups B siz 1 (p =? 0)); try lia. exact G.
      + nia.
      + exists levl, siz, (p =? 0). unfold t_levlnbr in Hl'. fold B. rewrite <- En'. cbn [tm_mt]. repeat split; try lia; apply G.
  Qed.

  Lemma tleaf_init : 0 < zlen (t_size a) -> exists st, archTleafMatchInit a = Ok st /\ tminv (prod (t_size a)) st.
  Proof.
    intros Hz. unfold archTleafMatchInit. unfold t_levlnbr. destruct (for_prod (t_size a) 0 (zlen (t_size a) - 1) 1) as (y & E & _ & Ey); [lia..|].
    rewrite E. cbn [bind]. change (Z.to_nat 0) with O in Ey. cbn [skipn] in Ey. rewrite Z.mul_1_l in Ey. subst y. rewrite rd_ok by lia. cbn [bind].
    eexists. split; [reflexivity|]. unfold tminv. cbn [tm_levl tm_siz tm_vert tm_pass tm_mt].
    pose proof (size_at (zlen (t_size a) - 1) ltac:(lia)). pose proof (P_S (zlen (t_size a) - 1) ltac:(lia)) as HS.
    replace (zlen (t_size a) - 1 + 1) with (zlen (t_size a)) in HS by lia.
    rewrite firstn_all2 in HS by (unfold zlen; lia). pose proof (P_pos (zlen (t_size a) - 1)).
    unfold mult0. rewrite zlen_repeat. unfold t_levlnbr. half (at_ 0 (t_size a) (zlen (t_size a) - 1) + 1) h. repeat split; try lia.
  Qed.
End Tleaf.
