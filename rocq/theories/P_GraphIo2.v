(** Reading back the file of a graph. *)
From Verif Require Import Base M_Int M_Graph M_GraphIo S_Int S_Graph S_GraphIo S_Order P_Int P_Graph P_GraphList P_Induce P_Order2 P_GraphIo.

Section Load2.
Context (imax : Z) (g : graph) (V : graph_valid g) (R : graph_readable g) (HM : 111 <= imax) (LBL : labels_ok imax g) (FIT : fits imax g).
Context (b' : Z) (nv ne : bool).
Notation b := (baseval g).
Notation n := (vertnbr g).
Notation m := (edgenbr g).
Definition shb : Z := b' - b.
Definition sha : Z := if isome (vlbltab g) then 0 else shb.
Definition N (k : Z) : list (Z * Z) := nbr g (b + k).

Lemma offs_n : offs N n = m.
Proof.
  rewrite (gv_edgenbr g V), (gv_nnd g V). unfold offs, N. transitivity (zsum (0 + b) (n + b) (fun v => vend g v - vert g v)); [|f_equal; lia].
  rewrite <- zsum_shift. apply zsum_ext. intros i Hi. rewrite zlen_nbr; [do 2 f_equal; lia|].
  assert (Hv : isvert g (b + i)) by (split; [lia | rewrite (gv_nnd g V); lia]). pose proof (gv_range g V _ Hv). lia.
Qed.
Lemma cat_len : zlen (cat N n) = m.
Proof. rewrite zlen_cat by apply (gv_size g V). apply offs_n. Qed.
Lemma cat_vert j : 0 <= j < m -> isvert g (fst (at_ 0 (cat N n) j)).
Proof.
  intros Hj. assert (I : In (at_ 0 (cat N n) j) (cat N n)) by (apply at_In; rewrite cat_len; lia).
  destruct (at_ 0 (cat N n) j) as (w & l). unfold cat in I. apply in_flat_map in I as (k & Hk & I). apply In_zseq in Hk. 
  assert (Hv : isvert g (b + k)) by (split; [lia | rewrite (gv_nnd g V); lia]). now destruct (nbr_of_valid g _ w l V Hv I).
Qed.

Definition hve : bool := isome (velotab g) && negb nv && negb (n =? 0).
Definition hel : bool := isome (edlotab g) && negb ne && negb (m =? 0).
Definition hvl : bool := isome (vlbltab g) && negb (n =? 0).

Definition stf (rest : stream) (k dm lm : Z) : ldst :=
  mkld (10 :: lines (vtext g) (b + k) (vertnnd g) ++ rest) (map (fun i => b' + offs N i) (zseq 0 k))
    (if hve then Some (map (velo g) (zseq b k)) else None) (if hvl then Some (map (ext g) (zseq b k)) else None)
    (b' + offs N k) (map (fun x => ext g (fst x) + sha) (cat N k)) (if hel then Some (map snd (cat N k)) else None)
    (if hve then zsum b (b + k) (velo g) else n) (if hel then lsum snd (cat N k) else m) dm lm.

Definition dmok (k dm : Z) : Prop := 0 <= dm <= degrmax g /\ forall i, 0 <= i < k -> zlen (N i) <= dm.
Definition lmok (k lm : Z) : Prop := b' + n - 1 <= lm < Z.max imax (b' + n) /\ (hvl = true -> forall i, 0 <= i < k -> ext g (b + i) <= lm).

Lemma loadLoop_spec rest :
  exists dm lm, for_ b' (b' + n) (fun _ => loadVert imax n m (m + b') sha (isome (velotab g)) (isome (edlotab g))) (stf rest 0 0 (b' + n - 1)) = Ok (stf rest n dm lm) /\ dmok n dm /\ lmok n lm.
Proof.
  pose proof (gv_size g V) as Hn. pose proof (gv_nnd g V) as Hnnd.
  match goal with |- exists dm lm, ?r = _ /\ _ => destruct (wp_ok_inv r (fun s => exists dm lm, s = stf rest n dm lm /\ dmok n dm /\ lmok n lm)) as (x & -> & dm & lm & -> & H1 & H2) end.
  2:{ exists dm, lm. auto. }
  apply wp_for with (I := fun k s => exists dm lm, s = stf rest (k - b') dm lm /\ dmok (k - b') dm /\ lmok (k - b') lm).
  - lia.
  - exists 0, (b' + n - 1). rewrite Z.sub_diag. split; [reflexivity|]. split; split; intros; try lia. pose proof (gv_degr0 g V); lia.
  - intros v s Hv (dm & lm & -> & (D1 & D2) & (M1 & M2)). set (k := v - b') in *. assert (Hk : 0 <= k < n) by lia.
    assert (Hv' : isvert g (b + k)) by (split; lia).
    pose proof (offs_mono N 0 k ltac:(lia)) as O1. rewrite offs_0 in O1. pose proof (offs_mono N (k + 1) n ltac:(lia)) as O2. rewrite offs_S, offs_n in O2 by lia. change (N k) with (nbr g (b + k)) in O2.
    assert (Hn0 : (n =? 0) = false) by lia.
    assert (Hd : zlen (nbr g (b + k)) <= degrmax g).
    { pose proof (gv_range g V _ Hv'). rewrite zlen_nbr by lia. apply (gv_degr g V); auto. }
    erewrite (loadVert_spec imax g V HM LBL FIT sha (b + k) _ (lines (vtext g) (b + k + 1) (vertnnd g) ++ rest)).
    + cbn [wp stf ls lvt lve lvl lenum let_ lel lvsum lesum ldmax llmax].
      exists (Z.max dm (zlen (nbr g (b + k)))), (if hvl then Z.max lm (ext g (b + k)) else lm).
      assert (Zs : forall c, zseq c (k + 1) = zseq c k ++ [c + k]) by (intros; apply zseq_snoc; lia).
      split; [|split; [split|split]].
      * unfold stf. replace (v + 1 - b') with (k + 1) by lia. rewrite !Zs, !map_app. cbn [map]. rewrite cat_S by lia. rewrite !map_app, lsum_app. replace (b + (k + 1)) with (b + k + 1) by lia. rewrite zsum_snoc by lia. rewrite offs_S by lia. rewrite Z.add_assoc.
        unfold N at 3 6 8 10. destruct hve, hvl, hel; reflexivity.
      * lia.
      * intros i Hi. replace (v + 1 - b') with (k + 1) in Hi by lia. destruct (Z.eq_dec i k) as [->|]; [unfold N; lia|]. specialize (D2 i ltac:(lia)). lia.
      * pose proof (ext_range imax g HM LBL FIT _ Hv'). unfold hvl. destruct (isome (vlbltab g) && negb (n =? 0)) eqn:Eh; [|lia].
        pose proof LBL as LBL'. unfold labels_ok in LBL'. unfold ext. destruct (vlbltab g) as [t|]; [|discriminate]. destruct (LBL' t eq_refl) as (_ & H3 & _). specialize (H3 _ Hv'). lia.
      * intros Eh. rewrite Eh. intros i Hi. replace (v + 1 - b') with (k + 1) in Hi by lia. destruct (Z.eq_dec i k) as [->|]; [lia|]. specialize (M2 Eh i ltac:(lia)). lia.
    + exact Hv'.
    + cbn [stf ls]. f_equal. rewrite lines_cons by lia. now rewrite app_assoc.
    + cbn [stf lvl]. unfold hvl. rewrite Hn0. now destruct (isome (vlbltab g)).
    + intros E. cbn [stf lve]. unfold hve. now rewrite E.
    + intros E. cbn [stf lel]. unfold hel. now rewrite E.
    + intros x. cbn [stf lvl]. destruct hvl; [|discriminate]. intros [= <-]. rewrite zlen_map, zlen_zseq; lia.
    + intros x. cbn [stf lve]. destruct hve; [|discriminate]. intros [= <-]. rewrite zlen_map, zlen_zseq; lia.
    + cbn [stf lvt]. rewrite zlen_map, zlen_zseq; lia.
    + cbn [stf let_]. rewrite zlen_map, zlen_cat; lia.
    + intros x. cbn [stf lel]. destruct hel; [|discriminate]. intros [= <-]. rewrite zlen_map, zlen_cat; lia.
    + cbn [stf lenum]. lia.
  - intros s (dm & lm & -> & H1 & H2). replace (b' + n - b') with n in * by lia. eauto.
Qed.

Lemma load2_spec t vt lm : vlbltab g = Some t -> 0 < n -> 0 <= b' -> b' + n <= imax -> lmok n lm ->
  (forall i, 0 <= i <= n -> at_ b' vt (b' + i) = b' + offs N i) -> zlen vt = n + 1 ->
  graphLoad2 imax b' (b' + n) vt (map (fun x => ext g (fst x) + sha) (cat N n)) lm (map (ext g) (zseq b n)) =
  Ok (map (fun x => fst x + shb) (cat N n)).
Proof.
  intros Et Hn Hb Hmx (M1 & M2) Hvt Lvt. pose proof (gv_nnd g V) as Hnnd.
  assert (Ehv : hvl = true) by (unfold hvl; rewrite Et; cbn [isome]; lia). specialize (M2 Ehv).
  assert (Hsha : sha = 0) by (unfold sha; now rewrite Et). rewrite Hsha.
  destruct (LBL t Et) as (L1 & L2 & L3).
  assert (Ex : forall w, ext g w = at_ b t w) by (intros; unfold ext; now rewrite Et).
  assert (EL : forall w, isvert g w -> 0 <= ext g w <= lm).
  { intros w Hw. rewrite Ex. specialize (L2 w Hw). destruct Hw. specialize (M2 (w - b) ltac:(lia)). rewrite Ex in M2. replace (b + (w - b)) with w in M2 by lia. lia. }
  unfold graphLoad2. rewrite ckint_ok by lia. cbn [bind]. replace (lm + 1 <? 0) with false by lia.
  match goal with |- bind ?r _ = _ => destruct (wp_ok_inv r (fun x => zlen x = lm + 1 /\ forall i, 0 <= i < n -> at_ 0 x (ext g (b + i)) = b' + i)) as (indx & -> & Hlen & Hix) end.
  { apply wp_for with (I := fun v x => zlen x = lm + 1 /\ (forall i, 0 <= i < v - b' -> at_ 0 x (ext g (b + i)) = b' + i) /\
       (forall y, 0 <= y <= lm -> (forall i, 0 <= i < v - b' -> ext g (b + i) <> y) -> at_ 0 x y = -1)).
    - lia.
    - split; [rewrite zlen_repeat; lia|]. split; [lia|]. intros y Hy _. apply at_repeat. lia.
    - intros v x Hv (X1 & X2 & X3). assert (Hv' : isvert g (b + (v - b'))) by (split; lia). pose proof (EL _ Hv') as He.
      rewrite rd_ok by (rewrite zlen_map, zlen_zseq; lia). rewrite at_map by (rewrite zlen_zseq; lia). rewrite at_zseq by lia. cbn [bind].
      rewrite rd_ok by lia. cbn [bind]. rewrite X3.
      2: lia.
      2:{ intros i Hi. rewrite !Ex. intros Eq. apply L3 in Eq; [lia | split; lia | auto]. }
      cbn [negb Z.eqb]. rewrite wr_ok by lia. cbn [wp Pos.eqb]. split; [now rewrite zlen_upd|]. split.
      + intros i Hi. assert (Hi' : isvert g (b + i)) by (split; lia). pose proof (EL _ Hi') as Hei. rewrite at_upd by lia. destruct (Z.eqb_spec (ext g (b + (v - b'))) (ext g (b + i))) as [Eq|Ne].
        * rewrite !Ex in Eq. apply L3 in Eq; auto. lia.
        * apply X2. assert (i <> v - b') by congruence. lia.
      + intros y Hy Hnot. rewrite at_upd by lia. destruct (Z.eqb_spec (ext g (b + (v - b'))) y) as [Eq|Ne].
        * exfalso. apply (Hnot (v - b')); [lia|exact Eq].
        * apply X3; auto. intros i Hi. apply Hnot. lia.
    - intros x (X1 & X2 & _). split; auto. intros i Hi. apply X2. lia. }
  cbn [bind]. set (C := cat N n). pose proof cat_len as HC. fold C in HC.
  set (P := fun e (et : list Z) => zlen et = m /\ forall j, 0 <= j < m -> at_ 0 et j = if j <? e then fst (at_ 0 C j) + shb else ext g (fst (at_ 0 C j))).
  match goal with |- ?r = Ok ?v => destruct (wp_ok_inv r (P m)) as (x & -> & P1 & P2) end.
  2:{ f_equal. apply (at_ext 0); [rewrite zlen_map; lia|]. intros j Hj. rewrite at_map by lia. rewrite P2 by lia. now replace (j <? m) with true by lia. }
  apply wp_for with (I := fun v => P (offs N (v - b'))).
  - lia.
  - rewrite Z.sub_diag, offs_0. split; [rewrite zlen_map; lia|]. intros j Hj. rewrite at_map by lia. replace (j <? 0) with false by lia. lia.
  - intros v et Hv HP. rewrite !rd_ok by lia. cbn [bind]. set (k := v - b') in *. replace v with (b' + k) by lia. replace (b' + k + 1) with (b' + (k + 1)) by lia. rewrite !Hvt by lia.
    replace (b' + (k + 1) - b') with (k + 1) by lia.
    pose proof (offs_mono N 0 k ltac:(lia)) as O1. rewrite offs_0 in O1. pose proof (offs_mono N (k + 1) n ltac:(lia)) as O2. rewrite offs_n in O2. pose proof (offs_mono N k (k + 1) ltac:(lia)) as O3.
    apply wp_for with (I := fun e => P (e - b')).
    + lia.
    + now replace (b' + offs N k - b') with (offs N k) by lia.
    + intros e et1 He (Q1 & Q2). set (j := e - b') in *. assert (Hj : 0 <= j < m) by lia.
      pose proof (cat_vert j Hj) as HF. fold C in HF. destruct (EL _ HF) as (E1 & E2).
      rewrite rd_ok by lia. cbn [bind]. assert (Ae : at_ b' et1 e = ext g (fst (at_ 0 C j))).
      { rewrite (at_rebase 0 b'). rewrite Z.add_0_r. fold j. rewrite Q2 by lia. now rewrite Z.ltb_irrefl. }
      rewrite Ae. replace (lm <? ext g (fst (at_ 0 C j))) with false by lia. rewrite rd_ok by lia. cbn [bind].
      destruct HF as (F1 & F2). set (F := fst (at_ 0 C j)) in *. pose proof (Hix (F - b) ltac:(lia)) as Hx. replace (b + (F - b)) with F in Hx by lia. rewrite Hx.
      replace (b' + (F - b) =? -1) with false by lia.
      rewrite wr_ok by lia. cbn [wp]. split; [now rewrite zlen_upd|]. intros i Hi.
      rewrite (at_rebase b' 0). rewrite at_upd by lia. destruct (Z.eqb_spec e (i - 0 + b')) as [Eq|Ne].
      * replace i with j by lia. fold F. replace (j <? e + 1 - b') with true by lia. unfold shb. lia.
      * rewrite (at_rebase 0 b'). replace (i - 0 + b' - b' + 0) with i by lia. rewrite Q2 by lia.
        destruct (Z.ltb_spec i j), (Z.ltb_spec i (e + 1 - b')); try reflexivity; lia.
    + intros et1 HP1. replace (b' + offs N (k + 1) - b') with (offs N (k + 1)) in HP1 by lia. replace (v + 1 - b') with (k + 1) by lia. exact HP1.
  - intros et HP. replace (b' + n - b') with n in HP by lia. now rewrite offs_n in HP.
Qed.

(** the graph read *)
Definition rgraph (dm : Z) : graph :=
  mkgraph b' n (n + b') (map (fun i => b' + offs N i) (zseq 0 (n + 1))) None
    (if hve then Some (map (velo g) (zseq b n)) else None) (if hve then zsum b (b + n) (velo g) else n) None
    (if hvl then Some (map (ext g) (zseq b n)) else None) m (map (fun x => fst x + shb) (cat N n))
    (if hel then Some (map snd (cat N n)) else None) (if hel then lsum snd (cat N n) else m) dm.

Theorem graphLoad_spec bv rest : (bv = -1 /\ b' = b \/ 0 <= bv /\ b' = bv) -> b' + n <= imax ->
  exists dm, dmok n dm /\
    graphLoad imax (htext g ++ lines (vtext g) b (vertnnd g) ++ rest) bv nv ne = Ok (rgraph dm, 10 :: rest).
Proof.
  intros Hbv Hmx. pose proof (gv_size g V) as Hn. pose proof (gv_nnd g V) as Hnnd. destruct FIT as (F1 & F2 & F3 & _).
  pose proof offs_n as Ho. pose proof (offs_mono N 0 n ltac:(lia)) as Hm. rewrite offs_0, Ho in Hm.
  pose proof (edgenbr_even g V) as Hev.
  assert (Hb' : 0 <= b') by lia.
  destruct (loadLoop_spec rest) as (dm & lm & EL & HD & HLm). exists dm. split; auto.
  unfold graphLoad, htext. set (tl := lines (vtext g) b (vertnnd g) ++ rest).
  set (pt := [48 + b2z (isome (vlbltab g)); 48 + b2z (isome (edlotab g)); 48 + b2z (isome (velotab g)); 10]).
  replace (([48; 10] ++ intSave n ++ [9] ++ intSave m ++ [10] ++ intSave b ++ [9] ++ pt) ++ tl)
    with (intSave 0 ++ 10 :: intSave n ++ 9 :: intSave m ++ 10 :: intSave b ++ 9 :: pt ++ tl).
  2:{ change (intSave 0) with [48]. rewrite <- !app_assoc. reflexivity. }
  rewrite ild_first by (try lia; apply nodigit_10). cbn [bind]. replace (negb (0 =? 0)) with false by reflexivity.
  rewrite ild_tok by (auto; try lia; apply nodigit_9). cbn [bind]. rewrite ild_tok by (auto; try lia; apply nodigit_10). cbn [bind].
  rewrite ild_tok by (auto; try lia; apply nodigit_9). cbn [bind]. unfold pt. cbn [app]. rewrite ild_prop by lia. cbn [bind].
  set (pr := 100 * b2z (isome (vlbltab g)) + 10 * b2z (isome (edlotab g)) + b2z (isome (velotab g))).
  assert (Hpr : ((pr <? 0) || (111 <? pr)) = false /\ negb (pr / 100 =? 0) = isome (vlbltab g) /\ negb (pr / 10 mod 10 =? 0) = isome (edlotab g) /\ negb (pr mod 10 =? 0) = isome (velotab g)).
  { unfold pr. destruct (isome (vlbltab g)), (isome (edlotab g)), (isome (velotab g)); repeat split; reflexivity. }
  destruct Hpr as (-> & -> & -> & ->). replace (n <? 0) with false by lia.
  replace ((m <? 0) || negb (Z.land m 1 =? 0)) with false.
  2:{ replace (m <? 0) with false by lia. cbn [orb]. change 1 with (Z.ones 1). rewrite Z.land_ones by lia. change (2 ^ 1) with 2. rewrite Zmod_even, Hev. reflexivity. }
  replace (if bv =? -1 then b else bv) with b' by (destruct (Z.eqb_spec bv (-1)); lia).
  replace (if bv =? -1 then 0 else bv - b) with shb by (unfold shb; destruct (Z.eqb_spec bv (-1)); lia). fold sha.
  match goal with |- bind (for_ _ _ _ ?st) _ = _ => replace st with (stf rest 0 0 (b' + n - 1)) end.
  2:{ unfold stf. rewrite cat_0, offs_0, !zseq_0 by lia. cbn [map]. rewrite Z.add_0_r, zsum_nil by lia. fold tl.
      unfold hve, hvl, hel. destruct (isome (velotab g)), (isome (vlbltab g)), (isome (edlotab g)), nv, ne; cbn [andb negb]; rewrite ?Z.eqb_refl;
      destruct (Z.eqb_spec n 0) as [E0|N0], (Z.eqb_spec m 0) as [E1|N1]; cbn [negb]; f_equal; rewrite ?E0, ?E1; try reflexivity; lia. }
  replace (n + b') with (b' + n) by lia. rewrite EL. cbn [bind].
  cbn [stf lvt lenum let_ llmax lvl lve lel ls lvsum lesum ldmax]. rewrite push_ok by (rewrite zlen_map, zlen_zseq; lia). cbn [bind]. rewrite Ho.
  replace (b' + m =? m + b') with true by lia. cbn [negb].
  assert (EV : map (fun i => b' + offs N i) (zseq 0 n) ++ [b' + m] = map (fun i => b' + offs N i) (zseq 0 (n + 1))).
  { rewrite zseq_snoc by lia. rewrite map_app. cbn [map]. rewrite Z.add_0_l, Ho. reflexivity. }
  rewrite EV.
  match goal with |- bind ?r _ = _ => replace r with (Ok (map (fun x => fst x + shb) (cat N n))) end.
  2:{ destruct hvl eqn:Eh.
      - unfold hvl in Eh. destruct (vlbltab g) as [t|] eqn:Et; [|discriminate]. symmetry. apply load2_spec with (t := t); auto; try lia.
        + intros i Hi. rewrite at_map by (rewrite zlen_zseq; lia). rewrite at_zseq by lia. do 2 f_equal. lia.
        + rewrite zlen_map, zlen_zseq; lia.
      - f_equal. unfold hvl in Eh. unfold sha, ext. destruct (vlbltab g) as [t|]; cbn [isome andb] in *; [|reflexivity].
        assert (n = 0) as -> by lia. now rewrite cat_0. }
  cbn [bind]. unfold rgraph. do 2 f_equal; [f_equal; lia|]. now rewrite lines_nil by lia.
Qed.

Definition L' (k : Z) : list (Z * Z) := map (fun '(w, l) => (w + shb, if ne then 1 else l)) (N k).
Lemma L'_offs k : offs L' k = offs N k.
Proof. unfold offs. apply zsum_ext. intros i Hi. unfold L'. now rewrite zlen_map. Qed.
Lemma ones i x : (ne = true \/ edlotab g = None) -> 0 <= i < n -> In x (N i) -> (if ne then 1 else snd x) = 1.
Proof.
  intros H Hi I. destruct ne; [reflexivity|]. destruct H as [H|H]; [discriminate|]. destruct x as (w & l). unfold N in I. apply In_nbr in I as (e & He & _ & <-). cbn [snd]. unfold edlo. now rewrite H.
Qed.

Lemma rgraph_laid dm : laid_out (rgraph dm) L'.
Proof.
  pose proof (gv_size g V) as Hn. pose proof cat_len as HC. pose proof offs_n as Ho.
  assert (Hj : forall i k, 0 <= i < n -> 0 <= k < zlen (N i) -> 0 <= offs N i + k < m).
  { intros i k Hi Hk. pose proof (offs_mono N 0 i ltac:(lia)) as O1. rewrite offs_0 in O1. pose proof (offs_mono N (i + 1) n ltac:(lia)) as O2. rewrite offs_S, Ho in O2 by lia. lia. }
  constructor; cbn [rgraph baseval vertnbr vertnnd vendtab verttab edgetab edlotab].
  - auto.
  - lia.
  - auto.
  - rewrite zlen_map, zlen_zseq; lia.
  - intros i Hi. rewrite at_map by (rewrite zlen_zseq; lia). rewrite at_zseq by lia. rewrite L'_offs. do 2 f_equal. lia.
  - rewrite L'_offs, Ho, zlen_map. lia.
  - intros i k Hi Hk. unfold L' in *. rewrite zlen_map in Hk. specialize (Hj i k Hi Hk). unfold edge. cbn [rgraph baseval edgetab]. fold (L'). rewrite L'_offs.
    rewrite (at_rebase 0 b'). replace (b' + offs N i + k - b' + 0) with (offs N i + k) by lia. rewrite at_map by lia. rewrite at_cat by lia. rewrite at_map by lia. now destruct (at_ 0 (N i) k).
  - intros i k Hi Hk. unfold L' in *. rewrite zlen_map in Hk. specialize (Hj i k Hi Hk). unfold edlo. cbn [rgraph baseval edlotab]. fold (L'). rewrite L'_offs.
    rewrite at_map by lia. assert (I : In (at_ 0 (N i) k) (N i)) by (apply at_In; lia). pose proof (ones i (at_ 0 (N i) k)) as HO. destruct hel eqn:Eh.
    + rewrite (at_rebase 0 b'). replace (b' + offs N i + k - b' + 0) with (offs N i + k) by lia. rewrite at_map by lia. rewrite at_cat by lia.
      unfold hel in Eh. destruct ne; [destruct (isome (edlotab g)); discriminate|]. now destruct (at_ 0 (N i) k).
    + replace (snd (let '(w, l) := at_ 0 (N i) k in (w + shb, if ne then 1 else l))) with (if ne then 1 else snd (at_ 0 (N i) k)) by (now destruct (at_ 0 (N i) k)).
      rewrite HO; auto. unfold hel in Eh. destruct (edlotab g); [|auto]. destruct ne; [auto|]. exfalso. cbn [isome andb negb] in Eh. lia.
  - intros t. destruct hel; [|discriminate]. intros [= <-]. rewrite zlen_map, L'_offs. lia.
Qed.

Lemma rgraph_velo dm v : isvert g v -> velo (rgraph dm) (v + shb) = if nv then 1 else velo g v.
Proof.
  intros Hv. pose proof (gv_nnd g V). destruct Hv as (H1 & H2). unfold velo at 1. cbn [rgraph velotab baseval]. destruct hve eqn:Eh.
  - rewrite at_map by (rewrite zlen_zseq; unfold shb; lia). rewrite at_zseq by (unfold shb; lia). unfold hve in Eh. destruct nv; [destruct (isome (velotab g)); discriminate|]. f_equal. unfold shb; lia.
  - unfold hve in Eh. destruct nv; [reflexivity|]. unfold velo. destruct (velotab g); [|reflexivity]. exfalso. cbn [isome andb negb] in Eh. lia.
Qed.

Lemma zsum_velo dm : zsum b' (b' + n) (velo (rgraph dm)) = if hve then zsum b (b + n) (velo g) else n.
Proof.
  pose proof (gv_size g V) as Hn. pose proof (gv_nnd g V).
  replace b' with (b + shb) at 1 by (unfold shb; lia). replace (b' + n) with (b + n + shb) by (unfold shb; lia). rewrite <- zsum_shift.
  transitivity (zsum b (b + n) (fun v => if hve then velo g v else 1)).
  - apply zsum_ext. intros v Hv. rewrite rgraph_velo by (split; lia). unfold hve. destruct nv.
    + now replace (isome (velotab g) && negb true) with false by now destruct (isome (velotab g)).
    + unfold velo. destruct (velotab g); cbn [isome andb negb]; [|reflexivity]. destruct (Z.eqb_spec n 0); [lia|reflexivity].
  - destruct hve; [reflexivity|]. rewrite zsum_const by lia. lia.
Qed.

Lemma lsum_cat k : 0 <= k -> lsum snd (cat N k) = zsum 0 k (fun i => lsum snd (N i)).
Proof. revert k. apply zrange_ind; [reflexivity|]. intros k Hk IH. rewrite cat_S, lsum_app, zsum_snoc by lia. now rewrite IH. Qed.

Lemma lsum_L' i : 0 <= i < n -> lsum snd (L' i) = if hel then lsum snd (N i) else zlen (N i).
Proof.
  intros Hi. pose proof offs_n as Ho. destruct hel eqn:Eh.
  - unfold hel in Eh. unfold L'. destruct ne; [destruct (isome (edlotab g)); discriminate|]. induction (N i) as [|(w & l) r IH]; [reflexivity|]. cbn [map]. rewrite !lsum_cons. cbn [snd]. now rewrite IH.
  - assert (HH : ne = true \/ edlotab g = None \/ zlen (N i) = 0).
    { unfold hel in Eh. destruct ne; [auto|]. destruct (edlotab g); [|auto]. cbn [isome andb negb] in Eh. right; right. assert (m = 0) by lia.
      pose proof (offs_mono N 0 i ltac:(lia)) as O1. rewrite offs_0 in O1. pose proof (offs_mono N (i + 1) n ltac:(lia)) as O2. rewrite offs_S, Ho in O2 by lia. pose proof (zlen_nonneg (N i)). lia. }
    assert (HA : forall x, In x (N i) -> (if ne then 1 else snd x) = 1).
    { intros x I. destruct HH as [?|[?|H0]]; [apply ones with (i := i); auto | apply ones with (i := i); auto |]. destruct (N i); [destruct I|]. rewrite zlen_cons in H0. pose proof (zlen_nonneg l). lia. }
    unfold L'. clear HH. induction (N i) as [|(w & l) r IH]; [reflexivity|]. cbn [map]. rewrite lsum_cons, zlen_cons. rewrite IH by (intros; apply HA; now right). cbn [snd]. specialize (HA (w, l) (or_introl eq_refl)). cbn [snd] in HA. lia.
Qed.

Theorem rgraph_loaded dm : dmok n dm -> loaded nv ne shb g (rgraph dm).
Proof.
  intros (D1 & D2). pose proof (gv_size g V) as Hn. pose proof (gv_nnd g V) as Hnnd. pose proof (rgraph_laid dm) as LO. pose proof offs_n as Ho.
  assert (Hvg : forall i, 0 <= i < n -> isvert g (b + i)) by (intros; split; lia).
  assert (Hmap : forall i w l, In (w, l) (L' i) -> exists l0, In (w - shb, l0) (N i) /\ l = if ne then 1 else l0).
  { intros i w l I. unfold L' in I. apply in_map_iff in I as ((w0 & l0) & [= <- <-] & I). exists l0. replace (w0 + shb - shb) with w0 by lia. auto. }
  constructor; cbn [rgraph baseval vertnbr edgenbr vendtab vlbltab].
  - unfold shb; lia.
  - auto.
  - auto.
  - auto.
  - intros v (H1 & H2). replace (v + shb) with (baseval (rgraph dm) + (v - b)) by (cbn [rgraph baseval]; unfold shb; lia). rewrite (laid_nbr _ _ LO) by (cbn [rgraph vertnbr]; lia).
    unfold L', N. do 2 f_equal. lia.
  - intros v Hv. apply rgraph_velo; auto.
  - destruct (Z.eqb_spec n 0) as [?|Hn0]; [auto|]. right. unfold hvl, ext. destruct (vlbltab g) as [t|]; cbn [isome andb]; [|reflexivity]. replace (n =? 0) with false by lia. cbn [negb].
    eexists. split; [reflexivity|]. split; [rewrite zlen_map, zlen_zseq; lia|]. intros v (H1 & H2). rewrite at_map by (rewrite zlen_zseq; unfold shb; lia). rewrite at_zseq by (unfold shb; lia). f_equal. unfold shb; lia.
  - apply (laid_readable _ _ LO). intros t. cbn [rgraph velotab vertnbr]. destruct hve; [|discriminate]. intros [= <-]. rewrite zlen_map, zlen_zseq; lia.
  - apply (laid_valid _ _ LO); cbn [rgraph baseval vertnbr edgenbr vertnnd velosum edlosum degrmax].
    + intros i w l Hi I. apply Hmap in I as (l0 & I & ->). unfold N in I. destruct (nbr_of_valid g _ _ _ V (Hvg i Hi) I) as ((W1 & W2) & Wd & Wl & WI). split; [unfold shb in *; lia|]. split; [unfold shb in *; lia|]. split; [destruct ne; lia|].
      unfold L'. apply in_map_iff. exists (b + i, l0). split; [f_equal; unfold shb; lia|]. unfold N. now replace (b + (w - b')) with (w - shb) by (unfold shb; lia).
    + intros i Hi. unfold L'. rewrite map_map. pose proof (nbr_NoDup g (b + i) V (Hvg i Hi)) as ND. fold (N i) in ND.
      replace (map (fun x => fst (let '(w, l) := x in (w + shb, if ne then 1 else l))) (N i)) with (map (fun x => x + shb) (map fst (N i))).
      2:{ rewrite map_map. apply map_ext. now intros (w & l). }
      apply FinFun.Injective_map_NoDup; [|auto]. intros x y. lia.
    + intros v (H1 & H2). cbn [rgraph baseval vertnnd] in H1, H2. replace v with (v - shb + shb) by lia. assert (Hv : isvert g (v - shb)) by (split; unfold shb; lia). rewrite rgraph_velo by auto. destruct nv; [lia|]. apply (gv_velo g V); auto.
    + rewrite L'_offs. auto.
    + rewrite <- (zsum_velo dm). f_equal. lia.
    + transitivity (zsum 0 n (fun i => if hel then lsum snd (N i) else zlen (N i))).
      * destruct hel; [apply lsum_cat; lia|]. symmetry. exact Ho.
      * apply zsum_ext. intros i Hi. symmetry. apply lsum_L'. lia.
    + lia.
    + intros i Hi. unfold L'. rewrite zlen_map. auto.
Qed.
End Load2.

(** A written graph reads back, renumbered to the wanted base *)
Theorem save_load imax g bv nv ne rest : 111 <= imax -> graph_valid g -> graph_readable g -> labels_ok imax g -> fits imax g ->
  bv = -1 \/ 0 <= bv -> (if bv =? -1 then baseval g else bv) + vertnbr g <= imax ->
  exists out h, graphSave g = Ok out /\ graphLoad imax (out ++ rest) bv nv ne = Ok (h, 10 :: rest) /\
    loaded nv ne ((if bv =? -1 then baseval g else bv) - baseval g) g h /\ degrmax h <= degrmax g.
Proof.
  intros HM V R LBL FIT Hbv Hmx.
  assert (LB : forall t, vlbltab g = Some t -> vertnbr g <= zlen t) by (intros t Et; now destruct (LBL t Et)).
  set (b' := if bv =? -1 then baseval g else bv) in *.
  destruct (graphLoad_spec imax g V HM LBL FIT b' nv ne bv rest) as (dm & HD & E).
  { unfold b'. destruct (Z.eqb_spec bv (-1)); lia. } { exact Hmx. }
  exists (htext g ++ lines (vtext g) (baseval g) (vertnnd g)), (rgraph g b' nv ne dm).
  split; [apply graphSave_spec; auto|]. split; [now rewrite <- app_assoc|]. split; [|cbn [rgraph degrmax]; destruct HD; lia].
  apply (rgraph_loaded g V b' nv ne dm HD).
Qed.
