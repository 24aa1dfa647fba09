(** Proofs about graph files. *)
From Verif Require Import Base M_Int M_Graph M_GraphIo S_Int S_Graph S_GraphIo S_Order P_Int P_Graph P_GraphList P_Induce P_Order2.

Lemma ild_tok imax c v rest : 9 <= imax -> isspace c = true -> - imax <= v <= imax -> nodigit_head rest -> ild imax (c :: intSave v ++ rest) = Ok (v, rest).
Proof. intros H1 H2 H3 H4. unfold ild. change (c :: intSave v ++ rest) with ([c] ++ intSave v ++ rest). now rewrite (intLoad_intSave imax [c] v rest H1 H3 (blank1 c H2) H4). Qed.
Lemma isspace9 : isspace 9 = true. Proof. reflexivity. Qed.
Lemma isspace10 : isspace 10 = true. Proof. reflexivity. Qed.
Lemma push_ok {A} n (l : list A) x : zlen l < n -> push n l x = Ok (l ++ [x]).
Proof. intros H. unfold push. now replace (zlen l <? n) with true by lia. Qed.

(** ** Text of a graph *)
Definition ext (g : graph) (w : Z) : Z := match vlbltab g with Some t => at_ (baseval g) t w | None => w end.
Definition atext (g : graph) (wl : Z * Z) : list Z :=
  let '(w, l) := wl in [9] ++ (match edlotab g with Some _ => intSave l ++ [9] | None => [] end) ++ intSave (ext g w).
Definition vtext (g : graph) (v : Z) : list Z :=
  (match vlbltab g with Some _ => intSave (ext g v) ++ [9] | None => [] end) ++
  (match velotab g with Some _ => intSave (velo g v) ++ [9] | None => [] end) ++
  intSave (zlen (nbr g v)) ++ flat_map (atext g) (nbr g v) ++ [10].
Definition htext (g : graph) : list Z :=
  [48; 10] ++ intSave (vertnbr g) ++ [9] ++ intSave (edgenbr g) ++ [10] ++ intSave (baseval g) ++ [9] ++
  [48 + b2z (isome (vlbltab g)); 48 + b2z (isome (edlotab g)); 48 + b2z (isome (velotab g)); 10].

Section Save.
Context (g : graph) (V : graph_valid g) (R : graph_readable g) (LB : forall t, vlbltab g = Some t -> vertnbr g <= zlen t).

Lemma rlbl v t : isvert g v -> vlbltab g = Some t -> rd (baseval g) t v = Ok (ext g v).
Proof. intros Hv E. unfold ext. rewrite E. apply rd_ok. destruct Hv. pose proof (gv_nnd g V). specialize (LB t E). lia. Qed.
Lemma rvelo v t : isvert g v -> velotab g = Some t -> rd (baseval g) t v = Ok (velo g v).
Proof. intros Hv E. unfold velo. rewrite E. apply rd_ok. destruct Hv. pose proof (gv_nnd g V). pose proof (gr_velo g R t E). lia. Qed.

Lemma graphSave_spec : graphSave g = Ok (htext g ++ lines (vtext g) (baseval g) (vertnnd g)).
Proof.
  unfold graphSave. match goal with |- ?r = Ok ?v => destruct (wp_ok_inv r (fun s => s = v)) as (x & -> & ->); [|reflexivity] end.
  pose proof (gv_nnd g V). pose proof (gv_size g V).
  apply wp_for with (I := fun v s => s = htext g ++ lines (vtext g) (baseval g) v); [lia | | | auto].
  - rewrite lines_nil by lia. now rewrite app_nil_r.
  - intros v s Hv ->. assert (Hv' : isvert g v) by (split; lia). set (out := htext g ++ lines (vtext g) (baseval g) v).
    set (o1 := out ++ match vlbltab g with Some _ => intSave (ext g v) ++ [9] | None => [] end).
    match goal with |- wp (bind ?r _) _ _ => replace r with (Ok o1) end.
    2:{ unfold o1. pose proof (rlbl v) as Q. destruct (vlbltab g) as [t|]; [now rewrite (Q t Hv' eq_refl)|]. now rewrite app_nil_r. }
    cbn [bind]. set (o2 := o1 ++ match velotab g with Some _ => intSave (velo g v) ++ [9] | None => [] end).
    match goal with |- wp (bind ?r _) _ _ => replace r with (Ok o2) end.
    2:{ unfold o2. pose proof (rvelo v) as Q. destruct (velotab g) as [t|]; [now rewrite (Q t Hv' eq_refl)|]. now rewrite app_nil_r. }
    cbn [bind]. rewrite rvert_ok, rvend_ok by auto. cbn [bind].
    pose proof (gv_range g V v Hv') as Hr.
    match goal with |- wp (bind ?r _) _ _ => replace r with (Ok (o2 ++ intSave (zlen (nbr g v)) ++ flat_map (atext g) (nbr g v))) end.
    2:{ symmetry. match goal with |- ?r = Ok ?v => destruct (wp_ok_inv r (fun s => s = v)) as (x & -> & ->); [|reflexivity] end.
      apply wp_for with (I := fun e s => s = o2 ++ intSave (zlen (nbr g v)) ++ flat_map (atext g) (map (fun e => (edge g e, edlo g e)) (zseq (vert g v) (e - vert g v)))).
      - lia.
      - rewrite zseq_0 by lia. cbn [map flat_map]. rewrite app_nil_r. rewrite zlen_nbr by lia. reflexivity.
      - intros e s He ->. assert (A : arc g v e) by (split; auto). pose proof (gv_end g V v e A) as Hw. rewrite redge_ok with (v := v) by auto.
        set (o3 := o2 ++ intSave (zlen (nbr g v)) ++ flat_map (atext g) (map (fun e => (edge g e, edlo g e)) (zseq (vert g v) (e - vert g v)))).
        match goal with |- wp (bind ?r _) _ _ => replace r with (Ok (o3 ++ [9] ++ match edlotab g with Some _ => intSave (edlo g e) ++ [9] | None => [] end)) end.
        2:{ unfold edlo. destruct (edlotab g) as [t|] eqn:Et; [|reflexivity]. rewrite rd_ok by (eapply (gr_edlo g R); eauto). reflexivity. }
        cbn [bind]. match goal with |- wp (bind ?r _) _ _ => replace r with (Ok (ext g (edge g e))) end.
        2:{ pose proof (rlbl (edge g e)) as Q. unfold ext in *. destruct (vlbltab g) as [t|]; [now rewrite (Q t Hw eq_refl)|]. reflexivity. }
        cbn [bind wp]. replace (e + 1 - vert g v) with (e - vert g v + 1) by lia. rewrite zseq_snoc by lia. rewrite map_app, flat_map_app. cbn [map flat_map].
        replace (vert g v + (e - vert g v)) with e by lia. rewrite app_nil_r. unfold o3. rewrite !app_assoc_reverse. do 3 f_equal.
      - intros s ->. do 2 f_equal. }
    cbn [bind wp]. rewrite lines_snoc by lia. unfold out, o2, o1, out, vtext. now rewrite !app_assoc_reverse.
Qed.
End Save.
Lemma ckint_ok imax z : 0 <= z <= imax -> ckint imax z = Ok z.
Proof. intros H. unfold ckint. replace ((- imax - 1 <=? z) && (z <=? imax)) with true by lia. reflexivity. Qed.
Lemma ild_prop imax (a b c : bool) rest : 111 <= imax ->
  ild imax (9 :: (48 + b2z a) :: (48 + b2z b) :: (48 + b2z c) :: 10 :: rest) = Ok (100 * b2z a + 10 * b2z b + b2z c, 10 :: rest).
Proof.
  intros H. destruct a, b, c; unfold b2z; lazy -[ckint]; repeat (rewrite ckint_ok by lia; lazy -[ckint]); reflexivity.
Qed.

Lemma ild_first imax v rest : 9 <= imax -> - imax <= v <= imax -> nodigit_head rest -> ild imax (intSave v ++ rest) = Ok (v, rest).
Proof. intros H1 H3 H4. unfold ild. pose proof (intLoad_intSave imax [] v rest H1 H3 ltac:(constructor) H4) as E. cbn [app] in E. now rewrite E. Qed.

Definition oapp (o : option (list Z)) (l : list Z) : option (list Z) := match o with Some x => Some (x ++ l) | None => None end.

Section Load.
Context (imax : Z) (g : graph) (V : graph_valid g) (R : graph_readable g) (HM : 111 <= imax) (LBL : labels_ok imax g) (FIT : fits imax g).
Context (adj : Z).
Notation b := (baseval g).
Notation n := (vertnbr g).
Notation m := (edgenbr g).

Lemma ext_range w : isvert g w -> - imax <= ext g w <= imax.
Proof.
  intros Hw. unfold ext. pose proof LBL as LBL'. unfold labels_ok in LBL'. destruct (vlbltab g) as [t|].
  - destruct (LBL' t eq_refl) as (_ & H & _). specialize (H w Hw). lia.
  - destruct FIT as (H1 & H2 & _). destruct Hw. lia.
Qed.

Definition okarc (x : Z * Z) : Prop := isvert g (fst x) /\ - imax <= snd x <= imax.
Lemma nbr_okarc v : isvert g v -> Forall okarc (nbr g v).
Proof.
  intros Hv. apply Forall_forall. intros (w & l) I. pose proof I as I'. apply In_nbr in I' as (e & He & E1 & E2). destruct (nbr_of_valid g v w l V Hv I) as (Hw & _ & Hl & _).
  split; [exact Hw|]. cbn [snd]. destruct FIT as (_ & _ & _ & _ & F). assert (A : arc g v e) by (split; auto). specialize (F v e A). lia.
Qed.

Lemma nodigit_atexts l s : nodigit_head s -> nodigit_head (flat_map (atext g) l ++ s).
Proof. intros H. destruct l as [|(w & x) l]; cbn [flat_map app]; [exact H|]. unfold atext. cbn [app]. apply nodigit_9. Qed.

Lemma loadArcs_spec l : forall e0 s et el esum, Forall okarc l -> zlen et + zlen l <= m -> (forall x, el = Some x -> zlen x + zlen l <= m) -> (edlotab g = None -> el = None) -> nodigit_head s ->
  for_ e0 (e0 + zlen l) (fun _ => loadArc imax m adj (isome (edlotab g))) (flat_map (atext g) l ++ s, et, el, esum) =
  Ok (s, et ++ map (fun x => ext g (fst x) + adj) l, oapp el (map snd l), if isome el then esum + lsum snd l else esum).
Proof.
  induction l as [|(w & x) l IH]; intros e0 s et el esum HF He Hl HN Hs.
  - rewrite for_nil by (rewrite zlen_nil; lia). cbn [flat_map app map]. rewrite app_nil_r. f_equal. f_equal; [f_equal|].
    + destruct el; cbn [oapp]; [now rewrite app_nil_r | reflexivity].
    + cbn. destruct (isome el); lia.
  - inversion HF as [|? ? Ho HF']; subst. destruct Ho as (Hw & Hx). cbn [fst snd] in *. rewrite zlen_cons in *. pose proof (zlen_nonneg l). rewrite for_cons by lia.
    cbn [flat_map]. rewrite <- app_assoc. set (tl := flat_map (atext g) l ++ s). assert (Nt : nodigit_head tl) by (apply nodigit_atexts; auto).
    pose proof (ext_range w Hw) as Hr.
    assert (E : loadArc imax m adj (isome (edlotab g)) (atext g (w, x) ++ tl, et, el, esum) = Ok (tl, et ++ [ext g w + adj], oapp el [x], if isome el then esum + x else esum)).
    { unfold loadArc, atext. destruct (edlotab g) as [t|]; cbn [isome].
      - rewrite <- !app_assoc. change ([9] ++ intSave x ++ [9] ++ intSave (ext g w) ++ tl) with (9 :: intSave x ++ (9 :: intSave (ext g w) ++ tl)). rewrite ild_tok by (auto; try lia; apply nodigit_9). cbn [bind].
        destruct el as [el|]; cbn [oapp isome].
        + specialize (Hl el eq_refl). rewrite push_ok by lia. cbn [bind]. rewrite ild_tok by (auto; lia). cbn [bind]. rewrite push_ok by lia. reflexivity.
        + cbn [bind]. rewrite ild_tok by (auto; lia). cbn [bind]. rewrite push_ok by lia. reflexivity.
      - rewrite (HN eq_refl). cbn [app bind]. rewrite ild_tok by (auto; lia). cbn [bind]. rewrite push_ok by lia. reflexivity. }
    rewrite E. cbn [bind]. replace (e0 + (1 + zlen l)) with (e0 + 1 + zlen l) by lia. unfold tl. rewrite IH.
    + cbn [map fst snd]. rewrite <- app_assoc. cbn [app]. f_equal. f_equal; [f_equal|].
      * destruct el; cbn [oapp]; [now rewrite <- app_assoc | reflexivity].
      * rewrite lsum_cons. cbn [snd]. destruct el; cbn [oapp isome]; lia.
    + auto.
    + rewrite zlen_snoc. lia.
    + intros y. destruct el as [el|]; cbn [oapp]; [|discriminate]. intros [= <-]. specialize (Hl el eq_refl). rewrite zlen_snoc. lia.
    + intros H1. rewrite (HN H1). reflexivity.
    + exact Hs.
Qed.

(** one vertex *)
Lemma loadVert_spec v st rest : isvert g v -> ls st = 10 :: vtext g v ++ rest ->
  isome (lvl st) = isome (vlbltab g) -> (velotab g = None -> lve st = None) -> (edlotab g = None -> lel st = None) ->
  (forall x, lvl st = Some x -> zlen x < n) -> (forall x, lve st = Some x -> zlen x < n) -> zlen (lvt st) < n + 1 ->
  zlen (let_ st) + zlen (nbr g v) <= m -> (forall x, lel st = Some x -> zlen x + zlen (nbr g v) <= m) -> forall edgennd, lenum st + zlen (nbr g v) <= edgennd ->
  loadVert imax n m edgennd adj (isome (velotab g)) (isome (edlotab g)) st =
  Ok (mkld (10 :: rest) (lvt st ++ [lenum st]) (oapp (lve st) [velo g v]) (oapp (lvl st) [ext g v]) (lenum st + zlen (nbr g v))
        (let_ st ++ map (fun x => ext g (fst x) + adj) (nbr g v)) (oapp (lel st) (map snd (nbr g v)))
        (if isome (lve st) then lvsum st + velo g v else lvsum st) (if isome (lel st) then lesum st + lsum snd (nbr g v) else lesum st)
        (Z.max (ldmax st) (zlen (nbr g v))) (if isome (lvl st) then Z.max (llmax st) (ext g v) else llmax st)).
Proof.
  intros Hv Es E1 E2 E3 Q1 Q2 Q3 Q4 Q5 ennd Q6. unfold loadVert. pose proof (ext_range v Hv) as Hx.
  pose proof (gv_velo g V v Hv) as Hy. pose proof FIT as (F1 & F2 & F3 & F4 & F5). specialize (F4 v Hv). pose proof (zlen_nonneg (nbr g v)) as Hz.
  assert (Hz' : zlen (nbr g v) <= imax) by (pose proof (zlen_nonneg (let_ st)); lia).
  set (t3 := flat_map (atext g) (nbr g v) ++ 10 :: rest).
  set (t2 := intSave (zlen (nbr g v)) ++ t3).
  set (t1 := match velotab g with Some _ => intSave (velo g v) ++ 9 :: t2 | None => t2 end).
  assert (Est : ls st = 10 :: match vlbltab g with Some _ => intSave (ext g v) ++ 9 :: t1 | None => t1 end).
  { rewrite Es. f_equal. unfold vtext, t1, t2, t3. destruct (vlbltab g), (velotab g); rewrite <- !app_assoc; reflexivity. }
  rewrite Est. clear Es Est.
  match goal with |- bind ?r _ = _ => assert (Ec : exists c, isspace c = true /\ r = Ok (c :: t1, oapp (lvl st) [ext g v], if isome (lvl st) then Z.max (llmax st) (ext g v) else llmax st)) end.
  { destruct (vlbltab g) as [t|]; destruct (lvl st) as [lb|]; try discriminate; cbn [isome oapp].
    - exists 9. split; [reflexivity|]. rewrite ild_tok by (auto; try lia; apply nodigit_9). cbn [bind]. rewrite push_ok by auto. cbn [bind]. do 2 f_equal. destruct (Z.ltb_spec (llmax st) (ext g v)); lia.
    - exists 10. split; [reflexivity|]. reflexivity. }
  destruct Ec as (c & Hc & ->). cbn [bind].
  match goal with |- bind ?r _ = _ => assert (Ec : exists c, isspace c = true /\ r = Ok (c :: t2, oapp (lve st) [velo g v], if isome (lve st) then lvsum st + velo g v else lvsum st)) end.
  { unfold t1. destruct (velotab g) as [t|] eqn:Ev; cbn [isome].
    - exists 9. split; [reflexivity|]. rewrite ild_tok by (auto; try lia; apply nodigit_9). cbn [bind]. destruct (lve st) as [ve|]; cbn [isome oapp]; [|reflexivity]. rewrite push_ok by auto. reflexivity.
    - exists c. split; [auto|]. rewrite (E2 eq_refl). reflexivity. }
  destruct Ec as (c' & Hc' & ->). cbn [bind]. unfold t2. rewrite ild_tok; [|lia|auto|lia|apply nodigit_atexts; apply nodigit_10]. cbn [bind].
  rewrite push_ok by auto. cbn [bind]. destruct (Z.ltb_spec ennd (zlen (nbr g v) + lenum st)); [lia|].
  replace (zlen (nbr g v) + lenum st) with (lenum st + zlen (nbr g v)) by lia. unfold t3. rewrite loadArcs_spec; auto using nbr_okarc, nodigit_10. cbn [bind]. do 2 f_equal.
  - lia.
  - destruct (Z.ltb_spec (ldmax st) (zlen (nbr g v))); lia.
Qed.
End Load.
