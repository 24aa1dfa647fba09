(** Proofs about vertex lists. *)
From Verif Require Import Base M_Int M_Sort M_Graph M_GraphIo S_Int S_Sort S_Graph S_GraphIo S_Order P_Int P_Sort2 P_GraphList P_Order2 P_GraphIo.

Definition itext (t : list Z) (k : Z) : list Z := (if k mod 8 =? 0 then 10 else 9) :: intSave (at_ 0 t k).

Lemma listSave_spec l : list_ok l -> listSave l = Ok (intSave (vl_nbr l) ++ lines (itext (items l)) 0 (vl_nbr l) ++ [10]).
Proof.
  intros H. unfold listSave. assert (Hn : 0 <= vl_nbr l) by (unfold list_ok in H; destruct (vl_tab l) as [t|]; [pose proof (zlen_nonneg t); lia | lia]).
  match goal with |- bind ?r _ = _ => destruct (wp_ok_inv r (fun x => x = intSave (vl_nbr l) ++ lines (itext (items l)) 0 (vl_nbr l))) as (x & -> & ->) end.
  2:{ cbn [bind]. now rewrite <- app_assoc. }
  apply wp_for with (I := fun k x => x = intSave (vl_nbr l) ++ lines (itext (items l)) 0 k); [lia | | | auto].
  - rewrite lines_nil by lia. now rewrite app_nil_r.
  - intros k x Hk ->. unfold tabof, list_ok, items in *. destruct (vl_tab l) as [t|]; [|lia]. cbn [bind]. rewrite rd_ok by lia. cbn [bind wp]. rewrite lines_snoc by lia. unfold itext at 2. rewrite <- app_assoc. reflexivity.
Qed.

Lemma nodigit_items t k n : nodigit_head (lines (itext t) k n ++ [10]) .
Proof.
  destruct (Z.le_gt_cases n k) as [H|H]; [rewrite lines_nil by lia; apply nodigit_10|]. rewrite lines_cons by lia. unfold itext at 1. cbn [app].
  destruct (k mod 8 =? 0); [apply nodigit_10 | apply nodigit_9].
Qed.
Lemma nodigit_app s r : s <> [] -> nodigit_head s -> nodigit_head (s ++ r).
Proof. destruct s; [congruence|auto]. Qed.

Lemma sorted_incr l : sorted_by Z.ltb l -> (forall k, 1 <= k < zlen l -> at_ 0 l k <> at_ 0 l (k - 1)) -> increasing l.
Proof.
  intros HS HD.
  assert (ST : forall k, 1 <= k < zlen l -> at_ 0 l (k - 1) < at_ 0 l k).
  { intros k Hk. specialize (HD k Hk). specialize (HS (Z.to_nat (k - 1)) (Z.to_nat k) (at_ 0 l (k - 1)) (at_ 0 l k) ltac:(lia)).
    assert (NE : forall i, 0 <= i < zlen l -> nth_error l (Z.to_nat i) = Some (at_ 0 l i)).
    { intros i Hi. unfold at_. rewrite Z.sub_0_r. apply nth_error_nth'. unfold zlen in Hi. lia. }
    specialize (HS (NE (k - 1) ltac:(lia)) (NE k ltac:(lia))). lia. }
  intros i j Hij Hj. assert (G : forall j, i + 1 <= j -> j < zlen l -> at_ 0 l i < at_ 0 l j); [|apply G; lia].
  apply (zrange_ind (fun j => j < zlen l -> at_ 0 l i < at_ 0 l j)).
  - intros. specialize (ST (i + 1) ltac:(lia)). replace (i + 1 - 1) with i in ST by lia. exact ST.
  - intros k Hk IH Hlt. specialize (IH ltac:(lia)). specialize (ST (k + 1) ltac:(lia)). replace (k + 1 - 1) with k in ST by lia. lia.
Qed.

Lemma incr_cons x l : increasing (x :: l) -> increasing l /\ Forall (fun y => x < y) l.
Proof.
  intros H. split.
  - intros i j Hi Hj. specialize (H (i + 1) (j + 1)). rewrite zlen_cons in H. rewrite !at_cons_S in H by lia. replace (i + 1 - 1) with i in H by lia. replace (j + 1 - 1) with j in H by lia. apply H; lia.
  - apply Forall_forall. intros y Hy. apply (In_at 0) in Hy as (i & Hi & <-). specialize (H 0 (i + 1)). rewrite zlen_cons, at_cons_0, at_cons_S in H by lia. replace (i + 1 - 1) with i in H by lia. apply H; lia.
Qed.
Lemma incr_unique l : forall l', increasing l -> increasing l' -> Permutation l l' -> l = l'.
Proof.
  induction l as [|x l IH]; intros l' H H' P.
  - symmetry. now apply Permutation_nil.
  - destruct l' as [|y l']; [apply Permutation_length in P; discriminate|].
    apply incr_cons in H as (H & F). apply incr_cons in H' as (H' & F').
    assert (x = y).
    { assert (I1 : In x (y :: l')) by (eapply Permutation_in; [exact P | now left]). assert (I2 : In y (x :: l)) by (eapply Permutation_in; [apply Permutation_sym; exact P | now left]).
      destruct I1 as [->|I1]; [auto|]. destruct I2 as [->|I2]; [auto|]. rewrite Forall_forall in F, F'. specialize (F _ I2). specialize (F' _ I1). lia. }
    subst y. f_equal. apply IH; auto. eapply Permutation_cons_inv; eauto.
Qed.

Lemma intLoad_le imax s v r : 9 <= imax -> intLoad imax s = Ok (v, r) -> v <= imax.
Proof.
  intros Hm E. apply (intLoad_complete imax s Hm) in E as (neg & ds & HL & -> & Hle). destruct HL as (ws & sg & _ & _ & _ & _ & Hf & _).
  assert (0 <= decval ds) by (apply (foldval_ge 0 ds); auto; lia). unfold litval. destruct neg; lia.
Qed.

Section L.
Context (imax stksiz : Z) (junk : Z -> list Z) (HJ : forall n, 0 <= n -> zlen (junk n) = n) (HM : 9 <= imax) (HS : 32 <= stksiz).

Lemma listAlloc_ok l n : list_ok l -> list_ok (listAlloc junk l n) /\ vl_nbr (listAlloc junk l n) = Z.max n 0.
Proof.
  intros H. unfold listAlloc. destruct (Z.eqb_spec n (vl_nbr l)) as [->|Hne].
  - split; [auto|]. unfold list_ok in H. destruct (vl_tab l) as [t|]; [pose proof (zlen_nonneg t)|]; lia.
  - unfold list_ok. destruct (Z.ltb_spec 0 n); cbn [vl_nbr vl_tab]; split; try lia; try (apply HJ; lia).
Qed.

(** sort and duplicate check *)
Lemma listTail l n : list_ok l -> vl_nbr l = Z.max n 0 -> zlen (items l) < 2 ^ (stksiz - 1) ->
  exists l', (do l <- (match vl_tab l with
    | Some t => do t <- intSort1asc1 stksiz t (vl_nbr l); Ok (mkvl (vl_nbr l) (Some t))
    | None => do _ <- intSort1asc1 stksiz [] (vl_nbr l); Ok l
    end); Ok l) = Ok l' /\ list_ok l' /\ vl_nbr l' = vl_nbr l /\ Permutation (items l) (items l') /\ sorted_by Z.ltb (items l').
Proof.
  intros H En HL. unfold list_ok, items in *. destruct (vl_tab l) as [t|] eqn:Et.
  - destruct (intSort_spec cmp1 stksiz t (vl_nbr l) swo_cmp1) as (t' & E & P & S); try lia; auto. unfold intSort1asc1. rewrite E. cbn [bind]. eexists. split; [reflexivity|]. cbn [vl_tab vl_nbr].
    split; [|auto]. unfold zlen in *. rewrite <- (Permutation_length P). auto.
  - rewrite H. cbn [intSort1asc1]. unfold intSort1asc1, intSort. cbn [Z.eqb bind]. exists l. rewrite Et. split; [reflexivity|]. split; [auto|]. split; [auto|]. split; [constructor|]. intros i j x y _ Hx. destruct i; discriminate.
Qed.

Lemma dup_check l n : list_ok l -> vl_nbr l = Z.max n 0 ->
  let r := for_ 1 n (fun k u => do t <- tabof l; do x <- rd 0 t k; do y <- rd 0 t (k - 1); if x =? y then Err 1 else Ok u) tt in
  (r = Ok tt /\ forall k, 1 <= k < n -> at_ 0 (items l) k <> at_ 0 (items l) (k - 1)) \/ (r = Err 1 /\ exists k, 1 <= k < n /\ at_ 0 (items l) k = at_ 0 (items l) (k - 1)).
Proof.
  intros H En. cbv zeta. destruct (Z.le_gt_cases n 1) as [Hn|Hn].
  { left. rewrite for_nil by lia. split; [auto|]. intros; lia. }
  unfold list_ok, items, tabof in *. destruct (vl_tab l) as [t|]; [|lia].
  match goal with |- (?r = _ /\ _) \/ _ => assert (W : wp r (fun _ => forall k, 1 <= k < n -> at_ 0 t k <> at_ 0 t (k - 1)) (fun e => e = 1 /\ exists k, 1 <= k < n /\ at_ 0 t k = at_ 0 t (k - 1))) end.
  - apply wp_for with (I := fun i _ => forall k, 1 <= k < i -> at_ 0 t k <> at_ 0 t (k - 1)); [lia | intros; lia | | auto].
    intros i u Hi HI. cbn [bind]. rewrite !rd_ok by lia. cbn [bind]. destruct (Z.eqb_spec (at_ 0 t i) (at_ 0 t (i - 1))) as [E|NE]; cbn [wp].
    + split; [auto|]. exists i. split; [lia|auto].
    + intros k Hk. destruct (Z.eq_dec k i) as [->|]; [auto|]. apply HI. lia.
  - match goal with |- (?r = _ /\ _) \/ _ => destruct r as [[]|e| |] eqn:Er; cbn [wp] in W; try contradiction end.
    + left. auto.
    + right. destruct W as (-> & W). auto.
Qed.

(** Any list with distinct numbers reads back, sorted *)
Theorem list_save_load l0 l rest : list_ok l0 -> list_ok l -> vl_nbr l <= imax -> (forall x, In x (items l) -> - imax <= x <= imax) -> zlen (items l) < 2 ^ (stksiz - 1) ->
  exists out, listSave l = Ok out /\
    (NoDup (items l) -> exists l', listLoad imax stksiz junk l0 (out ++ rest) = Ok (l', 10 :: rest) /\ list_ok l' /\ vl_nbr l' = vl_nbr l /\
        Permutation (items l) (items l') /\ increasing (items l')) /\
    (~ NoDup (items l) -> listLoad imax stksiz junk l0 (out ++ rest) = Err 1).
Proof.
  intros H0 H Hmx HI HL. eexists. split; [apply listSave_spec; auto|].
  set (n := vl_nbr l) in *. set (T := items l) in *.
  assert (LT : zlen T = n) by (unfold T, n, items, list_ok in *; destruct (vl_tab l); [auto|]; rewrite zlen_nil; lia).
  pose proof (zlen_nonneg T) as Hn.
  set (rr := 10 :: rest).
  assert (Hload : exists l1 l2, list_ok l1 /\ list_ok l2 /\ vl_nbr l2 = n /\ Permutation T (items l2) /\ sorted_by Z.ltb (items l2) /\
     listLoad imax stksiz junk l0 ((intSave n ++ lines (itext T) 0 n ++ [10]) ++ rest) = 
     (do _ <- for_ 1 n (fun k u => do t <- tabof l2; do x <- rd 0 t k; do y <- rd 0 t (k - 1); if x =? y then Err 1 else Ok u) tt; Ok (l2, rr))).
  { unfold listLoad. replace ((intSave n ++ lines (itext T) 0 n ++ [10]) ++ rest) with (intSave n ++ (lines (itext T) 0 n ++ [10]) ++ rest) by now rewrite <- !app_assoc.
    rewrite ild_first by first [lia | apply nodigit_app; [destruct (lines (itext T) 0 n); discriminate | apply nodigit_items]]. cbn [bind].
    destruct (listAlloc_ok l0 n H0) as (A1 & A2). set (la := listAlloc junk l0 n) in *. replace (Z.max n 0) with n in A2 by lia.
    match goal with |- exists _ _, _ /\ _ /\ _ /\ _ /\ _ /\ bind ?r _ = _ => destruct (wp_ok_inv r (fun '(l1, s1) => list_ok l1 /\ vl_nbr l1 = n /\ items l1 = T /\ s1 = rr)) as ((l1 & s1) & -> & B1 & B2 & B3 & ->) end.
    { apply wp_for with (I := fun k st => let '(l1, s1) := st in list_ok l1 /\ vl_nbr l1 = n /\ (forall i, 0 <= i < k -> at_ 0 (items l1) i = at_ 0 T i) /\ s1 = (lines (itext T) k n ++ [10]) ++ rest).
      - lia.
      - split; [auto|]. split; [auto|]. split; [lia|auto].
      - intros k (l1 & s1) Hk (B1 & B2 & B3 & ->). rewrite lines_cons by lia. unfold itext at 1.
        replace ((((if k mod 8 =? 0 then 10 else 9) :: intSave (at_ 0 T k)) ++ lines (itext T) (k + 1) n) ++ [10]) with ((if k mod 8 =? 0 then 10 else 9) :: intSave (at_ 0 T k) ++ lines (itext T) (k + 1) n ++ [10]).
        2:{ cbn [app]. now rewrite <- app_assoc. }
        cbn [app]. rewrite <- (app_assoc (intSave (at_ 0 T k))). rewrite ild_tok.
        + cbn [bind]. unfold list_ok, items, tabof in *. destruct (vl_tab l1) as [t|]; [|lia]. cbn [bind]. rewrite wr_ok by lia. cbn [bind wp vl_tab vl_nbr]. rewrite zlen_upd. split; [auto|]. split; [auto|]. split; [|auto].
          intros i Hi. rewrite at_upd by lia. destruct (Z.eqb_spec k i) as [->|]; [auto|]. apply B3. lia.
        + lia.
        + now destruct (k mod 8 =? 0).
        + apply HI. apply at_In. lia.
        + apply nodigit_app; [destruct (lines (itext T) (k + 1) n); discriminate | apply nodigit_items].
      - intros (l1 & s1) (B1 & B2 & B3 & ->). split; [auto|]. split; [auto|]. split; [|rewrite lines_nil by lia; reflexivity].
        assert (LI : zlen (items l1) = n) by (unfold items, list_ok in B1 |- *; destruct (vl_tab l1) as [t|]; rewrite ?zlen_nil; lia).
        apply (at_ext 0); [lia|]. intros i Hi. apply B3. lia. }
    cbn [bind]. destruct (listTail l1 n) as (l2 & E2 & C1 & C2 & C3 & C4); [auto | lia | rewrite B3; auto |].
    exists l1, l2. rewrite B3 in C3. split; [auto|]. split; [auto|]. split; [lia|]. split; [auto|]. split; [auto|].
    match goal with |- bind ?r _ = _ => replace r with (Ok l2) end; [reflexivity|]. symmetry. destruct (vl_tab l1); [destruct (intSort1asc1 stksiz l3 (vl_nbr l1)) | destruct (intSort1asc1 stksiz [] (vl_nbr l1))]; cbn [bind] in *; congruence. }
  destruct Hload as (l1 & l2 & _ & C1 & C2 & C3 & C4 & ->).
  pose proof (dup_check l2 n C1 ltac:(lia)) as [(Ed & Hd)|(Ed & k & Hk & Hd)]; rewrite Ed; cbn [bind].
  - split; [|intros HN; exfalso; apply HN].
    + intros _. exists l2. split; [reflexivity|]. split; [auto|]. split; [auto|]. split; [auto|]. apply sorted_incr; auto. intros k Hk. apply Hd. unfold zlen in *. rewrite <- (Permutation_length C3) in Hk. lia.
    + apply (Permutation_NoDup (Permutation_sym C3)). apply (proj1 (NoDup_at 0 _)). intros i j Hi Hj E.
      assert (INC : increasing (items l2)) by (apply sorted_incr; auto; intros k Hk; apply Hd; unfold zlen in *; rewrite <- (Permutation_length C3) in Hk; lia).
      destruct (Z.lt_trichotomy i j) as [Hlt|[->|Hgt]]; [|auto|]; [specialize (INC i j) | specialize (INC j i)]; lia.
  - split; [|auto]. intros HN. exfalso. apply (Permutation_NoDup C3) in HN. assert (L2 : zlen (items l2) = n) by (unfold zlen in *; rewrite <- (Permutation_length C3); auto).
    pose proof (proj2 (NoDup_at 0 _) HN k (k - 1)) as HH. rewrite L2 in HH. specialize (HH ltac:(lia) ltac:(lia) Hd). lia.
Qed.

(** whatever is accepted is strictly increasing *)
Theorem listLoad_any l0 s l s' : list_ok l0 -> imax < 2 ^ (stksiz - 1) -> listLoad imax stksiz junk l0 s = Ok (l, s') -> list_ok l /\ increasing (items l).
Proof.
  intros H0 Hsz E. unfold listLoad in E. apply bind_ok_inv in E as ((n & s1) & En & E).
  assert (Hn : n <= imax).
  { unfold ild in En. destruct (intLoad imax s) as [(v & r)|e| |] eqn:El; try discriminate. injection En as -> ->. eapply intLoad_le; eauto. }
  destruct (listAlloc_ok l0 n H0) as (A1 & A2). apply bind_ok_inv in E as ((l1 & s2) & El & E).
  assert (B : list_ok l1 /\ vl_nbr l1 = Z.max n 0).
  { destruct (Z.le_gt_cases n 0) as [Hn0|Hn0]; [rewrite for_nil in El by lia; injection El as <- <-; auto|].
    refine (wlp_elim _ (fun '(l1, _) => list_ok l1 /\ vl_nbr l1 = Z.max n 0) (l1, s2) _ El). apply wlp_for with (I := fun _ '(l1, _) => list_ok l1 /\ vl_nbr l1 = Z.max n 0); [lia | auto | | auto].
    intros k (l3 & s3) Hk (B1 & B2). apply wlp_bind, wlp_intro. intros (x & s4) _. apply wlp_bind, wlp_intro. intros t Et. apply wlp_bind, wlp_wr. intros _. cbn [wlp list_ok vl_nbr]. unfold list_ok. cbn [vl_tab vl_nbr]. rewrite zlen_upd.
    split; [|auto]. unfold list_ok, tabof in *. destruct (vl_tab l3); [|discriminate]. injection Et as ->. auto. }
  destruct B as (B1 & B2). apply bind_ok_inv in E as (l2 & E2 & E).
  destruct (listTail l1 n B1 B2) as (l2' & E2' & C1 & C2 & C3 & C4).
  { unfold items, list_ok in *. destruct (vl_tab l1) as [t|]; rewrite ?zlen_nil; [|assert (0 < 2 ^ (stksiz - 1)) by (apply Z.pow_pos_nonneg; lia); lia].
    assert (0 < 2 ^ (stksiz - 1)) by (apply Z.pow_pos_nonneg; lia). lia. }
  rewrite E2 in E2'. cbn [bind] in E2'. injection E2' as <-. apply bind_ok_inv in E as (u & E3 & E). injection E as <- <-.
  split; [auto|]. destruct (dup_check l2 n C1 ltac:(lia)) as [(Ed & Hd)|(Ed & _)]; [|rewrite Ed in E3; discriminate].
  apply sorted_incr; auto. intros k Hk. apply Hd. assert (zlen (items l2) = vl_nbr l2) by (unfold items, list_ok in *; destruct (vl_tab l2); [auto|rewrite zlen_nil; lia]). lia.
Qed.
End L.
