(** Proofs about orderings. *)
From Verif Require Import Base M_Int M_Order S_Order.

(** Overwriting part of an array *)
Definition blit (b : Z) (l : list Z) (p : Z) (xs : list Z) : list Z := firstn (Z.to_nat (p - b)) l ++ xs ++ skipn (Z.to_nat (p - b + zlen xs)) l.
Lemma zlen_blit b l p xs : b <= p -> p + zlen xs <= b + zlen l -> zlen (blit b l p xs) = zlen l.
Proof. intros H1 H2. unfold blit. pose proof (zlen_nonneg xs). rewrite !zlen_app, zlen_firstn, zlen_skipn by lia. lia. Qed.
Lemma at_blit b l p xs i : b <= p -> p + zlen xs <= b + zlen l -> b <= i < b + zlen l ->
  at_ b (blit b l p xs) i = if (p <=? i) && (i <? p + zlen xs) then at_ p xs i else at_ b l i.
Proof.
  intros H1 H2 Hi. unfold blit. pose proof (zlen_nonneg xs).
  destruct (Z.leb_spec p i) as [Hp|Hp]; cbn [andb].
  - rewrite at_app2 by (rewrite zlen_firstn by lia; lia). rewrite zlen_firstn by lia. destruct (Z.ltb_spec i (p + zlen xs)) as [Hq|Hq].
    + rewrite at_app1 by lia. rewrite (at_rebase b p). f_equal. lia.
    + rewrite at_app2 by lia. rewrite at_skipn by lia. f_equal. lia.
  - rewrite at_app1 by (rewrite zlen_firstn by lia; lia). apply at_firstn. lia.
Qed.
Lemma blit_app b l p xs ys : b <= p -> p + zlen xs + zlen ys <= b + zlen l -> blit b (blit b l p xs) (p + zlen xs) ys = blit b l p (xs ++ ys).
Proof.
  intros H1 H2. pose proof (zlen_nonneg xs). pose proof (zlen_nonneg ys). pose proof (zlen_blit b l p xs H1 ltac:(lia)) as Z1.
  apply (at_ext b).
  - rewrite !zlen_blit; rewrite ?zlen_app; try lia.
  - rewrite zlen_blit by lia. rewrite Z1. intros i Hi. rewrite !at_blit; rewrite ?zlen_app; try lia.
    destruct (Z.leb_spec (p + zlen xs) i), (Z.ltb_spec i (p + zlen xs + zlen ys)), (Z.leb_spec p i), (Z.ltb_spec i (p + zlen xs)), (Z.ltb_spec i (p + (zlen xs + zlen ys))); cbn [andb]; try lia; auto.
    + rewrite at_app2 by lia. rewrite (at_rebase p (p + zlen xs)). f_equal. lia.
    + now rewrite at_app1 by lia.
Qed.
Lemma blit_app' b l p xs ys : b <= p -> p + zlen xs + zlen ys <= b + zlen l -> blit b (blit b l (p + zlen xs) ys) p xs = blit b l p (xs ++ ys).
Proof.
  intros H1 H2. pose proof (zlen_nonneg xs). pose proof (zlen_nonneg ys). pose proof (zlen_blit b l (p + zlen xs) ys ltac:(lia) ltac:(lia)) as Z1.
  apply (at_ext b).
  - rewrite !zlen_blit; rewrite ?zlen_app; try lia.
  - rewrite zlen_blit by lia. rewrite Z1. intros i Hi. rewrite !at_blit; rewrite ?zlen_app; try lia.
    destruct (Z.leb_spec (p + zlen xs) i), (Z.ltb_spec i (p + zlen xs + zlen ys)), (Z.leb_spec p i), (Z.ltb_spec i (p + zlen xs)), (Z.ltb_spec i (p + (zlen xs + zlen ys))); cbn [andb]; try lia; auto.
    + rewrite at_app2 by lia. rewrite (at_rebase p (p + zlen xs)). f_equal. lia.
    + now rewrite at_app1 by lia.
Qed.
Lemma blit_one b l p x : b <= p < b + zlen l -> blit b l p [x] = upd b l p x.
Proof.
  intros Hp. apply (at_ext b).
  - rewrite zlen_blit, zlen_upd; rewrite ?zlen_one; lia.
  - rewrite zlen_blit by (rewrite ?zlen_one; lia). intros i Hi. rewrite at_blit, at_upd by (rewrite ?zlen_one; lia). rewrite zlen_one.
    destruct (Z.leb_spec p i), (Z.ltb_spec i (p + 1)), (Z.eqb_spec p i); cbn [andb]; try lia; auto. subst. now rewrite at_cons_0.
Qed.
Lemma blit_nil b l p : b <= p <= b + zlen l -> blit b l p [] = l.
Proof.
  intros Hp. apply (at_ext b); [rewrite zlen_blit; rewrite ?zlen_nil; lia|]. rewrite zlen_blit by (rewrite ?zlen_nil; lia). intros i Hi. rewrite at_blit by (rewrite ?zlen_nil; lia). rewrite zlen_nil.
  destruct (Z.leb_spec p i), (Z.ltb_spec i (p + 0)); cbn [andb]; try lia; auto.
Qed.

(** Induction on trees *)
Lemma cblk_ind' (P : cblk -> Prop) :
  (forall ty v n, P (Cblk ty v n None)) -> (forall ty v n l, Forall P l -> P (Cblk ty v n (Some l))) -> forall t, P t.
Proof.
  intros H1 H2. fix IH 1. intros [ty v n [l|]]; [|apply H1]. apply H2. induction l as [|c l IHl]; constructor; [apply IH | exact IHl].
Qed.

(** Named versions of the inner recursions *)
Fixpoint rangSons (l : list cblk) (k : Z) (st : list Z * Z * Z) {struct l} : res (list Z * Z * Z) :=
  if k <=? 0 then Ok st else match l with [] => UB | c :: l' => do st <- orderRang2 c st; rangSons l' (k - 1) st end.
Lemma orderRang2_eq ty v n l st : orderRang2 (Cblk ty v n (Some l)) st = rangSons l n st.
Proof. reflexivity. Qed.
Section B.
Variable b : Z.
Fixpoint treeDico (l : list cblk) (k : Z) (cbfa : Z) (st : list Z * Z) {struct l} : res (list Z * Z) :=
  if k <=? 0 then Ok st else
  match l with [] => UB | c :: l' => do st <- treeDico l' (k - 1) cbfa st; orderTree2 b c cbfa st end.
Fixpoint treeSequ (l : list cblk) (k : Z) (cbfa : Z) (st : list Z * Z) {struct l} : res (Z * (list Z * Z)) :=
  if k <=? 0 then Ok (cbfa, st) else
  match l with
  | [] => UB
  | c :: l' => do '(cbfa, st) <- treeSequ l' (k - 1) cbfa st; let cbla := snd st in do st <- orderTree2 b c cbfa st; Ok (cbla, st)
  end.
End B.
Lemma orderTree2_eq b typ v cnbr l cbfa st : orderTree2 b (Cblk typ v cnbr (Some l)) cbfa st =
  if typ =? ORDERCBLKNEDI then
    if cnbr =? 3 then
      match l with
      | c0 :: c1 :: c2 :: _ =>
          let cbla := snd st in
          do st <- orderTree2 b c2 cbfa st;
          do st <- orderTree2 b c1 cbla st;
          orderTree2 b c0 cbla st
      | _ => UB
      end
    else treeDico b l cnbr cbfa st
  else if typ =? ORDERCBLKDICO then treeDico b l cnbr cbfa st
  else if typ =? ORDERCBLKSEQU then do '(_, st) <- treeSequ b l cnbr cbfa st; Ok st
  else Ok st.
Proof. reflexivity. Qed.
Fixpoint checkSons (l : list cblk) (k : Z) (sum : Z) (st : Z * Z) {struct l} : res (Z * (Z * Z)) :=
  if k <=? 0 then Ok (sum, st) else
  match l with
  | [] => UB
  | c :: l' => do st <- orderCheck2 c st; checkSons l' (k - 1) (sum + c_vnod c) st
  end.
Lemma orderCheck2_eq typ vnod cnbr l st : orderCheck2 (Cblk typ vnod cnbr (Some l)) st =
  if vnod <? 1 then Err 1 else
  if negb (typ =? ORDERCBLKNEDI) && negb (typ =? ORDERCBLKDICO) && negb (typ =? ORDERCBLKSEQU) then Err 1 else
  if (cnbr <=? 0) || ((typ =? ORDERCBLKNEDI) && ((cnbr <? 2) || (3 <? cnbr))) then Err 1 else
  do '(sum, st) <- checkSons l cnbr 0 (fst st + (cnbr - 1), snd st + cnbr);
  if negb (sum =? vnod) then Err 1 else Ok st.
Proof. reflexivity. Qed.

Definition all_ok (l : list cblk) : Prop := fold_right (fun c P => tree_ok c /\ P) True l.
Lemma leaves_node ty v n l : leaves (Cblk ty v n (Some l)) = flat_map leaves l.
Proof. reflexivity. Qed.
Lemma leaves_pos t : tree_ok t -> 1 <= zlen (leaves t) /\ Forall (fun x => 1 <= x) (leaves t).
Proof.
  induction t as [ty v n | ty v n l IH] using cblk_ind'.
  - cbn. intros (_ & Hv & _). split; [lia|]. constructor; [auto | constructor].
  - intros (H1 & H2 & H3 & H4 & H5). rewrite leaves_node.
    assert (A : Forall (fun x => 1 <= x) (flat_map leaves l) /\ (l <> [] -> 1 <= zlen (flat_map leaves l))).
    { clear H1 H2 H3 H4. induction IH as [|c l Hc Hl IHl]; [split; [constructor | congruence]|]. cbn in H5. destruct H5 as (K1 & K2). destruct (Hc K1) as (J1 & J2). destruct (IHl K2) as (J3 & J4). cbn [flat_map].
      split; [apply Forall_app; auto|]. intros _. rewrite zlen_app. pose proof (zlen_nonneg (flat_map leaves l)). lia. }
    destruct A as (A1 & A2). split; auto. apply A2. intros ->. rewrite zlen_nil in H3. lia.
Qed.

Fixpoint starts (x : Z) (l : list Z) : list Z := match l with [] => [] | y :: l' => x :: starts (x + y) l' end.
Fixpoint lsum (l : list Z) : Z := match l with [] => 0 | y :: l' => y + lsum l' end.
Lemma lsum_app l l' : lsum (l ++ l') = lsum l + lsum l'.
Proof. induction l as [|y l IH]; cbn [app lsum]; lia. Qed.
Lemma zlen_starts l : forall x, zlen (starts x l) = zlen l.
Proof. induction l as [|y l IH]; intros x; cbn [starts]; rewrite ?zlen_cons, ?IH; auto. Qed.
Lemma starts_app l l' : forall x, starts x (l ++ l') = starts x l ++ starts (x + lsum l) l'.
Proof.
  induction l as [|y l IH]; intros x; cbn [app starts lsum]; [f_equal; lia|]. rewrite IH. do 3 f_equal. lia.
Qed.

Lemma orderRang2_spec t : tree_ok t -> forall rang p ord, 0 <= p -> p + zlen (leaves t) <= zlen rang ->
  orderRang2 t (rang, p, ord) = Ok (blit 0 rang p (starts ord (leaves t)), p + zlen (leaves t), ord + c_vnod t) /\ c_vnod t = lsum (leaves t).
Proof.
  induction t as [ty v n | ty v n l IH] using cblk_ind'.
  - intros _ rang p ord Hp Hq. cbn [leaves] in *. rewrite zlen_one in *. cbn [orderRang2 c_vnod]. rewrite wr_ok by lia. cbn [bind starts lsum].
    rewrite blit_one by lia. split; [reflexivity | lia].
  - intros (_ & _ & Hn & Hv & Hs) rang p ord Hp Hq. rewrite leaves_node in *. rewrite orderRang2_eq. cbn [c_vnod].
    enough (E : forall k, k = zlen l -> rangSons l k (rang, p, ord) = Ok (blit 0 rang p (starts ord (flat_map leaves l)), p + zlen (flat_map leaves l), ord + vsum l) /\ vsum l = lsum (flat_map leaves l)).
    { destruct (E n ltac:(lia)) as (E1 & E2). rewrite E1, Hv. split; [reflexivity | exact E2]. }
    clear Hn Hv. revert rang p ord Hp Hq. induction IH as [|c l Hc Hl IHl]; intros rang p ord Hp Hq k ->.
    + cbn. cbn [flat_map] in Hq. rewrite zlen_nil in Hq. rewrite blit_nil by lia. split; [|reflexivity]. f_equal. f_equal; [f_equal|]; lia.
    + cbn in Hs. destruct Hs as (K1 & K2). cbn [flat_map] in *. rewrite zlen_app in Hq. pose proof (zlen_nonneg l). pose proof (zlen_nonneg (flat_map leaves l)). pose proof (zlen_nonneg (leaves c)).
      cbn [rangSons]. rewrite zlen_cons. destruct (Z.leb_spec (1 + zlen l) 0); [lia|].
      destruct (Hc K1 rang p ord Hp ltac:(lia)) as (-> & Ec). cbn [bind].
      destruct (IHl K2 (blit 0 rang p (starts ord (leaves c))) (p + zlen (leaves c)) (ord + c_vnod c)) with (k := 1 + zlen l - 1) as (-> & Es); [lia | rewrite zlen_blit; rewrite ?zlen_starts; lia | lia|].
      cbn [vsum fold_right]. fold (vsum l). rewrite lsum_app, zlen_app, starts_app, <- Ec. split; [|lia]. f_equal. f_equal; [|lia]. f_equal; [|lia].
      replace (p + zlen (leaves c)) with (p + zlen (starts ord (leaves c))) by now rewrite zlen_starts. apply blit_app; rewrite ?zlen_starts; lia.
Qed.

Lemma orderRang_spec o rangtab : tree_ok (o_tree o) -> zlen (leaves (o_tree o)) + 1 <= zlen rangtab ->
  orderRang o rangtab = Ok (blit 0 rangtab 0 (starts (o_base o) (leaves (o_tree o)) ++ [o_base o + c_vnod (o_tree o)])) /\ c_vnod (o_tree o) = lsum (leaves (o_tree o)).
Proof.
  intros T Hz. unfold orderRang. pose proof (zlen_nonneg (leaves (o_tree o))).
  destruct (orderRang2_spec _ T rangtab 0 (o_base o)) as (-> & E); [lia | lia|]. cbn [bind]. split; [|exact E].
  rewrite wr_ok by (rewrite zlen_blit; rewrite ?zlen_starts; lia). rewrite <- blit_one by (rewrite zlen_blit; rewrite ?zlen_starts; lia).
  f_equal. replace (0 + zlen (leaves (o_tree o))) with (0 + zlen (starts (o_base o) (leaves (o_tree o)))) by (rewrite zlen_starts; lia). apply blit_app; rewrite ?zlen_starts, ?zlen_one; lia.
Qed.

Lemma at_starts l : forall x i, 0 <= i < zlen l -> at_ 0 (starts x l) i = x + lsum (firstn (Z.to_nat i) l).
Proof.
  induction l as [|y l IH]; intros x i Hi; [unfold zlen in Hi; cbn in Hi; lia|]. rewrite zlen_cons in Hi. cbn [starts]. destruct (Z.eq_dec i 0) as [->|].
  - rewrite at_cons_0. cbn. lia.
  - rewrite at_cons_S by lia. rewrite IH by lia. replace (Z.to_nat i) with (S (Z.to_nat (i - 1))) by lia. cbn [firstn lsum]. lia.
Qed.
Lemma lsum_firstn_S l i : 0 <= i < zlen l -> lsum (firstn (Z.to_nat (i + 1)) l) = lsum (firstn (Z.to_nat i) l) + at_ 0 l i.
Proof.
  revert i. induction l as [|y l IH]; intros i Hi; [unfold zlen in Hi; cbn in Hi; lia|]. rewrite zlen_cons in Hi. replace (Z.to_nat (i + 1)) with (S (Z.to_nat i)) by lia. cbn [firstn lsum].
  destruct (Z.eq_dec i 0) as [->|]; [rewrite at_cons_0; cbn; lia|]. replace (Z.to_nat i) with (S (Z.to_nat (i - 1))) by lia. change (firstn (S (Z.to_nat (i - 1))) (y :: l)) with (y :: firstn (Z.to_nat (i - 1)) l). cbn [lsum]. rewrite at_cons_S by lia.
  specialize (IH (i - 1) ltac:(lia)). replace (Z.to_nat (i - 1 + 1)) with (S (Z.to_nat (i - 1))) in IH by lia. lia.
Qed.

(** Range array *)
Lemma orderRang_at o rangtab : tree_ok (o_tree o) -> zlen (leaves (o_tree o)) + 1 <= zlen rangtab ->
  exists rang, orderRang o rangtab = Ok rang /\ zlen rang = zlen rangtab /\ at_ 0 rang 0 = o_base o /\ at_ 0 rang (zlen (leaves (o_tree o))) = o_base o + c_vnod (o_tree o) /\
    (forall k, 0 <= k < zlen (leaves (o_tree o)) -> at_ 0 rang (k + 1) = at_ 0 rang k + at_ 0 (leaves (o_tree o)) k) /\
    (forall k, zlen (leaves (o_tree o)) < k < zlen rangtab -> at_ 0 rang k = at_ 0 rangtab k).
Proof.
  intros T Hz. destruct (orderRang_spec o rangtab T Hz) as (E & Hs). rewrite E. clear E. eexists. split; [reflexivity|].
  set (L := leaves (o_tree o)) in *. destruct (leaves_pos _ T) as (Lp & _). fold L in Lp.
  assert (Zx : zlen (starts (o_base o) L ++ [o_base o + c_vnod (o_tree o)]) = zlen L + 1) by (rewrite zlen_snoc, zlen_starts; lia).
  split; [apply zlen_blit; lia|].
  assert (A : forall k, 0 <= k <= zlen L -> at_ 0 (blit 0 rangtab 0 (starts (o_base o) L ++ [o_base o + c_vnod (o_tree o)])) k = o_base o + lsum (firstn (Z.to_nat k) L)).
  { intros k Hk. rewrite at_blit by lia. rewrite Zx. destruct (Z.leb_spec 0 k), (Z.ltb_spec k (0 + (zlen L + 1))); cbn [andb]; try lia.
    destruct (Z.eq_dec k (zlen L)) as [->|].
    - rewrite at_app2 by (rewrite zlen_starts; lia). rewrite zlen_starts. replace (zlen L - zlen L) with 0 by lia. rewrite at_cons_0. rewrite firstn_all2 by (unfold zlen; lia). lia.
    - rewrite at_app1 by (rewrite zlen_starts; lia). apply at_starts. lia. }
  split; [rewrite A by lia; cbn; lia|]. split.
  { rewrite A by lia. rewrite firstn_all2 by (unfold zlen; lia). lia. }
  split.
  - intros k Hk. rewrite !A by lia. rewrite lsum_firstn_S by lia. lia.
  - intros k Hk. rewrite at_blit by lia. rewrite Zx. destruct (Z.leb_spec 0 k), (Z.ltb_spec k (0 + (zlen L + 1))); cbn [andb]; try lia; auto.
Qed.

(** Separator tree *)
Fixpoint indep (l : list cblk) (lo fa : Z) : list Z :=
  match l with [] => [] | c :: l' => fathers c lo fa ++ indep l' (lo + zlen (leaves c)) fa end.
Fixpoint chain (l : list cblk) (lo fa : Z) : list Z :=
  match l with
  | [] => []
  | c :: l' => fathers c lo (match l' with [] => fa | d :: _ => lo + zlen (leaves c) + zlen (leaves d) - 1 end) ++ chain l' (lo + zlen (leaves c)) fa
  end.
Lemma fathers_eq typ v n l lo fa : fathers (Cblk typ v n (Some l)) lo fa =
  if typ =? ORDERCBLKSEQU then chain l lo fa
  else if typ =? ORDERCBLKNEDI then
    match l with
    | [c0; c1; c2] =>
        let top := lo + zlen (leaves c0) + zlen (leaves c1) + zlen (leaves c2) - 1 in
        fathers c0 lo top ++ fathers c1 (lo + zlen (leaves c0)) top ++ fathers c2 (lo + zlen (leaves c0) + zlen (leaves c1)) fa
    | _ => indep l lo fa
    end
  else indep l lo fa.
Proof. reflexivity. Qed.

Lemma zlen_fathers t : forall lo fa, zlen (fathers t lo fa) = zlen (leaves t).
Proof.
  induction t as [ty v n | ty v n l IH] using cblk_ind'; intros lo fa; [reflexivity|]. rewrite fathers_eq, leaves_node.
  assert (I : forall lo, zlen (indep l lo fa) = zlen (flat_map leaves l)).
  { induction IH as [|c l Hc Hl IHl]; intros lo'; [reflexivity|]. cbn [indep flat_map]. rewrite !zlen_app, Hc, IHl. reflexivity. }
  assert (C : forall lo, zlen (chain l lo fa) = zlen (flat_map leaves l)).
  { clear I. induction IH as [|c l Hc Hl IHl]; intros lo'; [reflexivity|]. cbn [chain flat_map]. rewrite !zlen_app, Hc, IHl. reflexivity. }
  destruct (ty =? ORDERCBLKSEQU); [apply C|]. destruct (ty =? ORDERCBLKNEDI); [|apply I]. destruct l as [|c0 [|c1 [|c2 [|c3 l]]]]; try apply I.
  rewrite Forall_forall in IH. cbn zeta. rewrite !zlen_app. cbn [flat_map]. rewrite !zlen_app, !IH by (cbn; auto). rewrite zlen_nil. lia.
Qed.

Lemma orderTree2_spec b t : tree_ok t -> forall tree cbla fa, b <= cbla - zlen (leaves t) + 1 -> cbla < b + zlen tree ->
  orderTree2 b t fa (tree, cbla) = Ok (blit b tree (cbla - zlen (leaves t) + 1) (fathers t (cbla - zlen (leaves t) + 1) fa), cbla - zlen (leaves t)).
Proof.
  induction t as [ty v n | ty v n l IH] using cblk_ind'.
  - intros _ tree cbla fa H1 H2. cbn [leaves] in *. rewrite zlen_one in *. cbn [orderTree2 fathers]. rewrite wr_ok by lia. cbn [bind]. replace (cbla - 1 + 1) with cbla by lia. rewrite blit_one by lia. reflexivity.
  - intros (Ht & _ & Hn & Hv & Hs) tree cbla fa H1 H2. rewrite orderTree2_eq, fathers_eq. rewrite leaves_node in *.
    assert (D : forall k cbla tree, k = zlen l -> b <= cbla - zlen (flat_map leaves l) + 1 -> cbla < b + zlen tree ->
      treeDico b l k fa (tree, cbla) = Ok (blit b tree (cbla - zlen (flat_map leaves l) + 1) (indep l (cbla - zlen (flat_map leaves l) + 1) fa), cbla - zlen (flat_map leaves l))).
    { clear Ht Hn Hv H1 H2 cbla tree. induction IH as [|c l Hc Hl IHl]; intros k cbla tree -> H1 H2.
      - cbn [flat_map] in *. rewrite ?(@zlen_nil Z), ?(@zlen_nil cblk) in *. cbn [treeDico indep]. change (0 <=? 0) with true. cbn iota. rewrite blit_nil by lia.
        do 2 f_equal. lia.
      - cbn in Hs. destruct Hs as (K1 & K2). cbn [flat_map indep] in *. rewrite zlen_app in *. pose proof (zlen_nonneg l). pose proof (zlen_nonneg (flat_map leaves l)). pose proof (zlen_nonneg (leaves c)).
        assert (Zi : forall lo, zlen (indep l lo fa) = zlen (flat_map leaves l)). { clear. induction l as [|c l IHl]; intros lo; [reflexivity|]. cbn [indep flat_map]. now rewrite !zlen_app, zlen_fathers, IHl. }
        cbn [treeDico]. rewrite zlen_cons. destruct (Z.leb_spec (1 + zlen l) 0); [lia|]. rewrite (IHl K2) by lia. cbn [bind]. assert (Zb : forall lo, lo = cbla - zlen (flat_map leaves l) + 1 -> zlen (blit b tree lo (indep l lo fa)) = zlen tree) by (intros lo ->; apply zlen_blit; rewrite ?Zi; lia).
        rewrite (Hc K1) by (rewrite ?Zb; lia). f_equal. f_equal; [|lia].
        set (lo := cbla - (zlen (leaves c) + zlen (flat_map leaves l)) + 1). replace (cbla - zlen (flat_map leaves l) - zlen (leaves c) + 1) with lo by lia.
        replace (cbla - zlen (flat_map leaves l) + 1) with (lo + zlen (fathers c lo fa)) by (rewrite zlen_fathers; lia). rewrite blit_app' by (rewrite ?zlen_fathers, ?Zi; lia).
        now rewrite zlen_fathers. }
    assert (C : forall k cbla tree, k = zlen l -> b <= cbla - zlen (flat_map leaves l) + 1 -> cbla < b + zlen tree ->
      treeSequ b l k fa (tree, cbla) = Ok (match l with [] => fa | d :: _ => cbla - zlen (flat_map leaves l) + zlen (leaves d) end, (blit b tree (cbla - zlen (flat_map leaves l) + 1) (chain l (cbla - zlen (flat_map leaves l) + 1) fa), cbla - zlen (flat_map leaves l)))).
    { clear Ht Hn Hv H1 H2 cbla tree D. induction IH as [|c l Hc Hl IHl]; intros k cbla tree -> H1 H2.
      - cbn [flat_map] in *. rewrite ?(@zlen_nil Z), ?(@zlen_nil cblk) in *. cbn [treeSequ chain]. change (0 <=? 0) with true. cbn iota. rewrite blit_nil by lia. do 3 f_equal. lia.
      - cbn in Hs. destruct Hs as (K1 & K2). cbn [flat_map chain] in *. rewrite zlen_app in *. pose proof (zlen_nonneg l). pose proof (zlen_nonneg (flat_map leaves l)). pose proof (zlen_nonneg (leaves c)).
        assert (Zi : forall lo, zlen (chain l lo fa) = zlen (flat_map leaves l)). { clear. induction l as [|c l IHl]; intros lo; [reflexivity|]. cbn [chain flat_map]. now rewrite !zlen_app, zlen_fathers, IHl. }
        cbn [treeSequ]. rewrite zlen_cons. destruct (Z.leb_spec (1 + zlen l) 0); [lia|]. rewrite (IHl K2) by lia. cbn [bind snd]. assert (Zb : forall lo, lo = cbla - zlen (flat_map leaves l) + 1 -> zlen (blit b tree lo (chain l lo fa)) = zlen tree) by (intros lo ->; apply zlen_blit; rewrite ?Zi; lia).
        rewrite (Hc K1) by (rewrite ?Zb; lia). cbn [bind]. f_equal. f_equal; [lia|]. f_equal; [|lia].
        set (lo := cbla - (zlen (leaves c) + zlen (flat_map leaves l)) + 1). replace (cbla - zlen (flat_map leaves l) - zlen (leaves c) + 1) with lo by lia.
        set (f1 := match l with [] => fa | d :: _ => cbla - zlen (flat_map leaves l) + zlen (leaves d) end).
        replace (match l with [] => fa | d :: _ => lo + zlen (leaves c) + zlen (leaves d) - 1 end) with f1 by (unfold f1; destruct l; [reflexivity | lia]).
        replace (cbla - zlen (flat_map leaves l) + 1) with (lo + zlen (fathers c lo f1)) by (rewrite zlen_fathers; lia). rewrite blit_app' by (rewrite ?zlen_fathers, ?Zi; lia).
        now rewrite zlen_fathers. }
    destruct Ht as [(-> & Hc)|([->| ->] & Hc)].
    + cbn [ORDERCBLKNEDI ORDERCBLKSEQU Z.eqb Pos.eqb]. destruct Hc as [->| ->].
      * cbn [Z.eqb Pos.eqb]. rewrite (D 2 cbla tree) by auto. destruct l as [|c0 [|c1 [|c2 [|c3 l]]]]; try reflexivity.
        exfalso. rewrite !zlen_cons, zlen_nil in Hn. lia.
      * cbn [Z.eqb Pos.eqb]. destruct l as [|c0 [|c1 [|c2 [|c3 l]]]]; rewrite ?zlen_cons, ?zlen_nil in Hn; try lia; [|pose proof (zlen_nonneg l); lia].
        cbn in Hs. destruct Hs as (K0 & K1 & K2 & _). rewrite Forall_forall in IH. cbn [flat_map] in *. rewrite !zlen_app, zlen_nil in *. cbn [snd].
        pose proof (zlen_nonneg (leaves c0)). pose proof (zlen_nonneg (leaves c1)). pose proof (zlen_nonneg (leaves c2)).
        rewrite (IH c2 ltac:(cbn; auto) K2) by lia. cbn [bind]. rewrite (IH c1 ltac:(cbn; auto) K1) by (rewrite ?zlen_blit; rewrite ?zlen_fathers; lia). cbn [bind].
        rewrite (IH c0 ltac:(cbn; auto) K0) by (repeat rewrite zlen_blit; rewrite ?zlen_fathers; lia). cbn zeta. f_equal. f_equal; [|lia].
        set (lo := cbla - (zlen (leaves c0) + (zlen (leaves c1) + (zlen (leaves c2) + 0))) + 1).
        replace (lo + zlen (leaves c0) + zlen (leaves c1) + zlen (leaves c2) - 1) with cbla by lia.
        replace (cbla - zlen (leaves c2) - zlen (leaves c1) - zlen (leaves c0) + 1) with lo by lia.
        replace (cbla - zlen (leaves c2) - zlen (leaves c1) + 1) with (lo + zlen (leaves c0)) by lia.
        replace (cbla - zlen (leaves c2) + 1) with (lo + zlen (leaves c0) + zlen (leaves c1)) by lia.
        assert (E1 : blit b (blit b tree (lo + zlen (leaves c0) + zlen (leaves c1)) (fathers c2 (lo + zlen (leaves c0) + zlen (leaves c1)) fa)) (lo + zlen (leaves c0)) (fathers c1 (lo + zlen (leaves c0)) cbla) =
          blit b tree (lo + zlen (leaves c0)) (fathers c1 (lo + zlen (leaves c0)) cbla ++ fathers c2 (lo + zlen (leaves c0) + zlen (leaves c1)) fa)).
        { rewrite <- blit_app' by (rewrite ?zlen_fathers; lia). rewrite zlen_fathers. reflexivity. }
        rewrite E1. rewrite <- (blit_app' b tree lo) by (rewrite ?zlen_app, ?zlen_fathers; lia). rewrite zlen_fathers. reflexivity.
    + cbn [ORDERCBLKNEDI ORDERCBLKSEQU ORDERCBLKDICO Z.eqb Pos.eqb]. apply D; auto.
    + cbn [ORDERCBLKNEDI ORDERCBLKSEQU ORDERCBLKDICO Z.eqb Pos.eqb]. rewrite (C n cbla tree) by auto. reflexivity.
Qed.

Lemma orderTree_spec o treetab : tree_ok (o_tree o) -> o_cblknbr o = zlen (leaves (o_tree o)) -> o_cblknbr o <= zlen treetab ->
  orderTree o treetab = Ok (blit (o_base o) treetab (o_base o) (fathers (o_tree o) (o_base o) (-1))).
Proof.
  intros T Hc Hz. unfold orderTree. rewrite orderTree2_spec by (auto; lia). cbn [bind]. replace (o_cblknbr o + o_base o - 1 - zlen (leaves (o_tree o)) + 1) with (o_base o) by lia. reflexivity.
Qed.

(** Fathers come later, and stay within the subtree or are that of the subtree *)
Lemma fathers_range t : forall lo fa, tree_ok t -> forall i, lo <= i < lo + zlen (leaves t) ->
  at_ lo (fathers t lo fa) i = fa \/ i < at_ lo (fathers t lo fa) i < lo + zlen (leaves t).
Proof.
  induction t as [ty v n | ty v n l IH] using cblk_ind'.
  - intros lo fa _ i Hi. cbn [leaves fathers] in *. rewrite zlen_one in Hi. replace i with lo by lia. rewrite at_cons_0. auto.
  - intros lo fa (Ht & _ & Hn & _ & Hs) i. rewrite fathers_eq, leaves_node.
    assert (I : forall lo i, lo <= i < lo + zlen (flat_map leaves l) -> at_ lo (indep l lo fa) i = fa \/ i < at_ lo (indep l lo fa) i < lo + zlen (flat_map leaves l)).
    { clear Ht Hn i lo. induction IH as [|c l Hc Hl IHl]; intros lo i Hi; [cbn in Hi; lia|]. cbn in Hs. destruct Hs as (K1 & K2). cbn [flat_map indep] in *. rewrite zlen_app in *.
      pose proof (zlen_nonneg (flat_map leaves l)). pose proof (zlen_nonneg (leaves c)).
      destruct (Z.lt_ge_cases i (lo + zlen (leaves c))).
      - rewrite at_app1 by (rewrite zlen_fathers; lia). destruct (Hc lo fa K1 i ltac:(lia)); [auto | right; lia].
      - rewrite at_app2 by (rewrite zlen_fathers; lia). rewrite zlen_fathers. specialize (IHl K2 (lo + zlen (leaves c)) i ltac:(lia)).
        rewrite (at_rebase lo (lo + zlen (leaves c))) in IHl. replace (i - (lo + zlen (leaves c)) + lo) with (i - zlen (leaves c)) in IHl by lia. lia. }
    assert (C : forall lo i, lo <= i < lo + zlen (flat_map leaves l) -> at_ lo (chain l lo fa) i = fa \/ i < at_ lo (chain l lo fa) i < lo + zlen (flat_map leaves l)).
    { clear Ht Hn i lo I. induction IH as [|c l Hc Hl IHl]; intros lo i Hi; [cbn in Hi; lia|]. cbn in Hs. destruct Hs as (K1 & K2). cbn [flat_map chain] in *. rewrite zlen_app in *.
      pose proof (zlen_nonneg (flat_map leaves l)). pose proof (zlen_nonneg (leaves c)).
      destruct (Z.lt_ge_cases i (lo + zlen (leaves c))).
      - rewrite at_app1 by (rewrite zlen_fathers; lia).
        set (f1 := match l with [] => fa | d :: _ => lo + zlen (leaves c) + zlen (leaves d) - 1 end).
        assert (F1 : f1 = fa \/ lo + zlen (leaves c) <= f1 < lo + zlen (leaves c) + zlen (flat_map leaves l)).
        { unfold f1. destruct l as [|d l]; [auto|]. right. cbn in K2. destruct K2 as (K2 & _). destruct (leaves_pos d K2) as (Lp & _). cbn [flat_map]. rewrite zlen_app. pose proof (zlen_nonneg (flat_map leaves l)). lia. }
        destruct (Hc lo f1 K1 i ltac:(lia)) as [E|E]; [rewrite E; destruct F1 as [->|]; [auto | right; lia] | right; lia].
      - rewrite at_app2 by (rewrite zlen_fathers; lia). rewrite zlen_fathers. specialize (IHl K2 (lo + zlen (leaves c)) i ltac:(lia)).
        rewrite (at_rebase lo (lo + zlen (leaves c))) in IHl. replace (i - (lo + zlen (leaves c)) + lo) with (i - zlen (leaves c)) in IHl by lia. lia. }
    destruct (ty =? ORDERCBLKSEQU); [apply C|]. destruct (ty =? ORDERCBLKNEDI); [|apply I]. destruct l as [|c0 [|c1 [|c2 [|c3 l]]]]; try apply I.
    clear I C. cbn in Hs. destruct Hs as (K0 & K1 & K2 & _). rewrite Forall_forall in IH. cbn [flat_map]. rewrite !zlen_app, zlen_nil. cbn zeta. intros Hi.
    set (top := lo + zlen (leaves c0) + zlen (leaves c1) + zlen (leaves c2) - 1). destruct (leaves_pos _ K2) as (Lp & _).
    pose proof (zlen_nonneg (leaves c0)). pose proof (zlen_nonneg (leaves c1)).
    destruct (Z.lt_ge_cases i (lo + zlen (leaves c0))).
    { rewrite at_app1 by (rewrite zlen_fathers; lia). destruct (IH c0 ltac:(cbn; auto) lo top K0 i ltac:(lia)) as [E|E]; [rewrite E|]; right; lia. }
    rewrite at_app2 by (rewrite zlen_fathers; lia). rewrite zlen_fathers. destruct (Z.lt_ge_cases i (lo + zlen (leaves c0) + zlen (leaves c1))).
    { rewrite at_app1 by (rewrite zlen_fathers; lia). pose proof (IH c1 ltac:(cbn; auto) (lo + zlen (leaves c0)) top K1 i ltac:(lia)) as E.
      rewrite (at_rebase lo (lo + zlen (leaves c0))) in E. replace (i - (lo + zlen (leaves c0)) + lo) with (i - zlen (leaves c0)) in E by lia. destruct E as [E|E]; [rewrite E|]; right; lia. }
    rewrite at_app2 by (rewrite zlen_fathers; lia). rewrite zlen_fathers.
    pose proof (IH c2 ltac:(cbn; auto) (lo + zlen (leaves c0) + zlen (leaves c1)) fa K2 i ltac:(lia)) as E.
    rewrite (at_rebase lo (lo + zlen (leaves c0) + zlen (leaves c1))) in E. replace (i - (lo + zlen (leaves c0) + zlen (leaves c1)) + lo) with (i - zlen (leaves c0) - zlen (leaves c1)) in E by lia. lia.
Qed.

(** ** Check *)
Lemma orderCheck2_complete t : tree_ok t -> forall c k, orderCheck2 t (c, k) = Ok (c + zlen (leaves t) - 1, k + nnodes t - 1).
Proof.
  induction t as [ty v n | ty v n l IH] using cblk_ind'.
  - intros (-> & Hv & ->) c k. cbn. destruct (Z.ltb_spec v 1); [lia|]. do 2 f_equal; lia.
  - intros (Ht & Hv & Hn & Hs & Ha) c k. rewrite orderCheck2_eq. destruct (Z.ltb_spec v 1); [lia|]. rewrite leaves_node. cbn [nnodes].
    assert (E : forall m sum c k, m = zlen l -> checkSons l m sum (c, k) = Ok (sum + vsum l, (c + zlen (flat_map leaves l) - m, k + fold_right (fun c a => nnodes c + a) 0 l - m))).
    { clear Ht Hv Hn Hs c k. induction IH as [|d l Hd Hl IHl]; intros m sum c k ->.
      - cbn. do 2 f_equal; [lia | f_equal; lia].
      - cbn in Ha. destruct Ha as (K1 & K2). cbn [checkSons flat_map fold_right vsum]. rewrite zlen_cons. pose proof (zlen_nonneg l). destruct (Z.leb_spec (1 + zlen l) 0); [lia|].
        rewrite (Hd K1). cbn [bind]. rewrite (IHl K2) by lia. rewrite zlen_app. fold (vsum l). f_equal. f_equal; [lia | f_equal; lia]. }
    cbn [fst snd]. rewrite (E n) by lia. cbn [bind].
    replace (negb (ty =? ORDERCBLKNEDI) && negb (ty =? ORDERCBLKDICO) && negb (ty =? ORDERCBLKSEQU)) with false by (unfold ORDERCBLKNEDI, ORDERCBLKDICO, ORDERCBLKSEQU in *; lia).
    replace ((n <=? 0) || ((ty =? ORDERCBLKNEDI) && ((n <? 2) || (3 <? n)))) with false by (unfold ORDERCBLKNEDI, ORDERCBLKDICO, ORDERCBLKSEQU in *; lia).
    replace (0 + vsum l =? v) with true by lia. cbn [negb]. do 2 f_equal; lia.
Qed.

Lemma orderCheck2_sound t : tree_readable t -> forall c k r, orderCheck2 t (c, k) = Ok r -> tree_ok t /\ r = (c + zlen (leaves t) - 1, k + nnodes t - 1).
Proof.
  intros R c k r H. assert (T : tree_ok t); [|split; [auto|]; rewrite orderCheck2_complete in H by auto; now injection H as <-].
  revert R c k r H. induction t as [ty v n | ty v n l IH] using cblk_ind'.
  - intros _ c k r. cbn. destruct (Z.ltb_spec v 1); [discriminate|]. destruct (Z.eqb_spec ty ORDERCBLKLEAF); cbn [negb]; [|discriminate]. destruct (Z.eqb_spec n 0); cbn [negb]; [|discriminate]. intros _. repeat split; auto.
  - intros (Rn & Ra) c k r. rewrite orderCheck2_eq. destruct (Z.ltb_spec v 1); [discriminate|].
    destruct (negb (ty =? ORDERCBLKNEDI) && negb (ty =? ORDERCBLKDICO) && negb (ty =? ORDERCBLKSEQU)) eqn:E1; [discriminate|].
    destruct ((n <=? 0) || ((ty =? ORDERCBLKNEDI) && ((n <? 2) || (3 <? n)))) eqn:E2; [discriminate|]. intros H'. apply bind_ok_inv in H'. destruct H' as ((sum & st) & Hs & H').
    destruct (Z.eqb_spec sum v) as [Ev|]; cbn [negb] in H'; [|discriminate].
    assert (E : forall m s c k, m = zlen l -> checkSons l m s (c, k) = Ok (sum, st) -> all_ok l /\ sum = s + vsum l).
    { clear H' Hs E1 E2 Rn H Ev c k r. induction IH as [|d l Hd Hl IHl]; intros m s c k -> Hc.
      - cbn in *. injection Hc as <- _. split; [exact I | lia].
      - cbn in Ra. destruct Ra as (R1 & R2). cbn [checkSons] in Hc. rewrite zlen_cons in Hc. pose proof (zlen_nonneg l). destruct (Z.leb_spec (1 + zlen l) 0); [lia|].
        apply bind_ok_inv in Hc. destruct Hc as ((c' & k') & Hd' & Hc). replace (1 + zlen l - 1) with (zlen l) in Hc by lia. destruct (IHl R2 _ _ c' k' eq_refl Hc) as (K1 & K2).
        split; [cbn; split; [eapply Hd; eauto | exact K1]|]. cbn [vsum fold_right]. fold (vsum l). lia. }
    destruct (E n 0 (c + (n - 1)) (k + n)) as (K1 & K2); [lia | exact Hs|]. cbn [tree_ok]. fold (all_ok l).
    split; [unfold ORDERCBLKNEDI, ORDERCBLKDICO, ORDERCBLKSEQU in *; lia|]. repeat (split; [lia|]). exact K1.
Qed.
