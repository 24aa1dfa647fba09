(** Consolidation of the Fibonacci heap. *)
From Verif Require Import Base M_Fibo S_Fibo P_Fibo P_Fibo2 P_Fibo3 P_Fibo4.

Definition hdeg (h : fheap) (t : list Z) : fheap := mkF (fnbr h) (pare h) (chld h) (prev h) (next h) (defl h) t.
Lemma set_degr_ok h d v : 0 <= d < zlen (degr h) -> set_degr h d v = Ok (hdeg h (upd 0 (degr h) d v)).
Proof. intros H. unfold set_degr. rewrite wr_ok by lia. reflexivity. Qed.
Lemma good_hdeg h t L kids ord rk dp sp : good h L kids ord rk dp sp -> good (hdeg h t) L kids ord rk dp sp.
Proof. intros [R T]. split; [eapply rings_data; [| | |exact R]; reflexivity|exact T]. Qed.

Lemma link_ok cmp h L kids ord rk old win l1 l2 :
  good h L kids ord rk (-1) (-1) -> hord cmp L kids ->
  kids 0 = l1 ++ old :: l2 -> In win (kids 0) -> old <> win -> dg (defl h) old = dg (defl h) win -> cmp win old <= 0 ->
  exists h' kids' ord' rk', fiboLink h old win = Ok h' /\ good h' L kids' ord' rk' (-1) (-1) /\ hord cmp L kids' /\
    kids' 0 = l1 ++ l2 /\ (forall x, x <> win -> In x L -> dg (defl h') x = dg (defl h) x) /\
    dg (defl h') win = dg (defl h) win + 1 /\ degr h' = degr h /\ fnbr h' = fnbr h.
Proof.
  intros [R T] Ho E0 Hw Hne Hdg Hc.
  assert (Hold : In old (kids 0)) by (rewrite E0; apply in_or_app; simpl; auto).
  assert (HoL : In old L) by (eapply rg_kin; [exact R|now left|exact Hold]).
  assert (HwL : In win L) by (eapply rg_kin; [exact R|now left|exact Hw]).
  pose proof (rg_in _ _ _ R old HoL) as Hor. pose proof (rg_in _ _ _ R win HwL) as Hwr.
  destruct (rings_unlink h L kids 0 l1 old l2 R (or_introl eq_refl) E0) as (h1 & Eu & Hd1 & R1 & Hlim & _ & _).
  cbn [Z.eqb] in R1, Hlim. set (kids1 := kset kids 0 (l1 ++ l2)) in *.
  unfold fiboLink. rewrite Eu. cbn [bind]. destruct Hd1 as (F1 & F2 & F3 & F4 & F5).
  rewrite fget_ok by lia. cbn [bind]. rewrite set_defl_ok by lia. cbn [bind].
  rewrite set_pare_ok by (cbn [fnbr]; lia). cbn [bind]. rewrite fget_ok by (cbn [fnbr]; lia).
  cbn [bind fnbr pare chld prev next defl degr]. rewrite F1, F2, F3, F4, F5.
  destruct (t_flag _ _ _ _ _ _ _ _ _ _ old R T HoL) as (O1 & O2 & O3).
  destruct (t_flag _ _ _ _ _ _ _ _ _ _ win R T HwL) as (W1 & W2 & W3).
  rewrite (clear_flag _ _ _ O2 O3).
  destruct (Z.eqb_spec old (-1)); [lia|]. destruct (Z.eqb_spec win (-1)); [lia|].
  pose proof (t_chl _ _ _ _ _ _ _ _ _ T win HwL ltac:(lia)) as Wc. rewrite Wc.
  set (od := 2 * dg (defl h) old) in *.
  (* the common part of both cases *)
  assert (M : forall h' kl wd ch', Permutation (old :: kids win) kl -> kl <> [] ->
     rings h' L (kset kids1 win kl) -> pare h' = fset (pare h) old win -> chld h' = ch' -> ch' = fset (chld h) win (hd FNULL kl) \/ (ch' = chld h /\ chld h win = hd FNULL kl) ->
     defl h' = fset (fset (defl h) old od) win wd -> (exists f, 0 <= f <= 1 /\ wd = 2 * zlen kl + f) ->
     exists ord' rk', good h' L (kset kids1 win kl) ord' rk' (-1) (-1) /\ hord cmp L (kset kids1 win kl) /\
     (kset kids1 win kl) 0 = l1 ++ l2 /\ (forall x, x <> win -> In x L -> dg (defl h') x = dg (defl h) x) /\
     dg (defl h') win = dg (defl h) win + 1).
  { intros h' kl wd ch' Hkl Hnn R' Ep Ech' Ech Ed (f & Hf & Ewd).
    assert (Hlen : zlen kl = zlen (kids win) + 1).
    { unfold zlen. rewrite <- (Permutation_length Hkl). cbn [length]. lia. }
    assert (Hinl : forall y, In y kl <-> y = old \/ In y (kids win)).
    { intros y. split; intros H.
      - eapply Permutation_in in H; [|symmetry; exact Hkl]. destruct H; auto.
      - eapply Permutation_in; [exact Hkl|]. destruct H; simpl; auto. }
    set (k' := kset kids1 win kl) in *.
    assert (K0 : k' 0 = l1 ++ l2) by (unfold k', kids1; rewrite kset_other by lia; apply kset_same).
    assert (Kw : k' win = kl) by apply kset_same.
    assert (Kq : forall q, q <> 0 -> q <> win -> k' q = kids q) by (intros; unfold k', kids1; now rewrite !kset_other by auto).
    clearbody k'.
    pose proof (rg_knd _ _ _ R 0 (or_introl eq_refl)) as Hnd. rewrite E0 in Hnd. apply NoDup_remove_2 in Hnd.
    assert (Hnr : forall q y, In q L -> In y (kids q) -> y <> old /\ y <> win).
    { intros q y Hq Hy. split; intros ->; apply (not0 _ _ _ _ R Hq).
      - exact (rg_dis _ _ _ R q 0 old (or_intror Hq) (or_introl eq_refl) Hy Hold).
      - exact (rg_dis _ _ _ R q 0 win (or_intror Hq) (or_introl eq_refl) Hy Hw). }
    assert (Dx : forall x, x <> win -> In x L -> dg (defl h') x = dg (defl h) x).
    { intros x Hx HxL. rewrite Ed. unfold dg. rewrite fset_other by auto. unfold fset.
      destruct (Z.eqb_spec x old) as [->|]; [|reflexivity].
      destruct (dgfl od (dg (defl h) old) 0) as [G _]; [lia|unfold od; lia|]. rewrite G. reflexivity. }
    assert (Fx : forall x, x <> win -> x <> old -> fl (defl h') x = fl (defl h) x).
    { intros x Hx1 Hx2. rewrite Ed. unfold fl. rewrite !fset_other by auto. reflexivity. }
    assert (Dw : dg (defl h') win = dg (defl h) win + 1).
    { rewrite Ed. unfold dg at 1. rewrite fset_same. destruct (dgfl wd (zlen kl) f Hf Ewd) as [G _]. rewrite G. lia. }
    exists (kset ord win (ord win ++ [old])), (fun y => if y =? win then Nat.max (rk win) (S (rk old)) else rk y).
    split; [split; [exact R'|]|split; [|auto]].
    - constructor.
      + intros p x Hp Hx. rewrite Ep. destruct (Z.eqb_spec p 0) as [->|Hp0].
        * rewrite K0 in Hx. rewrite fset_other by (intros ->; contradiction).
          apply (t_par _ _ _ _ _ _ _ _ _ T 0 x); [now left|]. rewrite E0. rewrite in_app_iff in *. simpl. tauto.
        * assert (HpL : In p L) by (destruct Hp; [congruence|auto]).
          assert (G : In x (kids p) -> fset (pare h) old win x = p).
          { intros Hx'. rewrite fset_other by (eapply (Hnr p); eauto). rewrite (t_par _ _ _ _ _ _ _ _ _ T p x Hp Hx').
            destruct (Z.eqb_spec p 0); [congruence|reflexivity]. }
          destruct (Z.eq_dec p win) as [->|Hpw]; [|apply G; now rewrite <- Kq by auto].
          rewrite Kw in Hx. apply Hinl in Hx. destruct Hx as [->|Hx]; [apply fset_same|apply G, Hx].
      + intros x Hx. destruct (Z.eq_dec x old) as [->|Hxo].
        { exists win. split; [now right|]. rewrite Kw. apply Hinl. now left. }
        destruct (t_cov _ _ _ _ _ _ _ _ _ T x Hx) as (p & Hp & Hxp). exists p. split; [exact Hp|].
        destruct (Z.eq_dec p 0) as [->|Hp0].
        * rewrite K0. rewrite E0 in Hxp. rewrite in_app_iff in *. simpl in Hxp. intuition congruence.
        * destruct (Z.eq_dec p win) as [->|Hpw]; [rewrite Kw; apply Hinl; now right|]. now rewrite Kq.
      + intros p Hp Hpn. rewrite Ech'. destruct (Z.eq_dec p win) as [->|Hpw].
        * rewrite Kw. destruct Ech as [->|[-> Ech]]; [apply fset_same|exact Ech].
        * rewrite Kq by (auto; eapply not0; eauto).
          assert (G : ch' p = chld h p) by (destruct Ech as [->|[-> _]]; [now rewrite fset_other|reflexivity]).
          rewrite G. apply (t_chl _ _ _ _ _ _ _ _ _ T p Hp Hpn).
      + intros p Hp. rewrite Ed. destruct (Z.eqb_spec p (-1)) as [->|]; [apply (rg_in _ _ _ R) in Hp; lia|].
        destruct (Z.eq_dec p win) as [->|Hpw].
        * rewrite fset_same, Kw. exists f. split; [exact Hf|]. lia.
        * rewrite (fset_other _ win) by auto. rewrite Kq by (auto; eapply not0; eauto).
          destruct (Z.eq_dec p old) as [->|Hpo].
          -- rewrite fset_same. exists 0. split; [lia|]. unfold od. lia.
          -- rewrite fset_other by auto. destruct (t_def _ _ _ _ _ _ _ _ _ T p Hp) as (f' & Hf' & G). exists f'. split; [exact Hf'|].
             destruct (Z.eqb_spec p (-1)); [congruence|]. exact G.
      + intros p x Hp Hx. destruct (Z.eqb_spec p win) as [->|Hpw].
        * rewrite Kw in Hx. apply Hinl in Hx. destruct Hx as [->|Hx].
          -- destruct (Z.eqb_spec old win); [contradiction|]. lia.
          -- destruct (Hnr _ _ HwL Hx) as [_ Hxw]. apply Z.eqb_neq in Hxw. rewrite Hxw.
             pose proof (t_rk _ _ _ _ _ _ _ _ _ T _ _ HwL Hx). lia.
        * rewrite Kq in Hx by (auto; eapply not0; eauto). destruct (Hnr _ _ Hp Hx) as [_ Hxw]. apply Z.eqb_neq in Hxw. rewrite Hxw.
          apply (t_rk _ _ _ _ _ _ _ _ _ T _ _ Hp Hx).
      + intros p Hp. destruct (Z.eq_dec p win) as [->|Hpw].
        * rewrite kset_same, Kw. rewrite <- Hkl. rewrite <- Permutation_cons_append. constructor. apply (t_perm _ _ _ _ _ _ _ _ _ T win HwL).
        * rewrite kset_other by auto. rewrite Kq by (auto; eapply not0; eauto). apply (t_perm _ _ _ _ _ _ _ _ _ T p Hp).
      + intros p i c Hp Hi.
        assert (G : forall q i, In q L -> nth_error (ord q) i = Some c -> Z.of_nat i <= dg (defl h') c + fl (defl h') c + (if c =? -1 then 1 else 0)).
        { intros q j Hq Hj. pose proof (t_fib _ _ _ _ _ _ _ _ _ T q j c Hq Hj) as H.
          assert (Hcq : In c (kids q)).
          { eapply Permutation_in; [apply (t_perm _ _ _ _ _ _ _ _ _ T q Hq)|]. eapply nth_error_In; eauto. }
          destruct (Hnr _ _ Hq Hcq) as [N1 N2]. rewrite Dx, Fx; auto.
          eapply rg_kin; [exact R|right; exact Hq|exact Hcq]. }
        destruct (Z.eq_dec p win) as [->|Hpw]; [|rewrite kset_other in Hi by auto; eapply G; eauto].
        rewrite kset_same in Hi. destruct (Nat.lt_ge_cases i (length (ord win))) as [Hl|Hl].
        * rewrite nth_error_app1 in Hi by auto. eapply G; eauto.
        * rewrite nth_error_app2 in Hi by auto. destruct (i - length (ord win))%nat as [|k] eqn:Ei; [|destruct k; discriminate].
          inversion Hi. subst c. rewrite Dx by auto.
          pose proof (Permutation_length (t_perm _ _ _ _ _ _ _ _ _ T win HwL)) as PL.
          assert (0 <= fl (defl h') old).
          { rewrite Ed. unfold fl. rewrite fset_other by auto. rewrite fset_same.
            destruct (dgfl od (dg (defl h) old) 0) as [_ G']; [lia|unfold od; lia|]. lia. }
          unfold zlen in *. destruct (old =? -1); lia.
    - intros p x Hp Hx. destruct (Z.eq_dec p win) as [->|Hpw].
      + rewrite Kw in Hx. apply Hinl in Hx. destruct Hx as [->|Hx]; [exact Hc|]. apply Ho; auto.
      + rewrite Kq in Hx by (auto; eapply not0; eauto). apply Ho; auto. }
  assert (Kw1 : kids1 win = kids win) by (unfold kids1; now rewrite kset_other by lia).
  destruct (kids win) as [|c l] eqn:Ekw.
  - cbn [hd Z.eqb FNULL Pos.eqb negb]. rewrite set_defl_ok by (cbn [fnbr]; lia). cbn [bind].
    rewrite set_chld_ok by (cbn [fnbr]; lia). cbn [bind fnbr pare chld prev next defl degr].
    match goal with |- context [set_next ?h2 old old] => set (h2' := h2) end.
    destruct (rings_self h2' L kids1 win old) as (h' & El & Hd' & R' & _); auto.
    { eapply rings_data; [| | |exact R1]; unfold h2'; cbn [fnbr]; auto. }
    rewrite El. destruct Hd' as (G1 & G2 & G3 & G4 & G5).
    destruct (M h' [old] 2 (chld h')) as (ord' & rk' & M1 & M2 & M3 & M4 & M5).
    + reflexivity.
    + discriminate.
    + exact R'.
    + exact G2.
    + reflexivity.
    + left. rewrite G3. reflexivity.
    + rewrite G4. reflexivity.
    + exists 0. split; [lia|reflexivity].
    + exists h', (kset kids1 win [old]), ord', rk'. split; [reflexivity|]. split; [exact M1|]. split; [exact M2|]. split; [exact M3|].
      split; [exact M4|]. split; [exact M5|]. split; [rewrite G5; reflexivity|rewrite G1; reflexivity].
  - cbn [hd].
    assert (HcL : In c L) by (eapply (rg_kin _ _ _ R win); [now right|rewrite Ekw; now left]).
    apply (rg_in _ _ _ R) in HcL. destruct (Z.eqb_spec c FNULL) as [E|_]; [unfold FNULL in E; lia|]. cbn [negb].
    rewrite fget_ok by (cbn [fnbr]; lia). cbn [bind defl]. rewrite fset_other by auto.
    rewrite set_defl_ok by (cbn [fnbr]; lia). cbn [bind fnbr pare chld prev next defl degr].
    match goal with |- context [fiboHeapLinkAfter ?h2 c old] => set (h2' := h2) end.
    destruct (rings_linkc h2' L kids1 win c l old) as (h' & El & Hd' & R' & _); auto.
    { eapply rings_data; [| | |exact R1]; unfold h2'; cbn [fnbr]; auto. }
    rewrite El. destruct Hd' as (G1 & G2 & G3 & G4 & G5).
    destruct (M h' (c :: old :: l) (defl h win + 2) (chld h')) as (ord' & rk' & M1 & M2 & M3 & M4 & M5).
    + apply perm_swap.
    + discriminate.
    + exact R'.
    + exact G2.
    + reflexivity.
    + right. rewrite G3. split; [reflexivity|exact Wc].
    + rewrite G4. reflexivity.
    + exists (fl (defl h) win). split; [exact W2|]. rewrite !zlen_cons in *. lia.
    + exists h', (kset kids1 win (c :: old :: l)), ord', rk'. split; [reflexivity|]. split; [exact M1|]. split; [exact M2|]. split; [exact M3|].
      split; [exact M4|]. split; [exact M5|]. split; [rewrite G5; reflexivity|rewrite G1; reflexivity].
Qed.

Section Cons.
  Context (cmp : Z -> Z -> Z) (D : Z) (L : list Z) (n0 : Z).
  Context (Ctot : forall a b, cmp a b >= 0 -> cmp b a <= 0).
  Context (Ctr : forall a b c, cmp a b <= 0 -> cmp b c <= 0 -> cmp a c <= 0).
  Context (HD : 0 < D) (Hsz : zlen L < fib2 (Z.to_nat D)).

  (** Roots [A] are recorded in the degree array, except [root]. *)
  Record tabl (h : fheap) (A : list Z) (root dm : Z) : Prop := {
    tb_len : zlen (degr h) = D;
    tb_ent : forall d, 0 <= d < D -> at_ 0 (degr h) d = FNULL \/
       (In (at_ 0 (degr h) d) A /\ at_ 0 (degr h) d <> root /\ dg (defl h) (at_ 0 (degr h) d) = d);
    tb_all : forall x, In x A -> x <> root -> at_ 0 (degr h) (dg (defl h) x) = x;
    tb_max : forall d, dm < d < D -> at_ 0 (degr h) d = FNULL;
    tb_dm : 0 <= dm < D
  }.

  Lemma consLoop_ok fuel : forall h root nxt dm kids ord rk A B,
    good h L kids ord rk (-1) (-1) -> hord cmp L kids -> kids 0 = A ++ B -> fnbr h = n0 ->
    (root = 0 -> B = []) -> (root <> 0 -> In root A /\ nxt = hd 0 B) -> tabl h A root dm ->
    zlen B + zlen (kids 0) + (if root =? 0 then 0 else 1) < Z.of_nat fuel ->
    exists h' dm' kids' ord' rk', loop fuel (fiboConsBody cmp) (h, root, nxt, dm) = Ok (h', dm') /\
      good h' L kids' ord' rk' (-1) (-1) /\ hord cmp L kids' /\ fnbr h' = n0 /\ tabl h' (kids' 0) 0 dm'.
  Proof.
    induction fuel as [|fuel IH]; intros h root nxt dm kids ord rk A B G Ho E0 En H0 H1 Tb Hfu.
    { pose proof (zlen_nonneg B). pose proof (zlen_nonneg (kids 0)). destruct (root =? 0); lia. }
    cbn [loop fiboConsBody]. destruct (Z.eqb_spec root 0) as [Hr0|Hr0].
    { cbn [bind]. rewrite (H0 Hr0), app_nil_r in E0. exists h, dm, kids, ord, rk. rewrite E0. subst root.
      split; [reflexivity|]. auto. }
    destruct (H1 Hr0) as [HrA Hnx]. pose proof (proj1 G) as R.
    assert (HA : forall x, In x A -> In x (kids 0)) by (intros; rewrite E0; apply in_or_app; auto).
    assert (HAL : forall x, In x A -> In x L) by (intros; eapply (rg_kin _ _ _ R 0); [now left|auto]).
    assert (HrL : In root L) by auto.
    pose proof (rg_in _ _ _ R root HrL) as Hrr.
    pose proof (rg_knd _ _ _ R 0 (or_introl eq_refl)) as Hnd. rewrite E0 in Hnd.
    rewrite fget_ok by lia. cbn [bind].
    change (Z.shiftr (defl h root) 1) with (dg (defl h) root). set (d := dg (defl h) root).
    assert (Hd : 0 <= d < D).
    { unfold d. destruct (degree_bound h _ _ _ L kids ord rk R (proj2 G) root (Z.to_nat D) HrL Hsz). lia. }
    pose proof (tb_len _ _ _ _ Tb) as Hlen.
    rewrite rd_ok by lia. cbn [bind].
    destruct (Z.eqb_spec (at_ 0 (degr h) d) FNULL) as [Ht|Ht].
    - rewrite set_degr_ok by lia. cbn [bind].
      assert (Hnxr : 0 <= nxt < n0).
      { rewrite Hnx. destruct B as [|b B]; [cbn [hd]; lia|]. cbn [hd].
        assert (In b L) by (eapply (rg_kin _ _ _ R 0); [now left|rewrite E0; apply in_or_app; right; now left]).
        apply (rg_in _ _ _ R) in H. lia. }
      rewrite fget_ok by (unfold hdeg; cbn [fnbr]; lia). cbn [bind hdeg next].
      fold (hdeg h (upd 0 (degr h) d root)).
      set (dm' := if d >? dm then d else dm).
      assert (Hdm' : dm <= dm' /\ d <= dm' < D /\ 0 <= dm').
      { pose proof (tb_dm _ _ _ _ Tb). unfold dm'. destruct (d >? dm) eqn:X; lia. }
      (* the table, with [root] recorded *)
      assert (Tb' : forall root' A', (forall x, In x A -> In x A' /\ x <> root') -> (forall x, In x A' -> x = root' \/ In x A) ->
          tabl (hdeg h (upd 0 (degr h) d root)) A' root' dm').
      { intros root' A' S1 S2. constructor; cbn [hdeg degr defl].
        - rewrite zlen_upd. exact Hlen.
        - intros e He. rewrite at_upd by lia. destruct (Z.eqb_spec d e) as [<-|Hed].
          + right. destruct (S1 root HrA). split; [|split]; auto.
          + destruct (tb_ent _ _ _ _ Tb e He) as [X|(X1 & X2 & X3)]; [now left|]. right. destruct (S1 _ X1). auto.
        - intros x Hx Hxr. destruct (S2 x Hx) as [|HxA]; [contradiction|].
          assert (Hdx : 0 <= dg (defl h) x < D).
          { destruct (degree_bound h _ _ _ L kids ord rk R (proj2 G) x (Z.to_nat D) (HAL x HxA) Hsz). lia. }
          rewrite at_upd by lia. destruct (Z.eqb_spec d (dg (defl h) x)) as [Exd|Exd].
          + destruct (Z.eq_dec x root) as [->|Hxroot]; [reflexivity|].
            pose proof (tb_all _ _ _ _ Tb x HxA Hxroot) as X. rewrite <- Exd, Ht in X. apply HAL in HxA. apply (rg_in _ _ _ R) in HxA.
            unfold FNULL in X. lia.
          + apply (tb_all _ _ _ _ Tb x HxA). intros ->. now apply Exd.
        - intros e He. rewrite at_upd by lia. destruct (Z.eqb_spec d e) as [<-|Hed]; [lia|].
          apply (tb_max _ _ _ _ Tb). lia.
        - lia. }
      destruct B as [|b B].
      + cbn [hd] in Hnx. subst nxt.
        apply (IH _ 0 _ dm' kids ord rk A []); auto.
        * apply good_hdeg, G.
        * congruence.
        * apply Tb'; [|auto]. intros x Hx. split; [exact Hx|]. intros ->. apply HAL in Hx. apply (rg_in _ _ _ R) in Hx. lia.
        * cbn [Z.eqb]. lia.
      + cbn [hd] in Hnx. subst nxt.
        assert (Hb : In b L) by (eapply (rg_kin _ _ _ R 0); [now left|rewrite E0; apply in_or_app; right; now left]).
        pose proof (rg_in _ _ _ R b Hb) as Hbr.
        assert (HbA : ~ In b A) by (apply NoDup_remove_2 in Hnd; rewrite in_app_iff in Hnd; tauto).
        apply (IH _ b _ dm' kids ord rk (A ++ [b]) B); auto.
        * apply good_hdeg, G.
        * rewrite E0, <- app_assoc. reflexivity.
        * intros ->. lia.
        * intros _. split; [apply in_or_app; right; now left|].
          pose proof (rg_root _ _ _ R) as Hring. rewrite E0 in Hring. cbn [ring] in Hring. rewrite seg_app in Hring.
          destruct Hring as [_ Hring]. apply seg_next in Hring. exact Hring.
        * apply Tb'.
          -- intros x Hx. split; [apply in_or_app; now left|]. intros ->. contradiction.
          -- intros x Hx. apply in_app_or in Hx. destruct Hx as [Hx|[<-|[]]]; auto.
        * rewrite zlen_cons in Hfu. destruct (b =? 0); lia.
    - set (t := at_ 0 (degr h) d) in *.
      destruct (tb_ent _ _ _ _ Tb d Hd) as [X|(HtA & Htr & Htd)]; [fold t in X; contradiction|]. fold t in HtA, Htr, Htd.
      assert (W : exists old win, (if cmp t root <=? 0 then (root, t) else (t, root)) = (old, win) /\ cmp win old <= 0 /\
         old <> win /\ In old A /\ In win A /\ dg (defl h) old = d /\ dg (defl h) win = d /\ (forall x, x <> old -> x <> win -> x <> t /\ x <> root)).
      { destruct (Z.leb_spec (cmp t root) 0) as [Hc|Hc].
        - exists root, t. repeat split; auto.
        - exists t, root. split; [reflexivity|]. split; [apply Ctot; lia|]. repeat split; auto. }
      destruct W as (old & win & Ew & Hc & Hne & HoA & HwA & Hdo & Hdw & Hxx). rewrite Ew. clear Ew.
      rewrite set_degr_ok by lia. cbn [bind].
      destruct (in_split _ _ HoA) as (a1 & a2 & EA).
      assert (E0' : kids 0 = a1 ++ old :: (a2 ++ B)) by (rewrite E0, EA, <- app_assoc; reflexivity).
      destruct (link_ok cmp (hdeg h (upd 0 (degr h) d FNULL)) L kids ord rk old win a1 (a2 ++ B))
        as (h' & k' & o' & r' & L1 & L2 & L3 & L4 & L5 & L6 & L7 & L8); auto.
      { apply good_hdeg, G. }
      { cbn [hdeg defl]. congruence. }
      rewrite L1. cbn [bind].
      assert (HA' : forall x, In x (a1 ++ a2) <-> In x A /\ x <> old).
      { intros x. assert (NoDup A) by (eapply NoDup_left; eauto). rewrite EA in H. apply NoDup_remove_2 in H.
        rewrite EA. rewrite !in_app_iff in *. simpl. split.
        - intros Hx. split; [tauto|]. intros ->. tauto.
        - intros [[Hx|[Hx|Hx]] Hxo]; [tauto|congruence|tauto]. }
      apply (IH h' win nxt dm k' o' r' (a1 ++ a2) B); auto.
      + rewrite L4, app_assoc. reflexivity.
      + rewrite L8. exact En.
      + intros ->. apply HAL in HwA. apply (rg_in _ _ _ R) in HwA. lia.
      + intros _. split; [|exact Hnx]. apply HA'. auto.
      + constructor.
        * rewrite L7. cbn [hdeg degr]. rewrite zlen_upd. exact Hlen.
        * intros e He. rewrite L7. cbn [hdeg degr]. rewrite at_upd by lia. destruct (Z.eqb_spec d e) as [<-|Hed]; [now left|].
          destruct (tb_ent _ _ _ _ Tb e He) as [X|(X1 & X2 & X3)]; [now left|]. right.
          assert (N : at_ 0 (degr h) e <> old /\ at_ 0 (degr h) e <> win) by (split; congruence).
          split; [apply HA'; tauto|]. split; [tauto|]. rewrite L5; [exact X3|tauto|]. apply HAL, X1.
        * intros x Hx Hxw. apply HA' in Hx. destruct Hx as [HxA Hxo]. rewrite L5; [|auto|apply HAL, HxA]. cbn [hdeg defl].
          destruct (Hxx x Hxo Hxw) as [Nt Nr]. pose proof (tb_all _ _ _ _ Tb x HxA Nr) as X.
          assert (Hdx : 0 <= dg (defl h) x < D).
          { destruct (degree_bound h _ _ _ L kids ord rk R (proj2 G) x (Z.to_nat D) (HAL x HxA) Hsz). lia. }
          rewrite L7. cbn [hdeg degr]. rewrite at_upd by lia. destruct (Z.eqb_spec d (dg (defl h) x)) as [Exd|]; [|exact X].
          exfalso. apply Nt. rewrite <- X, <- Exd. reflexivity.
        * intros e He. rewrite L7. cbn [hdeg degr]. pose proof (tb_dm _ _ _ _ Tb). rewrite at_upd by lia.
          destruct (Z.eqb_spec d e); [reflexivity|]. now apply (tb_max _ _ _ _ Tb).
        * apply (tb_dm _ _ _ _ Tb).
      + rewrite L4. rewrite E0' in Hfu. rewrite !zlen_app, ?zlen_cons, ?zlen_app in *.
        destruct (win =? 0); lia.
  Qed.

  (** The search for the best root. *)
  Lemma best2_ok fuel R0 : forall h dm e best,
    zlen (degr h) = D -> 0 <= dm < D -> 0 <= e ->
    (forall d, 0 <= d < D -> d < e \/ dm < d -> at_ 0 (degr h) d = FNULL) ->
    (forall d, e <= d <= dm -> at_ 0 (degr h) d = FNULL \/ In (at_ 0 (degr h) d) R0) ->
    (forall x, In x R0 -> x <> FNULL) ->
    In best R0 -> (forall x, In x R0 -> cmp best x <= 0 \/ exists d, e <= d <= dm /\ at_ 0 (degr h) d = x) ->
    0 <= dm + 1 - e < Z.of_nat fuel ->
    exists t r, loop fuel (fiboBest2Body cmp dm) (h, e, best) = Ok (hdeg h t, r) /\ zlen t = D /\
      (forall d, 0 <= d < D -> at_ 0 t d = FNULL) /\ In r R0 /\ forall x, In x R0 -> cmp r x <= 0.
  Proof.
    clear Hsz HD n0. induction fuel as [|fuel IH]; intros h dm e best Hlen Hdm He Hn Ht Hnn Hb Hbest Hf.
    - lia.
    - cbn [loop fiboBest2Body]. destruct (Z.gtb_spec e dm) as [Hg|Hg].
      + cbn [bind]. exists (degr h), best. split; [destruct h; reflexivity|]. split; [exact Hlen|]. split.
        * intros d Hd. apply Hn; lia.
        * split; [exact Hb|]. intros x Hx. destruct (Hbest x Hx) as [|(d & Hd & _)]; [assumption|lia].
      + rewrite rd_ok by lia. cbn [bind]. set (t := at_ 0 (degr h) e) in *.
        destruct (Z.eqb_spec t FNULL) as [Htn|Htn]; cbn [negb].
        * cbn [bind]. destruct (IH h dm (e + 1) best) as (tt & r & I1 & I2 & I3 & I4 & I5); auto; try lia.
          -- intros d Hd Hor. destruct (Z.eq_dec d e) as [->|]; [exact Htn|]. apply Hn; lia.
          -- intros d Hd. apply Ht. lia.
          -- intros x Hx. destruct (Hbest x Hx) as [|(d & Hd & Ed)]; [now left|]. right. exists d. split; [|exact Ed].
             assert (d <> e); [|lia]. intros ->. apply (Hnn x Hx). rewrite <- Ed. exact Htn.
          -- exists tt, r. auto.
        * rewrite set_degr_ok by lia. cbn [bind].
          assert (HtR : In t R0) by (destruct (Ht e) as [X|X]; [lia|contradiction|exact X]).
          set (b' := if cmp t best <? 0 then t else best).
          assert (Hb' : In b' R0 /\ cmp b' best <= 0 /\ cmp b' t <= 0).
          { assert (Rf : forall a, cmp a a <= 0).
            { intros a. destruct (Z_le_gt_dec (cmp a a) 0); [assumption|]. apply Ctot; lia. }
            unfold b'. destruct (Z.ltb_spec (cmp t best) 0).
            - split; [auto|]. split; [lia|apply Rf].
            - split; [auto|]. split; [apply Rf|]. apply Ctot. lia. }
          destruct Hb' as (B1 & B2 & B3).
          destruct (IH (hdeg h (upd 0 (degr h) e FNULL)) dm (e + 1) b') as (tt & r & I1 & I2 & I3 & I4 & I5); cbn [hdeg degr]; auto; try lia.
          -- rewrite zlen_upd. exact Hlen.
          -- intros d Hd Hor. rewrite at_upd by lia. destruct (Z.eqb_spec e d); [reflexivity|]. apply Hn; lia.
          -- intros d Hd. rewrite at_upd by lia. destruct (Z.eqb_spec e d); [lia|]. apply Ht. lia.
          -- intros x Hx. destruct (Hbest x Hx) as [X|(d & Hd & Ed)]; [left; eauto|].
             destruct (Z.eq_dec d e) as [->|]; [left; rewrite <- Ed; exact B3|]. right. exists d. split; [lia|].
             rewrite at_upd by lia. destruct (Z.eqb_spec e d); [congruence|exact Ed].
          -- exists tt, r. auto.
  Qed.

  Lemma best1_ok fuel : forall h dm e,
    zlen (degr h) = D -> 0 <= dm < D -> 0 <= e -> 0 <= dm + 1 - e < Z.of_nat fuel ->
    (forall d, 0 <= d < e -> at_ 0 (degr h) d = FNULL) ->
    (loop fuel (fiboBest1Body dm) (h, e) = Ok (h, dm + 1, FNULL) /\ forall d, 0 <= d <= dm -> at_ 0 (degr h) d = FNULL) \/
    exists e', e <= e' <= dm /\ at_ 0 (degr h) e' <> FNULL /\ (forall d, 0 <= d < e' -> at_ 0 (degr h) d = FNULL) /\
      loop fuel (fiboBest1Body dm) (h, e) = Ok (hdeg h (upd 0 (degr h) e' FNULL), e' + 1, at_ 0 (degr h) e').
  Proof.
    clear Hsz HD n0 Ctot Ctr cmp L. induction fuel as [|fuel IH]; intros h dm e Hlen Hdm He Hf Hn; [lia|].
    cbn [loop fiboBest1Body]. destruct (Z.gtb_spec e dm) as [Hg|Hg].
    - left. cbn [bind]. replace e with (dm + 1) by lia. split; [reflexivity|]. intros d Hd. apply Hn. lia.
    - rewrite rd_ok by lia. cbn [bind]. destruct (Z.eqb_spec (at_ 0 (degr h) e) FNULL) as [Ht|Ht]; cbn [negb].
      + cbn [bind]. destruct (IH h dm (e + 1)) as [[I1 I2]|(e' & I1 & I2 & I3 & I4)]; auto; try lia.
        * intros d Hd. destruct (Z.eq_dec d e) as [->|]; [exact Ht|]. apply Hn. lia.
        * right. exists e'. split; [lia|auto].
      + rewrite set_degr_ok by lia. cbn [bind]. right. exists e. split; [lia|]. auto.
  Qed.

  Lemma root_above h kids ord rk : good h L kids ord rk (-1) (-1) -> hord cmp L kids ->
    forall y, In y L -> exists z, In z (kids 0) /\ cmp z y <= 0.
  Proof.
    clear Hsz HD n0. intros [R T] Ho.
    assert (M : exists m, forall y, In y L -> (rk y <= m)%nat).
    { exists (list_max (map rk L)). intros y Hy.
      pose proof (proj1 (list_max_le (map rk L) _) (le_n _)) as F. rewrite Forall_forall in F. apply F. now apply in_map. }
    destruct M as (m & Hm).
    assert (G : forall k y, In y L -> (m - rk y <= k)%nat -> exists z, In z (kids 0) /\ cmp z y <= 0).
    { induction k as [|k IH]; intros y Hy Hk;
        (destruct (t_cov _ _ _ _ _ _ _ _ _ T y Hy) as (p & [<-|Hp] & Hyp);
         [exists y; split; [exact Hyp|]; destruct (Z_le_gt_dec (cmp y y) 0); [assumption|apply Ctot; lia]|]);
        pose proof (t_rk _ _ _ _ _ _ _ _ _ T p y Hp Hyp); pose proof (Hm p Hp).
      - lia.
      - destruct (IH p Hp) as (z & Hz & Hc); [lia|]. exists z. split; [exact Hz|]. eapply Ctr; [exact Hc|]. now apply Ho. }
    intros y Hy. eapply G; eauto.
  Qed.

  Lemma min_ok fuel h kids ord rk :
    good h L kids ord rk (-1) (-1) -> hord cmp L kids -> zlen (degr h) = D ->
    (forall d, 0 <= d < D -> at_ 0 (degr h) d = FNULL) ->
    2 * zlen L + D + 1 < Z.of_nat fuel -> fnbr h = n0 ->
    exists h' r kids' ord' rk', fiboHeapMin fuel cmp h = Ok (h', r) /\ good h' L kids' ord' rk' (-1) (-1) /\ hord cmp L kids' /\
      fnbr h' = fnbr h /\ zlen (degr h') = D /\ (forall d, 0 <= d < D -> at_ 0 (degr h') d = FNULL) /\
      ((L = [] /\ r = FNULL) \/ (In r L /\ forall y, In y L -> cmp r y <= 0)).
  Proof.
    intros G Ho Hlen Hnull Hfu Hn0. pose proof (proj1 G) as R. pose proof (roots_le _ _ _ R) as Hrl.
    pose proof (rg_nz _ _ _ R) as Hnz. pose proof (zlen_nonneg L) as HL0.
    unfold fiboHeapMin. rewrite fget_ok by lia. cbn [bind].
    pose proof (rg_root _ _ _ R) as Hring. cbn [ring] in Hring. pose proof (seg_next _ _ _ _ Hring) as Enx. rewrite Enx.
    assert (Hhd : 0 <= hd 0 (kids 0) < fnbr h).
    { destruct (kids 0) as [|r B] eqn:E0; cbn [hd]; [lia|].
      assert (In r L) by (eapply (rg_kin _ _ _ R 0); [now left|rewrite E0; now left]). apply (rg_in _ _ _ R) in H. lia. }
    rewrite fget_ok by exact Hhd. cbn [bind].
    assert (C : exists h' dm' kids' ord' rk', loop fuel (fiboConsBody cmp) (h, hd 0 (kids 0), next h (hd 0 (kids 0)), 0) = Ok (h', dm') /\
      good h' L kids' ord' rk' (-1) (-1) /\ hord cmp L kids' /\ fnbr h' = n0 /\ tabl h' (kids' 0) 0 dm').
    { assert (Tb0 : forall A r, (forall x, In x A -> x = r) -> tabl h A r 0).
      { intros A r HA. constructor; auto; try lia. }
      destruct (kids 0) as [|r B] eqn:E0; cbn [hd].
      - apply (consLoop_ok fuel h 0 (next h 0) 0 kids ord rk [] []); auto; try congruence.
        + apply Tb0. intros x [].
        + rewrite E0. change (zlen (@nil Z)) with 0. cbn [Z.eqb]. lia.
      - assert (Hr : In r L) by (eapply (rg_kin _ _ _ R 0); [now left|rewrite E0; now left]). apply (rg_in _ _ _ R) in Hr.
        apply (consLoop_ok fuel h r (next h r) 0 kids ord rk [r] B); auto.
        + intros ->. lia.
        + intros _. split; [now left|]. cbn [seg] in Hring. destruct Hring as [_ Hring]. apply seg_next in Hring. exact Hring.
        + apply Tb0. intros x [<-|[]]. reflexivity.
        + rewrite E0, zlen_cons. rewrite zlen_cons in Hrl. destruct (r =? 0); lia. }
    destruct C as (h1 & dm & k1 & o1 & r1 & E1 & G1 & Ho1 & En1 & Tb). rewrite E1. cbn [bind].
    pose proof (tb_dm _ _ _ _ Tb) as Hdm. pose proof (tb_len _ _ _ _ Tb) as Hl1.
    destruct (best1_ok fuel h1 dm 0 Hl1 Hdm) as [[I1 I2]|(e & I1 & I2 & I3 & I4)]; try lia.
    - rewrite I1. cbn [bind].
      assert (Hk : k1 0 = []).
      { destruct (k1 0) as [|x l] eqn:Ek; [reflexivity|]. exfalso.
        assert (HxL : In x L) by (eapply (rg_kin _ _ _ (proj1 G1) 0); [now left|rewrite Ek; now left]).
        pose proof (rg_in _ _ _ (proj1 G1) x HxL).
        pose proof (tb_all _ _ _ _ Tb x (or_introl eq_refl) ltac:(lia)) as X.
        destruct (degree_bound h1 _ _ _ L k1 o1 r1 (proj1 G1) (proj2 G1) x (Z.to_nat D) HxL Hsz) as [Y1 Y2].
        destruct (Z_le_gt_dec (dg (defl h1) x) dm).
        - rewrite I2 in X by lia. unfold FNULL in X. lia.
        - rewrite (tb_max _ _ _ _ Tb) in X by lia. unfold FNULL in X. lia. }
      destruct fuel as [|fuel]; [lia|]. cbn [loop fiboBest2Body]. destruct (Z.gtb_spec (dm + 1) dm); [|lia]. cbn [bind].
      exists h1, FNULL, k1, o1, r1. split; [reflexivity|]. split; [exact G1|]. split; [exact Ho1|]. split; [congruence|]. split; [exact Hl1|].
      split.
      + intros d Hd. destruct (Z_le_gt_dec d dm); [apply I2; lia|apply (tb_max _ _ _ _ Tb); lia].
      + left. split; [|reflexivity]. destruct L as [|y L'] eqn:EL; [reflexivity|]. exfalso.
        destruct (root_above h1 k1 o1 r1) with (y := y) as (z & Hz & _); auto; try (rewrite EL; auto); [now left|].
        rewrite Hk in Hz. destruct Hz.
    - rewrite I4. cbn [bind].
      destruct (tb_ent _ _ _ _ Tb e) as [X|(X1 & X2 & X3)]; [lia|contradiction|].
      destruct (best2_ok fuel (k1 0) (hdeg h1 (upd 0 (degr h1) e FNULL)) dm (e + 1) (at_ 0 (degr h1) e)) as (t & r & J1 & J2 & J3 & J4 & J5);
        cbn [hdeg degr]; auto; try lia.
      + rewrite zlen_upd. exact Hl1.
      + intros d Hd Hor. rewrite at_upd by lia. destruct (Z.eqb_spec e d); [reflexivity|].
        destruct Hor; [apply I3; lia|apply (tb_max _ _ _ _ Tb); lia].
      + intros d Hd. rewrite at_upd by lia. destruct (Z.eqb_spec e d); [now left|].
        destruct (tb_ent _ _ _ _ Tb d) as [Y|(Y & _)]; [lia|now left|now right].
      + intros x Hx. assert (HxL : In x L) by (eapply (rg_kin _ _ _ (proj1 G1) 0); [now left|exact Hx]).
        apply (rg_in _ _ _ (proj1 G1)) in HxL. unfold FNULL. lia.
      + intros x Hx. assert (HxL : In x L) by (eapply (rg_kin _ _ _ (proj1 G1) 0); [now left|exact Hx]).
        pose proof (rg_in _ _ _ (proj1 G1) x HxL).
        pose proof (tb_all _ _ _ _ Tb x Hx ltac:(lia)) as Xx.
        destruct (degree_bound h1 _ _ _ L k1 o1 r1 (proj1 G1) (proj2 G1) x (Z.to_nat D) HxL Hsz) as [Y1 Y2].
        destruct (Z.eq_dec (dg (defl h1) x) e) as [Ee|Ne].
        { left. rewrite <- Ee, Xx. destruct (Z_le_gt_dec (cmp x x) 0); [assumption|apply Ctot; lia]. }
        right. exists (dg (defl h1) x). rewrite at_upd by lia. destruct (Z.eqb_spec e (dg (defl h1) x)); [congruence|].
        split; [|exact Xx].
        destruct (Z_lt_ge_dec (dg (defl h1) x) e); [rewrite I3 in Xx by lia; unfold FNULL in Xx; lia|].
        destruct (Z_le_gt_dec (dg (defl h1) x) dm); [lia|]. rewrite (tb_max _ _ _ _ Tb) in Xx by lia. unfold FNULL in Xx; lia.
      + rewrite J1. eexists _, r, k1, o1, r1. split; [reflexivity|]. split; [apply good_hdeg, good_hdeg, G1|]. split; [exact Ho1|].
        cbn [hdeg fnbr degr]. split; [congruence|]. split; [exact J2|]. split; [exact J3|]. right.
        split; [eapply (rg_kin _ _ _ (proj1 G1) 0); [now left|exact J4]|].
        intros y Hy. destruct (root_above h1 k1 o1 r1 G1 Ho1 y Hy) as (z & Hz & Hc). eapply Ctr; [apply J5, Hz|exact Hc].
  Qed.
End Cons.
