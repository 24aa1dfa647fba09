(** Histories of the Fibonacci heap. *)
From Verif Require Import Base M_Fibo S_Fibo P_Fibo P_Fibo2 P_Fibo3 P_Fibo4 P_Fibo5.

Lemma rings_nil h : 0 < fnbr h -> next h 0 = 0 -> prev h 0 = 0 -> rings h [] (fun _ => []).
Proof.
  intros H1 H2 H3. split; auto; try (intros; apply NoDup_nil); try (intros; exact I); try (intros; contradiction).
  - cbn. unfold lk. auto.
Qed.
Lemma fset_same f x v : fset f x v x = v.
Proof. unfold fset. now rewrite Z.eqb_refl. Qed.

Section Hist.
  Context {K : Type} (cmp : K -> K -> Z) (TP : total_preorder cmp) (n cap D : Z) (fuel : nat).
  Context (HD : 0 < D) (Hcap : cap < fib2 (Z.to_nat D)) (Hfuel : 2 * cap + D + 1 < Z.of_nat fuel).

  Lemma cmp_tot a b : cmp a b >= 0 -> cmp b a <= 0.
  Proof.
    clear - TP. intros H. destruct (Z_le_gt_dec (cmp b a) 0) as [|G]; [assumption|]. apply (tp_sym _ TP) in G. lia.
  Qed.

  Definition sinv (st : fheap * (Z -> K)) (q : queue K) : Prop :=
    let '(h, ks) := st in
    NoDup (map fst q) /\ (forall x k, In (x, k) q -> ks x = k) /\ zlen q <= cap /\ fnbr h = n + 1 /\
    zlen (degr h) = D /\ (forall d, 0 <= d < D -> at_ 0 (degr h) d = FNULL) /\
    exists L kids ord rk, good h L kids ord rk (-1) (-1) /\ hord (fun a b => cmp (ks a) (ks b)) L kids /\
      Permutation L (map fst q).

  Lemma In_remq x (q : queue K) y k : In (y, k) (remq x q) <-> In (y, k) q /\ y <> x.
  Proof.
    clear. unfold remq. rewrite filter_In. cbn [fst]. rewrite negb_true_iff, Z.eqb_neq. tauto.
  Qed.
  Lemma map_remq x (q : queue K) : map fst (remq x q) = del x (map fst q).
  Proof.
    clear. unfold remq, del. induction q as [|[y k] q IH]; [reflexivity|]. cbn [filter map fst List.remove].
    destruct (Z.eqb_spec y x) as [->|Hne]; cbn [negb]; destruct (Z.eq_dec x _); try congruence.
    cbn [map fst]. now rewrite IH.
  Qed.
  Lemma zlen_remq x (q : queue K) : zlen (remq x q) <= zlen q.
  Proof.
    clear. unfold remq. induction q as [|[y k] q IH]; [reflexivity|]. cbn [filter fst].
    destruct (negb (y =? x)); repeat rewrite zlen_cons; lia.
  Qed.
  Lemma zlen_remq1 x (q : queue K) : In x (map fst q) -> zlen (remq x q) + 1 <= zlen q.
  Proof.
    clear. intros H. induction q as [|[y k] q IH]; [destruct H|]. cbn [map fst] in H. unfold remq in *. cbn [filter fst].
    destruct (Z.eqb_spec y x) as [->|Hne]; cbn [negb]; repeat rewrite zlen_cons.
    - pose proof (zlen_remq x q) as Z0. unfold remq in Z0. lia.
    - destruct H as [H|H]; [congruence|]. apply IH in H. lia.
  Qed.
  Lemma del_perm x l l' : Permutation l l' -> Permutation (del x l) (del x l').
  Proof.
    clear. unfold del. induction 1; cbn [List.remove]; auto.
    - destruct (Z.eq_dec x x0); auto.
    - destruct (Z.eq_dec x x0), (Z.eq_dec x y); auto. apply perm_swap.
    - etransitivity; eauto.
  Qed.

  Lemma init_ok h ks : 0 <= n -> 0 <= cap -> fnbr h = n + 1 -> exists h', fiboHeapInit D h = Ok h' /\ sinv (h', ks) [].
  Proof.
    clear TP Hcap Hfuel. intros Hn Hc0 En. unfold fiboHeapInit. rewrite set_next_ok by lia. cbn [bind]. rewrite set_prev_ok by (cbn [fnbr]; lia).
    cbn [bind fnbr pare chld prev next defl degr]. eexists. split; [reflexivity|].
    split; [constructor|]. split; [intros x k []|]. split; [exact Hc0|]. cbn [fnbr degr]. split; [exact En|].
    split; [rewrite zlen_repeat; lia|]. split; [intros d Hd; rewrite at_repeat by lia; reflexivity|].
    exists [], (fun _ => []), (fun _ => []), (fun _ => O). split; [split|split].
    - apply rings_nil; cbn [fnbr next prev]; [lia|apply fset_same..].
    - constructor; try (intros p []); try (intros; contradiction).
    - intros p x [].
    - constructor.
  Qed.

  Lemma step_ok st q o : 0 <= n -> sinv st q -> legal cmp n cap q o ->
    exists st' rs, fstep fuel cmp st o = Ok (st', rs) /\ sinv st' (qstep q o) /\
      match o with FMin => exists r, rs = [r] /\ min_of cmp q r | _ => rs = [] end.
  Proof.
    destruct st as [h ks]. intros Hn (S1 & S2 & S3 & S4 & S5 & S6 & L & kids & ord & rk & G & Ho & P) Hl.
    assert (PL : zlen L = zlen q) by (unfold zlen; rewrite (Permutation_length P), map_length; reflexivity).
    assert (InL : forall x, In x L <-> In x (map fst q)) by (intros x; split; apply Permutation_in; [exact P|symmetry; exact P]).
    assert (Hinj : forall x k k', In (x, k) q -> In (x, k') q -> k = k').
    { intros x k k' H1 H2. apply S2 in H1. apply S2 in H2. congruence. }
    destruct o as [x k|x|x k| |]; cbn [legal] in Hl; cbn [fstep qstep].
    - destruct Hl as (Hx & Hxq & Hlen).
      destruct (add_ok (fun a b => cmp (ks a) (ks b)) h L kids ord rk x G Ho) as (h' & k' & o' & E & G' & Ho' & Ed & En).
      + now rewrite InL.
      + lia.
      + rewrite E. cbn [bind]. eexists _, []. split; [reflexivity|]. split; [|reflexivity].
        split; [cbn [map fst]; constructor; assumption|]. split; [|split; [rewrite zlen_cons; lia|split; [congruence|]]].
        * intros y j [H|H].
          -- inversion H; subst. now rewrite Z.eqb_refl.
          -- destruct (Z.eqb_spec y x) as [->|]; [|now apply S2]. exfalso. apply Hxq. apply (in_map fst) in H. exact H.
        * rewrite Ed. split; [exact S5|]. split; [exact S6|].
          exists (x :: L), k', o', rk. split; [exact G'|]. split; [|cbn [map fst]; now constructor].
          apply Ho'. intros p y Hp Hy. cbn beta.
          destruct (Z.eqb_spec p x) as [->|]; [exfalso; apply Hxq, InL, Hp|].
          destruct (Z.eqb_spec y x) as [->|]; [exfalso; apply Hxq, InL, Hy|]. reflexivity.
    - destruct (del_ok fuel h L kids ord rk x G) as (h' & k' & o' & E & G' & Hsub & Ed & En).
      + now apply InL.
      + lia.
      + rewrite E. cbn [bind]. eexists _, []. split; [reflexivity|]. split; [|reflexivity].
        split; [rewrite map_remq; now apply NoDup_del|]. split; [|split; [pose proof (zlen_remq x q); lia|split; [congruence|]]].
        * intros y j H. apply In_remq in H. apply S2. tauto.
        * rewrite Ed. split; [exact S5|]. split; [exact S6|].
          exists (del x L), k', o', rk. split; [exact G'|]. split; [|rewrite map_remq; now apply del_perm].
          intros p y Hp Hy. apply Ho; [apply In_del in Hp; tauto|]. now apply Hsub.
    - destruct Hl as (k0 & Hin & Hc).
      assert (HxL : In x L) by (apply InL; apply (in_map fst) in Hin; exact Hin).
      set (ks' := fun y => if y =? x then k else ks y).
      destruct (decrease_ok fuel (fun a b => cmp (ks' a) (ks' b)) h L kids ord rk x G HxL) as (h' & k' & o' & E & G' & Ho' & Ed & En).
      + lia.
      + intros p y Hp Hy Hyx. pose proof (Ho p y Hp Hy) as H. cbn beta in H. unfold ks'.
        destruct (Z.eqb_spec y x); [contradiction|]. destruct (Z.eqb_spec p x) as [->|]; [|exact H].
        eapply (tp_trans _ TP); [exact Hc|]. rewrite <- (S2 _ _ Hin). exact H.
      + intros a b. apply cmp_tot.
      + unfold ks' in E. rewrite E. fold ks'. cbn [bind]. eexists _, []. split; [reflexivity|]. split; [|reflexivity].
        assert (Hxd : In x (map fst q)) by (apply InL, HxL).
        split; [|split; [|split; [|split; [congruence|]]]].
        * cbn [map fst]. rewrite map_remq. constructor; [|now apply NoDup_del]. intros H. apply In_del in H. tauto.
        * intros y j [H|H].
          -- inversion H; subst. apply Z.eqb_refl || (unfold ks'; now rewrite Z.eqb_refl).
          -- apply In_remq in H. unfold ks'. destruct (Z.eqb_spec y x); [tauto|]. apply S2. tauto.
        * rewrite zlen_cons. pose proof (zlen_remq1 x q Hxd). lia.
        * rewrite Ed. split; [exact S5|]. split; [exact S6|].
          exists L, k', o', rk. split; [exact G'|]. split; [exact Ho'|]. cbn [map fst]. rewrite map_remq. rewrite P.
          clear - Hxd S1. induction (map fst q) as [|a l IH]; [destruct Hxd|]. inversion S1; subst.
          unfold del in *. cbn [List.remove]. destruct (Z.eq_dec x a) as [->|Hne].
          -- rewrite notin_remove by assumption. reflexivity.
          -- destruct Hxd as [|Hxd]; [congruence|]. rewrite perm_swap. constructor. apply IH; auto.
    - destruct (min_ok (fun a b => cmp (ks a) (ks b)) D L (fnbr h)) with (fuel := fuel) (h := h) (kids := kids) (ord := ord) (rk := rk)
        as (h' & r & k' & o' & rk' & E & G' & Ho' & En & El & Enl & Hr); auto; try lia.
      + intros a b. apply cmp_tot.
      + intros a b c. apply (tp_trans _ TP).
      + rewrite E. cbn [bind]. eexists _, _. split; [reflexivity|]. split.
        * split; [exact S1|]. split; [exact S2|]. split; [exact S3|]. split; [congruence|]. split; [exact El|]. split; [exact Enl|].
          exists L, k', o', rk'. auto.
        * exists r. split; [reflexivity|]. destruct Hr as [[-> ->]|[Hr1 Hr2]].
          -- left. split; [|reflexivity]. apply Permutation_nil in P. destruct q; [reflexivity|discriminate].
          -- right. apply InL in Hr1. apply in_map_iff in Hr1. destruct Hr1 as ([y k] & Ey & Hy). cbn [fst] in Ey. subst y.
             exists k. split; [exact Hy|]. intros x k1 Hx. rewrite <- (S2 _ _ Hy), <- (S2 _ _ Hx). apply Hr2. apply InL.
             apply (in_map fst) in Hx. exact Hx.
    - unfold fiboHeapFree. rewrite set_next_ok by lia. cbn [bind]. rewrite set_prev_ok by (cbn [fnbr]; lia). cbn [bind].
      eexists _, []. split; [reflexivity|]. split; [|reflexivity]. cbn [fnbr pare chld prev next defl degr].
      split; [constructor|]. split; [intros x k []|]. cbn [fnbr degr].
      split; [change (zlen (@nil (Z * K))) with 0; pose proof (zlen_nonneg q); lia|].
      split; [exact S4|]. split; [exact S5|]. split; [exact S6|].
      exists [], (fun _ => []), (fun _ => []), (fun _ => O). split; [split|split].
      + apply rings_nil; cbn [fnbr next prev]; [lia|apply fset_same..].
      + constructor; try (intros p []); try (intros; contradiction).
      + intros p x [].
      + constructor.
  Qed.

  Lemma steps_ok os : forall st q, 0 <= n -> sinv st q -> legals cmp n cap q os ->
    exists st' rs, fsteps fuel cmp st os = Ok (st', rs) /\ right_answers cmp q os rs /\ sinv st' (fold_left qstep os q).
  Proof.
    induction os as [|o os IH]; intros st q Hn Hs Hl.
    - exists st, []. split; [reflexivity|]. split; [reflexivity|exact Hs].
    - destruct Hl as [Hl1 Hl2]. destruct (step_ok st q o Hn Hs Hl1) as (st1 & r1 & E1 & S1 & A1).
      destruct (IH st1 (qstep q o) Hn S1 Hl2) as (st2 & r2 & E2 & A2 & S2).
      exists st2, (r1 ++ r2). cbn [fsteps]. rewrite E1. cbn [bind]. rewrite E2. cbn [bind]. split; [reflexivity|]. split; [|exact S2].
      destruct o; cbn [right_answers]; try (subst r1; exact A2).
      destruct A1 as (r & -> & Hm). exists r, r2. cbn [app]. split; [reflexivity|]. split; [exact Hm|exact A2].
  Qed.

  Lemma drain_ok k : forall st q, 0 <= n -> sinv st q -> zlen q < Z.of_nat k ->
    exists l qs, drain fuel cmp st k = Ok l /\ map fst qs = l /\ Permutation qs q /\
      StronglySorted (fun a b => cmp (snd a) (snd b) <= 0) qs.
  Proof.
    induction k as [|k IH]; intros st q Hn Hs Hk; [pose proof (zlen_nonneg q); lia|].
    assert (N1 : forall x j, In (x, j) q -> x <> FNULL).
    { destruct st as [h ks]. destruct Hs as (_ & _ & _ & _ & _ & _ & L & kids & ord & rk & G & _ & P). intros x j Hx ->.
      apply (in_map fst) in Hx. cbn [fst] in Hx. eapply Permutation_in in Hx; [|symmetry; exact P].
      apply (rg_in _ _ _ (proj1 G)) in Hx. unfold FNULL in Hx. lia. }
    destruct (step_ok st q FMin Hn Hs I) as (st1 & r1 & E1 & S1 & (r & -> & Hm)). cbn [qstep] in S1.
    cbn [drain]. rewrite E1. cbn [bind]. destruct Hm as [[-> ->]|(kr & Hr & Hmin)].
    - cbn [Z.eqb FNULL Pos.eqb]. exists [], []. repeat split; constructor.
    - destruct (Z.eqb_spec r FNULL) as [E|_]; [exfalso; eapply N1; eauto|].
      assert (Hrm : In r (map fst q)) by (apply (in_map fst) in Hr; exact Hr).
      destruct (step_ok st1 q (FDel r) Hn S1 Hrm) as (st2 & r2 & E2 & S2 & ->). rewrite E2. cbn [bind].
      cbn [qstep] in S2. destruct (IH st2 (remq r q) Hn S2) as (l & qs & E3 & M & P & SS).
      { pose proof (zlen_remq1 r q Hrm). lia. }
      rewrite E3. cbn [bind]. exists (r :: l), ((r, kr) :: qs). split; [reflexivity|]. split; [cbn [map fst]; now rewrite M|].
      assert (Hnd : NoDup (map fst q)) by (destruct st; apply Hs).
      split.
      + rewrite P. clear - Hr Hnd. revert Hr. induction q as [|[y j] q IH]; [intros []|]. intros Hr.
        cbn [map fst] in Hnd. inversion Hnd as [|? ? H1 H2]; subst. unfold remq in *. cbn [filter fst].
        destruct (Z.eqb_spec y r) as [->|Hne]; cbn [negb].
        * assert (Ej : j = kr) by (destruct Hr as [Hr|Hr]; [now inversion Hr|]; apply (in_map fst) in Hr; contradiction). subst j.
          constructor. clear - H1. induction q as [|[y j] q IH]; [constructor|]. cbn [map fst] in H1. cbn [filter fst].
          destruct (Z.eqb_spec y r) as [->|]; [exfalso; apply H1; now left|]. cbn [negb]. constructor. apply IH. intros H; apply H1; now right.
        * destruct Hr as [Hr|Hr]; [inversion Hr; congruence|]. rewrite perm_swap. constructor. apply IH; auto.
      + constructor; [exact SS|]. apply Forall_forall. intros [y j] Hy. cbn [snd].
        eapply Permutation_in in Hy; [|exact P]. apply In_remq in Hy. eapply Hmin. apply Hy.
  Qed.

  Theorem run_ok h ks os : 0 <= n -> 0 <= cap -> fnbr h = n + 1 -> legals cmp n cap [] os ->
    exists st rs, frun fuel cmp D h ks os = Ok (st, rs) /\ right_answers cmp [] os rs /\ sinv st (fold_left qstep os []).
  Proof.
    intros Hn Hc En Hl. destruct (init_ok h ks Hn Hc En) as (h' & E & S). unfold frun. rewrite E. cbn [bind].
    apply steps_ok; auto.
  Qed.
End Hist.
