(** Proofs about fixed vertices in recursive bipartitioning. *)
From Verif Require Import Base M_Graph M_Vgraph M_Bgraph M_Arch M_Induce M_KgraphMap
  S_Graph S_Bgraph S_Arch S_Induce S_KgraphMap P_Graph P_Vgraph P_Bgraph2 P_Arch P_Induce P_KgraphMap P_Hash.

Definition vlist (g : graph) : list Z := zseq (baseval g) (vertnbr g).
Definition nfix (g : graph) (pf : list Z) : Z := zlen (filter (fun v => 0 <=? at_ (baseval g) pf v) (vlist g)).

Lemma zlen_filter_compl (f : Z -> bool) l : zlen (filter f l) + zlen (filter (fun v => negb (f v)) l) = zlen l.
Proof. induction l as [|a l IH]; [reflexivity|]. cbn [filter]. destruct (f a); cbn [negb]; rewrite ?zlen_cons; lia. Qed.

Lemma subg_refl g : graph_valid g -> graph_readable g -> 0 <= baseval g -> vnumtab g = None -> subg g g.
Proof.
  intros V R B N. assert (O : forall v, orig g v = v) by (intros v; unfold orig; now rewrite N).
  constructor; auto; try (intros; rewrite ?O in *; auto; congruence).
  exists (fun _ => true). split; [intros w Hw; split; [intros _; exists w; auto | reflexivity]|]. intros v Hv. rewrite O.
  replace (filter (fun x => true) (nbr g v)) with (nbr g v) by (clear; induction (nbr g v) as [|x l IH]; cbn [filter]; congruence).
  rewrite <- (map_id (nbr g v)) at 2. apply map_ext. intros [a c]. cbn [fst snd]. now rewrite O.
Qed.

Lemma velo_rd g v : graph_readable g -> graph_valid g -> isvert g v ->
  (match velotab g with Some l => rd (baseval g) l v | None => Ok 1 end) = Ok (velo g v).
Proof.
  intros R V Hv. pose proof (gv_nnd _ V). unfold isvert in Hv. unfold velo. destruct (velotab g) as [t|] eqn:E; [|reflexivity].
  pose proof (gr_velo _ R t E). apply rd_ok. lia.
Qed.

Section Gen.
Context {D : Type} `{DD : Dflt D}.
Context (N : Z) (wf : D -> Prop) (mem : D -> Z -> Prop) (A : arch D) (AO : arch_ok N wf mem A).
Context (jkd : D) (jk al : Z) (Hal : 1 <= al <= 2).

Lemma frst_size : exists d, a_frst A = Ok d /\ wf d /\ (forall t, mem d t <-> 0 <= t < N) /\ a_size A d = Ok N /\ 1 <= N /\ card (mem d) N.
Proof.
  destruct (ao_frst _ _ _ _ AO) as (d & E & W & M). destruct (ao_size _ _ _ _ AO d W) as (k & Ek & K1 & C).
  assert (k = N); [|subst k; exists d; repeat (split; [assumption|]); assumption].
  destruct (card_pos _ _ C ltac:(lia)) as [t Ht]. apply M in Ht.
  apply (card_unique (mem d) k N C). apply (card_ext (fun t => 0 <= t < 0 + N)); [intros t'; rewrite M; lia|]. apply card_interval. lia.
Qed.

(** The slots after the vertices below [hi] *)
Record slots (org : graph) (pf : list Z) (q hi : Z) (tab : list (Z * Z)) : Prop := {
  sl_hash : hash_ok q tab;
  sl_key : forall i, 0 <= i < 2 ^ q -> hkey tab i <> -1 -> exists u, baseval org <= u < hi /\ 0 <= at_ (baseval org) pf u /\ hkey tab i = at_ (baseval org) pf u;
  sl_all : forall u, baseval org <= u < hi -> 0 <= at_ (baseval org) pf u -> exists i, 0 <= i < 2 ^ q /\ hkey tab i = at_ (baseval org) pf u;
  sl_sum : forall i, 0 <= i < 2 ^ q -> hkey tab i <> -1 ->
    snd (at_ 0 tab i) = zsum (baseval org) hi (fun u => if at_ (baseval org) pf u =? hkey tab i then velo org u else 0) }.

Lemma vfloBuild_spec org pf nf : graph_valid org -> graph_readable org -> 0 <= baseval org -> vnumtab org = None -> vertnbr org <= zlen pf ->
  (forall v, isvert org v -> at_ (baseval org) pf v < N) -> nf = nfix org pf ->
  wp (vfloBuild jk al A org nf pf) (fun '(ind, vf) => subg org ind /\ vnumtab ind <> None /\ vertnbr ind = vertnbr org - nf /\
    (forall w, job ind None 0 w <-> isvert org w /\ at_ (baseval org) pf w < 0) /\ okslots N vf /\
    ((exists v, isvert org v /\ 0 <= at_ (baseval org) pf v /\ velo org v <> 0) ->
      forall v, isvert org v -> 0 <= at_ (baseval org) pf v -> In (at_ (baseval org) pf v) (map fst vf)) /\
    forall x, In x vf -> snd x = zsum (baseval org) (vertnnd org) (fun u => if at_ (baseval org) pf u =? fst x then velo org u else 0)) noerr.
Proof.
  intros V R B0 VN L HN ->. pose proof (subg_refl org V R B0 VN) as SG.
  pose proof (gv_nnd _ V) as Nn. pose proof (gv_size _ V) as Z0. set (b := baseval org) in *.
  destruct frst_size as (df & Ef & Wf & Mf & Es & N1 & Cf). unfold vfloBuild. rewrite (ao_var _ _ _ _ AO), Ef. cbn [bind]. rewrite Es. cbn [bind]. cbv zeta.
  set (fl := filter (fun v => 0 <=? at_ b pf v) (vlist org)).
  assert (En : nfix org pf = zlen fl) by reflexivity. rewrite En.
  pose proof (zlen_nonneg fl) as F0. destruct (hashSize_pow (Z.min (zlen fl) N) ltac:(lia)) as (q & Hq & -> & Hs). fold b.
  apply wp_bind.
  apply wp_mono with (Q := fun '(tab, pt, vm) => slots org pf q (vertnnd org) tab /\ zlen pt = vertnbr org /\
     (forall v, isvert org v -> at_ b pt v = if 0 <=? at_ b pf v then 1 else 0) /\
     ((exists v, isvert org v /\ 0 <= at_ b pf v /\ velo org v <> 0) -> vm <> 0)).
  { apply wp_for with (I := fun k '(tab, pt, vm) => slots org pf q k tab /\ zlen pt = vertnbr org /\
     (forall v, b <= v < k -> at_ b pt v = if 0 <=? at_ b pf v then 1 else 0) /\
     ((exists v, b <= v < k /\ 0 <= at_ b pf v /\ velo org v <> 0) -> vm <> 0)).
    - lia.
    - split; [|split; [rewrite zlen_repeat; lia|split; [intros; lia|intros (v & Hv & _); lia]]].
      constructor; fold b.
      + now apply hash_init.
      + intros i Hi Hk. exfalso. apply Hk. now apply hash_init_key.
      + intros; lia.
      + intros i Hi Hk. exfalso. apply Hk. now apply hash_init_key.
    - intros v [[tab pt] vm] Hv (SL & Lp & Pp & Hvm). assert (Iv : isvert org v) by exact Hv. rewrite rd_ok by lia. cbn [bind].
      destruct (Z.leb_spec 0 (at_ b pf v)) as [Hp|Hp].
      + pose proof (velo_rd org v R V Iv) as Xv. fold b in Xv. rewrite Xv. cbn [bind]. clear Xv. destruct SL as [S1 S2 S3 S4]. fold b in S2, S3, S4. set (p := at_ b pf v) in *.
        assert (FR : exists i, 0 <= i < 2 ^ q /\ hkey tab i = -1).
        { destruct (Z.le_ge_cases (zlen fl) N) as [C|C].
          - apply (hash_free q Hq tab (map (at_ b pf) fl) S1); [|rewrite zlen_map; lia].
            intros i Hi Hk. destruct (S2 i Hi Hk) as (u & Hu & Hpu & ->). apply in_map. apply filter_In. split; [apply In_zseq; fold b; lia | lia].
          - apply (hash_free q Hq tab (zseq 0 N) S1); [|rewrite zlen_zseq; lia].
            intros i Hi Hk. destruct (S2 i Hi Hk) as (u & Hu & Hpu & ->). apply In_zseq. specialize (HN u ltac:(unfold isvert; fold b; lia)). lia. }
        apply wp_bind. eapply wp_mono; [apply (probe_spec q Hq tab p S1 ltac:(lia) FR)|]. intros h (Hh & Pa & Hc).
        pose proof (h_len _ _ S1) as Lt. rewrite rd_ok by lia. cbn [bind]. rewrite wr_ok by lia. cbn [bind]. rewrite wr_ok by lia. cbn [bind wp].
        set (x := if fst (at_ 0 tab h) =? p then snd (at_ 0 tab h) + velo org v else velo org v).
        destruct (hash_upd q Hq tab p h x S1 ltac:(lia) Hh Pa Hc) as [S1' K].
        assert (KK : forall i, 0 <= i < 2 ^ q -> hkey (upd 0 tab h (p, x)) i = if h =? i then p else hkey tab i).
        { intros i Hi. unfold hkey. rewrite K by exact Hi. now destruct (h =? i). }
        split; [|split; [now rewrite zlen_upd|split]].
        * constructor; fold b; [exact S1'| | |].
          -- intros i Hi. rewrite KK by exact Hi. destruct (Z.eqb_spec h i) as [<-|Ni].
             ++ intros _. exists v. split; [lia|]. split; [exact Hp | reflexivity].
             ++ intros Hk. destruct (S2 i Hi Hk) as (u & Hu & Hpu). exists u. split; [lia | exact Hpu].
          -- intros u Hu Hpu. destruct (Z.eq_dec u v) as [->|Nu].
             ++ exists h. split; [exact Hh|]. rewrite KK, Z.eqb_refl by exact Hh. reflexivity.
             ++ destruct (S3 u ltac:(lia) Hpu) as (i & Hi & Ei). exists i. split; [exact Hi|]. rewrite KK by exact Hi.
                destruct (Z.eqb_spec h i) as [->|]; [|exact Ei]. destruct Hc as [Hc|[Hc _]]; congruence || lia.
          -- intros i Hi. rewrite KK, K by exact Hi. rewrite zsum_snoc by lia. destruct (Z.eqb_spec h i) as [<-|Ni].
             ++ intros _. cbn [snd]. unfold p at 2. rewrite Z.eqb_refl. unfold x. destruct Hc as [Hc|[Hc Hab]]; unfold hkey in Hc; rewrite Hc.
                ** rewrite Z.eqb_refl. rewrite (S4 h Hh) by (unfold hkey; lia). unfold hkey. rewrite Hc. reflexivity.
                ** destruct (Z.eqb_spec (-1) p); [lia|]. rewrite zsum_zero; [lia|]. intros u Hu. destruct (Z.eqb_spec (at_ b pf u) p) as [E|]; [|reflexivity].
                   exfalso. destruct (S3 u Hu ltac:(lia)) as (i & Hi' & Ei). apply (Hab i Hi'). congruence.
             ++ intros Hk. rewrite (S4 i Hi Hk). fold p. destruct (Z.eqb_spec p (hkey tab i)) as [E|]; [|lia].
                exfalso. destruct Hc as [Hc|[Hc Hab]]; [|now apply (Hab i)]. apply Ni. apply (h_uniq _ _ S1); auto; unfold hkey in *; lia.
        * intros u Hu. rewrite at_upd by lia. destruct (Z.eqb_spec v u) as [<-|]; [fold p; destruct (Z.leb_spec 0 p); lia|]. apply Pp. lia.
        * intros (u & Hu & Hpu & Hvu) E0. apply Z.lor_eq_0_iff in E0. destruct (Z.eq_dec u v) as [->|]; [tauto|]. apply Hvm; [|tauto]. exists u. split; [lia | auto].
      + rewrite wr_ok by lia. cbn [bind wp]. destruct SL as [S1 S2 S3 S4]. fold b in S2, S3, S4.
        split; [|split; [now rewrite zlen_upd|split]].
        * constructor; fold b; [exact S1| | |].
          -- intros i Hi Hk. destruct (S2 i Hi Hk) as (u & Hu & Hpu). exists u. split; [lia | exact Hpu].
          -- intros u Hu Hpu. apply S3; [|exact Hpu]. assert (u <> v) by (intros ->; lia). lia.
          -- intros i Hi Hk. rewrite zsum_snoc by lia. rewrite (S4 i Hi Hk). destruct (S2 i Hi Hk) as (u & Hu & Hpu & Eu).
             destruct (Z.eqb_spec (at_ b pf v) (hkey tab i)); lia.
        * intros u Hu. rewrite at_upd by lia. destruct (Z.eqb_spec v u) as [<-|]; [destruct (Z.leb_spec 0 (at_ b pf v)); lia|]. apply Pp. lia.
        * intros (u & Hu & Hpu & Hvu). apply Hvm. assert (u <> v) by (intros ->; lia). exists u. split; [lia | auto].
    - intros [[tab pt] vm] X. exact X. }
  intros [[tab pt] vm] (SL & Lp & Pp & Hvm). destruct SL as [S1 S2 S3 S4]. fold b in S2, S3, S4. pose proof (h_len _ _ S1) as Lt.
  assert (Epl : zlen (part_list org pt 0) = vertnbr org - zlen fl).
  { pose proof (zlen_filter_compl (fun v => 0 <=? at_ b pf v) (vlist org)) as X. fold fl in X. unfold vlist in X at 2. rewrite zlen_zseq in X by lia.
    unfold part_list. fold b. assert (E : filter (fun v => at_ b pt v =? 0) (zseq b (vertnbr org)) = filter (fun v => negb (0 <=? at_ b pf v)) (vlist org)).
    { apply filter_ext_in. intros v Hv. apply In_zseq in Hv. rewrite Pp by (unfold isvert; fold b; lia). now destruct (0 <=? at_ b pf v). }
    rewrite E. lia. }
  apply wp_bind. rewrite <- Epl. eapply wp_mono; [apply induce_subg; [exact Hal | exact SG | lia]|]. intros ind (SI & Ni & EJ & VI). cbn [wp]. split; [exact SI|]. split; [exact VI|].
  assert (FS : forall x, In x (filter (fun c => negb (fst c =? -1)) tab) <-> exists i, 0 <= i < 2 ^ q /\ hkey tab i <> -1 /\ x = at_ 0 tab i).
  { intros x. rewrite filter_In. split.
    - intros [Hx E]. apply (In_at 0) in Hx. destruct Hx as (i & Hi & Ei). exists i. split; [lia|]. split; [|now symmetry]. unfold hkey. rewrite Ei.
      destruct (Z.eqb_spec (fst x) (-1)); [discriminate | assumption].
    - intros (i & Hi & Hk & ->). split; [apply at_In; lia|]. unfold hkey in Hk. destruct (Z.eqb_spec (fst (at_ 0 tab i)) (-1)); [contradiction | reflexivity]. }
  split; [exact Ni|]. split; [|split; [|split]].
  - intros w. rewrite EJ. unfold job, sel, orig. rewrite VN. fold b. split.
    + intros (v & Hv & Hsv & <-). split; [exact Hv|]. rewrite Pp in Hsv by exact Hv. destruct (Z.leb_spec 0 (at_ b pf v)); lia.
    + intros [Hv Hp]. exists w. split; [exact Hv|]. split; [|reflexivity]. rewrite Pp by exact Hv. destruct (Z.leb_spec 0 (at_ b pf w)); lia.
  - destruct (vm =? 0); [intros i Hi; unfold zlen in Hi; cbn [length] in Hi; lia|]. intros i Hi.
    pose proof (at_In 0 _ i Hi) as X. apply FS in X. destruct X as (j & Hj & Hk & ->). fold (hkey tab j). destruct (S2 j Hj Hk) as (u & Hu & Hpu & ->).
    split; [exact Hpu|]. apply HN. exact Hu.
  - intros Hex v Hv Hp. specialize (Hvm Hex). destruct (Z.eqb_spec vm 0); [contradiction|]. destruct (S3 v Hv Hp) as (i & Hi & Ei).
    rewrite <- Ei. unfold hkey at 1. apply in_map. apply FS. exists i. split; [exact Hi|]. split; [lia | reflexivity].
  - destruct (vm =? 0); [intros x []|]. intros x Hx. apply FS in Hx. destruct Hx as (i & Hi & Hk & ->). exact (S4 i Hi Hk).
Qed.

(** Domains that are distinct single terminals *)
Record doms (tab : list D) (n : Z) : Prop := {
  dm_cap : 0 <= n <= zlen tab;
  dm_one : forall i, 0 <= i < n -> wf (at_ 0 tab i) /\ exists t, 0 <= t < N /\ forall t', mem (at_ 0 tab i) t' <-> t' = t;
  dm_inj : forall i j t, 0 <= i < n -> 0 <= j < n -> mem (at_ 0 tab i) t -> mem (at_ 0 tab j) t -> i = j }.

(** The table gives the domain of each terminal which has one *)
Record index (q : Z) (tab : list (Z * Z)) (dt : list D) (n : Z) (L : list Z) : Prop := {
  ix_hash : hash_ok q tab;
  ix_key : forall i, 0 <= i < 2 ^ q -> hkey tab i <> -1 -> 0 <= snd (at_ 0 tab i) < n /\ mem (at_ 0 dt (snd (at_ 0 tab i))) (hkey tab i) /\ In (hkey tab i) L;
  ix_all : forall x t, 0 <= x < n -> mem (at_ 0 dt x) t -> exists i, 0 <= i < 2 ^ q /\ hkey tab i = t }.

Lemma mem_rng d t : wf d -> (forall t', mem d t' <-> t' = t) -> a_num A d = Ok t.
Proof. intros W E. destruct (ao_num _ _ _ _ AO d W) as (t' & -> & M). f_equal. now apply E. Qed.

Lemma doms_num (dt : list D) n i : doms dt n -> 0 <= i < n -> exists t, a_num A (at_ 0 dt i) = Ok t /\ 0 <= t < N /\ forall t', mem (at_ 0 dt i) t' <-> t' = t.
Proof. intros Dm Hi. destruct (dm_one _ _ Dm i Hi) as (W & t & Ht & E). exists t. split; [now apply mem_rng |]. split; [exact Ht | exact E]. Qed.

Lemma doms_snoc (dt : list D) n d p : doms dt n -> n < zlen dt -> wf d -> 0 <= p < N -> (forall t, mem d t <-> t = p) ->
  (forall i, 0 <= i < n -> ~ mem (at_ 0 dt i) p) -> doms (upd 0 dt n d) (n + 1).
Proof.
  intros [D1 D2 D3] Hc W Hp E Hn. assert (AT : forall i, 0 <= i -> at_ 0 (upd 0 dt n d) i = if n =? i then d else at_ 0 dt i) by (intros i Hi; apply at_upd; lia).
  constructor.
  - rewrite zlen_upd. lia.
  - intros i Hi. rewrite AT by lia. destruct (Z.eqb_spec n i); [split; [exact W | exists p; auto]|]. apply D2. lia.
  - intros i j t Hi Hj. rewrite !AT by lia. destruct (Z.eqb_spec n i), (Z.eqb_spec n j); intros M1 M2.
    + lia.
    + exfalso. apply E in M1. subst t. apply (Hn j); [lia | exact M2].
    + exfalso. apply E in M2. subst t. apply (Hn i); [lia | exact M1].
    + apply (D3 i j t); auto; lia.
Qed.

Lemma index_snoc q (Hq : 0 <= q) tab dt n L d p h : (forall j, 0 <= j < n -> wf (at_ 0 dt j) /\ exists t, 0 <= t < N /\ forall t', mem (at_ 0 dt j) t' <-> t' = t) -> index q tab dt n L -> 0 <= n < zlen dt -> (forall t, mem d t <-> t = p) -> p <> -1 -> In p L ->
  0 <= h < 2 ^ q -> path q tab p h -> hkey tab h = -1 -> (forall i, 0 <= i < 2 ^ q -> hkey tab i <> p) ->
  index q (upd 0 tab h (p, n)) (upd 0 dt n d) (n + 1) L.
Proof.
  intros Dm [I1 I2 I3] Hn E Hp HL Hh Pa K1 K2. destruct (hash_upd q Hq tab p h n I1 Hp Hh Pa ltac:(auto)) as [I1' K].
  assert (KK : forall i, 0 <= i < 2 ^ q -> hkey (upd 0 tab h (p, n)) i = if h =? i then p else hkey tab i).
  { intros i Hi. unfold hkey. rewrite K by exact Hi. now destruct (h =? i). }
  assert (AT : forall i, 0 <= i -> at_ 0 (upd 0 dt n d) i = if n =? i then d else at_ 0 dt i) by (intros i Hi; apply at_upd; lia).
  constructor; [exact I1'| |].
  - intros i Hi. rewrite KK, K by exact Hi. destruct (Z.eqb_spec h i) as [<-|].
    + intros _. cbn [snd]. split; [lia|]. split; [|exact HL]. rewrite AT, Z.eqb_refl by lia. now apply E.
    + intros Hk. destruct (I2 i Hi Hk) as (X1 & X2 & X3). split; [lia|]. split; [|exact X3]. rewrite AT by lia. destruct (Z.eqb_spec n (snd (at_ 0 tab i))); [lia | exact X2].
  - intros x t Hx. rewrite AT by lia. destruct (Z.eqb_spec n x).
    + intros M. apply E in M. subst t. exists h. split; [exact Hh|]. rewrite KK, Z.eqb_refl by exact Hh. reflexivity.
    + intros M. destruct (I3 x t ltac:(lia) M) as (i & Hi & Ei). exists i. split; [exact Hi|]. rewrite KK by exact Hi.
      destruct (Z.eqb_spec h i) as [->|]; [|exact Ei]. exfalso. destruct (Dm x ltac:(lia)) as (_ & t' & Ht' & E'). apply E' in M. lia.
Qed.

Lemma vfloMerge_spec org pf (vf : list (Z * Z)) m : graph_valid org -> graph_readable org -> vertnbr org <= zlen pf ->
  (forall v, isvert org v -> at_ (baseval org) pf v < N) ->
  (forall v, isvert org v -> 0 <= at_ (baseval org) pf v -> In (at_ (baseval org) pf v) (map fst vf)) ->
  doms (m_domn m) (m_nbr m) -> vertnbr org <= zlen (m_part m) ->
  (forall v, isvert org v -> at_ (baseval org) pf v < 0 -> 0 <= mp org m v < m_nbr m) ->
  wp (vfloMerge jkd A org pf (zlen vf) m) (fun m' => map_ok N wf mem org m' /\ zlen (m_part m') = zlen (m_part m) /\
    (forall i, 0 <= i < m_nbr m -> mdom m' i = mdom m i) /\
    forall v, isvert org v -> if 0 <=? at_ (baseval org) pf v then mem (mdom m' (mp org m' v)) (at_ (baseval org) pf v) else mp org m' v = mp org m v) noerr.
Proof.
  intros V R L HN HV Dm Lm HP. pose proof (gv_nnd _ V) as Nn. pose proof (gv_size _ V) as Z0. set (b := baseval org) in *.
  pose proof (dm_cap _ _ Dm) as Cm. unfold vfloMerge. cbv zeta. fold b. pose proof (zlen_nonneg vf) as F0.
  destruct (hashSize_pow (m_nbr m + zlen vf) ltac:(lia)) as (q & Hq & -> & Hs).
  set (terms := map (fun i => match a_num A (at_ 0 (m_domn m) i) with Ok t => t | _ => -1 end) (zseq 0 (m_nbr m))).
  set (L0 := terms ++ map fst vf). assert (LL : zlen L0 < 2 ^ q) by (unfold L0, terms; rewrite zlen_app, !zlen_map, zlen_zseq; lia).
  assert (FR : forall tab dt n, index q tab dt n L0 -> exists i, 0 <= i < 2 ^ q /\ hkey tab i = -1).
  { intros tab dt n [I1 I2 I3]. apply (hash_free q Hq tab L0 I1); [|exact LL]. intros i Hi Hk. now apply I2. }
  apply wp_bind.
  apply wp_mono with (Q := fun tab => index q tab (m_domn m) (m_nbr m) L0).
  { apply wp_for with (I := fun k tab => index q tab (m_domn m) k L0).
    - lia.
    - constructor; [now apply hash_init| |intros; lia]. intros i Hi Hk. exfalso. apply Hk. now apply hash_init_key.
    - intros i tab Hi IX. rewrite rd_ok by lia. cbn [bind]. destruct (doms_num _ _ i Dm Hi) as (t & Et & Ht & E). rewrite Et. cbn [bind].
      apply wp_bind. eapply wp_mono; [apply (probe_spec q Hq tab t (ix_hash _ _ _ _ _ IX) ltac:(lia) (FR _ _ _ IX))|]. intros h (Hh & Pa & Hc).
      pose proof (h_len _ _ (ix_hash _ _ _ _ _ IX)) as Lt. rewrite rd_ok by lia. cbn [bind].
      assert (NH : hkey tab h <> t).
      { intros Ek. destruct (ix_key _ _ _ _ _ IX h Hh ltac:(lia)) as (X1 & X2 & _). assert (snd (at_ 0 tab h) = i); [|lia].
        apply (dm_inj _ _ Dm _ _ t); auto; [lia | now rewrite <- Ek | now apply E]. }
      destruct Hc as [|[K1 K2]]; [contradiction|]. destruct (Z.eqb_spec (fst (at_ 0 tab h)) t); [unfold hkey in K1; lia|]. rewrite wr_ok by lia. cbn [wp].
      assert (HL : In t L0). { apply in_or_app. left. apply in_map_iff. exists i. rewrite Et. split; [reflexivity|]. apply In_zseq. lia. }
      assert (UP : upd 0 (m_domn m) i (at_ 0 (m_domn m) i) = m_domn m).
      { apply (at_ext 0); [now rewrite zlen_upd|]. intros j Hj. rewrite zlen_upd in Hj. rewrite at_upd by lia. destruct (Z.eqb_spec i j); congruence. }
      rewrite <- UP. apply (index_snoc q Hq tab (m_domn m) i L0 (at_ 0 (m_domn m) i) t h); auto; try lia.
      intros j Hj. apply (dm_one _ _ Dm). lia.
    - auto. }
  intros tab0 IX0. apply wp_bind.
  apply wp_mono with (Q := fun '(tab, pt, dt, dn) => doms dt dn /\ m_nbr m <= dn /\ zlen pt = zlen (m_part m) /\
     (forall i, 0 <= i < m_nbr m -> at_ 0 dt i = at_ 0 (m_domn m) i) /\
     forall v, isvert org v -> if 0 <=? at_ b pf v then 0 <= at_ b pt v < dn /\ mem (at_ 0 dt (at_ b pt v)) (at_ b pf v) else at_ b pt v = at_ b (m_part m) v).
  { apply wp_for with (I := fun k '(tab, pt, dt, dn) => index q tab dt dn L0 /\ doms dt dn /\ m_nbr m <= dn /\ zlen pt = zlen (m_part m) /\
     (forall i, 0 <= i < m_nbr m -> at_ 0 dt i = at_ 0 (m_domn m) i) /\
     forall v, isvert org v -> if (0 <=? at_ b pf v) && (v <? k) then 0 <= at_ b pt v < dn /\ mem (at_ 0 dt (at_ b pt v)) (at_ b pf v) else at_ b pt v = at_ b (m_part m) v).
    - lia.
    - split; [exact IX0|]. split; [exact Dm|]. split; [lia|]. split; [reflexivity|]. split; [reflexivity|].
      intros v Hv. unfold isvert in Hv. fold b in Hv. destruct (Z.ltb_spec v b); [lia|]. now rewrite andb_false_r.
    - intros v [[[tab pt] dt] dn] Hv (IX & Dt & Hdn & Lp & Od & Pv). assert (Iv : isvert org v) by exact Hv. rewrite rd_ok by lia. cbn [bind].
      destruct (Z.ltb_spec (at_ b pf v) 0) as [Hp|Hp].
      { cbn [wp]. repeat (split; [assumption|]). intros u Hu. specialize (Pv u Hu). destruct (Z.eq_dec u v) as [->|].
        - destruct (Z.leb_spec 0 (at_ b pf v)); [lia|]. exact Pv.
        - replace (u <? v + 1) with (u <? v) by lia. exact Pv. }
      set (p := at_ b pf v) in *. pose proof (HN v Iv) as HNv. fold p in HNv.
      apply wp_bind. eapply wp_mono; [apply (probe_spec q Hq tab p (ix_hash _ _ _ _ _ IX) ltac:(lia) (FR _ _ _ IX))|]. intros h (Hh & Pa & Hc).
      pose proof (h_len _ _ (ix_hash _ _ _ _ _ IX)) as Lt. rewrite rd_ok by lia. cbn [bind].
      destruct (Z.eqb_spec (fst (at_ 0 tab h)) p) as [Ek|Nk].
      + rewrite wr_ok by lia. cbn [bind wp]. repeat (split; [now rewrite ?zlen_upd|]). intros u Hu. specialize (Pv u Hu). unfold isvert in Hu. rewrite at_upd by lia.
        destruct (Z.eqb_spec v u) as [<-|Nu].
        * fold p. destruct (Z.leb_spec 0 p); [|lia]. destruct (Z.ltb_spec v (v + 1)); [|lia]. cbn [andb].
          destruct (ix_key _ _ _ _ _ IX h Hh ltac:(unfold hkey; lia)) as (X1 & X2 & _). unfold hkey in X2. rewrite Ek in X2. auto.
        * replace (u <? v + 1) with (u <? v) by lia. exact Pv.
      + destruct Hc as [|[K1 K2]]; [contradiction|]. destruct (proj1 (ao_term _ _ _ _ AO) p (conj Hp HNv)) as (d & -> & Wd & Ed & _). cbn [bind].
        pose proof (dm_cap _ _ Dt) as Ct.
        set (dt' := if zlen dt <=? dn then mapResize jkd dt (zlen dt + zlen dt / 4 + 8) else dt).
        assert (Q4 : 0 <= zlen dt / 4) by (apply Z.div_pos; [apply zlen_nonneg | lia]).
        assert (T1 : dn < zlen dt' /\ forall i, 0 <= i < dn -> at_ 0 dt' i = at_ 0 dt i).
        { unfold dt'. destruct (Z.leb_spec (zlen dt) dn); [|split; [lia | reflexivity]]. rewrite zlen_mapResize by lia. split; [lia|].
          intros i Hi. apply at_mapResize; lia. }
        destruct T1 as [T1 T2]. rewrite wr_ok by lia. cbn [bind]. rewrite wr_ok by lia. cbn [bind]. rewrite wr_ok by lia. cbn [bind wp].
        assert (Dt' : doms dt' dn).
        { destruct Dt as [D1 D2 D3]. constructor; [lia| |].
          - intros i Hi. rewrite T2 by exact Hi. now apply D2.
          - intros i j t Hi Hj. rewrite !T2 by assumption. now apply D3. }
        assert (IX' : index q tab dt' dn L0).
        { destruct IX as [I1 I2 I3]. constructor; [exact I1| |].
          - intros i Hi Hk. destruct (I2 i Hi Hk) as (X1 & X2 & X3). rewrite T2 by exact X1. auto.
          - intros x t Hx. rewrite T2 by exact Hx. now apply I3. }
        assert (HL : In p L0) by (apply in_or_app; right; now apply HV).
        assert (NM : forall i, 0 <= i < dn -> ~ mem (at_ 0 dt' i) p).
        { intros i Hi M. destruct (ix_all _ _ _ _ _ IX' i p Hi M) as (j & Hj & Ej). now apply (K2 j). }
        assert (AT : forall i, 0 <= i < dn -> at_ 0 (upd 0 dt' dn d) i = at_ 0 dt i).
        { intros i Hi. rewrite at_upd by lia. destruct (Z.eqb_spec dn i); [lia|]. now apply T2. }
        split; [apply index_snoc; auto; try lia; apply (dm_one _ _ Dt')|]. split; [apply (doms_snoc dt' dn d p Dt' T1 Wd (conj Hp HNv) Ed NM)|]. split; [lia|]. split; [now rewrite zlen_upd|].
        split; [intros i Hi; rewrite AT by lia; now apply Od|].
        intros u Hu. specialize (Pv u Hu). unfold isvert in Hu. rewrite (at_upd b pt) by lia. destruct (Z.eqb_spec v u) as [<-|Nu].
        * fold p. destruct (Z.leb_spec 0 p); [|lia]. destruct (Z.ltb_spec v (v + 1)); [|lia]. cbn [andb]. split; [lia|].
          rewrite at_upd by lia. rewrite Z.eqb_refl. now apply Ed.
        * replace (u <? v + 1) with (u <? v) by lia. destruct ((0 <=? at_ b pf u) && (u <? v)); [|exact Pv].
          destruct Pv as [P1 P2]. split; [lia|]. rewrite AT by exact P1. exact P2.
    - intros [[[tab pt] dt] dn] (IX & Dt & Hdn & Lp & Od & Pv). repeat (split; [assumption|]). intros v Hv. specialize (Pv v Hv). unfold isvert in Hv.
      destruct (Z.ltb_spec v (vertnnd org)); [|lia]. now rewrite andb_true_r in Pv. }
  intros [[[tab pt] dt] dn] (Dt & Hdn & Lp & Od & Pv). cbn [wp]. destruct Dt as [D1 D2 D3].
  split; [|split; [exact Lp|split; [exact Od|]]].
  - constructor; unfold mp, mdom; cbn [m_part m_nbr m_domn]; auto; fold b; [lia|].
    intros v Hv. specialize (Pv v Hv). destruct (Z.leb_spec 0 (at_ b pf v)) as [X|X]; [lia|]. specialize (HP v Hv X). unfold mp in HP. fold b in HP. lia.
  - intros v Hv. specialize (Pv v Hv). unfold mp, mdom; cbn [m_part m_nbr m_domn]. fold b. destruct (0 <=? at_ b pf v); [apply Pv | exact Pv].
Qed.
End Gen.
