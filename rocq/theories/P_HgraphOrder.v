(** Proofs about graph orderings. *)
From Verif Require Import Base M_Graph M_Vgraph M_Induce M_Hgraph M_Order M_HgraphOrder S_Graph S_Vgraph S_Induce S_Hgraph S_Order S_HgraphOrder.
From Verif Require Import P_GraphList P_Induce P_Order P_Vgraph P_Hgraph.
From Coq Require Import Permutation.

Lemma unhalo_valid h : hgraph_valid h -> graph_valid (hgraphUnhalo h) /\ graph_readable (hgraphUnhalo h).
Proof.
  intros V. pose proof (hv_graph _ V) as G. pose proof (hv_read _ V) as R. pose proof (hv_nbr _ V) as Hn. pose proof (hv_nnd _ V) as Hd. pose proof (gv_nnd _ G) as Gn.
  pose proof (hv_noedlo _ V) as Hl.
  set (u := hgraphUnhalo h).
  assert (Iv : forall v, isvert u v <-> baseval (hs h) <= v < vnohnnd h) by (intros; unfold isvert; reflexivity).
  assert (Ig : forall v, isvert u v -> isvert (hs h) v) by (intros v Hv; pose proof (proj1 (Iv v) Hv); unfold isvert; lia).
  assert (Ev : forall v, vend u v = at_ (baseval (hs h)) (vnhdtab h) v) by reflexivity.
  assert (Ar : forall v e, arc u v e <-> isvert u v /\ arc (hs h) v e /\ edge (hs h) e < vnohnnd h).
  { intros v e. unfold arc at 1. rewrite Ev. change (vert u v) with (vert (hs h) v). split.
    - intros (Hv & He). pose proof (proj1 (Iv v) Hv) as Hv'. destruct (hv_split _ V v Hv') as (S1 & S2). split; [auto|]. split; [split; [auto|lia]|]. apply S2; lia.
    - intros (Hv & (_ & He) & Hw). pose proof (proj1 (Iv v) Hv) as Hv'. destruct (hv_split _ V v Hv') as (S1 & S2). split; [auto|]. apply S2 in Hw; lia. }
  assert (Ed : forall e, edlo u e = 1) by (intros; unfold edlo, u; cbn [hgraphUnhalo edlotab]; rewrite Hl; reflexivity).
  assert (Ed' : forall e, edlo (hs h) e = 1) by (intros; unfold edlo; rewrite Hl; reflexivity).
  split.
  - constructor.
    + cbn. lia.
    + cbn. auto.
    + intros v Hv. rewrite Ev. change (vert u v) with (vert (hs h) v). change (baseval u) with (baseval (hs h)). pose proof (hv_split _ V v (proj1 (Iv v) Hv)) as (? & _). pose proof (gv_range _ G v (Ig v Hv)). lia.
    + intros v e Ha. apply Ar in Ha. destruct Ha as (Hv & Ha & Hw). apply Iv. change (edge u e) with (edge (hs h) e). pose proof (gv_end _ G v e Ha) as (? & _). lia.
    + intros v e Ha. apply Ar in Ha. destruct Ha as (Hv & Ha & Hw). apply (gv_loop _ G v e Ha).
    + intros v e e' Ha Hb. apply Ar in Ha, Hb. destruct Ha as (Hv & Ha & Hw), Hb as (_ & Hb & _). apply (gv_simple _ G v e e' Ha Hb).
    + intros v e Ha. apply Ar in Ha. destruct Ha as (Hv & Ha & Hw). destruct (gv_sym _ G v e Ha) as (e' & Hb & He & Hx). exists e'. split; [|split; [exact He | rewrite !Ed; auto]].
      apply Ar. split; [apply Iv; change (edge u e) with (edge (hs h) e); pose proof (gv_end _ G v e Ha) as (? & _); lia|]. split; [exact Hb|]. rewrite He. pose proof (proj1 (Iv v) Hv). lia.
    + cbn [u hgraphUnhalo edgenbr baseval vertnnd]. rewrite (hv_enoh _ V). reflexivity.
    + intros v Hv. apply (gv_velo _ G v (Ig v Hv)).
    + cbn [u hgraphUnhalo velosum baseval vertnnd]. rewrite (hv_vnlo _ V). reflexivity.
    + intros. rewrite Ed. lia.
    + cbn [u hgraphUnhalo edlosum baseval vertnnd]. rewrite (hv_enlo _ V), (hv_enoh _ V). apply zsum_ext. intros v Hv. rewrite (zsum_ext _ _ _ (fun _ => 1)) by (intros; apply Ed).
      pose proof (hv_split _ V v Hv) as (? & _). change (vert u v) with (vert (hs h) v). rewrite Ev. rewrite zsum_const by lia. lia.
    + apply (gv_degr0 _ G).
    + intros v Hv. rewrite Ev. change (vert u v) with (vert (hs h) v). change (degrmax u) with (degrmax (hs h)). pose proof (gv_degr _ G v (Ig v Hv)). pose proof (hv_split _ V v (proj1 (Iv v) Hv)) as (? & _). lia.
  - constructor.
    + cbn [u hgraphUnhalo vertnbr vendtab verttab]. pose proof (gr_vert _ R) as Hr. assert (0 <= match vendtab (hs h) with None => b2z (0 <? vertnbr (hs h)) | Some _ => 0 end) by (destruct (vendtab (hs h)); unfold b2z; try destruct (0 <? _); lia). lia.
    + intros t Et. injection Et as <-. apply (hv_vnhd _ V).
    + intros t Et. pose proof (gr_velo _ R t Et). cbn. lia.
    + intros v e Ha. apply Ar in Ha. destruct Ha as (Hv & Ha & Hw). apply (gr_edge _ R v e Ha).
    + intros t v e Et Ha. apply Ar in Ha. destruct Ha as (Hv & Ha & Hw). apply (gr_edlo _ R t v e Et Ha).
Qed.

Lemma unhalo_ok h : hgraph_ok h -> graph_ok (hgraphUnhalo h).
Proof.
  intros (E & V). pose proof (unhalo_valid _ V) as (A & B). split; [exact E|].
  assert (Eq : unload (hgraphUnhalo h) = hgraphUnhalo (hunload h)) by reflexivity. rewrite Eq. split; [auto|]. split; [auto|]. apply (hv_base _ V).
Qed.

(** A graph without a halo *)
Lemma at_vendlist g v : isvert g v -> graph_valid g -> graph_readable g -> at_ (baseval g) (vendlist g) v = vend g v.
Proof.
  intros Hv G R. unfold vendlist, vend. destruct (vendtab g); [reflexivity|]. destruct (verttab g) as [|x t] eqn:Ev.
  - pose proof (gr_vert _ R) as H. rewrite Ev in H. change (zlen (@nil Z)) with 0 in H. pose proof (gv_nnd _ G). unfold isvert in Hv. destruct (vendtab g); unfold b2z in H; try destruct (0 <? vertnbr g) eqn:?; lia.
  - cbn [tl]. unfold isvert in Hv. unfold at_. replace (Z.to_nat (v + 1 - baseval g)) with (S (Z.to_nat (v - baseval g))) by lia. reflexivity.
Qed.

Lemma nohalo_valid g lv : graph_valid g -> graph_readable g -> 0 <= baseval g -> edlotab g = None -> (forall t, vnumtab g = Some t -> vertnbr g <= zlen t) ->
  hgraph_valid (nohalo g lv).
Proof.
  intros G R Hb El Hn. pose proof (gv_nnd _ G) as Gn. pose proof (gv_size _ G) as Gs. constructor; cbn [nohalo hs vnohnbr vnohnnd vnhdtab vnlosum enohnbr enlosum]; auto.
  - lia.
  - unfold vendlist. pose proof (gr_vert _ R) as H. destruct (vendtab g) eqn:E; [apply (gr_vend _ R _ E)|]. destruct (verttab g); [change (zlen (@nil Z)) with 0 in *; cbn [tl]; unfold b2z in H; destruct (0 <? vertnbr g) eqn:?; change (zlen (@nil Z)) with 0; lia|].
    cbn [tl]. rewrite zlen_cons in H. unfold b2z in H. destruct (0 <? vertnbr g) eqn:?; pose proof (zlen_nonneg l); lia.
  - intros v Hv. rewrite at_vendlist by (auto; apply Hv). pose proof (gv_range _ G v Hv). split; [lia|]. intros e He. split; [lia|]. intros _. apply (gv_end _ G v e). split; auto.
  - intros v e (Hv & _) Hx. unfold isvert in Hv. lia.
  - apply (gv_velosum _ G).
  - rewrite (gv_edgenbr _ G). apply zsum_ext. intros v Hv. rewrite at_vendlist; auto.
  - rewrite (gv_edlosum _ G), (gv_edgenbr _ G). apply zsum_ext. intros v Hv. rewrite (zsum_ext _ _ _ (fun _ => 1)) by (intros; unfold edlo; rewrite El; reflexivity). pose proof (gv_range _ G v Hv). rewrite zsum_const by lia. lia.
Qed.

(** Segments *)
Lemma zlen_seg l o n : 0 <= n -> zlen (seg l o n) = n.
Proof. intros. unfold seg. rewrite zlen_map. now apply zlen_zseq. Qed.
Lemma seg_app l o n m : 0 <= n -> 0 <= m -> seg l o (n + m) = seg l o n ++ seg l (o + n) m.
Proof. intros. unfold seg. rewrite zseq_app by lia. now rewrite map_app. Qed.
Lemma at_seg l o n k : 0 <= k < n -> at_ 0 (seg l o n) k = at_ 0 l (o + k).
Proof. intros. unfold seg. rewrite at_map by (rewrite zlen_zseq; lia). rewrite at_zseq by lia. f_equal. lia. Qed.
Lemma seg_ext l l' o n : (forall i, o <= i < o + n -> at_ 0 l i = at_ 0 l' i) -> seg l o n = seg l' o n.
Proof. intros H. unfold seg. apply map_ext_in. intros i Hi. apply In_zseq in Hi. apply H. lia. Qed.
Lemma In_seg x l o n : In x (seg l o n) <-> exists i, o <= i < o + n /\ x = at_ 0 l i.
Proof.
  unfold seg. rewrite in_map_iff. split.
  - intros (i & <- & Hi). apply In_zseq in Hi. exists i. split; [lia|auto].
  - intros (i & Hi & ->). exists i. split; [auto|]. apply In_zseq. lia.
Qed.

(** ** Simple ordering *)
Lemma si_good top tot tr fl : orders top tot tr fl hgraphOrderSi.
Proof.
  intros h st o (El & V) Hn Ho Hz Ht. set (g := hs h). set (b := baseval g).
  pose proof (hv_nnd _ V) as Hd. cbn [hunload hs vnohnnd vnohnbr unload baseval] in Hd. fold g in Hd. fold b in Hd. pose proof (hv_nbr _ V) as Hb. cbn [hunload hs vnohnbr unload vertnbr] in Hb.
  destruct (wp_ok_inv (for_ b (vnohnnd h) (fun v '(peri, k) =>
    do x <- (match vnumtab g with None => Ok v | Some t => rd b t v end);
    do peri <- wr 0 peri k x;
    Ok (peri, k + 1)) (os_peri st, o)) (fun '(peri, k) => zlen peri = zlen (os_peri st) /\
      (forall i, 0 <= i -> ~ (o <= i < o + vnohnbr h) -> at_ 0 peri i = at_ 0 (os_peri st) i) /\ forall i, o <= i < o + vnohnbr h -> at_ 0 peri i = orgnum g (b + (i - o)))) as ((peri, k) & E & Z1 & F1 & A1).
  { apply wp_for with (I := fun v '(peri, k) => k = o + (v - b) /\ zlen peri = zlen (os_peri st) /\
      (forall i, 0 <= i -> ~ (o <= i < k) -> at_ 0 peri i = at_ 0 (os_peri st) i) /\ forall i, o <= i < k -> at_ 0 peri i = orgnum g (b + (i - o))).
    - lia.
    - split; [lia|]. split; [auto|]. split; [auto|]. intros; lia.
    - intros v (peri, k) Hv (-> & Z1 & F1 & A1). assert (Ex : (match vnumtab g with None => Ok v | Some t => rd b t v end) = Ok (orgnum g v)).
      { unfold orgnum. destruct (vnumtab g) as [t|] eqn:Et; [|reflexivity]. pose proof (hv_vnum _ V t Et) as Hl. cbn [hunload hs unload vertnbr] in Hl. apply rd_ok. lia. }
      rewrite Ex. cbn [bind]. rewrite wr_ok by lia. cbn [bind wp]. split; [lia|]. split; [now rewrite zlen_upd|]. split.
      + intros i Hi Hx. rewrite at_upd by lia. destruct (Z.eqb_spec (o + (v - b)) i); [lia|]. apply F1; lia.
      + intros i Hi. rewrite at_upd by lia. destruct (Z.eqb_spec (o + (v - b)) i); [f_equal; lia|]. apply A1; lia.
    - intros (peri, k) (-> & Z1 & F1 & A1). split; [auto|]. split; intros i Hi; [intros Hx; apply F1; lia | apply A1; lia]. }
  exists 0, (mkost peri (os_cblk st) (os_tree st)), (leaf (vnohnbr h)). unfold hgraphOrderSi. fold g. fold b. rewrite E. cbn [bind]. split; [reflexivity|]. split; [|auto]. intros _. split; [|split].
  - constructor; cbn [os_peri os_cblk os_tree]; auto.
    + intros i Hi. apply F1; lia.
    + replace (seg peri o (vnohnbr h)) with (map (orgnum (hs h)) (zseq b (vnohnbr h))); [apply Permutation_refl|]. apply (at_ext 0); [rewrite zlen_map, zlen_zseq, zlen_seg; lia|]. intros i. rewrite zlen_map, zlen_zseq by lia. intros Hi.
      rewrite at_seg by lia. rewrite at_map by (rewrite zlen_zseq; lia). rewrite at_zseq by lia. rewrite A1 by lia. f_equal. lia.
    + cbn. split; [reflexivity|]. split; [lia|reflexivity].
    + cbn [leaves leaf]. change (zlen [vnohnbr h]) with 1. lia.
    + cbn [nnodes leaf]. lia.
  - intros _ A _. constructor. now apply zlen_seg; lia.
  - reflexivity.
Qed.

Lemma NoDup_app_intro {A} (l l' : list A) : NoDup l -> NoDup l' -> (forall x, In x l -> In x l' -> False) -> NoDup (l ++ l').
Proof.
  induction l as [|x l IH]; intros H H' D; [exact H'|]. inversion H; subst. cbn [app]. constructor.
  - rewrite in_app_iff. intros [Hx|Hx]; [auto | apply (D x); [now left | auto]].
  - apply IH; auto. intros y Hy. apply D. now right.
Qed.

(** ** Lists of the vertices of the parts *)
Definition plist (vg : vgraph) (p n : Z) : list Z := filter (fun v => part vg v =? p) (zseq (baseval (vs vg)) n).
Lemma plist_snoc vg p n : 0 <= n -> plist vg p (n + 1) = plist vg p n ++ if part vg (baseval (vs vg) + n) =? p then [baseval (vs vg) + n] else [].
Proof. intros. unfold plist. rewrite zseq_snoc by lia. rewrite filter_app. cbn [filter]. destruct (_ =? p); reflexivity. Qed.
Lemma plist_mono vg p n m : 0 <= n <= m -> zlen (plist vg p n) <= zlen (plist vg p m).
Proof. intros. unfold plist. replace m with (n + (m - n)) by lia. rewrite zseq_app by lia. apply filter_len_mono. Qed.
Lemma In_plist vg p n v : In v (plist vg p n) <-> baseval (vs vg) <= v < baseval (vs vg) + n /\ part vg v = p.
Proof. unfold plist. rewrite filter_In, In_zseq. rewrite Z.eqb_eq. reflexivity. Qed.
Lemma NoDup_plist vg p n : NoDup (plist vg p n).
Proof. apply NoDup_filter, NoDup_zseq. Qed.

Lemma plist_perm vg n : 0 <= n -> (forall v, baseval (vs vg) <= v < baseval (vs vg) + n -> 0 <= part vg v <= 2) ->
  Permutation (plist vg 0 n ++ plist vg 1 n ++ plist vg 2 n) (zseq (baseval (vs vg)) n).
Proof.
  intros Hn Hp. apply NoDup_Permutation.
  - apply NoDup_app_intro; [apply NoDup_plist | apply NoDup_app_intro; try apply NoDup_plist |].
    + intros x H1 H2. apply In_plist in H1, H2. lia.
    + intros x H1 H2. apply in_app_iff in H2. rewrite !In_plist in H2. apply In_plist in H1. lia.
  - apply NoDup_zseq.
  - intros v. rewrite !in_app_iff, !In_plist, In_zseq. split; [intuition lia|]. intros Hv. specialize (Hp v Hv). assert (C : part vg v = 0 \/ part vg v = 1 \/ part vg v = 2) by lia. intuition.
Qed.

Lemma sublist_seg l k n : 0 <= k -> 0 <= n -> k + n <= zlen l -> sublist l k n = Ok (seg l k n).
Proof.
  intros. unfold sublist. replace ((0 <=? k) && (0 <=? n) && (k + n <=? zlen l)) with true by lia. f_equal. apply (at_ext 0).
  - pose proof (zlen_skipn k l ltac:(lia)). rewrite zlen_firstn by lia. now rewrite zlen_seg by lia.
  - intros i. pose proof (zlen_skipn k l ltac:(lia)). rewrite zlen_firstn by lia. intros Hi. rewrite at_firstn by lia. rewrite at_skipn by lia. rewrite at_seg by lia. f_equal. lia.
Qed.

Lemma ndLists_spec s vg : graph_ok s -> separation s vg -> let n := vertnbr s in
  vcsz0 vg = zlen (plist vg 0 n) /\ vcsz1 vg = zlen (plist vg 1 n) /\ vfronnbr vg = zlen (plist vg 2 n) /\
  zlen (plist vg 0 n) + zlen (plist vg 1 n) + zlen (plist vg 2 n) = n /\
  exists fr, ndLists vg = Ok fr /\ sublist fr (vfronnbr vg) (vcsz0 vg) = Ok (plist vg 0 n) /\
    sublist fr (vfronnbr vg + vcsz0 vg) (vcsz1 vg) = Ok (plist vg 1 n) /\ sublist fr 0 (vfronnbr vg) = Ok (plist vg 2 n).
Proof.
  intros (El & G & R & Hb) S n. pose proof (sn_graph _ _ S) as Es. pose proof (gv_nnd _ G) as Gn. pose proof (gv_size _ G) as Gs. cbn [unload vertnnd vertnbr baseval] in Gn, Gs. fold n in Gn, Gs.
  set (b := baseval s) in *.
  assert (Sz : forall p, psize vg p = zlen (plist vg p n)). { intros p. unfold psize, plist. rewrite Es. fold b. rewrite zcount_filter by lia. do 3 f_equal. lia. }
  rewrite (sn_size0 _ _ S), (sn_size1 _ _ S), (sn_size2 _ _ S), !Sz. split; [auto|]. split; [auto|]. split; [auto|].
  assert (Hs : zlen (plist vg 0 n) + zlen (plist vg 1 n) + zlen (plist vg 2 n) = n).
  { pose proof (plist_perm vg n Gs) as HP. rewrite Es in HP. fold b in HP. specialize (HP ltac:(intros v Hv; apply (sn_part _ _ S); unfold isvert; fold b; lia)).
    apply Permutation_length in HP. rewrite !app_length in HP. pose proof (zlen_zseq b n Gs) as Hz. unfold zlen in *. lia. }
  split; [exact Hs|]. pose proof (sn_lfron _ _ S) as Lf. pose proof (sn_lpart _ _ S) as Lp. fold n in Lf, Lp.
  unfold ndLists. rewrite Es. fold b. rewrite (sn_size0 _ _ S), (sn_size2 _ _ S), !Sz.
  set (n0 := zlen (plist vg 0 n)) in *. set (n1 := zlen (plist vg 1 n)) in *. set (n2 := zlen (plist vg 2 n)) in *.
  pose proof (zlen_nonneg (plist vg 0 n)) as P0. pose proof (zlen_nonneg (plist vg 1 n)) as P1. pose proof (zlen_nonneg (plist vg 2 n)) as P2. fold n0 in P0. fold n1 in P1. fold n2 in P2.
  destruct (wp_ok_inv (for_ b (vertnnd s) (fun v '(fr, p0, p1, p2) =>
    do p <- rpart vg v;
    if p =? 0 then do fr <- wr 0 fr p0 v; Ok (fr, p0 + 1, p1, p2) else
    if p =? 1 then do fr <- wr 0 fr p1 v; Ok (fr, p0, p1 + 1, p2) else
    if p =? 2 then do fr <- wr 0 fr p2 v; Ok (fr, p0, p1, p2 + 1) else UB)
    (vfron vg, n2, n2 + n0, 0)) (fun '(fr, _, _, _) => zlen fr = zlen (vfron vg) /\ seg fr n2 n0 = plist vg 0 n /\ seg fr (n2 + n0) n1 = plist vg 1 n /\ seg fr 0 n2 = plist vg 2 n)) as ((((fr, p0), p1), p2) & E & Zf & A0 & A1 & A2).
  { apply wp_for with (I := fun v '(fr, p0, p1, p2) => zlen fr = zlen (vfron vg) /\ p0 = n2 + zlen (plist vg 0 (v - b)) /\ p1 = n2 + n0 + zlen (plist vg 1 (v - b)) /\ p2 = zlen (plist vg 2 (v - b)) /\
      (forall k, 0 <= k < zlen (plist vg 0 (v - b)) -> at_ 0 fr (n2 + k) = at_ 0 (plist vg 0 (v - b)) k) /\
      (forall k, 0 <= k < zlen (plist vg 1 (v - b)) -> at_ 0 fr (n2 + n0 + k) = at_ 0 (plist vg 1 (v - b)) k) /\
      (forall k, 0 <= k < zlen (plist vg 2 (v - b)) -> at_ 0 fr k = at_ 0 (plist vg 2 (v - b)) k)).
    - lia.
    - replace (b - b) with 0 by lia. assert (En : forall p, plist vg p 0 = []) by reflexivity. rewrite !En. change (zlen (@nil Z)) with 0. repeat split; try lia; intros; lia.
    - intros v (((fr, p0), p1), p2) Hv (Zf & -> & -> & -> & A0 & A1 & A2). unfold rpart. rewrite Es. fold b. rewrite rd_ok by lia. change (at_ b (vpart vg) v) with (at_ (baseval s) (vpart vg) v). rewrite <- Es. fold (part vg v). cbn [bind].
      assert (Hp : 0 <= part vg v <= 2) by (apply (sn_part _ _ S); unfold isvert; fold b; lia).
      assert (Sn : forall p, plist vg p (v + 1 - b) = plist vg p (v - b) ++ if part vg v =? p then [v] else []).
      { intros p. replace (v + 1 - b) with (v - b + 1) by lia. rewrite plist_snoc by lia. rewrite Es. fold b. replace (b + (v - b)) with v by lia. reflexivity. }
      pose proof (plist_mono vg 0 (v + 1 - b) n ltac:(lia)) as M0. pose proof (plist_mono vg 1 (v + 1 - b) n ltac:(lia)) as M1. pose proof (plist_mono vg 2 (v + 1 - b) n ltac:(lia)) as M2. fold n0 in M0. fold n1 in M1. fold n2 in M2.
      rewrite !Sn, !zlen_app in *.
      pose proof (zlen_nonneg (plist vg 0 (v - b))) as Q0. pose proof (zlen_nonneg (plist vg 1 (v - b))) as Q1. pose proof (zlen_nonneg (plist vg 2 (v - b))) as Q2.
      assert (C : part vg v = 0 \/ part vg v = 1 \/ part vg v = 2) by lia. destruct C as [C|[C|C]]; rewrite C in *; cbn [Z.eqb Pos.eqb] in *; change (zlen [v]) with 1 in *; change (zlen (@nil Z)) with 0 in *.
      + rewrite wr_ok by lia. cbn [bind wp]. rewrite zlen_upd, !app_nil_r. split; [auto|]. split; [lia|]. split; [lia|]. split; [lia|]. split; [|split].
        * intros k Hk. rewrite at_upd by lia. destruct (Z.eqb_spec (n2 + zlen (plist vg 0 (v - b))) (n2 + k)); [rewrite at_app2 by lia; replace (k - zlen (plist vg 0 (v - b))) with 0 by lia; reflexivity | rewrite at_app1 by lia; apply A0; lia].
        * intros k Hk. rewrite at_upd by lia. destruct (Z.eqb_spec (n2 + zlen (plist vg 0 (v - b))) (n2 + n0 + k)); [lia | apply A1; lia].
        * intros k Hk. rewrite at_upd by lia. destruct (Z.eqb_spec (n2 + zlen (plist vg 0 (v - b))) k); [lia | apply A2; lia].
      + rewrite wr_ok by lia. cbn [bind wp]. rewrite zlen_upd, !app_nil_r. split; [auto|]. split; [lia|]. split; [lia|]. split; [lia|]. split; [|split].
        * intros k Hk. rewrite at_upd by lia. destruct (Z.eqb_spec (n2 + n0 + zlen (plist vg 1 (v - b))) (n2 + k)); [lia | apply A0; lia].
        * intros k Hk. rewrite at_upd by lia. destruct (Z.eqb_spec (n2 + n0 + zlen (plist vg 1 (v - b))) (n2 + n0 + k)); [rewrite at_app2 by lia; replace (k - zlen (plist vg 1 (v - b))) with 0 by lia; reflexivity | rewrite at_app1 by lia; apply A1; lia].
        * intros k Hk. rewrite at_upd by lia. destruct (Z.eqb_spec (n2 + n0 + zlen (plist vg 1 (v - b))) k); [lia | apply A2; lia].
      + rewrite wr_ok by lia. cbn [bind wp]. rewrite zlen_upd, !app_nil_r. split; [auto|]. split; [lia|]. split; [lia|]. split; [lia|]. split; [|split].
        * intros k Hk. rewrite at_upd by lia. destruct (Z.eqb_spec (zlen (plist vg 2 (v - b))) (n2 + k)); [lia | apply A0; lia].
        * intros k Hk. rewrite at_upd by lia. destruct (Z.eqb_spec (zlen (plist vg 2 (v - b))) (n2 + n0 + k)); [lia | apply A1; lia].
        * intros k Hk. rewrite at_upd by lia. destruct (Z.eqb_spec (zlen (plist vg 2 (v - b))) k); [rewrite at_app2 by lia; replace (k - zlen (plist vg 2 (v - b))) with 0 by lia; reflexivity | rewrite at_app1 by lia; apply A2; lia].
    - intros (((fr, p0), p1), p2) (Zf & _ & _ & _ & A0 & A1 & A2). replace (vertnnd s - b) with n in * by lia. split; [auto|]. split; [|split]; (apply (at_ext 0); [rewrite zlen_seg; lia|]); intros i; rewrite zlen_seg by lia; intros Hi; rewrite at_seg by lia; [apply A0 | apply A1 | rewrite A2 by (fold n2; lia); reflexivity]; lia. }
  rewrite E. cbn [bind]. exists fr. split; [reflexivity|]. rewrite !sublist_seg by lia. rewrite A0, A1, A2. auto.
Qed.

(** ** Induced subgraphs *)
Lemma ends_unload g v : ends (unload g) v = ends g v.
Proof. unfold ends, nbr. rewrite !map_map. reflexivity. Qed.
Lemma induce_unload jk al g l : edlotab g = None -> graphInduceList jk al g l = graphInduceList jk al (unload g) l.
Proof. intros E. destruct g. simpl in E. subst. reflexivity. Qed.
Lemma hinduce_unload jk h l k : edlotab (hs h) = None -> hgraphInduceList jk h l k = hgraphInduceList jk (hunload h) l k.
Proof. intros E. destruct h as [[]]. simpl in E. subst. reflexivity. Qed.
Lemma edlosum_1 g : graph_valid g -> edlotab g = None -> edlosum g = edgenbr g.
Proof.
  intros G El. rewrite (gv_edlosum _ G), (gv_edgenbr _ G). apply zsum_ext. intros v Hv. rewrite (zsum_ext _ _ _ (fun _ => 1)) by (intros; unfold edlo; rewrite El; reflexivity).
  pose proof (gv_range _ G v Hv). rewrite zsum_const by lia. lia.
Qed.
Lemma unload_id g : graph_valid g -> edlotab g = None -> unload g = g.
Proof. intros G El. pose proof (edlosum_1 g G El) as E. destruct g. cbn in *. subst. reflexivity. Qed.
Lemma hunload_id h : hgraph_valid h -> hunload h = h.
Proof.
  intros V. pose proof (unload_id _ (hv_graph _ V) (hv_noedlo _ V)) as E. pose proof (hv_enlo _ V) as E2. destruct h. cbn in *. unfold hunload. cbn. rewrite E, E2. reflexivity.
Qed.
Lemma hgraph_valid_ok h : hgraph_valid h -> hgraph_ok h.
Proof. intros V. split; [apply (hv_noedlo _ V) | now rewrite hunload_id]. Qed.

Lemma son_spec jk h l H hn : hgraph_ok h -> NoDup l -> (forall w, In w l -> baseval (hs h) <= w < vnohnnd h) ->
  (forall v w, In v l -> In w (ends (hs h) v) -> ~ In w l -> In w H) -> zlen H <= hn ->
  exists h', hgraphInduceList jk h l hn = Ok h' /\ hgraph_ok h' /\ vnohnbr h' = zlen l /\
    map (orgnum (hs h')) (zseq (baseval (hs h')) (zlen l)) = map (orgnum (hs h)) l /\
    (forall A, faithful A h -> faithful A h').
Proof.
  intros (El & V) Nd Hl HH Hz. pose proof (hv_nbr _ V) as Hb. pose proof (hv_nnd _ V) as Hd. pose proof (gv_nnd _ (hv_graph _ V)) as Gn. cbn [hunload hs vnohnnd vnohnbr unload baseval vertnbr vertnnd] in Hb, Hd, Gn.
  assert (Hlv : forall w, In w l -> isvert (hs (hunload h)) w). { intros w Hw. apply Hl in Hw. unfold isvert. cbn [hunload hs unload baseval vertnnd]. lia. }
  destruct (hgraphInduceList_spec jk (hunload h) l H hn (hv_graph _ V) (hv_read _ V) (hv_base _ V) eq_refl (hv_vnum _ V) Nd Hlv) as (h' & hl & E & I & V').
  { intros v w. cbn [hunload hs]. rewrite ends_unload. apply HH. }
  { exact Hz. }
  rewrite hinduce_unload by auto. exists h'. split; [exact E|]. split; [now apply hgraph_valid_ok|]. split; [apply (hi_vnoh _ _ _ _ I)|].
  pose proof (hi_base _ _ _ _ I) as Eb. cbn [hunload hs unload baseval] in Eb. destruct (hi_vnum _ _ _ _ I) as (vn & Ev & Av).
  assert (On : forall i, 0 <= i < zlen l -> orgnum (hs h') (baseval (hs h) + i) = orgnum (hs h) (at_ 0 l i)).
  { intros i Hi. unfold orgnum at 1. rewrite Ev, Eb. replace (at_ (baseval (hs h)) vn (baseval (hs h) + i)) with (at_ 0 vn i) by (unfold at_; f_equal; lia). rewrite Av by (rewrite zlen_app; pose proof (zlen_nonneg hl); lia).
    rewrite at_app1 by lia. reflexivity. }
  split.
  - rewrite Eb. apply (at_ext 0); [rewrite !zlen_map, zlen_zseq by apply zlen_nonneg; reflexivity|]. intros i. rewrite zlen_map, zlen_zseq by apply zlen_nonneg. intros Hi. rewrite !at_map by (rewrite ?zlen_zseq by apply zlen_nonneg; lia).
    rewrite at_zseq by lia. replace (i - 0) with i by lia. apply On. lia.
  - intros A F u v Hu Hv HA. pose proof (hv_nnd _ V') as Hd'. rewrite (hi_vnoh _ _ _ _ I) in Hd'. rewrite Eb in *. rewrite Hd' in Hu, Hv.
    replace u with (baseval (hs h) + (u - baseval (hs h))) in * by lia. set (i := u - baseval (hs h)) in *. replace v with (baseval (hs h) + (v - baseval (hs h))) in * by lia. set (j := v - baseval (hs h)) in *.
    rewrite !On in HA by lia. pose proof (at_In 0 l i ltac:(lia)) as Ii. pose proof (at_In 0 l j ltac:(lia)) as Ij.
    apply F in HA; [|apply Hl; auto|apply Hl; auto]. pose proof (hi_arcs _ _ _ _ I i ltac:(lia)) as Ea. change (baseval (hs (hunload h))) with (baseval (hs h)) in Ea. rewrite Ea. apply in_map_iff. exists (at_ 0 l j). split.
    + rewrite renum_ext by auto. rewrite renum_at by (auto; lia). reflexivity.
    + apply in_app_iff. left. apply filter_In. split; [|now apply selected_in]. change (In (at_ 0 l j) (ends (unload (hs h)) (at_ 0 l i))). rewrite ends_unload. exact HA.
Qed.

Lemma sep_spec jk al h l lv : 1 <= al <= 2 -> hgraph_ok h -> NoDup l -> (forall w, In w l -> baseval (hs h) <= w < vnohnnd h) ->
  exists g', graphInduceList jk al (hs h) l = Ok g' /\ hgraph_ok (nohalo g' lv) /\ vertnbr g' = zlen l /\
    map (orgnum g') (zseq (baseval g') (zlen l)) = map (orgnum (hs h)) l.
Proof.
  intros Ha (El & V) Nd Hl. pose proof (hv_nbr _ V) as Hb. pose proof (hv_nnd _ V) as Hd. pose proof (gv_nnd _ (hv_graph _ V)) as Gn. cbn [hunload hs vnohnnd vnohnbr unload baseval vertnbr vertnnd] in Hb, Hd, Gn.
  assert (Hlv : forall w, In w l -> isvert (unload (hs h)) w). { intros w Hw. apply Hl in Hw. unfold isvert. cbn [unload baseval vertnnd]. lia. }
  destruct (wp_ok_inv _ _ (induceList_spec jk al (unload (hs h)) l (hv_graph _ V) (hv_read _ V) (hv_base _ V) Ha (hv_vnum _ V) Nd Hlv)) as (g' & E & I & G' & R').
  rewrite induce_unload by auto. exists g'. split; [exact E|].
  pose proof (in_base _ _ _ I) as Eb. cbn [unload baseval] in Eb. destruct (in_vnum _ _ _ I) as (vn & Ev & Lv & Av). destruct (in_weights _ _ _ I) as (_ & W).
  split; [|split].
  - apply hgraph_valid_ok. apply nohalo_valid; auto.
    + rewrite Eb. apply (hv_base _ V).
    + apply W. reflexivity.
    + intros t Et. rewrite Ev in Et. injection Et as <-. rewrite (in_nbr _ _ _ I). lia.
  - apply (in_nbr _ _ _ I).
  - rewrite Eb. apply (at_ext 0); [rewrite !zlen_map, zlen_zseq by apply zlen_nonneg; reflexivity|]. intros i. rewrite zlen_map, zlen_zseq by apply zlen_nonneg. intros Hi. rewrite !at_map by (rewrite ?zlen_zseq by apply zlen_nonneg; lia).
    rewrite at_zseq by lia. unfold orgnum at 1. rewrite Ev, Eb. replace (at_ (baseval (hs h)) vn (baseval (hs h) + (i - 0))) with (at_ 0 vn i) by (unfold at_; f_equal; lia). rewrite Av by lia. reflexivity.
Qed.

Lemma unhalo_arc h v w : hgraph_ok h -> baseval (hs h) <= v < vnohnnd h -> baseval (hs h) <= w < vnohnnd h -> In w (ends (hs h) v) ->
  exists e, arc (hgraphUnhalo h) v e /\ edge (hgraphUnhalo h) e = w.
Proof.
  intros (El & V) Hv Hw Hin. apply In_ends in Hin. destruct Hin as (e & He & Ee). exists e. split; [|exact Ee]. split; [exact Hv|].
  destruct (hv_split _ V v Hv) as (S1 & S2). change (vert (hs h) v <= e < at_ (baseval (hs h)) (vnhdtab h) v). split; [lia|]. apply (S2 e He). change (edge (hs h) e < vnohnnd h). lia.
Qed.
