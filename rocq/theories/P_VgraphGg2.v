(** Proofs about separation by greedy graph growing: passes, and the method. *)
From Verif Require Import Base Mem M_Graph M_Vgraph M_VgraphSt M_VgraphGg S_Graph S_Vgraph S_Color S_VgraphSt S_VgraphGg P_Graph P_Vgraph P_Vgraph2 P_VgraphSt P_VgraphGp P_VgraphGp2 P_VgraphGp3 P_VgraphGg.

Section Gg2.
Variable s : graph.
Hypothesis R : graph_readable s.
Hypothesis V : graph_valid s.
Variables w0 w1 : Z.
Variable ab : Z -> Z.
Variable frst : nat -> list Z -> list Z -> option Z.
Hypothesis HF : frst_ok s frst.
Notation b := (baseval s).
Notation n := (vertnbr s).
Notation nnd := (vertnnd s).
Notation S_ st v := (at_ b st v).
Notation cls st v := (Z.min (at_ b st v) 2).
Notation gstate := (gstate s w0 w1).
Notation rest := (rest s).

Lemma gstate_k x k : gstate x -> gstate (mkggst (gg_st x) (gg_gn x) (gg_dlt x) (gg_c2 x) k).
Proof. intros [A1 A2 A3 A4 A5]. constructor; assumption. Qed.
Lemma rest_le st : 0 <= rest st <= n.
Proof.
  pose proof (NN s V) as (N1 & N2). split; [apply zcount_nonneg|]. replace n with (zsum b nnd (fun _ => 1)) by (rewrite zsum_const by lia; lia). apply zsum_le. intros i _. destruct (negb _); cbn [b2z]; lia.
Qed.

Lemma moves_ok fuel v x : n < Z.of_nat fuel -> gstate x -> isvert s v -> S_ (gg_st x) v = 3 ->
  exists y stop, ggMoves fuel s ab frst w0 w1 v x = Ok (y, stop) /\ gstate y /\ (stop = false -> rest (gg_st y) < rest (gg_st x) /\ forall u, isvert s u -> S_ (gg_st y) u <> 3).
Proof.
  intros Hf G Hv E3. unfold ggMoves.
  match goal with |- context [loop fuel ?B ?i] => destruct (wp_ok_inv (loop fuel B i) (fun '(y, stop) => gstate y /\ (stop = false -> rest (gg_st y) < rest (gg_st x) /\ forall u, isvert s u -> S_ (gg_st y) u <> 3))) as ((y & stop) & E & Q1 & Q2) end.
  2: { exists y, stop. auto. }
  apply wp_loop with (I := fun '(v, y) => gstate y /\ isvert s v /\ S_ (gg_st y) v = 3 /\ rest (gg_st y) <= rest (gg_st x)) (m := fun '(v, y) => rest (gg_st y)).
  - split; [exact G|]. split; [exact Hv|]. split; [exact E3 | lia].
  - pose proof (rest_le (gg_st x)). lia.
  - intros [v' y] (I1 & I2 & I3 & I4). destruct (move_ok s R V w0 w1 ab v' y I1 I2 I3) as (r & -> & Hr). cbn [bind]. destruct r as [z|].
    + destruct Hr as (G' & Rz & R0). cbv zeta. pose proof (HF (gg_k z) (gg_st z) (gg_gn z)) as F. destruct (frst (gg_k z) (gg_st z) (gg_gn z)) as [u|]; cbn [wp].
      * destruct F as (Hu & Eu). cbn [gg_st]. split; [|lia]. split; [apply (gstate_k z); exact G'|]. split; [exact Hu|]. split; [exact Eu | lia].
      * split; [apply (gstate_k z); exact G'|]. intros _. cbn [gg_st]. split; [lia | exact F].
    + cbn [wp]. split; [exact I1 | discriminate].
Qed.

Lemma root_ok v x : gstate x -> isvert s v -> S_ (gg_st x) v = 0 -> (forall u, isvert s u -> S_ (gg_st x) u <> 3) ->
  exists y, ggRoot s w1 v x = Ok y /\ gstate y /\ S_ (gg_st y) v = 3 /\ rest (gg_st y) = rest (gg_st x).
Proof.
  intros [G N2 SP DL C2] Hv E0 N3. pose proof (NN s V) as (N1 & N0). pose proof (gi_st _ _ _ G) as L1. pose proof (gi_gn _ _ _ G) as L2. pose proof Hv as Hv'. unfold isvert in Hv'.
  set (st := gg_st x) in *. set (gn := gg_gn x) in *. unfold ggRoot. cbv zeta. fold st. fold gn. rewrite wr_ok by lia. cbn [bind]. destruct (vread s R V v Hv) as (-> & ->). cbn [bind].
  pose proof (gv_range s V v Hv) as [Rv1 Rv2].
  set (gv := zsum (vert s v) (vend s v) (fun e => velo s (edge s e)) - velo s v).
  match goal with |- context [bind (match velotab s with _ => _ end) ?f] => set (KK := f); assert (EV : match velotab s with None => Ok (1, vend s v - vert s v - 1) | Some _ => do l <- rvelo s v; do gv <- for_ (vert s v) (vend s v) (fun e gv => do u <- redge s e; do lu <- rvelo s u; Ok (gv + lu)) (- l); Ok (l, gv) end = Ok (velo s v, gv)) end.
  { destruct (velotab s) as [vt|] eqn:Ev.
    - rewrite (rvelo_ok s R V v Hv). cbn [bind].
      match goal with |- context [for_ ?lo ?hi ?f ?i] => destruct (wp_ok_inv (for_ lo hi f i) (fun z => z = gv)) as (z & -> & ->) end; [|reflexivity].
      apply wp_for with (I := fun e z => z = zsum (vert s v) e (fun e => velo s (edge s e)) - velo s v); [lia| | |].
      + rewrite zsum_nil by lia. lia.
      + intros e z He ->. assert (Ha : arc s v e) by (split; auto). rewrite (redge' s R v e Ha). cbn [bind]. rewrite (rvelo_ok s R V _ (gv_end s V v e Ha)). cbn [bind wp]. rewrite zsum_snoc by lia. lia.
      + intros z ->. reflexivity.
    - assert (VE : forall u, velo s u = 1) by (intros u; unfold velo; rewrite Ev; reflexivity). unfold gv. rewrite (zsum_ext _ _ _ (fun _ => 1)) by (intros; apply VE). rewrite zsum_const by lia. rewrite VE. do 2 f_equal. lia. }
  rewrite EV. unfold KK. cbn [bind]. rewrite wr_ok by lia. cbn [bind]. eexists. split; [reflexivity|].
  set (st1 := upd b st v 3).
  assert (A1 : forall u, isvert s u -> S_ st1 u = if v =? u then 3 else S_ st u) by (intros u Hu; unfold st1, isvert in *; rewrite at_upd by lia; reflexivity).
  assert (V01 : forall u, isvert s u -> S_ st u = 0 \/ S_ st u = 1) by (intros u Hu; pose proof (gi_val _ _ _ G u Hu); pose proof (N2 u Hu); pose proof (N3 u Hu); lia).
  split; [|split].
  - constructor; cbn [gg_st gg_gn gg_dlt gg_c2]; fold st1.
    + constructor.
      * unfold st1. now rewrite zlen_upd.
      * now rewrite zlen_upd.
      * intros u Hu. rewrite A1 by auto. destruct (v =? u); [lia|]. destruct (V01 u Hu); lia.
      * intros u Hu H2. rewrite A1 in H2 by auto. pose proof Hu as Hu'. unfold isvert in Hu'. rewrite at_upd by lia. destruct (Z.eqb_spec v u) as [<-|Hn]; [|destruct (V01 u Hu); lia].
        unfold gv. f_equal. unfold Z0. apply zsum_ext. intros e He. assert (Ha : arc s v e) by (split; auto). pose proof (gv_end s V v e Ha) as Hw. rewrite A1 by exact Hw.
        destruct (Z.eqb_spec v (edge s e)) as [El|_]; [destruct (gv_loop s V v e Ha); congruence|].
        destruct (V01 _ Hw) as [->|E1]; [reflexivity|]. exfalso. apply (SP (edge s e) v); auto. apply (adj_sym s V). exists e. auto.
    + intros u Hu. rewrite A1 by auto. destruct (v =? u); [lia | auto].
    + intros u w Ha Eu Ew. destruct (adj_vert s V u w Ha) as (Hu & Hw). rewrite A1 in Eu, Ew by auto. destruct (v =? u); [lia|]. destruct (v =? w); [lia|]. exact (SP u w Ha Eu Ew).
    + unfold st1. rewrite !(CL_upd s V) by auto. rewrite E0, DL. change (Z.min 0 2) with 0. change (Z.min 3 2) with 2. change (0 =? 0) with true. change (2 =? 0) with false. change (0 =? 1) with false. change (2 =? 1) with false. cbv iota. ring.
    + unfold st1. rewrite (CL_upd s V) by auto. rewrite E0, C2. change (Z.min 0 2) with 0. change (Z.min 3 2) with 2. change (0 =? 2) with false. change (2 =? 2) with true. cbv iota. ring.
  - cbn [gg_st]. fold st1. rewrite A1 by auto. now rewrite Z.eqb_refl.
  - cbn [gg_st]. fold st1. apply zsum_ext. intros u Hu. rewrite A1 by exact Hu. destruct (Z.eqb_spec v u) as [<-|]; [rewrite E0|]; reflexivity.
Qed.

Lemma next_ok fuel prm st i : n < Z.of_nat fuel -> zlen st = n -> perm_ok s prm -> 0 <= i ->
  exists r, ggNext fuel s prm st i = Ok r /\ match r with Some (v, i') => isvert s v /\ S_ st v = 0 /\ 0 <= i' | None => True end.
Proof.
  intros Hf Hz (P1 & P2 & _) Hi. pose proof (NN s V) as (N1 & N0). unfold ggNext.
  match goal with |- context [loop fuel ?B ?j] => apply (fun a => let '(ex_intro _ r (conj E Q)) := wp_ok_inv (loop fuel B j) (fun r => match r with Some (v, i') => isvert s v /\ S_ st v = 0 /\ 0 <= i' | None => True end) a in ex_intro _ r (conj E Q)) end.
  apply wp_loop with (I := fun i => 0 <= i) (m := fun i => Z.max 0 (n - i)); [lia | lia|].
  intros j Hj. destruct (Z.ltb_spec j n); [|exact I]. pose proof (P2 j ltac:(lia)) as Hv. pose proof Hv as Hv'. unfold isvert in Hv'. rewrite rd_ok by lia. cbn [bind]. rewrite rd_ok by lia. cbn [bind].
  destruct (Z.eqb_spec (S_ st (at_ 0 prm j)) 0); cbn [wp]; [split; [exact Hv|]; split; [assumption | lia] | lia].
Qed.

Lemma pass_ok fuel rnd prm k : n < Z.of_nat fuel -> 0 < n -> perm_ok s prm -> exists y, ggPass fuel s ab frst w0 w1 rnd prm k = Ok y /\ gstate y.
Proof.
  intros Hf Hn HP. pose proof (NN s V) as (N1 & N0). unfold ggPass. cbv zeta. destruct (Z.eqb_spec n 0) as [|_]; [lia|].
  set (x0 := mkggst _ _ _ _ _).
  assert (A0 : forall u, isvert s u -> S_ (gg_st x0) u = 0) by (intros u Hu; unfold isvert in Hu; cbn [x0 gg_st]; apply at_repeat; lia).
  assert (G0 : gstate x0).
  { constructor.
    - constructor; cbn [x0 gg_st gg_gn]; rewrite ?zlen_repeat; try lia.
      + intros u Hu. pose proof (A0 u Hu) as X. cbn [x0 gg_st] in X. lia.
      + intros u Hu H2. pose proof (A0 u Hu) as X. cbn [x0 gg_st] in X. lia.
    - intros u Hu. rewrite A0 by auto. lia.
    - intros u w Ha Eu. destruct (adj_vert s V u w Ha) as (Hu & _). rewrite A0 in Eu by auto. lia.
    - assert (CL s (gg_st x0) 0 = velosum s) as ->.
      { rewrite (gv_velosum s V). apply zsum_ext. intros u Hu. rewrite A0 by exact Hu. reflexivity. }
      assert (CL s (gg_st x0) 1 = 0) as -> by (apply zsum_zero; intros u Hu; rewrite A0 by exact Hu; reflexivity). cbn [x0 gg_dlt]. ring.
    - assert (CL s (gg_st x0) 2 = 0) as -> by (apply zsum_zero; intros u Hu; rewrite A0 by exact Hu; reflexivity). reflexivity. }
  match goal with |- context [loop fuel ?B ?j] => apply (fun a => let '(ex_intro _ r (conj E Q)) := wp_ok_inv (loop fuel B j) gstate a in ex_intro _ r (conj E Q)) end.
  apply wp_loop with (I := fun '(v, i, x) => gstate x /\ isvert s v /\ S_ (gg_st x) v = 0 /\ (forall u, isvert s u -> S_ (gg_st x) u <> 3) /\ 0 <= i) (m := fun '(v, i, x) => rest (gg_st x)).
  - assert (isvert s (b + rnd mod n)) by (pose proof (Z.mod_pos_bound rnd n Hn); unfold isvert; lia). split; [exact G0|]. split; [assumption|]. split; [now apply A0|]. split; [|lia]. intros u Hu. rewrite A0 by auto. lia.
  - pose proof (rest_le (gg_st x0)). lia.
  - intros [[v i] x] (I1 & I2 & I3 & I4 & I5). destruct (root_ok v x I1 I2 I3 I4) as (y & -> & G1 & E3 & Er). cbn [bind].
    destruct (moves_ok fuel v y Hf G1 I2 E3) as (z & stop & -> & G2 & M). cbn [bind]. destruct stop; [exact G2|]. destruct (M eq_refl) as (Mr & M3).
    destruct (next_ok fuel prm (gg_st z) i Hf (gi_st _ _ _ (gt_inv _ _ _ _ G2)) HP I5) as (r & -> & Hr). cbn [bind]. destruct r as [[v' i']|]; [|exact G2]. cbn [wp]. destruct Hr as (H1 & H2 & H3).
    split; [auto|]. pose proof (rest_le (gg_st z)). lia.
Qed.

Variable L : Z.
Hypothesis HL : n <= L.
Lemma copy_ok st pt : zlen st = n -> (forall u, isvert s u -> 0 <= S_ st u <= 3) -> zlen pt = L ->
  exists pt', ggCopy s st pt = Ok pt' /\ zlen pt' = L /\ forall u, isvert s u -> S_ pt' u = cls st u.
Proof.
  intros Hz Hv Hp. pose proof (NN s V) as (N1 & N0). unfold ggCopy.
  match goal with |- context [for_ ?lo ?hi ?f ?i] => apply (fun a => let '(ex_intro _ r (conj E Q)) := wp_ok_inv (for_ lo hi f i) (fun pt' => zlen pt' = L /\ forall u, isvert s u -> S_ pt' u = cls st u) a in ex_intro _ r (conj E Q)) end.
  apply wp_for with (I := fun e pt' => zlen pt' = L /\ forall u, b <= u < e -> S_ pt' u = cls st u); [lia | split; [auto | intros; lia] | |].
  - intros u pt' Hu (I1 & I2). rewrite rd_ok by lia. cbn [bind]. rewrite wr_ok by lia. cbn [wp]. rewrite zlen_upd. split; [auto|]. intros w Hw. rewrite at_upd by lia. destruct (Z.eqb_spec u w) as [<-|].
    + specialize (Hv u Hu). destruct (Z.leb_spec (S_ st u) 2); lia.
    + apply I2. lia.
  - intros pt' (I1 & I2). split; [auto|]. intros u Hu. apply I2. exact Hu.
Qed.
Lemma copy_psep x pt : gstate x -> zlen pt = L -> exists pt', ggCopy s (gg_st x) pt = Ok pt' /\ psep s w0 w1 L pt' (gg_dlt x) (gg_c2 x).
Proof.
  intros [G N2 SP DL C2] Hp. destruct (copy_ok (gg_st x) pt (gi_st _ _ _ G) (gi_val _ _ _ G) Hp) as (pt' & E & Q1 & Q2). exists pt'. split; [exact E|].
  assert (LE : forall q, LD s pt' q = CL s (gg_st x) q) by (intros q; apply zsum_ext; intros u Hu; now rewrite Q2 by exact Hu).
  constructor; rewrite ?LE; auto.
  - intros u Hu. rewrite Q2 by auto. pose proof (gi_val _ _ _ G u Hu). lia.
  - intros u w Ha Eu Ew. destruct (adj_vert s V u w Ha) as (Hu & Hw). rewrite Q2 in Eu, Ew by auto. pose proof (gi_val _ _ _ G u Hu). pose proof (gi_val _ _ _ G w Hw). apply (SP u w Ha); lia.
Qed.

Variables (rnd : Z -> Z) (prm : Z -> list Z).
Hypothesis HP : forall p, perm_ok s (prm p).
(** the passes from [p], as a whole *)
Lemma step_ok p pt dlt c2 k : 0 < n -> psep s w0 w1 L pt dlt c2 -> exists x pt' dlt' c2' k', ggPass (S (S (Z.to_nat n))) s ab frst w0 w1 (rnd p) (prm p) k = Ok x /\
  ggKeep s ab p x (pt, dlt, c2, k) = Ok (pt', dlt', c2', k') /\ psep s w0 w1 L pt' dlt' c2' /\ (p <> 0 -> c2' < c2 \/ c2' = c2 /\ ab dlt' <= ab dlt).
Proof.
  intros Hn PS. destruct (pass_ok (S (S (Z.to_nat n))) (rnd p) (prm p) k ltac:(lia) Hn (HP p)) as (x & E & G). unfold ggKeep.
  destruct (copy_psep x pt G (pp_len _ _ _ _ _ _ _ PS)) as (pt' & Ec & PS').
  destruct ((p =? 0) || ((gg_c2 x <? c2) || ((c2 =? gg_c2 x) && (ab (gg_dlt x) <? ab dlt)))) eqn:Ek.
  - exists x, pt', (gg_dlt x), (gg_c2 x), (gg_k x). split; [exact E|]. rewrite Ek, Ec. split; [reflexivity|]. split; [exact PS'|]. intros Hp.
    destruct (Z.eqb_spec p 0); [congruence|]. destruct (Z.ltb_spec (gg_c2 x) c2); [auto|]. destruct (Z.eqb_spec c2 (gg_c2 x)); [|discriminate]. destruct (Z.ltb_spec (ab (gg_dlt x)) (ab dlt)); [|discriminate]. right. lia.
  - exists x, pt, dlt, c2, (gg_k x). split; [exact E|]. rewrite Ek. split; [reflexivity|]. split; [exact PS|]. intros _. right. lia.
Qed.
Lemma passes_ok passnbr pt dlt c2 k : 0 < n -> psep s w0 w1 L pt dlt c2 ->
  exists pt' dlt' c2' k', ggPasses s ab frst rnd prm passnbr w0 w1 (pt, dlt, c2, k) = Ok (pt', dlt', c2', k') /\ psep s w0 w1 L pt' dlt' c2'.
Proof.
  intros Hn PS. unfold ggPasses. destruct (Z_lt_le_dec passnbr 0) as [Hl|Hl].
  { exists pt, dlt, c2, k. split; [|exact PS]. unfold for_. replace (Z.to_nat (passnbr - 0)) with O by lia. reflexivity. }
  match goal with |- context [for_ ?lo ?hi ?f ?i] => destruct (wp_ok_inv (for_ lo hi f i) (fun '(pt', dlt', c2', k') => psep s w0 w1 L pt' dlt' c2')) as ((((pt' & dlt') & c2') & k') & E & Q) end.
  2: { exists pt', dlt', c2', k'. auto. }
  apply wp_for with (I := fun _ '(pt', dlt', c2', k') => psep s w0 w1 L pt' dlt' c2'); [lia | exact PS | | auto].
  intros p [[[pt' dlt'] c2'] k'] Hp I. destruct (step_ok p pt' dlt' c2' k' Hn I) as (x & pt2 & dlt2 & c22 & k2 & -> & E2 & PS2 & _). cbn [bind]. rewrite E2. exact PS2.
Qed.
Lemma passes_S passnbr t : 0 <= passnbr -> ggPasses s ab frst rnd prm (passnbr + 1) w0 w1 t =
  do t <- ggPasses s ab frst rnd prm passnbr w0 w1 t; let '(_, _, _, k) := t in do x <- ggPass (S (S (Z.to_nat n))) s ab frst w0 w1 (rnd passnbr) (prm passnbr) k; ggKeep s ab passnbr x t.
Proof.
  intros Hp. unfold ggPasses. rewrite (for_split 0 passnbr (passnbr + 1)) by lia. destruct (for_ 0 passnbr _ t) as [[[[pt dlt] c2] k]| | |]; cbn [bind]; try reflexivity.
  unfold for_. replace (Z.to_nat (passnbr + 1 - passnbr)) with 1%nat by lia. cbn [forN]. match goal with |- _ = ?X => destruct X; reflexivity end.
Qed.
End Gg2.

Section Meth.
Variables (ab : Z -> Z) (frst : nat -> list Z -> list Z -> option Z) (rnd : Z -> Z) (prm : Z -> list Z).

Lemma vstate_psep g x : vstate g -> graph_valid (setsum x (vs g)) -> psep (setsum x (vs g)) (vdw0 g) (vdw1 g) (zlen (vpart g)) (vpart g) (vdlt g) (vcld2 g).
Proof.
  intros [_ B R D C F S] V. constructor.
  - reflexivity.
  - apply (vc_part _ C).
  - intros v w (e & Ha & <-) Ev Ew. exact (proj2 (S v e Ha) (conj Ev Ew)).
  - rewrite (vc_dlt _ C), (vc_load0 _ C), (vc_load1 _ C). reflexivity.
  - apply (vc_load2 _ C).
Qed.

(** From what the passes give to the graph *)
Lemma finish passnbr g x pt dlt c2 k : vstate g -> graph_valid (setsum x (vs g)) ->
  ggPasses (vs g) ab frst rnd prm passnbr (vdw0 g) (vdw1 g) (vpart g, vdlt g, vcld2 g, O) = Ok (pt, dlt, c2, k) ->
  psep (setsum x (vs g)) (vdw0 g) (vdw1 g) (zlen (vpart g)) pt dlt c2 ->
  exists h, vgraphSeparateGg ab frst rnd prm passnbr g = Ok (0, h) /\ vsame g h /\ vstate h /\ vcld2 h = c2 /\ vdlt h = dlt.
Proof.
  intros ST V EP [Q1 Q2 Q3 Q4 Q5]. unfold vgraphSeparateGg. cbv zeta. rewrite EP. cbn [bind].
  pose proof (vt_dw _ ST) as (W0 & W1 & W). pose proof (vt_read _ ST) as RG. pose proof (vr_nnd _ RG) as (N1 & N2). pose proof (vr_part _ RG) as Zp. pose proof (vr_fron _ RG) as Zf.
  set (s := vs g) in *. set (w0 := vdw0 g) in *. set (w1 := vdw1 g) in *. destruct (Z.eqb_spec (w0 + w1) 0); [lia|].
  change (isvert (setsum x s)) with (isvert s) in Q2. change (baseval (setsum x s)) with (baseval s) in Q2, Q3.
  destruct (fin_ok s pt (vfron g) (conj N1 N2) ltac:(lia) ltac:(lia) Q2) as (fr' & EF & F1 & F2 & F3 & F4). cbv zeta in EF. rewrite EF. cbn [bind].
  eexists. split; [reflexivity|]. match goal with |- vsame _ ?z /\ _ => set (h := z) end.
  assert (RH : vg_readable h).
  { destruct RG as [R1 R2 R3 R4 R5]. constructor; cbn [h vs vpart vfron]; auto; try lia. intros v Hv. specialize (Q2 v Hv). unfold part. cbn [h vs vpart]. lia. }
  change (LD (setsum x s)) with (LD s) in Q4, Q5.
  assert (LP : forall q, pload h q = LD s pt q) by reflexivity. assert (SP : forall q, psize h q = pc s pt (vertnnd s) q) by reflexivity.
  assert (VU : valid_upto_sum s) by (exists x; exact V).
  pose proof (pload_all h VU Q2) as LA. pose proof (psize_all h RH Q2) as SA. rewrite !LP in LA. rewrite !SP in SA. change (vs h) with s in LA, SA.
  assert (C0 : Z.quot (dlt + (velosum s - c2) * w0) (w0 + w1) = LD s pt 0).
  { replace (dlt + (velosum s - c2) * w0) with (LD s pt 0 * (w0 + w1)) by nia. apply Z.quot_mul. lia. }
  split; [constructor; cbn [h vs vpart vfron vdw0 vdw1]; auto; lia|]. split; [|split; reflexivity].
  constructor.
  - exact VU.
  - apply (vt_base _ ST).
  - exact RH.
  - exact (vt_dw _ ST).
  - constructor; rewrite ?LP, ?SP; cbn [h vcsz0 vcsz1 vcld0 vcld1 vcld2 vdlt vdw0 vdw1]; auto; rewrite ?C0; try lia.
  - split; [cbn [h vfronnbr]; apply zcount_nonneg|]. split; [exact F2|]. split; [exact F3 | exact F4].
  - intros v e Ha. change (vs h) with s in *. assert (Hadj : adjacent (setsum x s) v (edge s e)) by (exists e; auto). split; intros (X1 & X2).
    + exact (Q3 _ _ (adj_sym _ V _ _ Hadj) X2 X1).
    + exact (Q3 _ _ Hadj X1 X2).
Qed.

Lemma Gg_ok passnbr g : vstate g -> 0 < vertnbr (vs g) -> frst_ok (vs g) frst -> (forall p, perm_ok (vs g) (prm p)) ->
  exists h, vgraphSeparateGg ab frst rnd prm passnbr g = Ok (0, h) /\ vsame g h /\ vstate h.
Proof.
  intros ST Hn HF HP. destruct (vt_valid _ ST) as (x & V). pose proof (vt_read _ ST) as RG.
  destruct (passes_ok (setsum x (vs g)) (readable_set x _ (vr_graph _ RG)) V (vdw0 g) (vdw1 g) ab frst HF (zlen (vpart g)) (vr_part _ RG) rnd prm HP passnbr _ _ _ O Hn (vstate_psep g x ST V)) as (pt & dlt & c2 & k & E & PS).
  change (ggPasses (setsum x (vs g))) with (ggPasses (vs g)) in E. destruct (finish passnbr g x pt dlt c2 k ST V E PS) as (h & Eh & H1 & H2 & _). exists h. auto.
Qed.

Lemma Gg_better passnbr g : vstate g -> 0 < vertnbr (vs g) -> frst_ok (vs g) frst -> (forall p, perm_ok (vs g) (prm p)) -> 1 <= passnbr ->
  exists h h', vgraphSeparateGg ab frst rnd prm passnbr g = Ok (0, h) /\ vgraphSeparateGg ab frst rnd prm (passnbr + 1) g = Ok (0, h') /\
    (vcld2 h' < vcld2 h \/ vcld2 h' = vcld2 h /\ ab (vdlt h') <= ab (vdlt h)).
Proof.
  intros ST Hn HF HP Hp. destruct (vt_valid _ ST) as (x & V). pose proof (vt_read _ ST) as RG. pose proof (readable_set x _ (vr_graph _ RG)) as R.
  destruct (passes_ok (setsum x (vs g)) R V (vdw0 g) (vdw1 g) ab frst HF (zlen (vpart g)) (vr_part _ RG) rnd prm HP passnbr _ _ _ O Hn (vstate_psep g x ST V)) as (pt & dlt & c2 & k & E & PS).
  destruct (step_ok (setsum x (vs g)) R V (vdw0 g) (vdw1 g) ab frst HF (zlen (vpart g)) (vr_part _ RG) rnd prm HP passnbr pt dlt c2 k Hn PS) as (y & pt' & dlt' & c2' & k' & EP & EK & PS' & BT).
  pose proof (passes_S (setsum x (vs g)) (vdw0 g) (vdw1 g) ab frst rnd prm HP passnbr (vpart g, vdlt g, vcld2 g, O) ltac:(lia)) as ES. rewrite E in ES. cbn [bind] in ES. rewrite EP in ES. cbn [bind] in ES. rewrite EK in ES.
  change (ggPasses (setsum x (vs g))) with (ggPasses (vs g)) in E, ES.
  destruct (finish passnbr g x pt dlt c2 k ST V E PS) as (h & Eh & _ & _ & <- & <-). destruct (finish (passnbr + 1) g x pt' dlt' c2' k' ST V ES PS') as (h' & Eh' & _ & _ & <- & <-).
  exists h, h'. split; [exact Eh|]. split; [exact Eh'|]. apply BT. lia.
Qed.
End Meth.
