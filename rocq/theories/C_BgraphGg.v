(** Property C68: bipartitioning by greedy graph growing. *)
From Verif Require Import Base Mem M_Graph M_Vgraph M_Bgraph M_Coarsen M_VgraphSt M_BgraphSt M_VgraphGg M_BgraphGg M_KgraphMap S_Graph S_Bgraph S_BgraphSt S_VgraphSt S_VgraphGg S_BgraphGg S_KgraphMap.
From Verif Require Import M_Arch S_Arch P_Bgraph P_BgraphSt P_VgraphSt2 P_BgraphGg2 C_Graph C_Vgraph C_Bgraph C_KgraphMap C_BgraphSt C_VgraphGg.
Local Notation ex_avg := C_Bgraph.ex_avg.

(** C68: on a graph with vertices, with at least one pass, whatever the random numbers and the gain table, the method neither fails nor accesses
    memory out of bounds, and gives a consistent bipartition of the same problem, which the checking routine accepts.  It is no further from the target load than
    with all vertices in part 0; and part 0 is empty, or has a vertex such that moving it would not reduce the imbalance. *)
Theorem C68_grow :
  forall avg jk ab frst rnd prm passnbr g, bstate avg g -> 0 < vertnbr (bs g) -> tabl_ok (bs g) frst -> (forall p, perm_ok (bs g) (prm p)) -> 1 <= passnbr ->
    exists h, bgraphBipartGg jk ab frst rnd prm passnbr g = Ok (0, h) /\ bsame g h /\ bstate avg h /\ bg_valid avg h /\ bgraphCheck avg h = Ok tt /\
      bbal h = (Z.abs (bload h 0 - bavg g), bavg g) /\
      ab (bload h 0 - bavg g) <= ab (velosum (bs g) - bavg g) /\
      ((forall v, isvert (bs g) v -> bp h v = 1) \/
       exists v, isvert (bs g) v /\ bp h v = 0 /\ 0 < velo (bs g) v /\ ab (bload h 0 - bavg g) <= ab (bload h 0 - velo (bs g) v - bavg g)).
Proof.
  intros avg jk ab frst rnd prm pn g S Hn HF HP Hp. destruct (bGg_ok avg ab frst rnd prm jk pn g S Hn HF HP Hp) as (h & E & Sm & Sh & Vh & En & Mo). exists h. split; [exact E|]. split; [exact Sm|]. split; [exact Sh|]. split; [exact Vh|].
  split; [apply C31_bgraphCheck; [apply Sh | apply Sh | exact Vh]|]. destruct (bm_load _ _ Sm) as (_ & _ & X3). pose proof (bv_dlt _ _ Vh) as X1. pose proof (bv_load _ _ Vh) as X2. rewrite X3, X2 in X1.
  replace (bload h 0 - bavg g) with (bdlt h) by lia. split.
  { clear - E. revert E. unfold bgraphBipartGg. repeat (match goal with |- bind ?r _ = _ -> _ => destruct r; cbn [bind]; try discriminate | |- context [match ?x with (_, _) => _ end] => destruct x end).
    intros E. injection E as <-. cbn [bbal bdlt]. f_equal. match goal with |- context [?x <? 0] => destruct (x <? 0) eqn:E0 end; lia. }
  split; [exact Mo|]. destruct En as [A|(v & H1 & H2 & H3 & H4)]; [now left | right]. exists v. rewrite (bm_graph _ _ Sm) in *.
  split; [exact H1|]. split; [exact H2|]. split; [exact H3|]. replace (bload h 0 - velo (bs g) v - bavg g) with (bdlt h - velo (bs g) v) by lia. exact H4.
Qed.
Print Assumptions C68_grow.

(** C68: more passes do not give a worse bipartition: the communication load is not larger and, if it is the same, the target load is not further *)
Theorem C68_passes :
  forall avg jk frst rnd prm k1 k2 g, bstate avg g -> 0 < vertnbr (bs g) -> tabl_ok (bs g) frst -> (forall p, perm_ok (bs g) (prm p)) -> 1 <= k1 <= k2 ->
    exists h1 h2, bgraphBipartGg jk Z.abs frst rnd prm k1 g = Ok (0, h1) /\ bgraphBipartGg jk Z.abs frst rnd prm k2 g = Ok (0, h2) /\ ~ closer h1 h2.
Proof.
  intros avg jk frst rnd prm k1 k2 g Sg Hn HF HP [Hk1 Hk]. revert k2 Hk.
  apply (zrange_ind (fun k2 => exists h1 h2, bgraphBipartGg jk Z.abs frst rnd prm k1 g = Ok (0, h1) /\ bgraphBipartGg jk Z.abs frst rnd prm k2 g = Ok (0, h2) /\ ~ closer h1 h2)).
  - destruct (bGg_ok avg Z.abs frst rnd prm jk k1 g Sg Hn HF HP Hk1) as (h & E & _). exists h, h. split; [exact E|]. split; [exact E|]. unfold closer. lia.
  - intros k2 Hk (h1 & h2 & E1 & E2 & NB). destruct (bGg_better avg Z.abs frst rnd prm jk k2 g Sg Hn HF HP ltac:(lia)) as (h & h' & Eh & Eh' & B).
    rewrite E2 in Eh. injection Eh as <-. exists h1, h'. split; [exact E1|]. split; [exact Eh'|]. unfold closer in *. lia.
Qed.
Print Assumptions C68_passes.

(** C68: strategies that test that there are vertices before using the method never fail, whatever the target load, so that partitioning with
    them succeeds.  The gain table and the permutations may depend on the graph. *)
Theorem C68_guarded :
  forall avg gs jk ab frst rnd prm passnbr, 0 < gs -> (forall s, tabl_ok s (frst s)) -> (forall s p, graph_valid s -> perm_ok s (prm s p)) -> 1 <= passnbr ->
    let s := BCond (fun g => Some (0 <? vertnbr (bs g))) (BMeth (fun g => bgraphBipartGg jk ab (frst (bs g)) rnd (prm (bs g)) passnbr g)) None in
    bgood avg (fun _ => True) true true (bgraphBipartSt gs ab s) /\
    forall jkd al kavg lim g n part, 1 <= al <= 2 -> (forall l w t, 0 <= l -> 0 <= w <= t -> 0 <= avg l w t) ->
      graph_valid g -> graph_readable g -> 0 <= baseval g -> vnumtab g = None -> 1 <= n -> vertnbr g <= zlen part ->
      exists part', graphPart jkd jk al avg kavg lim (bgraphBipartSt gs ab s) g n part = Ok (0, part') /\ zlen part' = zlen part /\
        (forall v, isvert g v -> 0 <= at_ (baseval g) part' v < n) /\
        (forall i, vertnbr g <= i < zlen part -> at_ 0 part' i = at_ 0 part i).
Proof.
  intros avg gs jk ab frst rnd prm ps Hgs HF HP Hp s. assert (G : bgood avg (fun _ => True) true true (bgraphBipartSt gs ab s)).
  2: { split; [exact G|]. intros jkd al kavg lim g n part Hal HA V R B0 VN Hn L.
       apply (C58_partition jkd jk al avg kavg lim gs ab (BMeth (bgraphBipartSt gs ab s)) true g n part Hal Hgs HA); auto. cbn [bsgood]. intros h Sh _. exact (G h Sh I). }
  intros g Sg _. unfold s. cbn [bgraphBipartSt]. destruct (Z.ltb_spec 0 (vertnbr (bs g))) as [Hn|Hn].
  - destruct (bGg_ok avg ab (frst (bs g)) rnd (prm (bs g)) jk ps g Sg Hn (HF _) (fun p => HP _ p (bt_valid _ _ Sg)) Hp) as (h & E & Sm & Sh & _). exists 0, h. auto 10.
  - exists 0, g. split; [reflexivity|]. split; [apply bsame_refl|]. auto 10.
Qed.
Print Assumptions C68_guarded.

(** ** Examples *)
Definition ex_tabl (s : graph) (k : nat) (st gn : list Z) : option Z := find (fun v => at_ (baseval s) st v =? 2) (zseq (baseval s) (vertnnd s - baseval s)).
Lemma ex_tabl_ok s : tabl_ok s (ex_tabl s).
Proof.
  intros k st gn. unfold ex_tabl. destruct (find _ _) as [v|] eqn:E.
  - apply find_some in E as (Hi & Ev). apply In_zseq in Hi. split; [unfold isvert; lia | lia].
  - intros v Hv X. assert (Y : In v (zseq (baseval s) (vertnnd s - baseval s))) by (apply In_zseq; unfold isvert in Hv; lia). pose proof (find_none _ _ E v Y) as F. cbv beta in F. lia.
Qed.
Lemma ex_prm_ok2 s p : graph_valid s -> perm_ok s (ex_prm s p).
Proof. intros V. apply ex_prm_ok. exists (edlosum s). destruct s; exact V. Qed.
Definition ex_gg (p : Z) : bmeth := fun g => bgraphBipartGg 9 abs_int64 (ex_tabl (bs g)) ex_rnd (ex_prm (bs g)) p g.
Example C68_example :
  bstate ex_avg ex_bip /\ 0 < vertnbr (bs ex_bip) /\ tabl_ok (bs ex_bip) (ex_tabl (bs ex_bip)) /\ (forall p, perm_ok (bs ex_bip) (ex_prm (bs ex_bip) p)) /\
  (exists h, ex_gg 3 ex_bip = Ok (0, h) /\ bpart h = [1; 1; 1; 0; 0] /\ bfronnbr h = 2 /\ bdlt h = 2 /\ bcml h = 9) /\
  (exists h, ex_gg 2 ex_b9 = Ok (0, h) /\ bpart h = [0; 1; 1; 1; 1; 1; 0; 0; 0] /\ firstn 4 (bfron h) = [1; 2; 7; 6] /\ bfronnbr h = 4 /\ bdlt h = 0 /\ bcml h = 2) /\
  graphPart (mkc 9 9) 77 1 ex_avg ex_avg (fun _ _ => (0, 100)) (bgraphBipartSt 8 abs_int64 (BMeth (ex_gg 4))) ex_path8 3 (repeat 55 9) = Ok (0, [1; 1; 1; 2; 2; 2; 0; 0; 55]).
Proof.
  split; [exact ex_bip_state|]. split; [vm_compute; reflexivity|]. split; [apply ex_tabl_ok|]. split; [intros p; apply ex_prm_ok2, ex_bip_state|].
  split; [eexists; split; [vm_compute; reflexivity|]; vm_compute; auto|]. split; [eexists; split; [vm_compute; reflexivity|]; vm_compute; auto 10|]. vm_compute. reflexivity.
Qed.

(** ** Findings *)
(** C68: without any pass, which the strategy string can ask for, the frontier is emptied while the parts stay: the value is null
    and the bipartition is no longer consistent *)
Theorem C68_nopass_refuted :
  exists g h, bstate ex_avg g /\ bgraphCheck ex_avg g = Ok tt /\ ex_gg 0 g = Ok (0, h) /\ (forall v, bp h v = bp g v) /\ bfronnbr g = 2 /\ bfronnbr h = 0 /\ bgraphCheck ex_avg h = Err 1.
Proof.
  exists ex_tight. eexists. split; [apply bip_state; vm_compute; reflexivity|]. split; [vm_compute; reflexivity|]. split; [vm_compute; reflexivity|]. split; [reflexivity|]. split; [reflexivity|]. split; vm_compute; reflexivity.
Qed.
Print Assumptions C68_nopass_refuted.

(** C68: on the empty graph, the first root is drawn modulo zero; partitioning it into several parts, by recursive bipartitioning with this method, does so *)
Theorem C68_empty_refuted :
  exists g, graph_valid g /\ graph_readable g /\
    (forall jk ab frst rnd prm passnbr h, bs h = g -> 1 <= passnbr -> bgraphBipartGg jk ab frst rnd prm passnbr h = UB) /\
    graphPart (mkc 9 9) 77 1 ex_avg ex_avg (fun _ _ => (0, 100)) (bgraphBipartSt 8 abs_int64 (BMeth (ex_gg 10))) g 3 [] = UB.
Proof.
  exists ex_empty. destruct (C09_graphCheck_sound 100 ex_empty ltac:(vm_compute; reflexivity)) as (V & R). split; [exact V|]. split; [exact R|].
  assert (U : forall jk ab frst rnd prm ps h, bs h = ex_empty -> 1 <= ps -> bgraphBipartGg jk ab frst rnd prm ps h = UB).
  { intros jk ab frst rnd prm ps h Eh Hp. unfold bgraphBipartGg. cbv zeta. rewrite Eh. replace (hgGain0 jk ex_empty (bveex h) (bdist h)) with (Ok (A := list Z) []) by reflexivity. cbn [bind].
    unfold hgPasses. unfold for_ at 1. replace (Z.to_nat (ps - 0)) with (S (Z.to_nat (ps - 1))) by lia. reflexivity. }
  split; [exact U|]. vm_compute. reflexivity.
Qed.
Print Assumptions C68_empty_refuted.
