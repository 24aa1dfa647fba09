(** Coarsening of target architectures by matching. *)
From Verif Require Import Base M_Arch S_Arch M_ArchMatch S_ArchMatch.

Lemma half_odd n : exists h, (n = 2 * h /\ Z.odd n = false \/ n = 2 * h + 1 /\ Z.odd n = true) /\ n / 2 = h /\ Z.shiftr n 1 = h /\ Z.land n 1 = (if Z.odd n then 1 else 0).
Proof.
  exists (n / 2). split; [|split; [reflexivity|split]].
  - rewrite Zodd_mod. pose proof (Z.div_mod n 2 ltac:(lia)). pose proof (Z.mod_pos_bound n 2 ltac:(lia)).
    unfold Zeq_bool. destruct (Z.compare_spec (n mod 2) 1); [right|left|left]; split; auto; lia.
  - rewrite Z.shiftr_div_pow2 by lia. reflexivity.
  - change 1 with (Z.ones 1) at 1. rewrite Z.land_ones by lia. change (2 ^ 1) with 2. rewrite Zodd_mod. unfold Zeq_bool.
    pose proof (Z.mod_pos_bound n 2 ltac:(lia)). destruct (Z.compare_spec (n mod 2) 1); lia.
Qed.
Ltac half n h := destruct (half_odd n) as (h & ?H & ?H & ?H & ?H).
Lemma half_up n : (n + 1) / 2 = Z.shiftr (n + 1) 1.
Proof. half (n + 1) h. lia. Qed.

Lemma mates_range n first i : 1 <= n -> 0 <= i < (n + 1) / 2 ->
  0 <= fst (mates n first i) < n /\ 0 <= snd (mates n first i) < n.
Proof.
  intros Hn Hi. half n h. half (n + 1) h'. unfold mates. destruct H as [[? E]|[? E]]; rewrite E; cbn [andb].
  - cbn [fst snd]. lia.
  - destruct first.
    + destruct (Z.eqb_spec i 0); cbn [fst snd]; lia.
    + destruct (Z.eqb_spec i (n / 2)); cbn [fst snd]; lia.
Qed.
Lemma mates_cover n first j : 1 <= n -> 0 <= j < n ->
  exists i, 0 <= i < (n + 1) / 2 /\ (fst (mates n first i) = j \/ snd (mates n first i) = j).
Proof.
  intros Hn Hj. half n h. half (n + 1) h'. half j k. half (j + 1) k'.
  unfold mates. destruct H as [[? E]|[? E]]; rewrite E; cbn [andb].
  - exists k. cbn [fst snd]. lia.
  - destruct first.
    + exists k'. destruct (Z.eqb_spec k' 0); cbn [fst snd]; lia.
    + exists k. destruct (Z.eqb_spec k (n / 2)); cbn [fst snd]; lia.
Qed.
Lemma mates_uniq n first j i i' : 1 <= n -> 0 <= i < (n + 1) / 2 -> 0 <= i' < (n + 1) / 2 ->
  (fst (mates n first i) = j \/ snd (mates n first i) = j) -> (fst (mates n first i') = j \/ snd (mates n first i') = j) -> i' = i.
Proof.
  intros Hn Hi Hi'. half n h. half (n + 1) h'. unfold mates. destruct H as [[? E]|[? E]]; rewrite E; cbn [andb].
  - cbn [fst snd]. lia.
  - destruct first.
    + destruct (Z.eqb_spec i 0), (Z.eqb_spec i' 0); cbn [fst snd]; lia.
    + destruct (Z.eqb_spec i (n / 2)), (Z.eqb_spec i' (n / 2)); cbn [fst snd]; lia.
Qed.

Lemma dm_uniq d a r a' r' : 0 <= r < d -> 0 <= r' < d -> a * d + r = a' * d + r' -> a = a' /\ r = r'.
Proof. intros. assert (a = a') by nia. subst. lia. Qed.
Lemma dm_ex U n d v : 0 <= v < U * n * d -> 1 <= n -> 1 <= d -> exists u i r, 0 <= u < U /\ 0 <= i < n /\ 0 <= r < d /\ v = (u * n + i) * d + r.
Proof.
  intros Hv Hn Hd. exists (v / d / n), ((v / d) mod n), (v mod d).
  pose proof (Z.mod_pos_bound v d ltac:(lia)). pose proof (Z.mod_pos_bound (v / d) n ltac:(lia)).
  pose proof (Z.div_mod v d ltac:(lia)). pose proof (Z.div_mod (v / d) n ltac:(lia)).
  assert (0 <= v / d < U * n) by (split; [apply Z.div_pos; lia|apply Z.div_lt_upper_bound; lia]).
  repeat split; try lia.
  - apply Z.div_pos; lia.
  - apply Z.div_lt_upper_bound; nia.
Qed.
Lemma dm_range U n d u i r : 0 <= u < U -> 0 <= i < n -> 0 <= r < d -> 0 <= (u * n + i) * d + r < U * n * d.
Proof.
  intros. assert (0 <= u * n + i) by nia. split; [nia|]. assert (u * n + i + 1 <= U * n) by nia. assert ((u * n + i + 1) * d <= U * n * d) by nia. lia.
Qed.

Lemma grid_groups U n d first mt cnt : 0 <= U -> 1 <= n -> 1 <= d -> grid_mating U n d first mt cnt -> cnt <= zlen mt -> groups (U * n * d) mt cnt.
Proof.
  intros HU Hn Hd [Hc HG] Hl. assert (Hn' : 1 <= (n + 1) / 2) by (half (n + 1) h; lia).
  assert (X : forall c, 0 <= c < cnt -> exists u i r, 0 <= u < U /\ 0 <= i < (n + 1) / 2 /\ 0 <= r < d /\ c = (u * ((n + 1) / 2) + i) * d + r).
  { intros c H. apply dm_ex; lia. }
  split; [|split].
  - split; [nia|exact Hl].
  - intros c H. destruct (X c H) as (u & i & r & Hu & Hi & Hr & ->). rewrite HG by assumption.
    destruct (mates_range n first i Hn Hi). split; apply dm_range; assumption.
  - intros v Hv. destruct (dm_ex U n d v Hv Hn Hd) as (u & j & r & Hu & Hj & Hr & ->).
    destruct (mates_cover n first j Hn Hj) as (i & Hi & Hm).
    exists ((u * ((n + 1) / 2) + i) * d + r). split; [rewrite Hc; now apply dm_range|].
    split.
    + rewrite HG by assumption. cbn [fst snd]. destruct Hm as [<-|<-]; auto.
    + intros c' Hc' Hm'. destruct (X c' Hc') as (u' & i' & r' & Hu' & Hi' & Hr' & ->). rewrite HG in Hm' by assumption. cbn [fst snd] in Hm'.
      destruct (mates_range n first i' Hn Hi') as [R1 R2].
      assert (G : forall m', 0 <= m' < n -> (u' * n + m') * d + r' = (u * n + j) * d + r -> u' = u /\ m' = j /\ r' = r).
      { intros m' Hm1 E. apply dm_uniq in E; [|lia..]. destruct E as [E ->]. apply dm_uniq in E; [|lia..]. tauto. }
      destruct Hm' as [E|E]; apply G in E; try assumption; destruct E as (-> & E & ->);
        assert (i' = i) by (eapply (mates_uniq n first j); eauto); now subst.
Qed.

(** Runs of pairs *)
Lemma pairs_ok m mt f c : 0 <= m -> 0 <= c -> c + m <= zlen mt ->
  exists mt', for_ 0 m (fun _ '(mt, f, c) => do mt <- wr 0 mt c (f, f + 1); Ok (mt, f + 2, c + 1)) (mt, f, c) = Ok (mt', f + 2 * m, c + m) /\
    zlen mt' = zlen mt /\ (forall x, 0 <= x < c -> at_ 0 mt' x = at_ 0 mt x) /\
    forall k, 0 <= k < m -> at_ 0 mt' (c + k) = (f + 2 * k, f + 2 * k + 1).
Proof.
  intros Hm Hc Hl.
  destruct (wp_ok_inv (for_ 0 m (fun _ '(mt, f, c) => do mt <- wr 0 mt c (f, f + 1); Ok (mt, f + 2, c + 1)) (mt, f, c))
    (fun s => let '(mt', f', c') := s in f' = f + 2 * m /\ c' = c + m /\ zlen mt' = zlen mt /\ (forall x, 0 <= x < c -> at_ 0 mt' x = at_ 0 mt x) /\
    forall k, 0 <= k < m -> at_ 0 mt' (c + k) = (f + 2 * k, f + 2 * k + 1))) as ([[mt' f'] c'] & E & -> & -> & H); [|eauto].
  apply wp_for with (I := fun q s => let '(mt', f', c') := s in f' = f + 2 * q /\ c' = c + q /\ zlen mt' = zlen mt /\ (forall x, 0 <= x < c -> at_ 0 mt' x = at_ 0 mt x) /\
    forall k, 0 <= k < q -> at_ 0 mt' (c + k) = (f + 2 * k, f + 2 * k + 1)); [lia| | |].
  - repeat split; auto; lia.
  - intros q [[mt' f'] c'] Hq (-> & -> & Z1 & P & K). rewrite wr_ok by lia. cbn [bind wp]. rewrite zlen_upd.
    split; [lia|]. split; [lia|]. split; [exact Z1|]. split.
    + intros x Hx. rewrite at_upd by lia. destruct (Z.eqb_spec (c + q) x); [lia|]. auto.
    + intros k Hk. rewrite at_upd by lia. destruct (Z.eqb_spec (c + q) (c + k)) as [E|E]; [|apply K; lia].
      assert (k = q) as -> by lia. reflexivity.
  - intros [[mt' f'] c'] H. exact H.
Qed.
