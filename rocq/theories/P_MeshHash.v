(** Linear-probing hash tables seen as functions from slots to keys; [None]
    stands for a free slot. *)
From Verif Require Import Base.

Section Hash.
Context (q p : Z) (Hq : 0 <= q).
Let siz := 2 ^ q.
Definition khome (k : Z) : Z := (k * p) mod siz.
Definition slot (i : Z) : Prop := 0 <= i < siz.

Definition kpath (kf : Z -> option Z) (k i : Z) : Prop :=
  exists j, 0 <= j /\ i = (khome k + j) mod siz /\
    forall j', 0 <= j' < j -> exists k', kf ((khome k + j') mod siz) = Some k' /\ k' <> k.

Record kok (kf : Z -> option Z) : Prop := {
  k_path : forall i k, slot i -> kf i = Some k -> kpath kf k i;
  k_uniq : forall i j k, slot i -> slot j -> kf i = Some k -> kf j = Some k -> i = j }.

Lemma ksiz_pos : 0 < siz. Proof. apply Z.pow_pos_nonneg; lia. Qed.
Lemma kmsk x : Z.land x (siz - 1) = x mod siz.
Proof. replace (siz - 1) with (Z.ones q) by (rewrite Z.ones_equiv; unfold siz; lia). now apply Z.land_ones. Qed.
Lemma kmod x : slot (x mod siz). Proof. apply Z.mod_pos_bound, ksiz_pos. Qed.

Lemma kok_ext kf kf' : (forall i, slot i -> kf' i = kf i) -> kok kf -> kok kf'.
Proof.
  intros E [H1 H2]. constructor.
  - intros i k Hi Ei. rewrite E in Ei by exact Hi. destruct (H1 i k Hi Ei) as (j & Hj & Ej & Pj). exists j. split; [exact Hj|]. split; [exact Ej|].
    intros j' Hj'. rewrite E by apply kmod. now apply Pj.
  - intros i j k Hi Hj. rewrite !E by assumption. now apply H2.
Qed.

Lemma kok_none kf : (forall i, slot i -> kf i = None) -> kok kf.
Proof. intros E. constructor; intros i; intros; rewrite E in * by assumption; discriminate. Qed.

Lemma kfree kf (L : list Z) : kok kf -> (forall i k, slot i -> kf i = Some k -> In k L) -> zlen L < siz -> exists i, slot i /\ kf i = None.
Proof.
  intros [H1 H2] HL Hl.
  assert (D : (exists i, slot i /\ kf i = None) \/ forall i, slot i -> kf i <> None).
  { unfold slot. pose proof ksiz_pos as P. assert (G : forall n, 0 <= n -> (exists i, 0 <= i < n /\ kf i = None) \/ forall i, 0 <= i < n -> kf i <> None).
    { apply zrange_ind; [right; intros; lia|]. intros n Hn [(i & Hi & E)|N]; [left; exists i; split; [lia|exact E]|].
      destruct (kf n) eqn:E; [|left; exists n; split; [lia|exact E]]. right. intros i Hi. destruct (Z.eq_dec i n) as [->|]; [congruence|apply N; lia]. }
    apply G. lia. }
  destruct D as [D|D]; [exact D|]. exfalso. pose proof ksiz_pos as P.
  set (f := fun i => match kf i with Some k => k | None => 0 end).
  assert (F : forall i, slot i -> kf i = Some (f i)) by (intros i Hi; unfold f; specialize (D i Hi); destruct (kf i); congruence).
  assert (ND : NoDup (map f (zseq 0 siz))).
  { apply NoDup_at with (b := 0). rewrite zlen_map, zlen_zseq by lia. intros i j Hi Hj E.
    rewrite !at_map in E by (rewrite zlen_zseq; lia). rewrite !at_zseq in E by lia. 
    apply (H2 i j (f i)); [unfold slot; lia|unfold slot; lia|apply F; unfold slot; lia|].
    replace (f i) with (f j) by (replace i with (0 + (i - 0)) by lia; replace j with (0 + (j - 0)) by lia; congruence). apply F. unfold slot; lia. }
  assert (IN : incl (map f (zseq 0 siz)) L).
  { intros x Hx. apply in_map_iff in Hx. destruct Hx as (i & <- & Hi). apply In_zseq in Hi. apply (HL i); [unfold slot; lia|]. apply F. unfold slot; lia. }
  pose proof (NoDup_incl_length ND IN) as X. rewrite map_length in X. pose proof (zlen_zseq 0 siz ltac:(lia)). unfold zlen in *. lia.
Qed.

Lemma kprobe {R} kf k (body : Z -> res (Z + R)) fuel (Q : R -> Prop) :
  kok kf -> (exists i, slot i /\ kf i = None) -> siz < Z.of_nat fuel ->
  (forall h k', slot h -> kf h = Some k' -> k' <> k -> body h = Ok (inl (Z.land (h + 1) (siz - 1)))) ->
  (forall h, slot h -> kf h = Some k -> wp (body h) (fun x => match x with inr r => Q r | inl _ => False end) noerr) ->
  (forall h, slot h -> kpath kf k h -> kf h = None -> (forall i, slot i -> kf i <> Some k) ->
     wp (body h) (fun x => match x with inr r => Q r | inl _ => False end) noerr) ->
  wp (loop fuel body (Z.land (k * p) (siz - 1))) Q noerr.
Proof.
  intros [H1 H2] (f & Hf & Ff) Hfu B1 B2 B3. pose proof ksiz_pos as P.
  apply wp_loop with (I := fun h => kpath kf k h) (m := fun h => (f - h) mod siz).
  - rewrite kmsk. exists 0. split; [lia|]. split; [|intros; lia]. unfold khome. rewrite Z.add_0_r, Z.mod_mod by lia. reflexivity.
  - pose proof (kmod (f - Z.land (k * p) (siz - 1))) as X. unfold slot in X. lia.
  - intros h Hp. pose proof Hp as (j & Hj & E & Pj). pose proof (kmod (khome k + j)) as Hr. rewrite <- E in Hr.
    destruct (kf h) as [k'|] eqn:Ek.
    + destruct (Z.eq_dec k' k) as [->|Nk].
      * specialize (B2 h Hr Ek). eapply wp_mono; [exact B2|]. intros [a|r]; tauto.
      * rewrite (B1 h k' Hr Ek Nk). cbn [wp]. split; [|split].
        -- rewrite kmsk. exists (j + 1). split; [lia|]. split; [rewrite E, Z.add_mod_idemp_l by lia; f_equal; lia|].
           intros j' Hj'. destruct (Z.eq_dec j' j) as [->|]; [rewrite <- E; eauto|apply Pj; lia].
        -- apply kmod.
        -- rewrite kmsk. rewrite Zminus_mod_idemp_r.
           assert (Hne : h <> f) by (intros ->; congruence).
           assert (X : (f - h) mod siz <> 0).
           { intros Z0. apply Z.mod_divide in Z0; [|lia]. destruct Z0 as [c Hc]. unfold slot in *. assert (c = 0) by nia. nia. }
           pose proof (kmod (f - h)) as Y. unfold slot in Y. replace (f - (h + 1)) with ((f - h) - 1) by lia.
           rewrite <- (Zminus_mod_idemp_l (f - h)). rewrite (Z.mod_small ((f - h) mod siz - 1)) by lia. lia.
    + assert (N : forall i, slot i -> kf i <> Some k).
      { intros i Hi Ei. destruct (H1 i k Hi Ei) as (ji & Hji & Eji & Pji).
        destruct (Z.lt_trichotomy ji j) as [L|[L|L]].
        - destruct (Pj ji ltac:(lia)) as (k' & E1 & E2). rewrite <- Eji in E1. congruence.
        - subst ji. rewrite <- E in Eji. subst i. congruence.
        - destruct (Pji j ltac:(lia)) as (k' & E1 & E2). rewrite <- E in E1. congruence. }
      specialize (B3 h Hr Hp Ek N). eapply wp_mono; [exact B3|]. intros [a|r]; tauto.
Qed.

Lemma kins kf k h : kok kf -> slot h -> kpath kf k h -> kf h = None -> (forall i, slot i -> kf i <> Some k) ->
  kok (fun i => if h =? i then Some k else kf i).
Proof.
  intros [H1 H2] Hh (j & Hj & E & Pj) Fh N. 
  assert (X : forall k' i, kpath kf k' i -> kpath (fun i => if h =? i then Some k else kf i) k' i \/ k' = k /\ False).
  { intros k' i (j1 & Hj1 & E1 & P1). left. exists j1. split; [exact Hj1|]. split; [exact E1|]. intros j' Hj'. destruct (P1 j' Hj') as (a & Ea & Na).
    destruct (Z.eqb_spec h ((khome k' + j') mod siz)) as [Eh|]; [|eauto]. rewrite <- Eh in Ea. congruence. }
  constructor.
  - intros i k' Hi. destruct (Z.eqb_spec h i) as [<-|].
    + intros [= <-]. destruct (X k h) as [Y|[_ []]]; [exists j; auto|exact Y].
    + intros Ei. destruct (X k' i (H1 i k' Hi Ei)) as [Y|[_ []]]. exact Y.
  - intros i i' k' Hi Hi'. destruct (Z.eqb_spec h i) as [<-|]; destruct (Z.eqb_spec h i') as [<-|]; auto.
    + intros [= <-] E'. destruct (N i' Hi' E').
    + intros E' [= <-]. destruct (N i Hi E').
    + now apply H2.
Qed.

(** one key, in its home slot *)
Lemma kok_one k : kok (fun i => if Z.land (k * p) (siz - 1) =? i then Some k else None).
Proof.
  pose proof ksiz_pos as P. assert (Hs : slot (Z.land (k * p) (siz - 1))) by (rewrite kmsk; apply kmod).
  apply (kins (fun _ => None)); auto; [now apply kok_none| |intros; discriminate].
  exists 0. split; [lia|]. split; [|intros; lia]. rewrite kmsk. unfold khome. rewrite Z.add_0_r, Z.mod_mod by lia. reflexivity.
Qed.
End Hash.
