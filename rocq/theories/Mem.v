(** Block copies between arrays. *)
From Verif Require Import Base.

(** memMov and memCpy of [n] cells of [src] from index [i] to index [j] of [dst] *)
Definition memcp {A} (src dst : list A) (i j n : Z) : res (list A) :=
  if (0 <=? i) && (0 <=? j) && (0 <=? n) && (i + n <=? zlen src) && (j + n <=? zlen dst)
  then Ok (firstn (Z.to_nat j) dst ++ firstn (Z.to_nat n) (skipn (Z.to_nat i) src) ++ skipn (Z.to_nat (j + n)) dst)
  else UB.

Lemma memcp_ok {A} (src dst : list A) i j n : 0 <= i -> 0 <= j -> 0 <= n -> i + n <= zlen src -> j + n <= zlen dst ->
  memcp src dst i j n = Ok (firstn (Z.to_nat j) dst ++ firstn (Z.to_nat n) (skipn (Z.to_nat i) src) ++ skipn (Z.to_nat (j + n)) dst).
Proof. intros. unfold memcp. now replace (_ && _) with true by lia. Qed.


Lemma zlen_memcp {A} (src dst : list A) i j n d : memcp src dst i j n = Ok d -> zlen d = zlen dst.
Proof.
  unfold memcp. destruct (_ && _) eqn:E; [|discriminate]. rewrite !andb_true_iff in E. intros [= <-].
  rewrite !zlen_app, !zlen_firstn, zlen_skipn; try lia. rewrite zlen_skipn; lia.
Qed.

Lemma at_memcp {A} `{Dflt A} (src dst : list A) i j n d k : memcp src dst i j n = Ok d -> 0 <= k < zlen dst ->
  at_ 0 d k = if (j <=? k) && (k <? j + n) then at_ 0 src (i + (k - j)) else at_ 0 dst k.
Proof.
  unfold memcp. destruct (_ && _) eqn:E; [|discriminate]. rewrite !andb_true_iff in E. intros [= <-] Hk.
  assert (L1 : zlen (firstn (Z.to_nat j) dst) = j) by (rewrite zlen_firstn; lia).
  assert (L2 : zlen (firstn (Z.to_nat n) (skipn (Z.to_nat i) src)) = n) by (rewrite zlen_firstn; rewrite ?zlen_skipn; lia).
  destruct (Z.leb_spec j k); cbn [andb].
  - destruct (Z.ltb_spec k (j + n)).
    + rewrite at_app2 by lia. rewrite at_app1 by lia. rewrite L1, at_firstn by lia. rewrite at_skipn by lia. f_equal. lia.
    + rewrite at_app2 by lia. rewrite at_app2 by lia. rewrite L1, L2. rewrite at_skipn by lia. f_equal. lia.
  - rewrite at_app1 by lia. rewrite at_firstn by lia. reflexivity.
Qed.

(** [lia] without the universally quantified hypotheses *)
Ltac qlia := repeat match goal with H : forall _ : Z, _ |- _ => clear H | H : _ -> _ |- _ => clear H end; lia.
