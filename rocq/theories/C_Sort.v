(** Properties C03 and C04: sorting routines. *)
From Verif Require Import Base M_Sort S_Sort P_Sort P_Sort2.

(** The partition stack of the C code has [CHAR_BIT * sizeof (INT)] entries
    (common_sort.c:57): 32 or 64, so the length bound is "fits an INT". *)

(** C03: for every flavour, every array of a length that fits the address
    space, the routine ends without touching anything outside the array or the
    stack ([Ok], neither [UB] nor [Fuel]) and leaves a sorted permutation. *)
Theorem C03_sort_one_int :
  forall stksiz (a : list Z), 32 <= stksiz -> zlen a < 2 ^ (stksiz - 1) ->
    exists a', intSort1asc1 stksiz a (zlen a) = Ok a' /\ Permutation a a' /\ sorted_by Z.ltb a'.
Proof. intros; apply intSort_spec; auto using swo_cmp1; lia. Qed.
Print Assumptions C03_sort_one_int.

Theorem C03_sort_two_ints_one_key :
  forall stksiz (a : list (Z * Z)), 32 <= stksiz -> zlen a < 2 ^ (stksiz - 1) ->
    exists a', intSort2asc1 stksiz a (zlen a) = Ok a' /\ Permutation a a' /\ sorted_by lt_key1 a'.
Proof. intros; apply intSort_spec; auto using swo_cmp_fst; lia. Qed.
Print Assumptions C03_sort_two_ints_one_key.

Theorem C03_sort_two_ints_two_keys :
  forall stksiz (a : list (Z * Z)), 32 <= stksiz -> zlen a < 2 ^ (stksiz - 1) ->
    exists a', intSort2asc2 stksiz a (zlen a) = Ok a' /\ Permutation a a' /\ sorted_by lt_lex2 a'.
Proof. intros; apply intSort_spec; auto using swo_cmp2; lia. Qed.
Print Assumptions C03_sort_two_ints_two_keys.

Theorem C03_sort_three_ints_one_key :
  forall stksiz (a : list (Z * (Z * Z))), 32 <= stksiz -> zlen a < 2 ^ (stksiz - 1) ->
    exists a', intSort3asc1 stksiz a (zlen a) = Ok a' /\ Permutation a a' /\ sorted_by lt_key1 a'.
Proof. intros; apply intSort_spec; auto using swo_cmp_fst; lia. Qed.
Print Assumptions C03_sort_three_ints_one_key.

Theorem C03_sort_three_ints_two_keys :
  forall stksiz (a : list (Z * (Z * Z))), 32 <= stksiz -> zlen a < 2 ^ (stksiz - 1) ->
    exists a', intSort3asc2 stksiz a (zlen a) = Ok a' /\ Permutation a a' /\ sorted_by lt_lex3 a'.
Proof. intros; apply intSort_spec; auto using swo_cmp3; lia. Qed.
Print Assumptions C03_sort_three_ints_two_keys.

Example C03_example :
  intSort1asc1 64 [5; 3; 9; 1; 1; 8; 7; 2; 6; 4; 0; 3] 12 = Ok [0; 1; 1; 2; 3; 3; 4; 5; 6; 7; 8; 9]
  /\ intSort2asc2 64 [(2, 1); (1, 5); (2, 0); (1, 4)] 4 = Ok [(1, 4); (1, 5); (2, 0); (2, 1)].
Proof. vm_compute. auto. Qed.

(** C04: partial sort.  Always a permutation; from one level on, an array over
    the cut-off size comes back cut in two; with as many levels as elements,
    only elements at most six places apart can be out of order. *)
Theorem C04_partial_sort :
  forall stksiz maxlvl (a : list (Z * Z)), 32 <= stksiz -> zlen a < 2 ^ (stksiz - 1) ->
    exists a', intPsort2asc1 stksiz a (zlen a) maxlvl = Ok a' /\ Permutation a a' /\
      (6 < zlen a -> cut_by lt_key1 a') /\
      (zlen a <= maxlvl -> near_sorted_by 6 lt_key1 a').
Proof.
  intros stksiz maxlvl a Hst Hn.
  destruct (intPsort_spec (@cmp_fst Z) stksiz a (zlen a) maxlvl swo_cmp_fst) as (a' & E & P & D); auto; [lia|].
  exists a'. split; [exact E|]. split; auto. split.
  - intros H6. destruct (pdone_cut _ _ _ _ _ (D H6)) as (k & Hk & HC).
    assert (Hz : zlen a' = zlen a) by (unfold zlen; rewrite (Permutation_length P); auto).
    exists (firstn (Z.to_nat k) a'), (skipn (Z.to_nat k) a'). split; [now rewrite firstn_skipn|].
    assert (L1 : zlen (firstn (Z.to_nat k) a') = k) by (unfold zlen in *; rewrite firstn_length; lia).
    assert (L2 : zlen (skipn (Z.to_nat k) a') = zlen a - k) by (unfold zlen in *; rewrite skipn_length; lia).
    split; [intros C; rewrite C in L1; change (0 = k) in L1; lia|].
    split; [intros C; rewrite C in L2; change (0 = zlen a - k) in L2; lia|].
    intros x y Hx Hy. apply In_nth_error in Hx as (i & Hi). apply In_nth_error in Hy as (j & Hj).
    apply at_nth_error in Hi as [<- Hi]. apply at_nth_error in Hj as [<- Hj].
    rewrite at_firstn by lia. rewrite at_skipn by lia. apply HC; lia.
  - intros Hm i j x y Hij Hx Hy. destruct (Z.ltb_spec 6 (zlen a)) as [H6|H6].
    + pose proof (pdone_near _ _ _ _ _ (D H6) Hm) as HN.
      apply at_nth_error in Hx as [<- Hi]. apply at_nth_error in Hy as [<- Hj].
      assert (Hz : zlen a' = zlen a) by (unfold zlen; rewrite (Permutation_length P); auto).
      apply HN; unfold MAX_THRESH; lia.
    + apply at_nth_error in Hx as [<- Hi]. apply at_nth_error in Hy as [<- Hj].
      assert (Hz : zlen a' = zlen a) by (unfold zlen; rewrite (Permutation_length P); auto). lia.
Qed.
Print Assumptions C04_partial_sort.

Example C04_example :
  intPsort2asc1 64 [(9, 0); (8, 1); (7, 2); (6, 3); (5, 4); (4, 5); (3, 6); (2, 7)] 8 1
  = Ok [(2, 7); (3, 6); (4, 5); (5, 4); (6, 3); (7, 2); (8, 1); (9, 0)].
Proof. vm_compute. reflexivity. Qed.
