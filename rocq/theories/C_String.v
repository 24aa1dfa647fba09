(** Property C39: in-place string substitution. *)
From Verif Require Import Base M_String S_String P_String.

(** For every string [s] held in a memory area large enough for the longer of
    the string and its result, every non-empty pattern [p] and every
    replacement [r], the area holds the substituted string [t] afterwards; what
    lies beyond the longer of the two strings is untouched. *)
Theorem C39_stringSubst :
  forall fuel b p r s t,
    p <> [] -> cstring p -> cstring s -> holds b s -> subst p r s t ->
    zlen t < zlen b -> zlen s < Z.of_nat fuel ->
    exists b', stringSubst fuel b p r = Ok b' /\ holds b' t /\ zlen b' = zlen b /\
      (forall k, Z.max (zlen s) (zlen t) < k < zlen b -> at_ 0 b' k = at_ 0 b k).
Proof. exact stringSubst_spec. Qed.
Print Assumptions C39_stringSubst.

(** The specified result exists and is unique. *)
Theorem C39_substitution_defined :
  forall p r s, p <> [] -> exists t, subst p r s t /\ forall t', subst p r s t' -> t' = t.
Proof.
  intros p r s Hp. destruct (subst_total p r Hp (S (length s)) s ltac:(lia)) as (t & Ht).
  exists t. split; [auto|]. intros. eapply subst_det; eauto.
Qed.
Print Assumptions C39_substitution_defined.

(** With an empty pattern the recursion never ends, whatever the depth. *)
Theorem C39_empty_pattern_refuted :
  forall b r fuel, stringSubst fuel b [] r = Fuel.
Proof. intros. apply subst2_empty; auto; lia. Qed.
Print Assumptions C39_empty_pattern_refuted.

(** "a%b%" with "%" replaced by "xyz", in an area of 12 cells; then shrinking. *)
Example C39_ex_grow : stringSubst 10 [97; 37; 98; 37; 0; 1; 2; 3; 4; 5; 6; 7] [37] [120; 121; 122]
  = Ok [97; 120; 121; 122; 98; 120; 121; 122; 0; 5; 6; 7].
Proof. vm_compute. reflexivity. Qed.
Example C39_ex_shrink : stringSubst 10 [97; 97; 97; 98; 0; 9] [97; 97] [99] = Ok [99; 97; 98; 0; 0; 9].
Proof. vm_compute. reflexivity. Qed.
Example C39_hypotheses : subst [97; 97] [99] [97; 97; 97; 98] [99; 97; 98] /\ holds [97; 97; 97; 98; 0; 9] [97; 97; 97; 98].
Proof.
  split; [|exists [9]; reflexivity]. apply (subst_some [97; 97] [99] [] [97; 98] [97; 98]).
  - intros. apply zlen_nonneg.
  - apply subst_none. intros a c E. destruct a as [|x a]; [discriminate|]. injection E as _ E.
    destruct a as [|y a]; [discriminate|]. injection E as _ E. destruct a; discriminate.
Qed.
