(** Property C38: context option values. *)
From Verif Require Import Base M_Values S_Values P_Values.

(** For every number of contexts sharing one default area, and every history of
    calls on them, with any pattern of allocation failures: the calls return what
    the specification allows (each context has its own values; a successful
    setting changes that value only; invalid numbers are rejected and change
    nothing; failures change nothing), and the default area is never modified. *)
Theorem C38_values_history :
  forall deq def vi oi vd od k h,
    layout def vi oi vd od ->
    Forall (fun op => 0 <= vctx op < Z.of_nat k) h ->
    exists rs s,
      vrun deq (fresh def vi oi vd od k) h = Ok (rs, s) /\
      vhist deq (repeat {| ints := slice def oi vi; dbls := slice def od vd |} k) h rs (abs vi oi vd od s) /\
      at_ 0 (heap s) 0 = def.
Proof.
  intros deq def vi oi vd od k h LAY HF. destruct (fresh_spec deq def vi oi vd od k) as [INV ABS].
  assert (L : zlen (ctxs (fresh def vi oi vd od k)) = Z.of_nat k).
  { rewrite <- (zlen_abs vi oi vd od), ABS. apply zlen_repeat. }
  destruct (vrun_spec deq def vi oi vd od LAY h (fresh def vi oi vd od k) INV) as (rs & s & E & INV' & _ & V); [now rewrite L|].
  exists rs, s. split; [auto|]. split; [now rewrite <- ABS|]. apply INV'.
Qed.
Print Assumptions C38_values_history.

(** Setting an option number to 0 or 1, in any state reached by a history of
    calls, has the effect of setting that value; any other value is refused. *)
Theorem C38_option_set :
  forall deq def vi oi vd od k h rs s alloc c n x,
    layout def vi oi vd od -> Forall (fun op => 0 <= vctx op < Z.of_nat k) h -> 0 <= c < Z.of_nat k ->
    vrun deq (fresh def vi oi vd od k) h = Ok (rs, s) ->
    (x = 0 \/ x = 1 -> exists o s', contextOptionSetNum alloc s c n x = Ok (o, s') /\
       vspec deq (abs vi oi vd od s) (VSetInt alloc c n x) o 0 (abs vi oi vd od s')) /\
    (x <> 0 -> x <> 1 -> contextOptionSetNum alloc s c n x = Ok (1, s)).
Proof.
  intros deq def vi oi vd od k h rs s alloc c n x LAY HF Hc ER. destruct (fresh_spec deq def vi oi vd od k) as [INV ABS].
  assert (L : zlen (ctxs (fresh def vi oi vd od k)) = Z.of_nat k).
  { rewrite <- (zlen_abs vi oi vd od), ABS. apply zlen_repeat. }
  destruct (vrun_spec deq def vi oi vd od LAY h (fresh def vi oi vd od k) INV) as (rs' & s1 & E & INV' & L' & V); [now rewrite L|].
  rewrite ER in E. injection E as <- <-. rewrite setNum_eq. split.
  - intros Hx. replace ((x =? 0) || (x =? 1)) with true by lia.
    destruct (setInt_spec deq def vi oi vd od LAY alloc s c n x INV' ltac:(lia)) as (o & s' & ? & _ & _ & ?). eauto.
  - intros H0 H1. now replace ((x =? 0) || (x =? 1)) with false by lia.
Qed.
Print Assumptions C38_option_set.

(** Parsing an option string succeeds exactly on the strings of the grammar, and
    then sets the options in turn. *)
Theorem C38_option_parse :
  forall alloc c str s fuel o s', (length str < fuel)%nat ->
    contextOptionParse fuel alloc s c str = Ok (o, s') ->
    (o = 0 <-> exists l, optstr str l) /\
    (forall l, optstr str l -> setall alloc s c l = Ok s').
Proof.
  intros alloc c str s fuel o s' Hf H. destruct (parse_sound _ _ _ _ _ _ _ H) as [H1 _].
  assert (C : forall l, optstr str l -> o = 0 /\ setall alloc s c l = Ok s').
  { intros l HL. rewrite (parse_complete alloc c l str HL s fuel Hf) in H. apply bind_ok_inv in H as (s1 & E & H). injection H as <- <-. auto. }
  split.
  - split; [intros E; destruct (H1 E) as (l & ? & _); eauto|]. intros (l & HL). apply (C l HL).
  - intros l HL. apply (C l HL).
Qed.
Print Assumptions C38_option_parse.

(** Documented behaviour that the code does not have: asking for deterministic
    behaviour is meant to also fix the random seed (library_context.c:313), but
    the switch is made on the value instead of the option number. *)
Theorem C38_deterministic_fixes_seed_refuted :
  exists s s', s = fresh [0; 0; -1] 2 0 0 2 1 /\
    contextOptionSetNum true s 0 OPTDETERMINISTIC 1 = Ok (0, s') /\
    contextValuesGetInt s' 0 OPTDETERMINISTIC = Ok (0, 1) /\
    contextValuesGetInt s' 0 OPTRANDOMFIXEDSEED = Ok (0, 0).
Proof. eexists _, _. split; [reflexivity|]. split; [vm_compute; reflexivity|]. split; vm_compute; reflexivity. Qed.
Print Assumptions C38_deterministic_fixes_seed_refuted.

(** ... and a non-zero value other than 1, meant to be normalised to 1, is
    refused as an invalid option name. *)
Theorem C38_nonzero_normalised_refuted :
  exists s, s = fresh [0; 0; -1] 2 0 0 2 1 /\ contextOptionSetNum true s 0 OPTRANDOMFIXEDSEED 2 = Ok (1, s).
Proof. eexists. split; [reflexivity|]. vm_compute. reflexivity. Qed.
Print Assumptions C38_nonzero_normalised_refuted.

Example C38_hypotheses : layout [0; 0; -1] 2 0 0 2 /\
  vrun Z.eqb (fresh [0; 0; -1] 2 0 0 2 2) [VSetInt true 0 1 5; VGetInt 0 1; VGetInt 1 1; VSetInt true 0 2 7; VSetInt false 1 0 3; VGetInt 1 0]
  = Ok ([(0, 0); (0, 5); (0, 0); (1, 0); (1, 0); (0, 0)],
        {| heap := [[0; 0; -1]; [0; 5; -1]];
           ctxs := [{| dain := 0; data := 1; datasiz := 3; vintnbr := 2; ointval := 0; vdblnbr := 0; odblval := 2 |};
                    {| dain := 0; data := 0; datasiz := 3; vintnbr := 2; ointval := 0; vdblnbr := 0; odblval := 2 |}] |}).
Proof. split; [unfold layout; cbn; lia|vm_compute; reflexivity]. Qed.
Example C38_parse_ex : optstr [32; 100; 44; 114; 32] [(0, 1); (1, 0)].
Proof.
  apply (os_cons [32] 100 [] [44] [114; 32]); auto; [unfold letter; auto|]. apply (os_last [] 114 [32]); auto. unfold letter; auto 8.
Qed.
