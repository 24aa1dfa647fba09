(** Properties C13 and C14: graph files and vertex list files. *)
From Coq Require Import String Ascii.
From Verif Require Import Base M_Int M_Graph M_GraphIo S_Graph S_GraphIo P_GraphIo P_GraphIo2 P_GraphIo3 P_GraphList2.

(** C13: the text written for a graph, followed by anything, reads back.  The
    graph read has the wanted base ([-1]: the one of the file), the same
    neighbour lists in the same order, the loads (1 when they are not wanted),
    the labels, and is itself valid.  [111 <= imax]: any integer type. *)
Theorem C13_graphSave_graphLoad :
  forall imax g bv nv ne rest, 111 <= imax -> graph_valid g -> graph_readable g -> labels_ok imax g -> fits imax g ->
    (bv = -1 \/ 0 <= bv) -> (if bv =? -1 then baseval g else bv) + vertnbr g <= imax ->
    exists out h, graphSave g = Ok out /\ graphLoad imax (out ++ rest) bv nv ne = Ok (h, 10 :: rest) /\
      loaded nv ne ((if bv =? -1 then baseval g else bv) - baseval g) g h /\ degrmax h <= degrmax g.
Proof. exact save_load. Qed.
Print Assumptions C13_graphSave_graphLoad.

(** Any accepted stream, whatever it holds, gives a compact graph whose arrays
    have the sizes announced and whose sums are those of the arrays; when
    vertices have labels, every arc end is a vertex and labels are distinct. *)
Theorem C13_graphLoad_counts :
  forall imax s bv nv ne h s', graphLoad imax s bv nv ne = Ok (h, s') ->
    counted h /\ Z.even (edgenbr h) = true /\ (forall t, vlbltab h = Some t -> 0 <= baseval h ->
       (forall e, baseval h <= e < baseval h + edgenbr h -> isvert h (edge h e)) /\
       (forall v, isvert h v -> 0 <= at_ (baseval h) t v) /\
       (forall v w, isvert h v -> isvert h w -> at_ (baseval h) t v = at_ (baseval h) t w -> v = w)).
Proof. exact graphLoad_any. Qed.
Print Assumptions C13_graphLoad_counts.

Definition txt (s : string) : list Z := map (fun c => Z.of_nat (nat_of_ascii c)) (list_ascii_of_string s).
Definition NL : string := String (ascii_of_nat 10) EmptyString.

(** Findings: without labels arc ends are not checked, a negative degree counts
    as zero, and with labels a negative arc end indexes the table before its
    start (graph_io.c:311-317 tests the upper bound only). *)
Theorem C13_graphLoad_ends_unchecked_refuted :
  exists h, graphLoad (2 ^ 31 - 1) (txt ("0" ++ NL ++ "1 2" ++ NL ++ "0 000" ++ NL ++ "2 7 9" ++ NL)) (-1) false false = Ok (h, [10]) /\
    ~ isvert h (edge h 0).
Proof. eexists. split; [vm_compute; reflexivity|]. unfold isvert. vm_compute. intros (_ & H). discriminate H. Qed.
Print Assumptions C13_graphLoad_ends_unchecked_refuted.
Theorem C13_graphLoad_negative_degree_refuted :
  exists h, graphLoad (2 ^ 31 - 1) (txt ("0" ++ NL ++ "2 0" ++ NL ++ "0 000" ++ NL ++ "-3" ++ NL ++ "0" ++ NL)) (-1) false false = Ok (h, [10]) /\
    vertnbr h = 2 /\ edgenbr h = 0.
Proof. eexists. split; [vm_compute; reflexivity|]. auto. Qed.
Print Assumptions C13_graphLoad_negative_degree_refuted.
Theorem C13_graphLoad_negative_end_refuted :
  graphLoad (2 ^ 31 - 1) (txt ("0" ++ NL ++ "1 2" ++ NL ++ "0 100" ++ NL ++ "5 2 -1 -1" ++ NL)) (-1) false false = UB.
Proof. vm_compute. reflexivity. Qed.
Print Assumptions C13_graphLoad_negative_end_refuted.

(** triangle with a pendant vertex; holes in the edge array, loads and labels *)
Definition ex_io : graph :=
  mkgraph 1 4 5 [1; 6; 4; 9] (Some [3; 9; 6; 10]) (Some [3; 1; 0; 7]) 11 None (Some [40; 7; 12; 3]) 8
    [2; 3; 0; 1; 2; 1; 3; 4; 2] (Some [5; 6; 0; 6; 2; 5; 2; 9; 9]) 44 3.
Example C13_example :
  graphSave ex_io = Ok (txt ("0" ++ NL ++ "4	8" ++ NL ++ "1	111" ++ NL ++
     "40	3	2	5	7	6	12" ++ NL ++ "7	1	3	5	40	2	12	9	3" ++ NL ++ "12	0	2	6	40	2	7" ++ NL ++ "3	7	1	9	7" ++ NL)) /\
  exists h, bind (graphSave ex_io) (fun t => graphLoad (2 ^ 31 - 1) (t ++ [55]) 0 true false) = Ok (h, [10; 55]) /\
    nbr h 1 = [(0, 5); (2, 2); (3, 9)] /\ vlbltab h = Some [40; 7; 12; 3] /\ velotab h = None.
Proof. split; [vm_compute; reflexivity|]. eexists. split; [vm_compute; reflexivity|]. vm_compute. auto. Qed.
(** its hypotheses hold *)
Example C13_example_hyp : labels_ok (2 ^ 31 - 1) ex_io /\ fits (2 ^ 31 - 1) ex_io /\ graph_readable ex_io.
Proof.
  assert (HV : forall v, isvert ex_io v -> v = 1 \/ v = 2 \/ v = 3 \/ v = 4) by (unfold isvert; cbn [ex_io baseval vertnnd]; lia).
  assert (HA : forall v e, arc ex_io v e -> 1 <= e <= 9).
  { intros v e (Hv & He). destruct (HV v Hv) as [-> | [-> | [-> | ->]]]; match type of He with ?a <= _ < ?b => let x := eval vm_compute in a in let y := eval vm_compute in b in change (x <= e < y) in He; lia end. }
  split; [|split].
  - intros t [= <-]. split; [vm_compute; discriminate|]. split.
    + intros v Hv. destruct (HV v Hv) as [-> | [-> | [-> | ->]]]; vm_compute; split; congruence.
    + intros v w Hv Hw. destruct (HV v Hv) as [-> | [-> | [-> | ->]]], (HV w Hw) as [-> | [-> | [-> | ->]]]; vm_compute; congruence.
  - split; [vm_compute; discriminate|]. split; [vm_compute; discriminate|]. split; [vm_compute; discriminate|]. split.
    + intros v Hv. destruct (HV v Hv) as [-> | [-> | [-> | ->]]]; vm_compute; discriminate.
    + intros v e A. apply HA in A. assert (E : e = 1 \/ e = 2 \/ e = 3 \/ e = 4 \/ e = 5 \/ e = 6 \/ e = 7 \/ e = 8 \/ e = 9) by lia.
      destruct E as [-> | [-> | [-> | [-> | [-> | [-> | [-> | [-> | ->]]]]]]]]; vm_compute; discriminate.
  - constructor; cbn [ex_io vertnbr vendtab verttab velotab edgetab edlotab baseval].
    + vm_compute; discriminate.
    + intros t [= <-]. vm_compute; discriminate.
    + intros t [= <-]. vm_compute; discriminate.
    + intros v e A. apply HA in A. change (zlen _) with 9. lia.
    + intros t v e [= <-] A. apply HA in A. change (zlen _) with 9. lia.
Qed.
Example C13_example_valid : graph_valid ex_io.
Proof.
  assert (HV : forall v, isvert ex_io v -> v = 1 \/ v = 2 \/ v = 3 \/ v = 4) by (unfold isvert; cbn [ex_io baseval vertnnd]; lia).
  apply P_GraphList.valid_of_nbr; try (vm_compute; congruence).
  - intros v Hv. destruct (HV v Hv) as [-> | [-> | [-> | ->]]]; vm_compute; split; congruence.
  - intros v w l Hv I. destruct (HV v Hv) as [-> | [-> | [-> | ->]]]; vm_compute in I; unfold isvert; cbn [ex_io baseval vertnnd];
      repeat (destruct I as [I|I]; [injection I as <- <-; split; [lia|]; split; [lia|]; split; [lia|]; vm_compute; tauto|]); contradiction.
  - intros v Hv. destruct (HV v Hv) as [-> | [-> | [-> | ->]]]; vm_compute; repeat constructor; simpl; intuition congruence.
  - intros v Hv. destruct (HV v Hv) as [-> | [-> | [-> | ->]]]; vm_compute; congruence.
  - intros v Hv. destruct (HV v Hv) as [-> | [-> | [-> | ->]]]; vm_compute; congruence.
Qed.

(** C14: a saved vertex list reads back as the same numbers in increasing
    order (hence unchanged when it was in order) and is refused when a number
    occurs twice; whatever is accepted is strictly increasing.  [junk]: what a
    freshly allocated array holds; [l0]: the structure read into. *)
Theorem C14_listSave_listLoad :
  forall imax stksiz junk, (forall n, 0 <= n -> zlen (junk n) = n) -> 9 <= imax -> 32 <= stksiz ->
  forall l0 l rest, list_ok l0 -> list_ok l -> vl_nbr l <= imax -> (forall x, In x (items l) -> - imax <= x <= imax) -> zlen (items l) < 2 ^ (stksiz - 1) ->
    exists out, listSave l = Ok out /\
      (NoDup (items l) -> exists l', listLoad imax stksiz junk l0 (out ++ rest) = Ok (l', 10 :: rest) /\ list_ok l' /\ vl_nbr l' = vl_nbr l /\
          Permutation (items l) (items l') /\ increasing (items l')) /\
      (~ NoDup (items l) -> listLoad imax stksiz junk l0 (out ++ rest) = Err 1).
Proof. exact list_save_load. Qed.
Print Assumptions C14_listSave_listLoad.

Theorem C14_sorted_list_unchanged :
  forall imax stksiz junk, (forall n, 0 <= n -> zlen (junk n) = n) -> 9 <= imax -> 32 <= stksiz ->
  forall l0 l rest, list_ok l0 -> list_ok l -> vl_nbr l <= imax -> (forall x, In x (items l) -> - imax <= x <= imax) -> zlen (items l) < 2 ^ (stksiz - 1) ->
    increasing (items l) -> exists out l', listSave l = Ok out /\ listLoad imax stksiz junk l0 (out ++ rest) = Ok (l', 10 :: rest) /\ vl_nbr l' = vl_nbr l /\ items l' = items l.
Proof.
  intros imax stksiz junk HJ HM HS l0 l rest H0 H Hmx HI HL Hinc.
  destruct (list_save_load imax stksiz junk HJ HM HS l0 l rest H0 H Hmx HI HL) as (out & E & H1 & _).
  destruct H1 as (l' & E' & _ & En & P & I').
  { apply (proj1 (NoDup_at 0 _)). intros i j Hi Hj Eq. destruct (Z.lt_trichotomy i j) as [Hlt|[->|Hgt]]; [|auto|]; [specialize (Hinc i j) | specialize (Hinc j i)]; lia. }
  exists out, l'. split; [auto|]. split; [auto|]. split; [auto|]. symmetry. now apply incr_unique.
Qed.
Print Assumptions C14_sorted_list_unchanged.

Theorem C14_listLoad_increasing :
  forall imax stksiz junk, (forall n, 0 <= n -> zlen (junk n) = n) -> 9 <= imax -> 32 <= stksiz ->
  forall l0 s l s', list_ok l0 -> imax < 2 ^ (stksiz - 1) -> listLoad imax stksiz junk l0 s = Ok (l, s') -> list_ok l /\ increasing (items l).
Proof. exact listLoad_any. Qed.
Print Assumptions C14_listLoad_increasing.

(** Finding: listCopy (graph_list.c:249-263) resizes the destination to its own
    size, not to that of the source, then copies the source over it. *)
Theorem C14_listCopy_refuted :
  exists dst src, list_ok dst /\ list_ok src /\ listCopy (fun n => repeat 0 (Z.to_nat n)) dst src = UB.
Proof. exists (mkvl 1 (Some [0])), (mkvl 3 (Some [4; 5; 6])). vm_compute. auto. Qed.
Print Assumptions C14_listCopy_refuted.

Example C14_example :
  let l := mkvl 10 (Some [9; 2; 30; -4; 11; 5; 6; 7; 8; 1]) in
  list_ok l /\ listSave l = Ok (txt ("10" ++ NL ++ "9	2	30	-4	11	5	6	7" ++ NL ++ "8	1" ++ NL)) /\
  bind (listSave l) (listLoad (2 ^ 31 - 1) 32 (fun n => repeat 0 (Z.to_nat n)) (mkvl 0 None)) = Ok (mkvl 10 (Some [-4; 1; 2; 5; 6; 7; 8; 9; 11; 30]), [10]).
Proof. vm_compute. auto. Qed.
