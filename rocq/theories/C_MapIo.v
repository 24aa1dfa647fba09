(** Property C63: mapping files. *)
From Verif Require Import Base M_Int S_Int M_Graph S_Graph P_Graph C_Graph M_MapIo S_MapIo P_MapIo.

(** A path of three vertices, of base 0 and with labels 30, 10, 20; the same of
    base 1, with labels and without; the empty graph. *)
Definition ex_lg : graph := mkgraph 0 3 3 [0; 1; 3; 4] None None 3 None (Some [30; 10; 20]) 4 [1; 0; 2; 1] None 4 2.
Definition ex_lg1 : graph := mkgraph 1 3 4 [1; 2; 4; 5] None None 3 None (Some [30; 10; 20]) 4 [2; 1; 3; 2] None 4 2.
Definition ex_g1 : graph := mkgraph 1 3 4 [1; 2; 4; 5] None None 3 None None 4 [2; 1; 3; 2] None 4 2.
Definition ex_g0 : graph := mkgraph 0 0 0 [0] None None 0 None None 0 [] None 0 0.

(** C63: loading a file that holds some pairs (label, part): if no label comes
    twice, each vertex gets the part given to its label, or -1 if there is none;
    otherwise the file is rejected.  Graphs that have labels are of base 0. *)
Theorem C63_load_partial imax stk g part s ps rest : graph_valid g -> labels_ok g -> (vlbltab g <> None -> baseval g = 0) -> 32 <= stk ->
  zlen part = vertnbr g -> vertnbr g < 2 ^ (stk - 1) -> zlen ps < 2 ^ (stk - 1) -> ps <> [] -> numbers imax s (file_of ps) rest ->
  (NoDup (map fst ps) -> exists p, graphTabLoad imax stk g part s = Ok (p, rest) /\ mapped_by g ps p) /\
  (~ NoDup (map fst ps) -> graphTabLoad imax stk g part s = Err 1).
Proof. intros V. apply graphTabLoad_spec; [rewrite (gv_nnd g V); lia|apply (gv_size g V)]. Qed.
Print Assumptions C63_load_partial.

(** C63: only files that hold pairs are loaded. *)
Theorem C63_load_only imax stk g part s p rest : graphTabLoad imax stk g part s = Ok (p, rest) ->
  exists ps, ps <> [] /\ numbers imax s (file_of ps) rest.
Proof. apply graphTabLoad_inv. Qed.
Print Assumptions C63_load_only.

(** C63: saving a mapping writes one pair per vertex, in order; loading the file
    back gives the same mapping. *)
Theorem C63_round_trip_partial imax stk g part p0 rest : graph_valid g -> 1 <= vertnbr g <= imax -> labels_ok g -> (vlbltab g <> None -> baseval g = 0) -> 32 <= stk ->
  zlen part = vertnbr g -> zlen p0 = vertnbr g -> vertnbr g < 2 ^ (stk - 1) ->
  (forall v, isvert g v -> - imax - 1 <= label g v <= imax) -> (forall v, isvert g v -> - imax - 1 <= at_ (baseval g) part v <= imax) ->
  exists out, graphTabSave g part = Ok out /\
    numbers imax (out ++ rest) (file_of (map (fun v => (label g v, at_ (baseval g) part v)) (zseq (baseval g) (vertnbr g)))) (10 :: rest) /\
    graphTabLoad imax stk g p0 (out ++ rest) = Ok (part, 10 :: rest).
Proof. intros V. apply round_trip. rewrite (gv_nnd g V); lia. Qed.
Print Assumptions C63_round_trip_partial.

Lemma ex_lg_labels : labels_ok ex_lg.
Proof.
  split.
  - intros v w Hv Hw. assert (v = 0 \/ v = 1 \/ v = 2) as [->|[->| ->]] by (cbn [baseval vertnnd ex_lg] in Hv; lia);
    assert (w = 0 \/ w = 1 \/ w = 2) as [->|[->| ->]] by (cbn [baseval vertnnd ex_lg] in Hw; lia); vm_compute; congruence.
  - intros t [= <-]. vm_compute. discriminate.
Qed.

Example C63_example : graph_valid ex_lg /\ labels_ok ex_lg /\
  (exists out, graphTabSave ex_lg [5; 6; 7] = Ok out /\ out = [51; 10; 51; 48; 9; 53; 10; 49; 48; 9; 54; 10; 50; 48; 9; 55; 10] /\ graphTabLoad 2147483647 32 ex_lg [0; 0; 0] out = Ok ([5; 6; 7], [10])) /\
  graphTabLoad 2147483647 32 ex_lg [0; 0; 0] [50; 10; 50; 48; 9; 55; 10; 49; 48; 9; 55; 10] = Ok ([-1; 7; 7], [10]) /\
  graphTabLoad 2147483647 32 ex_lg [0; 0; 0] [50; 10; 49; 48; 9; 55; 10; 49; 48; 9; 55; 10] = Err 1 /\
  graphTabLoad 2147483647 32 ex_g1 [0; 0; 0] [50; 10; 51; 9; 55; 10; 49; 9; 55; 10] = Ok ([7; -1; 7], [10]).
Proof.
  split; [exact (proj1 (C09_graphCheck_sound 100 ex_lg ltac:(vm_compute; reflexivity)))|]. split; [exact ex_lg_labels|].
  split; [eexists; split; [vm_compute; reflexivity|]; split; vm_compute; reflexivity|].
  split; [vm_compute; reflexivity|]. split; [vm_compute; reflexivity|]. vm_compute; reflexivity.
Qed.

(** The file of the empty graph is rejected. *)
Theorem C63_empty_refuted : exists g out, graph_valid g /\ graphTabSave g [] = Ok out /\ graphTabLoad 2147483647 32 g [] out = Err 1.
Proof. exists ex_g0. eexists. split; [exact (proj1 (C09_graphCheck_sound 100 ex_g0 ltac:(vm_compute; reflexivity)))|]. split; [vm_compute; reflexivity|]. vm_compute; reflexivity. Qed.
Print Assumptions C63_empty_refuted.

(** When the graph has labels and is of base 1, loading reads the label before
    the first one. *)
Theorem C63_base_refuted : exists g out, graph_valid g /\ graphTabSave g [5; 6; 7] = Ok out /\ graphTabLoad 2147483647 32 g [0; 0; 0] out = UB.
Proof. exists ex_lg1. eexists. split; [exact (proj1 (C09_graphCheck_sound 100 ex_lg1 ltac:(vm_compute; reflexivity)))|]. split; [vm_compute; reflexivity|]. vm_compute; reflexivity. Qed.
Print Assumptions C63_base_refuted.
