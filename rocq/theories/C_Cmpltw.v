(** Property C24, weighted complete graphs. *)
From Verif Require Import Base M_Int S_Int M_Arch S_Arch P_Arch M_Cmpltw S_Cmpltw P_Cmpltw.

(** For all positive processor loads, the architecture is built, and its domain
    operations are right; the weight of any domain is the total of the loads
    given for its processors.  [jk] is the contents of fresh memory. *)
Theorem C24_cmpltw_domains :
  forall stksiz jk loads, 32 <= stksiz -> 1 <= zlen loads < 2 ^ (stksiz - 1) -> Forall (fun v => 1 <= v) loads ->
    exists a, archCmpltwArchBuild stksiz jk (zlen loads) loads = Ok a /\
      frst_ok (zlen loads) (wwf a) (wmem a) (archCmpltwDomFrst a) /\
      size_ok (wwf a) (wmem a) (archCmpltwDomSize a) /\
      (forall d, wwf a d -> exists w, archCmpltwDomWght a d = Ok w /\ total loads (wmem a d) w) /\
      bipart_ok (wwf a) (wmem a) (archCmpltwDomBipart a) /\
      expand_ok (wwf a) (wmem a) (archCmpltwDomBipart a) /\
      term_ok (zlen loads) (wwf a) (wmem a) (archCmpltwDomTerm a) (archCmpltwDomNum a) /\
      num_in (wwf a) (wmem a) (archCmpltwDomNum a) /\
      incl_ok (wwf a) (wmem a) (archCmpltwDomIncl a) /\
      (forall d0 d1, wwf a d0 -> wwf a d1 ->
         archCmpltwDomDist a d0 d1 = Ok 0 /\ d0 = d1 \/ archCmpltwDomDist a d0 d1 = Ok 1 /\ d0 <> d1).
Proof.
  intros stksiz jk loads Hs Hl HF. destruct (build_spec stksiz jk loads Hs Hl HF) as (a & E & _ & T). exists a.
  assert (L : 1 <= zlen loads) by lia.
  split; [exact E|]. split; [now apply (w_frst loads a T)|]. split; [now apply (w_size loads a T)|]. split; [now apply (w_total loads a T)|].
  split; [now apply (w_bipart loads a T)|].
  split; [eapply expand_intro; [apply (w_sz loads a T L)|apply (w_bipart loads a T L)]|].
  split; [now apply (w_term loads a T)|]. split; [now apply (w_num loads a T)|]. split; [now apply (w_incl loads a T)|].
  intros; now apply (w_dist a).
Qed.
Print Assumptions C24_cmpltw_domains.

(** Empty architectures and loads that are not positive are refused. *)
Theorem C24_cmpltw_rejects :
  forall stksiz jk n loads, n <= zlen loads -> (n <= 0 \/ exists k, 0 <= k < n /\ at_ 0 loads k <= 0) ->
    archCmpltwArchBuild stksiz jk n loads = Err 1.
Proof. exact build_rejects. Qed.
Print Assumptions C24_cmpltw_rejects.

(** An architecture saved to a file is read back identical. *)
Theorem C24_cmpltw_arch_save_load :
  forall imax stksiz jk loads a ws rest,
    32 <= stksiz -> 1 <= zlen loads < 2 ^ (stksiz - 1) -> Forall (fun v => 1 <= v) loads ->
    9 <= imax -> zlen loads <= imax -> Forall (fun v => v <= imax) loads -> Forall blank_char ws ->
    archCmpltwArchBuild stksiz jk (zlen loads) loads = Ok a ->
    archCmpltwArchLoad imax stksiz jk (ws ++ archCmpltwArchSave a ++ rest) = Ok (a, 10 :: rest).
Proof.
  intros imax stksiz jk loads a ws rest Hs Hl HF Hi Hn HI Hw E.
  destruct (build_spec stksiz jk loads Hs Hl HF) as (a' & E' & B & T). rewrite E in E'. injection E' as <-.
  apply (w_load_save loads); auto. lia.
Qed.
Print Assumptions C24_cmpltw_arch_save_load.

(** A domain is read back from its text provided its weight field holds 0 beforehand. *)
Theorem C24_cmpltw_save_load_partial :
  forall imax stksiz jk loads a,
    32 <= stksiz -> 1 <= zlen loads < 2 ^ (stksiz - 1) -> Forall (fun v => 1 <= v) loads ->
    9 <= imax -> zlen loads <= imax ->
    archCmpltwArchBuild stksiz jk (zlen loads) loads = Ok a ->
    saveload_ok (wwf a) (fun _ => True) archCmpltwDomSave (archCmpltwDomLoad imax 0 a).
Proof.
  intros imax stksiz jk loads a Hs Hl HF Hi Hn E.
  destruct (build_spec stksiz jk loads Hs Hl HF) as (a' & E' & B & T). rewrite E in E'. injection E' as <-.
  apply (w_saveload loads a T ltac:(lia) imax Hi Hn).
Qed.
Print Assumptions C24_cmpltw_save_load_partial.

Definition ex_w : cmpltw := mkw 4 [(2, 1); (5, 2); (3, 3); (4, 0)] 14.
Lemma ex_w_build : archCmpltwArchBuild 64 (7, 7) 4 [4; 2; 5; 3] = Ok ex_w.
Proof. vm_compute. reflexivity. Qed.

(** The loader adds the weight to whatever the field held (arch_cmpltw.c:496). *)
Theorem C24_cmpltw_load_weight_refuted :
  exists loads a d d' old s, archCmpltwArchBuild 64 (7, 7) (zlen loads) loads = Ok a /\ wwf a d /\
    archCmpltwDomLoad 1000 old a (archCmpltwDomSave d) = Ok (d', s) /\ d' <> d.
Proof.
  exists [4; 2; 5; 3], ex_w, (mkwd 0 2 7), (mkwd 0 2 107), 100, [32]. split; [exact ex_w_build|].
  split; [vm_compute; intuition discriminate|]. split; [vm_compute; reflexivity|discriminate].
Qed.
Print Assumptions C24_cmpltw_load_weight_refuted.

(** The number of a domain is not its smallest processor number, in spite of
    the contract of arch_cmpltw.c:351-354. *)
Theorem C24_cmpltw_num_smallest_refuted :
  exists loads a, archCmpltwArchBuild 64 (7, 7) (zlen loads) loads = Ok a /\ ~ num_ok (wwf a) (wmem a) (archCmpltwDomNum a).
Proof.
  exists [4; 2; 5; 3], ex_w. split; [exact ex_w_build|]. intros H.
  destruct (H (mkwd 2 2 7)) as (t & E & _ & M); [vm_compute; intuition discriminate|].
  vm_compute in E. injection E as <-. specialize (M 0). enough (3 <= 0) by lia. apply M. exists 3. cbn. split; [lia|reflexivity].
Qed.
Print Assumptions C24_cmpltw_num_smallest_refuted.

(** Looking up the "not a terminal" number -1 reads past the end of the table. *)
Theorem C24_cmpltw_negative_terminal_refuted :
  exists loads a, archCmpltwArchBuild 64 (7, 7) (zlen loads) loads = Ok a /\ archCmpltwDomTerm a (-1) = UB.
Proof. exists [4; 2; 5; 3], ex_w. split; [exact ex_w_build|vm_compute; reflexivity]. Qed.
Print Assumptions C24_cmpltw_negative_terminal_refuted.

Example C24_cmpltw_example :
  archCmpltwDomBipart ex_w (mkwd 0 4 14) = Ok (mkwd 0 2 7, mkwd 2 2 7) /\ archCmpltwDomTerm ex_w 3 = Ok (mkwd 2 1 3) /\
  archCmpltwArchSave ex_w = [52; 32; 52; 32; 50; 32; 53; 32; 51; 10] /\
  expand (archCmpltwDomBipart ex_w) 4 (mkwd 0 4 14) = Ok [mkwd 0 1 2; mkwd 1 1 5; mkwd 2 1 3; mkwd 3 1 4].
Proof. vm_compute. auto. Qed.
