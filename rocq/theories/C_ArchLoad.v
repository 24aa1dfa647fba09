(** C45: domains read from files.  [imax] is the largest INT. *)
From Verif Require Import Base M_Int S_Int M_Arch S_Arch P_Arch P_ArchVar.

(** What a successful read guarantees, whatever the text. *)
Theorem C45_cmplt_load_partial : forall imax n s d s', archCmpltDomLoad imax n s = Ok (d, s') ->
  1 <= c_nbr d /\ c_min d + c_nbr d <= n /\ (0 <= c_min d -> cwf n d).
Proof.
  intros imax n s d s'. unfold archCmpltDomLoad. destruct (load2 imax s) as [[[a b] s1]| | |]; cbn [bind]; try discriminate.
  destruct (Z.ltb_spec b 1); [discriminate|]. unfold ckint. destruct (_ && _); cbn [bind]; [|discriminate].
  destruct (Z.ltb_spec n (b + a)); [discriminate|]. intros [= <- <-]. unfold cwf. cbn [c_min c_nbr]. lia.
Qed.
Print Assumptions C45_cmplt_load_partial.

Theorem C45_hcub_load_partial : forall imax n s d s', archHcubDomLoad imax n s = Ok (d, s') -> h_cur d <= n.
Proof.
  intros imax n s d s'. unfold archHcubDomLoad. destruct (load2 imax s) as [[[a b] s1]| | |]; cbn [bind]; try discriminate.
  destruct (Z.ltb_spec n a); [discriminate|]. intros [= <- <-]. cbn [h_cur]. lia.
Qed.
Print Assumptions C45_hcub_load_partial.

Theorem C45_mesh_load_partial : forall imax c s d s', archMeshXDomLoad imax c s = Ok (d, s') ->
  Forall2 (fun _ b => 0 <= fst b <= snd b) c d /\ (Forall2 (fun n b => snd b < n) c d -> mwf c d).
Proof.
  intros imax c. unfold archMeshXDomLoad, mwf. induction c as [|n c IH]; intros s d s'; cbn [meshLoad].
  - intros [= <- <-]. split; constructor.
  - destruct (load2 imax s) as [[[a b] s1]| | |]; cbn [bind]; try discriminate.
    destruct (Z.ltb_spec b a), (Z.ltb_spec a 0); cbn [orb]; try discriminate.
    destruct (meshLoad imax c s1) as [[d' s2]| | |] eqn:E; cbn [bind]; try discriminate. intros [= <- <-].
    destruct (IH _ _ _ E) as [H1 H2]. split; [constructor; [cbn [fst snd]; lia|exact H1]|].
    intros H3. inversion H3; subst. constructor; [cbn [fst snd] in *; lia|auto].
Qed.
Print Assumptions C45_mesh_load_partial.

Theorem C45_tleaf_load_partial : forall imax a s d s', archTleafDomLoad imax a s = Ok (d, s') -> 0 <= d_levl d <= zlen (t_size a).
Proof.
  intros imax a s d s'. unfold archTleafDomLoad. destruct (load2 imax s) as [[[l m] s1]| | |]; cbn [bind]; try discriminate.
  destruct (orerr (intLoad imax s1) 1) as [[n s2]| | |]; cbn [bind]; try discriminate. unfold t_levlnbr.
  destruct (Z.ltb_spec l 0), (Z.ltb_spec (zlen (t_size a)) l); cbn [orb]; try discriminate. intros [= <- <-]. cbn [d_levl]. lia.
Qed.
Print Assumptions C45_tleaf_load_partial.

(** Variable-sized: a positive number gives its domain. *)
Theorem C45_variable_load_partial : forall imax s d s', archVDomLoad imax s = Ok (d, s') -> 1 <= v_num d -> vwf d.
Proof.
  intros imax s d s'. unfold archVDomLoad. destruct (orerr (intLoad imax s) 1) as [[t s1]| | |]; cbn [bind]; try discriminate.
  destruct (vlevel t) as [l| | |] eqn:E; cbn [bind]; try discriminate. intros [= <- <-]. cbn [v_num]. intros Ht.
  destruct (v_term t Ht) as (d & E2 & W & N). unfold archVDomTerm in E2.
  destruct (Z.eqb_spec t (-1)); [lia|]. cbn [negb] in E2. destruct (Z.eqb_spec t 0); [lia|]. rewrite E in E2. cbn [bind] in E2.
  injection E2 as <-. exact W.
Qed.
Print Assumptions C45_variable_load_partial.

(** Terminal numbers of variable-sized architectures: 0 is refused, -1 means none. *)
Theorem C45_variable_term : archVDomTerm 0 = Err 2 /\ archVDomTerm (-1) = Err 1.
Proof. split; reflexivity. Qed.
Print Assumptions C45_variable_term.

(** Other values are not checked: each reader accepts texts that denote no domain. *)
Definition ex_ltree : tleaf := mktl 6 [3; 2] [7; 1] [] [].
Theorem C45_load_refuted :
  (exists s d, archCmpltDomLoad 1000 4 s = Ok (d, []) /\ ~ cwf 4 d) /\
  (exists s d, archHcubDomLoad 1000 3 s = Ok (d, []) /\ ~ hwf 3 d) /\
  (exists s d, archMeshXDomLoad 1000 [3; 3] s = Ok (d, []) /\ ~ mwf [3; 3] d) /\
  (exists s d, archTleafDomLoad 1000 ex_ltree s = Ok (d, []) /\ ~ twf ex_ltree d) /\
  (exists s d, archVDomLoad 1000 s = Ok (d, []) /\ ~ vwf d).
Proof.
  split; [|split; [|split; [|split]]].
  - (* "-2 5" *) exists [45; 50; 32; 53]. eexists. split; [vm_compute; reflexivity|]. intros (H & _). cbn [c_min] in H. lia.
  - (* "-1 0" *) exists [45; 49; 32; 48]. eexists. split; [vm_compute; reflexivity|]. intros (H & _). cbn [h_cur] in H. lia.
  - (* "0 7 0 0" *) exists [48; 32; 55; 32; 48; 32; 48]. eexists. split; [vm_compute; reflexivity|]. intros H. inversion H; subst. cbn [fst snd] in *. lia.
  - (* "1 8 1" *) exists [49; 32; 56; 32; 49]. eexists. split; [vm_compute; reflexivity|]. intros [(H & _)|(_ & _ & p & Hp & H1 & H2)]; [cbn [d_levl] in H; lia|].
    change (at_ 0 (t_size ex_ltree) (d_levl (mkt 1 8 1) - 1)) with 3 in *. change (prod (firstn (Z.to_nat (d_levl (mkt 1 8 1) - 1)) (t_size ex_ltree))) with 1 in Hp. cbn [d_min d_nbr] in *. lia.
  - (* "0" *) exists [48]. eexists. split; [vm_compute; reflexivity|]. intros (H & _). cbn [v_num] in H. lia.
Qed.
Print Assumptions C45_load_refuted.

Example C45_ex :
  archCmpltDomLoad 1000 6 [50; 32; 51; 10] = Ok (mkc 2 3, [10]) /\ archCmpltDomLoad 1000 4 [50; 32; 51; 10] = Err 1 /\
  archHcubDomLoad 1000 3 [50; 32; 52; 10] = Ok (mkh 2 4, [10]) /\ archHcubDomLoad 1000 1 [50; 32; 52; 10] = Err 1 /\
  archMeshXDomLoad 1000 [4] [49; 32; 50] = Ok ([(1, 2)], []) /\ archMeshXDomLoad 1000 [4] [50; 32; 49] = Err 1 /\
  archTleafDomLoad 1000 ex_ltree [50; 32; 51; 32; 49] = Ok (mkt 2 3 1, []) /\ archTleafDomLoad 1000 ex_ltree [51; 32; 51; 32; 49] = Err 1 /\
  archVDomLoad 1000 [53] = Ok (mkv 2 5, []).
Proof. vm_compute. repeat split. Qed.
