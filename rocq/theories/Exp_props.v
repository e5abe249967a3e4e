(** C79: the results file. *)
From Coq Require Import List ZArith Bool String Lia.
From Verif Require Import Rst_model Exp_model Exp_spec Exp_proofs.
Import ListNotations.
Open Scope Z_scope.

(** For every program of new values, enable/disable messages and dumps of time steps, on an exporter whose fields (of type
    INTVECTOR or SIM) have values, the file holds exactly one level per due dump, numbered from [level0] on without gaps,
    and each level holds exactly the fields enabled at that time with their values at that time; fields marked ONCE are
    in the first level after they were enabled only.  Without a due dump the disk is as before. *)
Theorem results_file_contents : forall ops ds ndump level0 d0 val en, 1 <= ndump -> Forall storable ds ->
  NoDup (map d_name ds) -> Forall plain_op ops ->
  exists x', xrun (mkX (new_expo ndump level0) (fields_of ds val en) (new_writer false d0)) ops = Some x' /\
  w_disk (x_writer x') =
    match snapshots ds ndump val en (-1) ops with
    | [] => d0
    | snaps => Some (mkFile (numbered level0 snaps) [])
    end /\
  w_open (x_writer x') = false /\
  e_level (x_expo x') = level0 - 1 + Z.of_nat (List.length (snapshots ds ndump val en (-1) ops)).
Proof.
  intros ops ds ndump level0 d0 val en Hn S N P.
  destruct (xrun_plain ops ds ndump level0 d0 [] val en (-1) Hn S N P) as [x' [E1 [E2 E3]]]. simpl app in E2, E3.
  exists x'. split.
  - rewrite <- E1. simpl. unfold new_expo. replace (level0 - 1 + 0) with (level0 - 1) by lia. reflexivity.
  - rewrite E2, E3. split; [|split; [|reflexivity]]; unfold writer_of; destruct (snapshots ds ndump val en (-1) ops); reflexivity.
Qed.
Print Assumptions results_file_contents.

(** Starting from an existing file in append mode, a dump without time step of a new exporter goes to the level AFTER the
    next free one, for every number of levels in the file: getLastTimeLevel returns the number of levels. *)
Theorem append_skips_a_level : forall xs root, (1 <= List.length xs)%nat ->
  exists x', xrun (new_exporter 1 0 true (Some (mkFile (numbered 0 xs) root))) [ODump None] = Some x' /\
  w_disk (x_writer x') = Some (mkFile (numbered 0 xs ++ [(Z.of_nat (List.length xs) + 1, [])]) root).
Proof.
  intros xs root H.
  assert (L : last_time_level (new_writer true (Some (mkFile (numbered 0 xs) root))) = Z.of_nat (List.length xs)).
  { unfold last_time_level, new_writer. cbn [w_trunc w_disk negb andb r_levels]. rewrite numbered_length.
    rewrite count_levels_numbered by lia. lia. }
  unfold xrun, xstep, dump_time_level, new_exporter. cbn [x_expo x_fields x_writer new_expo e_level e_ndump e_last].
  change (0 - 1 <? 0) with true. cbv iota. rewrite L. cbn [fst snd].
  assert (O : open_writer (new_writer true (Some (mkFile (numbered 0 xs) root))) (Z.of_nat (List.length xs) + 1)
              = mkW false true (Some (mkFile (numbered 0 xs ++ [(Z.of_nat (List.length xs) + 1, [])]) root))).
  { unfold open_writer, new_writer. cbn [w_trunc w_open w_disk negb andb orb r_levels r_root].
    destruct (has_level (mkFile (numbered 0 xs) root) (Z.of_nat (List.length xs) + 1)) eqn:E; [|reflexivity].
    apply has_level_numbered in E. lia. }
  rewrite O. cbn [w_disk w_trunc w_open write_fields]. eexists; split; reflexivity.
Qed.
Print Assumptions append_skips_a_level.

Local Open Scope string_scope.
Ltac run_witness :=
  match goal with |- exists x, ?r = Some x /\ _ =>
    let v := eval vm_compute in r in match v with Some ?y => exists y end end; split; [vm_compute; reflexivity|].
(** a program from the construction on: two fields, one of them ONCE, three dumps *)
Definition prog : list xop :=
  [ORegister "u" KSim false; ORegister "id" KInt true; OSet "id" (PData 7); OSet "u" (PData 10);
   ODump (Some 0); OSet "u" (PData 11); ODump (Some 1); OSet "u" (PData 12); OEnable "id" true; ODump (Some 2)].
Example results_file_example :
  xrun (new_exporter 1 0 false None) (firstn 4 prog)
    = Some (mkX (new_expo 1 0) (fields_of [("id", KInt, true); ("u", KSim, false)] (fun n => if String.eqb n "u" then 10 else 7) (fun _ => true)) (new_writer false None)) /\
  option_map (fun x => w_disk (x_writer x)) (xrun (new_exporter 1 0 false None) prog)
    = Some (Some (mkFile [(0, [("id", 7); ("u", 10)]); (1, [("u", 11)]); (2, [("id", 7); ("u", 12)])] [])) /\
  Forall plain_op (skipn 4 prog) /\ Forall storable [("id", KInt, true); ("u", KSim, false)].
Proof.
  split; [vm_compute; reflexivity|]. split; [vm_compute; reflexivity|]. split; [repeat (constructor; [exact I|]); constructor|].
  constructor; [left; reflexivity|constructor; [right; reflexivity|constructor]].
Qed.

(** "the registered values are stored": a VECTOR field is never stored, whatever is done, although every dump succeeds *)
Theorem vector_field_stored_refuted : exists x', xrun (new_exporter 1 0 false None) [ORegister "v" KVector false; OSet "v" (PData 5); ODump (Some 0); ODump (Some 1)] = Some x'
  /\ w_disk (x_writer x') = Some (mkFile [(0, []); (1, [])] []) /\
  option_map fst (dump_time_level x' (Some 2)) = Some true.
Proof. run_witness. split; vm_compute; reflexivity. Qed.
Print Assumptions vector_field_stored_refuted.

(** "a field marked ONCE, or disabled, is not written again": false for a KNOTSPAN field *)
Theorem knotspan_once_refuted : exists x', xrun (new_exporter 1 0 false None)
    [ORegister "k" KKnot true; OSet "k" (PData 5); ODump (Some 0); ODump (Some 1); OEnable "k" false; ODump (Some 2)] = Some x'
  /\ w_disk (x_writer x') = Some (mkFile [(0, [("k", 5)]); (1, [("k", 5)]); (2, [("k", 5)])] []).
Proof. run_witness. vm_compute; reflexivity. Qed.
Print Assumptions knotspan_once_refuted.

(** "appending adds the new results to the file": the third run finds the level taken and its data are lost *)
Definition one_run (v : Z) (d : option rfile) : option (option rfile) :=
  option_map (fun x => w_disk (x_writer x)) (xrun (new_exporter 1 0 true d) [ORegister "u" KSim false; OSet "u" (PData v); ODump None]).
Theorem append_adds_results_refuted :
  one_run 1 None = Some (Some (mkFile [(0, [("u", 1)])] [])) /\
  one_run 2 (Some (mkFile [(0, [("u", 1)])] [])) = Some (Some (mkFile [(0, [("u", 1)]); (2, [("u", 2)])] [])) /\
  one_run 3 (Some (mkFile [(0, [("u", 1)]); (2, [("u", 2)])] [])) = Some (Some (mkFile [(0, [("u", 1)]); (2, [("u", 2)])] [])).
Proof. repeat split; vm_compute; reflexivity. Qed.
Print Assumptions append_adds_results_refuted.

(** a field that is registered and never given a value is undefined behaviour at the first dump *)
Theorem dump_without_value_refuted : forall n k once ndump level0 append d s, s <= 0 ->
  xrun (new_exporter ndump level0 append d) [ORegister n k once; ODump (Some s)] = None.
Proof.
  intros n k once ndump level0 append d s H. simpl. unfold dump_time_level, dump_level; simpl.
  destruct (Z.ltb_spec 0 s); [lia|]. simpl.
  unfold open_writer, new_writer; simpl. reflexivity.
Qed.
Print Assumptions dump_without_value_refuted.

(** "after a failed dump (a field without data) the next levels are stored": false, the file was left open and no group
    is made for the next level: the SIM field is lost and the integer vector is written to the root of the file *)
Theorem dump_after_failure_refuted : exists x', xrun (new_exporter 1 0 false None)
    [ORegister "a" KInt false; ORegister "u" KSim false; OSet "a" (PData 1); OSet "u" PNull; ODump (Some 0);
     OSet "u" (PData 2); ODump (Some 1)] = Some x'
  /\ w_disk (x_writer x') = Some (mkFile [(0, [("a", 1)])] [("a", 1)]) /\
  option_map fst (dump_time_level (mkX (x_expo x') (x_fields x') (x_writer x')) (Some 2)) = Some true.
Proof. run_witness. split; vm_compute; reflexivity. Qed.
Print Assumptions dump_after_failure_refuted.
