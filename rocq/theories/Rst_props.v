(** C76-C78: the restart file and the output schedule. *)
From Coq Require Import List ZArith Bool Ascii String Lia.
From Verif Require Import Rst_model Rst_spec Rst_proofs Rst_proofs2.
Import ListNotations.
Open Scope Z_scope.

(** ** C76: what is written is read back *)

(** Writing a level that the file does not have yet makes that level read back as exactly the non-empty entries of the
    requested kind, each name once, in the written order. *)
Theorem restart_round_trip : forall d l data b, 0 <= l -> absent d l -> proper data ->
  exists r, read_data (Some (write_level d l data)) l b = Some (l, r) /\ reads_as data b r /\ NoDup (map fst r).
Proof.
  intros d l data b Hl A P. exists (read_entries (map entry_set data) b).
  rewrite read_level, write_level_absent, tail_find by (assumption || apply absent_file; assumption).
  split; [reflexivity|split; [apply reads_as_grp|apply read_entries_fst; rewrite entry_set_fst; apply P]].
Qed.
Print Assumptions restart_round_trip.

(** Writing a level never changes what any other level reads. *)
Theorem restart_other_levels : forall d l l' data b, 0 <= l' -> l' <> l ->
  read_data (Some (write_level d l data)) l' b = read_data d l' b.
Proof.
  intros d l l' data b H N. rewrite read_level, (read_file_of d) by exact H.
  rewrite (write_trace_other d l l' data _ N (write_level_in d l data)). reflexivity.
Qed.
Print Assumptions restart_other_levels.

(** For every history of writeData calls of a new run on a new file, the k-th call is level k, every level reads back
    what was written, the last level is found by a negative level, and no other level can be read. *)
Theorem restart_history : forall stride hist k x b, Forall proper hist -> nth_error hist k = Some x ->
  let d := snd (write_all (new_rst stride 0) None hist) in
  (exists r, read_data d (Z.of_nat k) b = Some (Z.of_nat k, r) /\ reads_as x b r /\ NoDup (map fst r)) /\
  (S k = List.length hist -> forall lv, lv < 0 ->
     exists r, read_data d lv b = Some (Z.of_nat k, r) /\ reads_as x b r) /\
  (forall lv, Z.of_nat (List.length hist) <= lv -> read_data d lv b = None).
Proof.
  intros stride hist k x b P E d. destruct (history_read stride hist k x b P E) as [H1 H2]. fold d in H1, H2.
  assert (N : hist <> []) by (destruct hist; [destruct k; discriminate|discriminate]).
  assert (Px : proper x) by (rewrite Forall_forall in P; apply P; eapply nth_error_In; exact E).
  split; [exists (read_entries (map entry_set x) b); split; [exact H1|split; [apply reads_as_grp|apply read_entries_fst; rewrite entry_set_fst; apply Px]]|].
  split; [intros L lv Hlv; exists (read_entries (map entry_set x) b); split; [exact (H2 L lv Hlv)|apply reads_as_grp]|].
  intros lv Hlv. unfold d, new_rst. rewrite (write_all_file hist stride 0 0 None); [|simpl; tauto|exact P|exact N]. simpl app.
  rewrite read_level by lia. rewrite (proj2 (find_grp_none _ _)); [reflexivity|]. rewrite levels_fst. lia.
Qed.
Print Assumptions restart_history.

(** Nothing is read from a missing file, from a file without levels or from a level that was never written. *)
Theorem restart_missing : forall b, (forall lv, read_data None lv b = None) /\ (forall lv, read_data (Some []) lv b = None) /\
  forall d l, 0 <= l -> absent d l -> read_data d l b = None.
Proof.
  intros b; split; [reflexivity|split; [intros lv; unfold read_data; simpl; destruct (lv <? 0); reflexivity|]].
  intros d l H A. rewrite read_file_of by exact H. rewrite (proj2 (find_grp_none _ _) (absent_file d l A)). reflexivity.
Qed.
Print Assumptions restart_missing.

(** When the level exists already, what it held is kept: a name that it has keeps its old value whatever is written. *)
Theorem restart_existing_level_keeps : forall f l g data b n v, 0 <= l -> find_grp f l = Some (Some g) -> NoDup (map fst g) ->
  In n (map fst g) -> data <> [] ->
  exists r, read_data (Some (write_level (Some f) l data)) l b = Some (l, r) /\
            (In (n, v) r <-> exists r0, read_data (Some f) l b = Some (l, r0) /\ In (n, v) r0).
Proof.
  intros f l g data b n v Hl H N I D. exists (read_entries (merged g data) b).
  assert (W : find_grp (write_level (Some f) l data) l = Some (Some (merged g data))).
  { unfold write_level, write_trace, add_level; rewrite H.
    assert (Q := entries_existing l data f g [] H D).
    destruct (entries_trace f l data) as [|a t] eqn:E; [|exact Q].
    destruct data as [|e r]; [congruence|]. simpl in E. apply app_eq_nil in E as [E _].
    unfold entry_trace in E. destruct (has_set _ _ _); [discriminate|]. destruct (0 <? _)%nat; discriminate. }
  rewrite !read_level, W, H by exact Hl. split; [reflexivity|].
  rewrite in_read_entries, merged_old by assumption. split.
  - intros C; exists (read_entries g b); split; [reflexivity|apply in_read_entries; exact C].
  - intros [r0 [E C]]. assert (r0 = read_entries g b) by congruence. subst r0. apply in_read_entries; exact C.
Qed.
Print Assumptions restart_existing_level_keeps.

Local Open Scope string_scope.
Definition st1 : sdata := [("S::basis", "b1"); ("S::sol", "x1"); ("Time", "0.1")].
Definition st2 : sdata := [("S::basis", "b1"); ("S::sol", "x2"); ("Time", "0.2")].
Definition st3 : sdata := [("S::basis", "b1"); ("S::sol", "x3"); ("Time", "0.3")].
Lemma st_proper : proper st1 /\ proper st2 /\ proper st3.
Proof. repeat split; try discriminate; repeat constructor; simpl; intuition discriminate. Qed.

Example restart_history_example :
  let d := snd (write_all (new_rst 1 0) None [st1; st2]) in
  read_data d 0 false = Some (0, [("S::sol", "x1"); ("Time", "0.1")]) /\
  read_data d (-1) false = Some (1, [("S::sol", "x2"); ("Time", "0.2")]) /\
  read_data d (-1) true = Some (1, [("S::basis", "b1")]) /\ read_data d 2 true = None.
Proof. repeat split; vm_compute; reflexivity. Qed.

(** "what writeData writes can be read back": false when the level exists, e.g. a new run that finds the restart file of
    an earlier run: writeData reports success and the old state is what a restart gets. *)
Theorem restart_written_is_read_refuted :
  exists stride hist1 hist2, Forall proper hist1 /\ Forall proper hist2 /\
  let d1 := snd (write_all (new_rst stride 0) None hist1) in
  let d2 := snd (write_all (new_rst stride 0) d1 hist2) in
  d2 = d1 /\ exists r, read_data d2 0 false = Some (0, r) /\ In ("S::sol", "x1") r /\
  nth_error hist2 0 = Some st3 /\ ~ In ("S::sol", "x3") r.
Proof.
  exists 1, [st1; st2], [st3]. pose proof st_proper as [P1 [P2 P3]].
  split; [auto|]. split; [auto|]. split; [vm_compute; reflexivity|]. exists [("S::sol", "x1"); ("Time", "0.1")]; split; [vm_compute; reflexivity|].
  split; [left; reflexivity|split; [vm_compute; reflexivity|]]. simpl; intuition congruence.
Qed.
Print Assumptions restart_written_is_read_refuted.

(** "every entry written is read back": false for an empty value *)
Theorem restart_empty_entry_refuted : exists data n, proper data /\ In (n, "") data /\
  forall b r, read_data (Some (write_level None 0 data)) 0 b = Some (0, r) -> ~ In n (map fst r).
Proof.
  exists [("A", "1"); ("B", "")], "B". split; [|split; [right; left; reflexivity|]].
  - split; [discriminate|]. repeat constructor; simpl; intuition discriminate.
  - intros [|] r E; injection E as <-; simpl; intuition discriminate.
Qed.
Print Assumptions restart_empty_entry_refuted.

(** ** C77: crash points *)

(** At every point of a write the other levels read as before. *)
Theorem crash_keeps_other_levels : forall d l l' data b h, 0 <= l' -> l' <> l -> In h (write_trace d l data) ->
  read_data (Some h) l' b = read_data d l' b.
Proof.
  intros d l l' data b h H N Hh. rewrite read_level, (read_file_of d) by exact H.
  rewrite (write_trace_other d l l' data _ N Hh). reflexivity.
Qed.
Print Assumptions crash_keeps_other_levels.

(** At every point of the write of a new level, that level cannot be read or reads as a prefix of the entries; the last
    point is the complete file. *)
Theorem crash_new_level_is_prefix : forall d l data b h, 0 <= l -> absent d l -> proper data -> In h (write_trace d l data) ->
  read_data (Some h) l b = None \/
  exists k r, (k <= List.length data)%nat /\ read_data (Some h) l b = Some (l, r) /\ reads_as (firstn k data) b r.
Proof.
  intros d l data b h Hl A P Hh. assert (A' := absent_file d l A). rewrite read_level by exact Hl.
  destruct (write_trace_absent d l data h A (proj2 P) Hh) as [->|[->|[k [Hk [->|[e [_ ->]]]]]]].
  - left. rewrite (proj2 (find_grp_none _ _) A'). reflexivity.
  - left. rewrite tail_find by exact A'. reflexivity.
  - right; exists k, (read_entries (map entry_set (firstn k data)) b). rewrite tail_find by exact A'.
    split; [exact Hk|split; [reflexivity|apply reads_as_grp]].
  - right; exists k, (read_entries (map entry_set (firstn k data) ++ [(fst e, DEmpty)])%list b). rewrite tail_find by exact A'.
    split; [exact Hk|split; [reflexivity|apply reads_as_grp_empty]].
Qed.
Print Assumptions crash_new_level_is_prefix.

(** the trace ends with the written file and starts with the old one *)
Theorem crash_trace_ends : forall d l data, hd [] (write_trace d l data) = match d with Some f => f | None => [] end /\
  last (write_trace d l data) [] = write_level d l data.
Proof. intros; split; reflexivity. Qed.
Print Assumptions crash_trace_ends.

(** A crash during the second write: the first level is complete.  "A restart from the last level (no level given) then
    finds a complete state": false, it fails or reads an incomplete state. *)
Definition crash_file (n : nat) : hfile := nth n (write_trace (Some (write_level None 0 st1)) 1 st2) [].
Theorem crash_last_level_refuted :
  exists n m, In (crash_file n) (write_trace (Some (write_level None 0 st1)) 1 st2) /\
  In (crash_file m) (write_trace (Some (write_level None 0 st1)) 1 st2) /\
  read_data (Some (crash_file n)) (-1) false = None /\
  (exists r, read_data (Some (crash_file n)) 0 false = Some (0, r) /\ reads_as st1 false r) /\
  read_data (Some (crash_file m)) (-1) false = Some (1, [("S::sol", "x2")]) /\ ~ reads_as st2 false [("S::sol", "x2")].
Proof.
  exists 1%nat, 7%nat. split; [vm_compute; tauto|]. split; [vm_compute; tauto|]. split; [vm_compute; reflexivity|]. split.
  - exists [("S::sol", "x1"); ("Time", "0.1")]; split; [vm_compute; reflexivity|]. exact (reads_as_grp st1 false).
  - split; [vm_compute; reflexivity|]. intros H. specialize (H "Time" "0.2"). destruct H as [_ H].
    destruct H; [|congruence|contradiction].
    split; [right; right; left; reflexivity|split; [discriminate|]]. rewrite <- is_basis_spec. vm_compute. tauto.
Qed.
Print Assumptions crash_last_level_refuted.

(** "Repeating the write after a crash completes the level": false, the entry whose dataset existed without contents stays
    empty for ever although writeData returns true. *)
Theorem crash_rewrite_refuted :
  exists n, In (crash_file n) (write_trace (Some (write_level None 0 st1)) 1 st2) /\
  read_data (Some (write_level (Some (crash_file n)) 1 st2)) 1 false = Some (1, [("Time", "0.2")]) /\
  ~ reads_as st2 false [("Time", "0.2")].
Proof.
  exists 6%nat. split; [vm_compute; tauto|]. split; [vm_compute; reflexivity|]. intros H. specialize (H "S::sol" "x2").
  destruct H as [_ H]. destruct H; [|congruence|contradiction].
  split; [right; left; reflexivity|split; [discriminate|]]. rewrite <- is_basis_spec. vm_compute. split; intros; discriminate.
Qed.
Print Assumptions crash_rewrite_refuted.

Example crash_example : List.length (write_trace (Some (write_level None 0 st1)) 1 st2) = 11%nat /\
  read_data (Some (crash_file 10)) (-1) false = Some (1, [("S::sol", "x2"); ("Time", "0.2")]) /\
  forall h, In h (write_trace (Some (write_level None 0 st1)) 1 st2) -> read_data (Some h) 0 true = Some (0, [("S::basis", "b1")]).
Proof.
  split; [vm_compute; reflexivity|]. split; [vm_compute; reflexivity|]. intros h Hh.
  rewrite (crash_keeps_other_levels _ 1 0 st2 true h) by (lia || exact Hh). vm_compute; reflexivity.
Qed.

(** ** C78: the schedule *)
Lemma steps_len : forall s n, List.length (steps_from s n) = n.
Proof. intros; unfold steps_from; rewrite map_length, seq_length; reflexivity. Qed.

(** A new run writes the results at step s exactly when the interval divides s, as level s/interval, and the restart data
    exactly when s is positive and its interval divides s, as level s/interval - 1. *)
Theorem output_schedule : forall ndump stride n, 1 <= ndump -> 1 <= stride ->
  fst (new_run ndump stride n) = map (expected_event ndump stride) (steps_from 0 n).
Proof. exact new_run_events. Qed.
Print Assumptions output_schedule.

(** A run restarted from step s0, whose results were written too, has exactly the events of the uninterrupted run. *)
Theorem restarted_schedule : forall ndump stride s0 n, 1 <= ndump -> 1 <= stride -> 1 <= s0 ->
  s0 mod stride = 0 -> s0 mod ndump = 0 ->
  fst (restarted_run ndump stride (s0 / stride - 1) (s0 / ndump) s0 n) = skipn (Z.to_nat s0) (fst (new_run ndump stride (Z.to_nat s0 + n))).
Proof.
  intros ndump stride s0 n Hn Hs H1 M1 M2. rewrite restarted_events, new_run_events by assumption.
  rewrite steps_from_app, map_app, skipn_app, skipn_all2; rewrite map_length; rewrite steps_len; [|lia].
  replace (Z.to_nat s0 - Z.to_nat s0)%nat with O by lia. simpl. replace (Z.of_nat (Z.to_nat s0)) with s0 by lia. reflexivity.
Qed.
Print Assumptions restarted_schedule.

(** and only then: with intervals for which the restart step is not a step whose results are written, the events of the
    restarted run differ from those of the uninterrupted run (other steps, or the same steps in other levels) *)
Theorem restarted_schedule_refuted : forall ndump stride s0, 1 <= ndump -> 1 <= stride -> 1 <= s0 ->
  s0 mod ndump <> 0 ->
  exists n, fst (restarted_run ndump stride (s0 / stride - 1) (s0 / ndump) s0 n) <> skipn (Z.to_nat s0) (fst (new_run ndump stride (Z.to_nat s0 + n))).
Proof.
  intros ndump stride s0 Hn Hs H1 M. destruct (restarted_differs ndump stride s0 Hn Hs H1 M) as [n H]. exists n. intros C; apply H.
  rewrite C, new_run_events by assumption.
  rewrite steps_from_app, map_app, skipn_app, skipn_all2; rewrite map_length; rewrite steps_len; [|lia].
  replace (Z.to_nat s0 - Z.to_nat s0)%nat with O by lia. simpl. replace (Z.of_nat (Z.to_nat s0)) with s0 by lia. reflexivity.
Qed.
Print Assumptions restarted_schedule_refuted.

(** Restarting from the last level into the same file: the file ends up equal to that of the uninterrupted run, wherever
    the first run stopped after that level, and the state read for the restart is that of step s0. *)
Theorem restart_continues_file : forall state ndump stride n1 n2 s0, 1 <= ndump -> 1 <= stride -> 1 <= s0 ->
  (forall k, proper (state k)) -> s0 mod stride = 0 -> s0 mod ndump = 0 -> s0 < Z.of_nat n1 <= s0 + stride -> (0 < n2)%nat ->
  let d1 := write_events None state (fst (new_run ndump stride n1)) in
  write_events d1 state (fst (restarted_run ndump stride (s0 / stride - 1) (s0 / ndump) s0 n2)) =
  write_events None state (fst (new_run ndump stride (Z.to_nat s0 + n2))) /\
  forall b lv, lv < 0 -> exists r, read_data d1 lv b = Some (s0 / stride - 1, r) /\ reads_as (state s0) b r.
Proof.
  intros state ndump stride n1 n2 s0 Hn Hs H1 P M1 M2 B N2 d1.
  destruct (restart_same_file state ndump stride n1 n2 s0 Hn Hs H1 P M1 M2 B N2) as [A1 A2]. split; [exact A1|].
  intros b lv Hlv; exists (read_entries (map entry_set (state s0)) b); split; [apply A2; exact Hlv|apply reads_as_grp].
Qed.
Print Assumptions restart_continues_file.

Example schedule_example :
  fst (new_run 2 4 7) = [(0, Some 0, None); (1, None, None); (2, Some 1, None); (3, None, None); (4, Some 2, Some 0); (5, None, None); (6, Some 3, None)]
  /\ fst (restarted_run 2 4 0 2 4 3) = [(4, Some 2, Some 0); (5, None, None); (6, Some 3, None)].
Proof. split; vm_compute; reflexivity. Qed.

(** results every 2 steps, restart data every 3: the run restarted from step 3 overwrites level 1 of step 2 with step 3 and
    then writes steps 5, 7 instead of 4, 6, 8 *)
Example schedule_misaligned :
  fst (new_run 2 3 9) = [(0, Some 0, None); (1, None, None); (2, Some 1, None); (3, None, Some 0); (4, Some 2, None);
                         (5, None, None); (6, Some 3, Some 1); (7, None, None); (8, Some 4, None)] /\
  fst (restarted_run 2 3 0 1 3 6) = [(3, Some 1, Some 0); (4, None, None); (5, Some 2, None); (6, None, Some 1); (7, Some 3, None); (8, None, None)].
Proof. split; vm_compute; reflexivity. Qed.

Definition st (s : Z) : sdata := [("Time", String (ascii_of_nat (48 + Z.to_nat s)) "")].
Example restart_file_example :
  let d1 := write_events None st (fst (new_run 1 2 6)) in
  read_data d1 (-1) false = Some (1, [("Time", "4")]) /\
  write_events d1 st (fst (restarted_run 1 2 1 4 4 3)) = write_events None st (fst (new_run 1 2 7)) /\
  read_data (write_events None st (fst (new_run 1 2 7))) (-1) false = Some (2, [("Time", "6")]).
Proof. repeat split; vm_compute; reflexivity. Qed.

(** "restarting from an earlier level and running on stores the new states": false in the same file, the levels of the
    first run stay *)
Theorem restart_from_earlier_level_refuted : exists state state' : Z -> sdata, (forall k, proper (state k)) /\ (forall k, proper (state' k)) /\
  let d1 := write_events None state (fst (new_run 1 2 7)) in
  let d2 := write_events d1 state' (fst (restarted_run 1 2 0 2 2 5)) in
  d2 = d1 /\ read_data d2 (-1) false = Some (2, [("Time", "6")]) /\ state' 6 = [("Time", "Z")].
Proof.
  exists st, (fun s => if (s =? 2)%Z then st 2 else [("Time", "Z")]).
  assert (P : forall n v, proper [(n, v)]) by (intros; split; [discriminate|constructor; [simpl; tauto|constructor]]).
  split; [intros; apply P|]. split; [intros k; destruct (k =? 2)%Z; apply P|]. repeat split; vm_compute; reflexivity.
Qed.
Print Assumptions restart_from_earlier_level_refuted.
