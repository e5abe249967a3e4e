(** Proofs for the restart file: histories of writes and the schedule. *)
From Coq Require Import List ZArith Bool Ascii String Lia.
From Verif Require Import Rst_model Rst_spec Rst_proofs.
Import ListNotations.
Open Scope Z_scope.

(** ** histories of writes *)
Fixpoint levels_of (c : Z) (hist : list sdata) : hfile :=
  match hist with [] => [] | x :: h => (c, Some (map entry_set x)) :: levels_of (c + 1) h end.

Lemma write_all_file : forall hist stride lst c d, (forall l, In l (map fst (file_of d)) -> l < c) -> Forall proper hist ->
  hist <> [] -> snd (write_all (mkRst stride (c - 1) lst) d hist) = Some (file_of d ++ levels_of c hist).
Proof.
  induction hist as [|x h IH]; intros stride lst c d B P N; [congruence|]. inversion P as [|? ? P1 P2]; subst.
  simpl. replace (c - 1 + 1) with c by lia.
  assert (A : absent d c).
  { intros f -> C. apply B in C. lia. }
  assert (W := write_level_absent d c x A P1).
  destruct h as [|y h].
  - simpl. rewrite W. reflexivity.
  - replace c with (c + 1 - 1) at 1 by lia. rewrite (IH stride lst (c + 1) (Some (write_level d c x))).
    + simpl file_of. rewrite W, <- app_assoc. reflexivity.
    + simpl file_of. rewrite W, map_app. intros l Hl. apply in_app_or in Hl as [Hl|[Hl|[]]]; [apply B in Hl; lia|simpl in Hl; lia].
    + exact P2.
    + discriminate.
Qed.

Lemma levels_find : forall hist c k x, nth_error hist k = Some x ->
  find_grp (levels_of c hist) (c + Z.of_nat k) = Some (Some (map entry_set x)).
Proof.
  induction hist as [|y h IH]; intros c k x E; [destruct k; discriminate|]. unfold find_grp; simpl levels_of; simpl find.
  destruct k as [|k]; simpl in E.
  - injection E as ->. replace (c + Z.of_nat 0) with c by lia. rewrite Z.eqb_refl. reflexivity.
  - destruct (Z.eqb_spec c (c + Z.of_nat (S k))); [lia|]. replace (c + Z.of_nat (S k)) with (c + 1 + Z.of_nat k) by lia.
    exact (IH (c + 1) k x E).
Qed.

Lemma levels_fst : forall hist c l, In l (map fst (levels_of c hist)) <-> c <= l < c + Z.of_nat (List.length hist).
Proof.
  induction hist as [|y h IH]; intros c l; simpl; [lia|]. rewrite IH. lia.
Qed.

Lemma last_level_spec : forall f lv m, (forall l, In l (map fst f) -> l <= m) -> lv <= m -> (In m (map fst f) \/ lv = m) -> last_level f lv = m.
Proof.
  unfold last_level; induction f as [|[k g] f IH]; intros lv m B Hl Hi; simpl in *.
  - destruct Hi as [[]|E]; exact E.
  - assert (k <= m) by (apply B; left; reflexivity).
    apply IH; [intros l H1; apply B; right; exact H1| |]; destruct (Z.ltb_spec lv k); try lia.
    + destruct Hi as [[Hi|Hi]|Hi]; [right; exact Hi|left; exact Hi|lia].
    + destruct Hi as [[Hi|Hi]|Hi]; [right; lia|left; exact Hi|right; exact Hi].
Qed.

Lemma history_read : forall stride hist k x b, Forall proper hist -> nth_error hist k = Some x ->
  let d := snd (write_all (new_rst stride 0) None hist) in
  read_data d (Z.of_nat k) b = Some (Z.of_nat k, read_entries (map entry_set x) b) /\
  (S k = List.length hist -> forall lv, lv < 0 -> read_data d lv b = Some (Z.of_nat k, read_entries (map entry_set x) b)).
Proof.
  intros stride hist k x b P E d.
  assert (N : hist <> []) by (destruct hist; [destruct k; discriminate|discriminate]).
  assert (D : d = Some (levels_of 0 hist)).
  { unfold d, new_rst. rewrite (write_all_file hist stride 0 0 None); [reflexivity|simpl; tauto|exact P|exact N]. }
  rewrite D. assert (F := levels_find hist 0 k x E). replace (0 + Z.of_nat k) with (Z.of_nat k) in F by lia.
  split.
  - rewrite read_level by lia. rewrite F. reflexivity.
  - intros Hk lv Hlv. unfold read_data. destruct (Z.ltb_spec lv 0); [|lia].
    assert (L : last_level (levels_of 0 hist) lv = Z.of_nat k).
    { apply last_level_spec; [intros l Hl; apply levels_fst in Hl; lia|lia|left; apply levels_fst; lia]. }
    rewrite L, F. reflexivity.
Qed.

(** ** rewriting the same data *)
Lemma entries_same : forall l data f g d, find_grp f l = Some (Some g) -> incl (map fst data) (map fst g) -> data <> [] ->
  last (entries_trace f l data) d = f.
Proof.
  intros l; induction data as [|e r IH]; intros f g d H I N; [congruence|].
  assert (T : entry_trace f l e = [f]).
  { unfold entry_trace. assert (A : add_group f l = f) by (unfold add_group; rewrite H; reflexivity). rewrite A.
    rewrite (has_set_find f l g (fst e) H). destruct (existsb _ g) eqn:E; [reflexivity|].
    apply existsb_name in E. exfalso; apply E, I; left; reflexivity. }
  simpl. rewrite T. simpl last at 2. destruct r as [|e2 r2]; [reflexivity|].
  assert (Q : last (entries_trace f l (e2 :: r2)) d = f).
  { apply (IH f g d H); [intros a Ha; apply I; right; exact Ha|discriminate]. }
  destruct (entries_trace f l (e2 :: r2)) as [|a t]; [reflexivity|exact Q].
Qed.

Lemma write_level_same : forall f l g data, find_grp f l = Some (Some g) -> incl (map fst data) (map fst g) ->
  write_level (Some f) l data = f.
Proof.
  intros f l g data H I; unfold write_level, write_trace, add_level; rewrite H.
  destruct data as [|e r]; [reflexivity|].
  assert (Q := entries_same l (e :: r) f g [] H I ltac:(discriminate)).
  destruct (entries_trace f l (e :: r)) as [|a t]; [reflexivity|exact Q].
Qed.

(** ** the schedule *)
Lemma div_step : forall n s, 1 <= n ->
  ((s - 1) / n * n + n <= s -> s mod n = 0 /\ s / n = (s - 1) / n + 1 /\ s / n * n = s) /\
  (s < (s - 1) / n * n + n -> s mod n <> 0 /\ s / n = (s - 1) / n).
Proof.
  intros n s Hn. assert (D := Z.div_mod (s - 1) n ltac:(lia)). assert (M := Z.mod_pos_bound (s - 1) n ltac:(lia)).
  set (q := (s - 1) / n) in *. set (r := (s - 1) mod n) in *.
  split; intros H.
  - assert (r = n - 1) by nia. assert (E : s = (q + 1) * n) by nia. rewrite E, Z.mod_mul, Z.div_mul by lia. lia.
  - assert (E : s = (r + 1) + q * n) by nia. assert (r + 1 < n) by nia.
    rewrite E, Z.mod_add, Z.div_add, Z.mod_small, Z.div_small by lia. lia.
Qed.

Definition at_step (ndump stride s : Z) : expo * rst :=
  (mkExpo ndump ((s - 1) / ndump) ((s - 1) / ndump * ndump), mkRst stride ((s - 1) / stride - 1) ((s - 1) / stride * stride)).

Lemma save_at_step : forall ndump stride s, 1 <= ndump -> 1 <= stride -> 1 <= s ->
  save_state (at_step ndump stride s) s = (expected_event ndump stride s, at_step ndump stride (s + 1)).
Proof.
  intros ndump stride s Hn Hs H1. unfold save_state, at_step, dump_level, dump_step, expected_event; simpl.
  replace (s + 1 - 1) with s by lia.
  destruct (div_step ndump s Hn) as [A1 A2]. destruct (div_step stride s Hs) as [B1 B2].
  assert (0 <= (s - 1) / ndump) by (apply Z.div_pos; lia).
  rewrite Z.max_r by nia.
  destruct (Z.ltb_spec 0 s) as [_|]; [|lia]. cbn [andb].
  destruct (Z.ltb_spec s ((s - 1) / ndump * ndump + ndump)) as [C|C].
  - destruct (A2 C) as [M Q]. destruct (Z.eqb_spec (s mod ndump) 0) as [|_]; [contradiction|]. rewrite <- Q.
    destruct (Z.ltb_spec s ((s - 1) / stride * stride + stride)) as [D|D].
    + destruct (B2 D) as [M2 Q2]. destruct (Z.eqb_spec (s mod stride) 0) as [|_]; [contradiction|]. rewrite <- Q2. reflexivity.
    + destruct (B1 D) as [M2 [Q2 Q3]]. rewrite M2, Z.eqb_refl. rewrite Q3.
      cbn [r_level r_stride r_last]. replace ((s - 1) / stride - 1 + 1) with (s / stride - 1) by lia. reflexivity.
  - destruct (A1 C) as [M [Q Q']]. rewrite M, Z.eqb_refl. rewrite <- Q, Q'.
    destruct (Z.ltb_spec s ((s - 1) / stride * stride + stride)) as [D|D].
    + destruct (B2 D) as [M2 Q2]. destruct (Z.eqb_spec (s mod stride) 0) as [|_]; [contradiction|]. rewrite <- Q2. reflexivity.
    + destruct (B1 D) as [M2 [Q2 Q3]]. rewrite M2, Z.eqb_refl. rewrite Q3.
      cbn [r_level r_stride r_last]. replace ((s - 1) / stride - 1 + 1) with (s / stride - 1) by lia. reflexivity.
Qed.

Lemma steps_from_S : forall s n, steps_from s (S n) = s :: steps_from (s + 1) n.
Proof.
  intros s n; unfold steps_from; simpl. f_equal; [lia|]. rewrite <- seq_shift, map_map. apply map_ext; intros; lia.
Qed.

Lemma run_at_step : forall ndump stride n s, 1 <= ndump -> 1 <= stride -> 1 <= s ->
  fst (run_steps (at_step ndump stride s) s n) = map (expected_event ndump stride) (steps_from s n).
Proof.
  intros ndump stride n; induction n as [|n IH]; intros s Hn Hs H1; [reflexivity|].
  rewrite steps_from_S. simpl. rewrite save_at_step by assumption.
  specialize (IH (s + 1) Hn Hs ltac:(lia)). destruct (run_steps (at_step ndump stride (s + 1)) (s + 1) n) as [evs er].
  simpl in *; rewrite IH; reflexivity.
Qed.

Lemma save_first : forall ndump stride, 1 <= ndump -> 1 <= stride ->
  save_state (new_expo ndump 0, new_rst stride 0) 0 = (expected_event ndump stride 0, at_step ndump stride 1).
Proof.
  intros ndump stride Hn Hs. unfold save_state, dump_level, dump_step, expected_event, at_step; simpl.
  destruct (Z.ltb_spec 0 stride); [|lia]. rewrite ?Z.mod_0_l, ?Z.div_0_l by lia. reflexivity.
Qed.

Lemma new_run_events : forall ndump stride n, 1 <= ndump -> 1 <= stride ->
  fst (new_run ndump stride n) = map (expected_event ndump stride) (steps_from 0 n).
Proof.
  intros ndump stride [|n] Hn Hs; [reflexivity|]. rewrite steps_from_S. unfold new_run. simpl.
  rewrite save_first by assumption.
  assert (R := run_at_step ndump stride n 1 Hn Hs ltac:(lia)). destruct (run_steps (at_step ndump stride 1) 1 n) as [evs er].
  simpl in *; rewrite R; reflexivity.
Qed.

Lemma save_restarted : forall ndump stride S, 1 <= ndump -> 1 <= stride -> 1 <= S -> S mod stride = 0 -> S mod ndump = 0 ->
  save_state (new_expo ndump (S / ndump), new_rst stride (S / stride - 1)) S = (expected_event ndump stride S, at_step ndump stride (S + 1)).
Proof.
  intros ndump stride S Hn Hs H1 M1 M2. unfold save_state, dump_level, dump_step, expected_event, at_step; simpl.
  rewrite M1, M2. simpl. replace (S + 1 - 1) with S by lia.
  assert (D1 := Z.div_mod S stride ltac:(lia)). assert (D2 := Z.div_mod S ndump ltac:(lia)).
  assert (0 < S / stride) by nia. assert (0 < S / ndump) by nia.
  destruct (Z.ltb_spec 0 S); [|lia]. destruct (Z.ltb_spec S ndump); [nia|]. cbn [andb].
  destruct (Z.ltb_spec S stride); [nia|].
  replace (S / ndump * ndump) with S by nia. replace (S / stride * stride) with S by nia.
  cbn [r_level r_stride r_last]. replace (S / ndump - 1 + 1) with (S / ndump) by lia. replace (S / stride - 1 - 1 + 1) with (S / stride - 1) by lia. reflexivity.
Qed.

Lemma restarted_events : forall ndump stride s0 n, 1 <= ndump -> 1 <= stride -> 1 <= s0 -> s0 mod stride = 0 -> s0 mod ndump = 0 ->
  fst (restarted_run ndump stride (s0 / stride - 1) (s0 / ndump) s0 n) = map (expected_event ndump stride) (steps_from s0 n).
Proof.
  intros ndump stride s0 [|n] Hn Hs H1 M1 M2; [reflexivity|]. rewrite steps_from_S. unfold restarted_run. simpl.
  rewrite save_restarted by assumption.
  assert (R := run_at_step ndump stride n (s0 + 1) Hn Hs ltac:(lia)).
  destruct (run_steps (at_step ndump stride (s0 + 1)) (s0 + 1) n) as [evs er]. simpl in *; rewrite R; reflexivity.
Qed.

(** results not dumped at the restart step: the events differ *)
Lemma no_dump_until : forall ndump stride T n s r, 1 <= ndump -> 1 <= s -> s + Z.of_nat n <= ndump -> r_stride r = stride ->
  exists r', snd (run_steps (new_expo ndump T, r) s n) = (new_expo ndump T, r') /\ r_stride r' = stride.
Proof.
  intros ndump stride T n; induction n as [|n IH]; intros s r Hn Hs H E; [exists r; split; [reflexivity|exact E]|].
  simpl. unfold save_state, dump_level, dump_step; simpl.
  destruct (Z.ltb_spec 0 s); [|lia]. destruct (Z.ltb_spec s ndump); [|lia]. cbn [andb].
  destruct (s <? r_last r + r_stride r).
  - destruct (IH (s + 1) r Hn ltac:(lia) ltac:(lia) E) as [r' [E1 E2]].
    destruct (run_steps (new_expo ndump T, r) (s + 1) n) as [evs er]. exists r'; split; [exact E1|exact E2].
  - simpl. destruct (IH (s + 1) (mkRst (r_stride r) (r_level r + 1) s) Hn ltac:(lia) ltac:(lia) E) as [r' [E1 E2]].
    destruct (run_steps (new_expo ndump T, mkRst (r_stride r) (r_level r + 1) s) (s + 1) n) as [evs er].
    exists r'; split; [exact E1|exact E2].
Qed.

Lemma run_app : forall n m er s, run_steps er s (n + m) =
  (fst (run_steps er s n) ++ fst (run_steps (snd (run_steps er s n)) (s + Z.of_nat n) m), snd (run_steps (snd (run_steps er s n)) (s + Z.of_nat n) m)).
Proof.
  induction n as [|n IH]; intros m er s.
  - simpl. replace (s + 0) with s by lia. destruct (run_steps er s m); reflexivity.
  - simpl plus. cbn [run_steps]. destruct (save_state er s) as [ev er1]. rewrite IH.
    destruct (run_steps er1 (s + 1) n) as [evs er2]. cbn [fst snd].
    replace (s + Z.of_nat (S n)) with (s + 1 + Z.of_nat n) by lia. reflexivity.
Qed.

Lemma run_steps_steps : forall n er s, map (fun ev => fst (fst ev)) (fst (run_steps er s n)) = steps_from s n.
Proof.
  induction n as [|n IH]; intros er s; [reflexivity|]. rewrite steps_from_S. cbn [run_steps].
  unfold save_state. destruct (dump_level (fst er) s) as [lev e]. destruct (dump_step (snd er) s) as [b r].
  destruct b; specialize (IH (e, if true then mkRst (r_stride r) (r_level r + 1) (r_last r) else r) (s + 1)) as I1; 
    assert (I2 := IH (e, r) (s + 1)); cbn iota in I1.
  - destruct (run_steps (e, mkRst (r_stride r) (r_level r + 1) (r_last r)) (s + 1) n). simpl in *. rewrite I1. reflexivity.
  - destruct (run_steps (e, r) (s + 1) n). simpl in *. rewrite I2. reflexivity.
Qed.

Lemma steps_from_app : forall s n m, steps_from s (n + m) = steps_from s n ++ steps_from (s + Z.of_nat n) m.
Proof.
  intros s n; revert s; induction n as [|n IH]; intros s m.
  - simpl. replace (s + 0) with s by lia. reflexivity.
  - simpl plus. rewrite !steps_from_S, IH. simpl. replace (s + 1 + Z.of_nat n) with (s + Z.of_nat (S n)) by lia. reflexivity.
Qed.

Lemma restarted_differs : forall ndump stride s0, 1 <= ndump -> 1 <= stride -> 1 <= s0 -> s0 mod ndump <> 0 ->
  exists n, fst (restarted_run ndump stride (s0 / stride - 1) (s0 / ndump) s0 n) <> map (expected_event ndump stride) (steps_from s0 n).
Proof.
  intros ndump stride s0 Hn Hs H1 M.
  destruct (Z_lt_le_dec s0 ndump) as [C|C].
  - set (k := Z.to_nat (ndump - s0)). exists (k + 1)%nat. unfold restarted_run. rewrite run_app. cbn [fst].
    destruct (no_dump_until ndump stride (s0 / ndump) k s0 (new_rst stride (s0 / stride - 1)) Hn H1 ltac:(lia) eq_refl) as [r' [E _]].
    rewrite E. replace (s0 + Z.of_nat k) with ndump by lia. rewrite steps_from_app, map_app.
    replace (s0 + Z.of_nat k) with ndump by lia.
    intros F. assert (L : List.length (fst (run_steps (new_expo ndump (s0 / ndump), new_rst stride (s0 / stride - 1)) s0 k))
                    = List.length (map (expected_event ndump stride) (steps_from s0 k))).
    { rewrite map_length. rewrite <- (run_steps_steps k (new_expo ndump (s0 / ndump), new_rst stride (s0 / stride - 1)) s0).
      rewrite map_length. reflexivity. }
    assert (F2 : fst (run_steps (new_expo ndump (s0 / ndump), r') ndump 1) = map (expected_event ndump stride) (steps_from ndump 1)).
    { clear - F L. revert F L. generalize (fst (run_steps (new_expo ndump (s0 / ndump), new_rst stride (s0 / stride - 1)) s0 k)).
      generalize (map (expected_event ndump stride) (steps_from s0 k)). intros u v; revert u.
      induction v as [|a v IH]; intros [|b u] F L; try discriminate; [exact F|]. simpl in F, L. injection F as _ F. apply (IH u F); lia. }
    rewrite steps_from_S in F2. simpl in F2. unfold save_state, dump_level, expected_event in F2. simpl in F2.
    destruct (Z.ltb_spec 0 ndump); [|lia]. rewrite Z.ltb_irrefl in F2. cbn [andb] in F2.
    rewrite Z.mod_same, Z.div_same, Z.eqb_refl, (Z.div_small s0 ndump) in F2 by lia.
    destruct (dump_step r' ndump) as [[|] ?]; simpl in F2; congruence.
  - exists 1%nat. unfold restarted_run. rewrite steps_from_S. simpl. unfold save_state, dump_level, expected_event. simpl.
    destruct (Z.ltb_spec s0 ndump); [lia|]. rewrite andb_false_r. destruct (Z.eqb_spec (s0 mod ndump) 0); [contradiction|].
    destruct (dump_step _ s0) as [[|] ?]; simpl; congruence.
Qed.

(** ** the schedule and the file together *)
Lemma write_events_app : forall state e1 e2 d, write_events d state (e1 ++ e2) = write_events (write_events d state e1) state e2.
Proof. intros state; induction e1 as [|[[s a] [l|]] e1 IH]; intros e2 d; simpl; auto. Qed.

Lemma no_restart_between : forall state ndump stride n s d, 1 <= stride ->
  (forall k, (k < n)%nat -> (s + Z.of_nat k) mod stride <> 0) ->
  write_events d state (map (expected_event ndump stride) (steps_from s n)) = d.
Proof.
  intros state ndump stride; induction n as [|n IH]; intros s d Hs H; [reflexivity|]. rewrite steps_from_S.
  cbn [map]. unfold expected_event at 1. cbn [write_events].
  assert (H0 : s mod stride <> 0) by (specialize (H O ltac:(lia)); replace (s + Z.of_nat 0) with s in H by lia; exact H).
  destruct (Z.eqb_spec (s mod stride) 0); [contradiction|]. rewrite andb_false_r. apply IH; [exact Hs|].
  intros k Hk. specialize (H (S k) ltac:(lia)). replace (s + 1 + Z.of_nat k) with (s + Z.of_nat (S k)) by lia. exact H.
Qed.

Definition opt_file (f : hfile) : disk := match f with [] => None | _ => Some f end.
(** the file after the steps 0..s of a new run *)
Lemma file_after : forall state ndump stride s, 1 <= ndump -> 1 <= stride -> 0 <= s -> (forall k, proper (state k)) ->
  let d := write_events None state (map (expected_event ndump stride) (steps_from 0 (Z.to_nat s + 1))) in
  d = opt_file (levels_of 0 (map (fun k => state ((Z.of_nat k + 1) * stride)) (seq 0 (Z.to_nat (s / stride))))).
Proof.
  intros state ndump stride s Hn Hs H P. replace s with (Z.of_nat (Z.to_nat s)) by lia. set (n := Z.to_nat s). clearbody n. clear s H.
  rewrite Nat2Z.id. induction n as [|n IH].
  - simpl plus. cbv zeta. rewrite steps_from_S. cbn [map]. unfold expected_event. simpl. rewrite ?Z.div_0_l by lia. reflexivity.
  - cbv zeta in *. replace (S n + 1)%nat with ((n + 1) + 1)%nat by lia. rewrite steps_from_app, map_app, write_events_app, IH. clear IH.
    rewrite steps_from_S. replace (0 + Z.of_nat (n + 1)) with (Z.of_nat (S n)) by lia. cbn [map]. set (s := Z.of_nat (S n)).
    replace (Z.of_nat n) with (s - 1) by lia. unfold expected_event. destruct (Z.ltb_spec 0 s); [|lia]. cbn [andb].
    destruct (div_step stride s Hs) as [B1 B2].
    destruct (Z_lt_le_dec s ((s - 1) / stride * stride + stride)) as [D|D].
    + destruct (B2 D) as [M Q]. destruct (Z.eqb_spec (s mod stride) 0); [contradiction|]. rewrite Q. reflexivity.
    + destruct (B1 D) as [M [Q Q']]. rewrite M, Z.eqb_refl. rewrite Q. cbn [write_events map steps_from seq].
      assert (Qn : 0 <= (s - 1) / stride) by (apply Z.div_pos; lia).
      set (q := (s - 1) / stride) in *. replace (Z.to_nat (q + 1)) with (Z.to_nat q + 1)%nat by lia.
      rewrite seq_app, map_app. simpl.
      set (h := map (fun k => state ((Z.of_nat k + 1) * stride)) (seq 0 (Z.to_nat q))).
      assert (Lh : List.length h = Z.to_nat q) by (unfold h; rewrite map_length, seq_length; reflexivity).
      replace (q + 1 - 1) with q by lia.
      replace ((Z.of_nat (Z.to_nat q) + 1) * stride) with s by (rewrite Z2Nat.id by lia; nia).
      assert (LA : forall c x y, levels_of c (x ++ [y]) = levels_of c x ++ [(c + Z.of_nat (List.length x), Some (map entry_set y))]).
      { clear; intros c x y; revert c; induction x as [|a x IH]; intros c; simpl; [replace (c + 0) with c by lia; reflexivity|].
        rewrite IH. replace (c + 1 + Z.of_nat (List.length x)) with (c + Z.pos (Pos.of_succ_nat (List.length x))) by lia. reflexivity. }
      rewrite LA, Lh, Z2Nat.id by lia. replace (0 + q) with q by lia.
      set (d0 := opt_file (levels_of 0 h)).
      assert (F0 : file_of d0 = levels_of 0 h) by (unfold d0, opt_file; destruct (levels_of 0 h); reflexivity).
      rewrite write_level_absent; [rewrite F0; destruct (levels_of 0 h); reflexivity| |apply P].
      intros f Ef C. assert (f = levels_of 0 h) by (rewrite <- F0, Ef; reflexivity). subst f. apply levels_fst in C. lia.
Qed.

Lemma restart_same_file : forall state ndump stride n1 n2 s0, 1 <= ndump -> 1 <= stride -> 1 <= s0 ->
  (forall k, proper (state k)) -> s0 mod stride = 0 -> s0 mod ndump = 0 -> s0 < Z.of_nat n1 <= s0 + stride -> (0 < n2)%nat ->
  let d1 := write_events None state (fst (new_run ndump stride n1)) in
  write_events d1 state (fst (restarted_run ndump stride (s0 / stride - 1) (s0 / ndump) s0 n2)) =
  write_events None state (fst (new_run ndump stride (Z.to_nat s0 + n2))) /\
  forall b lv, lv < 0 -> read_data d1 lv b = Some (s0 / stride - 1, read_entries (map entry_set (state s0)) b).
Proof.
  intros state ndump stride n1 n2 s0 Hn Hs H1 P M1 M2 B N2 d1.
  assert (D := Z.div_mod s0 stride ltac:(lia)).
  assert (Q : 0 < s0 / stride) by nia. set (q := s0 / stride) in *.
  set (h := map (fun k => state ((Z.of_nat k + 1) * stride)) (seq 0 (Z.to_nat q))).
  assert (Lh : List.length h = Z.to_nat q) by (unfold h; rewrite map_length, seq_length; reflexivity).
  assert (FA : write_events None state (map (expected_event ndump stride) (steps_from 0 (Z.to_nat s0 + 1))) = Some (levels_of 0 h)).
  { rewrite (file_after state ndump stride s0) by (assumption || lia). fold q h.
    destruct (levels_of 0 h) eqn:E; [|reflexivity]. destruct h; [simpl in Lh; lia|discriminate]. }
  assert (D1 : d1 = Some (levels_of 0 h)).
  { unfold d1. rewrite new_run_events by assumption. replace n1 with ((Z.to_nat s0 + 1) + (n1 - Z.to_nat s0 - 1))%nat by lia.
    rewrite steps_from_app, map_app, write_events_app, FA. apply no_restart_between; [exact Hs|]. intros k Hk.
    replace (0 + Z.of_nat (Z.to_nat s0 + 1) + Z.of_nat k) with ((1 + Z.of_nat k) + q * stride) by nia.
    rewrite Z.mod_add, Z.mod_small by lia. lia. }
  assert (Nq : nth_error h (Z.to_nat q - 1) = Some (state s0)).
  { unfold h. rewrite nth_error_map, nth_error_nth' with (d := O) by (rewrite seq_length; lia). rewrite seq_nth by lia. simpl.
    f_equal. f_equal. nia. }
  assert (F := levels_find h 0 _ _ Nq). replace (0 + Z.of_nat (Z.to_nat q - 1)) with (q - 1) in F by lia.
  split.
  - unfold q. rewrite restarted_events, new_run_events by (assumption || lia). destruct n2 as [|n2]; [lia|].
    rewrite steps_from_S. replace (Z.to_nat s0 + S n2)%nat with ((Z.to_nat s0 + 1) + n2)%nat by lia.
    rewrite steps_from_app, map_app, write_events_app, FA.
    replace (0 + Z.of_nat (Z.to_nat s0 + 1)) with (s0 + 1) by lia. cbn [map]. unfold expected_event at 1. cbn [write_events].
    rewrite M1. destruct (Z.ltb_spec 0 s0); [|lia]. cbn [andb Z.eqb write_events]. rewrite D1. fold q.
    rewrite (write_level_same _ _ _ (state s0) F); [reflexivity|]. rewrite entry_set_fst. apply incl_refl.
  - intros b lv Hlv. rewrite D1. unfold read_data. destruct (Z.ltb_spec lv 0); [|lia].
    assert (L : last_level (levels_of 0 h) lv = q - 1).
    { apply last_level_spec; [intros l Hl; apply levels_fst in Hl; lia|lia|left; apply levels_fst; lia]. }
    rewrite L, F. reflexivity.
Qed.
