(** C25-C27, C38, C39: time stepping. *)
From Coq Require Import List Arith ZArith QArith Qcanon Bool Lia Lqa.
From Verif Require Import Base QcLra TimeStep_model TimeStep_spec TimeStep_proofs TimeStep_proofs2 TimeStep_proofs3 TimeStep_proofs4 TimeStep_proofs5 TimeStep_proofs6.
Import ListNotations.
Local Open Scope Qc_scope.

Definition q (a : Z) (b : positive) : Qc := Q2Qc (a # b).
(** two sections: 0..1 in steps of 3/10, 1..2 in four steps *)
Definition exT (f2 : Qc) (steps : list XStep) (maxCFL : Qc) (dmin dmax : Qc) (mx : Z) : XTime :=
  mkXT 0 1 dmin dmax maxCFL 0 mx (q 3 2) f2 None steps.
Definition two := [mkXS 0 1 [q 3 10] false; mkXS 0 (q 2 1) [q 4 1] false].
Definition ex0 := exT (q 1 4) two 0 (q 1 100) (q 1 100) 0.
Definition run0 (x : XTime) : TS := match parseXML 100 x with Some s => s | None => ts0 end.
Definition nx (s : TS) : TS := snd (increment s).
Definition cu (s : TS) : TS := snd (cutback s).
Lemma inc_nx s : fst (increment s) = true -> increment s = (true, nx s).
Proof. unfold nx. destruct (increment s) as [[|] s']; [reflexivity|discriminate]. Qed.
Lemma cut_cu s : cutback s = (fst (cutback s), cu s).
Proof. unfold cu. destruct (cutback s); reflexivity. Qed.
Lemma incN_pair n s : fst (incrN n s) = true -> incrN n s = (true, snd (incrN n s)).
Proof. destruct (incrN n s) as [[|] s']; [reflexivity|discriminate]. Qed.
Lemma incN_pairF n s : fst (incrN n s) = false -> incrN n s = (false, snd (incrN n s)).
Proof. destruct (incrN n s) as [[|] s']; [discriminate|reflexivity]. Qed.
Lemma inc_pairF s : fst (increment s) = false -> increment s = (false, snd (increment s)).
Proof. destruct (increment s) as [[|] s']; [discriminate|reflexivity]. Qed.
Lemma cut_pair s : fst (cutback s) = true -> cutback s = (true, snd (cutback s)).
Proof. destruct (cutback s) as [[|] s']; [reflexivity|discriminate]. Qed.
Lemma run0_ok x : (match parseXML 100 x with Some _ => true | None => false end) = true -> parseXML 100 x = Some (run0 x).
Proof. unfold run0. destruct (parseXML 100 x); [reflexivity|discriminate]. Qed.
Ltac vmr := vm_compute; reflexivity.
Lemma reach_two s : fst (increment s) = true -> fst (increment (nx s)) = true -> fst (increment (cu (nx (nx s)))) = true -> reach true s true (nx (cu (nx (nx s)))).
Proof.
  intros H1 H2 H3. apply (r_incr true s true (cu (nx (nx s)))); [|apply inc_nx; exact H3].
  apply (r_cut true s (nx (nx s)) (cu (nx (nx s))) (fst (cutback (nx (nx s))))); [|intros E; discriminate E|apply cut_cu].
  apply (r_incr true s true (nx s)); [|apply inc_nx; exact H2]. apply (r_incr true s false s); [apply r_start|apply inc_nx; exact H1].
Qed.
Lemma reach_one s : fst (increment s) = true -> ~ In (t (nx s)) (ends (nx s)) -> fst (increment (cu (nx s))) = true -> reach false s true (nx (cu (nx s))).
Proof.
  intros H1 H2 H3. apply (r_incr false s true (cu (nx s))); [|apply inc_nx; exact H3].
  apply (r_cut false s (nx s) (cu (nx s)) (fst (cutback (nx s)))); [|intros _; exact H2|apply cut_cu].
  apply (r_incr false s false s); [apply r_start|apply inc_nx; exact H1].
Qed.
Lemma adv_one s : fst (increment s) = true -> advanced s 1 (nx s).
Proof. intros H1. apply (a_incr s 0 s); [apply a_start|apply inc_nx; exact H1]. Qed.
Lemma adv_three s k : let f := fun s => nx (setIter s k) in fst (increment (setIter s k)) = true -> fst (increment (setIter (f s) k)) = true -> fst (increment (setIter (f (f s)) k)) = true ->
  advanced s 3 (f (f (f s))).
Proof.
  intros f H1 H2 H3. unfold f. apply (a_incr s 2 (setIter (f (f s)) k)); [|apply inc_nx; exact H3]. apply a_iter.
  apply (a_incr s 1 (setIter (f s) k)); [|apply inc_nx; exact H2]. apply a_iter. apply (a_incr s 0 (setIter s k)); [|apply inc_nx; exact H1]. apply a_iter. apply a_start.
Qed.
Lemma inc_pair s : fst (increment s) = true -> increment s = (true, snd (increment s)).
Proof. destruct (increment s) as [[|] s']; [reflexivity|discriminate]. Qed.
Ltac qcmp := try (unfold Qclt, Qcle, Qlt, Qle; vm_compute; reflexivity); try (unfold Qcle, Qle; vm_compute; discriminate).
Lemma ex0_good : goodInput ex0.
Proof.
  cbn. split; [qcmp|]. split; [qcmp|]. split; [qcmp|]. split; [qcmp|]. split; [repeat split; qcmp|].
  repeat (apply Forall_cons; [split; [discriminate|repeat (apply Forall_cons; [qcmp|]); apply Forall_nil]|]). apply Forall_nil.
Qed.

(** ** C25 *)
(** any successful increment, in any state: time advances by the reported step size, not past the stop time *)
Theorem C25_increment s s' : increment s = (true, s') -> t s' = t s + dt s' /\ t s' <= stopTime s' /\ step s' = (step s + 1)%Z.
Proof.
  intros H. destruct (increment_true _ _ H) as (A & B & C). pose proof (increment_same s) as Sm. rewrite H in Sm. cbn in Sm. destruct Sm as (_ & -> & _). auto.
Qed.
Print Assumptions C25_increment.
(** In a simulation - any sequence of increments, cut-backs of steps that did not end at a section end, and any
    iteration and CFL numbers - the step sizes are positive and no section end is stepped over *)
Theorem C25_sections fuel x s0 b s s' : goodInput x -> parseXML fuel x = Some s0 -> reach false s0 b s -> increment s = (true, s') ->
  0 < dt s' /\ t s < t s' /\ (forall y, In y (x_steps x) -> t s < x_end y -> t s' <= x_end y) /\ stopTime s' = stopTime s0.
Proof.
  intros G P R H. destruct (parse_Inv _ _ _ G P) as (I & _ & _ & _ & _ & E5 & _). destruct (reach_Inv _ _ _ I R) as [Is Sm].
  destruct (step_Inv _ _ _ Is H) as [I' Hit]. pose proof (i_dt _ _ I') as D. destruct (increment_true _ _ H) as (A & _ & _).
  split; [exact D|]. split; [qclra|]. split.
  - intros y Hy Hl. apply Hit; [|exact Hl]. destruct Sm as (_ & _ & _ & _ & _ & _ & _ & _ & ->). rewrite E5. apply in_map. exact Hy.
  - pose proof (increment_same s) as S2. rewrite H in S2. cbn in S2. destruct S2 as (_ & -> & _). apply Sm.
Qed.
Print Assumptions C25_sections.
(** once the stop time is reached, increments fail and time stands still, whatever the counters are *)
Theorem C25_final fuel x s0 b s : goodInput x -> parseXML fuel x = Some s0 -> reach false s0 b s -> t s = stopTime s ->
  exists s', increment s = (false, s') /\ t s' = t s /\ stopTime s' = stopTime s.
Proof.
  intros G P R E. destruct (parse_Inv _ _ _ G P) as (I & _). destruct (reach_Inv _ _ _ I R) as [Is _].
  destruct (increment_at_end s (i_stop _ _ Is) ltac:(rewrite E; apply Qcle_refl)) as (s' & Es). exists s'. split; [exact Es|].
  split; [exact (increment_false_t _ _ Es)|]. pose proof (increment_same s) as S2. rewrite Es in S2. apply S2.
Qed.
Print Assumptions C25_final.
(** without CFL control and step limit, the integration ends after finitely many increments, for any numbers of
    iterations, within the tolerance of the stop time *)
Theorem C25_terminates fuel x s0 : goodInput x -> parseXML fuel x = Some s0 -> x_maxCFL x <= 0 -> (x_maxStep x <= 0)%Z ->
  (x_dtMin x < x_dtMax x -> 0 < x_dtMin x) ->
  exists N, forall its, (N <= length its)%nat -> exists s', runIt its s0 = (false, s') /\ stopTime s' = stopTime s0 /\
    stopTime s' - t s' < Q2Qc (1 # 1000000) * (if qltb (Q2Qc (1 # 1000000)) (dt s') then dt s' else Q2Qc (1 # 1000000)).
Proof. exact (parse_terminates fuel x s0). Qed.
Print Assumptions C25_terminates.
(** sections given by their numbers of steps are divided uniformly and take exactly that many increments *)
Theorem C25_counts fuel x start l s0 : l <> [] -> x_steps x = map (fun p => mkXS start (snd p) [num (fst p)] false) l -> 0 <= start -> countsOK start l ->
  x_maxCFL x <= 0 -> x_dtMax x <= x_dtMin x -> (x_maxStep x <= 0)%Z -> parseXML fuel x = Some s0 ->
  (forall i, (i <= stepCount l)%nat -> exists s', incrN i s0 = (true, s') /\ t s' = timeAfter start l i) /\
  fst (incrN (S (stepCount l)) s0) = false.
Proof. exact (counts_run fuel x start l s0). Qed.
Print Assumptions C25_counts.
Fixpoint times (n : nat) (s : TS) : list Q := match n with O => [] | S n => let (ok, s') := increment s in if ok then this (t s') :: times n s' else [] end.
Example C25_case : times 100 (run0 ex0) = [3#10; 3#5; 9#10; 1; 5#4; 3#2; 7#4; 2]%Q.
Proof. vm_compute. reflexivity. Qed.
Example C25_counts_case : exists x start l, l <> [] /\ x_steps x = map (fun p => mkXS start (snd p) [num (fst p)] false) l /\ countsOK start l /\
  x_maxCFL x <= 0 /\ x_dtMax x <= x_dtMin x /\ (x_maxStep x <= 0)%Z /\ stepCount l = 5%nat /\ timeAfter start l 4 = q 3 1.
Proof.
  exists (exT (q 1 4) (map (fun p => mkXS 0 (snd p) [num (fst p)] false) [(2%nat, q 1 1); (3%nat, q 4 1)]) 0 1 1 0), 0, [(2%nat, q 1 1); (3%nat, q 4 1)].
  split; [discriminate|]. split; [reflexivity|]. split; [cbn; repeat split; try lia; qcmp|]. split; [qcmp|]. split; [qcmp|]. split; [vm_compute; discriminate|].
  split; [reflexivity|]. apply Qc_is_canon. vm_compute. reflexivity.
Qed.

(** Cutting back a step that ended at a section end: the iterator has already passed on, so the end is stepped over *)
Definition exC := exT (q 2 5) [mkXS 0 1 [q 1 2] false; mkXS 0 (q 2 1) [q 1 4] false] 0 (q 1 100) (q 1 100) 0.
Theorem C25_cutback_refuted : ~ forall fuel x s0 b s s', goodInput x -> parseXML fuel x = Some s0 -> reach true s0 b s -> increment s = (true, s') ->
  forall y, In y (x_steps x) -> t s < x_end y -> t s' <= x_end y.
Proof.
  intros H.
  specialize (H 100%nat exC (run0 exC) true (nx (cu (nx (nx (run0 exC))))) (nx (nx (cu (nx (nx (run0 exC))))))).
  assert (P : parseXML 100 exC = Some (run0 exC)) by (apply run0_ok; vmr).
  assert (G : goodInput exC).
  { cbn. split; [qcmp|]. split; [qcmp|]. split; [qcmp|]. split; [qcmp|]. split; [repeat split; qcmp|].
    repeat (apply Forall_cons; [split; [discriminate|repeat (apply Forall_cons; [qcmp|]); apply Forall_nil]|]). apply Forall_nil. }
  assert (R : reach true (run0 exC) true (nx (cu (nx (nx (run0 exC)))))).
  { set (s0 := run0 exC).
    assert (H1 : fst (increment s0) = true) by vmr. assert (H2 : fst (increment (nx s0)) = true) by vmr. assert (H3 : fst (increment (cu (nx (nx s0)))) = true) by vmr.
    clearbody s0. exact (reach_two _ H1 H2 H3). }
  specialize (H G P R). assert (Z4 : fst (increment (nx (cu (nx (nx (run0 exC)))))) = true) by vmr. specialize (H (inc_nx _ Z4) (mkXS 0 1 [q 1 2] false) (or_introl eq_refl)).
  assert (L : t (nx (cu (nx (nx (run0 exC))))) < 1) by (unfold Qclt, Qlt; vm_compute; reflexivity). specialize (H L).
  unfold Qcle, Qle in H. vm_compute in H. apply H. reflexivity.
Qed.
Print Assumptions C25_cutback_refuted.
(** negative times: a simulation from -3 to -1 is over at once *)
Theorem C25_negative_refuted : ~ forall fuel x s0 s', x_steps x = [] -> x_starTime x < x_stopTime x -> (match x_dt x with Some d => 0 < d | None => True end) ->
  parseXML fuel x = Some s0 -> (x_maxStep x <= 0)%Z -> increment s0 = (false, s') -> x_stopTime x - t s' < dt s'.
Proof.
  intros H. set (x := mkXT (q (-3) 1) (q (-1) 1) 1 1 0 0 0 (q 3 2) (q 1 4) (Some (q 1 2)) []).
  specialize (H 0%nat x (run0 x) (snd (increment (run0 x))) eq_refl). assert (Qclt (x_starTime x) (x_stopTime x)) as L by qcmp. specialize (H L ltac:(qcmp)).
  specialize (H ltac:(reflexivity) ltac:(vm_compute; discriminate)).
  assert (Z4 : fst (increment (run0 x)) = false) by vmr. specialize (H (inc_pairF _ Z4)).
  unfold Qclt, Qlt in H. vm_compute in H. discriminate H.
Qed.
Print Assumptions C25_negative_refuted.
(** the step limit stops one increment only: asked again, the simulation continues *)
Theorem C25_maxStep_refuted : ~ forall fuel x s0 n s1, goodInput x -> parseXML fuel x = Some s0 -> incrN n s0 = (false, s1) -> fst (increment s1) = false.
Proof.
  intros H. set (x := exT (q 1 4) two 0 (q 1 100) (q 1 100) 2).
  specialize (H 100%nat x (run0 x) 3%nat (snd (incrN 3 (run0 x)))).
  assert (P : parseXML 100 x = Some (run0 x)) by (apply run0_ok; vmr).
  specialize (H ex0_good P). assert (Z4 : fst (incrN 3 (run0 x)) = false) by vmr. specialize (H (incN_pairF _ _ Z4)). vm_compute in H. discriminate H.
Qed.
Print Assumptions C25_maxStep_refuted.

(** ** C26 *)
(** any successful cut-back: the step restarts from the same start time with a smaller size not below the minimum;
    section ends, all other sections and the other step sizes of the current section - except its last - are kept *)
Theorem C26_cutback_partial s s' : cutback s = (true, s') -> 0 <= dtMin s -> 0 < f2 s ->
  t s' - dt s' = t s - dt s /\ dtMin s' <= dt s' /\ 0 < dt s' /\ dt s' < dt s /\ dtMin s' = dtMin s /\ step s' = step s /\ ends s' = ends s /\
  (forall j, j <> stepIt s -> nth_error (mySteps s') j = nth_error (mySteps s) j) /\
  (forall l e, nth_error (mySteps s) (stepIt s) = Some (l, e) -> l <> [] -> nth_error (mySteps s') (stepIt s) = Some (removelast l ++ [dt s'], e)).
Proof.
  intros H H1 H2. destruct (cutback_true _ _ H H1 H2) as (A & (B & C) & D & _ & E & _). pose proof (cutback_same s) as Sm. rewrite H in Sm. cbn in Sm.
  destruct Sm as (_ & _ & G3 & _ & _ & _ & _ & _ & G9). rewrite G3. destruct (cutback_frame _ _ H) as [F1 F2].
  split; [qclra|]. repeat (split; [assumption || reflexivity|]). exact F2.
Qed.
Print Assumptions C26_cutback_partial.
(** a cut-back is refused exactly when the step size is at the minimum, leaving everything as it was *)
Theorem C26_refused s : (fst (cutback s) = false <-> dt s <= dtMin s) /\ (fst (cutback s) = false -> snd (cutback s) = s).
Proof.
  unfold cutback. destruct (qleb (dt s) (dtMin s)) eqn:E; cbn.
  - apply qleb_true in E. tauto.
  - apply qleb_false in E. split; [split; [discriminate|]|discriminate]. intros. exfalso. qclra.
Qed.
Print Assumptions C26_refused.
(** repeated cut-backs of the same step are refused after finitely many *)
Theorem C26_bounded s : 0 < dtMin s -> 0 < f2 s -> exists n, fst (cutN n s) = false.
Proof. exact (cut_terminates s). Qed.
Print Assumptions C26_bounded.
Example C26_case : let s := snd (incrN 2 (run0 ex0)) in fst (cutback s) = true /\ this (t (snd (cutback s))) = (3#8)%Q /\ this (dt (snd (cutback s))) = (3#40)%Q.
Proof. vm_compute. auto. Qed.
(** the full claim fails: the schedule entry overwritten is the last one of the section, not that of the current step *)
Definition exL := exT (q 1 4) [mkXS 0 1 [q 1 10; q 2 10; q 3 10; q 4 10] false] 0 (q 1 100) (q 1 100) 0.
Theorem C26_listed_steps_refuted : ~ forall fuel x s0 n s s', goodInput x -> parseXML fuel x = Some s0 -> incrN n s0 = (true, s) -> cutback s = (true, s') ->
  stepIt s = 0%nat -> forall l e l' e' i, nth_error (mySteps s) 0 = Some (l, e) -> nth_error (mySteps s') 0 = Some (l', e') -> i <> (lstep s - 1)%nat -> nth i l' 0 = nth i l 0.
Proof.
  intros H. set (s0 := run0 exL). set (s := snd (incrN 1 s0)). set (s' := snd (cutback s)).
  assert (P : parseXML 100 exL = Some s0) by (apply run0_ok; vmr).
  assert (G : goodInput exL).
  { cbn. split; [qcmp|]. split; [qcmp|]. split; [qcmp|]. split; [qcmp|]. split; [repeat split; qcmp|].
    repeat (apply Forall_cons; [split; [discriminate|repeat (apply Forall_cons; [qcmp|]); apply Forall_nil]|]). apply Forall_nil. }
  assert (Z4 : fst (incrN 1 s0) = true) by vmr. assert (Z5 : fst (cutback s) = true) by vmr.
  specialize (H 100%nat exL s0 1%nat s s' G P).
  specialize (H (incN_pair _ _ Z4)).
  specialize (H (cut_pair _ Z5) ltac:(vm_compute; reflexivity)).
  set (hd0 := fun a : TS => match mySteps a with x :: _ => x | [] => ([], 0) end).
  specialize (H (fst (hd0 s)) (snd (hd0 s)) (fst (hd0 s')) (snd (hd0 s')) 3%nat).
  assert (Z : forall a, (length (mySteps a) =? 0)%nat = false -> nth_error (mySteps a) 0 = Some (fst (hd0 a), snd (hd0 a))) by (intros a Ha; unfold hd0; destruct (mySteps a) as [|[? ?] ?]; [discriminate|reflexivity]).
  specialize (H (Z s ltac:(vm_compute; reflexivity)) (Z s' ltac:(vm_compute; reflexivity)) ltac:(vm_compute; discriminate)).
  apply (f_equal this) in H. vm_compute in H. discriminate H.
Qed.
Print Assumptions C26_listed_steps_refuted.
(** ... and after a step that completed a section it changes the schedule of the next section *)
Theorem C26_next_section_refuted : ~ forall fuel x s0 n s s', goodInput x -> parseXML fuel x = Some s0 -> incrN n s0 = (true, s) -> cutback s = (true, s') ->
  forall j, (forall e, nth_error (ends s) j = Some e -> t s < e) -> nth_error (mySteps s') j = nth_error (mySteps s) j \/ (exists p, nth_error (ends s) (j - 1) = Some p /\ p < t s) \/ j = 0%nat.
Proof.
  intros H. set (s0 := run0 ex0). set (s := snd (incrN 4 s0)). set (s' := snd (cutback s)).
  assert (P : parseXML 100 ex0 = Some s0) by (apply run0_ok; vmr).
  assert (Z4 : fst (incrN 4 s0) = true) by vmr. assert (Z5 : fst (cutback s) = true) by vmr.
  specialize (H 100%nat ex0 s0 4%nat s s' ex0_good P).
  specialize (H (incN_pair _ _ Z4)).
  specialize (H (cut_pair _ Z5) 1%nat).
  assert (E0 : map this (ends s) = [1; 2]%Q) by (vm_compute; reflexivity).
  assert (T0 : this (t s) = 1%Q) by (vm_compute; reflexivity).
  destruct H as [H|[(p & Hp & Hl)|H]].
  - intros e He. apply (map_nth_error this) in He. rewrite E0 in He. cbn in He. unfold Qclt. assert (this e = 2%Q) as -> by congruence. rewrite T0. unfold Qlt. vm_compute. reflexivity.
  - apply (f_equal (fun o => match o with Some (l, _) => map this l | None => [] end)) in H. vm_compute in H. discriminate H.
  - apply (map_nth_error this) in Hp. rewrite E0 in Hp. cbn in Hp. unfold Qclt in Hl. assert (E : this p = 1%Q) by congruence. rewrite E, T0 in Hl. unfold Qlt in Hl. vm_compute in Hl. discriminate Hl.
  - discriminate.
Qed.
Print Assumptions C26_next_section_refuted.

(** ** C27 *)
(** without time sections: everything that is written is restored, for any saved state *)
Theorem C27_no_sections s0 s : mySteps s0 = [] ->
  exists s', deSerialize s0 (serialize s) = (true, s') /\ step s' = step s /\ t s' = t s /\ dt s' = dt s /\ dtn s' = dtn s /\ cfl s' = cfl s /\ maxCFL s' = maxCFL s /\
    stopTime s' = stopTime s0 /\ mySteps s' = [].
Proof. intros H. unfold deSerialize, reset. cbn [mySteps]. rewrite H. eexists. split; [reflexivity|]. cbn. repeat split. Qed.
Print Assumptions C27_no_sections.
(** with sections, starting at time 0, fixed step sizes (no CFL or iteration control), no cut-backs: restoring into a
    newly read model gives the saved step, time, step sizes and position in the schedule *)
Theorem C27_sections_partial fuel x s0 n s : goodInput x -> x_steps x <> [] -> parseXML fuel x = Some s0 ->
  x_maxCFL x <= 0 -> x_dtMax x <= x_dtMin x -> starTime s0 = 0 -> advanced s0 n s ->
  exists s', deSerialize s0 (serialize s) = (true, s') /\ step s' = step s /\ step s = Z.of_nat n /\ t s' = t s /\ dt s' = dt s /\ dtn s' = dtn s /\
    mySteps s' = mySteps s /\ stepIt s' = stepIt s /\ lstep s' = lstep s /\ stopTime s' = stopTime s.
Proof.
  intros G Nx P Hc Hd H0 A. destruct (restart_sections _ _ _ _ _ G Nx P Hc Hd H0 A) as (s' & E & N). exists s'. split; [exact E|].
  destruct (parse_Inv _ _ _ G P) as (_ & _ & E2 & _ & _ & _ & _ & _ & _ & E9 & E10 & E11 & _).
  assert (F0 : fixedMode s0) by (unfold fixedMode; rewrite E9, E10, E11; auto).
  destruct (adv_norm _ _ _ F0 A) as (_ & St & _). rewrite E2 in St.
  split; [exact (f_equal step N)|]. split; [exact St|]. split; [exact (f_equal t N)|]. split; [exact (f_equal dt N)|]. split; [exact (f_equal dtn N)|].
  split; [exact (f_equal mySteps N)|]. split; [exact (f_equal stepIt N)|]. split; [exact (f_equal lstep N)|exact (f_equal stopTime N)].
Qed.
Print Assumptions C27_sections_partial.
Example C27_case : advanced (run0 ex0) 5 (snd (incrN 5 (run0 ex0))) /\ starTime (run0 ex0) = 0 /\ this (t (snd (incrN 5 (run0 ex0)))) = (5#4)%Q.
Proof.
  split; [|split; [reflexivity|vm_compute; reflexivity]].
  assert (Q : forall n s, fst (incrN n s) = true -> advanced s n (snd (incrN n s))).
  { clear. intros n. assert (K : forall m s0 s, advanced s0 m s -> fst (incrN n s) = true -> advanced s0 (m + n) (snd (incrN n s))).
    { induction n as [|n IH]; intros m s0 s A E; cbn in *; [rewrite Nat.add_0_r; exact A|]. destruct (increment s) as [[|] s1] eqn:E1; [|discriminate].
      rewrite Nat.add_succ_r. apply (IH (S m)); [|exact E]. apply (a_incr s0 m s); assumption. }
    intros s E. apply (K 0%nat); [apply a_start|exact E]. }
  apply Q. vm_compute. reflexivity.
Qed.
(** what a restart gives does not depend on where the receiving model was in its schedule: models with the same
    sections and settings end up in the same state, whatever their current time, step size, step number and
    position in the sections *)
Theorem C27_reset_independent s1 s2 k : mySteps s1 <> [] -> mySteps s1 = mySteps s2 ->
  starTime s1 = starTime s2 -> stopTime s1 = stopTime s2 -> maxCFL s1 = maxCFL s2 -> nInitStep s1 = nInitStep s2 -> maxStep s1 = maxStep s2 ->
  dtMin s1 = dtMin s2 -> dtMax s1 = dtMax s2 -> f1 s1 = f1 s2 -> f2 s1 = f2 s2 -> iter s1 = iter s2 -> niter s1 = niter s2 -> first s1 = first s2 ->
  reset s1 k = reset s2 k /\
  (let s := snd (reset s1 0) in fst (reset s1 0) = true /\ step s = 0%Z /\ t s = 0 /\ stepIt s = 0%nat /\ lstep s = 0%nat /\
     forall l e r, mySteps s1 = (l, e) :: r -> dt s = hd 0 l).
Proof.
  intros N E1 E2 E3 E4 E5 E6 E7 E8 E9 E10 E11 E12 E13. split.
  - unfold reset. rewrite <- E1, E2, E3, E4, E5, E6, E7, E8, E9, E10, E11, E12, E13. destruct (mySteps s1) as [|[l e] r]; [contradiction|reflexivity].
  - unfold reset. destruct (mySteps s1) as [|[l e] r]; [contradiction|]. cbn. repeat split. intros ? ? ? H. congruence.
Qed.
Print Assumptions C27_reset_independent.
Example C27_independent_case : let s1 := run0 ex0 in let s2 := snd (reset (nx (nx (run0 ex0))) 0) in mySteps s1 <> [] /\ lstep (nx (nx (run0 ex0))) = 2%nat /\ mySteps s2 <> [] /\ this (t (snd (reset (nx (nx (run0 ex0))) 2))) = this (t (nx (nx (run0 ex0)))).
Proof. cbv zeta. split; [discriminate|]. split; [vm_compute; reflexivity|]. split; [vm_compute; discriminate|vm_compute; reflexivity]. Qed.
(** the general claim fails: *)
Definition restores (x : XTime) (s : TS) : Prop := forall s', deSerialize (run0 x) (serialize s) = (true, s') -> t s' = t s.
Lemma norestore x s : (let (ok, s') := deSerialize (run0 x) (serialize s) in ok && negb (Qeq_bool (this (t s')) (this (t s)))) = true -> ~ restores x s.
Proof.
  unfold restores. destruct (deSerialize _ _) as [ok s']. intros E H. apply andb_prop in E as [-> E]. specialize (H s' eq_refl). rewrite H in E.
  rewrite (Qeq_bool_refl (this (t s))) in E. discriminate.
Qed.
(** ... when a step was cut back *)
Theorem C27_cutback_refuted : ~ forall x b s, goodInput x -> starTime (run0 x) = 0 -> reach false (run0 x) b s -> x_dtMax x <= x_dtMin x -> x_maxCFL x <= 0 -> restores x s.
Proof.
  intros H. assert (R : reach false (run0 ex0) true (nx (cu (nx (run0 ex0))))).
  { assert (H1 : fst (increment (run0 ex0)) = true) by vmr. assert (H3 : fst (increment (cu (nx (run0 ex0)))) = true) by vmr. apply (reach_one _ H1); [|exact H3].
    intros HI. apply (in_map this) in HI. assert (E0 : map this (ends (nx (run0 ex0))) = [1; 2]%Q) by vmr. rewrite E0 in HI. vm_compute in HI. destruct HI as [HI|[HI|[]]]; discriminate HI. }
  refine (norestore ex0 _ _ (H ex0 true _ ex0_good eq_refl R ltac:(qcmp) ltac:(qcmp))). vmr.
Qed.
Print Assumptions C27_cutback_refuted.
(** ... when the simulation does not start at time zero *)
Theorem C27_startTime_refuted : ~ forall x n s, goodInput x -> advanced (run0 x) n s -> x_dtMax x <= x_dtMin x -> x_maxCFL x <= 0 -> restores x s.
Proof.
  intros H. set (x := exT (q 1 4) [mkXS 1 (q 2 1) [q 1 4] false] 0 (q 1 100) (q 1 100) 0).
  assert (G : goodInput x).
  { cbn. split; [qcmp|]. split; [qcmp|]. split; [qcmp|]. split; [qcmp|]. split; [repeat split; qcmp|].
    repeat (apply Forall_cons; [split; [discriminate|repeat (apply Forall_cons; [qcmp|]); apply Forall_nil]|]). apply Forall_nil. }
  assert (Z4 : fst (increment (run0 x)) = true) by vmr.
  refine (norestore x (nx (run0 x)) _ (H x 1%nat _ G (adv_one _ Z4) ltac:(qcmp) ltac:(qcmp))). vmr.
Qed.
Print Assumptions C27_startTime_refuted.
(** ... when the step sizes follow the iteration counts *)
Theorem C27_iterations_refuted : ~ forall x n s, goodInput x -> starTime (run0 x) = 0 -> advanced (run0 x) n s -> x_maxCFL x <= 0 -> restores x s.
Proof.
  intros H. set (x := exT (q 1 4) [mkXS 0 1 [q 1 8] false] 0 (q 1 100) (q 1 2) 0).
  assert (G : goodInput x).
  { cbn. split; [qcmp|]. split; [qcmp|]. split; [qcmp|]. split; [qcmp|]. split; [repeat split; qcmp|].
    repeat (apply Forall_cons; [split; [discriminate|repeat (apply Forall_cons; [qcmp|]); apply Forall_nil]|]). apply Forall_nil. }
  assert (A : advanced (run0 x) 3 (nx (setIter (nx (setIter (nx (setIter (run0 x) 11)) 11)) 11))).
  { apply (adv_three (run0 x) 11); vmr. }
  refine (norestore x _ _ (H x 3%nat _ G eq_refl A ltac:(qcmp))). vmr.
Qed.
Print Assumptions C27_iterations_refuted.

(** ** C38: copying *)
(** A copy made before the end of the first section equals the original, and so does any copy if there are no sections *)
Theorem C38_copy_partial fuel x s0 b s : goodInput x -> parseXML fuel x = Some s0 -> reach false s0 b s ->
  match x_steps x with [] => True | y :: _ => t s < x_end y end -> copyTS s = s.
Proof.
  intros G P R Ht. destruct (parse_Inv _ _ _ G P) as (I & _ & _ & _ & _ & E5 & _). destruct (reach_Inv _ _ _ I R) as [Is Sm].
  destruct Sm as (_ & _ & _ & _ & _ & _ & _ & _ & G9).
  assert (stepIt s = 0%nat) as K.
  { pose proof (i_lo _ _ Is) as Lo. pose proof (i_k _ _ Is) as Hk. unfold prevEnd in Lo. destruct (stepIt s) as [|k] eqn:E; [reflexivity|exfalso].
    rewrite <- ends_length, G9, E5, map_length in Hk. destruct (x_steps x) as [|y r]; [cbn in Hk; lia|].
    assert (Z : nth 0 (ends s) 0 = x_end y) by (rewrite G9, E5; reflexivity). destruct k as [|k]; [rewrite Z in Lo; qclra|].
    pose proof (increasing_nth _ (increasing_cons _ _ (i_ends _ _ Is)) 0 (S k) ltac:(lia) ltac:(rewrite G9, E5, map_length; lia)) as W. rewrite Z in W. qclra. }
  destruct s. cbn in K. subst. reflexivity.
Qed.
Print Assumptions C38_copy_partial.
Example C38_case : t (snd (incrN 3 (run0 ex0))) < 1.
Proof. unfold Qclt, Qlt. vm_compute. reflexivity. Qed.
(** later, the copy's next step differs from that of the original: its position in the schedule is reset *)
Theorem C38_copy_refuted : ~ forall fuel x s0 n s, goodInput x -> parseXML fuel x = Some s0 -> incrN n s0 = (true, s) -> t (snd (increment (copyTS s))) = t (snd (increment s)).
Proof.
  intros H. set (s := snd (incrN 5 (run0 ex0))).
  assert (P : parseXML 100 ex0 = Some (run0 ex0)) by (apply run0_ok; vmr).
  assert (Z4 : fst (incrN 5 (run0 ex0)) = true) by vmr. specialize (H 100%nat ex0 (run0 ex0) 5%nat s ex0_good P (incN_pair _ _ Z4)).
  apply (f_equal this) in H. vm_compute in H. discriminate H.
Qed.
Print Assumptions C38_copy_refuted.

(** ** C39: graded step sizes *)
(** For positive first and last sizes [d0], [d2] and a first step inside the section, grading ends, the step sizes add up to the
    length of the section, start with [d0], all but the last lie between [d0] and [d2] and the last is positive and not larger *)
Theorem C39_graded start fin d0 d2 : 0 < d0 -> 0 < d2 -> start + d0 <= fin ->
  exists fuel l, (forall fuel', (fuel <= fuel')%nat -> grade fuel' start fin [d0; d2] = Some l) /\ total l = fin - start /\ hd 0 l = d0 /\
    (forall i, (S i < length l)%nat -> (d0 <= nth i l 0 /\ nth i l 0 <= d2) \/ (d2 <= nth i l 0 /\ nth i l 0 <= d0)) /\
    Forall (fun x => 0 < x /\ (x <= d0 \/ x <= d2)) l.
Proof.
  intros H0 H2 Hf. destruct (grade_spec start fin d0 d2 H0 H2 ltac:(qclra) Hf) as (fuel & l & A & B & C & D & E). exists fuel, l.
  split; [exact A|]. split; [exact B|]. split; [exact C|]. split.
  - intros i Hi. specialize (D i Hi). destruct (qltb d0 d2); [left|right]; exact D.
  - eapply Forall_impl; [|exact E]. cbn. intros z [Z1 Z2]. split; [exact Z1|]. destruct (qltb d0 d2); [right|left]; exact Z2.
Qed.
Print Assumptions C39_graded.
Example C39_case : option_map (map this) (grade 100 0 1 [q 1 2; q 1 4]) = Some [1#2; 3#8; 1#8]%Q.
Proof. vm_compute. reflexivity. Qed.
(** a zero last size never ends (and eventually exhausts the memory) *)
Theorem C39_zero_refuted : ~ forall start fin d0 d2, 0 < d0 -> 0 <= d2 -> start + d0 <= fin -> exists fuel l, grade fuel start fin [d0; d2] = Some l.
Proof.
  intros H. destruct (H 0 1 (q 1 2) 0) as (fuel & l & E); [qcmp|qcmp|qcmp|]. unfold grade in E.
  assert (K : forall n T d, 0 < d -> 1 - T = d -> gradeLoop n (1 - (q 1 2 - 0) / (1 - 0)) T d 1 = None).
  { assert (Eq : 1 - (q 1 2 - 0) / (1 - 0) = q 1 2) by (apply Qc_is_canon; vm_compute; reflexivity). rewrite Eq. clear.
    induction n as [|n IH]; intros T d Hd E; cbn [gradeLoop]; assert (L : qltb T 1 = true) by (apply qltb_true; qclra); rewrite L; [reflexivity|].
    assert (Ez : 1 - (T + d * q 1 2) = d * q 1 2) by (unfold q; qclra). rewrite IH; [reflexivity|unfold q; qclra|exact Ez]. }
  rewrite K in E; [discriminate|qcmp|]. apply Qc_is_canon. vm_compute. reflexivity.
Qed.
Print Assumptions C39_zero_refuted.
