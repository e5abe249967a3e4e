(** Sections given by the number of steps, from the input. *)
From Coq Require Import List Arith ZArith QArith Qcanon Bool Lia Lqa.
From Verif Require Import Base QcLra TimeStep_model TimeStep_spec TimeStep_proofs TimeStep_proofs2 TimeStep_proofs3 TimeStep_proofs4 TimeStep_proofs5.
Import ListNotations.
Local Open Scope Qc_scope.

Lemma cnt_stepCount l : cnt l = stepCount l.
Proof. induction l as [|[n e] l IH]; [reflexivity|]. cbn. rewrite IH. reflexivity. Qed.
Lemma num_isInt n : isInt (num n) = true.
Proof.
  unfold isInt, num. cbn [this Q2Qc]. rewrite Qred_identity; [reflexivity|]. cbn. apply Z.gcd_1_r.
Qed.
Lemma num_gt1 n : (2 <= n)%nat -> 1 < num n.
Proof. intros H. destruct n as [|[|n]]; try lia. change num with qn. rewrite !qn_S. pose proof (qn_nonneg n). qclra. Qed.
Lemma stepSizes_num start e n : (2 <= n)%nat -> stepSizes start e [num n] = [(e - start) / num n].
Proof. intros H. unfold stepSizes. rewrite num_isInt. apply num_gt1, qltb_true in H. rewrite H. reflexivity. Qed.

Definition xs (start : Qc) (l : list (nat * Qc)) : list XStep := map (fun p => mkXS start (snd p) [num (fst p)] false) l.
Lemma parse_counts fuel st : forall l start star acc, countsOK start l ->
  match acc with [] => st = start | _ => snd (last acc ([], 0)) = start end ->
  parseSteps fuel (xs st l) star acc = Some (match acc, l with [], _ :: _ => st | _, _ => star end, acc ++ uniSecs start l).
Proof.
  induction l as [|[n e] l IH]; intros start star acc OK Hacc; cbn [xs map parseSteps uniSecs].
  - rewrite app_nil_r. destruct acc; reflexivity.
  - cbn in OK. destruct OK as (Hn & Hd & OK). cbn [x_start x_end x_vals x_graded fst snd].
    assert (X : forall star', parseSteps fuel (xs st l) star' (acc ++ [([(e - start) / num n], e)]) = Some (star', (acc ++ [([(e - start) / num n], e)]) ++ uniSecs e l)).
    { intros star'. rewrite (IH e star' _ OK).
      - destruct (acc ++ _) eqn:E; [destruct acc; discriminate|reflexivity].
      - destruct (acc ++ [([(e - start) / num n], e)]) eqn:E; [destruct acc; discriminate|]. rewrite <- E. rewrite last_last. reflexivity. }
    destruct acc as [|a acc].
    + subst start. rewrite stepSizes_num by exact Hn. rewrite X. reflexivity.
    + rewrite Hacc. rewrite stepSizes_num by exact Hn. rewrite X. rewrite <- app_assoc. reflexivity.
Qed.

Lemma q12_q6 : q6 * q6 = Q2Qc (1 # 1000000000000).
Proof. unfold q6. apply Qc_is_canon. rewrite this_mult, !this_Q2Qc. reflexivity. Qed.
Lemma counts_inc start l : countsOK start l -> increasing (start :: map snd l).
Proof.
  revert start; induction l as [|[n e] l IH]; intros start OK; [cbn; auto|]. cbn in OK. destruct OK as (Hn & Hd & OK). specialize (IH e OK).
  cbn [map snd]. split; [|exact IH]. pose proof (qn_div n (e - start) ltac:(lia)) as E. change num with qn in Hd. pose proof (qn_pos n ltac:(lia)).
  set (d := (e - start) / qn n) in *. assert (0 < d) by qclra. qcnra.
Qed.
Lemma counts_uni start l stop : countsOK start l -> (forall e, In e (map snd l) -> e <= stop) -> uniOK start l stop.
Proof.
  revert start; induction l as [|[n e] l IH]; intros start OK Hs; [exact I|]. cbn in OK. destruct OK as (Hn & Hd & OK). cbn.
  split; [lia|]. split; [rewrite q12_q6; exact Hd|]. split; [apply Hs; left; reflexivity|]. apply IH; [exact OK|]. intros e' He. apply Hs. right. exact He.
Qed.
Lemma last_max l : forall start, increasing (start :: l) -> forall e, In e l -> e <= last l 0.
Proof. intros start H e He. apply (In_nth _ _ 0) in He as (j & Hj & <-). apply (increasing_last start); assumption. Qed.

Lemma xs_ends st l : map x_end (xs st l) = map snd l.
Proof. induction l as [|[n e] l IH]; [reflexivity|]. cbn. f_equal. exact IH. Qed.

Theorem counts_run fuel x start l s0 : l <> [] -> x_steps x = xs start l -> 0 <= start -> countsOK start l ->
  x_maxCFL x <= 0 -> x_dtMax x <= x_dtMin x -> (x_maxStep x <= 0)%Z -> parseXML fuel x = Some s0 ->
  (forall i, (i <= stepCount l)%nat -> exists s', incrN i s0 = (true, s') /\ t s' = timeAfter start l i) /\
  fst (incrN (S (stepCount l)) s0) = false.
Proof.
  intros Nl X H0 OK Hc Hd Hm P. unfold parseXML in P. rewrite X, (parse_counts fuel start l start (x_starTime x) [] OK eq_refl) in P. cbn [app] in P.
  destruct l as [|[n e] l0]; [contradiction|]. clear Nl. set (l := (n, e) :: l0) in *.
  pose proof (counts_inc _ _ OK) as Inc. pose proof (last_max _ _ Inc) as Lm.
  remember (uniSecs start l) as us eqn:Eu. assert (U : us = ([(e - start) / qn n], e) :: uniSecs e l0) by (rewrite Eu; reflexivity).
  assert (Le : snd (last us ([], 0)) = last (map snd l) 0).
  { rewrite Eu. clear. assert (Q : forall ll st, snd (last (uniSecs st ll) ([], 0)) = last (map snd ll) 0); [|apply Q].
    intros ll; induction ll as [|[a b] [|[c d] r] IH]; intros st; [reflexivity|reflexivity|]. exact (IH b). }
  destruct us as [|u us]; [discriminate|].
  assert (Es : mySteps s0 = u :: us /\ stepIt s0 = 0%nat /\ lstep s0 = 0%nat /\ t s0 = start /\ maxCFL s0 = x_maxCFL x /\ dtMin s0 = x_dtMin x /\ dtMax s0 = x_dtMax x /\ maxStep s0 = x_maxStep x /\ stopTime s0 = snd (last (u :: us) ([], 0))).
  { assert (Q : forall a, Some a = Some s0 -> a = s0) by (intros; congruence). apply Q in P. subst s0. destruct u as [lu eu]. repeat split. }
  clear P. destruct Es as (E1 & E2 & E3 & E4 & E5 & E6 & E7 & E8 & E9). rewrite Le in E9.
  assert (Ps : 0 < stopTime s0).
  { rewrite E9. pose proof (Lm e (or_introl eq_refl)) as Q. destruct Inc as [Q2 _]. cbn in Q2. qclra. }
  assert (R : forall i, (i <= stepCount l)%nat -> exists s', incrN i s0 = (true, s') /\ t s' = timeAfter start l i).
  { intros i Hi. rewrite <- cnt_stepCount in Hi. apply (uni_run l s0 start); auto.
    - unfold fixedMode. rewrite E5, E6, E7. auto.
    - rewrite E8. exact Hm.
    - apply counts_uni; [exact OK|]. rewrite E9. exact Lm.
    - rewrite E2, E1. cbn [skipn]. exact Eu. }
  split; [exact R|].
  destruct (R (stepCount l) (le_n _)) as (s' & Er & Et). replace (S (stepCount l)) with (stepCount l + 1)%nat by lia. rewrite incrN_add, Er. cbn [incrN].
  assert (Ss : stopTime s' = stopTime s0).
  { clear Et. revert s' Er. clear. generalize (stepCount l). intros k. revert s0. induction k as [|k IH]; intros s s' E; cbn in E; [congruence|]. destruct (increment s) as [[|] s3] eqn:E3; [|discriminate].
    rewrite (IH s3 s' E). pose proof (increment_same s) as Sm. rewrite E3 in Sm. apply Sm. }
  assert (Te : forall l st, l <> [] -> countsOK st l -> timeAfter st l (stepCount l) = last (map snd l) 0).
  { clear. induction l as [|[n e] l IH]; intros st N OK; [contradiction|]. cbn in OK. destruct OK as (Hn & _ & OK). cbn [timeAfter stepCount].
    destruct l as [|p l].
    - cbn [stepCount]. rewrite Nat.add_0_r, Nat.leb_refl. change num with qn. rewrite qn_div by lia. cbn. ring.
    - destruct (Nat.leb_spec (n + stepCount (p :: l)) n) as [L|L].
      + exfalso. destruct p as [n' e']. cbn in OK, L. lia.
      + replace (n + stepCount (p :: l) - n)%nat with (stepCount (p :: l)) by lia. rewrite (IH e) by (auto; discriminate). reflexivity. }
  destruct (increment_at_end s') as (s2 & E').
  - rewrite Ss. exact Ps.
  - rewrite Ss, E9, Et, Te; [apply Qcle_refl|discriminate|exact OK].
  - rewrite E'. reflexivity.
Qed.
