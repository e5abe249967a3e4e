(** Proofs for C25-C27: basic facts and the invariant of a simulation. *)
From Coq Require Import List Arith ZArith QArith Qcanon Bool Lia Lqa.
From Verif Require Import Base QcLra TimeStep_model TimeStep_spec.
Import ListNotations.
Local Open Scope Qc_scope.

Arguments curSec : simpl never.
Arguments Nat.leb : simpl never.
Lemma qmax_ge_l a b : a <= qmax a b.
Proof. unfold qmax. pose proof (qltb_spec a b). destruct (qltb a b); qclra. Qed.
Lemma qmax_ge_r a b : b <= qmax a b.
Proof. unfold qmax. pose proof (qltb_spec a b). destruct (qltb a b); qclra. Qed.
Lemma q6_pos : 0 < q6. Proof. unfold q6. qclra. Qed.
Lemma q12_pos : 0 < q12. Proof. unfold q12. qclra. Qed.
Lemma tol_pos d : 0 < q6 * qmax q6 d.
Proof. pose proof (qmax_ge_l q6 d). pose proof q6_pos. qcnra. Qed.
Lemma hasReached_pos s x : 0 < x -> hasReached s x = qltb x (t s + q6 * qmax q6 (dt s)).
Proof. intros H. unfold hasReached. apply qltb_true in H. rewrite H. reflexivity. Qed.
Lemma hasReached_false_lt s x : 0 < x -> hasReached s x = false -> t s < x.
Proof. intros H E. rewrite hasReached_pos in E by exact H. apply qltb_false in E. pose proof (tol_pos (dt s)). qclra. Qed.
Lemma hasReached_ge s x : 0 < x -> x <= t s -> hasReached s x = true.
Proof. intros H E. rewrite hasReached_pos by exact H. apply qltb_true. pose proof (tol_pos (dt s)). qclra. Qed.

(** parameters no operation changes *)
Definition same (a b : TS) : Prop :=
  starTime a = starTime b /\ stopTime a = stopTime b /\ dtMin a = dtMin b /\ dtMax a = dtMax b /\
  f1 a = f1 b /\ f2 a = f2 b /\ maxStep a = maxStep b /\ nInitStep a = nInitStep b /\ ends a = ends b.
Lemma same_refl a : same a a. Proof. repeat split. Qed.
Lemma same_trans a b c : same a b -> same b c -> same a c.
Proof. unfold same. intuition congruence. Qed.
Lemma map_upd {A B} (f : A -> B) k x l y : nth_error l k = Some y -> f x = f y -> map f (upd k x l) = map f l.
Proof.
  revert l; induction k as [|k IH]; intros [|z l] H E; cbn in *; try discriminate; [congruence|]. f_equal. apply IH; assumption.
Qed.
Lemma ends_setSec s l : map snd (setSec s l) = ends s.
Proof. unfold setSec, ends, curSec. destruct (nth_error (mySteps s) (stepIt s)) as [[l0 e]|] eqn:E; [|reflexivity]. apply (map_upd _ _ _ _ _ E). reflexivity. Qed.

Ltac dopen := repeat match goal with
  | |- context [if ?b then _ else _] => destruct b eqn:?
  | |- context [match curSec ?s with _ => _ end] => destruct (curSec s) as [[? ?]|] eqn:?
  end.
Lemma incA_same s : same (incA s) s.
Proof. unfold incA. dopen; repeat split. Qed.
Lemma incB_same s : same (incB s) s.
Proof. unfold incB. dopen; repeat split. Qed.
Lemma incC_same s : same (incC s) s.
Proof. unfold incC. dopen; repeat split; unfold ends; cbn; apply ends_setSec. Qed.
Lemma incD_same s : same (incD s) s.
Proof. unfold incD. dopen; repeat split. Qed.
Lemma advance_same s : same (advance (bumpStep s)) s.
Proof. repeat split. Qed.
Lemma bump_same s : same (bumpStep s) s.
Proof. repeat split. Qed.
Lemma increment_same s : same (snd (increment s)) s.
Proof.
  unfold increment. pose proof (same_trans _ _ _ (incB_same (incA s)) (incA_same s)) as H.
  destruct (hasReached _ _); [exact H|]. destruct (_ && _); cbn [snd]; [exact (same_trans _ _ _ (bump_same _) H)|].
  eapply same_trans; [apply incD_same|]. eapply same_trans; [apply incC_same|]. eapply same_trans; [apply advance_same|]. exact H.
Qed.
Lemma cutback_same s : same (snd (cutback s)) s.
Proof. unfold cutback. destruct (qleb _ _); [apply same_refl|]. cbn [snd]. dopen; repeat split; unfold ends; cbn; try apply ends_setSec. Qed.

Lemma incA_t s : t (incA s) = t s. Proof. unfold incA; dopen; reflexivity. Qed.
Lemma incA_step s : step (incA s) = step s. Proof. unfold incA; dopen; reflexivity. Qed.
Lemma incA_secs s : mySteps (incA s) = mySteps s /\ stepIt (incA s) = stepIt s.
Proof. unfold incA; dopen; split; reflexivity. Qed.
Lemma incB_t s : t (incB s) = t s. Proof. unfold incB; dopen; reflexivity. Qed.
Lemma incB_secs s : mySteps (incB s) = mySteps s /\ stepIt (incB s) = stepIt s /\ lstep (incB s) = lstep s /\ step (incB s) = step s.
Proof. unfold incB; dopen; repeat split; reflexivity. Qed.

(** *** C25, one step: any successful increment, in any state *)
Lemma incC_td s : t (incC s) - dt (incC s) = t s - dt s.
Proof. unfold incC. dopen; cbn; ring. Qed.
Lemma incD_td s : t (incD s) - dt (incD s) = t s - dt s.
Proof. unfold incD. dopen; cbn; ring. Qed.
Lemma incD_le s : t (incD s) <= stopTime (incD s).
Proof. unfold incD. dopen; cbn. - apply Qcle_refl. - apply qltb_false. assumption. Qed.
Lemma incC_step s : step (incC s) = step s. Proof. unfold incC; dopen; reflexivity. Qed.
Lemma incD_step s : step (incD s) = step s. Proof. unfold incD; dopen; reflexivity. Qed.
Lemma increment_true s s' : increment s = (true, s') ->
  t s' = t s + dt s' /\ t s' <= stopTime s /\ step s' = (step s + 1)%Z.
Proof.
  intros H. pose proof (increment_same s) as Sm. rewrite H in Sm. cbn in Sm. destruct Sm as (_ & Es & _).
  unfold increment in H. destruct (hasReached _ _); [discriminate|]. destruct (_ && _); [discriminate|].
  assert (E : s' = incD (incC (advance (bumpStep (incB (incA s)))))) by congruence. clear H. subst s'. split; [|split].
  - pose proof (incD_td (incC (advance (bumpStep (incB (incA s)))))) as H1. rewrite incC_td in H1.
    cbn [t dt advance bumpStep] in H1. rewrite incB_t, incA_t in H1. qclra.
  - rewrite <- Es. apply incD_le.
  - rewrite incD_step, incC_step. cbn. destruct (incB_secs (incA s)) as (_ & _ & _ & ->). rewrite incA_step. reflexivity.
Qed.
Lemma increment_false_t s s' : increment s = (false, s') -> t s' = t s.
Proof.
  unfold increment. destruct (hasReached _ _); [|destruct (_ && _)]; intros H; try discriminate;
  assert (E : s' = snd (false, s')) by reflexivity; rewrite <- H in E; cbn in E; subst s'; cbn; rewrite incB_t; apply incA_t.
Qed.

(** the end is final *)
Lemma increment_at_end s : 0 < stopTime s -> stopTime s <= t s -> exists s', increment s = (false, s').
Proof.
  intros H1 H2. unfold increment. destruct (same_trans _ _ _ (incB_same (incA s)) (incA_same s)) as (_ & Es & _).
  rewrite hasReached_ge; [eexists; reflexivity| |]; rewrite Es; [exact H1|]. rewrite incB_t, incA_t. exact H2.
Qed.
