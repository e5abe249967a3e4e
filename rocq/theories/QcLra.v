(** Linear (and simple nonlinear) arithmetic over canonical rationals by translation to Q. *)
From Coq Require Import ZArith QArith Qcanon Lqa Lia.
Local Open Scope Qc_scope.

Lemma qc_eq_Q (a b : Qc) : a = b <-> (this a == this b)%Q.
Proof. split; [intros ->; reflexivity|apply Qc_is_canon]. Qed.
Lemma this_Q2Qc q : (this (Q2Qc q) == q)%Q.
Proof. apply Qred_correct. Qed.
Lemma this_plus a b : (this (a + b) == this a + this b)%Q.
Proof. apply this_Q2Qc. Qed.
Lemma this_mult a b : (this (a * b) == this a * this b)%Q.
Proof. apply this_Q2Qc. Qed.
Lemma this_opp a : (this (- a) == - this a)%Q.
Proof. apply this_Q2Qc. Qed.
Lemma this_minus a b : (this (a - b) == this a - this b)%Q.
Proof. unfold Qcminus. rewrite this_plus, this_opp. reflexivity. Qed.

Ltac qc_push :=
  unfold Qclt, Qcle in *;
  repeat match goal with
  | H : @eq Qc _ _ |- _ => apply qc_eq_Q in H
  | H : not (@eq Qc _ _) |- _ => rewrite qc_eq_Q in H
  | |- @eq Qc _ _ => apply qc_eq_Q
  | H : context [this (_ + _)%Qc] |- _ => rewrite this_plus in H
  | H : context [this (_ - _)%Qc] |- _ => rewrite this_minus in H
  | H : context [this (_ * _)%Qc] |- _ => rewrite this_mult in H
  | H : context [this (- _)%Qc] |- _ => rewrite this_opp in H
  | H : context [this (Q2Qc _)] |- _ => rewrite this_Q2Qc in H
  | |- context [this (_ + _)%Qc] => rewrite this_plus
  | |- context [this (_ - _)%Qc] => rewrite this_minus
  | |- context [this (_ * _)%Qc] => rewrite this_mult
  | |- context [this (- _)%Qc] => rewrite this_opp
  | |- context [this (Q2Qc _)] => rewrite this_Q2Qc
  end.
Ltac qclra := intros; qc_push; lra.
Ltac qcnra := intros; qc_push; nra.

(** decidable comparisons *)
Definition qltb (a b : Qc) : bool := match Qclt_le_dec a b with left _ => true | right _ => false end.
Definition qleb (a b : Qc) : bool := match Qclt_le_dec b a with left _ => false | right _ => true end.
Lemma qltb_spec a b : if qltb a b then a < b else b <= a.
Proof. unfold qltb. destruct (Qclt_le_dec a b); assumption. Qed.
Lemma qleb_spec a b : if qleb a b then a <= b else b < a.
Proof. unfold qleb. destruct (Qclt_le_dec b a); assumption. Qed.
Lemma qltb_true a b : qltb a b = true <-> a < b.
Proof. pose proof (qltb_spec a b) as H. destruct (qltb a b); split; intros; auto; [discriminate|]. exfalso. qclra. Qed.
Lemma qltb_false a b : qltb a b = false <-> b <= a.
Proof. pose proof (qltb_spec a b) as H. destruct (qltb a b); split; intros; auto; [discriminate|]. exfalso. qclra. Qed.
Lemma qleb_true a b : qleb a b = true <-> a <= b.
Proof. pose proof (qleb_spec a b) as H. destruct (qleb a b); split; intros; auto; [discriminate|]. exfalso. qclra. Qed.
Lemma qleb_false a b : qleb a b = false <-> b < a.
Proof. pose proof (qleb_spec a b) as H. destruct (qleb a b); split; intros; auto; [discriminate|]. exfalso. qclra. Qed.

Example qclra_test (a b c : Qc) : a < b -> b <= c -> a + Q2Qc (1#2) < c + 1.
Proof. qclra. Qed.
