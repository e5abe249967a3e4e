(** Proofs about the Chebyshev polynomials. *)
From Coq Require Import List Arith Lia Bool Reals Lra FinFun.
From Verif Require Import RPoly Lagr_model Lagr_proofs Cheb_model Cheb_spec.
Import ListNotations.
Open Scope R_scope.

Fixpoint tR (n : nat) (x : R) : R :=
  match n with O => 1 | S O => x | S (S m as p) => 2 * x * tR p x - tR m x end.
Fixpoint uR (n : nat) (x : R) : R :=
  match n with O => 1 | S O => 2 * x | S (S m as p) => 2 * x * uR p x - uR m x end.
(** derivative of uR, by differentiating the recurrence *)
Fixpoint duR (n : nat) (x : R) : R :=
  match n with O => 0 | S O => 2 | S (S m as p) => 2 * uR p x + 2 * x * duR p x - duR m x end.

Lemma tR_SS n x : tR (S (S n)) x = 2 * x * tR (S n) x - tR n x. Proof. reflexivity. Qed.
Lemma uR_SS n x : uR (S (S n)) x = 2 * x * uR (S n) x - uR n x. Proof. reflexivity. Qed.
Lemma duR_SS n x : duR (S (S n)) x = 2 * uR (S n) x + 2 * x * duR (S n) x - duR n x. Proof. reflexivity. Qed.

Lemma two_step (P : nat -> Prop) : P 0%nat -> P 1%nat -> (forall n, P n -> P (S n) -> P (S (S n))) -> forall n, P n.
Proof.
  intros H0 H1 HS n. assert (P n /\ P (S n)); [|tauto].
  induction n as [|n [IH1 IH2]]; [now split | split; [assumption | now apply HS]].
Qed.

Lemma evalPol1_some n x : evalPol1 n (Some x) = Some (tR n x).
Proof.
  induction n as [| |n IH1 IH2] using two_step; try reflexivity.
  change (evalPol1 (S (S n)) (Some x)) with (fsub (fmul (fmul (Some 2) (Some x)) (evalPol1 (S n) (Some x))) (evalPol1 n (Some x))).
  now rewrite IH1, IH2.
Qed.

Lemma evalPol2_some n x : evalPol2 n (Some x) = Some (uR n x).
Proof.
  induction n as [| |n IH1 IH2] using two_step; try reflexivity.
  change (evalPol2 (S (S n)) (Some x)) with (fsub (fmul (fmul (Some 2) (Some x)) (evalPol2 (S n) (Some x))) (evalPol2 n (Some x))).
  now rewrite IH1, IH2.
Qed.

(** ** identities *)
Lemma tu n x : tR (S n) x = x * uR n x - (match n with O => 0 | S m => uR m x end).
Proof.
  induction n as [| |n IH1 IH2] using two_step; [simpl; ring | simpl; ring |].
  rewrite tR_SS, IH2, (uR_SS n x). destruct n as [|n].
  - simpl. ring.
  - rewrite IH1. cbv beta iota. rewrite (uR_SS n x). ring.
Qed.

Lemma ut n x : uR (S n) x = x * uR n x + tR (S n) x.
Proof.
  rewrite tu. destruct n as [|n]; [simpl; ring|]. rewrite uR_SS. ring.
Qed.

Lemma poly_mulx n f : PolyFn n f -> PolyFn (S n) (fun x => x * f x).
Proof. intro H. apply (PolyFn_ext _ (fun x => (x - 0) * f x)); [intro; ring | now apply PolyFn_mulx]. Qed.

Lemma tR_poly n : PolyFn (S n) (tR n).
Proof.
  induction n as [| |n IH1 IH2] using two_step.
  - apply PolyFn_const.
  - apply PolyFn_id.
  - apply (PolyFn_minus _ (fun x => 2 * x * tR (S n) x) (tR n)).
    + apply (PolyFn_ext _ (fun x => 2 * (x * tR (S n) x))); [intro; ring|]. apply PolyFn_scal. now apply poly_mulx.
    + apply (PolyFn_weaken (S n)); [lia | assumption].
Qed.

Lemma uR_poly n : PolyFn (S n) (uR n).
Proof.
  induction n as [| |n IH1 IH2] using two_step.
  - apply PolyFn_const.
  - apply (PolyFn_scal 2 2 (fun x => x)), PolyFn_id.
  - apply (PolyFn_minus _ (fun x => 2 * x * uR (S n) x) (uR n)).
    + apply (PolyFn_ext _ (fun x => 2 * (x * uR (S n) x))); [intro; ring|]. apply PolyFn_scal. now apply poly_mulx.
    + apply (PolyFn_weaken (S n)); [lia | assumption].
Qed.

Lemma tR_cos n t : tR n (cos t) = cos (INR n * t).
Proof.
  induction n as [| |n IH1 IH2] using two_step.
  - simpl. rewrite Rmult_0_l. symmetry. apply cos_0.
  - simpl. f_equal. ring.
  - rewrite tR_SS, IH1, IH2. rewrite !S_INR.
    replace ((INR n + 1 + 1) * t) with ((INR n + 1) * t + t) by ring.
    replace (INR n * t) with ((INR n + 1) * t - t) by ring.
    rewrite cos_plus, cos_minus. ring.
Qed.

Lemma uR_sin n t : uR n (cos t) * sin t = sin (INR (S n) * t).
Proof.
  induction n as [| |n IH1 IH2] using two_step.
  - simpl. rewrite !Rmult_1_l. reflexivity.
  - change (uR 1 (cos t)) with (2 * cos t). replace (INR 2 * t) with (t + t) by (simpl; ring).
    rewrite sin_plus. ring.
  - rewrite uR_SS. replace ((2 * cos t * uR (S n) (cos t) - uR n (cos t)) * sin t)
      with (2 * cos t * (uR (S n) (cos t) * sin t) - uR n (cos t) * sin t) by ring.
    rewrite IH1, IH2. rewrite !S_INR.
    replace ((INR n + 1 + 1 + 1) * t) with ((INR n + 1 + 1) * t + t) by ring.
    replace ((INR n + 1) * t) with ((INR n + 1 + 1) * t - t) by ring.
    rewrite sin_plus, sin_minus. ring.
Qed.

Lemma tR_is n : IsCheb1 n (tR n).
Proof. split; [apply tR_poly | apply tR_cos]. Qed.

Lemma uR_is n : IsCheb2 n (uR n).
Proof. split; [apply uR_poly | apply uR_sin]. Qed.

(** enough points in the open interval *)
Lemma pts_inside n : exists l, length l = n /\ NoDup l /\ forall a, In a l -> -1 < a < 1.
Proof.
  exists (map (fun i => / (INR i + 2)) (seq 0 n)). split; [now rewrite map_length, seq_length|]. split.
  - apply Injective_map_NoDup; [|apply seq_NoDup]. intros i j H.
    pose proof (pos_INR i). pose proof (pos_INR j).
    apply Rinv_eq_reg in H || apply (f_equal Rinv) in H. rewrite ?Rinv_inv in H. apply INR_eq. lra.
  - intros a Ha. apply in_map_iff in Ha. destruct Ha as (i & <- & _). pose proof (pos_INR i). split.
    + assert (0 < / (INR i + 2)) by (apply Rinv_0_lt_compat; lra). lra.
    + rewrite <- Rinv_1. apply Rinv_lt_contravar; lra.
Qed.

Lemma cheb1_unique n f g : IsCheb1 n f -> IsCheb1 n g -> forall x, f x = g x.
Proof.
  intros [Pf Nf] [Pg Ng]. destruct (pts_inside (S n)) as (l & Hl & Hn & Hin).
  apply (PolyFn_agree (S n) f g l); try assumption; [lia|]. intros a Ha. specialize (Hin a Ha).
  rewrite <- (cos_acos a) by lra. now rewrite Nf, Ng.
Qed.

Lemma cheb2_unique n f g : IsCheb2 n f -> IsCheb2 n g -> forall x, f x = g x.
Proof.
  intros [Pf Nf] [Pg Ng]. destruct (pts_inside (S n)) as (l & Hl & Hn & Hin).
  apply (PolyFn_agree (S n) f g l); try assumption; [lia|]. intros a Ha. specialize (Hin a Ha).
  assert (Hs : sin (acos a) <> 0).
  { rewrite sin_acos by lra. apply Rgt_not_eq. apply sqrt_lt_R0. unfold Rsqr. nra. }
  apply (Rmult_eq_reg_r (sin (acos a))); [|assumption].
  rewrite <- (cos_acos a) at 1 3 by lra. now rewrite Nf, Ng.
Qed.

(** ** derivatives *)
Lemma dpl_rec (f g : R -> R) x a b : derivable_pt_lim f x a -> derivable_pt_lim g x b ->
  derivable_pt_lim (fun y => 2 * y * f y - g y) x (2 * f x + 2 * x * a - b).
Proof.
  intros Df Dg. apply (derivable_pt_lim_minus (fun y => 2 * y * f y) g); [|assumption].
  apply (dpl_val _ _ ((2 * 1) * f x + (2 * x) * a)); [ring|].
  apply (derivable_pt_lim_mult (fun y => 2 * y) f); [|assumption].
  apply (derivable_pt_lim_scal id). apply derivable_pt_lim_id.
Qed.

Lemma uR_deriv n x : derivable_pt_lim (uR n) x (duR n x).
Proof.
  induction n as [| |n IH1 IH2] using two_step.
  - apply (derivable_pt_lim_const 1).
  - apply (dpl_val _ _ (2 * 1)); [simpl; ring|]. apply (derivable_pt_lim_scal id). apply derivable_pt_lim_id.
  - rewrite duR_SS. apply (dpl_rec (uR (S n)) (uR n)); assumption.
Qed.

Definition dtR (n : nat) (x : R) : R := match n with O => 0 | S m => INR n * uR m x end.

Lemma tR_deriv n x : derivable_pt_lim (tR n) x (dtR n x).
Proof.
  induction n as [| |n IH1 IH2] using two_step.
  - apply (derivable_pt_lim_const 1).
  - apply (dpl_val _ _ 1); [simpl; ring|]. apply derivable_pt_lim_id.
  - apply (dpl_val _ _ (2 * tR (S n) x + 2 * x * dtR (S n) x - dtR n x)).
    + unfold dtR. rewrite tu. destruct n as [|n]; [simpl; ring|].
      rewrite (uR_SS n x). rewrite !S_INR. ring.
    + now apply (dpl_rec (tR (S n)) (tR n)).
Qed.

Lemma duR_formula n x : (x * x - 1) * duR n x = INR (n + 1) * tR (n + 1) x - x * uR n x.
Proof.
  rewrite Nat.add_1_r.
  induction n as [| |n IH1 IH2] using two_step.
  - simpl. ring.
  - simpl. ring.
  - rewrite duR_SS.
    replace ((x * x - 1) * (2 * uR (S n) x + 2 * x * duR (S n) x - duR n x))
      with (2 * (x * x - 1) * uR (S n) x + 2 * x * ((x * x - 1) * duR (S n) x) - (x * x - 1) * duR n x) by ring.
    rewrite IH1, IH2. rewrite (tu (S (S n))), (tu (S n)), (tu n). rewrite (uR_SS n x). destruct n as [|n].
    + simpl. ring.
    + rewrite (uR_SS n x). rewrite !S_INR. ring.
Qed.

Lemma dt2_formula n x : (x * x - 1) * (INR (S n) * duR n x) = INR (S n) * (INR (S n + 1) * tR (S n) x - uR (S n) x).
Proof.
  replace ((x * x - 1) * (INR (S n) * duR n x)) with (INR (S n) * ((x * x - 1) * duR n x)) by ring.
  rewrite duR_formula. rewrite (ut n x). rewrite !Nat.add_1_r. rewrite !S_INR. ring.
Qed.

Lemma u_at1 n : uR n 1 = INR n + 1.
Proof.
  induction n as [| |n IH1 IH2] using two_step; [simpl; ring | simpl; ring|].
  rewrite uR_SS, IH1, IH2, !S_INR. ring.
Qed.

Lemma du_at1 n : duR n 1 = INR n * (INR n + 1) * (INR n + 2) / 3.
Proof.
  induction n as [| |n IH1 IH2] using two_step; [simpl; field | simpl; field|].
  rewrite duR_SS, IH1, IH2, u_at1, !S_INR. field.
Qed.

Lemma u_atm1 n : uR n (-1) = (-1) ^ n * (INR n + 1).
Proof.
  induction n as [| |n IH1 IH2] using two_step; [simpl; ring | simpl; ring|].
  rewrite uR_SS, IH1, IH2, !S_INR. simpl pow. ring.
Qed.

Lemma du_atm1 n : duR n (-1) = (-1) ^ (S n) * (INR n * (INR n + 1) * (INR n + 2) / 3).
Proof.
  induction n as [| |n IH1 IH2] using two_step; [simpl; field | simpl; field|].
  rewrite duR_SS, IH1, IH2, u_atm1, !S_INR. simpl pow. field.
Qed.

Lemma evalDer1_some n x : evalDer1 n (Some x) = Some (dtR n x).
Proof. destruct n; [reflexivity|]. unfold evalDer1. now rewrite evalPol2_some. Qed.

Lemma evalDer2_some n x : x * x - 1 <> 0 -> evalDer2 n (Some x) = Some (duR n x).
Proof.
  intro H. unfold evalDer2. rewrite evalPol1_some, evalPol2_some. cbn [fmul fsub]. rewrite fdiv_some by assumption.
  f_equal. rewrite <- duR_formula. field. assumption.
Qed.

Lemma evalDer2_end n x : x * x = 1 -> evalDer2 n (Some x) = None.
Proof.
  intro H. unfold evalDer2. rewrite evalPol1_some, evalPol2_some. cbn [fmul fsub]. unfold fdiv.
  destruct (Req_EM_T (x * x - 1) 0); [reflexivity | lra].
Qed.

Definition ddtR (n : nat) (x : R) : R := match n with O => 0 | S m => INR n * duR m x end.

Lemma dtR_deriv n x : derivable_pt_lim (dtR n) x (ddtR n x).
Proof.
  destruct n as [|n]; [apply (derivable_pt_lim_const 0)|].
  apply (derivable_pt_lim_scal (uR n)). apply uR_deriv.
Qed.

Lemma eval2Der1_some n x : off_ends x -> eval2Der1 n (Some x) = Some (ddtR n x).
Proof.
  intro H. unfold eval2Der1. destruct (Nat.ltb_spec n 2) as [Hn | Hn].
  - destruct n as [|[|n]]; [reflexivity | simpl; f_equal; ring | lia].
  - cbn [fsub fadd fabs fltb]. destruct n as [|n]; [lia|].
    destruct H as [-> | [-> | [H1 H2]]].
    + replace (Rabs (1 - 1)) with 0 by (rewrite Rminus_diag_eq, Rabs_R0 by reflexivity; reflexivity).
      destruct (Rlt_dec 0 (/ 1000000)) as [_|N]; [|exfalso; apply N; lra].
      f_equal. unfold ddtR. rewrite du_at1, !S_INR. field.
    + replace (Rabs (-1 - 1)) with 2 by (rewrite Rabs_left by lra; ring).
      destruct (Rlt_dec 2 (/ 1000000)) as [L|_]; [lra|].
      replace (Rabs (1 + -1)) with 0 by (replace (1 + -1) with 0 by ring; now rewrite Rabs_R0).
      destruct (Rlt_dec 0 (/ 1000000)) as [_|N]; [|exfalso; apply N; lra].
      f_equal. unfold ddtR. rewrite du_atm1, !S_INR. simpl pow. field.
    + destruct (Rlt_dec (Rabs (x - 1)) (/ 1000000)); [lra|]. destruct (Rlt_dec (Rabs (1 + x)) (/ 1000000)); [lra|].
      rewrite evalPol1_some, evalPol2_some. cbn [fmul fsub].
      assert (Hx : x * x - 1 <> 0).
      { replace (x * x - 1) with ((x - 1) * (1 + x)) by ring. apply Rmult_integral_contrapositive_currified; intro E0;
        [rewrite E0, Rabs_R0 in H1 | rewrite E0, Rabs_R0 in H2]; lra. }
      rewrite fdiv_some by assumption. f_equal. unfold ddtR. rewrite <- dt2_formula. field. assumption.
Qed.
