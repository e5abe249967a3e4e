(** C70: Chebyshev polynomials and Chebyshev function fields. *)
From Coq Require Import List Arith Lia Bool Reals Lra.
From Verif Require Import RPoly Lagr_model Lagr_proofs Cheb_model Cheb_spec Cheb_proofs Cheb_proofs2.
Import ListNotations.
Open Scope R_scope.

(** the polynomials are determined by their defining property, and exist *)
Theorem chebyshev_polynomials_determined n :
  (exists f, IsCheb1 n f) /\ (exists f, IsCheb2 n f) /\
  (forall f g, IsCheb1 n f -> IsCheb1 n g -> forall x, f x = g x) /\
  (forall f g, IsCheb2 n f -> IsCheb2 n g -> forall x, f x = g x).
Proof.
  split; [exists (tR n); apply tR_is | split; [exists (uR n); apply uR_is | split]].
  - exact (cheb1_unique n).
  - exact (cheb2_unique n).
Qed.
Print Assumptions chebyshev_polynomials_determined.

(** evalPol1 and evalPol2 evaluate them everywhere *)
Theorem chebyshev_values n f g x : IsCheb1 n f -> IsCheb2 n g ->
  evalPol1 n (Some x) = Some (f x) /\ evalPol2 n (Some x) = Some (g x).
Proof.
  intros Hf Hg. rewrite evalPol1_some, evalPol2_some. split; f_equal.
  - apply (cheb1_unique n); [apply tR_is | assumption].
  - apply (cheb2_unique n); [apply uR_is | assumption].
Qed.
Print Assumptions chebyshev_values.

(** evalDer1 is the derivative of evalPol1, everywhere *)
Theorem chebyshev_derivative_first_kind n f x : (forall y, evalPol1 n (Some y) = Some (f y)) ->
  exists d, evalDer1 n (Some x) = Some d /\ derivable_pt_lim f x d.
Proof.
  intro H. exists (dtR n x). split; [apply evalDer1_some|]. apply (dpl_ext (tR n)); [|apply tR_deriv].
  intro y. specialize (H y). rewrite evalPol1_some in H. now injection H.
Qed.
Print Assumptions chebyshev_derivative_first_kind.

(** evalDer2 is the derivative of evalPol2, except at the two end points ... *)
Theorem chebyshev_derivative_second_kind n f x : (forall y, evalPol2 n (Some y) = Some (f y)) -> x <> 1 -> x <> -1 ->
  exists d, evalDer2 n (Some x) = Some d /\ derivable_pt_lim f x d.
Proof.
  intros H H1 H2. exists (duR n x). split.
  - apply evalDer2_some. replace (x * x - 1) with ((x - 1) * (x + 1)) by ring.
    apply Rmult_integral_contrapositive_currified; lra.
  - apply (dpl_ext (uR n)); [|apply uR_deriv]. intro y. specialize (H y). rewrite evalPol2_some in H. now injection H.
Qed.
Print Assumptions chebyshev_derivative_second_kind.

(** ... where it divides by zero. *)
Theorem chebyshev_derivative_second_kind_at_ends_refuted n : evalDer2 n (Some 1) = None /\ evalDer2 n (Some (-1)) = None.
Proof. split; apply evalDer2_end; ring. Qed.
Print Assumptions chebyshev_derivative_second_kind_at_ends_refuted.

(** eval2Der1 is the second derivative of evalPol1, at the end points and everywhere at least 1e-6 away from them ... *)
Theorem chebyshev_second_derivative n f x : (forall y, evalDer1 n (Some y) = Some (f y)) -> off_ends x ->
  exists d, eval2Der1 n (Some x) = Some d /\ derivable_pt_lim f x d.
Proof.
  intros H Ho. exists (ddtR n x). split; [now apply eval2Der1_some|]. apply (dpl_ext (dtR n)); [|apply dtR_deriv].
  intro y. specialize (H y). rewrite evalDer1_some in H. now injection H.
Qed.
Print Assumptions chebyshev_second_derivative.

(** ... but not closer to them: T_3'' = 24 x, and the code returns 24. *)
Theorem chebyshev_second_derivative_near_end_refuted :
  exists x, 0 < 1 - x < / 1000000 /\ eval2Der1 3 (Some x) = Some 24 /\
  forall f, (forall y, evalDer1 3 (Some y) = Some (f y)) -> ~ derivable_pt_lim f x 24.
Proof.
  exists (1 - / 10000000). split; [lra|]. split.
  - unfold eval2Der1. cbn [Nat.ltb Nat.leb fsub fabs fltb].
    replace (1 - / 10000000 - 1) with (- / 10000000) by ring. rewrite Rabs_Ropp, Rabs_right by lra.
    destruct (Rlt_dec (/ 10000000) (/ 1000000)) as [_|N]; [|exfalso; apply N; lra]. f_equal. simpl. field.
  - intros f Hf D.
    assert (D2 : derivable_pt_lim f (1 - / 10000000) (ddtR 3 (1 - / 10000000))).
    { apply (dpl_ext (dtR 3)); [|apply dtR_deriv]. intro y. specialize (Hf y). rewrite evalDer1_some in Hf. now injection Hf. }
    pose proof (uniqueness_limite f _ _ _ D D2) as E0. simpl in E0. lra.
Qed.
Print Assumptions chebyshev_second_derivative_near_end_refuted.

(** ChebyshevFunc: the value is the sum of the coefficients times the products of polynomials in the three
    directions, the first direction running fastest in the list of coefficients. *)
Theorem chebyshev_func_value F X (T : nat -> R -> R) : cheb_valid F -> (forall n, IsCheb1 n (T n)) ->
  cheb_evaluate F X = Some (csum3 (cn F 0) (cn F 1) (cn F 2) (fun i j k =>
    nth (cpos (cn F 0) (cn F 1) i j k) (ccoef F) 0 *
    (T i (toref (cdom F 0) (X 0%nat)) * T j (toref (cdom F 1) (X 1%nat)) * T k (toref (cdom F 2) (X 2%nat))))).
Proof.
  intros V HT. rewrite cheb_evaluate_some by assumption. f_equal. unfold FR, csum3, hE.
  apply rsum_ext. intros k _. apply rsum_ext. intros j _. apply rsum_ext. intros i _.
  assert (U : forall n x, tR n x = T n x) by (intros n x; apply (cheb1_unique n); [apply tR_is | apply HT]).
  now rewrite !U.
Qed.
Print Assumptions chebyshev_func_value.

(** deriv(X,c) is the partial derivative of that value. *)
Theorem chebyshev_func_derivative F (V : (nat -> R) -> R) X c : cheb_valid F -> (1 <= c <= 3)%nat ->
  (forall Y, cheb_evaluate F Y = Some (V Y)) ->
  exists d, cheb_deriv F X c = Some d /\ derivable_pt_lim (fun t => V (upd X (c - 1) t)) (X (c - 1)%nat) d.
Proof.
  intros HV Hc H. eexists. split; [now apply cheb_deriv_some|].
  apply (dpl_ext (fun t => FR F (hE F) (upd X (c - 1) t))); [|now apply cheb_deriv_correct].
  intro t. specialize (H (upd X (c - 1) t)). rewrite cheb_evaluate_some in H by assumption. now injection H.
Qed.
Print Assumptions chebyshev_func_derivative.

(** dderiv(X,c1,c2) is the partial derivative of deriv(X,c1). *)
Theorem chebyshev_func_second_derivative F (G : (nat -> R) -> R) X c1 c2 : cheb_valid F ->
  (1 <= c1 <= 3)%nat -> (1 <= c2 <= 3)%nat ->
  (c1 = c2 -> off_ends (toref (cdom F (c1 - 1)) (X (c1 - 1)%nat))) ->
  (forall Y, cheb_deriv F Y c1 = Some (G Y)) ->
  exists d, cheb_dderiv F X c1 c2 = Some d /\ derivable_pt_lim (fun t => G (upd X (c2 - 1) t)) (X (c2 - 1)%nat) d.
Proof.
  intros HV Hc1 Hc2 Ho H. eexists. split; [now apply cheb_dderiv_some|].
  apply (dpl_ext (fun t => FR F (hrep (hE F) (c1 - 1) (hD F (c1 - 1))) (upd X (c2 - 1) t))); [|now apply cheb_dderiv_correct].
  intro t. specialize (H (upd X (c2 - 1) t)). rewrite cheb_deriv_some in H by assumption. now injection H.
Qed.
Print Assumptions chebyshev_func_second_derivative.

(** A function read from an input with enough extents is valid, whatever the coefficients given. *)
Theorem chebyshev_func_read ns dom toks :
  (forall c, (c < 3)%nat -> (ns c < 2)%nat \/ fst (dom c) <> snd (dom c)) ->
  cheb_valid (cheb_read ns dom toks) /\
  (forall p, (p < length (ccoef (cheb_read ns dom toks)))%nat -> nth p (ccoef (cheb_read ns dom toks)) 0 = nth p toks 0).
Proof.
  intro H. split; [split; [|split]|].
  - intros c Hc. unfold cheb_read. cbn [cn]. destruct (Nat.eqb_spec (ns c) 0); lia.
  - unfold cheb_read. cbn [cn ccoef]. rewrite app_length, firstn_length, repeat_length. lia.
  - intros c Hc. unfold cheb_read. cbn [cn cdom]. destruct (H c Hc) as [H1|H1]; [left | now right].
    destruct (Nat.eqb_spec (ns c) 0); lia.
  - unfold cheb_read. cbn [ccoef]. set (m := (_ * _ * _)%nat). intros p Hp.
    rewrite app_length, firstn_length, repeat_length in Hp.
    destruct (Nat.lt_ge_cases p (length toks)) as [L|L].
    + rewrite app_nth1 by (rewrite firstn_length; lia).
      clearbody m. clear - L Hp. assert (p < m)%nat by lia. clear Hp L. revert p m H.
      induction toks as [|t toks IH]; intros p [|m] H; simpl; try lia; [now destruct p|].
      destruct p; [reflexivity | apply IH; lia].
    + rewrite app_nth2 by (rewrite firstn_length; lia). rewrite nth_repeat. symmetry. now apply nth_overflow.
Qed.
Print Assumptions chebyshev_func_read.

(** ChebyshevVecFunc: the value holds the values of the components, zero for those not given. *)
Theorem chebyshev_vec_value fs v X : vecf_make fs = Some v ->
  length (vecf_evaluate v X) = 3%nat /\
  forall c, (c < 3)%nat -> nth c (vecf_evaluate v X) None = match nth_error fs c with Some f => cheb_evaluate f X | None => Some 0 end.
Proof.
  unfold vecf_make. destruct fs as [|f0 fs]; [discriminate|]. intro E. injection E as E. subst v. cbn [fst snd].
  unfold vecf_evaluate. cbn [fst]. split; [reflexivity|]. intros c Hc.
  destruct c as [|[|[|c]]]; [| | |lia]; destruct fs as [|f1 [|f2 fs]]; reflexivity.
Qed.
Print Assumptions chebyshev_vec_value.

(** ChebyshevVecFunc: entry c + n*(d-1) of the gradient is the derivative of component c in direction d, ... *)
Theorem chebyshev_vec_gradient fs v X : vecf_make fs = Some v -> (snd v <= length (fst v))%nat ->
  exists g, vecf_gradient v X = Some g /\ length g = (snd v * snd v)%nat /\
  forall c d, (c < snd v)%nat -> (1 <= d <= snd v)%nat ->
    exists f, nth_error fs c = Some f /\ nth (c + snd v * (d - 1)) g None = cheb_deriv f X d.
Proof. exact (vecf_gradient_some fs v X). Qed.
Print Assumptions chebyshev_vec_gradient.

Theorem chebyshev_vec_hessian fs v X : vecf_make fs = Some v -> (snd v <= length (fst v))%nat ->
  exists g, vecf_hessian v X = Some g /\ length g = (snd v * snd v * snd v)%nat /\
  forall c d1 d2, (c < snd v)%nat -> (1 <= d1 <= snd v)%nat -> (1 <= d2 <= snd v)%nat ->
    exists f, nth_error fs c = Some f /\ nth (c + snd v * ((d1 - 1) + snd v * (d2 - 1))) g None = cheb_dderiv f X d1 d2.
Proof. exact (vecf_hessian_some fs v X). Qed.
Print Assumptions chebyshev_vec_hessian.

(** ... but a planar vector function given by a single component counts two, and its gradient
    dereferences the missing one (undefined behaviour). *)
Theorem chebyshev_vec_single_component_refuted f X : cn f 2 = 1%nat ->
  exists v, vecf_make [f] = Some v /\ snd v = 2%nat /\ vecf_gradient v X = None /\ vecf_hessian v X = None.
Proof.
  intro H. eexists. split; [reflexivity|]. cbn [fst snd]. unfold vecf_gradient, vecf_hessian. cbn [fst snd firstn length].
  rewrite H. split; [reflexivity | split; reflexivity].
Qed.
Print Assumptions chebyshev_vec_single_component_refuted.

(** ** Concrete cases *)
(** a 2 x 2 function on [0,2] x [0,1] *)
Definition exF : chebF := cheb_read (fun c => if (c <? 2)%nat then 2%nat else 0%nat)
  (fun c => match c with O => (0, 2) | S O => (0, 1) | _ => (0, 0) end) [1; 2; 3; 4].
Example ex_valid : cheb_valid exF.
Proof.
  apply chebyshev_func_read. intros c Hc. destruct c as [|[|[|c]]]; simpl; [right; lra | right; lra | left; lia | lia].
Qed.
(** at (2,1): 1 + 2 + 3 + 4 *)
Example ex_value : cheb_evaluate exF (fun c => match c with O => 2 | S O => 1 | _ => 0 end) = Some 10.
Proof.
  rewrite cheb_evaluate_some by exact ex_valid. f_equal. unfold FR, csum3, hE, toref, exF, cheb_read, cpos, rsum. simpl. field.
Qed.
Example ex_deriv : exists V, (forall Y, cheb_evaluate exF Y = Some (V Y)) /\
  cheb_deriv exF (fun c => match c with O => 2 | S O => 1 | _ => 0 end) 1 = Some 6.
Proof.
  exists (FR exF (hE exF)). split; [intro; apply cheb_evaluate_some, ex_valid|].
  rewrite cheb_deriv_some by (exact ex_valid || lia). f_equal. unfold FR, csum3, hrep, hD, hE, toref, exF, cheb_read, cpos, rsum. simpl. field.
Qed.
Example ex_off_ends : off_ends (1/2).
Proof. right; right. rewrite Rabs_left, Rabs_right by lra. lra. Qed.
