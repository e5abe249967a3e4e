(** Theorems about the scalar functions: C73 (values and derivatives), C74 (isZero, isConstant). *)
From Coq Require Import List Arith ZArith Bool Reals Lia Lra.
From Verif Require Import Lagr_model RPoly Fun_model Fun_spec Fun_proofs Fun_proofs2.
Import ListNotations.
Open Scope R_scope.

(** ** C73: values and derivatives *)
Theorem time_function_derivative : forall f x V, SmoothS f x -> Near x (fun y => sf_eval f y = Some (V y)) ->
  exists v, sf_deriv f x = Some v /\ derivable_pt_lim V x v.
Proof. exact sf_deriv_ok. Qed.
Print Assumptions time_function_derivative.

Theorem space_time_derivative : forall f X d V, LegalDirs f -> (1 <= d <= 4)%nat -> (d = 4%nat -> at_ X <> None) -> Smooth f X d ->
  Near (getc X d) (fun s => rf_eval f (setc X d s) = Some (V s)) ->
  exists v, rf_deriv f X d = Some v /\ derivable_pt_lim V (getc X d) v.
Proof. exact rf_deriv_ok. Qed.
Print Assumptions space_time_derivative.

Theorem space_time_second_derivative_partial : forall f X d1 d2 V, LegalDirs f -> (1 <= d1 <= 4)%nat -> (1 <= d2 <= 4)%nat ->
  (d1 = 4%nat \/ d2 = 4%nat -> at_ X <> None) -> Smooth2 f X d1 d2 ->
  Near (getc X d2) (fun s => rf_deriv f (setc X d2 s) d1 = Some (V s)) -> (d1 = 4%nat -> rf_eval f X <> None) ->
  exists v, rf_dderiv f X d1 d2 = Some v /\ derivable_pt_lim V (getc X d2) v.
Proof. exact rf_dderiv_ok. Qed.
Print Assumptions space_time_second_derivative_partial.

Theorem piecewise_linear : forall pts, pts <> [] -> SortedPts pts ->
  exists f, (forall s x, sf_eval (SLinear pts s) x = Some (s * f x)) /\ PiecewiseLinear pts f.
Proof. exact lin_piecewise. Qed.
Print Assumptions piecewise_linear.

Theorem points_from_file : forall lines, NoSmallStep lines ->
  exists k, (k <= length lines)%nat /\ linear_read lines = firstn k lines /\ SortedPts (firstn k lines) /\
    (k = length lines \/ ((0 < k < length lines)%nat /\ fst (nth k lines (0, 0)) < fst (nth (k - 1) lines (0, 0)))).
Proof. exact linear_read_prefix. Qed.
Print Assumptions points_from_file.

Theorem quadratic_shape : forall d mx a b X, (1 <= d <= 3)%nat -> a <> b ->
  exists v, rf_eval (RQuad d mx a b) X = Some v /\
    ((getc X d = a \/ getc X d = b) -> v = 0) /\ (getc X d = (a + b) / 2 -> v = mx) /\ (0 <= mx -> v <= mx).
Proof. exact quad_shape. Qed.
Print Assumptions quadratic_shape.

(** the values of the time functions, by formula *)
Theorem time_function_values :
  (forall v xm x, xm <> 0 -> x < xm -> sf_eval (SRamp v xm) x = Some (v * x / xm)) /\
  (forall v xm x, xm <= x -> sf_eval (SRamp v xm) x = Some v) /\
  (forall a xm x, Rabs (x - xm) < / 10000 -> sf_eval (SDirac a xm) x = Some a) /\
  (forall a xm x, / 10000 <= Rabs (x - xm) -> sf_eval (SDirac a xm) x = Some 0) /\
  (forall a xm x, xm <= x -> sf_eval (SStep a xm) x = Some a) /\
  (forall a xm x, x < xm -> sf_eval (SStep a xm) x = Some 0) /\
  (forall s w p x, sf_eval (SSine s w p) x = Some (s * sin (w * x + p))) /\
  (forall s x, sf_eval (SLinear [] s) x = Some (s * x)).
Proof.
  repeat split; intros; unfold sf_eval.
  - apply rltb_iff in H0. rewrite H0. apply fdiv_ok, H.
  - apply rltb_nf in H. rewrite H. reflexivity.
  - apply rltb_iff in H. rewrite H. reflexivity.
  - apply rltb_nf in H. rewrite H. reflexivity.
  - apply rleb_iff in H. rewrite H. reflexivity.
  - apply rleb_nf in H. rewrite H. reflexivity.
Qed.
Print Assumptions time_function_values.

(** the box function: its value within the bounds extended by the tolerance, zero outside *)
Theorem box_values : forall v X0 X1 eps X,
  ((forall d, (1 <= d <= 3)%nat -> getc X0 d - eps <= getc X d <= getc X1 d + eps) -> rf_eval (RStepXYZ v X0 X1 eps) X = Some v) /\
  (forall d, (1 <= d <= 3)%nat -> getc X d < getc X0 d - eps \/ getc X1 d + eps < getc X d -> rf_eval (RStepXYZ v X0 X1 eps) X = Some 0).
Proof.
  intros v X0 X1 eps X. cbn [rf_eval]. split.
  - intros H. assert (E : inside X X0 X1 eps = true); [|rewrite E; reflexivity].
    unfold inside. rewrite forallb_forall. intros i Hi. specialize (H (S i)).
    assert (Q : (1 <= S i <= 3)%nat) by (simpl in Hi; destruct Hi as [<- | [<- | [<- | []]]]; lia). specialize (H Q).
    pose proof (coord_getc X (S i) Q) as C1. pose proof (coord_getc X0 (S i) Q) as C2. pose proof (coord_getc X1 (S i) Q) as C3.
    replace (S i - 1)%nat with i in * by lia. rewrite C1, C2, C3.
    apply negb_true_iff, orb_false_iff. split; apply rltb_nf; lra.
  - intros d Hd H. destruct (inside X X0 X1 eps) eqn:E; [|reflexivity]. exfalso. unfold inside in E. rewrite forallb_forall in E.
    specialize (E (d - 1)%nat). rewrite !coord_getc in E by exact Hd.
    assert (I : In (d - 1)%nat [0; 1; 2]%nat) by (destruct d as [|[|[|[|d]]]]; try lia; simpl; auto).
    specialize (E I). apply negb_true_iff, orb_false_iff in E. destruct E as [E1 E2]. apply rltb_nf in E1, E2. lra.
Qed.
Print Assumptions box_values.

(** interpolation of a table in a direction, multiplied by t/T until the ramp-up time T *)
Theorem interpolation_values : forall pts i T X, (i <= 2)%nat -> pts <> [] -> SortedPts pts ->
  exists f, PiecewiseLinear pts f /\
    (at_ X = None \/ T <= 0 \/ T <= TimeOf X -> rf_eval (RInterp pts i T) X = Some (f (getc X (S i)))) /\
    (forall t, at_ X = Some t -> t < T -> 0 < T -> rf_eval (RInterp pts i T) X = Some (f (getc X (S i)) * (t / T))).
Proof.
  intros pts i T X Hi N So. destruct (lin_piecewise pts N So) as (f & E & P). exists f. split; [exact P |].
  assert (C : coord X i = getc X (S i)) by (destruct i as [|[|[|i]]]; try lia; reflexivity).
  cbn [rf_eval]. rewrite E, C, Rmult_1_l. split.
  - unfold TimeOf. intros H. destruct (at_ X) as [t|]; [|reflexivity]. destruct H as [H | H]; [discriminate |].
    destruct (rltb 0 T && rltb t T)%bool eqn:B; [|reflexivity]. apply andb_true_iff in B. destruct B as [B1 B2].
    apply rltb_iff in B1, B2. lra.
  - intros t -> H1 H2. apply rltb_iff in H1, H2. rewrite H1, H2. reflexivity.
Qed.
Print Assumptions interpolation_values.

(** a rigid rotation by the angle A t about (x0,y0): the two functions are the displacement *)
Theorem rotation_values : forall A x0 y0 X t, at_ X = Some t ->
  exists u v, rf_eval (RRotZ true A x0 y0) X = Some u /\ rf_eval (RRotZ false A x0 y0) X = Some v /\
    (ax X + u - x0)² + (ay X + v - y0)² = (ax X - x0)² + (ay X - y0)² /\
    (ax X + u - x0) * (ax X - x0) + (ay X + v - y0) * (ay X - y0) = cos (A * t) * ((ax X - x0)² + (ay X - y0)²) /\
    (ax X - x0) * (ay X + v - y0) - (ay X - y0) * (ax X + u - x0) = sin (A * t) * ((ax X - x0)² + (ay X - y0)²).
Proof.
  intros A x0 y0 X t E. do 2 eexists. split; [cbn [rf_eval]; rewrite E; reflexivity |]. split; [cbn [rf_eval]; rewrite E; reflexivity |].
  pose proof (sin2_cos2 (A * t)) as Q. unfold Rsqr in *. cbv iota zeta. set (c := cos (A * t)) in *. set (s := sin (A * t)) in *.
  set (x := ax X - x0). set (y := ay X - y0).
  replace (ax X + (x * c - y * s - x) - x0) with (x * c - y * s) by (unfold x; ring).
  replace (ay X + (x * s + y * c - y) - y0) with (x * s + y * c) by (unfold y; ring).
  repeat split.
  - replace ((x * c - y * s) * (x * c - y * s) + (x * s + y * c) * (x * s + y * c)) with ((x * x + y * y) * (s * s + c * c)) by ring.
    rewrite Q. ring.
  - ring.
  - ring.
Qed.
Print Assumptions rotation_values.

(** the time derivative of a rotation is given as zero, although the displacement moves *)
Theorem rotation_time_derivative_refuted : ~ (forall A x0 y0 X V,
  at_ X <> None -> (forall s, rf_eval (RRotZ true A x0 y0) (setc X 4 s) = Some (V s)) ->
  exists v, rf_deriv (RRotZ true A x0 y0) X 4 = Some v /\ derivable_pt_lim V (getc X 4) v).
Proof.
  intros H. destruct (H 1 0 0 (mkArg 0 1 0 (Some 0)) (fun s => - sin s)) as (v & Ev & Dv).
  - discriminate.
  - intros s. cbn [rf_eval setc at_ ax ay]. f_equal. rewrite Rmult_1_l. ring.
  - cbn in Ev. injection Ev as <-. cbn [getc at_] in Dv.
    assert (D2 : derivable_pt_lim (fun s => - sin s) 0 (- cos 0)).
    { apply (derivable_pt_lim_opp sin). apply derivable_pt_lim_sin. }
    pose proof (uniqueness_limite _ _ _ _ Dv D2) as Q. rewrite cos_0 in Q. lra.
Qed.
Print Assumptions rotation_time_derivative_refuted.

(** the second time derivative is given as zero, also for a sine *)
Theorem second_time_derivative_refuted : ~ (forall h X V, at_ X <> None ->
  (forall s, rf_deriv (RSpaceTime (RConst 1) h) (setc X 4 s) 4 = Some (V s)) -> SmoothS h (getc X 4) ->
  exists v, rf_dderiv (RSpaceTime (RConst 1) h) X 4 4 = Some v /\ derivable_pt_lim V (getc X 4) v).
Proof.
  intros H. destruct (H (SSine 1 1 (PI / 2)) (mkArg 0 0 0 (Some 0)) (fun s => cos (s + PI / 2))) as (v & Ev & Dv).
  - discriminate.
  - intros s. cbn. f_equal. rewrite !Rmult_1_l. reflexivity.
  - exact I.
  - cbn in Ev. injection Ev as <-. cbn [getc at_] in Dv.
    assert (D2 : derivable_pt_lim (fun s => cos (s + PI / 2)) 0 (- sin (0 + PI / 2) * 1)).
    { apply (derivable_pt_lim_comp (fun s => s + PI / 2) cos); [|apply derivable_pt_lim_cos].
      apply (dpl_affine' 1 (PI / 2)). intros; ring. }
    pose proof (uniqueness_limite _ _ _ _ Dv D2) as Q. rewrite Rplus_0_l, sin_PI2 in Q. lra.
Qed.
Print Assumptions second_time_derivative_refuted.

(** after a jump, a line within the tolerance makes the points unsorted *)
Theorem points_from_file_sorted_refuted : ~ (forall lines, SortedPts (linear_read lines)).
Proof.
  intros H. specialize (H [(1, 0); (1, 1); (1 - / 10000000000000, 2)] 0%nat 1%nat).
  assert (E : linear_read [(1, 0); (1, 1); (1 - / 10000000000000, 2)] =
    [(1, 0); (/ 2 * (1 + (1 - / 10000000000000)), 1); (/ 2 * (1 + (1 - / 10000000000000)), 2)]).
  { unfold linear_read. cbn [read_points].
    assert (E1 : rleb 1 1 = true) by (apply rleb_iff; lra). rewrite E1.
    assert (E2 : rleb 1 (1 - / 10000000000000) = false) by (apply rleb_nf; lra). rewrite E2.
    assert (E3 : rltb (1 - (1 - / 10000000000000)) (zTol * 1) = true) by (apply rltb_iff; unfold zTol; lra). rewrite E3.
    reflexivity. }
  rewrite E in H. simpl in H. specialize (H ltac:(lia)). lra.
Qed.
Print Assumptions points_from_file_sorted_refuted.

(** ** C74: isZero and isConstant *)
Theorem zero_function_is_zero : forall f X v, rf_isZero f = true -> ~ UsesLinear f -> rf_eval f X = Some v -> v = 0.
Proof. exact rf_zero. Qed.
Print Assumptions zero_function_is_zero.
Theorem zero_time_function_is_zero : forall h x v, sf_isZero h = true -> ~ IsLinear h -> sf_eval h x = Some v -> v = 0.
Proof. exact sf_zero. Qed.
Print Assumptions zero_time_function_is_zero.
Theorem zero_linear_function_is_small : forall pts s x v, sf_isZero (SLinear pts s) = true -> SortedPts pts ->
  sf_eval (SLinear pts s) x = Some v -> Rabs v <= / 1000000000000 * (if pts then Rabs x else / 1000000000000).
Proof. exact lin_zero. Qed.
Print Assumptions zero_linear_function_is_small.
(** exact answer for the functions given by one amplitude *)
Theorem zero_answer_complete : forall v,
  (rf_isZero (RConst v) = true <-> v = 0) /\ (forall d a b, rf_isZero (RQuad d v a b) = true <-> v = 0) /\
  (forall a b d, rf_isZero (RStepX v a b d) = true <-> v = 0) /\ (forall a b c d, rf_isZero (RStepXY v a b c d) = true <-> v = 0) /\
  (forall X Y e, rf_isZero (RStepXYZ v X Y e) = true <-> v = 0) /\
  (forall d b, rf_isZero (RLin d v b) = true <-> v = 0 /\ b = 0) /\ (forall rX x y, rf_isZero (RRotZ rX v x y) = true <-> v = 0).
Proof.
  intros v. repeat split; cbn [rf_isZero]; intros; try apply reqb_iff; auto.
  - apply andb_true_iff in H. destruct H as [H _]. exact H.
  - apply andb_true_iff in H. destruct H as [_ H]. exact H.
  - destruct H as [-> ->]. apply andb_true_iff. split; apply reqb_iff; reflexivity.
Qed.
Print Assumptions zero_answer_complete.
Theorem zero_factor_recognised : forall g h, rf_isZero g = true \/ sf_isZero h = true -> rf_isZero (RSpaceTime g h) = true.
Proof. intros g h H. cbn [rf_isZero]. apply orb_true_iff. exact H. Qed.
Print Assumptions zero_factor_recognised.
(** a table of zeros is not recognised as zero when it is interpolated in space *)
Theorem zero_table_recognised_refuted : ~ (forall f, (forall X, rf_eval f X = Some 0) -> rf_isZero f = true).
Proof.
  intros H. specialize (H (RInterp [(0, 0)] 0 0)). rewrite interp_never_zero in H. assert (false = true); [|discriminate].
  apply H. intros X. assert (E : forall x, sf_eval (SLinear [(0, 0)] 1) x = Some 0) by (intros; cbn; f_equal; ring).
  cbn [rf_eval]. rewrite E. destruct (at_ X); [|reflexivity]. destruct (_ && _)%bool; [|reflexivity]. cbn. f_equal. ring.
Qed.
Print Assumptions zero_table_recognised_refuted.

Theorem constant_function_ignores_time : forall f X Y, rf_isConstant f = true -> SamePlace X Y -> 0 <= TimeOf X -> 0 <= TimeOf Y ->
  (match f with RTime h => NoTimeJump h | RSpaceTime g h => TimeFree g /\ NoTimeJump h | _ => True end) ->
  rf_eval f X = rf_eval f Y.
Proof. exact rf_const. Qed.
Print Assumptions constant_function_ignores_time.

(** step functions in time are reported as independent of the time *)
Theorem constant_step_refuted : ~ (forall f X Y, rf_isConstant f = true -> SamePlace X Y -> 0 <= TimeOf X -> 0 <= TimeOf Y ->
  rf_eval f X = rf_eval f Y).
Proof.
  intros H. specialize (H (RTime (SStep 1 1)) (mkArg 0 0 0 (Some 0)) (mkArg 0 0 0 (Some 2)) eq_refl).
  cbn [TimeOf at_] in H. specialize (H ltac:(repeat split) ltac:(lra) ltac:(lra)). cbn in H.
  assert (E1 : rleb 1 0 = false) by (apply rleb_nf; lra). assert (E2 : rleb 1 2 = true) by (apply rleb_iff; lra).
  rewrite E1, E2 in H. injection H as H. lra.
Qed.
Print Assumptions constant_step_refuted.
Theorem constant_dirac_refuted : exists a xm t1 t2, sf_isConstant (SDirac a xm) = true /\ 0 <= t1 /\ 0 <= t2 /\
  sf_eval (SDirac a xm) t1 <> sf_eval (SDirac a xm) t2.
Proof.
  exists 1, 1, 0, 1. repeat split; try lra. unfold sf_eval.
  assert (E1 : rltb (Rabs (0 - 1)) (/ 10000) = false) by (apply rltb_nf; rewrite Rabs_left; lra).
  assert (E2 : rltb (Rabs (1 - 1)) (/ 10000) = true) by (apply rltb_iff; rewrite Rminus_diag_eq, Rabs_R0 by reflexivity; lra).
  rewrite E1, E2. intros Q. injection Q as Q. lra.
Qed.
Print Assumptions constant_dirac_refuted.
(** a product whose spatial part follows the time is reported as constant when the time factor is *)
Theorem constant_product_refuted : exists g h X Y, rf_isConstant (RSpaceTime g h) = true /\ NoTimeJump h /\ SamePlace X Y /\
  0 <= TimeOf X /\ 0 <= TimeOf Y /\ rf_eval (RSpaceTime g h) X <> rf_eval (RSpaceTime g h) Y.
Proof.
  exists (RRotZ true PI 0 0), (SConst 1), (mkArg 1 0 0 (Some 0)), (mkArg 1 0 0 (Some 1)).
  repeat split; try (cbn; lra). cbn. replace (PI * 0) with 0 by ring. replace (PI * 1) with PI by ring. rewrite cos_0, sin_0, cos_PI, sin_PI.
  intros Q. injection Q as Q. lra.
Qed.
Print Assumptions constant_product_refuted.

(** ** non-vacuity *)
Example smooth_point : SmoothS (SLinear [(0, 1); (2, 5); (2, 7); (3, 0)] 1) (5 / 2) /\
  sf_eval (SLinear [(0, 1); (2, 5); (2, 7); (3, 0)] 1) (5 / 2) = Some (7 / 2) /\
  sf_deriv (SLinear [(0, 1); (2, 5); (2, 7); (3, 0)] 1) (5 / 2) = Some (-7).
Proof.
  assert (L : locate [(0, 1); (2, 5); (2, 7); (3, 0)] (5 / 2) = 3%nat).
  { unfold locate. cbn [length Nat.ltb Nat.leb lower_bound fst].
    assert (E1 : rltb 0 (5 / 2) = true) by (apply rltb_iff; lra). assert (E2 : rltb 2 (5 / 2) = true) by (apply rltb_iff; lra).
    assert (E3 : rltb 3 (5 / 2) = false) by (apply rltb_nf; lra). rewrite E1, E2, E3. reflexivity. }
  repeat split.
  - intros i j [Hi Hj]. simpl in Hj. destruct i as [|[|[|[|i]]]]; destruct j as [|[|[|[|j]]]]; simpl; try lia; lra.
  - intros p [<- | [<- | [<- | [<- | []]]]]; simpl; lra.
  - rewrite sf_eval_lin by discriminate. rewrite L. unfold lin_val. cbn. f_equal. field.
  - unfold sf_deriv. rewrite L. cbn [Nat.eqb length Nat.leb orb nth Nat.sub fst snd].
    etransitivity; [apply fdiv_ok; lra |]. f_equal. field.
Qed.
Example space_time_case : Smooth (RSpaceTime (RQuad 1 4 0 2) (SSine 1 2 0)) (mkArg 1 0 0 (Some 3)) 4 /\
  rf_deriv (RSpaceTime (RQuad 1 4 0 2) (SSine 1 2 0)) (mkArg 1 0 0 (Some 3)) 4 = Some (4 * (2 * cos 6)).
Proof.
  split; [split; exact I |].
  cbn [rf_deriv rf_eval coord Nat.sub ax Nat.ltb Nat.leb tm at_].
  unfold sf_deriv. rewrite fdiv_ok by lra. cbn. f_equal. replace (2 * 3 + 0) with 6 by ring. field.
Qed.
Example interp_case : Smooth (RInterp [(0, 1); (2, 5)] 1 4) (mkArg 0 1 0 (Some 2)) 2 /\ Smooth (RInterp [(0, 1); (2, 5)] 1 4) (mkArg 0 1 0 (Some 2)) 4.
Proof.
  split; cbn [Smooth getc ay at_]; split; intros; try discriminate; try lra.
  split.
  - intros i j [Hi Hj]. simpl in Hj. destruct i as [|[|i]]; destruct j as [|[|j]]; simpl; try lia; lra.
  - intros p [<- | [<- | []]]; simpl; lra.
Qed.
Example small_steps : NoSmallStep [(0, 1); (2, 5); (2, 7); (1, 0)] /\ linear_read [(0, 1); (2, 5); (2, 7); (1, 0)] = [(0, 1); (2, 5); (2, 7)].
Proof.
  split.
  - intros i Hi. simpl in Hi. destruct i as [|[|[|i]]]; simpl; try lia; try (left; lra). right. lra.
  - unfold linear_read. cbn [read_points].
    assert (E1 : rleb 0 2 = true) by (apply rleb_iff; lra). assert (E2 : rleb 2 2 = true) by (apply rleb_iff; lra).
    assert (E3 : rleb 2 1 = false) by (apply rleb_nf; lra).
    assert (E4 : rltb (2 - 1) (zTol * 2) = false) by (apply rltb_nf; unfold zTol; lra).
    rewrite E1, E2, E3, E4. reflexivity.
Qed.
Example constant_case : rf_isConstant (RSpaceTime (RQuad 2 4 0 2) (SRamp 3 0)) = true /\
  (TimeFree (RQuad 2 4 0 2) /\ NoTimeJump (SRamp 3 0)) /\ rf_isConstant (RTime (SSine 2 3 0)) = false /\
  rf_isZero (RSpaceTime (RConst 5) (SRamp 0 3)) = true.
Proof.
  cbn. assert (E1 : rleb 0 0 = true) by (apply rleb_iff; lra). rewrite E1.
  assert (E2 : reqb 0 0 = true) by (apply reqb_iff; lra). rewrite E2.
  assert (E3 : reqb 2 0 = false) by (unfold reqb; destruct (Req_EM_T 2 0); [lra | reflexivity]). rewrite E3.
  rewrite orb_true_r. repeat split.
Qed.
