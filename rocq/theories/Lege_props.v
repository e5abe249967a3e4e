(** C71, C72: the Legendre polynomials and the Gauss rules of src/Utility/Legendre.C *)
From Coq Require Import List Arith Lia ZArith Bool Reals Lra Permutation.
From Verif Require Import RPoly Lagr_model Lagr_spec Lagr_proofs Lege_model Lege_spec Lege_proofs Lege_proofs2 Lege_proofs3 Lege_proofs4 Lege_proofs5.
Import ListNotations.
Open Scope R_scope.

(** * C71 *)
(** for every degree there is exactly one Legendre polynomial *)
Theorem legendre_polynomial_determined :
  forall n, exists f, IsLegendre n f /\ forall g, IsLegendre n g -> forall x, g x = f x.
Proof.
  intro n. exists (leg n). split; [apply leg_is|]. intros g Hg. apply (legendre_unique n); [assumption | apply leg_is].
Qed.
Print Assumptions legendre_polynomial_determined.

(** eval returns its value: refused exactly for n < 1 or a point outside [-1,1] *)
Theorem legendre_eval_value :
  forall n x f, IsLegendre (Z.to_nat n) f ->
  (leg_eval n x = None <-> (n < 1)%Z \/ x < -1 \/ 1 < x) /\
  ((1 <= n)%Z -> -1 <= x <= 1 -> leg_eval n x = Some (f x)).
Proof.
  intros n x f Hf. split; [apply leg_eval_none|]. intros Hn Hx. rewrite leg_eval_in by assumption. f_equal.
  apply (legendre_unique (Z.to_nat n)); [apply leg_is | assumption].
Qed.
Print Assumptions legendre_eval_value.

(** derEval returns the derivative, also at the end points *)
Theorem legendre_eval_derivative :
  forall n x f, IsLegendre (Z.to_nat n) f ->
  (leg_derEval n x = None <-> (n < 1)%Z \/ x < -1 \/ 1 < x) /\
  ((1 <= n)%Z -> -1 <= x <= 1 -> exists d, leg_derEval n x = Some d /\ derivable_pt_lim f x d).
Proof.
  intros n x f Hf. split; [apply leg_derEval_none|]. intros Hn Hx. exists (dleg (Z.to_nat n) x).
  split; [now apply leg_derEval_in|]. apply (dpl_ext (leg (Z.to_nat n))); [|apply leg_deriv].
  intro y. apply (legendre_unique (Z.to_nat n)); [apply leg_is | assumption].
Qed.
Print Assumptions legendre_eval_derivative.

(** the polynomials are mutually orthogonal with norm 2/(2n+1) *)
Theorem legendre_orthogonal :
  forall m n f g, IsLegendre m f -> IsLegendre n g ->
  Integ (fun x => f x * g x) (if (m =? n)%nat then 2 / (2 * INR n + 1) else 0).
Proof.
  intros m n f g Hf Hg.
  apply (Integ_ext (fun x => leg m x * leg n x)).
  { intro x. rewrite (legendre_unique m f (leg m) Hf (leg_is m) x), (legendre_unique n g (leg n) Hg (leg_is n) x). reflexivity. }
  destruct (Nat.eqb_spec m n) as [-> | Hne]; [apply leg_norm|].
  destruct (Nat.lt_ge_cases m n) as [H|H].
  - apply (Integ_ext (fun x => leg n x * leg m x)); [intro; ring|]. apply leg_orth. apply (PolyFn_weaken (S m)); [lia | apply leg_poly].
  - apply leg_orth. apply (PolyFn_weaken (S n)); [lia | apply leg_poly].
Qed.
Print Assumptions legendre_orthogonal.

(** * C72: GL *)
(** for every n >= 3 the matrix set up by GL has n distinct real eigenvalues: the roots of the Legendre polynomial *)
Theorem gl_matrix_eigenvalues :
  forall n f, (3 <= n)%nat -> IsLegendre n f ->
  (forall l, IsEigenvalue n (gl_matrix n) l <-> f l = 0) /\
  exists ev, AllEig n (gl_matrix n) ev /\ NoDup ev.
Proof.
  intros n f Hn Hf.
  assert (E : forall x, f x = leg n x) by (apply (legendre_unique n); [assumption | apply leg_is]). split.
  - intro l. rewrite E. now apply gl_eigen_root.
  - destruct (leg_roots n) as (xs & Hl & Hnd & Hx). exists xs. split; [|assumption]. split; [assumption|].
    intro l. rewrite gl_eigen_root by assumption. split; [apply Hx|]. intro Hr.
    destruct (in_dec Req_EM_T l xs) as [|Hni]; [assumption|]. exfalso.
    pose proof (PolyFn_roots (S n) (leg n) (l :: xs) (leg_poly n)) as Z.
    assert (leg n 1 = 0); [|rewrite leg_one in H; lra].
    apply Z; [now constructor | simpl; lia |]. intros a [<-|Ha]; [assumption | now apply Hx].
Qed.
Print Assumptions gl_matrix_eigenvalues.

(** given the eigenvalues, GL returns n increasing points inside ]-1,1[ and finite weights that
    integrate every polynomial of degree at most 2n-1 exactly *)
Theorem gl_rule_exact_integration :
  forall eig n ev, (3 <= n)%nat -> eig n (gl_matrix n) = Some ev -> AllEig n (gl_matrix n) ev ->
  exists ws xs, gl_rule eig n = Some (map Some ws, xs) /\ length xs = n /\
    (forall i j, (i < j < n)%nat -> nth i xs 0 < nth j xs 0) /\
    (forall a, In a xs -> -1 < a < 1) /\ ExactRule (2 * n) ws xs.
Proof.
  intros eig n ev Hn He (Hl & Hev).
  assert (Hnd : NoDup ev).
  { apply (leg_roots_nodup n); [assumption|]. intros a Ha. apply Hev. now apply gl_eigen_root. }
  destruct (gl_rule_exact eig n ev Hn He Hl Hnd) as (ws & xs & E & L & _ & Inc & In1 & Ex).
  { intros l H. now apply Hev. }
  exists ws, xs. repeat split; try assumption; try (apply In1; assumption); apply Ex.
Qed.
Print Assumptions gl_rule_exact_integration.

(** GL fails when the eigenvalues are not found and for n < 2 *)
Theorem gl_rule_refused :
  forall eig n, (n < 2)%nat \/ eig n (gl_matrix n) = None -> gl_rule eig n = None.
Proof.
  intros eig n [H|H]; unfold gl_rule; destruct (Nat.ltb_spec n 2); try reflexivity; [lia|]. now rewrite H.
Qed.
Print Assumptions gl_rule_refused.

(** the rule with two points: the entry A(2,1) is not set for n = 2, both eigenvalues are 0, both weights are not finite *)
Theorem gl_rule_two_points_refuted :
  forall eig ev, eig 2%nat (gl_matrix 2) = Some ev -> AllEig 2 (gl_matrix 2) ev ->
  gl_rule eig 2 = Some ([None; None], [0; 0]).
Proof. intros eig ev He (Hl & H). apply (gl_rule_two eig ev); [assumption|assumption|]. intros l Hi. now apply H. Qed.
Print Assumptions gl_rule_two_points_refuted.

(** although a two-point rule of that precision exists *)
Theorem gl_two_point_rule_exists : ExactRule 4 [1; 1] [- sqrt (1 / 3); sqrt (1 / 3)].
Proof.
  assert (Q : sqrt (1 / 3) * sqrt (1 / 3) = 1 / 3) by (apply sqrt_sqrt; lra).
  assert (P : 0 < sqrt (1 / 3)) by (apply sqrt_lt_R0; lra).
  set (r := sqrt (1 / 3)) in *.
  destruct (gauss_exact 2 [- r; r] ltac:(lia) eq_refl) as [_ Ex].
  { constructor; [simpl; lra | constructor; [simpl; tauto | constructor]]. }
  { intros a [<-|[<-|[]]]; simpl; nra. }
  split; [reflexivity|]. intros q Hq. specialize (Ex q Hq). eapply Integ_val; [|exact Ex].
  simpl.
  replace ((1 - r * r) * ((1 + 1 + 1) / (1 + 1) * (r + r * 1) - 1 / (1 + 1) * 0) * ((1 + 1 + 1) / (1 + 1) * (r + r * 1) - 1 / (1 + 1) * 0))
    with ((1 - r * r) * (9 * (r * r))) by field.
  replace ((1 - - r * - r) * ((1 + 1 + 1) / (1 + 1) * (- r + - r * 1) - 1 / (1 + 1) * 0) * ((1 + 1 + 1) / (1 + 1) * (- r + - r * 1) - 1 / (1 + 1) * 0))
    with ((1 - r * r) * (9 * (r * r))) by field.
  rewrite Q. field.
Qed.
Print Assumptions gl_two_point_rule_exists.

(** * C72: GLL *)
Theorem gll_rule_small :
  (forall eig fuel, gll_rule eig fuel 1 = None) /\
  (forall eig fuel, gll_rule eig fuel 2 = Some ([Some 1; Some 1], [-1; 1])) /\
  (forall eig fuel ev, eig 2%nat (gl_matrix 2) = Some ev -> AllEig 2 (gl_matrix 2) ev ->
     gll_rule eig (S fuel) 3 = Some ([Some (1 / 3); Some (4 / 3); Some (1 / 3)], [-1; 0; 1])) /\
  IsGLL 2 [-1; 1] /\ IsGLL 3 [-1; 0; 1].
Proof.
  split; [reflexivity|]. split; [intros; apply gll_rule_two|]. split.
  - intros eig fuel ev He (Hl & H). apply (gll_rule_three eig fuel ev He Hl). intros l Hi. now apply H.
  - split; [apply isgll_two | apply isgll_three].
Qed.
Print Assumptions gll_rule_small.

(** the points of the GLL rule are, in ]-1,1[, exactly the points the iteration leaves in place *)
Theorem gll_iteration_fixed_points :
  forall n p f, (2 <= n)%nat -> -1 < p < 1 -> IsLegendre (n - 1) f -> f p <> 0 ->
  (gll_step n p = Some (Some p) <-> derivable_pt_lim f p 0).
Proof.
  intros n p f Hn Hp Hf Hnz.
  assert (E : forall x, leg (n - 1) x = f x) by (apply (legendre_unique (n - 1)); [apply leg_is | assumption]).
  rewrite <- E in Hnz. rewrite (gll_step_fixed n p Hn Hp Hnz). split.
  - intros D. apply (dpl_ext (leg (n - 1)) f p 0 E). eapply dpl_val; [exact D | apply leg_deriv].
  - intros D. apply (dpl_ext f (leg (n - 1)) p 0 (fun x => eq_sym (E x))) in D. exact (uniqueness_limite _ _ _ _ (leg_deriv _ _) D).
Qed.
Print Assumptions gll_iteration_fixed_points.

(** what GLL returns: the end points, and points reached by a last step not longer than the tolerance *)
Theorem gll_points_residual :
  forall eig fuel n ws xs f, (3 <= n)%nat -> gll_rule eig fuel n = Some (ws, xs) -> IsLegendre (n - 1) f ->
  nth 0 xs 0 = -1 /\ last xs 0 = 1 /\
  forall i, (0 < i < length xs - 1)%nat -> exists p0 d, derivable_pt_lim f p0 d /\ -1 <= p0 <= 1 /\ f p0 <> 0 /\
    nth i xs 0 = p0 + (1 - p0 * p0) * d / (INR (n - 1) * INR n * f p0) /\ Rabs (nth i xs 0 - p0) <= / 100000000.
Proof.
  intros eig fuel n ws xs f Hn H Hf. destruct (gll_rule_ends eig fuel n ws xs Hn H) as (A & B & C).
  split; [assumption|]. split; [assumption|]. intros i Hi. destruct (C i Hi) as (p0 & Hs & Hr).
  assert (E : forall x, leg (n - 1) x = f x) by (apply (legendre_unique (n - 1)); [apply leg_is | assumption]).
  assert (Hp : -1 <= p0 <= 1).
  { unfold gll_step in Hs. destruct (leg_eval (Z.of_nat n - 1) p0) eqn:El; [|discriminate].
    destruct (Rlt_dec p0 (-1)) as [h|h]; [assert (leg_eval (Z.of_nat n - 1) p0 = None) by (apply leg_eval_none; tauto); congruence|].
    destruct (Rlt_dec 1 p0) as [h'|h']; [assert (leg_eval (Z.of_nat n - 1) p0 = None) by (apply leg_eval_none; tauto); congruence|]. lra. }
  rewrite gll_step_eq in Hs by (lia || assumption). exists p0, (dleg (n - 1) p0).
  assert (Hnz : INR (n - 1) * INR n * leg (n - 1) p0 <> 0).
  { intro Z. rewrite Z in Hs. unfold fdiv in Hs. destruct (Req_EM_T 0 0); [discriminate | congruence]. }
  rewrite fdiv_nz in Hs by assumption. simpl fadd in Hs. rewrite <- (E p0).
  repeat split; try lra; try assumption.
  - apply (dpl_ext (leg (n - 1)) f _ _ E). apply leg_deriv.
  - intro Z. apply Hnz. rewrite Z. ring.
  - congruence.
Qed.
Print Assumptions gll_points_residual.

(** at the GLL points the weights are finite and integrate every polynomial of degree at most 2n-3 exactly.
    Full claim: for the points computed by the iteration of GLL.  Missing: that the iteration, which stops at the
    tolerance, reaches exactly these points. *)
Theorem gll_rule_exact_integration_partial :
  forall eig fuel n ws xs, (2 <= n)%nat -> gll_rule eig fuel n = Some (ws, xs) -> IsGLL n xs ->
  exists w, ws = map Some w /\ ExactRule (2 * n - 2) w xs.
Proof. intros. eapply gll_rule_exact; eassumption. Qed.
Print Assumptions gll_rule_exact_integration_partial.

(** the weights computed at the GLL points, for every n *)
Theorem gll_weights_exact_integration :
  forall n xs, (2 <= n)%nat -> IsGLL n xs -> exists w, gll_weights n xs = Some (map Some w) /\ ExactRule (2 * n - 2) w xs.
Proof. intros. now apply gll_weights_exact. Qed.
Print Assumptions gll_weights_exact_integration.

(** basisDerivatives: entry (i,j) is the derivative of the j-th Lagrange polynomial of the points at point i *)
Theorem gll_basis_derivatives :
  forall n p i j f, (2 <= n)%nat -> IsGLL n p -> (1 <= i <= n)%nat -> (1 <= j <= n)%nat ->
  IsLagrange p (j - 1) f -> exists d, bd_entry n p i j = Some (Some d) /\ derivable_pt_lim f (nth (i - 1) p 0) d.
Proof. intros. now apply bd_entry_deriv. Qed.
Print Assumptions gll_basis_derivatives.

(** so row i differentiates, at point i, every polynomial of degree less than n given by its values at the points *)
Theorem gll_basis_derivatives_differentiate :
  forall n p i q, (2 <= n)%nat -> IsGLL n p -> (1 <= i <= n)%nat -> PolyFn n q ->
  exists D : nat -> R, (forall j, (1 <= j <= n)%nat -> bd_entry n p i j = Some (Some (D j))) /\
    derivable_pt_lim q (nth (i - 1) p 0) (rsum (map (fun j => D j * q (nth (j - 1) p 0)) (seq 1 n))).
Proof. intros. now apply bd_differentiates. Qed.
Print Assumptions gll_basis_derivatives_differentiate.

(** * Concrete cases *)
Example legendre_two : leg_eval 2 (1 / 2) = Some (- (1 / 8)) /\ leg_derEval 2 (1 / 2) = Some (3 / 2) /\ leg_derEval 3 (-1) = Some 6.
Proof.
  split; [|split].
  - rewrite leg_eval_in by (try lia; lra). f_equal. simpl. field.
  - rewrite leg_derEval_in by (try lia; lra). f_equal. simpl. field.
  - rewrite leg_derEval_in by (try lia; lra). f_equal. simpl. field.
Qed.

(** the eigenvalues of the matrix of order 3 *)
Example gl_three_points : AllEig 3 (gl_matrix 3) [- sqrt (3 / 5); 0; sqrt (3 / 5)].
Proof.
  assert (Q : sqrt (3 / 5) * sqrt (3 / 5) = 3 / 5) by (apply sqrt_sqrt; lra).
  set (r := sqrt (3 / 5)) in *. split; [reflexivity|]. intro l. rewrite gl_eigen_root by lia.
  assert (E : leg 3 l = 5 / 2 * (l * (l - r) * (l + r))).
  { transitivity (5 / 2 * (l * (l * l - r * r))); [rewrite Q; simpl; field | ring]. }
  rewrite E. split.
  - intros [<-|[<-|[<-|[]]]]; ring.
  - intros Z. simpl. apply Rmult_integral in Z. destruct Z as [Z|Z]; [lra|]. apply Rmult_integral in Z.
    destruct Z as [Z|Z]; [apply Rmult_integral in Z; destruct Z as [Z|Z]; [right; left; lra | right; right; left; lra] | left; lra].
Qed.
Example gl_three_rule : exists ws xs,
  gl_rule (fun n _ => Some [0; - sqrt (3 / 5); sqrt (3 / 5)]) 3 = Some (map Some ws, xs) /\ ExactRule 6 ws xs.
Proof.
  destruct (gl_rule_exact_integration (fun n _ => Some [0; - sqrt (3 / 5); sqrt (3 / 5)]) 3 [0; - sqrt (3 / 5); sqrt (3 / 5)]) as (ws & xs & E & _ & _ & _ & Ex); try (lia || reflexivity).
  - destruct gl_three_points as [_ H]. split; [reflexivity|]. intro l. rewrite <- H. simpl. tauto.
  - now exists ws, xs.
Qed.
Example gl_two_eig : AllEig 2 (gl_matrix 2) [0; 0].
Proof. split; [reflexivity|]. intro l. rewrite gl_eigen_two. simpl. intuition. Qed.
Example gll_three_derivative : bd_entry 3 [-1; 0; 1] 1 2 = Some (Some 2) /\ bd_entry 3 [-1; 0; 1] 1 1 = Some (Some (- (3 / 2))).
Proof.
  split.
  - unfold bd_entry. cbn [Nat.eqb andb Nat.sub nth]. rewrite !leg_eval_in by (try lia; lra). rewrite fdiv_nz by (simpl; lra).
    do 2 f_equal. simpl. field.
  - unfold bd_entry. cbn [Nat.eqb andb]. do 2 f_equal. simpl. field.
Qed.
