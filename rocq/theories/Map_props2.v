(** C88-C89: normals and tangents, Piola mapping. *)
From Coq Require Import Reals List Arith Bool Lia Lra.
From Verif Require Import Map_model Map_spec Map_proofs Map_proofs2.
Local Open Scope R_scope.

Lemma Jac_ext : forall nen X dNdu i a, mmul nen X dNdu i a = dxdu nen X dNdu i a.
Proof. exact mmul_dxdu. Qed.

(** What a boundary integration point shares with an interior one. *)
Lemma face_rest : forall d nen X dNdu, dim123 d -> regular d (dxdu nen X dNdu) ->
  exists Ji, is_inverse d (dxdu nen X dNdu) Ji /\
    inverse d d epsZ (mmul nen X dNdu) = (determinant d (dxdu nen X dNdu), Ji) /\
    determinant d (dxdu nen X dNdu) <> 0 /\ chain1 d nen (dxdu nen X dNdu) dNdu (mmul d dNdu Ji).
Proof.
  intros d nen X dNdu D R.
  assert (R' : regular d (mmul nen X dNdu)).
  { apply (regular_ext d (dxdu nen X dNdu)); [assumption | | assumption].
    intros. symmetry. apply mmul_dxdu. }
  assert (E : determinant d (mmul nen X dNdu) = determinant d (dxdu nen X dNdu))
    by (apply determinant_ext; [assumption | apply mmul_dxdu]).
  exists (invEntries d (mmul nen X dNdu) (determinant d (dxdu nen X dNdu))).
  assert (I : is_inverse d (dxdu nen X dNdu)
    (invEntries d (mmul nen X dNdu) (determinant d (dxdu nen X dNdu)))).
  { apply (is_inverse_ext d (mmul nen X dNdu)); [apply mmul_dxdu |]. rewrite <- E.
    apply invEntries_inverse; [assumption | apply regular_nz; assumption]. }
  split; [assumption|]. split; [rewrite inverse_regular, E by assumption; reflexivity|].
  split; [apply regular_nz; assumption | apply chain1_mul; assumption].
Qed.

(** C88. On the edge u_dir = const of a plane patch (upper end, or lower end with
    minus): the normal is a unit vector in the plane, perpendicular to the edge,
    pointing out of the patch; the dilation is the length of the edge tangent, and
    the derivatives satisfy the chain rule. *)
Theorem map_edge_normal : forall nen X dNdu dir minus, within 2 dir ->
  let J := dxdu nen X dNdu in
  regular 2 J -> noticeable (norm (tangent2 J (3 - dir))) ->
  let r := fst (edgeNormal 2 nen X dNdu dir minus) in
  let n := snd (edgeNormal 2 nen X dNdu dir minus) in
  norm n = 1 /\ vz n = 0 /\ dot n (tangent2 J (3 - dir)) = 0 /\
  (if minus then dot n (tangent2 J dir) < 0 else 0 < dot n (tangent2 J dir)) /\
  j_det r = norm (tangent2 J (3 - dir)) /\
  exists dNdX, j_dNdX r = Some dNdX /\ chain1 2 nen J dNdu dNdX.
Proof.
  intros nen X dNdu dir minus W J R N. cbv zeta.
  destruct (face_rest 2 nen X dNdu (or_intror (or_introl eq_refl)) R) as [Ji [I [E [NZ C]]]].
  fold J in I, E, NZ, C.
  pose proof (regular_cross2 J dir W R) as N3.
  set (v1 := tangent2 J dir) in *. set (v2 := tangent2 J (3 - dir)) in *.
  set (v3 := wedge v1 v2) in *.
  set (n0 := cross (V3 (vx v2 / norm v2) (vy v2 / norm v2) (vz v2 / norm v2))
                   (V3 (vx v3 / norm v3) (vy v3 / norm v3) (vz v3 / norm v3))).
  assert (F : edgeNormal 2 nen X dNdu dir minus
    = (mkJ (norm v2) Ji (Some (mmul 2 dNdu Ji)), if minus then vneg n0 else n0)).
  { unfold edgeNormal, JacobianFace. cbn [Nat.eqb Nat.ltb Nat.leb].
    rewrite !column2, !(tangent2_ext (mmul nen X dNdu) J) by apply mmul_dxdu.
    fold v1 v2. change (cross v1 v2) with v3.
    rewrite (normalize_noticeable v2 N), (normalize_noticeable v3 N3). rewrite E.
    destruct (Req_EM_T _ _); [contradiction|]. reflexivity. }
  rewrite F. cbn [fst snd j_det j_dNdX].
  pose proof (noticeable_pos _ N) as P2. pose proof (noticeable_pos _ N3) as P3.
  pose proof (en_unit v1 v2 P2 P3) as U. fold v3 in U. fold n0 in U.
  pose proof (en_perp v1 v2 P2 P3) as Pe. fold v3 in Pe. fold n0 in Pe.
  pose proof (en_out v1 v2 P2 P3) as O. fold v3 in O. fold n0 in O.
  assert (Z : vz n0 = 0).
  { unfold n0, cross. cbn [vz]. unfold v3, wedge, v1, v2, tangent2. cbn [vx vy vz]. unfold Rdiv. ring. }
  assert (OP : 0 < dot n0 v1).
  { rewrite O. apply Rdiv_lt_0_compat; assumption. }
  destruct minus.
  - rewrite norm_neg, !dot_neg. repeat split; try assumption; try lra.
    + unfold vneg. cbn [vz]. lra.
    + exists (mmul 2 dNdu Ji). split; [reflexivity|assumption].
  - repeat split; try assumption. exists (mmul 2 dNdu Ji). split; [reflexivity|assumption].
Qed.
Print Assumptions map_edge_normal.

(** C88. The same on the edge of a shell patch: the normal is tangent to the shell. *)
Theorem map_shell_normal : forall nen X dNdu dir minus, within 2 dir ->
  let J := dxdu nen X dNdu in
  noticeable (norm (tangent3 J (3 - dir))) ->
  noticeable (norm (wedge (tangent3 J dir) (tangent3 J (3 - dir)))) ->
  let r := fst (edgeNormal 3 nen X dNdu dir minus) in
  let n := snd (edgeNormal 3 nen X dNdu dir minus) in
  norm n = 1 /\ dot n (tangent3 J (3 - dir)) = 0 /\
  dot n (wedge (tangent3 J 1) (tangent3 J 2)) = 0 /\
  (if minus then dot n (tangent3 J dir) < 0 else 0 < dot n (tangent3 J dir)) /\
  j_det r = norm (tangent3 J (3 - dir)) /\ j_dNdX r = Some dNdu.
Proof.
  intros nen X dNdu dir minus W J N N3. cbv zeta.
  set (v1 := tangent3 J dir) in *. set (v2 := tangent3 J (3 - dir)) in *.
  set (v3 := wedge v1 v2) in *.
  set (n0 := cross (V3 (vx v2 / norm v2) (vy v2 / norm v2) (vz v2 / norm v2))
                   (V3 (vx v3 / norm v3) (vy v3 / norm v3) (vz v3 / norm v3))).
  assert (F : edgeNormal 3 nen X dNdu dir minus
    = (mkJ (norm v2) (mmul nen X dNdu) (Some dNdu), if minus then vneg n0 else n0)).
  { unfold edgeNormal, JacobianFace. cbn [Nat.eqb Nat.ltb Nat.leb].
    rewrite !column3, !(tangent3_ext (mmul nen X dNdu) J) by apply mmul_dxdu.
    fold v1 v2. change (cross v1 v2) with v3.
    rewrite (normalize_noticeable v2 N), (normalize_noticeable v3 N3). reflexivity. }
  rewrite F. cbn [fst snd j_det j_dNdX].
  pose proof (noticeable_pos _ N) as P2. pose proof (noticeable_pos _ N3) as P3.
  pose proof (en_unit v1 v2 P2 P3) as U. fold v3 in U. fold n0 in U.
  pose proof (en_perp v1 v2 P2 P3) as Pe. fold v3 in Pe. fold n0 in Pe.
  pose proof (en_perp3 v1 v2 P2 P3) as Pe3. fold v3 in Pe3. fold n0 in Pe3.
  pose proof (en_out v1 v2 P2 P3) as O. fold v3 in O. fold n0 in O.
  assert (OP : 0 < dot n0 v1).
  { rewrite O. apply Rdiv_lt_0_compat; assumption. }
  assert (S : dot n0 (wedge (tangent3 J 1) (tangent3 J 2)) = 0).
  { apply within2 in W. destruct W as [-> | ->].
    - exact Pe3.
    - replace (dot n0 (wedge (tangent3 J 1) (tangent3 J 2))) with (- dot n0 v3); [lra|].
      unfold v3, v1, v2, dot, wedge. cbn [vx vy vz Nat.sub]. ring. }
  destruct minus.
  - rewrite norm_neg, !dot_neg. repeat split; try assumption; try lra.
  - repeat split; assumption.
Qed.
Print Assumptions map_shell_normal.

(** C88. On the face u_dir = const of a volume patch: the normal is a unit vector
    perpendicular to both tangents of the face, the dilation is the area of their
    parallelogram; the normal points out of the patch exactly when the geometry
    is right-handed. *)
Theorem map_face_normal : forall nen X dNdu dir minus, within 3 dir ->
  let J := dxdu nen X dNdu in
  let t1 := (1 + dir mod 3)%nat in
  let t2 := (1 + (1 + dir mod 3) mod 3)%nat in
  regular 3 J -> noticeable (norm (wedge (tangent3 J t1) (tangent3 J t2))) ->
  let r := fst (faceNormal nen X dNdu dir minus) in
  let n := snd (faceNormal nen X dNdu dir minus) in
  norm n = 1 /\
  (forall a, within 3 a -> a <> dir -> dot n (tangent3 J a) = 0) /\
  (if minus then (dot n (tangent3 J dir) < 0 <-> 0 < determinant 3 J)
            else (0 < dot n (tangent3 J dir) <-> 0 < determinant 3 J)) /\
  dot n (tangent3 J dir) <> 0 /\
  j_det r = norm (wedge (tangent3 J t1) (tangent3 J t2)) /\
  exists dNdX, j_dNdX r = Some dNdX /\ chain1 3 nen J dNdu dNdX.
Proof.
  intros nen X dNdu dir minus W J t1 t2 R N. cbv zeta.
  destruct (face_rest 3 nen X dNdu (or_intror (or_intror eq_refl)) R) as [Ji [I [E [NZ C]]]].
  fold J in I, E, NZ, C.
  set (w := wedge (tangent3 J t1) (tangent3 J t2)) in *.
  set (n0 := V3 (vx w / norm w) (vy w / norm w) (vz w / norm w)).
  assert (F : faceNormal nen X dNdu dir minus
    = (mkJ (norm w) Ji (Some (mmul 3 dNdu Ji)), if minus then vneg n0 else n0)).
  { unfold faceNormal, JacobianFace. cbv zeta. fold t1. cbn [Nat.eqb].
    rewrite !column3, !(tangent3_ext (mmul nen X dNdu) J) by apply mmul_dxdu.
    change (1 + t1 mod 3)%nat with t2.
    change (cross (tangent3 J t1) (tangent3 J t2)) with w.
    rewrite (normalize_noticeable w N). rewrite E.
    destruct (Req_EM_T _ _); [contradiction|]. reflexivity. }
  rewrite F. cbn [fst snd j_det j_dNdX].
  pose proof (noticeable_pos _ N) as P.
  assert (U : norm n0 = 1) by (apply norm_scaled; assumption).
  assert (Q : forall a, within 3 a -> a <> dir -> dot n0 (tangent3 J a) = 0).
  { intros a Ha Na. unfold n0. rewrite dot_scaled by lra.
    assert (Cs : a = t1 \/ a = t2).
    { apply within3 in W, Ha. unfold t1, t2.
      destruct W as [-> |[-> | ->]], Ha as [-> |[-> | ->]]; cbn; auto; congruence. }
    destruct Cs as [-> | ->]; unfold w; [rewrite cross_perp1 | rewrite cross_perp2]; unfold Rdiv; ring. }
  assert (O : dot n0 (tangent3 J dir) = determinant 3 J / norm w).
  { unfold n0. rewrite dot_scaled by lra. f_equal. apply triple3. assumption. }
  assert (IP : 0 < / norm w) by (apply Rinv_0_lt_compat; assumption).
  assert (S : 0 < determinant 3 J / norm w <-> 0 < determinant 3 J).
  { unfold Rdiv. split; intro A.
    - destruct (Rlt_dec 0 (determinant 3 J)) as [B|B]; [assumption|].
      assert (determinant 3 J * / norm w <= 0 * / norm w)
        by (apply Rmult_le_compat_r; lra). lra.
    - apply Rmult_lt_0_compat; assumption. }
  assert (NN : determinant 3 J / norm w <> 0).
  { unfold Rdiv. apply Rmult_integral_contrapositive. split; [assumption|lra]. }
  destruct minus.
  - rewrite norm_neg, !dot_neg, O. repeat split; try assumption.
    + intros a Ha Na. rewrite dot_neg, (Q a Ha Na). ring.
    + intro A. apply S. lra.
    + intro A. apply S in A. lra.
    + lra.
    + exists (mmul 3 dNdu Ji). split; [reflexivity|assumption].
  - rewrite O. repeat split; try assumption; try apply S.
    exists (mmul 3 dNdu Ji). split; [reflexivity|assumption].
Qed.
Print Assumptions map_face_normal.

(** C88. A singular point of the boundary has the dilation zero and no derivatives. *)
Theorem map_boundary_singular : forall d nen X dNdu t1 t2, d = 2%nat \/ d = 3%nat ->
  Rabs (determinant d (dxdu nen X dNdu)) <= / 1000000000000 ->
  j_det (fst (JacobianFace d d nen X dNdu t1 t2)) = 0 /\
  j_dNdX (fst (JacobianFace d d nen X dNdu t1 t2)) = None.
Proof.
  intros d nen X dNdu t1 t2 D A.
  assert (DD : dim123 d) by (apply dim23_123; assumption).
  rewrite (determinant_ext d _ (mmul nen X dNdu)) in A by
    (try assumption; intros; symmetry; apply mmul_dxdu).
  pose proof (inverse_singular d _ DD A) as E.
  unfold JacobianFace. destruct D as [-> | ->]; cbn [Nat.eqb Nat.ltb Nat.leb]; rewrite E.
  - destruct (normalize _). destruct (normalize _). destruct (Req_EM_T 0 0); [split; reflexivity|lra].
  - destruct (normalize _). destruct (Req_EM_T 0 0); [split; reflexivity|lra].
Qed.
Print Assumptions map_boundary_singular.

(** C88. Along an edge of a volume patch: the tangent is a unit vector in the
    direction of dx/du_t, the dilation is its length. *)
Theorem map_edge_tangent : forall nen X dNdu t, within 3 t ->
  let J := dxdu nen X dNdu in
  let r := fst (JacobianEdge 3 3 nen X dNdu t) in
  let v := snd (JacobianEdge 3 3 nen X dNdu t) in
  j_det r = norm (tangent3 J t) /\
  (noticeable (norm (tangent3 J t)) -> norm v = 1 /\ wedge v (tangent3 J t) = V3 0 0 0 /\
     0 < dot v (tangent3 J t)) /\
  (regular 3 J -> exists dNdX, j_dNdX r = Some dNdX /\ chain1 3 nen J dNdu dNdX) /\
  (Rabs (determinant 3 J) <= / 1000000000000 -> j_dNdX r = None).
Proof.
  intros nen X dNdu t W J. cbv zeta. unfold JacobianEdge.
  rewrite column3, (tangent3_ext (mmul nen X dNdu) J) by apply mmul_dxdu.
  destruct (inverse 3 3 epsZ (mmul nen X dNdu)) as [dJ Ji] eqn:E.
  destruct (normalize (tangent3 J t)) as [tn dS] eqn:T. cbn [fst snd j_det j_dNdX].
  split; [|split; [|split]].
  - rewrite <- (normalize_snd (tangent3 J t)), T. reflexivity.
  - intro N. rewrite (normalize_noticeable _ N) in T. injection T as <- _.
    pose proof (noticeable_pos _ N) as P. split; [exact (norm_scaled (tangent3 J t) P)|]. split.
    + set (l := norm (tangent3 J t)) in *. unfold wedge, tangent3. cbn [vx vy vz]. f_equal; field; lra.
    + change (0 < dot (V3 (vx (tangent3 J t) / norm (tangent3 J t)) (vy (tangent3 J t) / norm (tangent3 J t))
        (vz (tangent3 J t) / norm (tangent3 J t))) (tangent3 J t)).
      rewrite dot_scaled by lra. rewrite <- norm_sq. apply Rdiv_lt_0_compat; [|assumption].
      apply Rmult_lt_0_compat; assumption.
  - intro R. destruct (face_rest 3 nen X dNdu (or_intror (or_intror eq_refl)) R)
      as [Ji' [I [E' [NZ C]]]]. rewrite E in E'. injection E' as -> ->.
    destruct (Req_EM_T _ _); [contradiction|]. eexists. split; [reflexivity|assumption].
  - intro A. unfold J in A. rewrite (determinant_ext 3 _ (mmul nen X dNdu)) in A by
      (try (right; right; reflexivity); intros; symmetry; apply mmul_dxdu).
    rewrite (inverse_singular 3 _ (or_intror (or_intror eq_refl)) A) in E. injection E as <- _.
    destruct (Req_EM_T 0 0); [reflexivity|lra].
Qed.
Print Assumptions map_edge_tangent.

(** C89. The gradient of the Jacobian and of its determinant, with respect to x:
    along u_a they change at the rates given by the chain rule. *)
Theorem map_jacobian_gradient : forall d J Ji H a i b, is_inverse d J Ji -> within d a -> within d b ->
  (forall r p q, within d p -> within d q -> H r p q = H r q p) ->
  derivable_pt_lim (fun t => moved J H a t i b) 0
    (Sig d (fun j => JacobianGradient d Ji H (fun _ _ _ => 0) j i b * J j a)).
Proof.
  intros d J Ji H a i b I Ha Hb S. rewrite Sig_sum.
  replace (sum d _) with (H i b a).
  - eapply dlim_ext; [|apply (dlim_cubic (J i b) (H i b a) 0 0)]. intro t. unfold moved. ring.
  - unfold JacobianGradient.
    rewrite (sum_ext d _ (fun j => sum d (fun k => Ji k j * H i k b) * J j a)) by (intros; ring).
    rewrite (grad_push d J Ji (fun k => H i k b) a I Ha). apply S; assumption.
Qed.
Print Assumptions map_jacobian_gradient.

Theorem map_det_gradient : forall d J Ji H a, d = 2%nat \/ d = 3%nat -> is_inverse d J Ji -> within d a ->
  derivable_pt_lim (fun t => determinant d (moved J H a t)) 0
    (Sig d (fun j => detJacGradient d J Ji H j * J j a)).
Proof.
  intros d J Ji H a D I Ha. rewrite Sig_sum. unfold detJacGradient.
  rewrite (grad_push d J Ji (dDetdu d J H) a I Ha). apply dDetdu_lim; assumption.
Qed.
Print Assumptions map_det_gradient.

(** C89. Function i of basis b is mapped to the vector J e_b N / det J; dPdX is the
    gradient of its components. *)
Theorem map_piola : forall d J Ji H N dN b i j, d = 2%nat \/ d = 3%nat -> is_inverse d J Ji ->
  determinant d J <> 0 -> within d b -> within d j ->
  (forall r p q, within d p -> within d q -> H r p q = H r q p) ->
  piolaBasis (determinant d J) J N b i j = J j b * N b i / determinant d J /\
  forall a, within d a ->
  derivable_pt_lim (fun t => moved J H a t j b * (N b i + t * dN b i a) / determinant d (moved J H a t)) 0
    (Sig d (fun x => piolaGradient d (determinant d J) J Ji H N dN b i x j * J x a)).
Proof.
  intros d J Ji H N dN b i j D I NZ Hb Hj S. split.
  - unfold piolaBasis. field. assumption.
  - intros a Ha. rewrite Sig_sum.
    rewrite (sum_ext d _ (fun x => sum d (fun k => Ji k x * dPdu d (determinant d J) J H N dN b i j k) * J x a)).
    + rewrite (grad_push d J Ji (dPdu d (determinant d J) J H N dN b i j) a I Ha).
      apply dPdu_lim; assumption.
    + intros x Hx. f_equal. apply piolaGradient_form; assumption.
Qed.
Print Assumptions map_piola.

(** C89. The divergence of a mapped function is the parametric one over det J: a
    solenoidal field stays solenoidal. *)
Theorem map_piola_divergence : forall d J Ji H N dN b i, d = 2%nat \/ d = 3%nat -> is_inverse d J Ji ->
  determinant d J <> 0 -> within d b ->
  (forall r p q, within d p -> within d q -> H r p q = H r q p) ->
  Sig d (fun j => piolaGradient d (determinant d J) J Ji H N dN b i j j) = dN b i b / determinant d J.
Proof. intros. rewrite Sig_sum. apply piola_divergence; assumption. Qed.
Print Assumptions map_piola_divergence.

(** C89, refuted: in one dimension the gradient of the determinant is zero. *)
Theorem map_det_gradient_1d_refuted : exists J Ji H,
  is_inverse 1 J Ji /\ Sig 1 (fun j => detJacGradient 1 J Ji H j * J j 1%nat) = 0 /\
  derivable_pt_lim (fun t => determinant 1 (moved J H 1 t)) 0 1.
Proof.
  exists (fun _ _ => 1), (fun _ _ => 1), (fun _ _ _ => 1). split; [|split].
  - intros i j Hi Hj. apply within1 in Hi, Hj. subst. unfold Sig, delta. cbn. lra.
  - unfold Sig, detJacGradient, dDetdu. cbn. ring.
  - eapply dlim_ext; [|apply (dlim_cubic 1 1 0 0)]. intro t. unfold moved. cbn. ring.
Qed.
Print Assumptions map_det_gradient_1d_refuted.

(** C89, refuted: when the output matrices of the Jacobian gradient are used again,
    their old values are added to the result. *)
Theorem map_jacobian_gradient_reuse_refuted : forall d Ji H old j i b,
  JacobianGradient d Ji H old j i b = old j i b + JacobianGradient d Ji H (fun _ _ _ => 0) j i b.
Proof. intros. unfold JacobianGradient. ring. Qed.
Print Assumptions map_jacobian_gradient_reuse_refuted.

(** C89. The stabilization matrix G is symmetric and positive semi-definite. *)
Theorem map_gmat : forall d Ji du,
  (forall k l, getGmat d Ji du k l = getGmat d Ji du l k) /\
  (forall x : nat -> R, (forall k, within d k -> du k <> 0) ->
    0 <= Sig d (fun k => Sig d (fun l => x k * getGmat d Ji du k l * x l))).
Proof.
  intros d Ji du. split.
  - intros k l. unfold getGmat. apply sum_ext. intros m _. rewrite (Rmult_comm (du k)). ring.
  - intros x NZ. rewrite Sig_sum.
    rewrite (sum_ext d _ (fun k => sum d (fun l => sum d (fun m =>
      2 ^ d * ((Ji m k * x k / du k) * (Ji m l * x l / du l)))))).
    + apply Rle_trans with (sum d (fun m => 2 ^ d * (sum d (fun k => Ji m k * x k / du k) *
         sum d (fun k => Ji m k * x k / du k)))).
      * assert (G : forall n f, (forall m, 0 <= f m) -> 0 <= sum n f).
        { induction n; intros f P; cbn [sum]; [lra|]. pose proof (P (S n)). pose proof (IHn f P). lra. }
        apply G. intro m. apply Rmult_le_pos; [apply pow_le; lra|]. apply Rle_0_sqr.
      * apply Req_le. symmetry.
        transitivity (sum d (fun k => sum d (fun m => sum d (fun l =>
          2 ^ d * ((Ji m k * x k / du k) * (Ji m l * x l / du l)))))).
        { apply sum_ext. intros k _. apply sum_swap. }
        rewrite sum_swap. apply sum_ext. intros m _.
        transitivity (sum d (fun k => (2 ^ d * (Ji m k * x k / du k)) *
           sum d (fun l => Ji m l * x l / du l))).
        { apply sum_ext. intros k _. rewrite <- sum_scal. apply sum_ext. intros; ring. }
        rewrite sum_scalr, sum_scal. ring.
    + intros k Hk. rewrite Sig_sum. apply sum_ext. intros l Hl. unfold getGmat.
      rewrite <- sum_scal, <- sum_scalr. apply sum_ext. intros m _. field.
      split; apply NZ; assumption.
Qed.
Print Assumptions map_gmat.

(** C89, refuted: G depends on the parametrization of the element.  When the first
    parameter (and its knot span) is scaled by s, the first row of the inverse
    Jacobian is scaled by s, but G changes. *)
Theorem map_gmat_parametrization_refuted : exists Ji du s, s <> 0 /\ (forall k, du k = 1) /\
  getGmat 2 (fun m k => (if (m =? 1)%nat then s else 1) * Ji m k)
            (fun k => (if (k =? 1)%nat then s else 1) * du k) 2%nat 2%nat
  <> getGmat 2 Ji du 2%nat 2%nat.
Proof.
  exists (fun _ _ => 1), (fun _ => 1), 2. split; [lra|]. split; [reflexivity|].
  unfold getGmat. cbn. lra.
Qed.
Print Assumptions map_gmat_parametrization_refuted.

(** Concrete cases: a skewed plane mapping and a right-handed skewed volume. *)
Definition sk2 : mat := fun i n => if (i =? 1)%nat && (n =? 2)%nat then 3 else 2 * delta i n.
Definition sk3 : mat := fun i n => if (i =? 3)%nat && (n =? 1)%nat then 1 else 2 * delta i n.
Definition unit_dN : mat := fun n a => delta n a.
Lemma sk2_val : forall i a, within 2 i -> within 2 a -> dxdu 2 sk2 unit_dN i a = sk2 i a.
Proof.
  intros i a Hi Ha. apply within2 in Hi, Ha. unfold dxdu, Sig, sk2, unit_dN, delta.
  destruct Hi as [-> | ->], Ha as [-> | ->]; cbn; ring.
Qed.
Example map_edge_ex : regular 2 (dxdu 2 sk2 unit_dN) /\
  noticeable (norm (tangent2 (dxdu 2 sk2 unit_dN) (3 - 1))).
Proof.
  assert (W1 : within 2 1) by (unfold within; lia). assert (W2 : within 2 2) by (unfold within; lia).
  unfold regular, determinant, noticeable, norm, tangent2, dot. cbn [vx vy vz Nat.sub].
  rewrite !sk2_val by assumption. unfold sk2, delta. cbn. rewrite Rabs_right by lra.
  repeat split; try lra. apply Rlt_trans with 1; [lra|]. rewrite <- sqrt_1 at 1.
  apply sqrt_lt_1; lra.
Qed.
Lemma sk3_val : forall i a, within 3 i -> within 3 a -> dxdu 3 sk3 unit_dN i a = sk3 i a.
Proof.
  intros i a Hi Ha. apply within3 in Hi, Ha. unfold dxdu, Sig, sk3, unit_dN, delta.
  destruct Hi as [-> |[-> | ->]], Ha as [-> |[-> | ->]]; cbn; ring.
Qed.
Example map_face_ex : regular 3 (dxdu 3 sk3 unit_dN) /\
  noticeable (norm (wedge (tangent3 (dxdu 3 sk3 unit_dN) (1 + 3 mod 3))
                          (tangent3 (dxdu 3 sk3 unit_dN) (1 + (1 + 3 mod 3) mod 3)))).
Proof.
  assert (W1 : within 3 1) by (unfold within; lia). assert (W2 : within 3 2) by (unfold within; lia).
  assert (W3 : within 3 3) by (unfold within; lia).
  unfold regular, determinant, noticeable, norm, tangent3, wedge, dot.
  change (1 + 3 mod 3)%nat with 1%nat. change (1 + 1 mod 3)%nat with 2%nat. cbn [vx vy vz].
  rewrite !sk3_val by assumption. unfold sk3, delta. cbn. rewrite Rabs_right by lra.
  repeat split; try lra. apply Rlt_trans with 1; [lra|]. rewrite <- sqrt_1 at 1.
  apply sqrt_lt_1; lra.
Qed.
Example map_shell_ex :
  noticeable (norm (tangent3 (dxdu 3 sk3 unit_dN) (3 - 2))) /\
  noticeable (norm (wedge (tangent3 (dxdu 3 sk3 unit_dN) 2) (tangent3 (dxdu 3 sk3 unit_dN) (3 - 2)))).
Proof.
  assert (W1 : within 3 1) by (unfold within; lia). assert (W2 : within 3 2) by (unfold within; lia).
  assert (W3 : within 3 3) by (unfold within; lia).
  unfold noticeable, norm, tangent3, wedge, dot. cbn [vx vy vz Nat.sub].
  rewrite !sk3_val by assumption. unfold sk3, delta. cbn.
  split; (apply Rlt_trans with 1; [lra|]; rewrite <- sqrt_1 at 1; apply sqrt_lt_1; lra).
Qed.
Example map_piola_ex : is_inverse 2 (fun i j => 2 * delta i j) (fun i j => / 2 * delta i j) /\
  determinant 2 (fun i j => 2 * delta i j) <> 0 /\
  (forall r p q : nat, INR (r + p + q) = INR (r + q + p)).
Proof.
  split; [|split].
  - intros i j Hi Hj. apply within2 in Hi, Hj. unfold Sig, delta.
    destruct Hi as [-> | ->], Hj as [-> | ->]; cbn; split; lra.
  - unfold determinant, delta. cbn. lra.
  - intros. f_equal. lia.
Qed.
