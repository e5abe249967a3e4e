(** C86-C87: Jacobians, gradients and higher derivatives of finite elements. *)
From Coq Require Import Reals List Arith Bool Lia Lra.
From Verif Require Import Map_model Map_spec Map_proofs Map_proofs2.
Local Open Scope R_scope.

(** C86. In a regular point of an element whose parameter space and physical
    space have the same dimension, the returned value is the determinant of
    dx/du and J holds the inverse; dNdX satisfies the chain rule, is the only
    matrix that does, and differentiates the coordinates exactly. *)
Theorem map_jacobian : forall d nen X dNdu old, dim123 d -> regular d (dxdu nen X dNdu) ->
  let r := Jacobian d d nen X dNdu true old in
  j_det r = determinant d (dxdu nen X dNdu) /\ is_inverse d (dxdu nen X dNdu) (j_J r) /\
  exists dNdX, j_dNdX r = Some dNdX /\
    chain1 d nen (dxdu nen X dNdu) dNdu dNdX /\
    (forall G, chain1 d nen (dxdu nen X dNdu) dNdu G ->
      forall n j, within nen n -> within d j -> G n j = dNdX n j) /\
    (forall i j, within d i -> within d j -> Sig nen (fun n => X i n * dNdX n j) = delta i j).
Proof.
  intros d nen X dNdu old D R. cbv zeta.
  destruct (Jacobian_regular d nen X dNdu old D R) as [Ji [I ->]]. cbn [j_det j_J j_dNdX].
  split; [reflexivity|]. split; [assumption|]. exists (mmul d dNdu Ji). split; [reflexivity|].
  split; [apply chain1_mul; assumption|]. split.
  - intros G C n j Hn Hj. apply (chain1_unique d nen _ Ji dNdu G I C n j Hn Hj).
  - intros i j Hi Hj. rewrite Sig_sum. apply linear1; assumption.
Qed.
Print Assumptions map_jacobian.

(** C86. A point with a determinant of at most 1e-12 in absolute value is singular:
    the value is zero and the derivatives are cleared; no other point is. *)
Theorem map_jacobian_singular : forall d nen X dNdu old, dim123 d ->
  let r := Jacobian d d nen X dNdu true old in
  (Rabs (determinant d (dxdu nen X dNdu)) <= / 1000000000000 -> j_det r = 0 /\ j_dNdX r = None) /\
  (j_det r = 0 -> Rabs (determinant d (dxdu nen X dNdu)) <= / 1000000000000) /\
  (j_dNdX r = None -> Rabs (determinant d (dxdu nen X dNdu)) <= / 1000000000000).
Proof.
  intros d nen X dNdu old D. cbv zeta.
  destruct (Rle_dec (Rabs (determinant d (dxdu nen X dNdu))) (/ 1000000000000)) as [A|A].
  - destruct (Jacobian_singular d nen X dNdu old D A) as [J ->]. cbn. auto.
  - destruct (Req_EM_T (determinant d (dxdu nen X dNdu)) (-999)) as [E|E].
    + assert (F : inverse d d epsZ (mmul nen X dNdu) = (-999, mmul nen X dNdu)).
      { unfold inverse. rewrite det_determinant by assumption.
        rewrite (determinant_ext d (mmul nen X dNdu) (dxdu nen X dNdu))
          by (try assumption; intros; apply mmul_dxdu).
        rewrite E. destruct (Req_EM_T _ _); [reflexivity|lra]. }
      rewrite Jacobian_square, F by assumption.
      destruct (Req_EM_T (-999) 0); [lra|]. cbn. split; [intro; contradiction|]. split; [lra|discriminate].
    + assert (R : regular d (dxdu nen X dNdu)) by (split; [lra|assumption]).
      destruct (Jacobian_regular d nen X dNdu old D R) as [Ji [I ->]]. cbn [j_det j_dNdX].
      split; [intro; contradiction|]. split; [|discriminate].
      intro Z. destruct (regular_nz _ _ R Z).
Qed.
Print Assumptions map_jacobian_singular.

(** C86. Without gradients the same value and inverse are returned and the
    derivatives are left alone. *)
Theorem map_jacobian_nograd : forall d nen X dNdu old old', dim123 d ->
  let r := Jacobian d d nen X dNdu false old in
  let g := Jacobian d d nen X dNdu true old' in
  j_det r = j_det g /\ (forall i j, j_J r i j = j_J g i j) /\ j_dNdX r = old.
Proof.
  intros d nen X dNdu old old' D. cbv zeta. rewrite !Jacobian_square by assumption.
  destruct (inverse _ _ _ _). cbn. auto.
Qed.
Print Assumptions map_jacobian_nograd.

(** C86. Curves in the plane and in space: the value is the length of the tangent. *)
Theorem map_jacobian_curve : forall rows nen X dNdu g old, rows = 2%nat \/ rows = 3%nat ->
  let r := Jacobian rows 1 nen X dNdu g old in
  0 <= j_det r /\
  j_det r * j_det r = Sig rows (fun i => dxdu nen X dNdu i 1%nat * dxdu nen X dNdu i 1%nat) /\
  j_dNdX r = Some dNdu.
Proof.
  intros rows nen X dNdu g old D. cbv zeta.
  assert (E : Jacobian rows 1 nen X dNdu g old
    = mkJ (length (column rows (mmul nen X dNdu) 1)) (mmul nen X dNdu) (Some dNdu))
    by (destruct D as [-> | ->]; reflexivity).
  rewrite E. cbn [j_det j_dNdX]. rewrite length_norm.
  split; [apply norm_nonneg|]. split; [|reflexivity].
  rewrite norm_sq, Sig_sum.
  destruct D as [-> | ->]; unfold dot; cbn; rewrite !mmul_dxdu; ring.
Qed.
Print Assumptions map_jacobian_curve.

(** C86. Surfaces in space: the value is the area of the parallelogram of the two
    tangents. *)
Theorem map_jacobian_surface : forall nen X dNdu g old,
  let J := dxdu nen X dNdu in
  let r := Jacobian 3 2 nen X dNdu g old in
  0 <= j_det r /\
  j_det r * j_det r
    = dot (tangent3 J 1) (tangent3 J 1) * dot (tangent3 J 2) (tangent3 J 2)
      - dot (tangent3 J 1) (tangent3 J 2) * dot (tangent3 J 1) (tangent3 J 2) /\
  j_dNdX r = Some dNdu.
Proof.
  intros nen X dNdu g old. cbv zeta. cbn [Jacobian j_det j_dNdX Nat.eqb andb Nat.ltb Nat.leb].
  unfold Jacobian. cbn [j_det j_dNdX Nat.eqb andb Nat.ltb Nat.leb].
  rewrite length_norm. split; [apply norm_nonneg|]. split; [|reflexivity].
  rewrite norm_sq, cross_wedge, !column3.
  rewrite !(tangent3_ext (mmul nen X dNdu) (dxdu nen X dNdu)) by apply mmul_dxdu.
  unfold dot, wedge. cbn [vx vy vz]. ring.
Qed.
Print Assumptions map_jacobian_surface.

(** C86, refuted: a mapping with determinant -999 is taken for an error of the
    determinant; J is not inverted and the derivatives violate the chain rule. *)
Theorem map_jacobian_999_refuted : exists X dNdu,
  determinant 1 (dxdu 1 X dNdu) = -999 /\
  let r := Jacobian 1 1 1 X dNdu true None in
  ~ is_inverse 1 (dxdu 1 X dNdu) (j_J r) /\
  exists dNdX, j_dNdX r = Some dNdX /\ ~ chain1 1 1 (dxdu 1 X dNdu) dNdu dNdX.
Proof.
  exists (fun _ _ => -999), (fun _ _ => 1).
  assert (V : forall i a, dxdu 1 (fun _ _ => -999) (fun _ _ => 1) i a = -999)
    by (intros; unfold dxdu, Sig; cbn; ring).
  split; [apply V|]. cbv zeta. rewrite Jacobian_square by (left; reflexivity).
  assert (F : inverse 1 1 epsZ (mmul 1 (fun _ _ => -999) (fun _ _ => 1))
    = (-999, mmul 1 (fun _ _ => -999) (fun _ _ => 1))).
  { unfold inverse. rewrite det_determinant by (left; reflexivity). cbn [determinant].
    rewrite mmul_dxdu, V. destruct (Req_EM_T _ _); [reflexivity|lra]. }
  rewrite F. destruct (Req_EM_T (-999) 0); [lra|]. cbn [j_J j_dNdX].
  assert (W : within 1 1) by (unfold within; lia).
  split.
  - intro I. pose proof (proj1 (I 1%nat 1%nat W W)) as E. unfold Sig in E. cbn -[dxdu mmul] in E.
    rewrite mmul_dxdu, V in E. unfold delta in E. cbn in E. lra.
  - eexists. split; [reflexivity|]. intro C. pose proof (C 1%nat 1%nat W W) as E.
    unfold Sig, mmul in E. cbn -[dxdu] in E. rewrite V in E. lra.
Qed.
Print Assumptions map_jacobian_999_refuted.

(** C87. In a regular point of a structured patch, the second derivatives satisfy
    the second order chain rule (and are the only ones that do with the first
    derivatives returned), are symmetric, and vanish for the coordinates. *)
Theorem map_hessian : forall d nen X dNdu d2Ndu2, dim123 d ->
  regular d (dxdu nen X dNdu) -> symmetric2 d nen d2Ndu2 ->
  exists dNdX d2NdX2,
    j_dNdX (fst (structuredPoint d nen X dNdu d2Ndu2)) = Some dNdX /\
    snd (structuredPoint d nen X dNdu d2Ndu2) = Some d2NdX2 /\
    chain1 d nen (dxdu nen X dNdu) dNdu dNdX /\
    chain2 d nen (dxdu nen X dNdu) (d2xdu2 nen X d2Ndu2) d2Ndu2 dNdX d2NdX2 /\
    (forall G, chain2 d nen (dxdu nen X dNdu) (d2xdu2 nen X d2Ndu2) d2Ndu2 dNdX G ->
      forall n i j, within nen n -> within d i -> within d j -> G n i j = d2NdX2 n i j) /\
    symmetric2 d nen d2NdX2 /\
    (forall k i j, within d k -> within d i -> within d j ->
      Sig nen (fun n => X k n * d2NdX2 n i j) = 0).
Proof.
  intros d nen X dNdu D2 D R S. unfold structuredPoint.
  destruct (Jacobian_regular d nen X dNdu None D R) as [Ji [I ->]]. cbn [j_J j_dNdX fst snd Hessian].
  exists (mmul d dNdu Ji), (hess d (mmul3 nen X D2) Ji D2 (mmul d dNdu Ji)).
  split; [reflexivity|]. split; [rewrite Nat.ltb_irrefl; reflexivity|].
  split; [apply chain1_mul; assumption|].
  assert (C : chain2 d nen (dxdu nen X dNdu) (d2xdu2 nen X D2) D2 (mmul d dNdu Ji)
    (hess d (mmul3 nen X D2) Ji D2 (mmul d dNdu Ji))) by (apply chain2_hess; assumption).
  split; [assumption|]. split; [|split].
  - intros G CG n i j Hn Hi Hj. apply (chain2_unique d nen _ Ji _ _ _ _ _ I CG C n i j Hn Hi Hj).
  - intros n a b _ _ _. unfold hess. rewrite Nat.max_comm, Nat.min_comm. reflexivity.
  - intros k i j Hk Hi Hj. rewrite Sig_sum. apply linear2; [assumption | | assumption].
    intros p q Hp Hq. apply linear1; assumption.
Qed.
Print Assumptions map_hessian.

(** C87. A singular point has no second derivatives either. *)
Theorem map_hessian_singular : forall d nen X dNdu d2Ndu2, dim123 d ->
  Rabs (determinant d (dxdu nen X dNdu)) <= / 1000000000000 ->
  snd (structuredPoint d nen X dNdu d2Ndu2) = None.
Proof.
  intros d nen X dNdu D2 D A. unfold structuredPoint.
  destruct (Jacobian_singular d nen X dNdu None D A) as [J ->]. reflexivity.
Qed.
Print Assumptions map_hessian_singular.

(** C87. An unstructured patch gets the same second derivatives when the geometry
    is affine in the element. *)
Theorem map_hessian_unstructured_affine : forall d nen X dNdu d2Ndu2, dim123 d ->
  regular d (dxdu nen X dNdu) -> symmetric2 d nen d2Ndu2 ->
  (forall i a b, within d i -> within d a -> within d b -> d2xdu2 nen X d2Ndu2 i a b = 0) ->
  exists dNdX d2NdX2,
    j_dNdX (fst (unstructuredPoint d nen X dNdu d2Ndu2)) = Some dNdX /\
    snd (unstructuredPoint d nen X dNdu d2Ndu2) = Some d2NdX2 /\
    chain1 d nen (dxdu nen X dNdu) dNdu dNdX /\
    chain2 d nen (dxdu nen X dNdu) (d2xdu2 nen X d2Ndu2) d2Ndu2 dNdX d2NdX2.
Proof.
  intros d nen X dNdu D2 D R S Z. unfold unstructuredPoint.
  destruct (Jacobian_regular d nen X dNdu None D R) as [Ji [I ->]]. cbn [j_J j_dNdX fst snd Hessian].
  exists (mmul d dNdu Ji), (hess d (mmul3 nen X D2) Ji D2 dNdu).
  split; [reflexivity|]. split; [rewrite Nat.ltb_irrefl; reflexivity|].
  split; [apply chain1_mul; assumption|].
  intros n a b Hn Ha Hb.
  rewrite (chain2_hess d nen X (dxdu nen X dNdu) Ji D2 dNdu I S n a b Hn Ha Hb) at 1.
  f_equal. apply Sig_ext. intros i Hi. rewrite (Z i a b Hi Ha Hb). ring.
Qed.
Print Assumptions map_hessian_unstructured_affine.

(** C87. In any regular point the second derivatives of an unstructured patch
    satisfy the chain rule with dNdu in the place of dNdX ... *)
Theorem map_hessian_unstructured : forall d nen X dNdu d2Ndu2, dim123 d ->
  regular d (dxdu nen X dNdu) -> symmetric2 d nen d2Ndu2 ->
  exists d2NdX2, snd (unstructuredPoint d nen X dNdu d2Ndu2) = Some d2NdX2 /\
    chain2 d nen (dxdu nen X dNdu) (d2xdu2 nen X d2Ndu2) d2Ndu2 dNdu d2NdX2.
Proof.
  intros d nen X dNdu D2 D R S. unfold unstructuredPoint.
  destruct (Jacobian_regular d nen X dNdu None D R) as [Ji [I ->]]. cbn [j_J j_dNdX fst snd Hessian].
  exists (hess d (mmul3 nen X D2) Ji D2 dNdu).
  split; [rewrite Nat.ltb_irrefl; reflexivity|]. apply chain2_hess; assumption.
Qed.
Print Assumptions map_hessian_unstructured.

(** ... which is wrong.  Refuted: on the plane geometry x = 2u + u^2/2, y = v at
    u = 0 (a regular point; the basis functions are the coordinates themselves),
    the coordinate x gets the second derivative -1/4 in an unstructured patch. *)
Definition rf_X : mat := fun i n => delta i n.
Definition rf_dN : mat := fun n a => if (n =? 1)%nat && (a =? 1)%nat then 2 else delta n a.
Definition rf_d2N : mat3 := fun n a b =>
  if (n =? 1)%nat && (a =? 1)%nat && (b =? 1)%nat then 1 else 0.

Theorem map_hessian_unstructured_refuted :
  regular 2 (dxdu 2 rf_X rf_dN) /\ symmetric2 2 2 rf_d2N /\
  exists dNdX d2NdX2,
    j_dNdX (fst (unstructuredPoint 2 2 rf_X rf_dN rf_d2N)) = Some dNdX /\
    snd (unstructuredPoint 2 2 rf_X rf_dN rf_d2N) = Some d2NdX2 /\
    Sig 2 (fun n => rf_X 1%nat n * d2NdX2 n 1%nat 1%nat) = - / 4 /\
    ~ chain2 2 2 (dxdu 2 rf_X rf_dN) (d2xdu2 2 rf_X rf_d2N) rf_d2N dNdX d2NdX2.
Proof.
  assert (R : regular 2 (dxdu 2 rf_X rf_dN)).
  { unfold regular, determinant, dxdu, Sig, rf_X, rf_dN, delta. cbn.
    rewrite Rabs_right by lra. split; lra. }
  assert (S : symmetric2 2 2 rf_d2N).
  { intros n a b _ _ _. unfold rf_d2N. rewrite <- !andb_assoc, (andb_comm (a =? 1)%nat). reflexivity. }
  split; [assumption|]. split; [assumption|].
  unfold unstructuredPoint, Jacobian. cbn [Nat.eqb andb Nat.ltb Nat.leb].
  rewrite inverse_regular.
  2:{ right; left; reflexivity. }
  2:{ apply (regular_ext 2 (dxdu 2 rf_X rf_dN)); [right; left; reflexivity | | assumption].
      intros. symmetry. apply mmul_dxdu. }
  assert (DV : determinant 2 (mmul 2 rf_X rf_dN) = 2).
  { unfold determinant, mmul, rf_X, rf_dN, delta. cbn. ring. }
  rewrite DV. destruct (Req_EM_T 2 0) as [|NZ]; [lra|].
  cbn [j_dNdX j_J fst snd Hessian Nat.ltb Nat.leb].
  eexists; eexists. split; [reflexivity|]. split; [reflexivity|].
  assert (V : forall n, hess 2 (mmul3 2 rf_X rf_d2N)
    (invEntries 2 (mmul 2 rf_X rf_dN) 2) rf_d2N rf_dN n 1%nat 1%nat
     = if (n =? 1)%nat then - / 4 else 0).
  { intro n. unfold hess, mmul3, mmul, rf_X, rf_dN, rf_d2N, delta.
    destruct n as [|[|n]]; cbn; field. }
  split.
  - unfold Sig. cbn [map seq fold_right]. rewrite !V. unfold rf_X, delta. cbn. ring.
  - intro C.
    assert (W1 : within 2 1) by (unfold within; lia).
    pose proof (C 1%nat 1%nat 1%nat W1 W1 W1) as E. unfold Sig in E. cbn [map seq fold_right] in E.
    rewrite V in E. revert E.
    unfold dxdu, d2xdu2, Sig, mmul, rf_X, rf_dN, rf_d2N, delta. cbn. lra.
Qed.
Print Assumptions map_hessian_unstructured_refuted.

(** C87. The matrix form holds the pairs 11, 22, 33, 12, 13, 23. *)
Theorem map_hessian_columns : forall d Hess r c i j, dim123 d ->
  nth_error (voigt d) c = Some (i, j) -> HessianVoigt d Hess r (c + 1)%nat = Hess r i j.
Proof.
  intros d Hess r c i j [-> |[-> | ->]] E;
    do 7 (destruct c as [|c]; [cbn in E; try discriminate; injection E as <- <-; reflexivity|]);
    destruct c; discriminate.
Qed.
Print Assumptions map_hessian_columns.

(** C87. The third derivatives satisfy the third order chain rule of an affine
    geometry, in one and two dimensions; they are refused in three. *)
Theorem map_third : forall d nen J Ji D, d = 1%nat \/ d = 2%nat ->
  is_inverse d J Ji -> symmetric3 d nen D ->
  exists d3NdX3, Hessian2 d Ji D = Some d3NdX3 /\ chain3affine d nen J D d3NdX3.
Proof.
  intros d nen J Ji D DD I S.
  assert (E : exists h, Hessian2 d Ji D = Some h).
  { destruct DD as [-> | ->]; unfold Hessian2; cbn [Nat.eqb negb]; eexists; reflexivity. }
  destruct E as [h E]. exists h. split; [assumption|].
  intros n a b c Hn Ha Hb Hc. rewrite Sig_sum.
  rewrite <- (lift3_push d J Ji I (D n) a b c Ha Hb Hc).
  apply sum_ext; intros i Hi. rewrite Sig_sum. apply sum_ext; intros j Hj.
  rewrite Sig_sum. apply sum_ext; intros k Hk.
  rewrite (Hessian2_lift d nen Ji D h DD S E n i j k Hn Hi Hj Hk). reflexivity.
Qed.
Print Assumptions map_third.

Theorem map_third_3d_missing : forall Ji D, Hessian2 3 Ji D = None.
Proof. reflexivity. Qed.
Print Assumptions map_third_3d_missing.

(** C87, refuted for geometries that are not affine: x = u + u^2/2 + u^3/6 at u = 0,
    N = x; the third derivative of x with respect to itself is 1. *)
Theorem map_third_refuted :
  let X : mat := fun _ _ => 1 in
  let dN : mat := fun _ _ => 1 in
  let d3N : mat4 := fun _ _ _ _ => 1 in
  regular 1 (dxdu 1 X dN) /\
  exists d3NdX3, Hessian2 1 (j_J (Jacobian 1 1 1 X dN true None)) d3N = Some d3NdX3 /\
    Sig 1 (fun n => X 1%nat n * d3NdX3 n 1%nat 1%nat 1%nat) = 1.
Proof.
  cbv zeta.
  assert (V : forall i a, dxdu 1 (fun _ _ => 1) (fun _ _ => 1) i a = 1)
    by (intros; unfold dxdu, Sig; cbn; ring).
  assert (R : regular 1 (dxdu 1 (fun _ _ => 1) (fun _ _ => 1))).
  { unfold regular. cbn [determinant]. rewrite V, Rabs_right by lra. split; lra. }
  split; [assumption|].
  destruct (Jacobian_regular 1 1 (fun _ _ => 1) (fun _ _ => 1) None (or_introl eq_refl) R)
    as [Ji [I ->]]. cbn [j_J].
  assert (W : within 1 1) by (unfold within; lia).
  assert (E : Ji 1%nat 1%nat = 1).
  { pose proof (proj1 (I 1%nat 1%nat W W)) as E. unfold Sig in E. cbn -[dxdu] in E.
    rewrite V in E. unfold delta in E. cbn in E. lra. }
  eexists. split; [reflexivity|]. unfold Sig. cbn. rewrite E. ring.
Qed.
Print Assumptions map_third_refuted.

(** Concrete case: the bilinear element on the trapezoid (0,0),(2,0),(0,1),(1,1)
    at the midpoint: dx/du = 3/2, dx/dv = -1/2, dy/du = 0, dy/dv = 1. *)
Definition tz_X : mat := fun i n =>
  match i, n with
  | 1%nat, 2%nat => 2 | 1%nat, 4%nat => 1 | 2%nat, 3%nat => 1 | 2%nat, 4%nat => 1 | _, _ => 0
  end.
Definition tz_dN : mat := fun n a =>
  match n, a with
  | 1%nat, _ => - (1 / 2) | 4%nat, _ => 1 / 2
  | 2%nat, 1%nat => 1 / 2 | 2%nat, _ => - (1 / 2)
  | 3%nat, 1%nat => - (1 / 2) | _, _ => 1 / 2
  end.
Definition tz_d2N : mat3 := fun n a b =>
  if (a =? b)%nat then 0 else match n with 1%nat | 4%nat => 1 | _ => -1 end.
Example map_regular_ex : regular 2 (dxdu 4 tz_X tz_dN).
Proof.
  unfold regular, determinant, dxdu, Sig, tz_X, tz_dN. cbn.
  rewrite Rabs_right by lra. split; lra.
Qed.
Example map_symmetric_ex : symmetric2 2 4 tz_d2N /\ d2xdu2 4 tz_X tz_d2N 1%nat 1%nat 2%nat = -1.
Proof.
  split.
  - intros n a b _ _ _. unfold tz_d2N. rewrite Nat.eqb_sym. reflexivity.
  - unfold d2xdu2, Sig, tz_X, tz_d2N. cbn. ring.
Qed.
Example map_affine_ex : forall i a b, d2xdu2 4 tz_X (fun _ _ _ => 0) i a b = 0.
Proof. intros. unfold d2xdu2, Sig. cbn. ring. Qed.
Example map_singular_ex : Rabs (determinant 2 (dxdu 4 (fun i n => 0) tz_dN)) <= / 1000000000000.
Proof. unfold determinant, dxdu, Sig. cbn. rewrite Rabs_right; lra. Qed.
Example map_third_ex : is_inverse 2 (fun i j => 2 * delta i j) (fun i j => / 2 * delta i j) /\
  symmetric3 2 4 (fun n a b c => INR (a + b + c)).
Proof.
  split.
  - intros i j Hi Hj. apply within2 in Hi, Hj. unfold Sig, delta.
    destruct Hi as [-> | ->], Hj as [-> | ->]; cbn; split; lra.
  - intros n a b c _ _ _ _. split; f_equal; lia.
Qed.
