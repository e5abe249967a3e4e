(** Principal values in three dimensions and rotations: the theorems. *)
From Coq Require Import Reals List Bool ZArith Lia Lra Arith Nsatz.
From Verif Require Import Ten_model Ten_spec Ten_spec2 Ten_proofs Ten_proofs2 Ten_proofs3 Ten_proofs4.
Import ListNotations.
Local Open Scope R_scope.

(** ** C105: when the deviator is not negligible, the trigonometric formula gives the roots
    of the characteristic polynomial with their multiplicities, sorted if asked for. *)
Theorem C105_principal_3D : forall T sorted, symmT 3 T \/ symm33 T ->
  / 10 ^ 12 * (mtrace 3 (M T) / 3) * (mtrace 3 (M T) / 3) < frob2 3 (dev (M T)) / 2 ->
  exists p, principal T sorted = Some p /\
    (forall x, mdet 3 (shiftm x (M T)) = (x - vx p) * (x - vy p) * (x - vz p)) /\
    (sorted = true -> vz p <= vy p <= vx p).
Proof. exact principal3_ok. Qed.
Print Assumptions C105_principal_3D.

Example C105_meets : symmT 3 (mkT 3 true [1; 2; 3; 4; 5; 6]) /\
  / 10 ^ 12 * (mtrace 3 (M (mkT 3 true [1; 2; 3; 4; 5; 6])) / 3)
    * (mtrace 3 (M (mkT 3 true [1; 2; 3; 4; 5; 6])) / 3)
  < frob2 3 (dev (M (mkT 3 true [1; 2; 3; 4; 5; 6]))) / 2.
Proof.
  split; [wf|].
  replace (mtrace 3 (M (mkT 3 true [1; 2; 3; 4; 5; 6])) / 3) with 2 by (ev; field).
  replace (frob2 3 (dev (M (mkT 3 true [1; 2; 3; 4; 5; 6]))) / 2) with 78 by (ev; field).
  assert (/ 10 ^ 12 <= 1).
  { rewrite <- Rinv_1. apply Rinv_le_contravar; [lra|]. apply pow_R1_Rle. lra. }
  lra.
Qed.

(** ** C106: rotations *)
(** Rotating in place multiplies from the right by the rotation about the axis; about the
    second axis the angle has the opposite sign. *)
Theorem C106_rotate : forall T al axis, full 3 T -> (1 <= axis <= 3)%nat ->
  meq 3 (M (rotate T al axis))
        (mmul 3 (M T) (rotm axis (if (axis =? 2)%nat then - al else al))).
Proof.
  intros T al axis H Ha. fcase H; try discriminate.
  destruct (le3 axis 3 Ha (le_n 3)) as [-> | [-> | ->]]; cbn [Nat.eqb].
  - ij; ev; ring.
  - intros i j Hi Hj. unfold mmul. cbv [rsum rotm]. rewrite cos_neg, sin_neg. revert i j Hi Hj.
    ij; ev; ring.
  - ij; ev; ring.
Qed.
Print Assumptions C106_rotate.
Theorem C106_rotate_2D : forall T al, full 2 T ->
  meq 2 (M (rotate T al 3)) (mmul 2 (M T) (rotm 3 al)).
Proof. intros T al H. fcase H; try discriminate. ij; ev; ring. Qed.
Print Assumptions C106_rotate_2D.
Theorem C106_rotate_sense_refuted :
  ~ (forall T al axis, full 3 T -> (1 <= axis <= 3)%nat ->
       meq 3 (M (rotate T al axis)) (mmul 3 (M T) (rotm axis al))).
Proof.
  intros H.
  specialize (H (mkT 3 false [1;0;0;0;1;0;0;0;1]) (PI / 2) 2%nat ltac:(wf) ltac:(lia)
    1%nat 3%nat ltac:(lia) ltac:(lia)).
  rewrite (C106_rotate (mkT 3 false [1;0;0;0;1;0;0;0;1]) (PI / 2) 2%nat ltac:(wf) ltac:(lia) 1%nat 3%nat ltac:(lia) ltac:(lia)) in H.
  cbn [Nat.eqb] in H.
  assert (L : mmul 3 (M (mkT 3 false [1;0;0;0;1;0;0;0;1])) (rotm 2 (- (PI / 2))) 1%nat 3%nat = - (1)).
  { transitivity (sin (- (PI / 2))); [ev; ring | rewrite sin_neg, sin_PI2; reflexivity]. }
  assert (R : mmul 3 (M (mkT 3 false [1;0;0;0;1;0;0;0;1])) (rotm 2 (PI / 2)) 1%nat 3%nat = 1).
  { transitivity (sin (PI / 2)); [ev; ring | apply sin_PI2]. }
  rewrite L, R in H. lra.
Qed.
Print Assumptions C106_rotate_sense_refuted.

(** The rotation vector constructor gives a proper rotation that keeps the vector. *)
Lemma quat_pos : forall a,
  let q := vscale (if Rlt_dec (vlength a) epsZ then / 2 else sin (/ 2 * vlength a) / vlength a) a in
  let q0 := cos (/ 2 * vlength a) in
  0 < q0 * q0 + vx q * vx q + vy q * vy q + vz q * vz q.
Proof.
  intros a q q0.
  assert (Hn : 0 <= vx q * vx q + vy q * vy q + vz q * vz q).
  { pose proof (Rle_0_sqr (vx q)). pose proof (Rle_0_sqr (vy q)). pose proof (Rle_0_sqr (vz q)).
    unfold Rsqr in *. lra. }
  assert (0 <= vlength a) as Hl by apply sqrt_pos.
  destruct (Rlt_dec (vlength a) epsZ) as [L | L].
  - assert (0 < q0).
    { apply cos_gt_0; pose proof PI_4; pose proof PI2_1.
      - lra.
      - assert (epsZ <= 1).
        { unfold epsZ. rewrite <- Rinv_1. apply Rinv_le_contravar; [lra|]. apply pow_R1_Rle. lra. }
        lra. }
    pose proof (Rmult_lt_0_compat _ _ H H). lra.
  - assert (0 < epsZ) as He by (unfold epsZ; apply Rinv_0_lt_compat; apply pow_lt; lra).
    assert (vlength a <> 0) as Hne by lra.
    assert (vx q * vx q + vy q * vy q + vz q * vz q = sin (/ 2 * vlength a) * sin (/ 2 * vlength a)) as E.
    { unfold q, vscale. cbn [vx vy vz].
      pose proof (vlength_sq a) as S. unfold dotv in S.
      set (l := vlength a) in *. set (s := sin (/ 2 * l)). clearbody l s.
      transitivity (s / l * (s / l) * (vx a * vx a + vy a * vy a + vz a * vz a)); [ring|].
      rewrite <- S. field. assumption. }
    pose proof (sin2_cos2 (/ 2 * vlength a)) as P. unfold Rsqr in P. unfold q0. lra.
Qed.
Lemma quat_rot : forall w x y z, w * w + x * x + y * y + z * z = 1 ->
  rotation 3 (M (mkT 3 false
    [ 2 * (x * x + w * w) - 1; 2 * (y * x + z * w); 2 * (z * x - y * w);
      2 * (x * y - z * w); 2 * (y * y + w * w) - 1; 2 * (z * y + x * w);
      2 * (x * z + y * w); 2 * (y * z - x * w); 2 * (z * z + w * w) - 1 ])).
Proof. intros w x y z H. split; [split; ij; ev; nsatz | ev; nsatz]. Qed.
Theorem C106_rotation_tensor : forall a,
  full 3 (rottensor a) /\ rotation 3 (M (rottensor a)) /\ tvec (rottensor a) a = a.
Proof.
  intros a. pose proof (quat_pos a) as Hp. cbv zeta in Hp.
  unfold rottensor. cbv zeta.
  set (f := if Rlt_dec (vlength a) epsZ then / 2 else sin (/ 2 * vlength a) / vlength a) in *.
  set (q0 := cos (/ 2 * vlength a)) in *. clearbody f q0.
  destruct a as [a1 a2 a3]. unfold vscale, vdiv in *. cbn [vx vy vz] in *.
  set (n2 := q0 * q0 + a1 * f * (a1 * f) + a2 * f * (a2 * f) + a3 * f * (a3 * f)) in *.
  pose proof (sqrt_lt_R0 n2 Hp) as Hs. pose proof (sqrt_sqrt n2 (Rlt_le _ _ Hp)) as E.
  assert (En : q0 * q0 + a1 * f * (a1 * f) + a2 * f * (a2 * f) + a3 * f * (a3 * f) = n2) by reflexivity.
  set (l := sqrt n2) in *. clearbody l. clearbody n2.
  assert (U : q0 / l * (q0 / l) + a1 * f / l * (a1 * f / l) + a2 * f / l * (a2 * f / l)
              + a3 * f / l * (a3 * f / l) = 1).
  { replace (q0 / l * (q0 / l) + a1 * f / l * (a1 * f / l) + a2 * f / l * (a2 * f / l)
       + a3 * f / l * (a3 * f / l))
      with ((q0 * q0 + a1 * f * (a1 * f) + a2 * f * (a2 * f) + a3 * f * (a3 * f)) / (l * l))
      by (field; lra). rewrite En, E. field. lra. }
  split; [wf|]. split; [now apply quat_rot|].
  assert (W : q0 / l * (q0 / l) = 1 - (a1 * a1 + a2 * a2 + a3 * a3) * (f / l * (f / l))).
  { apply Rplus_eq_reg_r with (a1 * f / l * (a1 * f / l) + a2 * f / l * (a2 * f / l)
              + a3 * f / l * (a3 * f / l)).
    rewrite <- !Rplus_assoc, U. field. lra. }
  ev. set (w := q0 / l) in *. clearbody w. 
  replace (a1 * f / l) with (a1 * (f / l)) by (field; lra).
  replace (a2 * f / l) with (a2 * (f / l)) by (field; lra).
  replace (a3 * f / l) with (a3 * (f / l)) by (field; lra).
  set (g := f / l) in *. clearbody g.
  f_equal; rewrite W; ring.
Qed.
Print Assumptions C106_rotation_tensor.

Example C106_meets : full 3 (mkT 3 false [1;0;0;0;1;0;0;0;1]) /\
  full 2 (mkT 2 false [1; 2; 3; 4]).
Proof. split; wf. Qed.
