(** Proofs about local axes and rotations. *)
From Coq Require Import Reals List Bool ZArith Lia Lra Arith Nsatz.
From Verif Require Import Ten_model Ten_spec Ten_proofs.
Import ListNotations.
Local Open Scope R_scope.

Ltac rotgoal := split; [split; ij; ev; nsatz | ev; nsatz].
Lemma rot_a : forall u w, dotv u u = 1 -> dotv w w = 1 -> dotv u w = 0 ->
  rotation 3 (M (define3D u w (cross u w))).
Proof.
  intros [ux uy uz] [wx wy wz]. unfold dotv. cbn [vx vy vz]. intros H1 H2 H3. rotgoal.
Qed.
Lemma rot_b : forall u w, dotv u u = 1 -> dotv w w = 1 -> dotv u w = 0 ->
  rotation 3 (M (define3D w (cross u w) u)).
Proof.
  intros [ux uy uz] [wx wy wz]. unfold dotv. cbn [vx vy vz]. intros H1 H2 H3. rotgoal.
Qed.
Lemma rot_c : forall u w, dotv u u = 1 -> dotv w w = 1 -> dotv u w = 0 ->
  rotation 3 (M (define3D (cross u w) u w)).
Proof.
  intros [ux uy uz] [wx wy wz]. unfold dotv. cbn [vx vy vz]. intros H1 H2 H3. rotgoal.
Qed.

Lemma ntol_pos : 0 < ntol.
Proof. unfold ntol. apply Rinv_0_lt_compat. apply pow_lt. lra. Qed.
Lemma dotv_nonneg : forall v, 0 <= dotv v v.
Proof.
  intros v. unfold dotv. pose proof (Rle_0_sqr (vx v)). pose proof (Rle_0_sqr (vy v)).
  pose proof (Rle_0_sqr (vz v)). unfold Rsqr in *. lra.
Qed.
Lemma vlength_sq : forall v, vlength v * vlength v = dotv v v.
Proof. intros v. unfold vlength. apply sqrt_sqrt. apply dotv_nonneg. Qed.
Lemma normalize_big : forall v, ntol < vlength v ->
  normalize v = vdiv v (vlength v) /\ 0 < vlength v.
Proof.
  intros v H. unfold normalize. pose proof ntol_pos.
  destruct (Rle_dec (vlength v) ntol); [lra|]. split; [reflexivity | lra].
Qed.
Lemma dot_vdiv : forall u v c, c <> 0 -> dotv (vdiv u c) v = dotv u v / c.
Proof. intros [] [] c H. unfold dotv, vdiv. simpl. field. assumption. Qed.
Lemma dot_comm : forall u v, dotv u v = dotv v u.
Proof. intros. unfold dotv. ring. Qed.
Lemma normalize_unit : forall v, ntol < vlength v -> dotv (normalize v) (normalize v) = 1.
Proof.
  intros v H. destruct (normalize_big v H) as [-> Hp].
  rewrite dot_vdiv by lra. rewrite dot_comm, dot_vdiv by lra. rewrite <- vlength_sq. field. lra.
Qed.
Lemma normalize_along : forall v, ntol < vlength v -> along (normalize v) v.
Proof.
  intros v H. destruct (normalize_big v H) as [-> Hp].
  exists (/ vlength v). split; [now apply Rinv_0_lt_compat|].
  unfold vdiv. f_equal; field; lra.
Qed.
Lemma normalize_perp : forall v w, ntol < vlength v -> dotv v w = 0 -> dotv (normalize v) w = 0.
Proof.
  intros v w H H0. destruct (normalize_big v H) as [-> Hp].
  rewrite dot_vdiv by lra. rewrite H0. field. lra.
Qed.
Lemma sq_len_eq : forall u v, dotv u u = dotv v v -> vlength u = vlength v.
Proof. intros u v H. unfold vlength. unfold dotv in H. now rewrite H. Qed.
Lemma cross_sq : forall u w, dotv (cross u w) (cross u w) = dotv u u * dotv w w - dotv u w * dotv u w.
Proof. intros [] []. unfold dotv, cross. simpl. ring. Qed.
Lemma normalize_cross_l : forall u w, dotv u u = 1 -> dotv u w = 0 -> ntol < vlength w ->
  normalize (cross u w) = cross u (normalize w).
Proof.
  intros u w H1 H2 H.
  assert (vlength (cross u w) = vlength w) as E.
  { apply sq_len_eq. rewrite cross_sq, H1, H2. ring. }
  destruct (normalize_big w H) as [-> Hp].
  destruct (normalize_big (cross u w) ltac:(rewrite E; exact H)) as [-> _]. rewrite E.
  assert (HL : vlength w <> 0) by lra. clear - HL. revert HL. generalize (vlength w). intros L HL.
  unfold cross, vdiv. cbn [vx vy vz]. f_equal; field; assumption.
Qed.
Lemma normalize_cross_r : forall u w, dotv u u = 1 -> dotv u w = 0 -> ntol < vlength w ->
  normalize (cross w u) = cross (normalize w) u.
Proof.
  intros u w H1 H2 H.
  assert (vlength (cross w u) = vlength w) as E.
  { apply sq_len_eq. rewrite cross_sq, H1, (dot_comm w u), H2. ring. }
  destruct (normalize_big w H) as [-> Hp].
  destruct (normalize_big (cross w u) ltac:(rewrite E; exact H)) as [-> _]. rewrite E.
  assert (HL : vlength w <> 0) by lra. clear - HL. revert HL. generalize (vlength w). intros L HL.
  unfold cross, vdiv. cbn [vx vy vz]. f_equal; field; assumption.
Qed.
Lemma half_len : forall v, / 2 <= dotv v v -> ntol < vlength v.
Proof.
  intros v H. unfold vlength.
  apply Rlt_le_trans with (/ 2).
  - unfold ntol. apply Rinv_lt_contravar; [|].
    + apply Rmult_lt_0_compat; [lra | apply pow_lt; lra].
    + replace 2 with (2 * 1) by ring. change (10 ^ 16) with (10 * 10 ^ 15).
      assert (1 <= 10 ^ 15) by (apply pow_R1_Rle; lra). lra.
  - replace (/ 2) with (sqrt (/ 4)).
    + apply sqrt_le_1; [lra | apply dotv_nonneg | unfold dotv in H; lra].
    + replace (/ 4) with (/ 2 * / 2) by field. apply sqrt_square. lra.
Qed.
Lemma sq_lt_abs : forall a b, Rabs a < Rabs b -> a * a < b * b.
Proof. intros a b H. apply Rsqr_lt_abs_1 in H. exact H. Qed.
Lemma sq_ge_abs : forall a b, ~ Rabs a < Rabs b -> b * b <= a * a.
Proof. intros a b H. apply Rnot_lt_le in H. apply Rsqr_le_abs_1 in H. exact H. Qed.

(** The four ways to complete a unit vector. *)
Lemma axes1_ok : forall vn b, ntol < vlength vn ->
  rotation 3 (M (axes1 vn b)) /\ along (col (axes1 vn b) (if b then 1 else 3)) vn.
Proof.
  intros vn b H.
  pose proof (normalize_unit vn H) as Hu. pose proof (normalize_along vn H) as Ha.
  unfold axes1. set (v := normalize vn) in *. clearbody v. clear H.
  destruct v as [x y z]. unfold dotv in Hu. cbn [vx vy vz] in *.
  destruct b.
  - destruct (Rlt_dec (Rabs y) (Rabs z)) as [C | C].
    + apply sq_lt_abs in C.
      set (w := V3 (- y * x) (x * x + z * z) (- y * z)).
      assert (Hp : dotv (V3 x y z) w = 0) by (unfold dotv, w; simpl; ring).
      assert (Hl : ntol < vlength w).
      { apply half_len. unfold dotv, w; simpl.
        replace (- y * x * (- y * x) + (x * x + z * z) * (x * x + z * z) + - y * z * (- y * z))
          with ((x * x + z * z) * (x * x + y * y + z * z)) by ring. rewrite Hu.
        pose proof (Rle_0_sqr x). unfold Rsqr in *. lra. }
      rewrite normalize_cross_l by (unfold dotv; assumption).
      split; [|exact Ha].
      apply rot_a; [assumption | now apply normalize_unit |].
      rewrite dot_comm. apply normalize_perp; [assumption | now rewrite dot_comm].
    + apply sq_ge_abs in C.
      set (w := V3 (- z * x) (- z * y) (x * x + y * y)).
      assert (Hp : dotv (V3 x y z) w = 0) by (unfold dotv, w; simpl; ring).
      assert (Hl : ntol < vlength w).
      { apply half_len. unfold dotv, w; simpl.
        replace (- z * x * (- z * x) + - z * y * (- z * y) + (x * x + y * y) * (x * x + y * y))
          with ((x * x + y * y) * (x * x + y * y + z * z)) by ring. rewrite Hu.
        pose proof (Rle_0_sqr x). unfold Rsqr in *. lra. }
      rewrite normalize_cross_r by (unfold dotv; assumption).
      split; [|exact Ha].
      apply rot_b; [now apply normalize_unit | assumption |].
      apply normalize_perp; [assumption | now rewrite dot_comm].
  - destruct (Rlt_dec (Rabs y) (Rabs x)) as [C | C].
    + apply sq_lt_abs in C.
      set (w := V3 (- y * x) (x * x + z * z) (- y * z)).
      assert (Hp : dotv (V3 x y z) w = 0) by (unfold dotv, w; simpl; ring).
      assert (Hl : ntol < vlength w).
      { apply half_len. unfold dotv, w; simpl.
        replace (- y * x * (- y * x) + (x * x + z * z) * (x * x + z * z) + - y * z * (- y * z))
          with ((x * x + z * z) * (x * x + y * y + z * z)) by ring. rewrite Hu.
        pose proof (Rle_0_sqr z). unfold Rsqr in *. lra. }
      rewrite normalize_cross_r by (unfold dotv; assumption).
      split; [|exact Ha].
      apply rot_c; [now apply normalize_unit | assumption |].
      apply normalize_perp; [assumption | now rewrite dot_comm].
    + apply sq_ge_abs in C.
      set (w := V3 (y * y + z * z) (- x * y) (- x * z)).
      assert (Hp : dotv (V3 x y z) w = 0) by (unfold dotv, w; simpl; ring).
      assert (Hl : ntol < vlength w).
      { apply half_len. unfold dotv, w; simpl.
        replace ((y * y + z * z) * (y * y + z * z) + - x * y * (- x * y) + - x * z * (- x * z))
          with ((y * y + z * z) * (x * x + y * y + z * z)) by ring. rewrite Hu.
        pose proof (Rle_0_sqr z). unfold Rsqr in *. lra. }
      rewrite normalize_cross_l by (unfold dotv; assumption).
      split; [|exact Ha].
      apply rot_b; [assumption | now apply normalize_unit |].
      rewrite dot_comm. apply normalize_perp; [assumption | now rewrite dot_comm].
Qed.

Lemma col_define : forall a b c, col (define3D a b c) 1 = a /\ col (define3D a b c) 2 = b /\
  col (define3D a b c) 3 = c.
Proof. intros [] [] []. repeat split. Qed.
Lemma axes2_ok : forall t1 t2 z xz, ntol < vlength t1 -> ntol < vlength (cross t1 t2) ->
  rotation 3 (M (axes2 t1 t2 z xz)) /\
  along (col (axes2 t1 t2 z xz) (if z then 3 else 1)) t1 /\
  (xz = false -> along (col (axes2 t1 t2 z xz) (if z then 2 else 3)) (cross t1 t2)) /\
  (xz = true -> along (col (axes2 t1 t2 z xz) (if z then 1 else 2)) (cross t2 t1)).
Proof.
  intros t1 t2 z xz H1 H2.
  assert (H3 : ntol < vlength (cross t2 t1)).
  { replace (vlength (cross t2 t1)) with (vlength (cross t1 t2)); [assumption|].
    apply sq_len_eq. unfold dotv, cross; simpl. ring. }
  pose proof (normalize_unit _ H1) as U1. pose proof (normalize_unit _ H2) as U2.
  pose proof (normalize_unit _ H3) as U3.
  pose proof (normalize_along _ H1) as A1. pose proof (normalize_along _ H2) as A2.
  pose proof (normalize_along _ H3) as A3.
  assert (P2 : dotv (normalize (cross t1 t2)) (normalize t1) = 0).
  { apply normalize_perp; [assumption|]. rewrite dot_comm. apply normalize_perp; [assumption|].
    unfold dotv, cross; simpl; ring. }
  assert (P3 : dotv (normalize t1) (normalize (cross t2 t1)) = 0).
  { rewrite dot_comm. apply normalize_perp; [assumption|]. rewrite dot_comm.
    apply normalize_perp; [assumption|]. unfold dotv, cross; simpl; ring. }
  unfold axes2.
  destruct xz, z;
  match goal with |- context [define3D ?a ?b ?c] =>
    destruct (col_define a b c) as (-> & -> & ->) end.
  - split; [now apply rot_b|]. repeat split; try discriminate; intros; assumption.
  - split; [now apply rot_a|]. repeat split; try discriminate; intros; assumption.
  - split; [now apply rot_c|]. repeat split; try discriminate; intros; assumption.
  - split; [now apply rot_b|]. repeat split; try discriminate; intros; assumption.
Qed.
