(** Proofs about the coordinate mapping: third derivatives, normals, Piola mapping. *)
From Coq Require Import Reals List Arith Bool Lia Lra.
From Verif Require Import Map_model Map_spec Map_proofs.
Local Open Scope R_scope.

(** Third derivatives. *)
Section Third.
Variables (d : nat) (J Ji : mat).
Hypothesis I : is_inverse d J Ji.
Definition lift (i : nat) (f : nat -> R) : R := sum d (fun a => Ji a i * f a).

Lemma lift_push : forall f a, within d a -> sum d (fun i => lift i f * J i a) = f a.
Proof.
  intros f a Ha. unfold lift.
  rewrite (sum_ext d _ (fun i => sum d (fun b => f b * (Ji b i * J i a)))).
  - rewrite sum_swap, (sum_ext d _ (fun b => f b * delta b a)).
    + apply sum_delta. assumption.
    + intros b Hb. rewrite sum_scal, (inv_sum2 d J Ji b a I Hb Ha). reflexivity.
  - intros i _. rewrite <- sum_scalr. apply sum_ext; intros; ring.
Qed.
Lemma lift_sum : forall i n (f : nat -> nat -> R) g,
  sum n (fun k => lift i (f k) * g k) = lift i (fun a => sum n (fun k => f k a * g k)).
Proof.
  intros. unfold lift.
  rewrite (sum_ext n _ (fun k => sum d (fun a => Ji a i * (f k a * g k)))).
  - rewrite sum_swap. apply sum_ext; intros. rewrite sum_scal. reflexivity.
  - intros k _. rewrite <- sum_scalr. apply sum_ext; intros; ring.
Qed.
Lemma lift_ext : forall i f g, (forall a, within d a -> f a = g a) -> lift i f = lift i g.
Proof. intros. unfold lift. apply sum_ext. intros. rewrite H; auto. Qed.

Definition lift3 (T : mat3) : mat3 := fun i j k =>
  lift i (fun a => lift j (fun b => lift k (fun c => T a b c))).

Lemma lift3_push : forall T a b c, within d a -> within d b -> within d c ->
  sum d (fun i => sum d (fun j => sum d (fun k => lift3 T i j k * (J i a * J j b * J k c)))) = T a b c.
Proof.
  intros T a b c Ha Hb Hc.
  transitivity (sum d (fun i => lift i (fun a' => T a' b c) * J i a));
    [|apply (lift_push (fun a' => T a' b c)); assumption].
  apply sum_ext; intros i _.
  transitivity (sum d (fun j => lift i (fun a' => lift j (fun b' => T a' b' c)) * J j b) * J i a).
  - rewrite <- sum_scalr. apply sum_ext; intros j _.
    transitivity (sum d (fun k => lift3 T i j k * J k c) * J j b * J i a).
    + rewrite <- !sum_scalr. apply sum_ext; intros; ring.
    + f_equal. f_equal. unfold lift3. rewrite lift_sum. apply lift_ext; intros a' _.
      rewrite lift_sum. apply lift_ext; intros b' _. apply (lift_push (fun c' => T a' b' c')). assumption.
  - f_equal. rewrite lift_sum. apply lift_ext; intros a' _.
    apply (lift_push (fun b' => T a' b' c)). assumption.
Qed.
End Third.

Lemma Hessian2_lift : forall d nen Ji D h, d = 1%nat \/ d = 2%nat -> symmetric3 d nen D ->
  Hessian2 d Ji D = Some h ->
  forall n i j k, within nen n -> within d i -> within d j -> within d k ->
  h n i j k = lift3 d Ji (D n) i j k.
Proof.
  intros d nen Ji D h [-> | ->] S E n i j k Hn Hi Hj Hk.
  - injection E as <-. apply within1 in Hi, Hj, Hk. subst. cbn. ring.
  - injection E as <-.
    assert (W1 : within 2 1) by (unfold within; lia).
    assert (W2 : within 2 2) by (unfold within; lia).
    pose proof (proj1 (S n 2%nat 1%nat 1%nat Hn W2 W1 W1)) as A1.
    pose proof (proj2 (S n 1%nat 2%nat 1%nat Hn W1 W2 W1)) as A2.
    pose proof (proj1 (S n 2%nat 1%nat 2%nat Hn W2 W1 W2)) as B1.
    pose proof (proj2 (S n 2%nat 2%nat 1%nat Hn W2 W2 W1)) as B2.
    apply within2 in Hi, Hj, Hk.
    destruct Hi as [-> | ->], Hj as [-> | ->], Hk as [-> | ->]; cbn;
      rewrite ?A1, ?A2, ?B2, ?B1; ring.
Qed.

(** Vectors. *)
Lemma length_norm : forall a, length a = norm a.
Proof. reflexivity. Qed.
Lemma cross_wedge : forall a b, cross a b = wedge a b.
Proof. reflexivity. Qed.
Lemma dot_nonneg : forall a, 0 <= dot a a.
Proof.
  intro a. unfold dot. pose proof (Rle_0_sqr (vx a)). pose proof (Rle_0_sqr (vy a)).
  pose proof (Rle_0_sqr (vz a)). unfold Rsqr in *. lra.
Qed.
Lemma norm_sq : forall a, norm a * norm a = dot a a.
Proof. intro. apply sqrt_sqrt, dot_nonneg. Qed.
Lemma norm_nonneg : forall a, 0 <= norm a.
Proof. intro. apply sqrt_pos. Qed.
Lemma noticeable_pos : forall l, noticeable l -> 0 < l.
Proof. unfold noticeable. intros. lra. Qed.
Lemma normalize_noticeable : forall a, noticeable (norm a) ->
  normalize a = (V3 (vx a / norm a) (vy a / norm a) (vz a / norm a), norm a).
Proof.
  intros a N. unfold normalize. rewrite length_norm. unfold noticeable in N.
  destruct (Rle_dec _ _); [lra|reflexivity].
Qed.
Lemma norm_one : forall a, dot a a = 1 -> norm a = 1.
Proof. intros a E. unfold norm. rewrite E. apply sqrt_1. Qed.
Lemma normalize_snd : forall a, snd (normalize a) = norm a.
Proof. intro. unfold normalize. rewrite length_norm. destruct (Rle_dec _ _); reflexivity. Qed.

(** The in-plane normal of an edge. *)
Section EdgeNormal.
Variables v1 v2 : vec3.
Let v3 := wedge v1 v2.
Let n := cross (V3 (vx v2 / norm v2) (vy v2 / norm v2) (vz v2 / norm v2))
               (V3 (vx v3 / norm v3) (vy v3 / norm v3) (vz v3 / norm v3)).
Hypothesis P2 : 0 < norm v2.
Hypothesis P3 : 0 < norm v3.

Lemma en_form : n = V3 (vx (wedge v2 v3) / (norm v2 * norm v3)) (vy (wedge v2 v3) / (norm v2 * norm v3))
                      (vz (wedge v2 v3) / (norm v2 * norm v3)).
Proof. unfold n, cross, wedge. cbn [vx vy vz]. f_equal; field; lra. Qed.

Lemma en_perp : dot n v2 = 0.
Proof. rewrite en_form. unfold dot, wedge. cbn [vx vy vz]. field. lra. Qed.
Lemma en_perp3 : dot n v3 = 0.
Proof. rewrite en_form. unfold dot, wedge. cbn [vx vy vz]. field. lra. Qed.
Lemma en_out : dot n v1 = norm v3 / norm v2.
Proof.
  assert (E : dot (wedge v2 v3) v1 = norm v3 * norm v3).
  { rewrite norm_sq. unfold v3, dot, wedge. cbn [vx vy vz]. ring. }
  rewrite en_form. unfold dot at 1. cbn [vx vy vz].
  replace (_ / _ * _ + _ / _ * _ + _ / _ * _)
    with (dot (wedge v2 v3) v1 / (norm v2 * norm v3)) by (unfold dot; field; lra).
  rewrite E. field. lra.
Qed.
Lemma en_unit : norm n = 1.
Proof.
  apply norm_one.
  assert (E : dot (wedge v2 v3) (wedge v2 v3) = norm v2 * norm v2 * (norm v3 * norm v3)).
  { rewrite !norm_sq. unfold v3, dot, wedge. cbn [vx vy vz]. ring. }
  rewrite en_form. unfold dot at 1. cbn [vx vy vz].
  replace (_ / _ * _ + _ / _ * _ + _ / _ * _)
    with (dot (wedge v2 v3) (wedge v2 v3) / (norm v2 * norm v3 * (norm v2 * norm v3)))
    by (unfold dot; field; lra).
  rewrite E. field. lra.
Qed.
Lemma en_def : cross (fst (normalize v2)) (fst (normalize (cross v1 v2))) = n \/
  ~ noticeable (norm v2) \/ ~ noticeable (norm v3).
Proof.
  destruct (Rlt_dec (/ 10000000000000000) (norm v2)) as [A|A]; [|right; left; exact A].
  destruct (Rlt_dec (/ 10000000000000000) (norm v3)) as [B|B]; [|right; right; exact B].
  left. change (cross v1 v2) with v3.
  rewrite (normalize_noticeable v2 A), (normalize_noticeable v3 B). reflexivity.
Qed.
End EdgeNormal.

Lemma dot_neg : forall n v, dot (vneg n) v = - dot n v.
Proof. intros. unfold dot, vneg. cbn [vx vy vz]. ring. Qed.
Lemma norm_neg : forall n, norm (vneg n) = norm n.
Proof. intros. unfold norm. f_equal. unfold dot, vneg. cbn [vx vy vz]. ring. Qed.

Lemma column2 : forall J t, column 2 J t = tangent2 J t.
Proof. reflexivity. Qed.
Lemma column3 : forall J t, column 3 J t = tangent3 J t.
Proof. reflexivity. Qed.
Lemma tangent2_ext : forall A B t, (forall i j, A i j = B i j) -> tangent2 A t = tangent2 B t.
Proof. intros. unfold tangent2. rewrite !H. reflexivity. Qed.
Lemma tangent3_ext : forall A B t, (forall i j, A i j = B i j) -> tangent3 A t = tangent3 B t.
Proof. intros. unfold tangent3. rewrite !H. reflexivity. Qed.

Lemma regular_cross2 : forall J dir, within 2 dir -> regular 2 J ->
  noticeable (norm (wedge (tangent2 J dir) (tangent2 J (3 - dir)))).
Proof.
  intros J dir W [A _]. unfold noticeable, norm.
  assert (E : dot (wedge (tangent2 J dir) (tangent2 J (3 - dir))) (wedge (tangent2 J dir) (tangent2 J (3 - dir)))
    = Rsqr (determinant 2 J)).
  { apply within2 in W. destruct W as [-> | ->]; unfold dot, wedge, tangent2, Rsqr; cbn; ring. }
  rewrite E, sqrt_Rsqr_abs. lra.
Qed.

(** The vector product of two tangents and the third tangent. *)
Lemma triple3 : forall J dir, within 3 dir ->
  dot (wedge (tangent3 J (1 + dir mod 3)) (tangent3 J (1 + (1 + dir mod 3) mod 3))) (tangent3 J dir)
  = determinant 3 J.
Proof.
  intros J dir W. apply within3 in W.
  destruct W as [-> |[-> | ->]]; unfold dot, wedge, tangent3; cbn; ring.
Qed.
Lemma cross_perp1 : forall a b, dot (wedge a b) a = 0.
Proof. intros. unfold dot, wedge. cbn [vx vy vz]. ring. Qed.
Lemma cross_perp2 : forall a b, dot (wedge a b) b = 0.
Proof. intros. unfold dot, wedge. cbn [vx vy vz]. ring. Qed.
Lemma dot_scaled : forall a l v, l <> 0 ->
  dot (V3 (vx a / l) (vy a / l) (vz a / l)) v = dot a v / l.
Proof. intros. unfold dot. cbn [vx vy vz]. field. assumption. Qed.
Lemma norm_scaled : forall a, 0 < norm a ->
  norm (V3 (vx a / norm a) (vy a / norm a) (vz a / norm a)) = 1.
Proof.
  intros a P. apply norm_one. unfold dot at 1. cbn [vx vy vz].
  replace (_ / _ * (_ / _) + _ / _ * (_ / _) + _ / _ * (_ / _)) with (dot a a / (norm a * norm a))
    by (unfold dot; field; lra).
  rewrite norm_sq. field. rewrite <- norm_sq. apply Rgt_not_eq. apply Rmult_lt_0_compat; assumption.
Qed.

(** Derivatives. *)
Lemma dlim_ext : forall f g x l, (forall t, f t = g t) -> derivable_pt_lim f x l -> derivable_pt_lim g x l.
Proof.
  intros f g x l E D eps P. destruct (D eps P) as [del Q]. exists del. intros h A B.
  rewrite <- !E. apply Q; assumption.
Qed.
Lemma dlim_cubic : forall c0 c1 c2 c3,
  derivable_pt_lim (fun t => c0 + c1 * t + c2 * (t * t) + c3 * (t * t * t)) 0 c1.
Proof.
  intros.
  assert (I1 : derivable_pt_lim id 0 1) by apply derivable_pt_lim_id.
  pose proof (derivable_pt_lim_mult _ _ _ _ _ I1 I1) as I2.
  pose proof (derivable_pt_lim_mult _ _ _ _ _ I2 I1) as I3.
  pose proof (derivable_pt_lim_scal _ c1 _ _ I1) as S1.
  pose proof (derivable_pt_lim_scal _ c2 _ _ I2) as S2.
  pose proof (derivable_pt_lim_scal _ c3 _ _ I3) as S3.
  pose proof (derivable_pt_lim_plus _ _ _ _ _ (derivable_pt_lim_plus _ _ _ _ _
    (derivable_pt_lim_plus _ _ _ _ _ (derivable_pt_lim_const c0 0) S1) S2) S3) as T.
  unfold id, mult_fct in T.
  replace (0 + c1 * 1 + c2 * (1 * 0 + 0 * 1) + c3 * ((1 * 0 + 0 * 1) * 0 + 0 * 0 * 1)) with c1 in T by ring.
  eapply dlim_ext; [|exact T]. intro t. cbn. unfold plus_fct, mult_real_fct, fct_cte. ring.
Qed.

Lemma dDetdu_lim : forall d J H a, d = 2%nat \/ d = 3%nat -> within d a ->
  derivable_pt_lim (fun t => determinant d (moved J H a t)) 0 (dDetdu d J H a).
Proof.
  intros d J H a [-> | ->] W.
  - eapply dlim_ext; [|apply (dlim_cubic (determinant 2 J) (dDetdu 2 J H a)
      (H.[1,1,a] * H.[2,2,a] - H.[1,2,a] * H.[2,1,a]) 0)].
    intro t. apply within2 in W. unfold moved. destruct W as [-> | ->]; cbn; ring.
  - eapply dlim_ext; [|apply (dlim_cubic (determinant 3 J) (dDetdu 3 J H a)
      (determinant 3 (fun i j => if (i =? 1)%nat then J i j else H i j a) +
       determinant 3 (fun i j => if (i =? 2)%nat then J i j else H i j a) +
       determinant 3 (fun i j => if (i =? 3)%nat then J i j else H i j a))
      (determinant 3 (fun i j => H i j a)))].
    intro t. unfold moved. cbn. ring.
Qed.

(** The chain rule between two gradients: g_j = Sum_k Ji_kj f_k. *)
Lemma grad_push : forall d J Ji f a, is_inverse d J Ji -> within d a ->
  sum d (fun j => sum d (fun k => Ji k j * f k) * J j a) = f a.
Proof. intros. apply (lift_push d J Ji H f a H0). Qed.

(** Jacobi's formula: d det / du_a = det * Sum_ij Ji_ij H_jia. *)
Lemma jacobi_formula : forall d J Ji H a, d = 2%nat \/ d = 3%nat -> is_inverse d J Ji -> within d a ->
  dDetdu d J H a = determinant d J * sum d (fun i => sum d (fun j => Ji i j * H j i a)).
Proof.
  intros d J Ji H a D I W.
  assert (C : forall i j, within d i -> within d j ->
    determinant d J * Ji i j = invEntries d J 1 i j).
  { (* adjugate = det * inverse *)
    intros i j Hi Hj.
    assert (A : forall r c, within d r -> within d c ->
      sum d (fun k => invEntries d J 1 r k * J k c) = determinant d J * delta r c).
    { clear - D. intros r c Hr Hc. destruct D as [-> | ->].
      - apply within2 in Hr, Hc. destruct Hr as [-> | ->], Hc as [-> | ->]; cbn; field.
      - apply within3 in Hr, Hc.
        destruct Hr as [-> |[-> | ->]], Hc as [-> |[-> | ->]]; cbn; field. }
    transitivity (sum d (fun k => sum d (fun c => invEntries d J 1 i k * J k c * Ji c j))).
    - rewrite sum_swap.
      rewrite (sum_ext d _ (fun c => determinant d J * (Ji c j * delta c i))).
      + rewrite sum_scal. f_equal. symmetry. apply (sum_delta d (fun c => Ji c j)). assumption.
      + intros c Hc. rewrite sum_scalr, (A i c Hi Hc), (delta_sym i c). ring.
    - rewrite (sum_ext d _ (fun k => invEntries d J 1 i k * delta k j)).
      + apply (sum_delta d (fun k => invEntries d J 1 i k)). assumption.
      + intros k Hk. rewrite <- (inv_sum1 d J Ji k j I Hk Hj), <- sum_scal.
        apply sum_ext; intros; ring. }
  rewrite <- sum_scal.
  rewrite (sum_ext d _ (fun i => sum d (fun j => invEntries d J 1 i j * H j i a))).
  - clear - D W. destruct D as [-> | ->].
    + apply within2 in W. destruct W as [-> | ->]; cbn; field.
    + apply within3 in W. destruct W as [-> |[-> | ->]]; cbn; field.
  - intros i Hi. rewrite <- sum_scal. apply sum_ext. intros j Hj. rewrite <- (C i j Hi Hj). ring.
Qed.

Lemma dim23_123 : forall d, d = 2%nat \/ d = 3%nat -> dim123 d.
Proof. unfold dim123. tauto. Qed.

(** The gradient of a Piola-mapped function in terms of the parametric one. *)
Definition dPdu (d : nat) (detJ : R) (J : mat) (H : mat3) (N : mat) (dN : mat3) (b i j : nat) : nat -> R :=
  fun a => (H j b a * N b i + J j b * dN b i a) / detJ
           - J j b * N b i * dDetdu d J H a / (detJ * detJ).

Lemma sum_if : forall d b f, within d b -> sum d (fun c => f c * (if (c =? b)%nat then 1 else 0)) = f b.
Proof. intros. apply (sum_delta d f b H). Qed.

Lemma piolaGradient_form : forall d detJ J Ji H N dN b i x j, within d b -> within d j ->
  detJ <> 0 ->
  (forall r p q, within d p -> within d q -> H r p q = H r q p) ->
  piolaGradient d detJ J Ji H N dN b i x j
  = sum d (fun k => Ji k x * dPdu d detJ J H N dN b i j k).
Proof.
  intros d detJ J Ji H N dN b i x j Hb Hj NZ S. unfold piolaGradient, JacobianGradient, detJacGradient.
  transitivity (J j b * sum d (fun a => dN b i a * Ji a x) * (1 / detJ)
    + ((0 + sum d (fun k => Ji k x * H j k b)) * (1 / detJ)
       + J j b * (- sum d (fun k => Ji k x * dDetdu d J H k) / (detJ * detJ))) * N b i).
  - f_equal.
    + f_equal.
      rewrite (sum_ext d _ (fun r => (J j r * sum d (fun a => dN b i a * Ji a x)) * delta r b)).
      * apply (sum_delta d (fun r => J j r * sum d (fun a => dN b i a * Ji a x))). assumption.
      * intros r _. unfold delta. destruct (Nat.eqb_spec r b) as [-> |].
        -- ring.
        -- rewrite (sum_ext d _ (fun _ => 0)) by (intros; ring). rewrite sum_zero. ring.
    + rewrite (sum_ext d _ (fun c => (((0 + sum d (fun k => Ji k x * H j k c)) * (1 / detJ)
        + J j c * (- sum d (fun k => Ji k x * dDetdu d J H k) / (detJ * detJ))) * N b i) * delta c b)).
      * apply (sum_delta d (fun c => ((0 + sum d (fun k => Ji k x * H j k c)) * (1 / detJ)
        + J j c * (- sum d (fun k => Ji k x * dDetdu d J H k) / (detJ * detJ))) * N b i)). assumption.
      * intros c _. unfold delta. destruct (c =? b)%nat; ring.
  - unfold dPdu.
    rewrite (sum_ext d (fun k => Ji k x * ((H j b k * N b i + J j b * dN b i k) / detJ
           - J j b * N b i * dDetdu d J H k / (detJ * detJ)))
      (fun k => (Ji k x * H j k b) * (N b i / detJ) + (dN b i k * Ji k x) * (J j b / detJ)
         + (Ji k x * dDetdu d J H k) * (- (J j b * N b i / (detJ * detJ))))).
    + rewrite !sum_plus, !sum_scalr. field. assumption.
    + intros k Hk. rewrite (S j b k Hb Hk). field. assumption.
Qed.

Lemma dPdu_lim : forall d J H N dN b i j a, d = 2%nat \/ d = 3%nat -> within d a ->
  determinant d J <> 0 ->
  derivable_pt_lim (fun t => moved J H a t j b * (N b i + t * dN b i a) / determinant d (moved J H a t)) 0
    (dPdu d (determinant d J) J H N dN b i j a).
Proof.
  intros d J H N dN b i j a D W NZ.
  assert (Z : determinant d (moved J H a 0) = determinant d J).
  { apply determinant_ext; [apply dim23_123; assumption|]. intros. unfold moved. ring. }
  assert (A : derivable_pt_lim (fun t => moved J H a t j b * (N b i + t * dN b i a)) 0
    (H j b a * N b i + J j b * dN b i a)).
  { eapply dlim_ext; [|apply (dlim_cubic (J j b * N b i) (H j b a * N b i + J j b * dN b i a)
      (H j b a * dN b i a) 0)]. intro t. unfold moved. ring. }
  pose proof (dDetdu_lim d J H a D W) as B.
  assert (NZ' : determinant d (moved J H a 0) <> 0) by (rewrite Z; exact NZ).
  pose proof (derivable_pt_lim_div _ _ _ _ _ A B NZ') as C.
  eapply dlim_ext; [|replace (dPdu d (determinant d J) J H N dN b i j a) with
    (((H j b a * N b i + J j b * dN b i a) * determinant d (moved J H a 0)
      - dDetdu d J H a * (moved J H a 0 j b * (N b i + 0 * dN b i a)))
     / Rsqr (determinant d (moved J H a 0))); [exact C|]].
  - intro t. reflexivity.
  - rewrite Z. unfold dPdu, moved, Rsqr. field. assumption.
Qed.

(** The divergence. *)
Lemma piola_divergence : forall d J Ji H N dN b i, d = 2%nat \/ d = 3%nat -> is_inverse d J Ji ->
  determinant d J <> 0 -> within d b ->
  (forall r p q, within d p -> within d q -> H r p q = H r q p) ->
  sum d (fun j => piolaGradient d (determinant d J) J Ji H N dN b i j j) = dN b i b / determinant d J.
Proof.
  intros d J Ji H N dN b i D I NZ Hb S. set (D0 := determinant d J) in *.
  rewrite (sum_ext d _ (fun j => sum d (fun k => Ji k j * dPdu d D0 J H N dN b i j k))).
  2:{ intros j Hj. apply piolaGradient_form; assumption. }
  unfold dPdu.
  rewrite (sum_ext d _ (fun j => sum d (fun k => (Ji k j * H j k b)) * (N b i / D0)
     + sum d (fun k => (dN b i k * / D0) * (Ji k j * J j b))
     - sum d (fun k => (dDetdu d J H k * N b i / (D0 * D0)) * (Ji k j * J j b)))).
  2:{ intros j Hj. rewrite <- sum_scalr, <- sum_plus, <- sum_minus. apply sum_ext. intros k Hk.
      rewrite (S j b k Hb Hk). field. assumption. }
  rewrite sum_minus, sum_plus, sum_scalr.
  rewrite (sum_swap d d (fun j k => dN b i k * / D0 * (Ji k j * J j b))).
  rewrite (sum_swap d d (fun j k => dDetdu d J H k * N b i / (D0 * D0) * (Ji k j * J j b))).
  rewrite (sum_ext d (fun k => sum d (fun j => dN b i k * / D0 * (Ji k j * J j b)))
    (fun k => dN b i k * / D0 * delta k b)).
  2:{ intros k Hk. rewrite sum_scal, (inv_sum2 d J Ji k b I Hk Hb). reflexivity. }
  rewrite (sum_ext d (fun k => sum d (fun j => dDetdu d J H k * N b i / (D0 * D0) * (Ji k j * J j b)))
    (fun k => dDetdu d J H k * N b i / (D0 * D0) * delta k b)).
  2:{ intros k Hk. rewrite sum_scal, (inv_sum2 d J Ji k b I Hk Hb). reflexivity. }
  rewrite (sum_delta d (fun k => dN b i k * / D0)) by assumption.
  rewrite (sum_delta d (fun k => dDetdu d J H k * N b i / (D0 * D0))) by assumption.
  rewrite (jacobi_formula d J Ji H b D I Hb). fold D0.
  rewrite (sum_swap d d (fun j k => Ji k j * H j k b)). field. assumption.
Qed.
