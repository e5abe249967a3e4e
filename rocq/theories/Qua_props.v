(** C99 and C100: the quadrature rules. *)
From Coq Require Import QArith Reals Qreals List Lia Lra Bool.
From Verif Require Import Qua_model Qua_spec Qua_proofs.
Import ListNotations.
Local Open Scope R_scope.

(** * C99 *)

(** The rules with 1 to 9 points integrate all polynomials of degree below 2n over [-1,1]
    up to 2e-16 times the sum of the sizes of the coefficients; the one with 10 points up
    to 2e-8 only. *)
Theorem gauss_exact : forall n c F, (1 <= n <= 9)%nat -> (length c <= 2 * n)%nat -> antideriv F (poly c) ->
  exists q, gauss n (poly c) = Some q /\ Rabs (q - (F 1 - F (-1))) <= 2 / 10 ^ 16 * asum c.
Proof.
  intros n c F Hn Hc HF.
  assert (Ee : Q2R (2 # 10000000000000000) = 2 / 10 ^ 16) by (unfold Q2R; simpl; lra).
  rewrite <- Ee. unfold gauss.
  destruct n as [|[|[|[|[|[|[|[|[|[|n]]]]]]]]]]; try lia; cbn [getGauss];
  (eexists; split; [reflexivity|]);
  (eapply rule_1d; [|exact Hc|exact HF]; vm_compute; reflexivity).
Qed.
Print Assumptions gauss_exact.
Theorem gauss10_exact_partial : forall c F, (length c <= 20)%nat -> antideriv F (poly c) ->
  exists q, gauss 10 (poly c) = Some q /\ Rabs (q - (F 1 - F (-1))) <= 2 / 10 ^ 8 * asum c.
Proof.
  intros c F Hc HF.
  assert (Ee : Q2R (2 # 100000000) = 2 / 10 ^ 8) by (unfold Q2R; simpl; lra).
  rewrite <- Ee. unfold gauss. cbn [getGauss]. eexists; split; [reflexivity|].
  (eapply rule_1d; [|exact Hc|exact HF]; vm_compute; reflexivity).
Qed.
Print Assumptions gauss10_exact_partial.
(** The 10-point rule is not exact to double precision: the length of [-1,1] is off by 2e-8. *)
Theorem gauss10_refuted : exists q, gauss 10 (fun _ => 1) = Some q /\ Rabs (q - 2) = 2 / 10 ^ 8.
Proof.
  eexists. split; [reflexivity|]. simpl.
  match goal with |- Rabs ?a = _ => replace a with (- (2 / 10 ^ 8)) || replace a with (2 / 10 ^ 8) end; unfold Q2R; simpl; try lra.
  rewrite ?Rabs_Ropp, Rabs_right; lra.
Qed.
Print Assumptions gauss10_refuted.

(** The degree cannot be raised: x^(2n) is off by more than 2e-6. *)
Theorem gauss_sharp : forall n, (1 <= n <= 10)%nat ->
  exists q, gauss n (fun x => x ^ (2 * n)) = Some q /\ 2 / 10 ^ 6 <= 2 / INR (2 * n + 1) - q.
Proof.
  intros n Hn.
  assert (G : forall xs ws (j : nat) d, Qle_bool (2 # 1000000) (d - qmom xs ws j) = true ->
     2 / 10 ^ 6 <= Q2R d - qsum xs ws (fun x => Q2R x ^ j)).
  { intros xs ws j d H. apply Qle_bool_imp_le in H. apply Qle_Rle in H. rewrite Q2R_minus, qmom_R in H.
    unfold mom in H. replace (2 / 10 ^ 6) with (Q2R (2 # 1000000)) by (unfold Q2R; simpl; lra). exact H. }
  unfold gauss. destruct n as [|[|[|[|[|[|[|[|[|[|[|n]]]]]]]]]]]; try lia; cbn [getGauss];
  (eexists; split; [reflexivity|]).
  - replace (2 / INR (2 * 1 + 1)) with (Q2R (2 # 3)) by (unfold Q2R; simpl; field). apply G; vm_compute; reflexivity.
  - replace (2 / INR (2 * 2 + 1)) with (Q2R (2 # 5)) by (unfold Q2R; simpl; field). apply G; vm_compute; reflexivity.
  - replace (2 / INR (2 * 3 + 1)) with (Q2R (2 # 7)) by (unfold Q2R; simpl; field). apply G; vm_compute; reflexivity.
  - replace (2 / INR (2 * 4 + 1)) with (Q2R (2 # 9)) by (unfold Q2R; simpl; field). apply G; vm_compute; reflexivity.
  - replace (2 / INR (2 * 5 + 1)) with (Q2R (2 # 11)) by (unfold Q2R; simpl; field). apply G; vm_compute; reflexivity.
  - replace (2 / INR (2 * 6 + 1)) with (Q2R (2 # 13)) by (unfold Q2R; simpl; field). apply G; vm_compute; reflexivity.
  - replace (2 / INR (2 * 7 + 1)) with (Q2R (2 # 15)) by (unfold Q2R; simpl; field). apply G; vm_compute; reflexivity.
  - replace (2 / INR (2 * 8 + 1)) with (Q2R (2 # 17)) by (unfold Q2R; simpl; field). apply G; vm_compute; reflexivity.
  - replace (2 / INR (2 * 9 + 1)) with (Q2R (2 # 19)) by (unfold Q2R; simpl; field). apply G; vm_compute; reflexivity.
  - replace (2 / INR (2 * 10 + 1)) with (Q2R (2 # 21)) by (unfold Q2R; simpl; field). apply G; vm_compute; reflexivity.
Qed.
Print Assumptions gauss_sharp.

(** The points are inside the domain, increasing and symmetric, all weights are positive. *)
Theorem gauss_points : forall n, (1 <= n <= 10)%nat ->
  exists xs ws, getGauss n Coord = Some xs /\ getGauss n Weight = Some ws /\ length xs = n /\ length ws = n /\
    (forall i, (i < n)%nat -> (-1 < nth i xs 0 < 1)%Q /\ (0 < nth i ws 0)%Q /\ (nth (n - 1 - i) xs 0 == - nth i xs 0)%Q) /\
    (forall i, (S i < n)%nat -> (nth i xs 0 < nth (S i) xs 0)%Q).
Proof.
  intros n Hn.
  destruct n as [|[|[|[|[|[|[|[|[|[|[|n]]]]]]]]]]]; try lia; cbn [getGauss];
  (eexists _, _; split; [reflexivity|]; split; [reflexivity|]; split; [reflexivity|]; split; [reflexivity|]; split);
  intros i Hi; destruct i as [|[|[|[|[|[|[|[|[|[|i]]]]]]]]]]; try lia; repeat split.
Qed.
Print Assumptions gauss_points.

(** Other numbers of points have no rule; the one for no points adds nothing. *)
Theorem gauss_avail : forall f, gauss 0 f = Some 0 /\ forall n, (10 < n)%nat -> gauss n f = None.
Proof.
  intro f. split.
  - unfold gauss. simpl. f_equal. unfold Q2R; simpl; lra.
  - intros n Hn. do 11 (destruct n as [|n]; [lia|]). reflexivity.
Qed.
Print Assumptions gauss_avail.

(** The tensor product rule is exact for polynomials of degree below 2n in each variable. *)
Theorem gauss2_exact : forall n c I, (1 <= n <= 9)%nat -> (length c <= 2 * n)%nat ->
  (forall r, In r c -> (length r <= 2 * n)%nat) ->
  is_square_integral (fun x y => poly (map (fun r => poly r x) c) y) I ->
  exists q, gauss2 n (fun x y => poly (map (fun r => poly r x) c) y) = Some q /\ Rabs (q - I) <= 9 / 10 ^ 16 * asum2 c.
Proof.
  intros n c I Hn Hc Hr HI.
  assert (Hb : Q2R (2 # 10000000000000000) * (4 + Q2R (2 # 10000000000000000)) * asum2 c <= 9 / 10 ^ 16 * asum2 c).
  { apply Rmult_le_compat_r; [apply asum2_pos|]. unfold Q2R; simpl; lra. }
  unfold gauss2.
  destruct n as [|[|[|[|[|[|[|[|[|[|n]]]]]]]]]]; try lia; cbn [getGauss];
  (eexists; split; [reflexivity|]); (eapply Rle_trans; [|exact Hb]);
  (eapply rule_2d; [|exact Hc|exact Hr|exact HI]; vm_compute; reflexivity).
Qed.
Print Assumptions gauss2_exact.

Example gauss_exact_ex : antideriv (fun x => x + x ^ 3) (poly [1; 0; 3]) /\ (length [1; 0; 3] <= 2 * 2)%nat.
Proof.
  split; [|simpl; lia]. intro x. replace (poly [1; 0; 3] x) with (1 + INR 3 * x ^ 2) by (simpl; ring).
  apply (derivable_pt_lim_plus id (fun x => x ^ 3)); [apply derivable_pt_lim_id|apply derivable_pt_lim_pow].
Qed.
Example gauss2_ex : is_square_integral (fun x y => poly (map (fun r => poly r x) [[0]; [0; 1]]) y) 0.
Proof.
  exists (fun y x => ps 0 (map (fun r => ips 0 r x) [[0]; [0; 1]]) y), (ips 0 (map (fun r => lin 0 r I11) [[0]; [0; 1]])).
  split; [|split].
  - intro y. apply (antideriv_ext _ (fun x => ps 0 (map (fun r => poly r x) [[0]; [0; 1]]) y)); [intro; symmetry; apply poly_ps|apply rows_antideriv].
  - apply (antideriv_ext _ (ps 0 (map (fun r => lin 0 r I11) [[0]; [0; 1]]))); [|apply ips_antideriv].
    intro y. symmetry. apply rows_diff.
  - rewrite ips_11. unfold I11. simpl. field.
Qed.

(** * C100 *)

Ltac cabs_tac c :=
  pose proof (Rle_abs (c00 c)); pose proof (Rle_abs (- c00 c)); pose proof (Rle_abs (c10 c)); pose proof (Rle_abs (- c10 c));
  pose proof (Rle_abs (c01 c)); pose proof (Rle_abs (- c01 c)); pose proof (Rle_abs (c20 c)); pose proof (Rle_abs (- c20 c));
  pose proof (Rle_abs (c11 c)); pose proof (Rle_abs (- c11 c)); pose proof (Rle_abs (c02 c)); pose proof (Rle_abs (- c02 c));
  pose proof (Rle_abs (c30 c)); pose proof (Rle_abs (- c30 c)); pose proof (Rle_abs (c21 c)); pose proof (Rle_abs (- c21 c));
  pose proof (Rle_abs (c12 c)); pose proof (Rle_abs (- c12 c)); pose proof (Rle_abs (c03 c)); pose proof (Rle_abs (- c03 c));
  rewrite !Rabs_Ropp in *.

Lemma tri_scale n detJ f q1 : triangle n 1 f = Some q1 -> triangle n detJ f = Some (detJ * q1).
Proof.
  unfold triangle. destruct (triCoord n) as [xs|]; [|discriminate]. destruct (triWeight n) as [ws|]; [|discriminate].
  intro H. injection H as <-. f_equal. rewrite <- qsum_scal. apply qsum_ext. intro p. ring.
Qed.

(** The rule with one point is exact for linear functions, the one with four points for
    cubic ones, for every triangle (the factor detJ is the determinant of its map). *)
Theorem tri4_exact : forall c I detJ, is_triangle_integral (cub c) I ->
  exists q, triangle 4 detJ (cub c) = Some q /\ Rabs (q - detJ * I) <= 1 / 10 ^ 15 * (Rabs detJ * cabs c).
Proof.
  intros c I detJ HI. apply tri_value in HI. subst I.
  eexists. split; [apply tri_scale; reflexivity|].
  rewrite <- Rmult_minus_distr_l, Rabs_mult.
  replace (1 / 10 ^ 15 * (Rabs detJ * cabs c)) with (Rabs detJ * (1 / 10 ^ 15 * cabs c)) by ring.
  apply Rmult_le_compat_l; [apply Rabs_pos|].
  apply Rabs_le. unfold cub, cabs. cabs_tac c. simpl. unfold Q2R; simpl. split; lra.
Qed.
Print Assumptions tri4_exact.
Theorem tri1_exact : forall c I detJ, is_triangle_integral (cub c) I ->
  c20 c = 0 -> c11 c = 0 -> c02 c = 0 -> c30 c = 0 -> c21 c = 0 -> c12 c = 0 -> c03 c = 0 ->
  exists q, triangle 1 detJ (cub c) = Some q /\ Rabs (q - detJ * I) <= 1 / 10 ^ 15 * (Rabs detJ * cabs c).
Proof.
  intros c I detJ HI H20 H11 H02 H30 H21 H12 H03. apply tri_value in HI. subst I.
  eexists. split; [apply tri_scale; reflexivity|].
  rewrite <- Rmult_minus_distr_l, Rabs_mult.
  replace (1 / 10 ^ 15 * (Rabs detJ * cabs c)) with (Rabs detJ * (1 / 10 ^ 15 * cabs c)) by ring.
  apply Rmult_le_compat_l; [apply Rabs_pos|].
  apply Rabs_le. unfold cub, cabs. cabs_tac c. rewrite H20, H11, H02, H30, H21, H12, H03. rewrite Rabs_R0.
  simpl. unfold Q2R; simpl. split; lra.
Qed.
Print Assumptions tri1_exact.

(** The rule with three points has the point (1/2,1/2) twice: for all linear functions the
    result is off by detJ c01 / 12, where c01 is the derivative for the second coordinate. *)
Theorem tri3_linear_refuted : forall c I detJ, is_triangle_integral (cub c) I ->
  c20 c = 0 -> c11 c = 0 -> c02 c = 0 -> c30 c = 0 -> c21 c = 0 -> c12 c = 0 -> c03 c = 0 ->
  exists q, triangle 3 detJ (cub c) = Some q /\
    Rabs (q - (detJ * I + detJ * c01 c / 12)) <= 1 / 10 ^ 15 * (Rabs detJ * cabs c).
Proof.
  intros c I detJ HI H20 H11 H02 H30 H21 H12 H03. apply tri_value in HI. subst I.
  eexists. split; [apply tri_scale; reflexivity|].
  replace (detJ * c01 c / 12) with (detJ * (c01 c / 12)) by (unfold Rdiv; ring).
  rewrite <- Rmult_plus_distr_l, <- Rmult_minus_distr_l, Rabs_mult.
  replace (1 / 10 ^ 15 * (Rabs detJ * cabs c)) with (Rabs detJ * (1 / 10 ^ 15 * cabs c)) by ring.
  apply Rmult_le_compat_l; [apply Rabs_pos|].
  apply Rabs_le. unfold cub, cabs. cabs_tac c. rewrite H20, H11, H02, H30, H21, H12, H03. rewrite Rabs_R0.
  simpl. unfold Q2R; simpl. split; lra.
Qed.
Print Assumptions tri3_linear_refuted.

(** The nodal loads of a uniform load: a third of the area each with one and four points;
    with three points 1/3, 1/2 and 1/6 of it (the area is detJ/2). *)
Theorem tri_nodal_loads : forall detJ i, (1 <= i <= 3)%nat ->
  (exists q, triangle 1 detJ (triBasis i) = Some q /\ Rabs (q - detJ / 2 / 3) <= 1 / 10 ^ 15 * Rabs detJ) /\
  (exists q, triangle 4 detJ (triBasis i) = Some q /\ Rabs (q - detJ / 2 / 3) <= 1 / 10 ^ 15 * Rabs detJ) /\
  (exists q, triangle 3 detJ (triBasis i) = Some q /\
     Rabs (q - detJ / 2 * match i with 1%nat => 1/3 | 2%nat => 1/2 | _ => 1/6 end) <= 1 / 10 ^ 15 * Rabs detJ).
Proof.
  intros detJ i Hi.
  assert (A : forall a b, Rabs (a - b) <= 1 / 10 ^ 15 -> Rabs (detJ * a - detJ * b) <= 1 / 10 ^ 15 * Rabs detJ).
  { intros a b H. rewrite <- Rmult_minus_distr_l, Rabs_mult. rewrite Rmult_comm. apply Rmult_le_compat_r; [apply Rabs_pos|exact H]. }
  replace (detJ / 2 / 3) with (detJ * (1 / 6)) by field.
  split; [|split]; (eexists; split; [apply tri_scale; reflexivity|]).
  - apply A. apply Rabs_le. destruct i as [|[|[|[|i]]]]; try lia; unfold triBasis; simpl; unfold Q2R; simpl; split; lra.
  - apply A. apply Rabs_le. destruct i as [|[|[|[|i]]]]; try lia; unfold triBasis; simpl; unfold Q2R; simpl; split; lra.
  - replace (detJ / 2 * match i with 1%nat => 1/3 | 2%nat => 1/2 | _ => 1/6 end) with (detJ * (1/2 * match i with 1%nat => 1/3 | 2%nat => 1/2 | _ => 1/6 end)) by field.
    apply A. apply Rabs_le. destruct i as [|[|[|[|i]]]]; try lia; unfold triBasis; simpl; unfold Q2R; simpl; split; lra.
Qed.
Print Assumptions tri_nodal_loads.

(** With (1/2,0) for the second point the rule is exact for quadratic functions. *)
Theorem tri3_fixed : forall c I, is_triangle_integral (cub c) I ->
  c30 c = 0 -> c21 c = 0 -> c12 c = 0 -> c03 c = 0 ->
  Rabs (qsum [(5#10, 5#10); (5#10, 0); (0, 5#10)]%Q W3 (fun p => 1/2 * cub c (Q2R (fst p)) (Q2R (snd p))) - I) <= 1 / 10 ^ 15 * cabs c.
Proof.
  intros c I HI H30 H21 H12 H03. apply tri_value in HI. subst I.
  apply Rabs_le. unfold cub, cabs. cabs_tac c. rewrite H30, H21, H12, H03. rewrite Rabs_R0.
  simpl. unfold Q2R; simpl. split; lra.
Qed.
Print Assumptions tri3_fixed.

(** Every cubic polynomial has an integral: the hypotheses above can be met. *)
Theorem tri_integral_exists : forall c, exists I, is_triangle_integral (cub c) I /\ forall J, is_triangle_integral (cub c) J -> J = I.
Proof.
  intro c. eexists. split; [apply tri_exists|]. intros J HJ. apply tri_value in HJ. exact HJ.
Qed.
Print Assumptions tri_integral_exists.

Theorem tri_avail : forall detJ f n, n <> 0%nat -> n <> 1%nat -> n <> 3%nat -> n <> 4%nat -> triangle n detJ f = None.
Proof. intros detJ f n H0 H1 H3 H4. destruct n as [|[|[|[|[|n]]]]]; try lia; reflexivity. Qed.
Print Assumptions tri_avail.
