(** Proofs about the quadrature rules. *)
From Coq Require Import QArith Reals Qreals List Lia Lra Bool.
From Verif Require Import Qua_model Qua_spec.
Import ListNotations.
Local Open Scope R_scope.

(** * Antiderivatives *)
Lemma antideriv_unique F G f a b : antideriv F f -> antideriv G f -> F b - F a = G b - G a.
Proof.
  intros HF HG.
  assert (HD : forall x, derivable_pt_lim (F - G)%F x 0).
  { intro x. replace 0 with (f x - f x) by ring. apply derivable_pt_lim_minus; auto. }
  assert (pr : derivable (F - G)%F) by (intro x; exists 0; apply HD).
  assert (C : constant (F - G)%F).
  { apply (null_derivative_1 (F - G)%F pr). intro x. apply derive_pt_eq_0. apply HD. }
  specialize (C a b). unfold minus_fct in C. lra.
Qed.
Lemma antideriv_ext F f g : (forall x, f x = g x) -> antideriv F f -> antideriv F g.
Proof. intros E H x. rewrite <- E. apply H. Qed.

Fixpoint ps (k : nat) (c : list R) (x : R) : R := match c with [] => 0 | a :: r => a * x ^ k + ps (S k) r x end.
Fixpoint ips (k : nat) (c : list R) (x : R) : R := match c with [] => 0 | a :: r => a / INR (S k) * x ^ S k + ips (S k) r x end.
Fixpoint lin (k : nat) (c : list R) (mu : nat -> R) : R := match c with [] => 0 | a :: r => a * mu k + lin (S k) r mu end.

Lemma ps_poly c : forall k x, ps k c x = x ^ k * poly c x.
Proof. induction c as [|a c IH]; intros k x; cbn [ps poly]; [ring|]. rewrite IH. simpl. ring. Qed.
Lemma poly_ps c x : poly c x = ps 0 c x.
Proof. rewrite ps_poly. simpl. ring. Qed.

Lemma ips_antideriv c : forall k, antideriv (ips k c) (ps k c).
Proof.
  induction c as [|a c IH]; intros k x.
  - apply derivable_pt_lim_const.
  - change (ips k (a :: c)) with (fun x => a / INR (S k) * x ^ S k + ips (S k) c x).
    cbn [ps]. apply (derivable_pt_lim_plus (fun x => a / INR (S k) * x ^ S k) (ips (S k) c)).
    + replace (a * x ^ k) with (a / INR (S k) * (INR (S k) * x ^ pred (S k))).
      * apply (derivable_pt_lim_scal (fun x => x ^ S k)). apply derivable_pt_lim_pow.
      * cbn [pred]. field. apply not_0_INR. discriminate.
    + apply IH.
Qed.
Definition I11 (j : nat) : R := (1 - (-1) ^ S j) / INR (S j).
Definition I01 (j : nat) : R := 1 / INR (S j).
Lemma ips_11 c : forall k, ips k c 1 - ips k c (-1) = lin k c I11.
Proof.
  induction c as [|a c IH]; intro k; cbn [ips lin]; [ring|]. rewrite <- IH. unfold I11.
  rewrite pow1. field. apply not_0_INR. discriminate.
Qed.
Lemma ips_01 c : forall k, ips k c 1 - ips k c 0 = lin k c I01.
Proof.
  induction c as [|a c IH]; intro k; cbn [ips lin]; [ring|]. rewrite <- IH. unfold I01.
  rewrite pow1, pow_i by lia. field. apply not_0_INR. discriminate.
Qed.

(** * Linear functionals *)
Lemma lin_diff c mu nu eps : forall k, (forall j, (k <= j < k + length c)%nat -> Rabs (mu j - nu j) <= eps) ->
  Rabs (lin k c mu - lin k c nu) <= eps * asum c.
Proof.
  induction c as [|a c IH]; intros k H; cbn [lin asum].
  - rewrite Rminus_0_r, Rabs_R0. lra.
  - replace (a * mu k + lin (S k) c mu - (a * nu k + lin (S k) c nu)) with (a * (mu k - nu k) + (lin (S k) c mu - lin (S k) c nu)) by ring.
    eapply Rle_trans; [apply Rabs_triang|]. rewrite Rabs_mult.
    specialize (IH (S k) ltac:(intros j Hj; apply H; simpl; lia)).
    specialize (H k ltac:(simpl; lia)).
    pose proof (Rabs_pos a).
    assert (Rabs a * Rabs (mu k - nu k) <= Rabs a * eps) by (apply Rmult_le_compat_l; assumption). lra.
Qed.
Lemma lin_bound c mu B : forall k, (forall j, (k <= j < k + length c)%nat -> Rabs (mu j) <= B) ->
  Rabs (lin k c mu) <= B * asum c.
Proof.
  induction c as [|a c IH]; intros k H; cbn [lin asum].
  - rewrite Rabs_R0. lra.
  - eapply Rle_trans; [apply Rabs_triang|]. rewrite Rabs_mult.
    specialize (IH (S k) ltac:(intros j Hj; apply H; simpl; lia)).
    specialize (H k ltac:(simpl; lia)).
    pose proof (Rabs_pos a).
    assert (Rabs a * Rabs (mu k) <= Rabs a * B) by (apply Rmult_le_compat_l; assumption). lra.
Qed.

(** * Sums over the points *)
Lemma qsum_ext {A} (xs : list A) f g : forall ws, (forall x, f x = g x) -> qsum xs ws f = qsum xs ws g.
Proof. induction xs as [|x xs IH]; intros [|w ws] H; simpl; try reflexivity. rewrite H, IH by assumption. reflexivity. Qed.
Lemma qsum_plus {A} (xs : list A) f g : forall ws, qsum xs ws (fun x => f x + g x) = qsum xs ws f + qsum xs ws g.
Proof. induction xs as [|x xs IH]; intros [|w ws]; simpl; try ring. rewrite IH. ring. Qed.
Lemma qsum_scal {A} (xs : list A) a f : forall ws, qsum xs ws (fun x => a * f x) = a * qsum xs ws f.
Proof. induction xs as [|x xs IH]; intros [|w ws]; simpl; try ring. rewrite IH. ring. Qed.
Lemma qsum_0 {A} (xs : list A) : forall ws, qsum xs ws (fun _ => 0) = 0.
Proof. induction xs as [|x xs IH]; intros [|w ws]; simpl; try ring. rewrite IH. ring. Qed.
Definition mom (xs ws : list Q) (j : nat) : R := qsum xs ws (fun x => Q2R x ^ j).
Lemma qsum_ps xs ws c : forall k, qsum xs ws (fun x => ps k c (Q2R x)) = lin k c (mom xs ws).
Proof.
  induction c as [|a c IH]; intro k; cbn [ps lin]; [apply qsum_0|].
  rewrite qsum_plus, qsum_scal, IH. reflexivity.
Qed.

Fixpoint powQ (x : Q) (n : nat) : Q := match n with O => 1%Q | S m => (x * powQ x m)%Q end.
(** Addition that keeps a common denominator. *)
Definition qadd (a b : Q) : Q :=
  if Z.eqb (Qnum a) 0 then b else if Z.eqb (Qnum b) 0 then a
  else if Pos.eqb (Qden a) (Qden b) then (Qnum a + Qnum b # Qden a)%Q else (a + b)%Q.
Lemma qadd_eq a b : (qadd a b == a + b)%Q.
Proof.
  unfold qadd. destruct a as [na da], b as [nb db]; cbn [Qnum Qden].
  destruct (Z.eqb na 0) eqn:Ea; [apply Z.eqb_eq in Ea; subst; unfold Qeq, Qplus; simpl; lia|].
  destruct (Z.eqb nb 0) eqn:Eb; [apply Z.eqb_eq in Eb; subst; unfold Qeq, Qplus; simpl; lia|].
  destruct (Pos.eqb da db) eqn:Ed; [|reflexivity]. apply Pos.eqb_eq in Ed. subst.
  unfold Qeq, Qplus; simpl. rewrite Pos2Z.inj_mul. ring.
Qed.
Fixpoint qmom (xs ws : list Q) (j : nat) : Q :=
  match xs, ws with
  | x :: xr, w :: wr => qadd (w * powQ x j)%Q (qmom xr wr j)
  | _, _ => 0%Q
  end.
Definition IQ (j : nat) : Q := ((1 - powQ (-1) (S j)) * (1 # Pos.of_succ_nat j))%Q.
Lemma powQ_R x n : Q2R (powQ x n) = Q2R x ^ n.
Proof. induction n as [|n IH]; simpl; [unfold Q2R; simpl; lra|]. rewrite Q2R_mult, IH. reflexivity. Qed.
Lemma qmom_R xs : forall ws j, Q2R (qmom xs ws j) = mom xs ws j.
Proof.
  unfold mom. induction xs as [|x xs IH]; intros [|w ws] j; cbn [qmom qsum]; try (unfold Q2R; simpl; lra).
  rewrite (Qeq_eqR _ _ (qadd_eq _ _)), Q2R_plus, Q2R_mult, powQ_R, IH. reflexivity.
Qed.
Lemma IQ_R j : Q2R (IQ j) = I11 j.
Proof.
  unfold IQ, I11. rewrite Q2R_mult, Q2R_minus, powQ_R. unfold Rdiv.
  replace (Q2R 1) with 1 by (unfold Q2R; simpl; lra). replace (Q2R (-1)) with (-1) by (unfold Q2R; simpl; lra).
  f_equal. unfold Q2R. simpl Qnum. simpl Qden. rewrite INR_IZR_INZ. 
  replace (Z.of_nat (S j)) with (Z.pos (Pos.of_succ_nat j)) by reflexivity. lra.
Qed.
Definition mom_ok (xs ws : list Q) (eps : Q) (K : nat) : bool :=
  forallb (fun j => Qle_bool (qmom xs ws j - IQ j) eps && Qle_bool (IQ j - qmom xs ws j) eps) (seq 0 K).
Lemma mom_ok_R xs ws eps K : mom_ok xs ws eps K = true -> forall j, (j < K)%nat -> Rabs (mom xs ws j - I11 j) <= Q2R eps.
Proof.
  intros H j Hj. unfold mom_ok in H. rewrite forallb_forall in H.
  specialize (H j ltac:(apply in_seq; lia)). apply andb_prop in H. destruct H as [H1 H2].
  apply Qle_bool_imp_le in H1, H2. apply Qle_Rle in H1, H2. rewrite Q2R_minus, qmom_R, IQ_R in H1, H2.
  apply Rabs_le. lra.
Qed.

Lemma rule_1d xs ws eps K c F : mom_ok xs ws eps K = true -> (length c <= K)%nat -> antideriv F (poly c) ->
  Rabs (qsum xs ws (fun x => poly c (Q2R x)) - (F 1 - F (-1))) <= Q2R eps * asum c.
Proof.
  intros H Hc HF.
  rewrite (qsum_ext xs _ (fun x => ps 0 c (Q2R x))) by (intro; apply poly_ps).
  rewrite qsum_ps. rewrite (antideriv_unique F (ips 0 c) (poly c) (-1) 1 HF).
  - rewrite ips_11. apply lin_diff. intros j Hj. apply (mom_ok_R _ _ _ K H). lia.
  - apply (antideriv_ext _ (ps 0 c)); [intro x; symmetry; apply poly_ps|apply ips_antideriv].
Qed.

(** * The square *)
Lemma asum_pos c : 0 <= asum c.
Proof. induction c as [|a c IH]; simpl; [lra|]. pose proof (Rabs_pos a). lra. Qed.
Lemma asum2_pos c : 0 <= asum2 c.
Proof. induction c as [|a c IH]; simpl; [lra|]. pose proof (asum_pos a). lra. Qed.
Lemma pm n : (-1) ^ n = 1 \/ (-1) ^ n = -1.
Proof. induction n as [|n [E|E]]; simpl; [left; lra|right; rewrite E; lra|left; rewrite E; lra]. Qed.
Lemma I11_bound j : Rabs (I11 j) <= 2.
Proof.
  unfold I11. assert (H : 1 <= INR (S j)) by (rewrite S_INR; pose proof (pos_INR j); lra).
  unfold Rdiv. rewrite Rabs_mult. rewrite (Rabs_right (/ INR (S j))) by (left; apply Rinv_0_lt_compat; lra).
  assert (Rabs (1 - (-1) ^ S j) <= 2).
  { destruct (pm (S j)) as [E|E]; rewrite E; apply Rabs_le; lra. }
  assert (/ INR (S j) <= 1) by (rewrite <- Rinv_1; apply Rinv_le_contravar; lra).
  pose proof (Rabs_pos (1 - (-1) ^ S j)).
  assert (0 < / INR (S j)) by (apply Rinv_0_lt_compat; lra).
  replace 2 with (2 * 1) by ring. apply Rmult_le_compat; lra.
Qed.

Lemma qsum_rows xs ws c y : forall k,
  qsum xs ws (fun x => ps k (map (fun r => poly r (Q2R x)) c) y) = ps k (map (fun r => lin 0 r (mom xs ws)) c) y.
Proof.
  induction c as [|r c IH]; intro k; cbn [map ps]; [apply qsum_0|].
  rewrite qsum_plus, IH. f_equal.
  rewrite (qsum_ext xs _ (fun x => y ^ k * ps 0 r (Q2R x))) by (intro x; rewrite <- poly_ps; ring).
  rewrite qsum_scal, qsum_ps. ring.
Qed.
Lemma rows_antideriv c y : forall k,
  antideriv (fun x => ps k (map (fun r => ips 0 r x) c) y) (fun x => ps k (map (fun r => poly r x) c) y).
Proof.
  induction c as [|r c IH]; intros k x; cbn [map ps].
  - apply derivable_pt_lim_const.
  - apply (derivable_pt_lim_plus (fun x => ips 0 r x * y ^ k) (fun x => ps (S k) (map (fun r0 => ips 0 r0 x) c) y)).
    + replace (poly r x * y ^ k) with (poly r x * y ^ k + ips 0 r x * 0) by ring.
      apply (derivable_pt_lim_mult (ips 0 r) (fun _ => y ^ k)).
      * rewrite poly_ps. apply ips_antideriv.
      * apply derivable_pt_lim_const.
    + apply IH.
Qed.
Lemma rows_diff c y : forall k,
  ps k (map (fun r => ips 0 r 1) c) y - ps k (map (fun r => ips 0 r (-1)) c) y = ps k (map (fun r => lin 0 r I11) c) y.
Proof.
  induction c as [|r c IH]; intro k; cbn [map ps]; [ring|].
  rewrite <- IH, <- ips_11. ring.
Qed.
Lemma lin2_diff xs ws eps K c : mom_ok xs ws eps K = true -> (forall r, In r c -> (length r <= K)%nat) ->
  forall k, (k + length c <= K)%nat ->
  Rabs (lin k (map (fun r => lin 0 r (mom xs ws)) c) (mom xs ws) - lin k (map (fun r => lin 0 r I11) c) I11)
  <= (Q2R eps * (4 + Q2R eps)) * asum2 c.
Proof.
  intros H. induction c as [|r c IH]; intros Hr k Hk; cbn [map lin asum2].
  - rewrite Rminus_0_r, Rabs_R0. lra.
  - specialize (IH ltac:(intros; apply Hr; right; assumption) (S k) ltac:(simpl in *; lia)).
    set (A := lin 0 r (mom xs ws)). set (B := lin 0 r I11).
    assert (HAB : Rabs (A - B) <= Q2R eps * asum r).
    { apply lin_diff. intros j Hj. apply (mom_ok_R _ _ _ K H). specialize (Hr r (or_introl eq_refl)). lia. }
    assert (HB : Rabs B <= 2 * asum r) by (apply lin_bound; intros; apply I11_bound).
    pose proof (mom_ok_R _ _ _ K H k ltac:(simpl in *; lia)) as Hm.
    assert (HM : Rabs (mom xs ws k) <= 2 + Q2R eps).
    { replace (mom xs ws k) with (I11 k + (mom xs ws k - I11 k)) by ring.
      eapply Rle_trans; [apply Rabs_triang|]. pose proof (I11_bound k). lra. }
    match goal with |- Rabs (_ + ?x - (_ + ?y)) <= _ =>
      replace (A * mom xs ws k + x - (B * I11 k + y)) with (((A - B) * mom xs ws k + B * (mom xs ws k - I11 k)) + (x - y)) by ring end.
    eapply Rle_trans; [apply Rabs_triang|]. rewrite Rmult_plus_distr_l. apply Rplus_le_compat; [|exact IH].
    eapply Rle_trans; [apply Rabs_triang|]. rewrite !Rabs_mult.
    assert (Rabs (A - B) * Rabs (mom xs ws k) <= Q2R eps * asum r * (2 + Q2R eps)) by (apply Rmult_le_compat; try apply Rabs_pos; assumption).
    assert (Rabs B * Rabs (mom xs ws k - I11 k) <= 2 * asum r * Q2R eps) by (apply Rmult_le_compat; try apply Rabs_pos; assumption).
    lra.
Qed.
Lemma rule_2d xs ws eps K c I : mom_ok xs ws eps K = true -> (length c <= K)%nat -> (forall r, In r c -> (length r <= K)%nat) ->
  is_square_integral (fun x y => poly (map (fun r => poly r x) c) y) I ->
  Rabs (qsum xs ws (fun y => qsum xs ws (fun x => poly (map (fun r => poly r (Q2R x)) c) (Q2R y))) - I)
   <= (Q2R eps * (4 + Q2R eps)) * asum2 c.
Proof.
  intros H Hc Hr (G & F & HG & HF & ->).
  assert (EG : forall y, G y 1 - G y (-1) = poly (map (fun r => lin 0 r I11) c) y).
  { intro y. rewrite (antideriv_unique (G y) (fun x => ps 0 (map (fun r => ips 0 r x) c) y) _ (-1) 1 (HG y)).
    - rewrite rows_diff. symmetry. apply poly_ps.
    - apply (antideriv_ext _ (fun x => ps 0 (map (fun r => poly r x) c) y)); [intro; symmetry; apply poly_ps|apply rows_antideriv]. }
  assert (HF' : antideriv F (poly (map (fun r => lin 0 r I11) c))) by (apply (antideriv_ext _ _ _ EG); exact HF).
  rewrite (antideriv_unique F (ips 0 (map (fun r => lin 0 r I11) c)) _ (-1) 1 HF').
  2:{ apply (antideriv_ext _ (ps 0 (map (fun r => lin 0 r I11) c))); [intro x; symmetry; apply poly_ps|apply ips_antideriv]. }
  rewrite ips_11.
  rewrite (qsum_ext xs _ (fun y => ps 0 (map (fun r => lin 0 r (mom xs ws)) c) (Q2R y))).
  2:{ intro y. rewrite <- qsum_rows. apply qsum_ext. intro x. apply poly_ps. }
  rewrite qsum_ps. apply (lin2_diff xs ws eps K c H Hr). lia.
Qed.

(** * The triangle *)
Lemma tri_value c I : is_triangle_integral (cub c) I ->
  I = c00 c / 2 + c10 c / 6 + c01 c / 6 + c20 c / 12 + c11 c / 24 + c02 c / 12
      + c30 c / 20 + c21 c / 60 + c12 c / 60 + c03 c / 20.
Proof.
  intros (G & F & HG & HF & ->).
  set (L := fun x => [c00 c + c10 c * x + c20 c * x ^ 2 + c30 c * x ^ 3; c01 c + c11 c * x + c21 c * x ^ 2; c02 c + c12 c * x; c03 c]).
  set (D := [c00 c + c01 c / 2 + c02 c / 3 + c03 c / 4;
             c10 c - c00 c + (c11 c - 2 * c01 c) / 2 + (c12 c - 3 * c02 c) / 3 - c03 c;
             c20 c - c10 c + (c21 c - 2 * c11 c + c01 c) / 2 + (c02 c - c12 c) + 3 / 2 * c03 c;
             c30 c - c20 c + (c11 c - 2 * c21 c) / 2 + (3 * c12 c - c02 c) / 3 - c03 c;
             - c30 c + c21 c / 2 - c12 c / 3 + c03 c / 4]).
  assert (EG : forall x, G x (1 - x) - G x 0 = poly D x).
  { intro x. rewrite (antideriv_unique (G x) (ips 0 (L x)) (cub c x) 0 (1 - x) (HG x)).
    - unfold L, D. cbn [ips poly]. simpl. field.
    - apply (antideriv_ext _ (ps 0 (L x))); [|apply ips_antideriv].
      intro y. unfold L, cub. cbn [ps]. ring. }
  assert (HF' : antideriv F (poly D)) by (apply (antideriv_ext _ _ _ EG); exact HF).
  rewrite (antideriv_unique F (ips 0 D) _ 0 1 HF').
  - rewrite ips_01. unfold D, I01. cbn [lin]. simpl. field.
  - apply (antideriv_ext _ (ps 0 D)); [intro x; symmetry; apply poly_ps|apply ips_antideriv].
Qed.
(** The integral exists. *)
Lemma tri_exists c : is_triangle_integral (cub c) (c00 c / 2 + c10 c / 6 + c01 c / 6 + c20 c / 12 + c11 c / 24 + c02 c / 12
      + c30 c / 20 + c21 c / 60 + c12 c / 60 + c03 c / 20).
Proof.
  set (L := fun x => [c00 c + c10 c * x + c20 c * x ^ 2 + c30 c * x ^ 3; c01 c + c11 c * x + c21 c * x ^ 2; c02 c + c12 c * x; c03 c]).
  set (D := [c00 c + c01 c / 2 + c02 c / 3 + c03 c / 4;
             c10 c - c00 c + (c11 c - 2 * c01 c) / 2 + (c12 c - 3 * c02 c) / 3 - c03 c;
             c20 c - c10 c + (c21 c - 2 * c11 c + c01 c) / 2 + (c02 c - c12 c) + 3 / 2 * c03 c;
             c30 c - c20 c + (c11 c - 2 * c21 c) / 2 + (3 * c12 c - c02 c) / 3 - c03 c;
             - c30 c + c21 c / 2 - c12 c / 3 + c03 c / 4]).
  exists (fun x => ips 0 (L x)), (ips 0 D). split; [|split].
  - intro x. apply (antideriv_ext _ (ps 0 (L x))); [|apply ips_antideriv].
    intro y. unfold L, cub. cbn [ps]. ring.
  - apply (antideriv_ext _ (ps 0 D)); [|apply ips_antideriv].
    intro x. unfold L, D. cbn [ips ps]. simpl. field.
  - rewrite ips_01. unfold D, I01. cbn [lin]. simpl. field.
Qed.
