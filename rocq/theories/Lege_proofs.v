(** Proofs about the Legendre polynomials. *)
From Coq Require Import List Arith Lia ZArith Bool Reals Lra.
From Verif Require Import RPoly Lagr_model Lagr_proofs Cheb_proofs Lege_model Lege_spec.
Import ListNotations.
Open Scope R_scope.

(** ** the recurrence, and derivatives *)
Lemma leg_SS n x : (INR n + 2) * leg (S (S n)) x = (2 * INR n + 3) * x * leg (S n) x - (INR n + 1) * leg n x.
Proof.
  change (leg (S (S n)) x) with (INR (2 * S (S n) - 1) / INR (S (S n)) * x * leg (S n) x - INR (S (S n) - 1) / INR (S (S n)) * leg n x).
  replace (INR (2 * S (S n) - 1)) with (2 * INR n + 3)
    by (replace (2 * S (S n) - 1)%nat with (2 * n + 3)%nat by lia; rewrite plus_INR, mult_INR; simpl; ring).
  replace (INR (S (S n) - 1)) with (INR n + 1) by (replace (S (S n) - 1)%nat with (S n) by lia; rewrite S_INR; ring).
  rewrite !S_INR. pose proof (pos_INR n). field. lra.
Qed.

Fixpoint dleg (n : nat) (x : R) : R :=
  match n with
  | O => 0
  | S O => 1
  | S (S m as p) => INR (2 * n - 1) / INR n * (leg p x + x * dleg p x) - INR (n - 1) / INR n * dleg m x
  end.

Lemma dleg_SS n x : (INR n + 2) * dleg (S (S n)) x = (2 * INR n + 3) * (leg (S n) x + x * dleg (S n) x) - (INR n + 1) * dleg n x.
Proof.
  change (dleg (S (S n)) x) with (INR (2 * S (S n) - 1) / INR (S (S n)) * (leg (S n) x + x * dleg (S n) x) - INR (S (S n) - 1) / INR (S (S n)) * dleg n x).
  replace (INR (2 * S (S n) - 1)) with (2 * INR n + 3)
    by (replace (2 * S (S n) - 1)%nat with (2 * n + 3)%nat by lia; rewrite plus_INR, mult_INR; simpl; ring).
  replace (INR (S (S n) - 1)) with (INR n + 1) by (replace (S (S n) - 1)%nat with (S n) by lia; rewrite S_INR; ring).
  rewrite !S_INR. pose proof (pos_INR n). field. lra.
Qed.

Lemma leg_deriv n x : derivable_pt_lim (leg n) x (dleg n x).
Proof.
  induction n as [| |n IH1 IH2] using two_step.
  - apply (derivable_pt_lim_const 1).
  - apply derivable_pt_lim_id.
  - set (a := INR (2 * S (S n) - 1) / INR (S (S n))). set (b := INR (S (S n) - 1) / INR (S (S n))).
    change (dleg (S (S n)) x) with (a * (leg (S n) x + x * dleg (S n) x) - b * dleg n x).
    apply (dpl_ext (fun y => a * (y * leg (S n) y) - b * leg n y)).
    { intro y. change (leg (S (S n)) y) with (a * y * leg (S n) y - b * leg n y). ring. }
    apply (derivable_pt_lim_minus (fun y => a * (y * leg (S n) y)) (fun y => b * leg n y)).
    + apply (derivable_pt_lim_scal (fun y => y * leg (S n) y)).
      apply (dpl_val _ _ (1 * leg (S n) x + x * dleg (S n) x)); [ring|].
      apply (derivable_pt_lim_mult id (leg (S n))); [apply derivable_pt_lim_id | assumption].
    + now apply (derivable_pt_lim_scal (leg n)).
Qed.

(** the three classical identities, for degree n+1 *)
Lemma leg_ids n x :
  (1 - x * x) * dleg (S n) x = (INR n + 1) * (leg n x - x * leg (S n) x) /\
  (INR n + 1) * leg (S n) x = x * dleg (S n) x - dleg n x /\
  dleg (S n) x = (INR n + 1) * leg n x + x * dleg n x.
Proof.
  induction n as [|n (IA & IB & IC)].
  - simpl. repeat split; ring.
  - rewrite S_INR. pose proof (pos_INR n) as Hn.
    pose proof (leg_SS n x) as R1. pose proof (dleg_SS n x) as R2.
    set (m := INR n) in *. set (P2 := leg (S (S n)) x) in *. set (P1 := leg (S n) x) in *. set (P0 := leg n x) in *.
    set (D2 := dleg (S (S n)) x) in *. set (D1 := dleg (S n) x) in *. set (D0 := dleg n x) in *.
    assert (C2 : D2 = (m + 1 + 1) * P1 + x * D1).
    { apply (Rmult_eq_reg_l (m + 2)); [|lra]. rewrite R2. replace D0 with (x * D1 - (m + 1) * P1) by lra. ring. }
    assert (B2 : (m + 1 + 1) * P2 = x * D2 - D1).
    { rewrite C2. replace (m + 1 + 1) with (m + 2) by ring. rewrite R1.
      replace (x * ((m + 2) * P1 + x * D1) - D1) with ((m + 2) * x * P1 - (1 - x * x) * D1) by ring. rewrite IA. ring. }
    assert (A2 : (1 - x * x) * D2 = (m + 1 + 1) * (P1 - x * P2)).
    { rewrite C2. replace ((m + 1 + 1) * (P1 - x * P2)) with ((m + 2) * P1 - x * ((m + 2) * P2)) by ring. rewrite R1.
      replace ((1 - x * x) * ((m + 1 + 1) * P1 + x * D1)) with ((1 - x * x) * (m + 2) * P1 + x * ((1 - x * x) * D1)) by ring.
      rewrite IA. ring. }
    repeat split; assumption.
Qed.

(** ** polynomials *)
Lemma leg_poly n : PolyFn (S n) (leg n).
Proof.
  induction n as [| |n IH1 IH2] using two_step.
  - apply PolyFn_const.
  - apply PolyFn_id.
  - set (a := INR (2 * S (S n) - 1) / INR (S (S n))). set (b := INR (S (S n) - 1) / INR (S (S n))).
    apply (PolyFn_ext _ (fun y => a * (y * leg (S n) y) - b * leg n y)).
    { intro y. change (leg (S (S n)) y) with (a * y * leg (S n) y - b * leg n y). ring. }
    apply (PolyFn_minus _ (fun y => a * (y * leg (S n) y)) (fun y => b * leg n y)).
    + apply PolyFn_scal, poly_mulx. assumption.
    + apply PolyFn_scal. apply (PolyFn_weaken (S n)); [lia | assumption].
Qed.

Lemma dleg_poly n : PolyFn n (dleg n).
Proof.
  destruct (PolyFn_deriv (S n) (leg n) (leg_poly n)) as (f & Pf & Df).
  replace (S n - 1)%nat with n in Pf by lia. apply (PolyFn_ext _ f); [|assumption].
  intro x. apply (uniqueness_limite (leg n) x); [apply Df | apply leg_deriv].
Qed.

Lemma leg_one n : leg n 1 = 1.
Proof.
  induction n as [| |n IH1 IH2] using two_step; try reflexivity.
  pose proof (leg_SS n 1) as H. rewrite IH1, IH2 in H. pose proof (pos_INR n).
  apply (Rmult_eq_reg_l (INR n + 2)); [|lra]. rewrite H. ring.
Qed.

Lemma leg_parity n x : leg n (- x) = (-1) ^ n * leg n x.
Proof.
  induction n as [| |n IH1 IH2] using two_step; [simpl; ring | simpl; ring|].
  pose proof (leg_SS n x) as H. pose proof (leg_SS n (- x)) as H'. rewrite IH1, IH2 in H'. pose proof (pos_INR n).
  apply (Rmult_eq_reg_l (INR n + 2)); [|lra]. rewrite H'.
  replace ((INR n + 2) * ((-1) ^ S (S n) * leg (S (S n)) x)) with ((-1) ^ S (S n) * ((INR n + 2) * leg (S (S n)) x)) by ring.
  rewrite H. simpl pow. ring.
Qed.

Lemma pow_m1_sq n : (-1) ^ n * (-1) ^ n = 1.
Proof. rewrite <- Rpow_mult_distr. replace (-1 * -1) with 1 by ring. apply pow1. Qed.

Lemma leg_mone n : leg n (-1) = (-1) ^ n.
Proof. pose proof (leg_parity n 1) as H. rewrite leg_one in H. replace (Ropp 1) with (-1) in H by lra. rewrite H. ring. Qed.

Lemma dleg_one n : dleg n 1 = INR n * (INR n + 1) / 2.
Proof.
  induction n as [|n IH]; [simpl; field|].
  destruct (leg_ids n 1) as (_ & _ & ->). rewrite IH, leg_one, S_INR. field.
Qed.

Lemma dleg_mone n : dleg n (-1) = (-1) ^ (S n) * (INR n * (INR n + 1) / 2).
Proof.
  induction n as [|n IH]; [simpl; field|].
  destruct (leg_ids n (-1)) as (_ & _ & ->). rewrite IH, leg_mone, S_INR. simpl pow. field.
Qed.

(** no roots outside ]-1,1[ *)
Lemma leg_ge1 n x : 1 <= x -> 1 <= leg n x /\ leg n x <= leg (S n) x.
Proof.
  intro Hx. induction n as [|n [IH1 IH2]]; [simpl; lra|].
  split; [lra|]. pose proof (leg_SS n x) as H. pose proof (pos_INR n) as Hn.
  apply (Rmult_le_reg_l (INR n + 2)); [lra|]. rewrite H.
  set (m := INR n) in *. set (P1 := leg (S n) x) in *. set (P0 := leg n x) in *.
  assert (0 <= (x - 1) * P1) by nra. assert (0 <= m * ((x - 1) * P1)) by nra. assert (0 <= m * (P1 - P0)) by nra. nra.
Qed.

Lemma leg_root_inside n x : leg n x = 0 -> -1 < x < 1.
Proof.
  intro H. split.
  - destruct (Rle_dec x (-1)) as [L|L]; [|lra]. exfalso.
    pose proof (proj1 (leg_ge1 n (- x) ltac:(lra))) as G. rewrite leg_parity, H in G. lra.
  - destruct (Rle_dec 1 x) as [L|L]; [|lra]. exfalso. pose proof (proj1 (leg_ge1 n x L)). lra.
Qed.

(** ** omega = (1-x^2) P' and the differential equation *)
Definition omg (n : nat) (x : R) : R := (1 - x * x) * dleg n x.

Lemma omg_deriv n x : derivable_pt_lim (omg n) x (- (INR n * (INR n + 1)) * leg n x).
Proof.
  destruct n as [|n].
  - apply (dpl_ext (fct_cte 0)); [intro; unfold omg, fct_cte; simpl; ring|].
    apply (dpl_val _ _ 0); [simpl; ring | apply derivable_pt_lim_const].
  - apply (dpl_ext (fun y => (INR n + 1) * (leg n y - y * leg (S n) y))).
    { intro y. unfold omg. destruct (leg_ids n y) as (-> & _). reflexivity. }
    apply (dpl_val _ _ ((INR n + 1) * (dleg n x - (1 * leg (S n) x + x * dleg (S n) x)))).
    { rewrite S_INR. destruct (leg_ids n x) as (_ & HB & _).
      replace (dleg n x) with (x * dleg (S n) x - (INR n + 1) * leg (S n) x) by lra. ring. }
    apply (derivable_pt_lim_scal (fun y => leg n y - y * leg (S n) y)).
    apply (derivable_pt_lim_minus (leg n) (fun y => y * leg (S n) y)); [apply leg_deriv|].
    apply (derivable_pt_lim_mult id (leg (S n))); [apply derivable_pt_lim_id | apply leg_deriv].
Qed.

Lemma omg_poly n : PolyFn (n + 2) (omg n).
Proof.
  apply (PolyFn_weaken (3 + n - 1)); [lia|]. apply (PolyFn_mult 3 n (fun x => 1 - x * x)); [|apply dleg_poly].
  exists [1; 0; -1]. split; [simpl; lia | intro; simpl; ring].
Qed.

Lemma omg_1 n : omg n 1 = 0. Proof. unfold omg. ring. Qed.
Lemma omg_m1 n : omg n (-1) = 0. Proof. unfold omg. ring. Qed.

(** ** integration by parts *)
Lemma Integ_deriv F f : (forall x, derivable_pt_lim F x (f x)) -> Integ f (F 1 - F (-1)).
Proof. intro H. exists F. split; [assumption | reflexivity]. Qed.

Lemma Integ_val f u v : u = v -> Integ f u -> Integ f v.
Proof. now intros ->. Qed.

(** ** orthogonality *)
Lemma pow_poly k : PolyFn (S k) (fun x => x ^ k).
Proof. induction k as [|k IH]; simpl; [apply PolyFn_const | now apply poly_mulx]. Qed.

Lemma dpl_pow k x : derivable_pt_lim (fun y => y ^ k) x (INR k * x ^ (pred k)).
Proof. apply derivable_pt_lim_pow. Qed.

(** the operator ((1-x^2) q')' on monomials *)
Lemma leg_moment_rel n k :
  Integ (fun x => leg n x * (INR n * (INR n + 1) * x ^ k + (INR k * (INR k - 1) * x ^ (k - 2) - INR k * (INR k + 1) * x ^ k))) 0.
Proof.
  set (F := fun x => (1 - x * x) * (INR k * x ^ (pred k)) * leg n x - omg n x * x ^ k).
  apply (Integ_val _ (F 1 - F (-1))); [unfold F; rewrite omg_1, omg_m1; ring|].
  apply Integ_deriv. intro x. unfold F.
  set (dq := INR k * (INR k - 1) * x ^ (k - 2) - INR k * (INR k + 1) * x ^ k).
  assert (Dq : derivable_pt_lim (fun y => (1 - y * y) * (INR k * y ^ pred k)) x dq).
  { destruct k as [|[|k]].
    - apply (dpl_ext (fct_cte 0)); [intro; unfold fct_cte; simpl; ring|]. apply (dpl_val _ _ 0); [unfold dq; simpl; ring|].
      apply derivable_pt_lim_const.
    - apply (dpl_ext (peval [1; 0; -1])); [intro; simpl; ring|].
      apply (dpl_val _ _ (peval (pderiv [1; 0; -1]) x)); [unfold dq; simpl; ring | apply pderiv_correct].
    - apply (dpl_ext (fun y => INR (S (S k)) * (y ^ (S k) - y ^ (S (S (S k)))))); [intro; simpl pred; simpl pow; ring|].
      apply (dpl_val _ _ (INR (S (S k)) * (INR (S k) * x ^ k - INR (S (S (S k))) * x ^ (S (S k))))).
      + unfold dq. simpl Nat.sub. rewrite Nat.sub_0_r. rewrite !S_INR. ring.
      + apply (derivable_pt_lim_scal (fun y => y ^ S k - y ^ S (S (S k)))).
        apply (derivable_pt_lim_minus (fun y => y ^ S k) (fun y => y ^ S (S (S k)))); apply dpl_pow. }
  apply (dpl_val _ _ ((dq * leg n x + (1 - x * x) * (INR k * x ^ pred k) * dleg n x) -
     ((- (INR n * (INR n + 1)) * leg n x) * x ^ k + omg n x * (INR k * x ^ pred k)))).
  { unfold omg, dq. ring. }
  apply (derivable_pt_lim_minus (fun y => (1 - y * y) * (INR k * y ^ pred k) * leg n y) (fun y => omg n y * y ^ k)).
  - apply (derivable_pt_lim_mult (fun y => (1 - y * y) * (INR k * y ^ pred k)) (leg n)); [exact Dq | apply leg_deriv].
  - apply (derivable_pt_lim_mult (omg n) (fun y => y ^ k)); [apply omg_deriv | apply dpl_pow].
Qed.

Lemma leg_moment n : forall k, (k < n)%nat -> Integ (fun x => leg n x * x ^ k) 0.
Proof.
  intro k. induction k as [k IH] using lt_wf_ind. intro Hk.
  destruct (Integ_exists (S n + S k - 1) (fun x => leg n x * x ^ k)) as [v Hv].
  { apply PolyFn_mult; [apply leg_poly | apply pow_poly]. }
  pose proof (leg_moment_rel n k) as Hrel.
  assert (H2 : Integ (fun x => INR k * (INR k - 1) * (leg n x * x ^ (k - 2))) 0).
  { destruct k as [|[|k]].
    - apply (Integ_ext (fun _ => 0)); [intro; simpl; ring | apply Integ_zero].
    - apply (Integ_ext (fun _ => 0)); [intro; simpl; ring | apply Integ_zero].
    - apply (Integ_val _ (INR (S (S k)) * (INR (S (S k)) - 1) * 0)); [ring|].
      apply (Integ_scal _ (fun x => leg n x * x ^ (S (S k) - 2))). apply IH; lia. }
  assert (H3 := Integ_plus _ _ _ _ (Integ_scal (INR n * (INR n + 1) - INR k * (INR k + 1)) _ _ Hv) H2).
  assert (H4 : (INR n * (INR n + 1) - INR k * (INR k + 1)) * v + 0 = 0).
  { eapply Integ_unique; [exact H3|]. eapply Integ_ext; [|exact Hrel]. intro x. cbv beta. ring. }
  assert (Hpos : INR n * (INR n + 1) - INR k * (INR k + 1) <> 0).
  { apply lt_INR in Hk. pose proof (pos_INR k). nra. }
  assert (v = 0); [|subst v; assumption].
  apply (Rmult_eq_reg_l (INR n * (INR n + 1) - INR k * (INR k + 1))); [lra | assumption].
Qed.

Lemma leg_orth n g : PolyFn n g -> Integ (fun x => leg n x * g x) 0.
Proof.
  intros (p & Hp & Ep).
  apply (Integ_ext (fun x => leg n x * peval p x)); [intro; now rewrite Ep|]. clear g Ep.
  induction p as [|c p IH] using rev_ind.
  - apply (Integ_ext (fun _ => 0)); [intro; simpl; ring | apply Integ_zero].
  - rewrite app_length in Hp. simpl in Hp.
    apply (Integ_ext (fun x => leg n x * peval p x + c * (leg n x * x ^ length p))).
    { intro x. assert (H : peval (p ++ [c]) x = peval p x + c * x ^ length p); [|rewrite H; ring].
      clear. induction p as [|a p IH]; simpl; [ring | rewrite IH; ring]. }
    apply (Integ_val _ (0 + c * 0)); [ring|]. apply Integ_plus; [apply IH; lia | apply Integ_scal, leg_moment; lia].
Qed.

Lemma leg_is n : IsLegendre n (leg n).
Proof. split; [apply leg_poly | split; [apply leg_one | apply leg_orth]]. Qed.

(** ** uniqueness *)
Lemma Integ_nonneg_zero f : (forall x, 0 <= f x) -> Integ f 0 -> forall x, -1 < x < 1 -> f x = 0.
Proof.
  intros Hf (F & HF & E0) x Hx.
  assert (pr : derivable F) by (intro y; exists (f y); apply HF).
  assert (inc : increasing F).
  { apply (nonneg_derivative_1 F pr). intro y. unfold derive_pt. destruct (pr y) as [l Hl]. simpl.
    unfold derivable_pt_abs in Hl. rewrite (uniqueness_limite F y l (f y) Hl (HF y)). apply Hf. }
  assert (cst : forall y, -1 <= y <= 1 -> F y = F (-1)).
  { intros y Hy. pose proof (inc (-1) y ltac:(lra)). pose proof (inc y 1 ltac:(lra)). lra. }
  apply (uniqueness_limite F x); [apply HF|].
  intros eps He. set (d := Rmin (x + 1) (1 - x)).
  assert (Hd : 0 < d) by (unfold d; apply Rmin_glb_lt; lra).
  exists (mkposreal d Hd). intros h Hh Hhd. simpl in Hhd.
  assert (d <= x + 1) by apply Rmin_l. assert (d <= 1 - x) by apply Rmin_r.
  apply Rabs_def2 in Hhd. rewrite (cst (x + h)), (cst x) by lra.
  replace ((F (-1) - F (-1)) / h - 0) with 0 by (unfold Rdiv; ring). rewrite Rabs_R0. assumption.
Qed.

Lemma poly_self_orth n h : PolyFn n h -> Integ (fun x => h x * h x) 0 -> forall x, h x = 0.
Proof.
  intros Hh H0. destruct (pts_inside n) as (l & Hl & Hn & Hin).
  apply (PolyFn_roots n h l); try assumption; [lia|].
  intros a Ha. assert (h a * h a = 0); [|nra].
  apply (Integ_nonneg_zero (fun x => h x * h x)); [intro; nra | assumption | auto].
Qed.

Lemma legendre_unique n f g : IsLegendre n f -> IsLegendre n g -> forall x, f x = g x.
Proof.
  intros (Pf & f1 & Of) (Pg & g1 & Og).
  destruct (PolyFn_leading n f Pf) as [a Ha]. destruct (PolyFn_leading n g Pg) as [b Hb].
  assert (Z : forall h, PolyFn n h -> (exists c d, forall x, h x = c * f x + d * g x) -> forall x, h x = 0).
  { intros h Hh (c & d & E0). apply (poly_self_orth n); [assumption|].
    apply (Integ_ext (fun x => c * (f x * h x) + d * (g x * h x))); [intro x; rewrite (E0 x) at 3; ring|].
    apply (Integ_val _ (c * 0 + d * 0)); [ring|]. apply Integ_plus; apply Integ_scal; auto. }
  assert (Hb0 : b <> 0).
  { intros ->. assert (G : PolyFn n g) by (apply (PolyFn_ext _ (fun x => g x - 0 * x ^ n)); [intro; ring | assumption]).
    assert (g 1 = 0); [|lra]. apply (Z g G). exists 0, 1. intro; ring. }
  set (k := a / b).
  assert (H : forall x, f x - k * g x = 0).
  { apply (Z (fun x => f x - k * g x)).
    - apply (PolyFn_ext _ (fun x => (f x - a * x ^ n) - k * (g x - b * x ^ n))); [intro; unfold k; field; assumption|].
      apply (PolyFn_minus n (fun x => f x - a * x ^ n)); [assumption | now apply PolyFn_scal].
    - exists 1, (- k). intro; ring. }
  assert (k = 1) by (specialize (H 1); rewrite f1, g1 in H; lra).
  intro x. specialize (H x). rewrite H0 in H. lra.
Qed.

(** ** the norm *)
Lemma leg_norm n : Integ (fun x => leg n x * leg n x) (2 / (2 * INR n + 1)).
Proof.
  induction n as [|n IH].
  - apply (Integ_ext (fun _ => 1)); [intro; simpl; ring|].
    apply (Integ_val _ (id 1 - id (-1))); [unfold id; simpl; field | apply Integ_deriv; apply derivable_pt_lim_id].
  - pose proof (pos_INR n) as Hn.
    destruct (Integ_exists (S (S n) + S (S (S n)) - 1) (fun x => leg (S n) x * (x * leg n x))) as [J HJ].
    { apply (PolyFn_weaken (S (S n) + S (S n) - 1)); [lia|].
      apply (PolyFn_mult _ _ (leg (S n)) (fun x => x * leg n x)); [apply leg_poly | apply poly_mulx, leg_poly]. }
    (* 0 = (2n+3) J - (n+1) I_n, from the recurrence for n+2 times P_n *)
    assert (E1 : (2 * INR n + 3) * J - (INR n + 1) * (2 / (2 * INR n + 1)) = (INR n + 2) * 0).
    { eapply Integ_unique.
      - apply Integ_minus; [apply Integ_scal; exact HJ | apply Integ_scal; exact IH].
      - eapply Integ_ext; [|apply (Integ_scal (INR n + 2)); apply (leg_orth (S (S n)) (leg n)); apply (PolyFn_weaken (S n)); [lia | apply leg_poly]].
        intro x. cbv beta. pose proof (leg_SS n x). replace ((INR n + 2) * (leg (S (S n)) x * leg n x)) with (((INR n + 2) * leg (S (S n)) x) * leg n x) by ring.
        rewrite H. ring. }
    (* (n+1) I_{n+1} = (2n+1) J *)
    assert (E2 : exists m, (forall x, (INR n + 1) * leg (S n) x = (2 * INR n + 1) * x * leg n x - m x) /\ Integ (fun x => leg (S n) x * m x) 0).
    { destruct n as [|n].
      - exists (fun _ => 0). split; [intro; simpl; ring|]. apply (Integ_ext (fun _ => 0)); [intro; ring | apply Integ_zero].
      - exists (fun x => (INR n + 1) * leg n x). split.
        + intro x. pose proof (leg_SS n x) as H. rewrite S_INR. replace (INR n + 1 + 1) with (INR n + 2) by ring. rewrite H. ring.
        + apply (leg_orth (S (S n)) (fun x => (INR n + 1) * leg n x)). apply PolyFn_scal.
          apply (PolyFn_weaken (S n)); [lia | apply leg_poly]. }
    destruct E2 as (m & Em & Om).
    apply (Integ_ext (fun x => (/ (INR n + 1)) * ((2 * INR n + 1) * (leg (S n) x * (x * leg n x)) - leg (S n) x * m x))).
    { intro x. replace ((2 * INR n + 1) * (leg (S n) x * (x * leg n x)) - leg (S n) x * m x)
        with (leg (S n) x * ((2 * INR n + 1) * x * leg n x - m x)) by ring. rewrite <- Em. field. lra. }
    apply (Integ_val _ (/ (INR n + 1) * ((2 * INR n + 1) * J - 0))).
    + assert (EJ : J = (INR n + 1) * (2 / (2 * INR n + 1)) / (2 * INR n + 3)).
      { apply (Rmult_eq_reg_l (2 * INR n + 3)); [|lra].
        replace ((2 * INR n + 3) * ((INR n + 1) * (2 / (2 * INR n + 1)) / (2 * INR n + 3)))
          with ((INR n + 1) * (2 / (2 * INR n + 1))) by (field; lra). lra. }
      rewrite EJ, S_INR. field. lra.
    + apply (Integ_scal _ (fun x => (2 * INR n + 1) * (leg (S n) x * (x * leg n x)) - leg (S n) x * m x)).
      apply (Integ_minus (fun x => (2 * INR n + 1) * (leg (S n) x * (x * leg n x))) (fun x => leg (S n) x * m x)); [|assumption].
      apply (Integ_scal _ (fun x => leg (S n) x * (x * leg n x))). exact HJ.
Qed.
