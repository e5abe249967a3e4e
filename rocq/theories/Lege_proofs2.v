(** Proofs about the Gauss-Legendre and Gauss-Lobatto-Legendre rules. *)
From Coq Require Import List Arith Lia ZArith Bool Reals Lra FinFun.
From Verif Require Import RPoly Lagr_model Lagr_spec Lagr_proofs Cheb_proofs Lege_model Lege_spec Lege_proofs.
Import ListNotations.
Open Scope R_scope.

(** ** tools *)
Lemma poly_eq_off n f g a : PolyFn n f -> PolyFn n g -> (forall x, x <> a -> f x = g x) -> forall x, f x = g x.
Proof.
  intros Hf Hg H. apply (PolyFn_agree n f g (map (fun i => a + 1 + INR i) (seq 0 n))); try assumption.
  - apply Injective_map_NoDup; [|apply seq_NoDup]. intros i j E0. apply INR_eq. lra.
  - rewrite map_length, seq_length. lia.
  - intros y Hy. apply H. apply in_map_iff in Hy. destruct Hy as (i & <- & _). pose proof (pos_INR i). lra.
Qed.

Lemma finite_choice (P : nat -> R -> Prop) n : (forall i, (i < n)%nat -> exists v, P i v) ->
  exists W, forall i, (i < n)%nat -> P i (W i).
Proof.
  induction n as [|n IH]; intro H; [exists (fun _ => 0); lia|].
  destruct IH as [W HW]; [intros; apply H; lia|]. destruct (H n) as [v Hv]; [lia|].
  exists (fun i => if (i =? n)%nat then v else W i). intros i Hi. destruct (Nat.eqb_spec i n) as [-> |]; [assumption|].
  apply HW. lia.
Qed.

Lemma const_factor n om xs : length xs = n -> NoDup xs -> PolyFn (S n) om -> (forall a, In a xs -> om a = 0) ->
  (exists y, om y <> 0) -> exists k, k <> 0 /\ forall x, om x = k * rprod (map (fun a => x - a) xs).
Proof.
  intros Hl Hn Ho Hz (y & Hy). destruct (PolyFn_factors xs 1 om Hn) as (g & (p & Hp & Ep) & Eg); [|assumption|].
  - rewrite Hl. now replace (n + 1)%nat with (S n) by lia.
  - assert (C : forall x, g x = g 0).
    { intro x. rewrite !Ep. destruct p as [|c [|d p]]; simpl in *; [reflexivity | ring | lia]. }
    exists (g 0). split.
    + intro E0. apply Hy. rewrite Eg, (C y), E0. ring.
    + intro x. rewrite Eg, (C x). ring.
Qed.

(** the rule that integrates the interpolant *)
Lemma interp_rule n m om xs k W : length xs = n -> NoDup xs -> k <> 0 ->
  (forall x, om x = k * rprod (map (fun a => x - a) xs)) ->
  (forall g, PolyFn m g -> Integ (fun x => om x * g x) 0) ->
  (forall i, (i < n)%nat -> Integ (lagp xs i) (W i)) ->
  forall q, PolyFn (n + m) q -> Integ q (rsum (map (fun i => W i * q (nth i xs 0)) (seq 0 n))).
Proof.
  intros Hl Hn Hk Eom Orth HW q Hq.
  set (r := fun x => rsum (map (fun i => q (nth i xs 0) * lagp xs i x) (seq 0 n))).
  assert (Pr : PolyFn n r).
  { apply (PolyFn_rsum n (fun i x => q (nth i xs 0) * lagp xs i x)). intros i Hi. apply in_seq in Hi.
    apply PolyFn_scal. rewrite <- Hl. apply lagp_poly. lia. }
  assert (Nr : forall a, In a xs -> q a - r a = 0).
  { intros a Ha. destruct (In_nth xs a 0 Ha) as (j & Hj & <-). unfold r.
    rewrite (rsum_single _ _ j (seq_NoDup _ _)).
    - rewrite lagp_node, Nat.eqb_refl by assumption. ring.
    - apply in_seq. lia.
    - intros b Hb Hbj. apply in_seq in Hb. rewrite lagp_node by (assumption || lia).
      destruct (Nat.eqb_spec j b); [congruence | ring]. }
  destruct (PolyFn_factors xs m (fun x => q x - r x) Hn) as (g & Pg & Eg).
  - rewrite Hl. apply PolyFn_minus; [assumption | apply (PolyFn_weaken n); [lia | assumption]].
  - assumption.
  - apply (Integ_ext (fun x => r x + / k * (om x * g x))).
    { intro x. specialize (Eg x). cbv beta in Eg. replace (q x) with (r x + (q x - r x)) by ring. rewrite Eg, Eom. field. assumption. }
    apply (Integ_val _ (rsum (map (fun i => W i * q (nth i xs 0)) (seq 0 n)) + / k * 0)); [ring|].
    apply Integ_plus; [|now apply Integ_scal, Orth].
    apply (Integ_rsum (fun i x => q (nth i xs 0) * lagp xs i x)). intros i Hi. apply in_seq in Hi.
    apply (Integ_val _ (q (nth i xs 0) * W i)); [ring|]. apply Integ_scal, HW. lia.
Qed.

(** picking one node of a rule by a test polynomial *)
Lemma rule_pick n (W : nat -> R) q xs i v : (i < n)%nat ->
  (forall j, (j < n)%nat -> j <> i -> q (nth j xs 0) = 0) ->
  Integ q (rsum (map (fun i => W i * q (nth i xs 0)) (seq 0 n))) -> Integ q v -> W i * q (nth i xs 0) = v.
Proof.
  intros Hi Hz H1 H2. rewrite <- (Integ_unique _ _ _ H1 H2).
  symmetry. apply (rsum_single (fun j => W j * q (nth j xs 0)) _ i (seq_NoDup _ _)); [apply in_seq; lia|].
  intros j Hj Hne. apply in_seq in Hj. rewrite Hz by (assumption || lia). ring.
Qed.

(** value of the quotient at the root *)
Lemma quotient_value om dom g a n : PolyFn n g -> (forall x, om x = (x - a) * g x) -> derivable_pt_lim om a dom -> g a = dom.
Proof.
  intros Pg E0 D. destruct (PolyFn_deriv n g Pg) as (g' & _ & Dg).
  apply (uniqueness_limite om a); [|assumption].
  apply (dpl_ext (fun x => (x - a) * g x)); [intro; symmetry; apply E0|].
  apply (dpl_val _ _ ((1 - 0) * g a + (a - a) * g' a)); [ring|].
  apply (derivable_pt_lim_mult (fun x => x - a) g); [|apply Dg].
  apply (derivable_pt_lim_minus id (fct_cte a)); [apply derivable_pt_lim_id | apply derivable_pt_lim_const].
Qed.

(** leading behaviour of a quotient *)
Lemma quotient_lower om g a p c n : PolyFn n g -> PolyFn n p -> (forall x, om x = (x - a) * g x) ->
  PolyFn n (fun x => om x - c * (x * p x)) -> exists h, PolyFn (n - 1) h /\ forall x, g x = c * p x + h x.
Proof.
  intros Pg Pp E0 Hl.
  assert (P0 : PolyFn n (fun x => (x - a) * (g x - c * p x))).
  { apply (PolyFn_ext _ (fun x => (om x - c * (x * p x)) + (a * c) * p x)); [intro x; rewrite E0; ring|].
    apply PolyFn_plus; [assumption | now apply PolyFn_scal]. }
  destruct n as [|n].
  - exists (fun _ => 0). split; [apply PolyFn_zero|]. intro x.
    destruct Pg as (l & Hll & El), Pp as (l' & Hll' & El'). destruct l, l'; simpl in *; try lia. rewrite El, El'. ring.
  - destruct (PolyFn_factor n _ a P0) as (h & Ph & Eh); [ring|].
    exists h. split; [now replace (S n - 1)%nat with n by lia|].
    apply (poly_eq_off (S n) g (fun x => c * p x + h x) a); [assumption | |].
    + apply PolyFn_plus; [now apply PolyFn_scal | apply (PolyFn_weaken n); [lia | assumption]].
    + intros x Hx. assert (Hxa : x - a <> 0) by lra. specialize (Eh x). apply Rmult_eq_reg_l in Eh; [lra | assumption].
Qed.

Lemma leg_lower m : PolyFn (S m) (fun x => leg (S m) x - (2 * INR m + 1) / (INR m + 1) * (x * leg m x)).
Proof.
  pose proof (pos_INR m) as Hm. destruct m as [|m].
  - apply (PolyFn_ext _ (fun _ => 0)); [intro; simpl; field | apply PolyFn_zero].
  - apply (PolyFn_ext _ (fun x => - ((INR m + 1) / (INR m + 2)) * leg m x)).
    + intro x. pose proof (leg_SS m x) as H. pose proof (pos_INR m). rewrite S_INR in *.
      apply (Rmult_eq_reg_l (INR m + 2)); [|lra].
      replace ((INR m + 2) * (leg (S (S m)) x - (2 * (INR m + 1) + 1) / (INR m + 1 + 1) * (x * leg (S m) x)))
        with ((INR m + 2) * leg (S (S m)) x - (2 * INR m + 3) * (x * leg (S m) x)) by (field; lra).
      rewrite H. field. lra.
    + apply PolyFn_scal. apply (PolyFn_weaken (S m)); [lia | apply leg_poly].
Qed.

(** ** Gauss-Legendre *)
Lemma gauss_exact n xs : (1 <= n)%nat -> length xs = n -> NoDup xs -> (forall a, In a xs -> leg n a = 0) ->
  (forall a, In a xs -> (1 - a * a) * dleg n a * dleg n a <> 0) /\
  forall q, PolyFn (2 * n) q ->
  Integ q (rsum (map (fun i => 2 / ((1 - nth i xs 0 * nth i xs 0) * dleg n (nth i xs 0) * dleg n (nth i xs 0)) * q (nth i xs 0)) (seq 0 n))).
Proof.
  intros Hn Hl Hnd Hz. destruct n as [|m]; [lia|]. set (n := S m) in *.
  destruct (const_factor n (leg n) xs Hl Hnd (leg_poly n) Hz) as (k & Hk & Ek).
  { exists 1. rewrite leg_one. lra. }
  destruct (finite_choice (fun i v => Integ (lagp xs i) v) n) as [W HW].
  { intros i Hi. apply (Integ_exists n). rewrite <- Hl. apply lagp_poly. lia. }
  assert (EX : forall q, PolyFn (n + n) q -> Integ q (rsum (map (fun i => W i * q (nth i xs 0)) (seq 0 n)))).
  { apply (interp_rule n n (leg n) xs k W); try assumption. apply leg_orth. }
  assert (HWi : forall i, (i < n)%nat ->
      W i * ((1 - nth i xs 0 * nth i xs 0) * dleg n (nth i xs 0) * dleg n (nth i xs 0)) = 2).
  { intros i Hi. set (a := nth i xs 0). assert (Ha : leg n a = 0) by (apply Hz, nth_In; lia).
    destruct (PolyFn_factor n (leg n) a (leg_poly n) Ha) as (g & Pg & Eg).
    pose proof (quotient_value (leg n) (dleg n a) g a n Pg Eg (leg_deriv n a)) as Ga.
    destruct (quotient_lower (leg n) g a (leg m) ((2 * INR m + 1) / (INR m + 1)) n Pg) as (h & Ph & Eh).
    { apply leg_poly. } { exact Eg. } { apply leg_lower. }
    replace (n - 1)%nat with m in Ph by (unfold n; lia).
    assert (I1 : Integ (fun x => g x * leg m x) (2 / (INR m + 1))).
    { apply (Integ_ext (fun x => (2 * INR m + 1) / (INR m + 1) * (leg m x * leg m x) + leg m x * h x)); [intro; rewrite Eh; ring|].
      pose proof (pos_INR m).
      apply (Integ_val _ ((2 * INR m + 1) / (INR m + 1) * (2 / (2 * INR m + 1)) + 0)); [field; lra|].
      apply Integ_plus; [apply Integ_scal, leg_norm | now apply leg_orth]. }
    assert (I2 : W i * (g a * leg m a) = 2 / (INR m + 1)).
    { apply (rule_pick n W (fun x => g x * leg m x) xs i); try assumption.
      - intros j Hj Hne. assert (Hd : nth j xs 0 - a <> 0) by (apply nodup_diff; lia || assumption || auto).
        assert (Hgz : (nth j xs 0 - a) * g (nth j xs 0) = 0) by (rewrite <- Eg; apply Hz, nth_In; lia).
        apply Rmult_integral in Hgz. destruct Hgz as [?|Hgz]; [contradiction | rewrite Hgz; ring].
      - apply EX. apply (PolyFn_weaken (n + n - 1)); [lia|]. apply PolyFn_mult; [assumption | apply leg_poly]. }
    rewrite Ga in I2. destruct (leg_ids m a) as (IA & _). fold n in IA. rewrite Ha in IA. pose proof (pos_INR m).
    replace ((1 - a * a) * dleg n a * dleg n a) with (((1 - a * a) * dleg n a) * dleg n a) by ring. rewrite IA.
    replace (W i * ((INR m + 1) * (leg m a - a * 0) * dleg n a)) with ((INR m + 1) * (W i * (dleg n a * leg m a))) by ring.
    rewrite I2. field. lra. }
  split.
  - intros a Ha E0. destruct (In_nth xs a 0 Ha) as (i & Hi & <-). rewrite Hl in Hi. specialize (HWi i Hi). rewrite E0 in HWi. lra.
  - intros q Hq. replace (2 * n)%nat with (n + n)%nat in Hq by lia. specialize (EX q Hq).
    erewrite rsum_ext; [exact EX|]. intros i Hi. apply in_seq in Hi. cbv beta. f_equal.
    specialize (HWi i ltac:(lia)). set (d := (1 - nth i xs 0 * nth i xs 0) * dleg n (nth i xs 0) * dleg n (nth i xs 0)) in *.
    assert (d <> 0) by (intro E0; rewrite E0 in HWi; lra). rewrite <- HWi. field. assumption.
Qed.

(** ** Gauss-Lobatto-Legendre, N = n-1 >= 1 *)
Lemma omg_orth N g : PolyFn (N - 1) g -> (1 <= N)%nat -> Integ (fun x => omg N x * g x) 0.
Proof.
  intros Pg HN. destruct (PolyFn_antid _ g Pg) as (G & PG & DG). replace (S (N - 1)) with N in PG by lia.
  assert (H1 : Integ (fun x => - (INR N * (INR N + 1)) * leg N x * G x + omg N x * g x) 0).
  { apply (Integ_val _ (omg N 1 * G 1 - omg N (-1) * G (-1))); [rewrite omg_1, omg_m1; ring|].
    apply (Integ_deriv (fun x => omg N x * G x)). intro x.
    apply (derivable_pt_lim_mult (omg N) G); [apply omg_deriv | apply DG]. }
  apply (Integ_ext (fun x => (- (INR N * (INR N + 1)) * leg N x * G x + omg N x * g x) + (INR N * (INR N + 1)) * (leg N x * G x))); [intro; ring|].
  apply (Integ_val _ (0 + INR N * (INR N + 1) * 0)); [ring|]. apply Integ_plus; [assumption | apply Integ_scal, leg_orth, PG].
Qed.

Lemma omg_dleg M : Integ (fun x => omg M x * dleg M x) (INR M * (INR M + 1) * (2 / (2 * INR M + 1))).
Proof.
  assert (H1 : Integ (fun x => - (INR M * (INR M + 1)) * leg M x * leg M x + omg M x * dleg M x) 0).
  { apply (Integ_val _ (omg M 1 * leg M 1 - omg M (-1) * leg M (-1))); [rewrite omg_1, omg_m1; ring|].
    apply (Integ_deriv (fun x => omg M x * leg M x)). intro x.
    apply (derivable_pt_lim_mult (omg M) (leg M)); [apply omg_deriv | apply leg_deriv]. }
  apply (Integ_ext (fun x => (- (INR M * (INR M + 1)) * leg M x * leg M x + omg M x * dleg M x) + (INR M * (INR M + 1)) * (leg M x * leg M x))); [intro; ring|].
  apply (Integ_val _ (0 + INR M * (INR M + 1) * (2 / (2 * INR M + 1)))); [ring|].
  apply Integ_plus; [assumption | apply Integ_scal, leg_norm].
Qed.

(** dP_{M+1} = (2M+1)/M x dP_M + lower, for M >= 1 *)
Lemma dleg_lower M : (1 <= M)%nat -> PolyFn M (fun x => dleg (S M) x - (2 * INR M + 1) / INR M * (x * dleg M x)).
Proof.
  intro HM. destruct M as [|m]; [lia|]. set (M := S m) in *.
  apply (PolyFn_ext _ (fun x => - ((INR m + 2) / (INR m + 1)) * dleg m x)).
  - intro x. destruct (leg_ids M x) as (_ & _ & C). unfold M in C at 2. destruct (leg_ids m x) as (_ & B & _).
    pose proof (pos_INR m). unfold M in *. rewrite C. rewrite S_INR.
    replace (leg (S m) x) with ((x * dleg (S m) x - dleg m x) / (INR m + 1)) by (rewrite <- B; field; lra).
    field. lra.
  - apply PolyFn_scal. apply (PolyFn_weaken m); [unfold M; lia | apply dleg_poly].
Qed.

Section GLL.
  Variable N : nat.
  Variable xs : list R.
  Hypothesis HN : (1 <= N)%nat.
  Hypothesis Hl : length xs = S N.
  Hypothesis Hnd : NoDup xs.
  Hypothesis H0 : nth 0 xs 0 = -1.
  Hypothesis H1 : nth N xs 0 = 1.
  Hypothesis Hin : forall i, (0 < i < N)%nat -> dleg N (nth i xs 0) = 0.

  Lemma gll_root a : In a xs -> omg N a = 0.
  Proof.
    intro Ha. destruct (In_nth xs a 0 Ha) as (i & Hi & <-).
    destruct (Nat.eq_dec i 0) as [-> | Hi0]; [rewrite H0; apply omg_m1|].
    destruct (Nat.eq_dec i N) as [-> | HiN]; [rewrite H1; apply omg_1|].
    unfold omg. rewrite Hin by lia. ring.
  Qed.

  Lemma gll_factor : exists k, k <> 0 /\ forall x, omg N x = k * rprod (map (fun a => x - a) xs).
  Proof.
    apply (const_factor (S N)); try assumption.
    - replace (S (S N)) with (N + 2)%nat by lia. apply omg_poly.
    - apply gll_root.
    - destruct (Req_dec (omg N 0) 0) as [E0|E0]; [|now exists 0].
      (* omega is not constant zero: its derivative at 1 is nonzero *)
      destruct (Classical_Prop.classic (exists y, omg N y <> 0)) as [?|Hno]; [assumption|]. exfalso.
      assert (Z : forall y, omg N y = 0) by (intro y; destruct (Req_dec (omg N y) 0); [assumption | exfalso; apply Hno; now exists y]).
      pose proof (omg_deriv N 1) as D. rewrite leg_one in D.
      assert (D2 : derivable_pt_lim (omg N) 1 0) by (apply (dpl_ext (fct_cte 0)); [intro; now rewrite Z | apply derivable_pt_lim_const]).
      pose proof (uniqueness_limite _ _ _ _ D D2) as U. apply le_INR in HN. simpl in HN. nra.
  Qed.

  Lemma gll_exact_weights :
    (forall i, (i <= N)%nat -> INR N * (INR N + 1) * leg N (nth i xs 0) * leg N (nth i xs 0) <> 0) /\
    forall q, PolyFn (2 * N) q ->
    Integ q (rsum (map (fun i => 2 / (INR N * (INR N + 1) * leg N (nth i xs 0) * leg N (nth i xs 0)) * q (nth i xs 0)) (seq 0 (S N)))).
  Proof.
    destruct gll_factor as (k & Hk & Ek).
    destruct (finite_choice (fun i v => Integ (lagp xs i) v) (S N)) as [W HW].
    { intros i Hi. apply (Integ_exists (S N)). rewrite <- Hl. apply lagp_poly. lia. }
    assert (EX : forall q, PolyFn (S N + (N - 1)) q -> Integ q (rsum (map (fun i => W i * q (nth i xs 0)) (seq 0 (S N))))).
    { apply (interp_rule (S N) (N - 1) (omg N) xs k W); try assumption. intros g Pg. now apply omg_orth. }
    assert (HNR : 1 <= INR N) by (apply le_INR in HN; exact HN).
    assert (HWi : forall i, (i <= N)%nat -> W i * (INR N * (INR N + 1) * leg N (nth i xs 0) * leg N (nth i xs 0)) = 2).
    { intros i Hi.
      destruct (Nat.eq_dec i 0) as [-> | Hi0]; [|destruct (Nat.eq_dec i N) as [-> | HiN]].
      - (* the point -1 *)
        assert (I1 : Integ (fun x => (1 - x) * dleg N x) (- 2 * (-1) ^ N)).
        { apply (Integ_ext (fun x => ((0 - 1) * leg N x + (1 - x) * dleg N x) + leg N x * 1)); [intro; ring|].
          apply (Integ_val _ ((0 - 2 * (-1) ^ N) + 0)); [ring|]. apply Integ_plus.
          - apply (Integ_val _ ((1 - 1) * leg N 1 - (1 - -1) * leg N (-1))); [rewrite leg_mone; ring|].
            apply (Integ_deriv (fun x => (1 - x) * leg N x)). intro x.
            apply (derivable_pt_lim_mult (fun x => 1 - x) (leg N)); [|apply leg_deriv].
            apply (derivable_pt_lim_minus (fct_cte 1) id); [apply derivable_pt_lim_const | apply derivable_pt_lim_id].
          - apply (leg_orth N (fun _ => 1)). apply (PolyFn_weaken 1); [assumption | apply PolyFn_const]. }
        assert (I2 : W 0%nat * ((1 - nth 0 xs 0) * dleg N (nth 0 xs 0)) = - 2 * (-1) ^ N).
        { apply (rule_pick (S N) W (fun x => (1 - x) * dleg N x) xs 0); try assumption; [lia | |].
          - intros j Hj Hne. destruct (Nat.eq_dec j N) as [-> |]; [rewrite H1; ring | rewrite Hin by lia; ring].
          - apply EX. apply (PolyFn_weaken (2 + N - 1)); [lia|]. apply (PolyFn_mult 2 N (fun x => 1 - x)); [|apply dleg_poly].
            exists [1; -1]. split; [simpl; lia | intro; simpl; ring]. }
        rewrite H0 in I2 |- *. rewrite dleg_mone in I2. rewrite leg_mone.
        pose proof (pow_m1_sq N) as Sq. simpl pow in I2. set (s := (-1) ^ N) in *.
        replace (W 0%nat * (INR N * (INR N + 1) * s * s)) with (- s * (W 0%nat * ((1 - -1) * (-1 * s * (INR N * (INR N + 1) / 2))))) by field.
        rewrite I2. replace (- s * (-2 * s)) with (2 * (s * s)) by ring. rewrite Sq. ring.
      - (* the point 1 *)
        assert (I1 : Integ (fun x => (1 + x) * dleg N x) 2).
        { apply (Integ_ext (fun x => ((0 + 1) * leg N x + (1 + x) * dleg N x) - leg N x * 1)); [intro; ring|].
          apply (Integ_val _ (2 - 0)); [ring|]. apply Integ_minus.
          - apply (Integ_val _ ((1 + 1) * leg N 1 - (1 + -1) * leg N (-1))); [rewrite leg_one; ring|].
            apply (Integ_deriv (fun x => (1 + x) * leg N x)). intro x.
            apply (derivable_pt_lim_mult (fun x => 1 + x) (leg N)); [|apply leg_deriv].
            apply (derivable_pt_lim_plus (fct_cte 1) id); [apply derivable_pt_lim_const | apply derivable_pt_lim_id].
          - apply (leg_orth N (fun _ => 1)). apply (PolyFn_weaken 1); [assumption | apply PolyFn_const]. }
        assert (I2 : W N * ((1 + nth N xs 0) * dleg N (nth N xs 0)) = 2).
        { apply (rule_pick (S N) W (fun x => (1 + x) * dleg N x) xs N); try assumption; [lia | |].
          - intros j Hj Hne. destruct (Nat.eq_dec j 0) as [-> |]; [rewrite H0; ring | rewrite Hin by lia; ring].
          - apply EX. apply (PolyFn_weaken (2 + N - 1)); [lia|]. apply (PolyFn_mult 2 N (fun x => 1 + x)); [|apply dleg_poly].
            exists [1; 1]. split; [simpl; lia | intro; simpl; ring]. }
        rewrite H1 in I2 |- *. rewrite dleg_one in I2. rewrite leg_one. lra.
      - (* an interior point *)
        set (a := nth i xs 0). assert (Ha : dleg N a = 0) by (apply Hin; lia).
        destruct N as [|M]; [lia|]. assert (HM : (1 <= M)%nat) by lia.
        destruct (PolyFn_factor M (dleg (S M)) a (dleg_poly (S M)) Ha) as (s & Ps & Es).
        destruct (quotient_lower (dleg (S M)) s a (dleg M) ((2 * INR M + 1) / INR M) M Ps (dleg_poly M) Es (dleg_lower M HM)) as (h & Ph & Eh).
        assert (HMR : 1 <= INR M) by (apply le_INR in HM; exact HM).
        assert (I1 : Integ (fun x => omg M x * s x) (2 * (INR M + 1))).
        { apply (Integ_ext (fun x => (2 * INR M + 1) / INR M * (omg M x * dleg M x) + omg M x * h x)); [intro; rewrite Eh; ring|].
          apply (Integ_val _ ((2 * INR M + 1) / INR M * (INR M * (INR M + 1) * (2 / (2 * INR M + 1))) + 0)); [field; lra|].
          apply Integ_plus; [apply Integ_scal, omg_dleg | now apply omg_orth]. }
        assert (I2 : W i * (omg M a * s a) = 2 * (INR M + 1)).
        { apply (rule_pick (S (S M)) W (fun x => omg M x * s x) xs i); try assumption; [lia | |].
          - intros j Hj Hne. destruct (Nat.eq_dec j 0) as [-> |]; [rewrite H0, omg_m1; ring|].
            destruct (Nat.eq_dec j (S M)) as [-> |]; [rewrite H1, omg_1; ring|].
            assert (Hd : nth j xs 0 - a <> 0) by (apply nodup_diff; lia || assumption || auto).
            assert (Hsz : (nth j xs 0 - a) * s (nth j xs 0) = 0) by (rewrite <- Es; apply Hin; lia).
            apply Rmult_integral in Hsz. destruct Hsz as [?|Hsz]; [contradiction | rewrite Hsz; ring].
          - apply EX. apply (PolyFn_weaken (M + 2 + M - 1)); [lia|]. apply PolyFn_mult; [apply omg_poly | assumption]. }
        (* omega_N = (x-a) (1-x^2) s, so (1-a^2) s(a) = omega_N'(a) *)
        assert (V1 : (1 - a * a) * s a = - (INR (S M) * (INR (S M) + 1)) * leg (S M) a).
        { apply (quotient_value (omg (S M)) _ (fun x => (1 - x * x) * s x) a (3 + M - 1)).
          - apply (PolyFn_mult 3 M (fun x => 1 - x * x)); [|assumption]. exists [1; 0; -1]. split; [simpl; lia | intro; simpl; ring].
          - intro x. unfold omg. rewrite Es. ring.
          - apply omg_deriv. }
        assert (V2 : dleg M a = - (INR M + 1) * leg (S M) a).
        { destruct (leg_ids M a) as (_ & HB & _). rewrite Ha in HB. lra. }
        unfold omg in I2. rewrite V2 in I2. rewrite S_INR in *.
        assert (I3 : W i * ((INR M + 1) * (INR M + 1 + 1) * leg (S M) a * leg (S M) a) * (INR M + 1) = 2 * (INR M + 1)).
        { rewrite <- I2. replace ((1 - a * a) * (- (INR M + 1) * leg (S M) a) * s a) with (- (INR M + 1) * leg (S M) a * ((1 - a * a) * s a)) by ring.
          rewrite V1. ring. }
        apply (Rmult_eq_reg_r (INR M + 1)); [exact I3 | lra]. }
    split.
    - intros i Hi E0. specialize (HWi i Hi). rewrite E0 in HWi. lra.
    - intros q Hq. replace (2 * N)%nat with (S N + (N - 1))%nat in Hq by lia. specialize (EX q Hq).
      erewrite rsum_ext; [exact EX|]. intros i Hi. apply in_seq in Hi. cbv beta. f_equal.
      specialize (HWi i ltac:(lia)). set (d := INR N * (INR N + 1) * leg N (nth i xs 0) * leg N (nth i xs 0)) in *.
      assert (d <> 0) by (intro E0; rewrite E0 in HWi; lra). rewrite <- HWi. field. assumption.
  Qed.

  Lemma gll_leg_nz i : (i <= N)%nat -> leg N (nth i xs 0) <> 0.
  Proof. intros Hi E0. apply (proj1 gll_exact_weights i Hi). rewrite E0. ring. Qed.

  (** derivatives of the Lagrange polynomials of the GLL points *)
  Lemma gll_basis_deriv f j i : IsLagrange xs j f -> (j <= N)%nat -> (i <= N)%nat ->
    derivable_pt_lim f (nth i xs 0)
      (if (i =? j)%nat then dleg N (nth j xs 0) / (2 * leg N (nth j xs 0))
       else leg N (nth i xs 0) / (leg N (nth j xs 0) * (nth i xs 0 - nth j xs 0))).
  Proof.
    intros Hf Hj Hi. set (b := nth j xs 0). set (a := nth i xs 0).
    assert (Hb : omg N b = 0) by (apply gll_root, nth_In; lia).
    assert (PO : PolyFn (S (S N)) (omg N)) by (replace (S (S N)) with (N + 2)%nat by lia; apply omg_poly).
    destruct (PolyFn_factor (S N) (omg N) b PO Hb) as (s & Ps & Es).
    pose proof (quotient_value (omg N) _ s b (S N) Ps Es (omg_deriv N b)) as Sb.
    assert (HNR : 1 <= INR N) by (apply le_INR in HN; exact HN).
    assert (Pnz : leg N b <> 0) by (apply gll_leg_nz; assumption).
    assert (Nnz : INR N * (INR N + 1) <> 0) by nra.
    assert (Sbnz : s b <> 0).
    { rewrite Sb. intro E0. apply Rmult_integral in E0. destruct E0 as [E0|E0]; [nra | contradiction]. }
    destruct (PolyFn_deriv (S N) s Ps) as (s' & Ps' & Ds).
    destruct (PolyFn_deriv _ s' Ps') as (s2 & _ & Ds2).
    (* f = s / s(b) *)
    assert (Hfs : forall x, f x = / s b * s x).
    { apply (lagrange_unique xs j f (fun x => / s b * s x) Hnd Hf). split.
      - rewrite Hl. now apply PolyFn_scal.
      - intros k Hk. destruct (Nat.eqb_spec k j) as [-> | Hne].
        + fold b. field. assumption.
        + assert (Hd : nth k xs 0 - b <> 0) by (apply nodup_diff; lia || assumption || auto).
          assert (Hz : (nth k xs 0 - b) * s (nth k xs 0) = 0) by (rewrite <- Es; apply gll_root, nth_In; lia).
          apply Rmult_integral in Hz. destruct Hz as [?|Hz]; [contradiction | rewrite Hz; ring]. }
    (* derivative of omega *)
    assert (DO : forall x, s x + (x - b) * s' x = - (INR N * (INR N + 1)) * leg N x).
    { intro x. apply (uniqueness_limite (omg N) x); [|apply omg_deriv].
      apply (dpl_ext (fun x => (x - b) * s x)); [intro; symmetry; apply Es|].
      apply (dpl_val _ _ ((1 - 0) * s x + (x - b) * s' x)); [ring|].
      apply (derivable_pt_lim_mult (fun x => x - b) s); [|apply Ds].
      apply (derivable_pt_lim_minus id (fct_cte b)); [apply derivable_pt_lim_id | apply derivable_pt_lim_const]. }
    assert (DD : 2 * s' b = - (INR N * (INR N + 1)) * dleg N b).
    { apply (uniqueness_limite (fun x => s x + (x - b) * s' x) b).
      - apply (dpl_val _ _ (s' b + ((1 - 0) * s' b + (b - b) * s2 b))); [ring|].
        apply (derivable_pt_lim_plus s (fun x => (x - b) * s' x)); [apply Ds|].
        apply (derivable_pt_lim_mult (fun x => x - b) s'); [|apply Ds2].
        apply (derivable_pt_lim_minus id (fct_cte b)); [apply derivable_pt_lim_id | apply derivable_pt_lim_const].
      - apply (dpl_ext (fun x => - (INR N * (INR N + 1)) * leg N x)); [intro; now rewrite DO|].
        apply (derivable_pt_lim_scal (leg N)). apply leg_deriv. }
    apply (dpl_ext (fun x => / s b * s x)); [intro; now rewrite Hfs|].
    apply (dpl_val _ _ (/ s b * s' a)); [|apply (derivable_pt_lim_scal s), Ds].
    rewrite Sb. set (K := INR N * (INR N + 1)) in *. destruct (Nat.eqb_spec i j) as [-> | Hne].
    - change a with b. replace (s' b) with (- K * dleg N b / 2) by lra. field. split; assumption.
    - assert (Hd : a - b <> 0) by (apply nodup_diff; lia || assumption || auto).
      assert (Sa : s a = 0).
      { assert (Hz : (a - b) * s a = 0) by (rewrite <- Es; apply gll_root, nth_In; lia).
        apply Rmult_integral in Hz. destruct Hz as [?|Hz]; [contradiction | assumption]. }
      specialize (DO a). rewrite Sa in DO.
      replace (s' a) with (- K * leg N a / (a - b)) by (rewrite <- DO; field; assumption).
      field. repeat split; assumption.
  Qed.
End GLL.
