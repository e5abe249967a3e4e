(** C97 and C98: the Adams-Bashforth and Adams-Moulton methods. *)
From Coq Require Import QArith Reals Qreals List Bool Lia Lra FunctionalExtensionality.
From Verif Require Import Tin_model Tin_spec Tin_proofs Tin_proofs2 Tin_proofs3.
Import ListNotations.
Local Open Scope R_scope.

Lemma INR_IZR n : INR n = IZR (Z.of_nat n).
Proof. apply INR_IZR_INZ. Qed.

(** * C97 *)

(** The weights of m levels integrate polynomials of degree below m exactly over the next
    step, for every time and step size, and not the power m. *)
Theorem ab_coefs_exact : forall m q t h, (1 <= m <= 5)%nat -> (q < m)%nat ->
  h * sumR m (fun i => Q2R (back (nth (m - 1) AB_coefs []) i) * (t - INR i * h) ^ q)
  = ((t + h) ^ (q + 1) - t ^ (q + 1)) / INR (q + 1).
Proof.
  intros m q t h Hm Hq.
  destruct m as [|[|[|[|[|[|m]]]]]]; try lia;
  destruct q as [|[|[|[|[|q]]]]]; try lia; unfold Q2R; simpl; field.
Qed.
Print Assumptions ab_coefs_exact.
Theorem ab_coefs_sharp : forall m, (1 <= m <= 5)%nat ->
  1 * sumR m (fun i => Q2R (back (nth (m - 1) AB_coefs []) i) * (0 - INR i * 1) ^ m) <> ((0 + 1) ^ (m + 1) - 0 ^ (m + 1)) / INR (m + 1).
Proof.
  intros m Hm. destruct m as [|[|[|[|[|[|m]]]]]]; try lia; unfold Q2R; simpl; lra.
Qed.
Print Assumptions ab_coefs_sharp.

(** All runs: the solutions are those of the multistep formula, with as many levels as
    there are, for all step sizes, right-hand sides and given initial conditions. *)
Theorem ab_formula : forall (rhs : R -> V -> V) (msolve : V -> V) (bc : R -> V -> V) m ic t0 u dt0 dts,
  exists s, abRun rhs msolve bc m ic t0 0 (dt0 :: dts) (abInit m u) = Ok s /\
    let H := abHist (abOrder m) rhs msolve bc (abStart (abOrder m) ic t0 dt0 u) (dt0 :: dts) in
    forall i, (i < length H)%nat -> sols s i = snd (hget H i).
Proof.
  intros rhs msolve bc m ic t0 u dt0 dts. cbn [abRun abHist].
  destruct (abFirst rhs m ic t0 dt0 u) as (ld & ics & E1 & I1 & Et). rewrite E1.
  destruct (abStep_ok rhs msolve bc m 0 ld ics u _ dt0 I1) as (s1 & E2 & I2). rewrite Et in E2. rewrite E2.
  destruct (abRun_ok rhs msolve bc m ic dts 0 s1 _ I2) as (s2 & E3 & R).
  exists s2. split; [|exact R].
  assert (Ef : fst (hget (abNext (abOrder m) rhs msolve bc (abStart (abOrder m) ic t0 dt0 u) dt0 :: abStart (abOrder m) ic t0 dt0 u) 0) = t0 + dt0).
  { unfold abNext. cbv zeta. rewrite Et. reflexivity. }
  rewrite Ef in E3. exact E3.
Qed.
Print Assumptions ab_formula.

(** With initial conditions of all levels and a constant step size the solution of
    u' = t^q is exact for q below the order, after any number of steps. *)
Lemma abHist_exact k q u0 t0 h : (1 <= k <= 5)%nat -> (q < k)%nat -> forall n H,
  (k <= length H)%nat -> (forall i, (i < k)%nat -> fst (hget H i) = fst (hget H 0) - INR i * h) ->
  (forall d, snd (hget H 0) d = u0 d + (fst (hget H 0) ^ (q + 1) - t0 ^ (q + 1)) / INR (q + 1)) ->
  let H' := abHist k (fun t _ => const (t ^ q)) (fun v => v) (fun _ v => v) H (repeat h n) in
  fst (hget H' 0) = fst (hget H 0) + INR n * h /\
  forall d, snd (hget H' 0) d = u0 d + (fst (hget H' 0) ^ (q + 1) - t0 ^ (q + 1)) / INR (q + 1).
Proof.
  intros Hk Hq. induction n as [|n IH]; intros H Hl Ht Hu; cbn [repeat abHist].
  - simpl. split; [lra|exact Hu].
  - set (x := abNext k (fun t _ => const (t ^ q)) (fun v => v) (fun _ v => v) H h).
    assert (Ex : fst x = fst (hget H 0) + h) by reflexivity.
    destruct (IH (x :: H)) as (A & B).
    + simpl; lia.
    + intros i Hi. destruct i as [|i].
      * unfold hget; cbn [nth INR]. ring.
      * rewrite hget_cons, Ht by lia. change (hget (x :: H) 0) with x. rewrite Ex, S_INR. ring.
    + intros d. change (hget (x :: H) 0) with x. rewrite Ex.
      change (snd x d) with (snd (hget H 0) d + h * sumR (Nat.min k (length H)) (fun i =>
        Q2R (back (nth (Nat.min k (length H) - 1) AB_coefs []) i) * fst (hget H i) ^ q)).
      replace (Nat.min k (length H)) with k by lia.
      assert (E : sumR k (fun i => Q2R (back (nth (k - 1) AB_coefs []) i) * fst (hget H i) ^ q)
        = sumR k (fun i => Q2R (back (nth (k - 1) AB_coefs []) i) * (fst (hget H 0) - INR i * h) ^ q)).
      { apply Tin_proofs.sumR_ext. intros i Hi. rewrite Ht by assumption. reflexivity. }
      rewrite E, ab_coefs_exact by assumption. rewrite Hu. unfold Rdiv. ring.
    + change (hget (x :: H) 0) with x in A. rewrite Ex in A. split; [|exact B].
      rewrite A, S_INR. ring.
Qed.
Theorem ab_polynomial : forall m q ic t0 u h n,
  (q < abOrder m)%nat -> (forall j, ic j = true) ->
  exists s, abRun (fun t _ => const (t ^ q)) (fun v => v) (fun _ v => v) m ic t0 0 (repeat h (S n)) (abInit m u) = Ok s /\
    forall d, sols s 0 d = u O d + ((t0 + INR (S n) * h) ^ (q + 1) - t0 ^ (q + 1)) / INR (q + 1).
Proof.
  intros m q ic t0 u h n Hq Hic.
  destruct (ab_formula (fun t _ => const (t ^ q)) (fun v => v) (fun _ v => v) m ic t0 u h (repeat h n)) as (s & E & R).
  exists s. split; [exact E|]. intro d.
  pose proof (abOrder_pos m) as Hk.
  assert (Es : abStart (abOrder m) ic t0 h u = map (fun j => (t0 - INR j * h, u j)) (seq 0 (abOrder m))).
  { unfold abStart. replace (forallb ic (seq 2 (abOrder m - 1))) with true; [reflexivity|].
    symmetry. apply forallb_forall. intros; apply Hic. }
  rewrite Es in R. set (H := map (fun j => (t0 - INR j * h, u j)) (seq 0 (abOrder m))) in *.
  assert (Hg : forall i, (i < abOrder m)%nat -> hget H i = (t0 - INR i * h, u i)).
  { intros i Hi. unfold hget, H. set (g := fun j => (t0 - INR j * h, u j)).
    rewrite (nth_indep _ _ (g O)) by (rewrite map_length, seq_length; lia).
    rewrite map_nth. rewrite seq_nth by lia. reflexivity. }
  destruct (abHist_exact (abOrder m) q (u O) t0 h Hk Hq (S n) H) as (A & B).
  - unfold H. rewrite map_length, seq_length. lia.
  - intros i Hi. rewrite !Hg by lia. cbn [fst]. simpl. ring.
  - intros e. rewrite Hg by lia. cbn [fst snd]. simpl INR at 1.
    replace (t0 - 0 * h) with t0 by ring. replace (t0 - INR 0 * h) with t0 by (simpl; ring). unfold Rdiv. ring.
  - assert (Hl : forall dts H0, (length H0 <= length (abHist (abOrder m) (fun t _ => const (t ^ q)) (fun v => v) (fun _ v => v) H0 dts))%nat).
    { induction dts as [|x l IHl]; intro H0; cbn [abHist]; [lia|].
      specialize (IHl (abNext (abOrder m) (fun t _ => const (t ^ q)) (fun v => v) (fun _ v => v) H0 x :: H0)). simpl in IHl. lia. }
    change (h :: repeat h n) with (repeat h (S n)) in R.
    cbv zeta in R. rewrite (R O).
    + rewrite B, A. rewrite Hg by lia. cbn [fst]. replace (t0 - INR 0 * h) with t0 by (simpl; ring). reflexivity.
    + specialize (Hl (repeat h (S n)) H). unfold H in Hl at 1. rewrite map_length, seq_length in Hl. lia.
Qed.
Print Assumptions ab_polynomial.

(** The weights are those of a constant step size: for u' = t from 0 with exact initial
    conditions, AB2 is exact after steps of the sizes a and b only if they are equal. *)
Theorem ab_variable_step_refuted : forall a b, 0 < a -> 0 < b ->
  exists s, abRun (fun t _ => const t) (fun v => v) (fun _ v => v) AB2 (fun _ => true) 0 0 [a; b]
     (abInit AB2 (fun j => const (- (INR j * a) * - (INR j * a) / 2))) = Ok s /\
    (sols s 0 O = (a + b) * (a + b) / 2 <-> a = b).
Proof.
  intros a b Ha Hb.
  destruct (ab_formula (fun t _ => const t) (fun v => v) (fun _ v => v) AB2 (fun _ => true) 0
     (fun j => const (- (INR j * a) * - (INR j * a) / 2)) a [b]) as (s & E & R).
  exists s. split; [exact E|]. cbv zeta in R. rewrite (R O) by (simpl; lia).
  cbn [abHist abOrder]. unfold hget, abNext, abStart, hload, hget. simpl. unfold const, Q2R. simpl.
  split; intro Heq.
  - assert (b * (a - b) = 0) by lra. apply Rmult_integral in H. lra.
  - subst b. lra.
Qed.
Print Assumptions ab_variable_step_refuted.

(** After a restart there are no loads: all methods with more than one level read a null
    vector in their first step. *)
Theorem ab_restart_refuted : forall rhs msolve bc m ic t0 step u dt dts, (2 <= abOrder m)%nat -> (1 <= step)%nat ->
  abRun rhs msolve bc m ic t0 step (dt :: dts) (abInit m u) = UB.
Proof.
  intros rhs msolve bc m ic t0 step u dt dts Hk Hs. destruct step as [|step]; [lia|].
  destruct m; simpl in Hk; try lia; destruct step as [|[|[|step]]]; reflexivity.
Qed.
Print Assumptions ab_restart_refuted.

(** The order and the number of levels that are announced are those of the methods. *)
Theorem lmm_levels :
  (forall m, In m [AB1; AB2; AB3; AB4; AB5] -> Order m = abOrder m /\ Steps m = abOrder m) /\
  (forall m, In m [AM1; AM2; AM3; AM4] -> Order m = amOrder m /\ Steps m = amOrder m).
Proof.
  split; intros m H; simpl in H; repeat (destruct H as [<-|H]; [split; reflexivity|]); contradiction.
Qed.
Print Assumptions lmm_levels.

Example ab_formula_ex :
  exists s, abRun (fun t v d => t + v d) (fun v => v) (fun _ v => v) AB3 (fun _ => false) 0 0 [1; 1; 1] (abInit AB3 (fun _ => const 1)) = Ok s /\
    sols s 0 O = 71 / 4.
Proof.
  destruct (ab_formula (fun t v d => t + v d) (fun v => v) (fun _ v => v) AB3 (fun _ => false) 0 (fun _ => const 1) 1 [1; 1]) as (s & E & R).
  exists s. split; [exact E|]. cbv zeta in R. rewrite (R O) by (simpl; lia).
  cbn [abHist abOrder]. unfold hget, abNext, abStart, hload, hget. simpl. unfold const, Q2R. simpl. field.
Qed.

(** * C98 *)

(** The weights of m levels, the new one included, integrate polynomials of degree below m
    exactly over the step to t + h. *)
Theorem am_coefs_exact : forall m q t h, (1 <= m <= 5)%nat -> (q < m)%nat ->
  h * sumR m (fun i => Q2R (back (nth (m - 1) AM_coefs []) i) * (t + h - INR i * h) ^ q)
  = ((t + h) ^ (q + 1) - t ^ (q + 1)) / INR (q + 1).
Proof.
  intros m q t h Hm Hq.
  destruct m as [|[|[|[|[|[|m]]]]]]; try lia;
  destruct q as [|[|[|[|[|q]]]]]; try lia; unfold Q2R; simpl; field.
Qed.
Print Assumptions am_coefs_exact.

(** All runs without initial conditions for more levels: the nonlinear solver gets the
    equations of the multistep formula, and the run ends at the first one it does not
    solve.  If all are solved, the destructor frees every load vector exactly once. *)
Theorem am_formula : forall (rhs : R -> V -> V) newton m ic t0 u dts,
  (amOrder m = 1%nat \/ ic 2%nat = false) ->
  let H := amHist (amOrder m) rhs newton [(t0, u O)] dts in
  exists s, amRun rhs newton m ic t0 0 dts (amInit m u) = Ok (s, snd H) /\
    (snd H = true -> forall i, (i < length (fst H))%nat -> amsols s i = snd (hget (fst H) i)) /\
    (snd H = true -> exists h, delAll (mem s) (ptrs s) = Ok h /\ forall o, In o h -> o = None).
Proof.
  intros rhs newton m ic t0 u dts Hic H.
  destruct (amRun_ok rhs newton m ic Hic dts 0 (amInit m u) [(t0, u O)] (amInit_inv rhs m u t0)) as (s & E & R).
  exists s. split; [exact E|]. cbv zeta in R. fold H in R. destruct R as (n & Hn & R). split; intro Ht; rewrite Ht in R.
  - apply R.
  - exact (amInv_del rhs m n s (fst H) R).
Qed.
Print Assumptions am_formula.

(** If a step is not solved after at least one that is, the first load vector is in the
    list twice, or was deleted: the destructor deletes it again, for every order. *)
Theorem am_failed_step_refuted : forall (rhs : R -> V -> V) newton m ic t0 u dts,
  (amOrder m = 1%nat \/ ic 2%nat = false) ->
  let H := amHist (amOrder m) rhs newton [(t0, u O)] dts in
  snd H = false -> (2 <= length (fst H))%nat ->
  exists s, amRun rhs newton m ic t0 0 dts (amInit m u) = Ok (s, false) /\ delAll (mem s) (ptrs s) = UB.
Proof.
  intros rhs newton m ic t0 u dts Hic H Hf Hl.
  destruct (amRun_ok rhs newton m ic Hic dts 0 (amInit m u) [(t0, u O)] (amInit_inv rhs m u t0)) as (s & E & R).
  cbv zeta in R. fold H in R, E. destruct R as (n & Hn & R). rewrite Hf in *.
  exists s. split; [exact E|]. apply (amMid_del rhs m n s (fst H) R). lia.
Qed.
Print Assumptions am_failed_step_refuted.
(** The hypotheses are met: the second step of a run is not solved. *)
Example am_failed_ex : forall m,
  let H := amHist (amOrder m) (fun _ v => v) (fun t _ _ u => if Rle_dec t 1 then Some u else None) [(0, const 1)] [1; 1] in
  snd H = false /\ length (fst H) = 2%nat.
Proof.
  intros m H. unfold H. cbn [amHist amNext]. unfold amNext. cbv zeta. unfold hget; cbn [nth fst snd].
  destruct (Rle_dec (0 + 1) 1); [|lra]. cbn [option_map amHist nth fst snd].
  unfold hget; cbn [nth fst snd]. destruct (Rle_dec (0 + 1 + 1) 1); [lra|]. cbn [option_map fst snd length]. split; reflexivity.
Qed.

(** With initial conditions AM2 takes the load of the time before the start for that of
    the start: its first step is not the trapezoidal rule. *)
Theorem am_ics_refuted : forall (rhs : R -> V -> V) newton t0 u dt,
  exists s b, amRun rhs newton AM2 (fun _ => true) t0 0 [dt] (amInit AM2 u) = Ok (s, b) /\
   (b = true ->
    newton (t0 + dt) (Q2R (1#2) * dt) (fun d => dt * (Q2R (1#2) * rhs (t0 - dt) (u 1%nat) d)) (u O) = Some (amsols s O)).
Proof.
  intros rhs newton t0 u dt.
  assert (E : (fun d => dt * (Q2R (1#2) * rhs (t0 - dt) (u 1%nat) d)) = vadd vzero (rhs (t0 + dt - INR 2 * dt) (u 1%nat)) (Q2R (1#2) * dt)).
  { apply functional_extensionality. intro d. unfold vadd, vzero. replace (t0 + dt - INR 2 * dt) with (t0 - dt) by (simpl; ring). ring. }
  rewrite E. destruct (newton (t0 + dt) (Q2R (1#2) * dt) (vadd vzero (rhs (t0 + dt - INR 2 * dt) (u 1%nat)) (Q2R (1#2) * dt)) (u O)) as [v|] eqn:En.
  - eexists _, true. split.
    + cbn -[INR Q2R vadd]. rewrite En. reflexivity.
    + intros _. reflexivity.
  - eexists _, false. split.
    + cbn -[INR Q2R vadd]. rewrite En. reflexivity.
    + discriminate.
Qed.
(** For u' = t from 0 with u(-1) = 1/2: the result at 1 is 0, not 1/2. *)
Example am_ics_ex : exists s,
  amRun (fun t _ => const t) (fun t c r w => Some (fun d => w d + c * t + r d)) AM2 (fun _ => true) 0 0 [1]
    (amInit AM2 (fun j => const (INR j * INR j / 2))) = Ok (s, true) /\ amsols s 0 O = 0.
Proof.
  destruct (am_ics_refuted (fun t _ => const t) (fun t c r w => Some (fun d => w d + c * t + r d)) 0 (fun j => const (INR j * INR j / 2)) 1) as (s & b & E & R).
  assert (Eb : b = true) by (cbn -[INR Q2R vadd] in E; injection E as _ <-; reflexivity).
  subst b. exists s. split; [exact E|]. specialize (R eq_refl). injection R as R. rewrite <- R. unfold const, Q2R; simpl. field.
Qed.
Print Assumptions am_ics_refuted.

(** After a restart there are no loads. *)
Theorem am_restart_refuted : forall rhs newton m ic t0 step u dt dts, (2 <= amOrder m)%nat -> (1 <= step)%nat ->
  amRun rhs newton m ic t0 step (dt :: dts) (amInit m u) = UB.
Proof.
  intros rhs newton m ic t0 step u dt dts Hk Hs. destruct step as [|step]; [lia|].
  destruct m; simpl in Hk; try lia; destruct step as [|[|step]]; reflexivity.
Qed.
Print Assumptions am_restart_refuted.

(** A run of AM3 for u' = u (the linear equation is solved exactly). *)
Example am_formula_ex : exists s,
  amRun (fun _ v => v) (fun t c r w => Some (fun d => (w d + r d) / (1 - c))) AM3 (fun _ => false) 0 0 [1/2; 1/2; 1/2] (amInit AM3 (fun _ => const 1)) = Ok (s, true) /\
  amsols s 0 O = 314 / 57.
Proof.
  destruct (am_formula (fun _ v => v) (fun t c r w => Some (fun d => (w d + r d) / (1 - c))) AM3 (fun _ => false) 0 (fun _ => const 1) [1/2; 1/2; 1/2]) as (s & E & R & _).
  { right; reflexivity. }
  exists s. split; [exact E|]. rewrite (R eq_refl O) by (simpl; lia).
  cbn [amHist amOrder amNext option_map]. unfold hget, hload, hget. simpl. unfold const, Q2R. simpl. field.
Qed.
