(** C95 and C96: the Runge-Kutta methods. *)
From Coq Require Import QArith Reals Qreals List Bool Lia Lra FunctionalExtensionality.
From Verif Require Import Tin_model Tin_spec Tin_proofs.
Import ListNotations.
Local Open Scope R_scope.

(** * C95 *)

(** All tableaus are explicit, and the time of a stage is the sum of its coefficients. *)
Theorem rk_explicit : forall m,
  explicit (rkTableau m) /\ explicit (fst (rkeTableau m)) /\
  row_sums (rkTableau m) /\ row_sums (fst (rkeTableau m)).
Proof.
  intros m. repeat split.
  - intros i j Hi Hj; destruct m; simpl in Hi; try lia;
    destruct i as [|[|[|[|i]]]]; try lia; destruct j as [|[|[|[|j]]]]; try lia; reflexivity.
  - intros i j Hi Hj; destruct m; simpl in Hi; try lia;
    destruct i as [|[|[|[|[|[|i]]]]]]; try lia; destruct j as [|[|[|[|[|[|j]]]]]]; try lia; reflexivity.
  - intros i Hi; destruct m; simpl in Hi; try lia;
    destruct i as [|[|[|[|i]]]]; try lia; reflexivity.
  - intros i Hi; destruct m; simpl in Hi; try lia;
    destruct i as [|[|[|[|[|[|i]]]]]]; try lia; reflexivity.
Qed.
Print Assumptions rk_explicit.

(** A step that ends at t solves the equations of the method from t - dt, for every
    right-hand side, boundary condition and number of DOFs; with operators marked linear
    this needs the matrix of an earlier step, or step number 1. *)
Theorem rk_step : forall (f bc : R -> V -> V) (lin : bool) (T : tableau) (u : V) (t dt : R) (step : nat) (lhs : bool),
  (exists m, T = rkTableau m \/ T = fst (rkeTableau m)) ->
  (lin = true -> lhs = true \/ step = 1%nat) ->
  exists u' st lhs', solveRK (fun t v => Some (f t v)) bc lin T u t dt step lhs = Ok (u', st, lhs') /\
    is_rk_step T f bc u (t - dt) dt u' /\ (forall w, is_rk_step T f bc u (t - dt) dt w -> w = u') /\
    (lhs' = true \/ tb T = []).
Proof.
  intros f bc lin T u t dt step lhs (m & Hm) Hl.
  assert (He : explicit T).
  { destruct (rk_explicit m) as (A & B & _). destruct Hm as [-> | ->]; assumption. }
  destruct (solveRK_step f bc lin T u t dt step lhs He Hl) as (st & u' & H1 & H2 & H3).
  exists u', st, (match tb T with [] => lhs | _ => true end). split; [exact H1|]. split; [exact H2|]. split.
  - intros w Hw. exact (rk_unique T f bc u (t - dt) dt w u' He Hw H2).
  - destruct (tb T); [right|left]; reflexivity.
Qed.
Print Assumptions rk_step.

(** The methods have the order that is announced, and no more. *)
Theorem rk_order : forall m, In m [EULER; HEUN; RK3; RK4] ->
  has_order (Order m) (rkTableau m) (tb (rkTableau m)) /\
  ~ has_order (Order m + 1) (rkTableau m) (tb (rkTableau m)) /\
  tord (rkTableau m) = Order m.
Proof.
  intros m [<-|[<-|[<-|[<-|[]]]]]; (split; [apply order_check; vm_compute; reflexivity|split; [|reflexivity]]).
  - apply (order_refute _ _ _ (Graft Dot Dot)); [simpl; lia|vm_compute; reflexivity].
  - apply (order_refute _ _ _ (Graft Dot (Graft Dot Dot))); [simpl; lia|vm_compute; reflexivity].
  - apply (order_refute _ _ _ (Graft Dot (Graft Dot (Graft Dot Dot)))); [simpl; lia|vm_compute; reflexivity].
  - apply (order_refute _ _ _ (Graft Dot (Graft Dot (Graft Dot (Graft Dot Dot))))); [simpl; lia|vm_compute; reflexivity].
Qed.
Print Assumptions rk_order.

(** The embedded pairs: the method that advances the solution has order tord, the other
    one has one order more. *)
Theorem rke_order : forall m, In m [HEUNEULER; BOGACKISHAMPINE; FEHLBERG] ->
  let T := fst (rkeTableau m) in let bs := snd (rkeTableau m) in
  has_order (tord T) T (tb T) /\ ~ has_order (tord T + 1) T (tb T) /\
  has_order (tord T + 1) T bs /\ ~ has_order (tord T + 2) T bs /\ length bs = length (tb T).
Proof.
  intros m [<-|[<-|[<-|[]]]]; cbn [fst snd rkeTableau];
  (split; [apply order_check; vm_compute; reflexivity|split; [|split; [apply order_check; vm_compute; reflexivity|split; [|reflexivity]]]]).
  - apply (order_refute _ _ _ (Graft Dot Dot)); [simpl; lia|vm_compute; reflexivity].
  - apply (order_refute _ _ _ (Graft Dot (Graft Dot Dot))); [simpl; lia|vm_compute; reflexivity].
  - apply (order_refute _ _ _ (Graft Dot (Graft Dot Dot))); [simpl; lia|vm_compute; reflexivity].
  - apply (order_refute _ _ _ (Graft Dot (Graft Dot (Graft Dot Dot)))); [simpl; lia|vm_compute; reflexivity].
  - apply (order_refute _ _ _ (Graft Dot (Graft Dot (Graft Dot (Graft Dot Dot))))); [simpl; lia|vm_compute; reflexivity].
  - apply (order_refute _ _ _ (Graft Dot (Graft Dot (Graft Dot (Graft Dot (Graft Dot Dot)))))); [simpl; lia|vm_compute; reflexivity].
Qed.
Print Assumptions rke_order.

(** Order() is 0 for the embedded methods, and Steps() is the number of time levels. *)
Theorem rke_order_function_refuted : forall m, In m [HEUNEULER; BOGACKISHAMPINE; FEHLBERG] ->
  Order m = O /\ (1 <= tord (fst (rkeTableau m)))%nat.
Proof. intros m [<-|[<-|[<-|[]]]]; split; simpl; lia. Qed.
Print Assumptions rke_order_function_refuted.

(** For u' = c u one step is the Taylor polynomial of the exponential. *)
Theorem rk_exponential : forall m, In m [EULER; HEUN; RK3; RK4] ->
  forall lin c u t dt step lhs, (lin = true -> lhs = true \/ step = 1%nat) ->
  exists u' st lhs', solveRK (fun _ v => Some (vscale c v)) (fun _ v => v) lin (rkTableau m) u t dt step lhs = Ok (u', st, lhs') /\
    forall d, u' d = u d * sumR (Order m + 1) (fun k => (c * dt) ^ k / INR (fact k)).
Proof.
  intros m Hm lin c u t dt step lhs Hl.
  destruct (solveRK_ok (fun _ v => vscale c v) (fun _ v => v) lin (rkTableau m) u t dt step lhs
     (proj1 (rk_explicit m)) Hl) as (st & H1 & H2 & H3).
  exists (weighted (tb (rkTableau m)) dt st u), st, (match tb (rkTableau m) with [] => lhs | _ => true end).
  split; [exact H1|]. intro d.
  rewrite weighted_eq by assumption.
  assert (K : forall i, (i < length (tb (rkTableau m)))%nat ->
    nthV st i d = c * (u d + dt * sumR (length (tb (rkTableau m))) (fun j => Q2R (entry (tA (rkTableau m)) (S i) (S j)) * nthV st j d))).
  { intros i Hi. pose proof (H3 i Hi) as E. apply (f_equal (fun v => v d)) in E. exact E. }
  clear H1 H2 H3.
  destruct Hm as [<-|[<-|[<-|[<-|[]]]]]; cbn [rkTableau tb length] in *.
  - pose proof (K 0%nat ltac:(lia)) as K0. revert K0. cbn [sumR]; generalize (nthV st 0 d). intros k0.
    unfold Q2R; simpl. intros K0.
    assert (E0 : k0 = c * u d) by (rewrite K0; field). rewrite E0. field.
  - pose proof (K 0%nat ltac:(lia)) as K0. pose proof (K 1%nat ltac:(lia)) as K1. revert K0 K1.
    cbn [sumR]; generalize (nthV st 0 d) (nthV st 1 d). intros k0 k1.
    unfold Q2R; simpl. intros K0 K1.
    assert (E0 : k0 = c * u d) by (rewrite K0; field). rewrite E0 in *.
    assert (E1 : k1 = c * (u d + dt * (c * u d))) by (rewrite K1; field). rewrite E1. field.
  - pose proof (K 0%nat ltac:(lia)) as K0. pose proof (K 1%nat ltac:(lia)) as K1. pose proof (K 2%nat ltac:(lia)) as K2. revert K0 K1 K2.
    cbn [sumR]; generalize (nthV st 0 d) (nthV st 1 d) (nthV st 2 d). intros k0 k1 k2.
    unfold Q2R; simpl. intros K0 K1 K2.
    assert (E0 : k0 = c * u d) by (rewrite K0; field). rewrite E0 in *.
    assert (E1 : k1 = c * (u d + dt * / 2 * (c * u d))) by (rewrite K1; field). rewrite E1 in *.
    assert (E2 : k2 = c * (u d + dt * (- (c * u d) + 2 * (c * (u d + dt * / 2 * (c * u d)))))) by (rewrite K2; field).
    rewrite E2. field.
  - pose proof (K 0%nat ltac:(lia)) as K0. pose proof (K 1%nat ltac:(lia)) as K1. pose proof (K 2%nat ltac:(lia)) as K2.
    pose proof (K 3%nat ltac:(lia)) as K3. revert K0 K1 K2 K3.
    cbn [sumR]; generalize (nthV st 0 d) (nthV st 1 d) (nthV st 2 d) (nthV st 3 d). intros k0 k1 k2 k3.
    unfold Q2R; simpl. intros K0 K1 K2 K3.
    assert (E0 : k0 = c * u d) by (rewrite K0; field). rewrite E0 in *.
    assert (E1 : k1 = c * (u d + dt * / 2 * (c * u d))) by (rewrite K1; field). rewrite E1 in *.
    assert (E2 : k2 = c * (u d + dt * / 2 * (c * (u d + dt * / 2 * (c * u d))))) by (rewrite K2; field). rewrite E2 in *.
    assert (E3 : k3 = c * (u d + dt * (c * (u d + dt * / 2 * (c * (u d + dt * / 2 * (c * u d))))))) by (rewrite K3; field).
    rewrite E3. field.
Qed.
Print Assumptions rk_exponential.

(** For u' = t^q with q smaller than the order one step is exact. *)
Theorem rk_quadrature : forall m, In m [EULER; HEUN; RK3; RK4] ->
  forall lin q u t dt step lhs, (q < Order m)%nat -> (lin = true -> lhs = true \/ step = 1%nat) ->
  exists u' st lhs', solveRK (fun s _ => Some (const (s ^ q))) (fun _ v => v) lin (rkTableau m) u t dt step lhs = Ok (u', st, lhs') /\
    forall d, u' d = u d + (t ^ (q + 1) - (t - dt) ^ (q + 1)) / INR (q + 1).
Proof.
  intros m Hm lin q u t dt step lhs Hq Hl.
  destruct (solveRK_ok (fun s _ => const (s ^ q)) (fun _ v => v) lin (rkTableau m) u t dt step lhs
     (proj1 (rk_explicit m)) Hl) as (st & H1 & H2 & H3).
  exists (weighted (tb (rkTableau m)) dt st u), st, (match tb (rkTableau m) with [] => lhs | _ => true end).
  split; [exact H1|]. intro d.
  rewrite weighted_eq by assumption.
  assert (E : sumR (length (tb (rkTableau m))) (fun i => Q2R (nth i (tb (rkTableau m)) 0%Q) * nthV st i d) =
     sumR (length (tb (rkTableau m))) (fun i => Q2R (nth i (tb (rkTableau m)) 0%Q) * (t - dt + Q2R (nth i (tc (rkTableau m)) 0%Q) * dt) ^ q)).
  { apply sumR_ext. intros i Hi. rewrite (H3 i Hi). reflexivity. }
  rewrite E. clear H1 H2 H3 E.
  destruct Hm as [<-|[<-|[<-|[<-|[]]]]]; simpl in Hq;
  destruct q as [|[|[|[|q]]]]; try lia; unfold Q2R; simpl; field.
Qed.
Print Assumptions rk_quadrature.

(** With operators marked linear the matrix is only assembled in step 1: a run that starts
    with another step number (a restart) solves with a matrix that was never assembled. *)
Theorem rk_linear_restart_refuted : forall solve bc m u t dt step, In m [EULER; HEUN; RK3; RK4] -> (2 <= step)%nat ->
  solveRK solve bc true (rkTableau m) u t dt step false = UB.
Proof.
  intros solve bc m u t dt step Hm Hs. destruct step as [|[|step]]; try lia.
  destruct Hm as [<-|[<-|[<-|[<-|[]]]]]; reflexivity.
Qed.
Print Assumptions rk_linear_restart_refuted.

(** A step that fails in any stage is reported. *)
Theorem rk_fail : forall bc lin m u t dt step lhs, In m [EULER; HEUN; RK3; RK4] ->
  (lin = true -> lhs = true \/ step = 1%nat) ->
  solveRK (fun _ _ => None) bc lin (rkTableau m) u t dt step lhs = Fail.
Proof.
  intros bc lin m u t dt step lhs Hm Hl.
  assert (E : lhs || (negb lin || ((step =? 1)%nat && (0 =? 0)%nat)) = true).
  { destruct lin; [|destruct lhs; reflexivity]. destruct (Hl eq_refl) as [-> | ->]; [reflexivity|destruct lhs; reflexivity]. }
  destruct Hm as [<-|[<-|[<-|[<-|[]]]]]; unfold solveRK; cbn [stageLoop rkTableau tb length]; rewrite E; reflexivity.
Qed.
Print Assumptions rk_fail.

Example rk_step_ex : exists u' st lhs',
  solveRK (fun t v => Some (fun d => t * v d)) (fun _ v => v) true (rkTableau RK4) (const 1) 1 1 1 false = Ok (u', st, lhs') /\ u' 0%nat = 79 / 48.
Proof.
  destruct (solveRK_ok (fun t v d => t * v d) (fun _ v => v) true (rkTableau RK4) (const 1) 1 1 1 false
     (proj1 (rk_explicit RK4)) ltac:(intros; right; reflexivity)) as (st & H1 & H2 & H3).
  do 3 eexists. split; [exact H1|]. rewrite weighted_eq by assumption.
  cbn [rkTableau tb length] in *.
  assert (K : forall i, (i < 4)%nat ->
    nthV st i 0%nat = (1 - 1 + Q2R (nth i (tc (rkTableau RK4)) 0%Q) * 1) * (1 + 1 * sumR 4 (fun j => Q2R (entry (tA (rkTableau RK4)) (S i) (S j)) * nthV st j 0%nat))).
  { intros i Hi. pose proof (H3 i Hi) as E. apply (f_equal (fun v => v 0%nat)) in E. exact E. }
  pose proof (K 0%nat ltac:(lia)) as K0. pose proof (K 1%nat ltac:(lia)) as K1. pose proof (K 2%nat ltac:(lia)) as K2.
  pose proof (K 3%nat ltac:(lia)) as K3. revert K0 K1 K2 K3. clear.
  cbn [sumR]; generalize (nthV st 0 0%nat) (nthV st 1 0%nat) (nthV st 2 0%nat) (nthV st 3 0%nat). intros k0 k1 k2 k3.
  unfold Q2R, const; simpl. intros. lra.
Qed.

(** * C96 *)

(** An accepted step: it starts where the given step did, its size is at most the given one,
    the solution is the step of the method of order tord, and the norm of the difference
    of the pair is at most the tolerance, unless the tolerance is 1 or more.  The next
    step size follows from the estimate. *)
Theorem rke_accept : forall (f bc : R -> V -> V) lin (norm : V -> R) dtMin fac tol fuel m u t dt step lhs u' t' dtn,
  In m [HEUNEULER; BOGACKISHAMPINE; FEHLBERG] -> 0 < fac < 1 -> 0 < dt ->
  (lin = true -> lhs = true \/ step = 1%nat) ->
  rkeStep (fun t v => Some (f t v)) bc lin norm dtMin fac tol fuel m u t dt step lhs = Some (Ok (u', t', dtn)) ->
  let T := fst (rkeTableau m) in
  exists h v' est, t' = t - dt + h /\ 0 < h <= dt /\ (h = dt \/ dtMin <= h) /\
    is_rk_pair T (snd (rkeTableau m)) f bc u (t - dt) h u' v' /\
    est <= tol /\ (est = norm (vadd v' u' (-1)) \/ (est = 1 /\ h = dt /\ 1 <= tol)) /\
    (0 < est -> dtn = h * Rpower (tol / est) (1 / INR (tord T + 1))) /\ (est <= 0 -> dtn = h).
Proof.
  intros f bc lin norm dtMin fac tol fuel m u t dt step lhs u' t' dtn Hm Hf Hd Hl H T.
  assert (Hb : length (snd (rkeTableau m)) = length (tb T) /\ tb T <> []).
  { subst T. destruct Hm as [<-|[<-|[<-|[]]]]; split; try reflexivity; discriminate. }
  unfold rkeStep in H. destruct (rkeTableau m) as [T0 bs] eqn:ET. cbn [fst snd] in *. subst T.
  assert (He : explicit T0) by (pose proof (proj1 (proj2 (rk_explicit m))) as E; rewrite ET in E; exact E).
  destruct (solveRK_step f bc lin T0 u t dt step lhs He Hl) as (st & u1 & S1 & S2 & S3).
  rewrite S1 in H. destruct (tb T0) eqn:Etb; [destruct Hb; contradiction|].
  destruct (rkeLoop _ bc lin norm dtMin fac tol fuel T0 bs u step true u1 st t dt 1) as [[[[[u2 t2] dt2] est]| |]|] eqn:EL; try discriminate.
  injection H as <- <- <-.
  destruct (rkeLoop_inv f bc lin norm dtMin fac tol T0 bs u step (t - dt) dt He) with (9 := EL) as (v' & A1 & A2 & A3 & A4 & A5 & A6).
  { rewrite Etb; discriminate. }
  { rewrite Etb. apply Hb. }
  { assumption. }
  { reflexivity. }
  { lra. }
  { left; reflexivity. }
  { apply S3. apply Hb. }
  { intros; split; reflexivity. }
  exists dt2, v', est. split; [lra|]. split; [assumption|]. split; [assumption|]. split; [assumption|]. split; [assumption|].
  split; [assumption|]. split; intro Hest; destruct (Rlt_dec 0 est); try reflexivity; lra.
Qed.
Print Assumptions rke_accept.

(** The loop ends for every simulator, norm and tolerance, if the smallest step size is
    positive and the cut-back factor is below one. *)
Theorem rke_terminates : forall solve bc lin norm dtMin fac tol m u t dt step lhs,
  0 < dtMin -> 0 < fac < 1 -> 0 < dt ->
  exists fuel r, forall k, rkeStep solve bc lin norm dtMin fac tol (fuel + k) m u t dt step lhs = Some r.
Proof.
  intros solve bc lin norm dtMin fac tol m u t dt step lhs Hm Hf Hd.
  destruct (fac_pow dtMin fac dt Hm Hf Hd) as (N & HN).
  exists (N + 2)%nat. unfold rkeStep. destruct (rkeTableau m) as [T bs].
  destruct (solveRK solve bc lin T u t dt step lhs) as [[[u1 st] l1]| |].
  - pose proof (rkeLoop_term solve bc lin norm dtMin fac tol T bs u step Hf N l1 u1 st t dt 1 Hd HN) as Hn.
    destruct (rkeLoop solve bc lin norm dtMin fac tol (N + 2) T bs u step l1 u1 st t dt 1) as [r|] eqn:E; [|contradiction].
    destruct r as [[[[u2 t2] dt2] est]| |]; eexists; intro k;
    rewrite (rkeLoop_mono solve bc lin norm dtMin fac tol T bs u step k _ _ _ _ _ _ _ _ E); reflexivity.
  - eexists. intro k. reflexivity.
  - eexists. intro k. reflexivity.
Qed.
Print Assumptions rke_terminates.

(** An accepted step does not reduce the step size: the estimate is below the tolerance. *)
Theorem rke_adjust : forall h est tol p, 0 < h -> 0 < est <= tol -> h <= h * Rpower (tol / est) (1 / INR (p + 1)).
Proof.
  intros h est tol p Hh He.
  assert (H1 : 1 <= tol / est).
  { apply Rmult_le_reg_r with est; [lra|]. unfold Rdiv. rewrite Rmult_assoc, Rinv_l by lra. lra. }
  assert (Hn : 0 < 1 / INR (p + 1)).
  { apply Rdiv_lt_0_compat; [lra|]. apply lt_0_INR. lia. }
  assert (1 <= Rpower (tol / est) (1 / INR (p + 1))).
  { replace 1 with (Rpower (tol / est) 0) at 1 by (apply Rpower_O; lra).
    apply Rle_Rpower; lra. }
  rewrite <- (Rmult_1_r h) at 1. apply Rmult_le_compat_l; lra.
Qed.
Print Assumptions rke_adjust.

(** With a tolerance of 1 or more the first step is accepted without an estimate, whatever
    the difference of the pair is. *)
Theorem rke_no_estimate_refuted : forall (f bc : R -> V -> V) lin norm dtMin fac tol m u t dt step lhs fuel,
  In m [HEUNEULER; BOGACKISHAMPINE; FEHLBERG] -> 1 <= tol -> (lin = true -> lhs = true \/ step = 1%nat) ->
  exists u' dtn, rkeStep (fun t v => Some (f t v)) bc lin norm dtMin fac tol (S fuel) m u t dt step lhs = Some (Ok (u', t, dtn)) /\
    is_rk_step (fst (rkeTableau m)) f bc u (t - dt) dt u'.
Proof.
  intros f bc lin norm dtMin fac tol m u t dt step lhs fuel Hm Ht Hl.
  unfold rkeStep. destruct (rkeTableau m) as [T0 bs] eqn:ET. cbn [fst].
  assert (He : explicit T0) by (pose proof (proj1 (proj2 (rk_explicit m))) as E; rewrite ET in E; exact E).
  destruct (solveRK_step f bc lin T0 u t dt step lhs He Hl) as (st & u1 & S1 & S2 & S3).
  rewrite S1. cbn [rkeLoop]. destruct (Rle_dec 1 tol); [|contradiction].
  eexists _, _. split; [reflexivity|exact S2].
Qed.
Print Assumptions rke_no_estimate_refuted.

(** A failing estimate at the smallest step is reported as failure. *)
Theorem rke_reject : forall (f bc : R -> V -> V) lin norm dtMin fac tol m u t dt step lhs fuel,
  In m [HEUNEULER; BOGACKISHAMPINE; FEHLBERG] -> tol < 1 -> dt <= dtMin -> (forall v, tol < norm v) ->
  (lin = true -> lhs = true \/ step = 1%nat) ->
  rkeStep (fun t v => Some (f t v)) bc lin norm dtMin fac tol (S fuel) m u t dt step lhs = Some Fail.
Proof.
  intros f bc lin norm dtMin fac tol m u t dt step lhs fuel Hm Ht Hd Hn Hl.
  unfold rkeStep. destruct (rkeTableau m) as [T0 bs] eqn:ET.
  assert (He : explicit T0) by (pose proof (proj1 (proj2 (rk_explicit m))) as E; rewrite ET in E; exact E).
  destruct (solveRK_step f bc lin T0 u t dt step lhs He Hl) as (st & u1 & S1 & S2 & S3).
  rewrite S1. cbn [rkeLoop]. destruct (Rle_dec 1 tol); [lra|].
  destruct (Rle_dec _ tol) as [C|_]; [pose proof (Hn (vadd (bc t (weighted bs dt st u)) u1 (-1))); lra|].
  unfold cutback. destruct (Rle_dec dt dtMin); [reflexivity|contradiction].
Qed.
Print Assumptions rke_reject.

(** A run with a rejected first attempt: u' = t with Heun-Euler from 0. The difference of
    the pair is h^2/2; with tolerance 1/4 the step 1 is cut to 1/2 and accepted. *)
Example rke_cut_ex : exists u' dtn,
  rkeStep (fun t _ => Some (const t)) (fun _ v => v) false (fun v => Rabs (v 0%nat)) (1/100) (1/2) (1/4)
    5 HEUNEULER (const 0) 1 1 1 false = Some (Ok (u', 1/2, dtn)).
Proof.
  eexists _, _. unfold rkeStep. cbn [rkeTableau].
  unfold solveRK at 1. cbn [stageLoop tb tc tA length negb orb app].
  cbn [rkeLoop]. destruct (Rle_dec 1 (1/4)) as [C|_]; [lra|].
  match goal with |- context [Rabs ?x] => assert (E : x = 1/2) end.
  { cbn. unfold vadd, const, Q2R; simpl. field. }
  rewrite E. rewrite Rabs_right by lra. destruct (Rle_dec (1/2) (1/4)) as [C|_]; [lra|].
  unfold cutback. destruct (Rle_dec 1 (1/100)) as [C|_]; [lra|]. destruct (Rlt_dec (1 * (1/2)) (1/100)) as [C|_]; [lra|].
  unfold solveRK at 1. cbn [stageLoop tb tc tA length negb orb app].
  destruct (Rle_dec (1/2) (1/4)) as [C|_]; [lra|].
  match goal with |- context [Rabs ?x] => assert (E2 : x = 1/8) end.
  { cbn. unfold vadd, const, Q2R; simpl. field. }
  rewrite E2. rewrite Rabs_right by lra. destruct (Rle_dec (1/8) (1/4)) as [_|C]; [|lra].
  destruct (Rle_dec (1/8) (1/4)) as [_|C]; [|lra].
  replace (1 + (1 * (1/2) - 1)) with (1/2) by field. reflexivity.
Qed.
