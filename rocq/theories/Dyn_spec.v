(** Specification of the dynamic solution procedures. *)
From Coq Require Import List Arith ZArith QArith Qcanon Bool Lia Ascii.
From Verif Require Import Base QcLra Mat_model Mat_spec Dyn_model.
Import ListNotations.
Local Open Scope Qc_scope.

(** all vectors of a state have [n] components *)
Definition sized (n : nat) (s : state) : Prop := length (dis s) = n /\ length (vel s) = n /\ length (acc s) = n.
(** the Newmark relations between the states at the two ends of a time step of size dt:
    u' = u + dt v + dt^2 ((1/2-b) a + b a'),  v' = v + dt ((1-g) a + g a'), for every DOF *)
Definition newmarkRel (b g dt : Qc) (n : nat) (old new : state) : Prop := forall k, (k < n)%nat ->
  nth k (dis new) 0 = nth k (dis old) 0 + dt * nth k (vel old) 0 + dt * dt * ((q_half - b) * nth k (acc old) 0 + b * nth k (acc new) 0) /\
  nth k (vel new) 0 = nth k (vel old) 0 + dt * ((1 - g) * nth k (acc old) 0 + g * nth k (acc new) 0).
(** x is the interpolation (1-w) y + w z of two vectors *)
Definition mixed (w : Qc) (n : nat) (x y z : list Qc) : Prop := length x = n /\ forall k, (k < n)%nat -> nth k x 0 = (1 - w) * nth k y 0 + w * nth k z 0.
(** entry i of the product of an n x n matrix and a vector *)
Definition mv (n : nat) (f : nat -> nat -> Qc) (x : list Qc) (i : nat) : Qc := sumTo n (fun j => f i j * nth j x 0).
(** the k-th element matrix has the entries f; a missing or empty matrix counts as zero *)
Definition elmMat (n : nat) (A : list mat) (k : nat) (f : nat -> nat -> Qc) : Prop :=
  match nth_error A k with
  | Some B => isMat n n f B \/ (elem B = [] /\ forall i j, f i j = 0)
  | None => forall i j, f i j = 0
  end.
(** y = x + c d, componentwise *)
Definition moved (n : nat) (c : Qc) (x d y : list Qc) : Prop := length y = n /\ forall k, (k < n)%nat -> nth k y 0 = nth k x 0 + c * nth k d 0.
(** a polynomial with the given coefficients and its first two derivatives at t *)
Fixpoint peval (cs : list Qc) (t : Qc) : Qc := match cs with [] => 0 | c :: r => c + t * peval r t end.
Fixpoint pderiv (cs : list Qc) (t : Qc) : Qc := match cs with [] => 0 | c :: r => peval r t + t * pderiv r t end.
Fixpoint pderiv2 (cs : list Qc) (t : Qc) : Qc := match cs with [] => 0 | c :: r => q_2 * pderiv r t + t * pderiv2 r t end.
(** the weighted sum of the values of f at the given times *)
Definition combineAt (w : list Qc) (f : Qc -> Qc) (ts : list Qc) : Qc := qs (fun ct => fst ct * f (snd ct)) (combine w ts).
(** an element with the same matrices and parameters but other vectors *)
Definition withData (e : elm) (b vec : list (list Qc)) (pred : bool) : elm :=
  mkE (eA e) b vec (eh e) (ea1 e) (ea2 e) (ebeta e) (egamma e) (eam e) (eaf e) (eslv e) pred.
(** the first n + 1 elements of the list of sampling times t, t - h, t - 2h, ... *)
Fixpoint times (n : nat) (t h : Qc) : list Qc := match n with O => [t] | S k => t :: times k (t - h) h end.
(** the clipped secant step of the line search: c s0/(s0-s), limited to [1/2,3/2] *)
Definition clipped (x : Qc) : Qc := if qltb q_3h x then q_3h else if qltb x q_half then q_half else x.
(** the factors tried by the line search, the last one first *)
Inductive tried (sk : Qc -> Qc) : list Qc -> Prop :=
| tried1 : tried sk [1]
| triedS c r : tried sk (c :: r) -> sk c <> sk 0 -> tried sk (clipped (c * (sk 0 / (sk 0 - sk c))) :: c :: r)
| triedI c r : tried sk (c :: r) -> sk c = sk 0 -> sk 0 <> 0 -> tried sk ((if qltb 0 (sk 0) then q_3h else q_half) :: c :: r).
(** the predictor options and the divisions they need *)
Definition usable (p : nprm) (dt : Qc) : Prop :=
  (predictor p = "a" \/ (predictor p = "v" /\ gamma p <> 0) \/ (predictor p = "d" /\ beta p <> 0 /\ dt <> 0))%char /\
  (solveDisp p = true -> beta p <> 0 /\ dt <> 0).
(** the element has a non-empty mass matrix with entries f *)
Definition massive (n : nat) (e : elm) (fM : nat -> nat -> Qc) : Prop := exists M, nth_error (eA e) 1 = Some M /\ isMat n n fM M.
(** HHT: the alpha-residual (1+alpha) (Rext_n + b - D v) - alpha Fin - M a with D = C + a1 M + a2 K *)
Definition alphaRes n e fM fK fC (b v a : list Qc) (Rx Fin : list Qc) (i : nat) : Qc :=
  let ap := q_3h - egamma e in
  ap * (nth i Rx 0 + nth i b 0 - (ea1 e * mv n fM v i + ea2 e * mv n fK v i + mv n fC v i)) - (ap - 1) * nth i Fin 0 - mv n fM a i.
(** any sequence of time steps (dt, dtn) *)
Definition run (b : bdf) (hs : list (Qc * Qc)) : bdf := fold_left (fun b h => snd (bdfAdvance (fst h) (snd h) b)) hs b.
(** the reference value of a step which starts with norm n0 *)
Definition stepRef (p : cprm) (first : bool) (ref0 n0 : Qc) : Qc := if (first && refAll p) || qltb ref0 (qabs n0) then qabs n0 else ref0.
(** the tolerance of the step, as a bound for the unscaled norm *)
Definition stepTol (p : cprm) (first : bool) (ref0 n0 : Qc) : Qc := let ref := stepRef p first ref0 n0 in if qltb (aTol p) (ref * rTol p) then rTol p * ref else aTol p.
(** and the number by which the norms of the step are divided *)
Definition stepDiv (p : cprm) (first : bool) (ref0 n0 : Qc) : Qc := let ref := stepRef p first ref0 n0 in if qltb (aTol p) (ref * rTol p) then ref else 1.
(** the meaning of the status after iteration k of a time step, from the norms of its iterations
    (fst: the selected norm, snd: the norm of the solution increment) *)
Section Status.
  Variables (p : cprm) (nl first : bool) (norms : nat -> Qc * Qc) (ref0 : Qc).
  Let n (k : nat) : Qc := fst (norms k).
  (** the tolerance is met, or there is no load on this step *)
  Definition tolMet (k : nat) : Prop :=
    (k = 0%nat /\ snd (norms 0%nat) = 0) \/ (qabs (n k) < stepTol p first ref0 (n 0) /\ ((1 <= k)%nat \/ refAll p = true)).
  (** iteration k increases the norm *)
  Definition increases (k : nat) : Prop := (1 <= k)%nat /\ qabs (n (k - 1)) < qabs (n k).
  (** an increase above the divergence limit, or more than maxIncr increases in a row *)
  Definition diverges (k : nat) : Prop :=
    increases k /\ (divgLim p * stepDiv p first ref0 (n 0) < qabs (n k) \/ forall j, (Z.of_nat j <= maxIncr p)%Z -> increases (k - j)).
  Definition isSlow (k : nat) : Prop := nl = true /\ (2 <= k)%nat /\ 0 < n (k - 1) /\ n (k - 1) * Q2Qc (1 # 10) < qabs (n k).
  Definition isStatus (k : nat) (st : status) : Prop :=
    match st with
    | CONVERGED => tolMet k
    | DIVERGED => ~ tolMet k /\ diverges k
    | SLOW => ~ tolMet k /\ ~ diverges k /\ isSlow k
    | OK => ~ tolMet k /\ ~ diverges k /\ ~ isSlow k
    end.
End Status.
(** result of the line search: applied = al + cp *)
Definition lineOutcome (eta : Qc) (sk : Qc -> Qc) (al alO cp : Qc) : Prop :=
  exists T, tried sk (cp :: T) /\ (length T <= 9)%nat /\
   ((al = 0 /\ alO = cp /\ qabs (sk cp) < eta * qabs (sk 0)) \/
    (al = 0 /\ tried sk (alO :: cp :: T) /\ qabs (alO - cp) < q_half * eta * qabs (alO + cp)) \/
    (al + cp = alO /\ length T = 9%nat /\ In alO (cp :: T) /\ (forall c, In c (cp :: T) -> eta * qabs (sk 0) <= qabs (sk c)) /\
      ((qabs (sk alO) < qabs (sk 0) /\ forall c, In c (cp :: T) -> qabs (sk alO) <= qabs (sk c)) \/ (alO = 1 /\ forall c, In c (cp :: T) -> qabs (sk 0) <= qabs (sk c))))).
(** two simulators of the same class, each with its own reference norm, share the static variables *)
Definition handOver (mine theirs : cstate) : cstate := mkCs (convTol theirs) (prevNorm theirs) (nIncrease theirs) (refNorm mine).
(** operations on the nonlinear Newmark simulator within a time step *)
Inductive nlOp := Corr (lin : list Qc) | SetSol (new : list Qc).
Definition nlRun (b g dt : Qc) (ops : list nlOp) (h : hstate) : hstate :=
  fold_left (fun h o => match o with Corr l => nlCorrect b g dt l h | SetSol u => hhtSetSolution u h end) ops h.
Definition opLen (o : nlOp) : nat := match o with Corr l => length l | SetSol u => length u end.
