(** Specification vocabulary for C25-C27, C38, C39. *)
From Coq Require Import List Arith ZArith QArith Qcanon Bool Lia.
From Verif Require Import Base QcLra TimeStep_model.
Import ListNotations.
Local Open Scope Qc_scope.

(** end times of the sections *)
Definition ends (s : TS) : list Qc := map snd (mySteps s).

(** a simulator may set the iteration counter and the CFL number between the calls *)
Definition setIter (s : TS) (k : Z) : TS :=
  mkTS (step s) k (t s) (dt s) (dtn s) (cfl s) (first s) (starTime s) (stopTime s) (maxCFL s)
       (niter s) (nInitStep s) (maxStep s) (dtMin s) (dtMax s) (f1 s) (f2 s) (mySteps s) (stepIt s) (lstep s).
Definition setCFL (s : TS) (q : Qc) : TS :=
  mkTS (step s) (iter s) (t s) (dt s) (dtn s) q (first s) (starTime s) (stopTime s) (maxCFL s)
       (niter s) (nInitStep s) (maxStep s) (dtMin s) (dtMax s) (f1 s) (f2 s) (mySteps s) (stepIt s) (lstep s).

(** Simulations: states reachable from [s0].  [reach s0 true s]: inside a time step, which may be cut back.
    [anyCut]: whether a step that ended exactly at a section end may be cut back. *)
Inductive reach (anyCut : bool) (s0 : TS) : bool -> TS -> Prop :=
| r_start : reach anyCut s0 false s0
| r_incr b s s' : reach anyCut s0 b s -> increment s = (true, s') -> reach anyCut s0 true s'
| r_stop b s s' : reach anyCut s0 b s -> increment s = (false, s') -> reach anyCut s0 false s'
| r_cut s s' ok : reach anyCut s0 true s -> (anyCut = false -> ~ In (t s) (ends s)) -> cutback s = (ok, s') ->
    reach anyCut s0 true s'
| r_iter b s k : reach anyCut s0 b s -> reach anyCut s0 b (setIter s k)
| r_cfl b s q : reach anyCut s0 b s -> reach anyCut s0 b (setCFL s q).

Fixpoint increasing (l : list Qc) : Prop :=
  match l with
  | [] => True
  | x :: r => match r with [] => True | y :: _ => x < y end /\ increasing r
  end.

(** A sane parameter set: non-negative start time before the stop time, positive step sizes and factors,
    section ends increasing from the start time up to the stop time *)
Definition goodInput (x : XTime) : Prop :=
  0 < x_f1 x /\ 0 < x_f2 x /\ 0 < x_dtMax x /\
  match x_steps x with
  | [] => (0 <= x_starTime x /\ x_starTime x < x_stopTime x) /\ (match x_dt x with Some d => 0 < d | None => True end)
  | x0 :: _ => 0 <= x_start x0 /\ increasing (x_start x0 :: map x_end (x_steps x)) /\
               Forall (fun y => x_vals y <> [] /\ Forall (fun d => 0 < d) (x_vals y)) (x_steps x)
  end.

(** a simulation using the given numbers of iterations in the steps; it stops when [increment] says so *)
Fixpoint runIt (its : list Z) (s : TS) : bool * TS :=
  match its with
  | [] => (true, s)
  | k :: r => let (ok, s') := increment (setIter s k) in if ok then runIt r s' else (false, s')
  end.

(** n increments, with the counters set arbitrarily in between, all successful *)
Inductive advanced (s0 : TS) : nat -> TS -> Prop :=
| a_start : advanced s0 0 s0
| a_incr n s s' : advanced s0 n s -> increment s = (true, s') -> advanced s0 (S n) s'
| a_iter n s k : advanced s0 n s -> advanced s0 n (setIter s k)
| a_cfl n s q : advanced s0 n s -> advanced s0 n (setCFL s q).

(** the number [n] as a real *)
Definition num (n : nat) : Qc := Q2Qc (inject_Z (Z.of_nat n)).
(** time after [i] steps, when the sections (number of steps, end time) are divided uniformly *)
Fixpoint timeAfter (start : Qc) (l : list (nat * Qc)) (i : nat) : Qc :=
  match l with
  | [] => start
  | (n, e) :: r => if (i <=? n)%nat then start + num i * ((e - start) / num n) else timeAfter e r (i - n)
  end.
(** sum of a list of step sizes *)
Definition total (l : list Qc) : Qc := fold_right Qcplus 0 l.

(** sections of [n >= 2] steps each, none of them shorter than 1e-12 *)
Fixpoint countsOK (start : Qc) (l : list (nat * Qc)) : Prop :=
  match l with
  | [] => True
  | (n, e) :: r => (2 <= n)%nat /\ Q2Qc (1 # 1000000000000) <= (e - start) / num n /\ countsOK e r
  end.
Fixpoint stepCount (l : list (nat * Qc)) : nat := match l with [] => 0 | (n, _) :: r => n + stepCount r end.
