(** Model of the explicit and implicit time integrators for general simulators.

    Source: Apps/Utils/TimeIntUtils.C (Order, Steps), SIMExplicitRK.h, SIMExplicitRKE.h,
    SIMExplicitLMM.h, SIMImplicitLMM.h, src/SIM/TimeStep.C:303-328 (cutback).
    Exact real arithmetic.  A vector is its values by DOF.  The simulator is given by
    functions: the solution of the assembled system, the right-hand side, the boundary
    values.  Printing and the storage of results are left out. *)
From Coq Require Import QArith Reals Qreals List Bool.
Import ListNotations.
Local Open Scope R_scope.

(** Apps/Utils/TimeIntUtils.h:31-61. *)
Inductive method := NONE | EULER | HEUN | RK3 | RK4 | AB1 | AB2 | AB3 | AB4 | AB5
  | AM1 | AM2 | AM3 | AM4 | BE | BDF2 | HEUNEULER | BOGACKISHAMPINE | FEHLBERG | THETA.

(** TimeIntUtils.C:61-88. *)
Definition Order (m : method) : nat :=
  match m with
  | AB1 | AM1 | BE | EULER => 1
  | AB2 | AM2 | BDF2 | HEUN | THETA => 2
  | AB3 | AM3 | RK3 => 3
  | AB4 | AM4 | RK4 => 4
  | AB5 => 5
  | _ => 0
  end.
(** TimeIntUtils.C:91-109. *)
Definition Steps (m : method) : nat :=
  match m with
  | AB5 => 5 | AB4 | AM4 => 4 | AB3 | AM3 => 3 | AB2 | AM2 | BDF2 => 2 | _ => 1
  end.

(** TimeIntUtils.h:64-69; A is given by its entries that are assigned, from 1. *)
Record tableau := { tord : nat; tA : list (nat * nat * Q); tb : list Q; tc : list Q }.
Fixpoint entry (l : list (nat * nat * Q)) (i j : nat) : Q :=
  match l with
  | [] => 0%Q
  | (i', j', q) :: r => if (i' =? i)%nat && (j' =? j)%nat then q else entry r i j
  end.

Local Open Scope Q_scope.
(** SIMExplicitRK.h:40-73. *)
Definition rkTableau (m : method) : tableau :=
  match m with
  | EULER => {| tord := 1; tA := []; tb := [1]; tc := [0] |}
  | HEUN => {| tord := 2; tA := [(2%nat, 1%nat, 1)]; tb := [1#2; 1#2]; tc := [0; 1] |}
  | RK3 => {| tord := 3; tA := [(2%nat, 1%nat, 1#2); (3%nat, 1%nat, -1#1); (3%nat, 2%nat, 2)];
              tb := [1#6; 2#3; 1#6]; tc := [0; 1#2; 1] |}
  | RK4 => {| tord := 4; tA := [(2%nat, 1%nat, 1#2); (3%nat, 2%nat, 1#2); (4%nat, 3%nat, 1)];
              tb := [1#6; 1#3; 1#3; 1#6]; tc := [0; 1#2; 1#2; 1] |}
  | _ => {| tord := 0; tA := []; tb := []; tc := [] |}
  end.
(** SIMExplicitRKE.h:35-76: the tableau and the weights bs of the second method. *)
Definition rkeTableau (m : method) : tableau * list Q :=
  match m with
  | HEUNEULER => ({| tord := 1; tA := [(2%nat, 1%nat, 1)]; tb := [1; 0]; tc := [0; 1] |}, [1#2; 1#2])
  | BOGACKISHAMPINE =>
      ({| tord := 2; tA := [(2%nat, 1%nat, 1#2); (3%nat, 2%nat, 3#4);
                            (4%nat, 1%nat, 2#9); (4%nat, 2%nat, 1#3); (4%nat, 3%nat, 4#9)];
          tb := [7#24; 1#4; 1#3; 1#8]; tc := [0; 1#2; 3#4; 1] |}, [2#9; 1#3; 4#9; 0])
  | FEHLBERG =>
      ({| tord := 4; tA := [(2%nat, 1%nat, 1#4); (3%nat, 1%nat, 3#32); (3%nat, 2%nat, 9#32);
                            (4%nat, 1%nat, 1932#2197); (4%nat, 2%nat, -7200#2197); (4%nat, 3%nat, 7296#2197);
                            (5%nat, 1%nat, 439#216); (5%nat, 2%nat, -8#1); (5%nat, 3%nat, 3680#513);
                            (5%nat, 4%nat, -845#4104);
                            (6%nat, 1%nat, -8#27); (6%nat, 2%nat, 2); (6%nat, 3%nat, -3544#2565);
                            (6%nat, 4%nat, 1859#4104); (6%nat, 5%nat, -11#40)];
          tb := [25#216; 0; 1408#2565; 2197#4104; -1#5; 0];
          tc := [0; 1#4; 3#8; 12#13; 1; 1#2] |},
       [16#135; 0; 6656#12825; 28561#56430; -9#50; 2#55])
  | _ => ({| tord := 0; tA := []; tb := []; tc := [] |}, [])
  end.
(** SIMExplicitLMM.h:91-97. *)
Definition AB_coefs : list (list Q) :=
  [[1]; [-1#2; 3#2]; [5#12; -16#12; 23#12]; [-9#24; 37#24; -59#24; 55#24];
   [251#720; -1274#720; 2616#720; -2774#720; 1901#720]].
(** SIMImplicitLMM.h:70-75. *)
Definition AM_coefs : list (list Q) :=
  [[1]; [1#2; 1#2]; [-1#12; 2#3; 5#12]; [1#24; -5#24; 19#24; 9#24];
   [-19#720; 106#720; -264#720; 646#720; 251#720]].
Local Close Scope Q_scope.

(** A value, a failure that is reported, or an undefined operation (a null or deleted
    vector, a matrix that was not assembled). *)
Inductive out (A : Type) : Type := Ok (a : A) | Fail | UB.
Arguments Ok {A} a.
Arguments Fail {A}.
Arguments UB {A}.

Definition V : Type := nat -> R.
(** utl::vector::add(X,alfa), operator+=, operator-=. *)
Definition vadd (x y : V) (alfa : R) : V := fun d => x d + alfa * y d.
Definition vscale (alfa : R) (x : V) : V := fun d => alfa * x d.
Definition vzero : V := fun _ => 0.
Definition nthV (l : list V) (i : nat) : V := nth i l vzero.

Section RK.
(** The stage equation at a time and a state (None: assembly or solution failed), the
    imposition of the boundary values of a time, TimeDomain.  lin: operators marked
    linear (setLinear). *)
Variable solve : R -> V -> option V.
Variable bc : R -> V -> V.
Variable lin : bool.

(** SIMExplicitRK.h:106-108: the state of stage i; todo terms are left. *)
Fixpoint stageState (T : tableau) (dt : R) (stages : list V) (i j todo : nat) (tmp : V) : V :=
  match todo with
  | O => tmp
  | S r => stageState T dt stages i (S j) r (vadd tmp (nthV stages j) (dt * Q2R (entry (tA T) (S i) (S j))))
  end.
(** Lines 105-136: the loop over the stages.  lhs tells whether there is a matrix:
    it is assembled in all stages, or in the first stage of step 1 if it is constant. *)
Fixpoint stageLoop (T : tableau) (u : V) (t dt : R) (step : nat) (lhs : bool) (i todo : nat)
  (stages : list V) : out (list V * bool) :=
  match todo with
  | O => Ok (stages, lhs)
  | S r =>
      let tmp := stageState T dt stages i 0 i u in
      let time := t + dt * (Q2R (nth i (tc T) 0%Q) - 1) in
      let lhs' := lhs || (negb lin || ((step =? 1)%nat && (i =? 0)%nat)) in
      if negb lhs' then UB
      else match solve time (bc time tmp) with
      | None => Fail
      | Some k => stageLoop T u t dt step lhs' (S i) r (stages ++ [k])
      end
  end.
(** Lines 138-140, also SIMExplicitRKE.h:94-95. *)
Fixpoint weighted (b : list Q) (dt : R) (stages : list V) (u : V) : V :=
  match b, stages with
  | q :: b', k :: s' => weighted b' dt s' (vadd u k (dt * Q2R q))
  | _, _ => u
  end.
(** Lines 98-152, solveRK: solution, stages, matrix. *)
Definition solveRK (T : tableau) (u : V) (t dt : R) (step : nat) (lhs : bool) : out (V * list V * bool) :=
  match stageLoop T u t dt step lhs 0 (length (tb T)) [] with
  | Ok (stages, lhs') => Ok (bc t (weighted (tb T) dt stages u), stages, lhs')
  | Fail => Fail
  | UB => UB
  end.

(** src/SIM/TimeStep.C:303-328: time and step size; f2 < 1 or 0.5 is the factor. *)
Definition cutback (dtMin fac : R) (t dt : R) : option (R * R) :=
  if Rle_dec dt dtMin then None
  else let dt' := if Rlt_dec (dt * fac) dtMin then dtMin else dt * fac in
       Some (t + (dt' - dt), dt').

(** SIMExplicitRKE.h:90-116: the loop; norm is solutionNorms.  The result is solution,
    time, step size (before the adjustment), last estimate. *)
Variable norm : V -> R.
Variables (dtMin fac tol : R).
Fixpoint rkeLoop (fuel : nat) (T : tableau) (bs : list Q) (prev : V) (step : nat) (lhs : bool)
  (u : V) (stages : list V) (t dt est : R) : option (out (V * R * R * R)) :=
  match fuel with
  | O => None
  | S f =>
      if Rle_dec est tol then Some (Ok (u, t, dt, est))
      else
        let error := vadd (bc t (weighted bs dt stages prev)) u (-1) in
        let est' := norm error in
        if Rle_dec est' tol then rkeLoop f T bs prev step lhs u stages t dt est'
        else match cutback dtMin fac t dt with
        | None => Some Fail
        | Some (t', dt') =>
            match solveRK T prev t' dt' step lhs with
            | Ok (u', stages', lhs') => rkeLoop f T bs prev step lhs' u' stages' t' dt' est'
            | Fail => Some Fail
            | UB => Some UB
            end
        end
  end.
(** Lines 80-124, solveStep: solution, time and the step size for the next step. *)
Definition rkeStep (fuel : nat) (m : method) (u : V) (t dt : R) (step : nat) (lhs : bool)
  : option (out (V * R * R)) :=
  let (T, bs) := rkeTableau m in
  match solveRK T u t dt step lhs with
  | Fail => Some Fail
  | UB => Some UB
  | Ok (u', stages, lhs') =>
      match rkeLoop fuel T bs u step lhs' u' stages t dt 1 with
      | Some (Ok (u2, t2, dt2, est)) =>
          Some (Ok (u2, t2, if Rlt_dec 0 est then dt2 * Rpower (tol / est) (1 / INR (tord T + 1)) else dt2))
      | Some Fail => Some Fail
      | Some UB => Some UB
      | None => None
      end
  end.
End RK.

Section AB.
(** The right-hand side at a time and a state, the solution with the mass matrix, the
    boundary values. *)
Variable rhs : R -> V -> V.
Variable msolve : V -> V.
Variable bc : R -> V -> V.

(** SIMExplicitLMM.h:46-57: the number of load vectors. *)
Definition abOrder (m : method) : nat :=
  match m with AB2 => 2 | AB3 => 3 | AB4 => 4 | AB5 => 5 | _ => 1 end.

Record abst := { loads : list (option V); hasICs : bool; sols : nat -> V }.
Definition abInit (m : method) (u : nat -> V) : abst :=
  {| loads := repeat None (abOrder m); hasICs := false; sols := u |}.

Fixpoint setL {A} (l : list A) (i : nat) (a : A) : list A :=
  match l, i with
  | [], _ => []
  | _ :: t, O => a :: t
  | x :: t, S k => x :: setL t k a
  end.

(** Lines 133-152: loads of the initial conditions; ic j: the field of level j is given;
    todo levels are left. *)
Fixpoint icLoop (ic : nat -> bool) (t dt : R) (u : nat -> V) (j todo : nat) (ld : list (option V))
  : list (option V) * bool :=
  match todo with
  | O => (ld, true)
  | S r => if ic j then icLoop ic t dt u (S j) r (setL ld (j - 2) (Some (rhs (t - INR j * dt) (u (j - 1)%nat))))
           else (ld, false)
  end.
(** Lines 131-160, advanceStep; the simulator moves its solutions one level back. *)
Definition abAdvance (m : method) (ic : nat -> bool) (t dt : R) (step : nat) (s : abst) : abst :=
  let (ld, ics) := if (step =? 1)%nat then icLoop ic t dt (sols s) 2 (abOrder m - 1) (loads s)
                   else (loads s, hasICs s) in
  {| loads := None :: removelast ld; hasICs := ics;
     sols := fun j => match j with O => sols s 0 | S i => sols s i end |}.

(** Lines 105-106: adding the old loads. *)
Fixpoint addLoads (dt : R) (coefs : list Q) (ld : list (option V)) (c : nat) (acc : V) : out V :=
  match coefs with
  | [] => Ok acc
  | [_] => Ok acc
  | q :: r => match nth c ld None with
              | None => UB
              | Some b => addLoads dt r ld (c - 1) (vadd acc b (Q2R q * dt))
              end
  end.
(** Lines 66-128, solveStep. *)
Definition abSolve (m : method) (t dt : R) (step : nat) (s : abst) : out abst :=
  let b0 := rhs (t - dt) (sols s 1) in
  let ld := setL (loads s) 0 (Some b0) in
  let c := if hasICs s then (abOrder m - 1)%nat else Nat.min (abOrder m - 1) (step - 1) in
  let coefs := nth c AB_coefs [] in
  match addLoads dt coefs ld c (vscale (Q2R (last coefs 0%Q) * dt) b0) with
  | Ok r => Ok {| loads := ld; hasICs := hasICs s;
                  sols := fun j => match j with O => bc t (vadd (msolve r) (sols s 1) 1) | S i => sols s (S i) end |}
  | Fail => Fail
  | UB => UB
  end.
(** Apps/Utils/SIMSolver.h:144-159: steps of the sizes dts, the first has number
    step+1 (after a restart step > 0). *)
Fixpoint abRun (m : method) (ic : nat -> bool) (t : R) (step : nat) (dts : list R) (s : abst) : out abst :=
  match dts with
  | [] => Ok s
  | dt :: r =>
      match abSolve m (t + dt) dt (S step) (abAdvance m ic (t + dt) dt (S step) s) with
      | Ok s' => abRun m ic (t + dt) (S step) r s'
      | Fail => Fail
      | UB => UB
      end
  end.
End AB.

Section AM.
(** The right-hand side, and the nonlinear solver: time, scale, load of the old steps and
    start solution (None: not converged). *)
Variable rhs : R -> V -> V.
Variable newton : R -> R -> V -> V -> option V.

(** SIMImplicitLMM.h:43-52. *)
Definition amOrder (m : method) : nat := match m with AM2 => 2 | AM3 => 3 | AM4 => 4 | _ => 1 end.

(** Pointers to load vectors: 0 is null, pointer p > 0 is entry p-1 of the memory, which
    is None after delete. *)
Record amst := { mem : list (option V); ptrs : list nat; amICs : bool; amsols : nat -> V }.
Definition amInit (m : method) (u : nat -> V) : amst :=
  {| mem := []; ptrs := repeat 0%nat (amOrder m); amICs := false; amsols := u |}.

(** delete. *)
Definition del (h : list (option V)) (p : nat) : out (list (option V)) :=
  match p with
  | O => Ok h
  | S q => match nth_error h q with Some (Some _) => Ok (setL h q None) | _ => UB end
  end.
Definition deref (h : list (option V)) (p : nat) : option V :=
  match p with O => None | S q => match nth_error h q with Some o => o | None => None end end.

(** Lines 103-118: loads of the initial conditions. *)
Fixpoint amIcLoop (ic : nat -> bool) (t dt : R) (u : nat -> V) (j todo : nat) (h : list (option V)) (ps : list nat)
  : list (option V) * list nat * bool :=
  match todo with
  | O => (h, ps, true)
  | S r => if ic j then amIcLoop ic t dt u (S j) r (h ++ [Some (rhs (t - INR j * dt) (u (j - 1)%nat))])
                           (setL ps (j - 2) (S (length h)))
           else (h, ps, false)
  end.
(** Lines 100-125, advanceStep: the last vector is deleted, the others are moved; the
    first entry keeps its pointer. *)
Definition amAdvance (m : method) (ic : nat -> bool) (t dt : R) (step : nat) (s : amst) : out amst :=
  let '(h, ps, ics) := if (step =? 1)%nat then amIcLoop ic t dt (amsols s) 2 (amOrder m - 1) (mem s) (ptrs s)
                       else (mem s, ptrs s, amICs s) in
  match del h (last ps 0%nat) with
  | Ok h' => Ok {| mem := h'; ptrs := hd 0%nat ps :: removelast ps; amICs := ics;
                   amsols := fun j => match j with O => amsols s 0 | S i => amsols s i end |}
  | Fail => Fail
  | UB => UB
  end.

(** Lines 189-191: adding the old loads, from index c = size-1 downwards. *)
Fixpoint amLoads (dt : R) (coefs : list Q) (h : list (option V)) (ps : list nat) (c : nat) (acc : V) : out V :=
  match coefs with
  | [] => Ok acc
  | [_] => Ok acc
  | q :: r => match deref h (nth c ps 0%nat) with
              | None => UB
              | Some b => amLoads dt r h ps (c - 1) (vadd acc b (Q2R q * dt))
              end
  end.
(** Lines 68-97, solveStep. *)
Definition amSolve (m : method) (t dt : R) (step : nat) (s : amst) : out amst :=
  let c := if amICs s then (amOrder m - 1)%nat else Nat.min (amOrder m - 1) (step - 1) in
  let coefs := nth c AM_coefs [] in
  match amLoads dt coefs (mem s) (ptrs s) (length coefs - 1) vzero with
  | UB => UB
  | Fail => Fail
  | Ok r =>
      match newton t (Q2R (last coefs 0%Q) * dt) r (amsols s 0) with
      | None => Fail
      | Some u => Ok {| mem := mem s ++ [Some (rhs t u)]; ptrs := setL (ptrs s) 0 (S (length (mem s)));
                        amICs := amICs s; amsols := fun j => match j with O => u | S i => amsols s (S i) end |}
      end
  end.
(** Lines 55-60, the destructor. *)
Fixpoint delAll (h : list (option V)) (ps : list nat) : out (list (option V)) :=
  match ps with
  | [] => Ok h
  | p :: r => match del h p with Ok h' => delAll h' r | Fail => Fail | UB => UB end
  end.
(** All steps; the run ends at the first step that is not solved, with the state it
    has then (true: all steps solved). *)
Fixpoint amRun (m : method) (ic : nat -> bool) (t : R) (step : nat) (dts : list R) (s : amst) : out (amst * bool) :=
  match dts with
  | [] => Ok (s, true)
  | dt :: r =>
      match amAdvance m ic (t + dt) dt (S step) s with
      | Ok s1 => match amSolve m (t + dt) dt (S step) s1 with
                 | Ok s' => amRun m ic (t + dt) (S step) r s'
                 | Fail => Ok (s1, false)
                 | UB => UB
                 end
      | Fail => Fail
      | UB => UB
      end
  end.
End AM.
