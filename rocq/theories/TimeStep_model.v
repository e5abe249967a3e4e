(** Model of src/SIM/TimeStep.{h,C}: time stepping control.
    double = Qc (exact); the messages to IFEM::cout are not modelled. *)
From Coq Require Import List Arith ZArith QArith Qcanon Bool Lia.
From Verif Require Import Base QcLra.
Import ListNotations.
Local Open Scope Qc_scope.

(** one time section: listed step sizes and end time (TimeStep.h:86 [Step]) *)
Notation Section_ := (list Qc * Qc)%type.

(** TimeStep.h:71-96 and TimeDomain.h:22-30.  [stepIt] is an iterator into [mySteps]; here its
    index, [length mySteps] being end().  TimeDomain::first (a flag, set to 'c' by cutback) is kept. *)
Record TS := mkTS {
  step : Z; iter : Z; t : Qc; dt : Qc; dtn : Qc; cfl : Qc; first : Z;
  starTime : Qc; stopTime : Qc; maxCFL : Qc;
  niter : Z; nInitStep : Z; maxStep : Z;
  dtMin : Qc; dtMax : Qc; f1 : Qc; f2 : Qc;
  mySteps : list Section_; stepIt : nat; lstep : nat }.

Definition q6 : Qc := Q2Qc (1 # 1000000).                    (* epsT, TimeStep.C:186,193 *)
Definition q12 : Qc := Q2Qc (1 # 1000000000000).             (* TimeStep.C:227 *)
Definition qmax (a b : Qc) : Qc := if qltb a b then b else a. (* std::max *)

(** TimeStep.C:25-36, default constructor *)
Definition ts0 : TS :=
  mkTS 0 0 0 1 0 0 1 0 1 0 0 0 0 1 1 (Q2Qc (3#2)) (Q2Qc (1#4)) [] 0 0.

(** TimeStep.C:39-59: everything is copied but the iterator is set to begin() *)
Definition copyTS (s : TS) : TS :=
  mkTS (step s) (iter s) (t s) (dt s) (dtn s) (cfl s) (first s) (starTime s) (stopTime s) (maxCFL s)
       (niter s) (nInitStep s) (maxStep s) (dtMin s) (dtMax s) (f1 s) (f2 s) (mySteps s) 0 (lstep s).

(** TimeStep.C:191-200 *)
Definition hasReached (s : TS) (x : Qc) : bool :=
  if qltb 0 x then qltb x (t s + q6 * qmax q6 (dt s))
  else if qltb x 0 then qltb (t s) 0 && qltb (t s - q6 * q6) x
  else true.

(** TimeStep.C:184-188 *)
Definition multiSteps (s : TS) : bool := qltb (starTime s + (1 + q6) * dt s) (stopTime s).

(** [stepIt->first.back() = x]; the list is never empty here (see [increment], [parseXML]) *)
Fixpoint set_back (x : Qc) (l : list Qc) : list Qc :=
  match l with [] => [] | [_] => [x] | y :: r => y :: set_back x r end.

Definition curSec (s : TS) : option Section_ := nth_error (mySteps s) (stepIt s).
Definition setSec (s : TS) (l : list Qc) : list Section_ :=
  match curSec s with Some (_, e) => upd (stepIt s) (l, e) (mySteps s) | None => mySteps s end.

(** TimeStep.C:225-239: the CFL restriction, or the next listed step size *)
Definition incA (s : TS) : TS :=
  if qltb 0 (maxCFL s) && qltb q12 (cfl s) then
    if (nInitStep s <? step s)%Z then
      if qltb (dt s * f1 s) (maxCFL s / cfl s)
      then mkTS (step s) (iter s) (t s) (dt s * f1 s) (dt s) (cfl s) (first s) (starTime s) (stopTime s) (maxCFL s)
                (niter s) (nInitStep s) (maxStep s) (dtMin s) (dtMax s) (f1 s) (f2 s) (mySteps s) (stepIt s) (lstep s)
      else mkTS (step s) (iter s) (t s) (maxCFL s / cfl s) (dt s) (cfl s) (first s) (starTime s) (stopTime s) (maxCFL s * f1 s)
                (niter s) (nInitStep s) (maxStep s) (dtMin s) (dtMax s) (f1 s) (f2 s) (mySteps s) (stepIt s) (lstep s)
    else mkTS (step s) (iter s) (t s) (dt s) (dt s) (cfl s) (first s) (starTime s) (stopTime s) (maxCFL s)
                (niter s) (nInitStep s) (maxStep s) (dtMin s) (dtMax s) (f1 s) (f2 s) (mySteps s) (stepIt s) (lstep s)
  else match curSec s with
       | None => mkTS (step s) (iter s) (t s) (dt s) (dt s) (cfl s) (first s) (starTime s) (stopTime s) (maxCFL s)
                (niter s) (nInitStep s) (maxStep s) (dtMin s) (dtMax s) (f1 s) (f2 s) (mySteps s) (stepIt s) (lstep s)
       | Some (l, _) =>
         mkTS (step s) (iter s) (t s) (if (S (lstep s) <=? length l)%nat then nth (lstep s) l 0 else dt s) (dt s) (cfl s) (first s)
              (starTime s) (stopTime s) (maxCFL s) (niter s) (nInitStep s) (maxStep s) (dtMin s) (dtMax s) (f1 s) (f2 s)
              (mySteps s) (stepIt s) (S (lstep s))
       end.

Definition setDt (s : TS) (d : Qc) : TS :=
  mkTS (step s) (iter s) (t s) d (dtn s) (cfl s) (first s) (starTime s) (stopTime s) (maxCFL s)
       (niter s) (nInitStep s) (maxStep s) (dtMin s) (dtMax s) (f1 s) (f2 s) (mySteps s) (stepIt s) (lstep s).

(** TimeStep.C:241-253: adjustment by the iteration counts *)
Definition incB (s : TS) : TS :=
  if qltb (dtMin s) (dtMax s) && qleb (maxCFL s) 0 && (1 <? step s)%Z then
    let d := if (iter s <=? 4)%Z && (niter s <=? 4)%Z then dt s * f1 s
             else if (10 <? iter s)%Z then dt s * f2 s else dt s in
    setDt s (if qltb d (dtMin s) then dtMin s else if qltb (dtMax s) d then dtMax s else d)
  else s.

(** TimeStep.C:272-289: record the step in the schedule and adjust it to the section end *)
Definition incC (s : TS) : TS :=
  match curSec s with
  | None => s
  | Some (l, e) =>
    let l := if (length l <=? lstep s)%nat then l ++ [dt s] else l in
    if hasReached s e then
      if Qc_eq_dec (t s) e
      then mkTS (step s) (iter s) (t s) (dt s) (dtn s) (cfl s) (first s) (starTime s) (stopTime s) (maxCFL s)
                (niter s) (nInitStep s) (maxStep s) (dtMin s) (dtMax s) (f1 s) (f2 s) (setSec s l) (S (stepIt s)) 0
      else let d := dt s + (e - t s) in
           mkTS (step s) (iter s) e d (dtn s) (cfl s) (first s) (starTime s) (stopTime s) (maxCFL s)
                (niter s) (nInitStep s) (maxStep s) (dtMin s) (dtMax s) (f1 s) (f2 s) (setSec s (set_back d l)) (S (stepIt s)) 0
    else mkTS (step s) (iter s) (t s) (dt s) (dtn s) (cfl s) (first s) (starTime s) (stopTime s) (maxCFL s)
              (niter s) (nInitStep s) (maxStep s) (dtMin s) (dtMax s) (f1 s) (f2 s) (setSec s l) (stepIt s) (lstep s)
  end.

(** TimeStep.C:291-297: never pass the stop time *)
Definition incD (s : TS) : TS :=
  if qltb (stopTime s) (t s)
  then mkTS (step s) (iter s) (stopTime s) (dt s + (stopTime s - t s)) (dtn s) (cfl s) (first s) (starTime s) (stopTime s) (maxCFL s)
            (niter s) (nInitStep s) (maxStep s) (dtMin s) (dtMax s) (f1 s) (f2 s) (mySteps s) (stepIt s) (lstep s)
  else s.

(** TimeStep.C:261: [step++ == maxStep && maxStep > 0] increments the counter in all cases *)
Definition bumpStep (s : TS) : TS :=
  mkTS (step s + 1) (iter s) (t s) (dt s) (dtn s) (cfl s) (first s) (starTime s) (stopTime s) (maxCFL s)
       (niter s) (nInitStep s) (maxStep s) (dtMin s) (dtMax s) (f1 s) (f2 s) (mySteps s) (stepIt s) (lstep s).
(** TimeStep.C:268-269 *)
Definition advance (s : TS) : TS :=
  mkTS (step s) (iter s) (t s + dt s) (dt s) (dtn s) (cfl s) (first s) (starTime s) (stopTime s) (maxCFL s)
       (iter s) (nInitStep s) (maxStep s) (dtMin s) (dtMax s) (f1 s) (f2 s) (mySteps s) (stepIt s) (lstep s).

(** TimeStep.C:223-300 *)
Definition increment (s : TS) : bool * TS :=
  let s := incB (incA s) in
  if hasReached s (stopTime s) then (false, s)
  else if (step s =? maxStep s)%Z && (0 <? maxStep s)%Z then (false, bumpStep s)
  else (true, incD (incC (advance (bumpStep s)))).

(** TimeStep.C:303-328.  The schedule entry overwritten is the last one of the current section. *)
Definition cutback (s : TS) : bool * TS :=
  if qleb (dt s) (dtMin s) then (false, s)
  else
    let d := dt s * (if qltb (f2 s) 1 then f2 s else Q2Qc (1#2)) in
    let d := if qltb d (dtMin s) then dtMin s else d in
    (true, mkTS (step s) 0 (t s + (d - dt s)) d (dtn s) (cfl s) 99 (starTime s) (stopTime s) (maxCFL s)
                10 (nInitStep s) (maxStep s) (dtMin s) (dtMax s) (f1 s) (f2 s)
                (match curSec s with Some (l, _) => setSec s (set_back d l) | None => mySteps s end) (stepIt s) (lstep s)).

(** TimeStep.C:331-338 *)
Definition finished (s : TS) : bool :=
  ((maxStep s <=? step s)%Z && (0 <? maxStep s)%Z) || hasReached s (stopTime s) || hasReached s (- stopTime s).

Fixpoint incrN (n : nat) (s : TS) : bool * TS :=
  match n with
  | O => (true, s)
  | S n => let (ok, s') := increment s in if ok then incrN n s' else (false, s')
  end.

(** TimeStep.C:203-220.  [int istep] : a non-positive one makes no increments *)
Definition reset (s : TS) (istep : Z) : bool * TS :=
  match mySteps s with
  | [] => (true, mkTS istep (iter s) (t s) (dt s) (dtn s) (cfl s) (first s) (starTime s) (stopTime s) (maxCFL s)
                      (niter s) (nInitStep s) (maxStep s) (dtMin s) (dtMax s) (f1 s) (f2 s) (mySteps s) (stepIt s) (lstep s))
  | (l0, _) :: _ =>
    incrN (Z.to_nat istep)
      (mkTS 0 (iter s) 0 (hd 0 l0) 0 0 (first s) (starTime s)
            (if (istep =? 0)%Z then snd (last (mySteps s) ([], 0)) else stopTime s) (maxCFL s)
            (niter s) (nInitStep s) (maxStep s) (dtMin s) (dtMax s) (f1 s) (f2 s) (mySteps s) 0 0)
  end.

(** TimeStep.C:342-351: the archive *)
Record Archive := mkAr { a_step : Z; a_maxCFL : Qc; a_t : Qc; a_dt : Qc; a_dtn : Qc; a_CFL : Qc; a_first : Z }.
(** TimeStep.C:355-368 *)
Definition serialize (s : TS) : Archive := mkAr (step s) (maxCFL s) (t s) (dt s) (dtn s) (cfl s) (first s).
(** TimeStep.C:371-383 *)
Definition deSerialize (s : TS) (a : Archive) : bool * TS :=
  reset (mkTS (a_step a) (iter s) (a_t a) (a_dt a) (a_dtn a) (a_CFL a) (a_first a) (starTime s) (stopTime s) (a_maxCFL a)
              (niter s) (nInitStep s) (maxStep s) (dtMin s) (dtMax s) (f1 s) (f2 s) (mySteps s) (stepIt s) (lstep s)) (a_step a).

(** ** Input *)
(** the attributes of <timestepping> and of its <step> children; XML reading itself is not modelled:
    [x_vals] are the numbers in the text of a <step>.  Absent start/end attributes are 0. *)
Record XStep := mkXS { x_start : Qc; x_end : Qc; x_vals : list Qc; x_graded : bool }.
Record XTime := mkXT { x_starTime : Qc; x_stopTime : Qc; x_dtMin : Qc; x_dtMax : Qc; x_maxCFL : Qc;
  x_nInit : Z; x_maxStep : Z; x_f1 : Qc; x_f2 : Qc; x_dt : option Qc; x_steps : list XStep }.

Definition isInt (q : Qc) : bool := Pos.eqb (Qden (this q)) 1.      (* ceil(dt) == dt *)

(** TimeStep.C:133-141 (same rule TimeStep.C:81-93): a single integer above 1 is the number of steps,
    anything else a list of step sizes *)
Definition stepSizes (start fin : Qc) (vals : list Qc) : list Qc :=
  match vals with
  | [] => []
  | d :: _ => if qltb 1 d && isInt d then [(fin - start) / d] else vals
  end.

(** TimeStep.C:149-158, the grading loop [for (T = start+dt; T < end; T += dt)]; fuel = iterations
    allowed, None = it is still running *)
Fixpoint gradeLoop (fuel : nat) (eta T d fin : Qc) : option (list Qc) :=
  if qltb T fin then
    match fuel with
    | O => None
    | S fuel =>
      let d := d * eta in
      match gradeLoop fuel eta (T + d) d fin with
      | None => None
      | Some l => Some ((if qleb (T + d) fin then d else fin - T) :: l)
      end
    end
  else Some [].
(** TimeStep.C:143-159 *)
Definition grade (fuel : nat) (start fin : Qc) (ts : list Qc) : option (list Qc) :=
  match ts with
  | [d; d2] => match gradeLoop fuel (1 - (d - d2) / (fin - start)) (start + d) d fin with
               | None => None | Some l => Some (d :: l) end
  | _ => Some ts
  end.

(** TimeStep.C:120-171: the loop over the <step> elements; the result are the start time and the sections *)
Fixpoint parseSteps (fuel : nat) (l : list XStep) (star : Qc) (acc : list Section_) : option (Qc * list Section_) :=
  match l with
  | [] => Some (star, acc)
  | x :: r =>
    let '(star, start) := match acc with [] => (x_start x, x_start x) | _ => (star, snd (last acc ([], 0))) end in
    let ts := stepSizes start (x_end x) (x_vals x) in
    match (if x_graded x then grade fuel start (x_end x) ts else Some ts) with
    | None => None
    | Some [] => parseSteps fuel r star acc
    | Some ts => parseSteps fuel r star (acc ++ [(ts, x_end x)])
    end
  end.

Definition setT (s : TS) (x : Qc) : TS :=
  mkTS (step s) (iter s) x (dt s) (dtn s) (cfl s) (first s) (starTime s) (stopTime s) (maxCFL s)
       (niter s) (nInitStep s) (maxStep s) (dtMin s) (dtMax s) (f1 s) (f2 s) (mySteps s) (stepIt s) (lstep s).

(** TimeStep.C:102-181, for a newly constructed object *)
Definition parseXML (fuel : nat) (x : XTime) : option TS :=
  match parseSteps fuel (x_steps x) (x_starTime x) [] with
  | None => None
  | Some (star, secs) =>
    let s := mkTS 0 0 0 1 0 0 1 star (x_stopTime x) (x_maxCFL x) 0 (x_nInit x) (x_maxStep x) (x_dtMin x) (x_dtMax x)
                  (if qltb (x_f1 x) 1 then 1 else x_f1 x) (if qltb 1 (x_f2 x) then 1 else x_f2 x) secs 0 0 in
    Some (setT (match secs with
                | [] => setDt s (match x_dt x with Some d => d | None => x_stopTime x - star end)
                | _ => snd (reset s 0)
                end) star)
  end.
