(** Model of the scalar functions of src/Utility/Functions.h and Functions.C: evaluation, derivatives, the
    queries isZero and isConstant, and their definition by text.  Exact reals; [None] as a number = not
    finite (division by zero), see Lagr_model.v. *)
From Coq Require Import List Arith ZArith Bool Reals.
From Verif Require Import Lagr_model.
Import ListNotations.
Open Scope bool_scope.
Open Scope R_scope.

Definition rltb (x y : R) : bool := if Rlt_dec x y then true else false.
Definition rleb (x y : R) : bool := if Rle_dec x y then true else false.
Definition reqb (x y : R) : bool := if Req_EM_T x y then true else false.

(** Functions.C:33 *)
Definition zTol : R := / 1000000000000.

(** The sub-classes of ScalarFunc, by their members (Functions.h:26-200); the expression function EvalFunc
    (ExprFunctions.h:36-84) with its value and its derivative as arbitrary functions. *)
Inductive sfun :=
| SConst (fval : R)
| SLinear (fvals : list (R * R)) (scale : R)
| SRamp (fval xmax : R)
| SDirac (amp xmax : R)
| SStep (amp xmax : R)
| SSine (scale freq phase : R)
| SExpr (h d : R -> fl).

(** Functions.C:214-221 LinearFunc::locate; std::lower_bound on points sorted by their argument:
    the number of leading points with an argument less than x *)
Fixpoint lower_bound (pts : list (R * R)) (x : R) : nat :=
  match pts with [] => O | p :: l => if rltb (fst p) x then S (lower_bound l x) else O end.
Definition locate (pts : list (R * R)) (x : R) : nat :=
  if (length pts <? 2)%nat then O else lower_bound pts x.

(** evaluate: Functions.h:43, Functions.C:251-268, 366-369, 378-393 *)
Definition sf_eval (f : sfun) (x : R) : fl :=
  match f with
  | SConst v => Some v
  | SLinear [] s => Some (s * x)
  | SLinear pts s =>
    let ix := locate pts x in
    if (ix =? 0)%nat then Some (s * snd (nth 0 pts (0, 0)))
    else if (length pts <=? ix)%nat then Some (s * snd (last pts (0, 0)))
    else let x1 := fst (nth (ix - 1) pts (0, 0)) in let x2 := fst (nth ix pts (0, 0)) in
         let f1 := snd (nth (ix - 1) pts (0, 0)) in let f2 := snd (nth ix pts (0, 0)) in
         fmul (Some s) (fadd (Some f1) (fdiv (Some ((f2 - f1) * (x - x1))) (Some (x2 - x1))))
  | SRamp v xm => if rltb x xm then fdiv (Some (v * x)) (Some xm) else Some v
  | SDirac a xm => if rltb (Rabs (x - xm)) (/ 10000) then Some a else Some 0
  | SStep a xm => if rleb xm x then Some a else Some 0
  | SSine s w p => Some (s * sin (w * x + p))
  | SExpr h _ => h x
  end.

(** deriv: Function.h:142 (default), Functions.C:234-248, 372-375, 396-399 *)
Definition sf_deriv (f : sfun) (x : R) : fl :=
  match f with
  | SLinear [] s => Some s
  | SLinear pts s =>
    let ix := locate pts x in
    if ((ix =? 0) || (length pts <=? ix))%nat then Some 0
    else let x1 := fst (nth (ix - 1) pts (0, 0)) in let x2 := fst (nth ix pts (0, 0)) in
         let f1 := snd (nth (ix - 1) pts (0, 0)) in let f2 := snd (nth ix pts (0, 0)) in
         fdiv (Some (s * (f2 - f1))) (Some (x2 - x1))
  | SRamp v xm => if rltb x xm then fdiv (Some v) (Some xm) else Some 0
  | SSine s w p => Some (w * s * cos (w * x + p))
  | SExpr _ d => d x
  | _ => Some 0
  end.

(** isZero: Functions.h:40,127,150,172,197, Functions.C:224-231 *)
Definition sf_isZero (f : sfun) : bool :=
  match f with
  | SConst v => reqb v 0
  | SLinear pts s => forallb (fun p => negb (rltb zTol (snd p) || rltb (snd p) (- zTol))) pts && rleb s zTol && rleb (- zTol) s
  | SRamp v _ => reqb v 0
  | SDirac a _ => reqb a 0
  | SStep a _ => reqb a 0
  | SSine s _ _ => reqb s 0
  | SExpr _ _ => false
  end.

(** isConstant: Function.h:43 (default true), ExprFunctions.h:75, Functions.h:75,128,198 *)
Definition sf_isConstant (f : sfun) : bool :=
  match f with
  | SLinear pts _ => (length pts =? 1)%nat
  | SRamp _ xm => rleb xm 0
  | SSine s _ _ => reqb s 0
  | SExpr _ _ => false
  | _ => true
  end.

(** the argument of spatial functions: coordinates, and the time if the object is a Vec4 *)
Record arg := mkArg { ax : R; ay : R; az : R; at_ : option R }.
Definition coord (X : arg) (i : nat) : R := match i with O => ax X | S O => ay X | _ => az X end.
Definition tm (X : arg) : R := match at_ X with Some t => t | None => 0 end.

(** The sub-classes of RealFunc (Functions.h:205-610).  [RLin d], [RQuad d] are the three classes for d = 1, 2, 3.
    Expression, field and Chebyshev functions and DiracSpaceFunc are not modelled here. *)
Inductive rfun :=
| RConst (fval : R)
| RTime (tfunc : sfun)
| RSpaceTime (sfunc : rfun) (tfunc : sfun)
| RLin (d : nat) (a b : R)
| RQuad (d : nat) (max a b : R)
| RRotZ (rX : bool) (A x0 y0 : R)
| RStepX (fv x0 x1 : R) (d : nat)
| RStepXY (fv x0 y0 x1 y1 : R)
| RStepXYZ (fv : R) (X0 X1 : arg) (eps : R)
| RInterp (fvals : list (R * R)) (dir : nat) (time : R).

(** Vec3.h:170-177 *)
Definition inside (X a b : arg) (tol : R) : bool :=
  forallb (fun i => negb (rltb (coord X i + tol) (coord a i) || rltb (coord b i) (coord X i - tol))) [0; 1; 2]%nat.

(** evaluate: Functions.h:221, Functions.C:402-406, 418-422, 450-453, 462-465, 474-477, 486-490, 512-516,
    538-542, 564-576, 598-613, 646-655 *)
Fixpoint rf_eval (f : rfun) (X : arg) : fl :=
  match f with
  | RConst v => Some v
  | RTime h => sf_eval h (tm X)
  | RSpaceTime g h => fmul (rf_eval g X) (sf_eval h (tm X))
  | RLin d a b => Some (a * coord X (d - 1) + b)
  | RQuad d mx a b => let val := (a - b) / 2 in
                      fdiv (Some (mx * (a - coord X (d - 1)) * (coord X (d - 1) - b))) (Some (val * val))
  | RRotZ rX A x0 y0 =>
    match at_ X with
    | None => Some 0
    | Some t => let x := ax X - x0 in let y := ay X - y0 in
                Some (if rX then x * cos (A * t) - y * sin (A * t) - x else x * sin (A * t) + y * cos (A * t) - y)
    end
  | RStepX v x0 x1 d => if rltb (coord X d) x0 || rltb x1 (coord X d) then Some 0 else Some v
  | RStepXY v x0 y0 x1 y1 => if rltb (ax X) x0 || rltb x1 (ax X) || rltb (ay X) y0 || rltb y1 (ay X) then Some 0 else Some v
  | RStepXYZ v X0 X1 eps => if inside X X0 X1 eps then Some v else Some 0
  | RInterp pts d time =>
    let res := sf_eval (SLinear pts 1) (coord X d) in
    match at_ X with
    | Some t => if rltb 0 time && rltb t time then fmul res (Some (t / time)) else res
    | None => res
    end
  end.

(** deriv: Function.h:107 (default), Functions.C:409-415, 425-432, 456-459, 468-471, 480-483, 493-499, 519-525,
    554-560, 579-595, 658-675 *)
Fixpoint rf_deriv (f : rfun) (X : arg) (dir : nat) : fl :=
  match f with
  | RTime h => if (dir <? 4)%nat then Some 0 else sf_deriv h (tm X)
  | RSpaceTime g h => if (dir <? 4)%nat then fmul (rf_deriv g X dir) (sf_eval h (tm X))
                      else fmul (rf_eval g X) (sf_deriv h (tm X))
  | RLin d a _ => if (dir =? d)%nat then Some a else Some 0
  | RQuad d mx a b => if negb (dir =? d)%nat then Some 0
                      else let val := (a - b) / 2 in
                           fdiv (Some (mx * (a + b - 2 * coord X (d - 1)))) (Some (val * val))
  | RRotZ rX A _ _ =>
    if (2 <? dir)%nat then Some 0
    else match at_ X with
         | None => Some 0
         | Some t => if (dir =? 1)%nat then Some (if rX then cos (A * t) - 1 else sin (A * t))
                     else if (dir =? 2)%nat then Some (if rX then - sin (A * t) else cos (A * t) - 1)
                     else Some 0
         end
  | RInterp pts d time =>
    let go (res : fl) : fl :=
      match at_ X with
      | Some t => if rltb 0 time && rltb t time then fmul res (Some ((if (dir <? 4)%nat then t else 1) / time))
                  else if (3 <? dir)%nat then Some 0 else res
      | None => if (3 <? dir)%nat then Some 0 else res
      end in
    if (dir =? d + 1)%nat then go (sf_deriv (SLinear pts 1) (coord X d))
    else if (3 <? dir)%nat then go (sf_eval (SLinear pts 1) (coord X d))
    else Some 0
  | _ => Some 0
  end.

(** dderiv: Function.h:109 (default), Functions.C:435-447, 502-508, 528-534, 545-551 *)
Fixpoint rf_dderiv (f : rfun) (X : arg) (d1 d2 : nat) : fl :=
  match f with
  | RSpaceTime g h =>
    if ((d1 <? 4) && (d2 <? 4))%nat then fmul (rf_dderiv g X d1 d2) (sf_eval h (tm X))
    else if (d1 <? 4)%nat then fmul (rf_deriv g X d1) (sf_deriv h (tm X))
    else if (d2 <? 4)%nat then fmul (rf_deriv g X d2) (sf_deriv h (tm X))
    else Some 0
  | RQuad d mx a b => if negb (d1 =? d)%nat || negb (d2 =? d)%nat then Some 0
                      else let val := (a - b) / 2 in fdiv (Some (- mx * 2)) (Some (val * val))
  | _ => Some 0
  end.

(** isZero: Functions.h:218,237,263,... *)
Fixpoint rf_isZero (f : rfun) : bool :=
  match f with
  | RConst v => reqb v 0
  | RTime h => sf_isZero h
  | RSpaceTime g h => rf_isZero g || sf_isZero h
  | RLin _ a b => reqb a 0 && reqb b 0
  | RQuad _ mx _ _ => reqb mx 0
  | RRotZ _ A _ _ => reqb A 0
  | RStepX v _ _ _ => reqb v 0
  | RStepXY v _ _ _ _ => reqb v 0
  | RStepXYZ v _ _ _ => reqb v 0
  | RInterp pts _ _ => sf_isZero (SLinear pts 1)
  end.

(** isConstant: Function.h:43 (default true), Functions.h:238,264,478,598 *)
Definition rf_isConstant (f : rfun) : bool :=
  match f with
  | RTime h => sf_isConstant h
  | RSpaceTime _ h => sf_isConstant h
  | RRotZ _ A _ _ => reqb A 0
  | RInterp _ _ time => rleb time 0
  | _ => true
  end.

(** Functions.C:160-202: the constructor of LinearFunc from a file, given as the list of (x,v) of its lines
    (the selection of the column is not modelled); it stops at the first decreasing argument.  The list is built
    in reverse. *)
Fixpoint read_points (acc : list (R * R)) (lines : list (R * R)) : list (R * R) :=
  match lines with
  | [] => acc
  | (x, v) :: r =>
    match acc with
    | [] => read_points [(x, v)] r
    | (x', v') :: acc' =>
      if rleb x' x then read_points ((x, v) :: acc) r
      else if rltb (x' - x) (zTol * x') then let xm := / 2 * (x' + x) in read_points ((xm, v) :: (xm, v') :: acc') r
      else acc
    end
  end.
Definition linear_read (lines : list (R * R)) : list (R * R) := rev (read_points [] lines).
