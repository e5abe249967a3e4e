(** Vocabulary of the statements about the scalar functions. *)
From Coq Require Import List Arith Reals.
From Verif Require Import Fun_model.
Import ListNotations.
Open Scope R_scope.

(** direction 1, 2, 3: the coordinates; 4: the time *)
Definition getc (X : arg) (d : nat) : R :=
  match d with 1%nat => ax X | 2%nat => ay X | 3%nat => az X | _ => match at_ X with Some t => t | None => 0 end end.
Definition setc (X : arg) (d : nat) (s : R) : arg :=
  match d with
  | 1%nat => mkArg s (ay X) (az X) (at_ X)
  | 2%nat => mkArg (ax X) s (az X) (at_ X)
  | 3%nat => mkArg (ax X) (ay X) s (at_ X)
  | _ => mkArg (ax X) (ay X) (az X) (Some s)
  end.

(** the arguments of the points do not decrease / increase *)
Definition SortedPts (pts : list (R * R)) : Prop :=
  forall i j, (i <= j < length pts)%nat -> fst (nth i pts (0, 0)) <= fst (nth j pts (0, 0)).
Definition IncreasingPts (pts : list (R * R)) : Prop :=
  forall i j, (i < j < length pts)%nat -> fst (nth i pts (0, 0)) < fst (nth j pts (0, 0)).

(** [f] is the piecewise linear function through the points: constant outside, linear between neighbours; at a
    jump (two points with the same argument) the value of the first of them *)
Definition PiecewiseLinear (pts : list (R * R)) (f : R -> R) : Prop :=
  (forall x, x <= fst (nth 0 pts (0, 0)) -> f x = snd (nth 0 pts (0, 0))) /\
  (forall x, fst (last pts (0, 0)) < x -> f x = snd (last pts (0, 0))) /\
  (forall i x, (S i < length pts)%nat ->
     let x1 := fst (nth i pts (0, 0)) in let x2 := fst (nth (S i) pts (0, 0)) in
     let y1 := snd (nth i pts (0, 0)) in let y2 := snd (nth (S i) pts (0, 0)) in
     x1 < x <= x2 -> (x2 - x1) * f x = (x2 - x) * y1 + (x - x1) * y2).

(** [P] holds in an open interval around x *)
Definition Near (x : R) (P : R -> Prop) : Prop := exists a b, a < x < b /\ forall z, a < z < b -> P z.

(** the time function has no kink or jump at x *)
Definition SmoothS (f : sfun) (x : R) : Prop :=
  match f with
  | SConst _ => True
  | SLinear pts _ => SortedPts pts /\ forall p, In p pts -> x <> fst p
  | SRamp _ xm => x <> xm
  | SDirac _ xm => x <> xm - / 10000 /\ x <> xm + / 10000
  | SStep _ xm => x <> xm
  | SSine _ _ _ => True
  | SExpr h d => forall V, Near x (fun y => h y = Some (V y)) -> exists v, d x = Some v /\ derivable_pt_lim V x v
  end.

(** the spatial function does not look at the time *)
Definition TimeFree (f : rfun) : Prop :=
  match f with
  | RTime _ | RSpaceTime _ _ => False
  | RRotZ _ _ _ _ => False
  | RInterp _ _ time => time <= 0
  | _ => True
  end.

(** the function has no kink or jump at X in direction d; time derivatives of rotations and of products whose
    spatial part depends on the time are excluded *)
Fixpoint Smooth (f : rfun) (X : arg) (d : nat) : Prop :=
  match f with
  | RConst _ | RLin _ _ _ | RQuad _ _ _ _ => True
  | RTime h => d = 4%nat -> SmoothS h (getc X 4)
  | RSpaceTime g h => if (d =? 4)%nat then TimeFree g /\ SmoothS h (getc X 4) else Smooth g X d
  | RRotZ _ _ _ _ => d <> 4%nat
  | RStepX _ x0 x1 i => d = S i -> getc X d <> x0 /\ getc X d <> x1
  | RStepXY _ x0 y0 x1 y1 => (d = 1%nat -> getc X d <> x0 /\ getc X d <> x1) /\ (d = 2%nat -> getc X d <> y0 /\ getc X d <> y1)
  | RStepXYZ _ X0 X1 eps => (d <= 3)%nat -> getc X d + eps <> getc X0 d /\ getc X d - eps <> getc X1 d
  | RInterp pts i time => (d = S i -> SmoothS (SLinear pts 1) (getc X d)) /\ (d = 4%nat -> 0 < time -> getc X 4 <> time)
  end.

(** directions are legal: 1..3 for coordinates *)
Fixpoint LegalDirs (f : rfun) : Prop :=
  match f with
  | RLin d _ _ | RQuad d _ _ _ => (1 <= d <= 3)%nat
  | RStepX _ _ _ i | RInterp _ i _ => (i <= 2)%nat
  | RSpaceTime g _ => LegalDirs g
  | _ => True
  end.

(** second derivatives: everything but the double time derivative, space-time derivatives of rotations and of
    interpolations *)
Definition Smooth2 (f : rfun) (X : arg) (d1 d2 : nat) : Prop :=
  match f with
  | RConst _ | RLin _ _ _ | RQuad _ _ _ _ | RStepX _ _ _ _ | RStepXY _ _ _ _ _ | RStepXYZ _ _ _ _ => True
  | RRotZ _ _ _ _ => (d1 <= 3)%nat /\ (d2 <= 3)%nat
  | RTime _ | RInterp _ _ _ => False
  | RSpaceTime g h =>
    match g with RConst _ | RLin _ _ _ | RQuad _ _ _ _ | RStepX _ _ _ _ | RStepXY _ _ _ _ _ | RStepXYZ _ _ _ _ => True | _ => False end /\
    ~ (d1 = 4%nat /\ d2 = 4%nat) /\
    (d1 = 4%nat -> Smooth g X d2 /\ SmoothS h (getc X 4)) /\ (d2 = 4%nat -> SmoothS h (getc X 4))
  end.

(** same place, different times; an argument without time counts as time zero *)
Definition SamePlace (X Y : arg) : Prop := ax X = ax Y /\ ay X = ay Y /\ az X = az Y.
Definition TimeOf (X : arg) : R := match at_ X with Some t => t | None => 0 end.

(** no jump in time hidden behind the default answer: step and Dirac functions are excluded *)
Definition NoTimeJump (h : sfun) : Prop := match h with SStep _ _ | SDirac _ _ => False | _ => True end.

(** the scalar function is linear interpolation (its test for zero has a tolerance) *)
Definition IsLinear (h : sfun) : Prop := match h with SLinear _ _ => True | _ => False end.
Fixpoint UsesLinear (f : rfun) : Prop :=
  match f with RTime h => IsLinear h | RSpaceTime g h => UsesLinear g \/ IsLinear h | _ => False end.

(** the arguments of the lines of a file never step back by a relative amount below the tolerance *)
Definition NoSmallStep (lines : list (R * R)) : Prop :=
  forall i, (S i < length lines)%nat ->
    let x := fst (nth i lines (0, 0)) in let y := fst (nth (S i) lines (0, 0)) in x <= y \/ / 1000000000000 * x <= x - y.
