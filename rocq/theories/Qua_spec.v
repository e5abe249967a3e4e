(** Specification of the quadrature rules (C99, C100). *)
From Coq Require Import Reals List.
From Verif Require Import Qua_model.
Import ListNotations.
Local Open Scope R_scope.

(** The polynomial with the coefficients c (constant first), and the sum of their sizes. *)
Fixpoint poly (c : list R) (x : R) : R := match c with [] => 0 | a :: r => a + x * poly r x end.
Fixpoint asum (c : list R) : R := match c with [] => 0 | a :: r => Rabs a + asum r end.
(** The same for a list of coefficient lists. *)
Fixpoint asum2 (c : list (list R)) : R := match c with [] => 0 | r :: t => asum r + asum2 t end.
(** F is an antiderivative of f. *)
Definition antideriv (F f : R -> R) : Prop := forall x, derivable_pt_lim F x (f x).

(** The polynomials of degree three in two variables. *)
Record cubic := { c00 : R; c10 : R; c01 : R; c20 : R; c11 : R; c02 : R; c30 : R; c21 : R; c12 : R; c03 : R }.
Definition cub (c : cubic) (x y : R) : R :=
  c00 c + c10 c * x + c01 c * y + c20 c * x ^ 2 + c11 c * (x * y) + c02 c * y ^ 2
  + c30 c * x ^ 3 + c21 c * (x ^ 2 * y) + c12 c * (x * y ^ 2) + c03 c * y ^ 3.
Definition cabs (c : cubic) : R :=
  Rabs (c00 c) + Rabs (c10 c) + Rabs (c01 c) + Rabs (c20 c) + Rabs (c11 c) + Rabs (c02 c)
  + Rabs (c30 c) + Rabs (c21 c) + Rabs (c12 c) + Rabs (c03 c).
(** I is the integral of f over the triangle (0,0), (1,0), (0,1): first over y from 0 to
    1-x, then over x from 0 to 1. *)
Definition is_triangle_integral (f : R -> R -> R) (I : R) : Prop :=
  exists (G : R -> R -> R) (F : R -> R),
    (forall x, antideriv (G x) (f x)) /\ antideriv F (fun x => G x (1 - x) - G x 0) /\ I = F 1 - F 0.
(** I is the integral of f over the square from -1 to 1. *)
Definition is_square_integral (f : R -> R -> R) (I : R) : Prop :=
  exists (G : R -> R -> R) (F : R -> R),
    (forall y, antideriv (G y) (fun x => f x y)) /\ antideriv F (fun y => G y 1 - G y (-1)) /\ I = F 1 - F (-1).
