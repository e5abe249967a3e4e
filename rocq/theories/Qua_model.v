(** Model of the quadrature rules.

    Source: src/Utility/GaussQuadrature.C, TriangleQuadrature.C.  The entries are the decimal
    numbers of the source (their rounding to double is left out); sums are exact. *)
From Coq Require Import QArith Reals Qreals List.
Import ListNotations.

Local Open Scope Q_scope.
(** GaussQuadrature.C:18-196, the tables G1-G10: coordinates and weights. *)
Definition G1 : list Q * list Q :=
  ([0],
   [20#10]).
Definition G2 : list Q * list Q :=
  ([-5773502691896257#10000000000000000; 5773502691896257#10000000000000000],
   [10#10; 10#10]).
Definition G3 : list Q * list Q :=
  ([-7745966692414834#10000000000000000; 0; 7745966692414834#10000000000000000],
   [5555555555555556#10000000000000000; 8888888888888889#10000000000000000; 5555555555555556#10000000000000000]).
Definition G4 : list Q * list Q :=
  ([-86113631159405257524#100000000000000000000; -33998104358485626481#100000000000000000000; 33998104358485626481#100000000000000000000; 86113631159405257524#100000000000000000000],
   [34785484513745385736#100000000000000000000; 65214515486254614264#100000000000000000000; 65214515486254614264#100000000000000000000; 34785484513745385736#100000000000000000000]).
Definition G5 : list Q * list Q :=
  ([-90617984593866399282#100000000000000000000; -53846931010568309105#100000000000000000000; 0; 53846931010568309105#100000000000000000000; 90617984593866399282#100000000000000000000],
   [23692688505618908749#100000000000000000000; 47862867049936646808#100000000000000000000; 56888888888888888888#100000000000000000000; 47862867049936646808#100000000000000000000; 23692688505618908749#100000000000000000000]).
Definition G6 : list Q * list Q :=
  ([-9324695142031520#10000000000000000; -6612093864662645#10000000000000000; -2386191860831969#10000000000000000; 2386191860831969#10000000000000000; 6612093864662645#10000000000000000; 9324695142031520#10000000000000000],
   [1713244923791703#10000000000000000; 3607615730481386#10000000000000000; 4679139345726911#10000000000000000; 4679139345726911#10000000000000000; 3607615730481386#10000000000000000; 1713244923791703#10000000000000000]).
Definition G7 : list Q * list Q :=
  ([-9491079123427585#10000000000000000; -7415311855993944#10000000000000000; -4058451513773972#10000000000000000; 0; 4058451513773972#10000000000000000; 7415311855993944#10000000000000000; 9491079123427585#10000000000000000],
   [1294849661688697#10000000000000000; 2797053914892767#10000000000000000; 3818300505051189#10000000000000000; 4179591836734694#10000000000000000; 3818300505051189#10000000000000000; 2797053914892767#10000000000000000; 1294849661688697#10000000000000000]).
Definition G8 : list Q * list Q :=
  ([-9602898564975362#10000000000000000; -7966664774136267#10000000000000000; -5255324099163290#10000000000000000; -1834346424956498#10000000000000000; 1834346424956498#10000000000000000; 5255324099163290#10000000000000000; 7966664774136267#10000000000000000; 9602898564975362#10000000000000000],
   [1012285362903763#10000000000000000; 2223810344533745#10000000000000000; 3137066458778873#10000000000000000; 3626837833783620#10000000000000000; 3626837833783620#10000000000000000; 3137066458778873#10000000000000000; 2223810344533745#10000000000000000; 1012285362903763#10000000000000000]).
Definition G9 : list Q * list Q :=
  ([-9681602395076261#10000000000000000; -8360311073266358#10000000000000000; -6133714327005904#10000000000000000; -3242534234038089#10000000000000000; 0; 3242534234038089#10000000000000000; 6133714327005904#10000000000000000; 8360311073266358#10000000000000000; 9681602395076261#10000000000000000],
   [812743883615744#10000000000000000; 1806481606948574#10000000000000000; 2606106964029354#10000000000000000; 3123470770400029#10000000000000000; 3302393550012598#10000000000000000; 3123470770400028#10000000000000000; 2606106964029355#10000000000000000; 1806481606948574#10000000000000000; 812743883615744#10000000000000000]).
Definition G10 : list Q * list Q :=
  ([-97390653#100000000; -86506337#100000000; -67940957#100000000; -43339539#100000000; -14887434#100000000; 14887434#100000000; 43339539#100000000; 67940957#100000000; 86506337#100000000; 97390653#100000000],
   [6667134#100000000; 14945135#100000000; 21908636#100000000; 26926672#100000000; 29552422#100000000; 29552422#100000000; 26926672#100000000; 21908636#100000000; 14945135#100000000; 6667134#100000000]).
Inductive which := Coord | Weight.
Definition sel (g : list Q * list Q) (i : which) : list Q := match i with Coord => fst g | Weight => snd g end.
(** GaussQuadrature.C:199-218, getGauss; None is the null pointer. *)
Definition getGauss (n : nat) (i : which) : option (list Q) :=
  match n with
  | 0%nat => Some (sel G1 Coord)
  | 1%nat => Some (sel G1 i)
  | 2%nat => Some (sel G2 i)
  | 3%nat => Some (sel G3 i)
  | 4%nat => Some (sel G4 i)
  | 5%nat => Some (sel G5 i)
  | 6%nat => Some (sel G6 i)
  | 7%nat => Some (sel G7 i)
  | 8%nat => Some (sel G8 i)
  | 9%nat => Some (sel G9 i)
  | 10%nat => Some (sel G10 i)
  | _ => None
  end.

(** TriangleQuadrature.C:18-49: pairs of area coordinates, and weights. *)
Definition T1 : list (Q * Q) := [(3333333333333333#10000000000000000, 3333333333333333#10000000000000000)].
Definition W1 : list Q := [1].
Definition T3 : list (Q * Q) := [(5#10, 5#10); (5#10, 5#10); (0, 5#10)].
Definition W3 : list Q := [3333333333333333#10000000000000000; 3333333333333333#10000000000000000; 3333333333333333#10000000000000000].
Definition T4 : list (Q * Q) :=
  [(3333333333333333#10000000000000000, 3333333333333333#10000000000000000); (6#10, 2#10); (2#10, 6#10); (2#10, 2#10)].
Definition W4 : list Q := [-5625#10000; 5208333333333333#10000000000000000; 5208333333333333#10000000000000000; 5208333333333333#10000000000000000].
(** TriangleQuadrature.C:60-83. *)
Definition triCoord (n : nat) : option (list (Q * Q)) :=
  match n with 0%nat | 1%nat => Some T1 | 3%nat => Some T3 | 4%nat => Some T4 | _ => None end.
Definition triWeight (n : nat) : option (list Q) :=
  match n with 0%nat | 1%nat => Some W1 | 3%nat => Some W3 | 4%nat => Some W4 | _ => None end.
Local Close Scope Q_scope.

Local Open Scope R_scope.
(** The sum over the points of an integrand f in an element of length 2 (the loops over
    the Gauss points, e.g. src/ASM/ASMs1D.C integrate); None: rule not available. *)
Fixpoint qsum {A : Type} (xs : list A) (ws : list Q) (f : A -> R) : R :=
  match xs, ws with
  | x :: xr, w :: wr => Q2R w * f x + qsum xr wr f
  | _, _ => 0
  end.
Definition gauss (n : nat) (f : R -> R) : option R :=
  match getGauss n Coord, getGauss n Weight with
  | Some xs, Some ws => Some (qsum xs ws (fun x => f (Q2R x)))
  | _, _ => None
  end.
(** The tensor product rule (e.g. src/ASM/ASMs2D.C integrate, n points in both directions). *)
Definition gauss2 (n : nat) (f : R -> R -> R) : option R :=
  match getGauss n Coord, getGauss n Weight with
  | Some xs, Some ws => Some (qsum xs ws (fun y => qsum xs ws (fun x => f (Q2R x) (Q2R y))))
  | _, _ => None
  end.
(** src/ASM/ASMs2DTri.C:264-285: the sum over the points of one element with the Jacobian
    determinant detJ; f takes the area coordinates. *)
Definition triangle (n : nat) (detJ : R) (f : R -> R -> R) : option R :=
  match triCoord n, triWeight n with
  | Some xs, Some ws => Some (qsum xs ws (fun p => 1/2 * detJ * f (Q2R (fst p)) (Q2R (snd p))))
  | _, _ => None
  end.
(** src/ASM/ASMs2DTri.C:129-140: the basis functions of the triangle with three nodes. *)
Definition triBasis (i : nat) (a1 a2 : R) : R := match i with 1%nat => a1 | 2%nat => a2 | _ => 1 - a1 - a2 end.
