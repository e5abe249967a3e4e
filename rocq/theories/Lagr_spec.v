(** Vocabulary of the statements about the Lagrange basis. *)
From Coq Require Import List Arith Reals.
From Verif Require Import RPoly.
Import ListNotations.
Open Scope R_scope.

(** [f] is the [k]-th Lagrange basis polynomial of the points [xs]: of degree less than
    the number of points, 1 at the [k]-th point and 0 at all others *)
Definition IsLagrange (xs : list R) (k : nat) (f : R -> R) : Prop :=
  PolyFn (length xs) f /\
  forall j, (j < length xs)%nat -> f (nth j xs 0) = if (j =? k)%nat then 1 else 0.

(** number of basis functions of a direction: one (the constant) when the direction has no points *)
Definition nfun (xs : list R) : nat := Nat.max 1 (length xs).

(** [f] lists the basis functions of one direction: the Lagrange polynomials, or the constant 1 *)
Definition IsBasis (xs : list R) (f : nat -> R -> R) : Prop :=
  match xs with
  | [] => forall x, f 0%nat x = 1
  | _ => forall k, (k < length xs)%nat -> IsLagrange xs k (f k)
  end.

(** triple sum over the nodes *)
Definition sum3 (n1 n2 n3 : nat) (g : nat -> nat -> nat -> R) : R :=
  rsum (map (fun k => rsum (map (fun j => rsum (map (fun i => g i j k) (seq 0 n1))) (seq 0 n2))) (seq 0 n3)).

(** position of node (i,j,k) in a nodal array: the first direction runs fastest *)
Definition npos (n1 n2 i j k : nat) : nat := (i + n1 * (j + n2 * k))%nat.

(** [q] is a polynomial of degree less than [n1], [n2], [n3] in its three arguments *)
Definition PolyFn3 (n1 n2 n3 : nat) (q : R -> R -> R -> R) : Prop :=
  (forall y z, PolyFn n1 (fun x => q x y z)) /\
  (forall x z, PolyFn n2 (fun y => q x y z)) /\
  (forall x y, PolyFn n3 (fun z => q x y z)).

(** [n] equidistant points from -1 to 1 *)
Definition equidistant (n : nat) : list R := map (fun i => -1 + 2 * INR i / INR (n - 1)) (seq 0 n).

(** [x] lies between the first and the last point of a direction (always, when it has no points) *)
Definition InRange (xs : list R) (x : R) : Prop := xs = [] \/ nth 0 xs 0 <= x <= last xs 0.

(** the interpolation points used for [p] equidistant points; a single "equidistant" point has no
    position (the code computes 0/0), and the result is as if it were the evaluation point itself *)
Definition ipts (p : nat) (x : R) : list R := if (p =? 1)%nat then [x] else equidistant p.
