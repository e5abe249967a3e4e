(** Vocabulary of the statements about Legendre polynomials and quadrature rules. *)
From Coq Require Import List Arith Reals.
From Verif Require Import RPoly.
Import ListNotations.
Open Scope R_scope.

(** [f] is the Legendre polynomial of degree [n]: orthogonal on [-1,1] to every polynomial of smaller
    degree, with value 1 at 1 *)
Definition IsLegendre (n : nat) (f : R -> R) : Prop :=
  PolyFn (S n) f /\ f 1 = 1 /\ forall g, PolyFn n g -> Integ (fun x => f x * g x) 0.

(** the quadrature rule with points [xs] and weights [ws] integrates every polynomial of degree less than [m] exactly *)
Definition ExactRule (m : nat) (ws xs : list R) : Prop :=
  length ws = length xs /\
  forall q, PolyFn m q -> Integ q (rsum (map (fun i => nth i ws 0 * q (nth i xs 0)) (seq 0 (length xs)))).

(** [l] is an eigenvalue of the matrix of order [n] with entries [A i j], 1 <= i,j <= n *)
Definition IsEigenvalue (n : nat) (A : nat -> nat -> R) (l : R) : Prop :=
  exists v : nat -> R, (exists i, (1 <= i <= n)%nat /\ v i <> 0) /\
  forall i, (1 <= i <= n)%nat -> rsum (map (fun j => A i j * v j) (seq 1 n)) = l * v i.

(** the points of the Gauss-Lobatto-Legendre rule with [n] points: distinct, the end points of the interval
    and the extrema of the Legendre polynomial of degree n-1 *)
Definition IsGLL (n : nat) (xs : list R) : Prop :=
  length xs = n /\ NoDup xs /\ nth 0 xs 0 = -1 /\ nth (n - 1) xs 0 = 1 /\
  forall f i, IsLegendre (n - 1) f -> (0 < i < n - 1)%nat ->
    -1 < nth i xs 0 < 1 /\ derivable_pt_lim f (nth i xs 0) 0.

(** [ev] lists the eigenvalues of a matrix of order [n]: [n] numbers, namely exactly the eigenvalues *)
Definition AllEig (n : nat) (A : nat -> nat -> R) (ev : list R) : Prop :=
  length ev = n /\ forall l, In l ev <-> IsEigenvalue n A l.
