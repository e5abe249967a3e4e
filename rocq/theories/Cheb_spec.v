(** Vocabulary of the statements about Chebyshev polynomials. *)
From Coq Require Import List Arith Reals.
From Verif Require Import RPoly Cheb_model.
Import ListNotations.
Open Scope R_scope.

(** the Chebyshev polynomials of the first and second kind, by their defining property *)
Definition IsCheb1 (n : nat) (f : R -> R) : Prop :=
  PolyFn (S n) f /\ forall t, f (cos t) = cos (INR n * t).
Definition IsCheb2 (n : nat) (f : R -> R) : Prop :=
  PolyFn (S n) f /\ forall t, f (cos t) * sin t = sin (INR (S n) * t).

(** triple sum over the coefficients *)
Definition csum3 (n1 n2 n3 : nat) (g : nat -> nat -> nat -> R) : R :=
  rsum (map (fun k => rsum (map (fun j => rsum (map (fun i => g i j k) (seq 0 n1))) (seq 0 n2))) (seq 0 n3)).

(** position of coefficient (i,j,k): the first direction runs fastest *)
Definition cpos (n1 n2 i j k : nat) : nat := (i + n1 * (j + n2 * k))%nat.

(** the affine map from the interval [a,b] to [-1,1] *)
Definition toref (ab : R * R) (x : R) : R := -1 + 2 * (x - fst ab) / (snd ab - fst ab).

(** the point [X] with coordinate [c] (0, 1 or 2) replaced by [t] *)
Definition upd (X : nat -> R) (c : nat) (t : R) : nat -> R := fun d => if (d =? c)%nat then t else X d.

(** a reference coordinate where the second derivative is not replaced by its end point value *)
Definition off_ends (x : R) : Prop := x = 1 \/ x = -1 \/ (/ 1000000 <= Rabs (x - 1) /\ / 1000000 <= Rabs (1 + x)).

(** a function as read from an input: at least one coefficient in each direction, all coefficients present,
    and a domain of nonzero extent in each direction along which the function varies *)
Definition cheb_valid (F : chebF) : Prop :=
  (forall c, (c < 3)%nat -> (1 <= cn F c)%nat) /\
  length (ccoef F) = (cn F 0 * cn F 1 * cn F 2)%nat /\
  (forall c, (c < 3)%nat -> cn F c = 1%nat \/ fst (cdom F c) <> snd (cdom F c)).
