(** Specification-level notions for dense matrices: a matrix is a function of two indices. *)
From Coq Require Import List Arith ZArith QArith Qcanon Bool Lia.
From Verif Require Import Base QcLra Mat_model.
Import ListNotations.
Local Open Scope Qc_scope.

(** [m] is an r x c matrix with entries [f i j] (0-based), stored column by column *)
Definition isMat (r c : nat) (f : nat -> nat -> Qc) (m : mat) : Prop :=
  d1 m = r /\ d2 m = c /\ ((d3 m = 1 /\ d4 m = 1)%nat \/ (r = 0 /\ c = 0)%nat) /\
  length (elem m) = (r * c)%nat /\
  forall i j, (i < r)%nat -> (j < c)%nat -> nth (i + r * j) (elem m) 0 = f i j.
(** three- and four-dimensional matrices *)
Definition isMat3 (n1 n2 n3 : nat) (f : nat -> nat -> nat -> Qc) (m : mat) : Prop :=
  d1 m = n1 /\ d2 m = n2 /\ d3 m = n3 /\ d4 m = 1%nat /\ length (elem m) = (n1 * n2 * n3)%nat /\
  forall i j k, (i < n1)%nat -> (j < n2)%nat -> (k < n3)%nat -> nth (i + n1 * (j + n2 * k)) (elem m) 0 = f i j k.
Definition isMat4 (n1 n2 n3 n4 : nat) (f : nat -> nat -> nat -> nat -> Qc) (m : mat) : Prop :=
  d1 m = n1 /\ d2 m = n2 /\ d3 m = n3 /\ d4 m = n4 /\ length (elem m) = (n1 * n2 * n3 * n4)%nat /\
  forall i j k l, (i < n1)%nat -> (j < n2)%nat -> (k < n3)%nat -> (l < n4)%nat ->
    nth (i + n1 * (j + n2 * (k + n3 * l))) (elem m) 0 = f i j k l.
(** the sum f 0 + ... + f (n-1) *)
Definition sumTo (n : nat) (f : nat -> Qc) : Qc := qs f (seq 0 n).
(** a vector as a function *)
Definition isVec (n : nat) (f : nat -> Qc) (v : list Qc) : Prop := length v = n /\ forall i, (i < n)%nat -> nth i v 0 = f i.
(** transposition of the entries *)
Definition flip (t : bool) (f : nat -> nat -> Qc) : nat -> nat -> Qc := if t then fun i j => f j i else f.
Definition delta (i j : nat) : Qc := if (i =? j)%nat then 1 else 0.
(** the determinant, by expansion along the first row *)
Fixpoint detOf (n : nat) (f : nat -> nat -> Qc) : Qc :=
  match n with
  | O => 1
  | S k => sumTo n (fun j => (if Nat.even j then 1 else - (1)) * f 0%nat j *
                            detOf k (fun a b => f (S a) (if (b <? j)%nat then b else S b)))
  end.
(** the matrix product of an m x k and a k x n matrix of functions *)
Definition prodOf (k : nat) (f g : nat -> nat -> Qc) : nat -> nat -> Qc := fun i j => sumTo k (fun l => f i l * g l j).
