(** Specification vocabulary for second-order tensors: plain matrices. *)
From Coq Require Import Reals List Bool ZArith.
From Verif Require Import Ten_model.
Import ListNotations.
Local Open Scope R_scope.

(** A matrix by its entries, counted from one. *)
Definition mat := nat -> nat -> R.
Definition meq (n : nat) (A B : mat) : Prop :=
  forall i j, (1 <= i <= n)%nat -> (1 <= j <= n)%nat -> A i j = B i j.
Fixpoint rsum (f : nat -> R) (n : nat) : R :=
  match n with O => 0 | Datatypes.S k => rsum f k + f (Datatypes.S k) end.
Definition mmul (n : nat) (A B : mat) : mat := fun i j => rsum (fun k => A i k * B k j) n.
Definition mtr (A : mat) : mat := fun i j => A j i.
Definition mid : mat := fun i j => if (i =? j)%nat then 1 else 0.
Definition mtrace (n : nat) (A : mat) : R := rsum (fun i => A i i) n.
Definition mdet (n : nat) (A : mat) : R :=
  match n with
  | 1%nat => A 1%nat 1%nat
  | 2%nat => A 1%nat 1%nat * A 2%nat 2%nat - A 1%nat 2%nat * A 2%nat 1%nat
  | 3%nat =>
      A 1%nat 1%nat * A 2%nat 2%nat * A 3%nat 3%nat
    + A 1%nat 2%nat * A 2%nat 3%nat * A 3%nat 1%nat
    + A 1%nat 3%nat * A 2%nat 1%nat * A 3%nat 2%nat
    - A 1%nat 3%nat * A 2%nat 2%nat * A 3%nat 1%nat
    - A 1%nat 2%nat * A 2%nat 1%nat * A 3%nat 3%nat
    - A 1%nat 1%nat * A 2%nat 3%nat * A 3%nat 2%nat
  | _ => 0
  end.
(** The sum of the squares of all entries. *)
Definition frob2 (n : nat) (A : mat) : R := rsum (fun i => rsum (fun j => A i j * A i j) n) n.
Definition ddotm (n : nat) (A B : mat) : R := rsum (fun i => rsum (fun j => A i j * B i j) n) n.
Definition orthogonal (n : nat) (Q : mat) : Prop :=
  meq n (mmul n Q (mtr Q)) mid /\ meq n (mmul n (mtr Q) Q) mid.
(** A proper rotation: orthonormal right-handed columns. *)
Definition rotation (n : nat) (Q : mat) : Prop := orthogonal n Q /\ mdet n Q = 1.

(** The objects the constructors make: a full tensor of dimension 1, 2 or 3, ... *)
Definition full (n : nat) (T : tensor) : Prop :=
  (1 <= n <= 3)%nat /\ tdim T = n /\ tsymm T = false /\ length (tv T) = (n * n)%nat.
(** ... a symmetric one, or a symmetric one of dimension 2 with the 33 component. *)
Definition symmT (n : nat) (T : tensor) : Prop :=
  (1 <= n <= 3)%nat /\ tdim T = n /\ tsymm T = true /\ length (tv T) = Nat.div2 (n * (n + 1)).
Definition symm33 (T : tensor) : Prop :=
  tdim T = 2%nat /\ tsymm T = true /\ length (tv T) = 4%nat.

(** The matrix of a tensor by the documented storage orders: columns for full tensors,
    s11,s22,s33,s12,s23,s13 or s11,s22,s12 or s11,s22,s33,s12 for symmetric ones;
    a missing component is zero. *)
Definition storage (T : tensor) (i j : nat) : option nat :=
  let lo := Nat.min i j in let hi := Nat.max i j in
  if tsymm T then
    match tdim T, length (tv T), lo, hi with
    | 3, _, 1, 1 => Some 0 | 3, _, 2, 2 => Some 1 | 3, _, 3, 3 => Some 2
    | 3, _, 1, 2 => Some 3 | 3, _, 2, 3 => Some 4 | 3, _, 1, 3 => Some 5
    | 2, 4, 1, 1 => Some 0 | 2, 4, 2, 2 => Some 1 | 2, 4, 3, 3 => Some 2 | 2, 4, 1, 2 => Some 3
    | 2, 3, 1, 1 => Some 0 | 2, 3, 2, 2 => Some 1 | 2, 3, 1, 2 => Some 2
    | 1, _, 1, 1 => Some 0
    | _, _, _, _ => None
    end%nat
  else if ((1 <=? lo) && (hi <=? tdim T))%nat then Some (tdim T * (j - 1) + (i - 1))%nat
  else None.
Definition M (T : tensor) : mat := fun i j =>
  match storage T i j with Some k => nth k (tv T) 0 | None => 0 end.

(** A deviator: the matrix minus a third of its trace on the diagonal. *)
Definition dev (A : mat) : mat := fun i j => A i j - (if (i =? j)%nat then mtrace 3 A / 3 else 0).
(** x I - A. *)
Definition shiftm (x : R) (A : mat) : mat := fun i j => (if (i =? j)%nat then x else 0) - A i j.

(** Vectors. *)
Definition dotv (a b : vec3) : R := vx a * vx b + vy a * vy b + vz a * vz b.
Definition col (T : tensor) (j : nat) : vec3 := V3 (M T 1%nat j) (M T 2%nat j) (M T 3%nat j).
(** A nonnegative multiple. *)
Definition along (a b : vec3) : Prop := exists c, 0 < c /\ a = V3 (c * vx b) (c * vy b) (c * vz b).

(** The symmetric matrix with diagonal d and off-diagonal terms 12, 23, 13. *)
Definition symmat (d a : vec3) : mat := fun i j =>
  match i, j with
  | 1, 1 => vx d | 2, 2 => vy d | 3, 3 => vz d
  | 1, 2 | 2, 1 => vx a | 2, 3 | 3, 2 => vy a | 1, 3 | 3, 1 => vz a
  | _, _ => 0%R
  end%nat.

(** A full tensor of dimension 1, 2 or 3 as a 3x3 matrix that leaves the rest alone. *)
Definition ext (T : tensor) : mat := fun i j =>
  if ((i <=? tdim T) && (j <=? tdim T))%nat then M T i j else mid i j.
(** Any symmetric tensor. *)
Definition anysymm (T : tensor) : Prop := (exists n, symmT n T) \/ symm33 T.
(** The upper triangle of a matrix, mirrored. *)
Definition upper (A : mat) : mat := fun i j => A (Nat.min i j) (Nat.max i j).
(** u u^T. *)
Definition dyad (u : vec3) : mat := fun i j => vget u i * vget u j.
