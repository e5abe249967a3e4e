(** Specification of the coordinate mapping of finite elements: what C86-C89 mean.

    An element has nen basis functions N_n of the parameters u_1,...,u_d.  The
    element coordinates are X i n (coordinate i of node n); the geometry is
    x_i(u) = Sum_n X i n * N_n(u).  All derivatives are taken at one point. *)
From Coq Require Import Reals List Arith.
From Verif Require Import Map_model.
Local Open Scope R_scope.

(** f(1) + ... + f(n). *)
Definition Sig (n : nat) (f : nat -> R) : R := fold_right Rplus 0 (map f (seq 1 n)).
(** i is one of 1,...,n. *)
Definition within (n i : nat) : Prop := (1 <= i <= n)%nat.
Definition delta (i j : nat) : R := if (i =? j)%nat then 1 else 0.

(** The derivatives of the geometry: dx_i/du_a and d2x_i/(du_a du_b). *)
Definition dxdu (nen : nat) (X dNdu : mat) : mat :=
  fun i a => Sig nen (fun n => X i n * dNdu n a).
Definition d2xdu2 (nen : nat) (X : mat) (d2Ndu2 : mat3) : mat3 :=
  fun i a b => Sig nen (fun n => X i n * d2Ndu2 n a b).

(** Curves, surfaces in the plane, volumes. *)
Definition dim123 (d : nat) : Prop := d = 1%nat \/ d = 2%nat \/ d = 3%nat.

(** The determinant of a d x d matrix, d = 1, 2, 3 (the rule of Sarrus). *)
Definition determinant (d : nat) (A : mat) : R :=
  match d with
  | 1%nat => A.[1,1]
  | 2%nat => A.[1,1] * A.[2,2] - A.[1,2] * A.[2,1]
  | 3%nat => A.[1,1] * A.[2,2] * A.[3,3] + A.[1,2] * A.[2,3] * A.[3,1]
           + A.[1,3] * A.[2,1] * A.[3,2] - A.[1,3] * A.[2,2] * A.[3,1]
           - A.[1,2] * A.[2,1] * A.[3,3] - A.[1,1] * A.[2,3] * A.[3,2]
  | _ => 0
  end.

(** The mapping is regular for the code: the determinant is not tiny (and not -999,
    which the code takes for an error). *)
Definition regular (d : nat) (J : mat) : Prop :=
  / 1000000000000 < Rabs (determinant d J) /\ determinant d J <> -999.

(** B is the inverse of the d x d matrix A. *)
Definition is_inverse (d : nat) (A B : mat) : Prop :=
  forall i j, within d i -> within d j ->
    Sig d (fun k => A i k * B k j) = delta i j /\ Sig d (fun k => B i k * A k j) = delta i j.

(** The chain rules that determine the derivatives with respect to x:
    dN/du_a = Sum_i dN/dx_i * dx_i/du_a, and so on. *)
Definition chain1 (d nen : nat) (J dNdu dNdX : mat) : Prop :=
  forall n a, within nen n -> within d a ->
    dNdu n a = Sig d (fun i => dNdX n i * J i a).
Definition chain2 (d nen : nat) (J : mat) (H : mat3) (d2Ndu2 : mat3) (dNdX : mat) (d2NdX2 : mat3) : Prop :=
  forall n a b, within nen n -> within d a -> within d b ->
    d2Ndu2 n a b
    = Sig d (fun i => Sig d (fun j => d2NdX2 n i j * (J i a * J j b))) + Sig d (fun i => dNdX n i * H i a b).
(** The third order rule, when the second derivatives of the geometry vanish. *)
Definition chain3affine (d nen : nat) (J : mat) (d3Ndu3 d3NdX3 : mat4) : Prop :=
  forall n a b c, within nen n -> within d a -> within d b -> within d c ->
    d3Ndu3 n a b c
    = Sig d (fun i => Sig d (fun j => Sig d (fun k => d3NdX3 n i j k * (J i a * J j b * J k c)))).

Definition symmetric2 (d nen : nat) (D : mat3) : Prop :=
  forall n a b, within nen n -> within d a -> within d b -> D n a b = D n b a.
Definition symmetric3 (d nen : nat) (D : mat4) : Prop :=
  forall n a b c, within nen n -> within d a -> within d b -> within d c ->
    D n a b c = D n b a c /\ D n a b c = D n a c b.

(** Vectors in space. *)
Definition dot (a b : vec3) : R := vx a * vx b + vy a * vy b + vz a * vz b.
Definition norm (a : vec3) : R := sqrt (dot a a).
(** The vector product. *)
Definition wedge (a b : vec3) : vec3 :=
  V3 (vy a * vz b - vz a * vy b) (vz a * vx b - vx a * vz b) (vx a * vy b - vy a * vx b).
(** The tangent dx/du_a of a geometry in 2 and 3 dimensions. *)
Definition tangent2 (J : mat) (a : nat) : vec3 := V3 (J 1%nat a) (J 2%nat a) 0.
Definition tangent3 (J : mat) (a : nat) : vec3 := V3 (J 1%nat a) (J 2%nat a) (J 3%nat a).
(** A length that the code does not take for zero. *)
Definition noticeable (l : R) : Prop := / 10000000000000000 < l.

(** The derivatives of functions of u in direction a, when J changes with the
    rate H: J and its changes along the line u + t e_a. *)
Definition moved (J : mat) (H : mat3) (a : nat) (t : R) : mat := fun i b => J i b + t * H i b a.

(** The pairs (i,j) in the order in which the second derivatives are stored in a
    matrix with one column for each pair. *)
Definition voigt (d : nat) : list (nat * nat) :=
  match d with
  | 1%nat => (1, 1) :: nil
  | 2%nat => (1, 1) :: (2, 2) :: (1, 2) :: nil
  | 3%nat => (1, 1) :: (2, 2) :: (3, 3) :: (1, 2) :: (1, 3) :: (2, 3) :: nil
  | _ => nil
  end%nat.
