(** Specification vocabulary: rotations about the coordinate axes, right-handed. *)
From Coq Require Import Reals.
From Verif Require Import Ten_model Ten_spec.
Local Open Scope R_scope.
Definition rotm (axis : nat) (al : R) : mat := fun i j =>
  match axis, i, j with
  | 1, 1, 1 => 1%R | 1, 2, 2 => cos al | 1, 2, 3 => (- sin al)%R | 1, 3, 2 => sin al | 1, 3, 3 => cos al
  | 2, 1, 1 => cos al | 2, 1, 3 => sin al | 2, 2, 2 => 1%R | 2, 3, 1 => (- sin al)%R | 2, 3, 3 => cos al
  | 3, 1, 1 => cos al | 3, 1, 2 => (- sin al)%R | 3, 2, 1 => sin al | 3, 2, 2 => cos al | 3, 3, 3 => 1%R
  | _, _, _ => 0%R
  end%nat.
(** The coordinate axis as a vector of length al. *)
Definition axisvec (axis : nat) (al : R) : vec3 :=
  match axis with 1%nat => V3 al 0 0 | 2%nat => V3 0 al 0 | _ => V3 0 0 al end.
