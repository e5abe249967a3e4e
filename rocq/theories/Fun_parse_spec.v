(** Vocabulary of the statements about the text definitions of scalar functions. *)
From Coq Require Import List Arith Reals String.
From Verif Require Import Lagr_model Fun_model Fun_spec.
Import ListNotations.
Open Scope R_scope.

(** [f] takes the values [A] times those of [g] *)
Definition Scaled (A : R) (f g : rfun) : Prop := forall X v, rf_eval g X = Some v -> rf_eval f X = Some (A * v).
(** the same values everywhere *)
Definition SameFun (f g : rfun) : Prop := forall X, rf_eval f X = rf_eval g X.
(** [v] where the coordinates are within the bounds, zero outside *)
Definition BoxFun (f : rfun) (v : R) (lo hi : nat -> option R) : Prop :=
  forall X, let ok := forall d, (1 <= d <= 3)%nat ->
      (forall b, lo d = Some b -> b <= getc X d) /\ (forall b, hi d = Some b -> getc X d <= b) in
    (ok -> rf_eval f X = Some v) /\ (~ ok -> rf_eval f X = Some 0).
Definition bound1 (d : nat) (b : R) : nat -> option R := fun i => if Nat.eqb i d then Some b else None.
Definition bound12 (b1 b2 : R) : nat -> option R := fun i => match i with 1%nat => Some b1 | 2%nat => Some b2 | _ => None end.
