(** Specification of subdomains and orientation (C90, C91). *)
From Coq Require Import ZArith List Bool.
Import ListNotations.
Local Open Scope Z_scope.

(** Subdomain k of g in one direction with nel elements: it starts at a multiple of
    the size minus the overlap, and the last one takes the rest. *)
Definition subSize (nel g : Z) : Z := nel / g + 1.
Definition first_of (nel g ov k : Z) : Z := k * (subSize nel g - ov).
Definition inside (nel g ov k x : Z) : Prop :=
  first_of nel g ov k <= x < nel /\ (k < g - 1 -> x < first_of nel g ov k + subSize nel g).

(** The overlap does not exceed the subdomain size, and the last subdomain does not
    start beyond the end. *)
Definition fits (nel g ov : Z) : Prop :=
  1 <= g < 2 ^ 20 /\ 1 <= nel < 2 ^ 20 /\ 0 <= ov <= subSize nel g /\ first_of nel g ov (g - 1) <= nel.

(** Element numbers of a structured patch (first direction fastest). *)
Definition elem2 (n1 x y : Z) : Z := y * n1 + x.
Definition elem3 (n1 n2 x y z : Z) : Z := (z * n2 + y) * n1 + x.

(** The size of the master's face when the slave's face is d1 x d2. *)
Definition master_size (orient d1 d2 : Z) : Z * Z :=
  if Z.testbit orient 2 then (d2, d1) else (d1, d2).
