(** Specification of the numbering of a graph-partitioned model (C92). *)
From Coq Require Import ZArith List Bool.
Import ListNotations.
Local Open Scope Z_scope.

(** The equations that count for a block: all positive ones for the first block, those
    of its own set for the others. *)
Definition counts (first : bool) (loc : list Z) (e : Z) : Prop := 0 < e /\ (first = false -> In e loc).

(** Equation e belongs to an element of the process. *)
Definition meets (elms : list (list Z)) (e : Z) : Prop := exists el, In el elms /\ In e el.

(** Process p is the first one that has the equation. *)
Definition owner (procs : list (list (list Z))) (p : nat) (e : Z) : Prop :=
  (p < length procs)%nat /\ meets (nth p procs []) e /\ forall q, (q < p)%nat -> ~ meets (nth q procs []) e.

(** All element equations are equations of the model. *)
Definition valid (neq : nat) (procs : list (list (list Z))) : Prop :=
  forall p e, In p procs -> meets p e -> e <= Z.of_nat neq.
