(** Small specification for the thread group theorems; independent of how the
    groups are computed. *)
From Coq Require Import List Arith Bool.
From Coq Require Import ZArith QArith Qcanon.
From Verif Require Import ThreadGroups_model Race_model.
Import ListNotations.
Local Open Scope nat_scope.

(** coordinate of element [e] in direction [d] of an n1 x n2 x n3 grid *)
Definition coord (d : dir) (n1 n2 e : nat) : nat :=
  match d with
  | U => e mod n1
  | V => (e / n1) mod n2
  | _ => e / (n1 * n2)
  end.
(** number of elements in direction [d] *)
Definition size_in (d : dir) (n1 n2 n3 : nat) : nat :=
  match d with U => n1 | V => n2 | _ => n3 end.
(** all elements over both groups and all threads *)
Definition allElms (g : groups) : list nat := concat (tg0 g) ++ concat (tg1 g).

(** Two strip coordinates are separated by at least [m] whole elements, also when
    the direction is closed (element [els-1] is a neighbour of element 0). *)
Definition sep (els m c1 c2 : nat) : Prop :=
  (c1 < c2 -> m < c2 - c1 /\ c2 - c1 + m < els) /\
  (c2 < c1 -> m < c1 - c2 /\ c1 - c2 + m < els) /\ c1 <> c2.

(** the non-zero-span flags in direction [d] *)
Definition mask_in (d : dir) (el1 el2 el3 : list bool) : list bool :=
  match d with U => el1 | V => el2 | _ => el3 end.

(** number of non-zero spans strictly between positions c1 < c2 of the mask *)
Definition nonzero_between (M : list bool) (c1 c2 : nat) : nat :=
  countTrue (firstn (c2 - S c1) (skipn (S c1) M)).

(** an element of the patch whose knot spans are non-zero in all directions *)
Definition real_elm (el1 el2 el3 : list bool) (e : nat) : Prop :=
  e < length el1 * length el2 * length el3 /\
  forall d, d = U \/ d = V \/ d = W ->
    nth (coord d (length el1) (length el2) e) (mask_in d el1 el2 el3) false = true.

Definition pdir (p1 p2 p3 : nat) (d : dir) : nat := match d with U => p1 | V => p2 | _ => p3 end.

(** Function [f] of the tensor-product spline basis of degrees p1,p2,p3 (numbered
    u-direction first, n+p functions per direction) is non-zero on knot-span
    element [e]: index [c..c+p] in every direction. *)
Definition supp_spline (n1 n2 p1 p2 p3 e f : nat) : Prop :=
  forall d, d = U \/ d = V \/ d = W ->
    coord d n1 n2 e <= coord d (n1+p1) (n2+p2) f <= coord d n1 n2 e + pdir p1 p2 p3 d.

(** Node [f] of a structured grid of Lagrange elements of degrees p1,p2,p3
    belongs to element [e]: index [c*p..(c+1)*p] in every direction. *)
Definition supp_lag (n1 n2 p1 p2 p3 e f : nat) : Prop :=
  forall d, d = U \/ d = V \/ d = W ->
    coord d n1 n2 e * pdir p1 p2 p3 d <= coord d (n1*p1+1) (n2*p2+1) f
      <= (coord d n1 n2 e + 1) * pdir p1 p2 p3 d.

(** System matrix cells are pairs (row function, column function); a right-hand
    side cell of function [f] is any (f,_). *)
Definition cell_eq : forall a b : nat * nat, {a = b} + {a <> b}.
Proof. decide equality; apply Nat.eq_dec. Defined.

(** The parallel assembly loop: the threads of group 0 run to completion in any
    interleaving, then those of group 1.  [upd e] are the additions made when
    element [e] is assembled. *)
Definition par_assembly (upd : nat -> list ((nat*nat)*Qc)) (g : groups)
           (m0 m2 : nat * nat -> Qc) : Prop :=
  exists m1 ts1 ts2,
    run cell_eq (m0, start (map (flat_map upd) (tg0 g))) (m1, ts1) /\ done ts1 /\
    run cell_eq (m1, start (map (flat_map upd) (tg1 g))) (m2, ts2) /\ done ts2.
