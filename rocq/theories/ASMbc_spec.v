(** Specification-level notions for boundary-condition bookkeeping. *)
From Coq Require Import List Sorted Arith ZArith QArith Qcanon Bool Lia.
From Verif Require Import Base MPC_model MPC_spec ASMbc_model.
Import ListNotations.
Local Open Scope Z_scope.

(** [d] is one of the decimal digits of the positive number [num] *)
Definition IsDigit (num d : Z) : Prop := exists k : nat, 10 ^ Z.of_nat k <= num /\ d = (num / 10 ^ Z.of_nat k) mod 10.
(** the code of local DOF [d] in a fixation record is "fixed" *)
Definition fixedIn (b : bc) (d : Z) : Prop :=
  (d = 1 /\ bCX b = false) \/ (d = 2 /\ bCY b = false) \/ (d = 3 /\ bCZ b = false) \/
  (d = 4 /\ bRX b = false) \/ (d = 5 /\ bRY b = false) \/ (d = 6 /\ bRZ b = false).
(** local DOF [d] of global node [n] is fixed *)
Definition Fixed (p : patch) (n d : Z) : Prop := exists b, In b (pBC p) /\ bnode b = n /\ fixedIn b d.
(** the equations, and the slave DOFs *)
Definition eqns (p : patch) : list mpc := map fst (pEQ p).
Definition Slave (p : patch) (n d : Z) : Prop := In (n, d) (slaves (eqns p)).
(** the equation defining a slave DOF, with its property code *)
Definition DefinedBy (p : patch) (n d : Z) (m : mpc) (c : option Z) : Prop :=
  In (m, c) (pEQ p) /\ dkey (mslave m) = (n, d).
(** at most one fixation record per node, at most one equation per slave DOF, which are in
    increasing order *)
Definition wf (p : patch) : Prop := NoDup (map bnode (pBC p)) /\ increasing (mpcLess true) (eqns p).
(** no DOF is both fixed and defined by an equation *)
Definition exclusive (p : patch) : Prop := forall n d, Fixed p n d -> Slave p n d -> False.
(** the field satisfies the fixations and the equations *)
Definition admissible (u : field) (p : patch) : Prop :=
  (forall n d, Fixed p n d -> u (n, d) = 0%Qc) /\ satisfies u (eqns p).
(** no equation has its slave among its masters *)
Definition noSelf (p : patch) : Prop := forall m t, In m (eqns p) -> In t (mmast m) -> dkey t <> dkey (mslave m).
(** everything but the fixation records, respectively but the equations, is the same *)
Definition sameButBC (p q : patch) : Prop := pnf q = pnf p /\ pMLGN q = pMLGN p /\ pnnod q = pnnod p /\ pEQ q = pEQ p.
Definition sameButEQ (p q : patch) : Prop := pnf q = pnf p /\ pMLGN q = pMLGN p /\ pnnod q = pnnod p /\ pBC q = pBC p.
(** the global number of the 1-based local node *)
Definition nodeAt (p : patch) (inod : nat) (g : Z) : Prop := (1 <= inod)%nat /\ nth_error (pMLGN p) (inod - 1) = Some g.

(** the entry of the map of property codes *)
Definition codeOpt (code : Z) : option Z := if 0 <? code then Some code else None.
(** neither fixed nor defined by an equation *)
Definition Fresh (p : patch) (n d : Z) : Prop := ~ Fixed p n d /\ ~ Slave p n d.
(** coefficients of magnitude up to 1.0e-8 count as zero *)
Definition cut8 (c : Qc) : Qc := if Qclt_le_dec tol8 (absv c) then c else 0%Qc.
(** the rotational part of a rigid body motion, theta x dX *)
Definition rotPart (u : field) (g : Z) (dx dy dz : Qc) (d : Z) : Qc :=
  (if d =? 1 then dz * u (g, 5) - dy * u (g, 6)
   else if d =? 2 then dx * u (g, 6) - dz * u (g, 4)
   else if d =? 3 then dy * u (g, 4) - dx * u (g, 5) else 0)%Qc.

(** ** Histories of editing calls *)
Inductive op :=
| OFix (inod : nat) (dirs : Z)
| OPrescribe (inod : nat) (dirs code : Z)
| O2PC (slave dir master code : Z)
| O3PC (slave dir master1 master2 code : Z).
Definition apply (p : patch) (o : op) : option patch :=
  match o with
  | OFix i d => Some (fst (fixNode p i d))
  | OPrescribe i d c => option_map fst (prescribe p i d c false)
  | O2PC s d m c => option_map fst (add2PC p s d m c)
  | O3PC s d m1 m2 c => option_map fst (add3PC p s d m1 m2 c)
  end.
Fixpoint run (p : patch) (os : list op) : option patch :=
  match os with [] => Some p | o :: r => match apply p o with None => None | Some q => run q r end end.
(** what holds in every patch: see [wf], no self-reference, number of fields a digit *)
Definition inv (p : patch) : Prop := wf p /\ noSelf p /\ 0 <= pnf p <= 9.
(** an operation that does not fix DOFs *)
Definition nonFixing (o : op) : Prop := match o with OFix _ _ => False | OPrescribe _ _ c => c <> 0 | _ => True end.
