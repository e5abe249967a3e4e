(** Specification-level notions for constraint equations. *)
From Coq Require Import List Sorted Permutation Arith ZArith QArith Qcanon Bool Lia.
From Verif Require Import Base MPC_model.
Import ListNotations.
Local Open Scope Z_scope.

(** a DOF is identified by node and local number; [u] gives its value *)
Definition dkey (d : dofT) : Z * Z := (dnode d, dldof d).
Notation field := (Z * Z -> Qc).
(** c0 + c1*m1 + ... + cn*mn *)
Definition rhs (u : field) (m : mpc) : Qc := (dcoef (mslave m) + qs (fun d => dcoef d * u (dkey d)) (mmast m))%Qc.
Definition holds (u : field) (m : mpc) : Prop := u (dkey (mslave m)) = rhs u m.
(** the field satisfies all equations *)
Definition satisfies (u : field) (l : list mpc) : Prop := Forall (holds u) l.
(** the slave DOFs of a list of equations *)
Definition slaves (l : list mpc) : list (Z * Z) := map (fun m => dkey (mslave m)) l.
(** equations can be ordered such that chained masters come before their slave *)
Definition acyclic (l : list mpc) : Prop :=
  exists rank : Z * Z -> nat, forall m d, In m l -> In d (mmast m) -> In (dkey d) (slaves l) ->
    (rank (dkey d) < rank (dkey (mslave m)))%nat.
(** absolute value *)
Definition absv (x : Qc) : Qc := if Qclt_le_dec x 0 then (- x)%Qc else x.
(** the zero tolerance of the code, 1.0e-8 *)
Definition tol8 : Qc := Q2Qc (1 # 100000000).
Definition isInt (c : Qc) : Prop := exists z : Z, c = Q2Qc (inject_Z z).
(** strict weak order *)
Definition strictWeak {X} (lt : X -> X -> bool) : Prop :=
  (forall x, lt x x = false) /\
  (forall x y z, lt x y = true -> lt y z = true -> lt x z = true) /\
  (forall x y z, lt x y = false -> lt y x = false -> lt y z = false -> lt z y = false -> lt x z = false /\ lt z x = false).
(** all coefficients of an equation have property [P] *)
Definition coefs (P : Qc -> Prop) (m : mpc) : Prop := Forall (fun d => P (dcoef d)) (mmast m).

(** a list of equations in strictly increasing order; the order is given by a comparison *)
Definition increasing (lt : option mpc -> option mpc -> bool) (l : list mpc) : Prop :=
  StronglySorted (fun a b => lt (Some a) (Some b) = true) l.
(** equations with a given slave DOF *)
Definition keyEqb (a b : Z * Z) : bool := (fst a =? fst b) && (snd a =? snd b).
Definition withSlave (k : Z * Z) (l : list mpc) : list mpc := filter (fun m => keyEqb (dkey (mslave m)) k) l.
(** [same] lists of terms: equal DOFs and coefficients in the same order *)
Definition sameTerms (a b : list dofT) : Prop := map (fun d => (dkey d, dcoef d)) a = map (fun d => (dkey d, dcoef d)) b.

(** what the definition of one slave DOF becomes when a further patch defines it too: the
    first definition is kept if it prescribes a value or has at most one master, or if the
    other has a constant term or is identical; otherwise all masters are added *)
Definition combineDef (tol : Qc) (x y : mpc) (z : mpc) : Prop :=
  mslave z = mslave x /\
  ((dcoef (mslave x) <> 0%Qc \/ (length (mmast x) <= 1)%nat \/ dcoef (mslave y) <> 0%Qc \/
    Forall2 (fun a b => dkey a = dkey b /\ (absv (dcoef a - dcoef b) < tol)%Qc) (mmast x) (mmast y)) /\ z = x
   \/ (dcoef (mslave x) = 0%Qc /\ (1 < length (mmast x))%nat /\ dcoef (mslave y) = 0%Qc /\
       forall u, rhs u z = (rhs u x + qs (fun d => if Qclt_le_dec tol (absv (dcoef d)) then dcoef d * u (dkey d) else 0) (mmast y))%Qc)).
(** successive combination with a list of further definitions *)
Inductive combined (tol : Qc) : mpc -> list mpc -> mpc -> Prop :=
| comb_nil x : combined tol x [] x
| comb_cons x y z r w : combineDef tol x y z -> combined tol z r w -> combined tol x (y :: r) w.

(** inserting a sequence of equations into a set *)
Definition insertAll (so : bool) (ms l : list mpc) : list mpc := fold_left (fun l m => snd (setInsert so m l)) ms l.
