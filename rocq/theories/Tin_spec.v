(** Specification of the time integrators (C95-C98). *)
From Coq Require Import QArith Reals Qreals List Bool.
From Verif Require Import Tin_model.
Import ListNotations.

(** Finite sums. *)
Fixpoint sumQ (n : nat) (f : nat -> Q) : Q := match n with O => 0%Q | S m => (sumQ m f + f m)%Q end.
Fixpoint sumR (n : nat) (f : nat -> R) : R := match n with O => 0%R | S m => (sumR m f + f m)%R end.

(** Rooted trees: one vertex, or a tree with another one grafted onto its root. *)
Inductive tree := Dot | Graft (t s : tree).
Fixpoint size (t : tree) : nat := match t with Dot => 1 | Graft t s => size t + size s end.
(** The density: the product of the sizes of all subtrees (a vertex with everything above). *)
Fixpoint above (t : tree) : nat := match t with Dot => 1 | Graft t s => above t * (size s * above s) end.
Definition density (t : tree) : nat := size t * above t.

(** The elementary weights of a method with s stages, coefficients A (from 1), and
    Butcher's conditions for order p. *)
Section Trees.
Local Open Scope Q_scope.
Fixpoint phi (s : nat) (A : nat -> nat -> Q) (t : tree) (i : nat) : Q :=
  match t with
  | Dot => 1
  | Graft t u => phi s A t i * sumQ s (fun j => A i (S j) * phi s A u (S j))
  end.
Definition has_order (p : nat) (T : tableau) (b : list Q) : Prop :=
  forall t, (size t <= p)%nat ->
    sumQ (length b) (fun i => nth i b 0 * phi (length b) (entry (tA T)) t (S i)) == 1 / inject_Z (Z.of_nat (density t)).
(** The time of a stage is the sum of its coefficients. *)
Definition row_sums (T : tableau) : Prop :=
  forall i, (i < length (tb T))%nat -> nth i (tc T) 0 == sumQ (length (tb T)) (fun j => entry (tA T) (S i) (S j)).
End Trees.

Local Open Scope R_scope.
(** A Runge-Kutta step from time t0 with size h for u' = f(t,u), states corrected by bc. *)
Definition is_rk_step (T : tableau) (f : R -> V -> V) (bc : R -> V -> V) (u : V) (t0 h : R) (u' : V) : Prop :=
  exists k : nat -> V,
    (forall i, (i < length (tb T))%nat ->
       k i = f (t0 + Q2R (nth i (tc T) 0%Q) * h)
               (bc (t0 + Q2R (nth i (tc T) 0%Q) * h)
                  (fun d => u d + h * sumR (length (tb T)) (fun j => Q2R (entry (tA T) (S i) (S j)) * k j d)))) /\
    u' = bc (t0 + h) (fun d => u d + h * sumR (length (tb T)) (fun i => Q2R (nth i (tb T) 0%Q) * k i d)).
(** The same stages with other weights. *)
Definition is_rk_pair (T : tableau) (bs : list Q) (f : R -> V -> V) (bc : R -> V -> V) (u : V) (t0 h : R) (u' v' : V) : Prop :=
  exists k : nat -> V,
    (forall i, (i < length (tb T))%nat ->
       k i = f (t0 + Q2R (nth i (tc T) 0%Q) * h)
               (bc (t0 + Q2R (nth i (tc T) 0%Q) * h)
                  (fun d => u d + h * sumR (length (tb T)) (fun j => Q2R (entry (tA T) (S i) (S j)) * k j d)))) /\
    u' = bc (t0 + h) (fun d => u d + h * sumR (length (tb T)) (fun i => Q2R (nth i (tb T) 0%Q) * k i d)) /\
    v' = bc (t0 + h) (fun d => u d + h * sumR (length (tb T)) (fun i => Q2R (nth i bs 0%Q) * k i d)).
(** A method that can be computed stage by stage. *)
Definition explicit (T : tableau) : Prop := forall i j, (i < length (tb T))%nat -> (i <= j)%nat -> (entry (tA T) (S i) (S j) == 0)%Q.

(** Coefficient of the value i steps back in a list that has the newest last. *)
Definition back (coefs : list Q) (i : nat) : Q := nth (length coefs - 1 - i) coefs 0%Q.

(** One vector that is the same in all DOFs. *)
Definition const (x : R) : V := fun _ => x.

(** Histories: time and solution, the newest first. *)
Definition hget (H : list (R * V)) (i : nat) : R * V := nth i H (0, vzero).
(** The load of an entry of the history. *)
Definition hload (rhs : R -> V -> V) (H : list (R * V)) (i : nat) : V := rhs (fst (hget H i)) (snd (hget H i)).
(** One step of the Adams-Bashforth method with at most k levels: as many levels as the
    history has. *)
Definition abNext (k : nat) (rhs : R -> V -> V) (msolve : V -> V) (bc : R -> V -> V) (H : list (R * V)) (dt : R) : R * V :=
  let m := Nat.min k (length H) in
  let t := fst (hget H 0) + dt in
  (t, bc t (fun d => snd (hget H 0) d +
        msolve (fun e => dt * sumR m (fun i => Q2R (back (nth (m - 1) AB_coefs []) i) * hload rhs H i e)) d)).
Fixpoint abHist (k : nat) (rhs : R -> V -> V) (msolve : V -> V) (bc : R -> V -> V) (H : list (R * V)) (dts : list R) : list (R * V) :=
  match dts with
  | [] => H
  | dt :: r => abHist k rhs msolve bc (abNext k rhs msolve bc H dt :: H) r
  end.
(** The history at the start: the initial conditions of all levels, or of one. *)
Definition abStart (k : nat) (ic : nat -> bool) (t0 dt0 : R) (u : nat -> V) : list (R * V) :=
  if forallb ic (seq 2 (k - 1)) then map (fun j => (t0 - INR j * dt0, u j)) (seq 0 k) else [(t0, u O)].

(** One step of the Adams-Moulton method with at most k levels: the equation that is given
    to the nonlinear solver has the weight of the new load and the sum of the old ones. *)
Definition amNext (k : nat) (rhs : R -> V -> V) (newton : R -> R -> V -> V -> option V) (H : list (R * V)) (dt : R) : option (R * V) :=
  let m := Nat.min k (length H) in
  let beta := back (nth (m - 1) AM_coefs []) in
  let t := fst (hget H 0) + dt in
  option_map (fun u => (t, u))
    (newton t (Q2R (beta O) * dt) (fun d => dt * sumR (m - 1) (fun i => Q2R (beta (S i)) * hload rhs H i d)) (snd (hget H 0))).
(** All steps; true: all are solved. *)
Fixpoint amHist (k : nat) (rhs : R -> V -> V) (newton : R -> R -> V -> V -> option V) (H : list (R * V)) (dts : list R) : list (R * V) * bool :=
  match dts with
  | [] => (H, true)
  | dt :: r => match amNext k rhs newton H dt with None => (H, false) | Some x => amHist k rhs newton (x :: H) r end
  end.
