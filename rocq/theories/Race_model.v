(** Model of an OpenMP parallel loop over the threads of one thread group, e.g.
    src/ASM/ASMs2D.C:1776-1790 ([#pragma omp parallel for] over the threads of a
    group, each thread running through its own element list and calling
    [glInt.assemble]), where an assembled value is added by a non-atomic
    read-modify-write [A(i,j) += v] (src/LinAlg/SparseMatrix.C assemSparse,
    src/LinAlg/SAM.C assembleRHS).

    Simplifications: sequentially consistent interleaving of loads and stores;
    values are exact rationals; a thread's program is the flat list of its
    updates, which do not depend on the memory they update. *)
From Coq Require Import List Arith ZArith QArith Qcanon.
Import ListNotations.

Section Race.
Context {cell : Type} (ceq : forall a b : cell, {a = b} + {a <> b}).

Definition mem := cell -> Qc.
Definition mupd (m : mem) (c : cell) (v : Qc) : mem :=
  fun c' => if ceq c' c then v else m c'.

(** [tpend]: a value computed from a load that is not stored yet, as (cell,
    increment, value to store); [ttodo]: the remaining updates [cell += increment] *)
Record thread := mkT { tpend : option (cell * Qc * Qc); ttodo : list (cell * Qc) }.

Inductive tstep : mem -> thread -> mem -> thread -> Prop :=
| t_load m c d r : tstep m (mkT None ((c,d)::r)) m (mkT (Some (c,d,(m c + d)%Qc)) r)
| t_store m c d v r : tstep m (mkT (Some (c,d,v)) r) (mupd m c v) (mkT None r).

(** one step of any one thread *)
Inductive pstep : mem * list thread -> mem * list thread -> Prop :=
| p_step m m' l1 t t' l2 : tstep m t m' t' ->
    pstep (m, l1 ++ t :: l2) (m', l1 ++ t' :: l2).

(** any number of steps, threads interleaved arbitrarily *)
Inductive run : mem * list thread -> mem * list thread -> Prop :=
| run_refl s : run s s
| run_step s1 s2 s3 : pstep s1 s2 -> run s2 s3 -> run s1 s3.

Definition start (progs : list (list (cell * Qc))) : list thread := map (mkT None) progs.
Definition done (ts : list thread) : Prop := Forall (fun t => t = mkT None []) ts.

(** the sum of all increments of a cell in a list of updates *)
Definition total (c : cell) (l : list (cell * Qc)) : Qc :=
  fold_right (fun p s => if ceq (fst p) c then (snd p + s)%Qc else s) 0%Qc l.
End Race.
