(** Specification-level notions for the static condensation. *)
From Coq Require Import List Arith ZArith QArith Qcanon Bool Lia Permutation Ascii.
From Verif Require Import Base SAM_model SAM_spec Sparse_model Sparse_spec Mat_model Mat_spec Cond_model.
Import ListNotations.
Local Open Scope nat_scope.

(** the equations of the DOFs of node [n] (1-based), read from the tables *)
Definition dofEqs (s : tables) (n : nat) : list Z :=
  map (fun d => nth (d - 1) (meqn s) 0%Z) (seq (nth (n - 1) (madof s) 0) (nth n (madof s) 0 - nth (n - 1) (madof s) 0)).
(** the nodes exist *)
Definition nodesOK (s : tables) (ext : list Z) : Prop :=
  forall i, In i ext -> (1 <= i <= Z.of_nat (nnod s))%Z /\
    let n := Z.to_nat i in 1 <= nth (n - 1) (madof s) 0 <= nth n (madof s) 0 /\ nth n (madof s) 0 <= ndof s + 1.
(** [l] are the equations of the nodes [ext], in increasing order, all free and different *)
Definition retained (s : tables) (ext l : list Z) : Prop :=
  increasing (neq s) l /\ Permutation l (flat_map (fun i => dofEqs s (Z.to_nat i)) ext).

(** M x = R *)
Definition solves (M : spm) (R x : list Qc) : Prop :=
  length x = ncol M /\
  forall r, 1 <= r <= nrow M -> qs (fun c => val (stored M) r c * nth (c - 1) x 0)%Qc (seq 1 (ncol M)) = nth (r - 1) R 0%Qc.
(** a solver that finds the only solution, or fails *)
Definition goodSolver (solve : spm -> list Qc -> option (list Qc)) : Prop :=
  forall M v x, wf M -> nrow M = ncol M -> length v = nrow M -> solve M v = Some x -> solves M v x /\ forall z, solves M v z -> z = x.

(** the retained and the other unknowns of [x] *)
Definition extPart (l : list Z) (x : list Qc) : list Qc := map (fun e => nth (Z.to_nat e - 1) x 0%Qc) l.
Definition intPart (l : list Z) (n : nat) (x : list Qc) : list Qc :=
  map (fun e => nth (e - 1) x 0%Qc) (filter (fun e => negb (existsb (Z.eqb (Z.of_nat e)) l)) (seq 1 n)).
(** the reduced system holds for [xe] *)
Definition solvesRed (r : reduced) (xe : list Qc) : Prop :=
  let n2 := length (rb r) in
  length xe = n2 /\ forall i, i < n2 -> sumTo n2 (fun j => nth (i + n2 * j) (Mat_model.elem (rA r)) 0 * nth j xe 0)%Qc = nth i (rb r) 0%Qc.
(** the unknowns given by the recovery matrix (columns [cols]) times (1, xe) *)
Definition recovered (cols : list (list Qc)) (xe x1 : list Qc) : Prop :=
  forall k, k < length x1 -> nth k x1 0%Qc = sumTo (length cols) (fun j => nth k (nth j cols []) 0 * nth j (1 :: xe) 0)%Qc.
