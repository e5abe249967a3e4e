(** Model of the equation numbering of a graph-partitioned model.

    Source: src/ASM/DomainDecomposition.C:923-974 (calcGlobalEqNumbersPart) and 977-993
    (getGlobalEq).  The processes run one after the other (each one starts by
    receiving the vectors of the previous one), so the execution is a fold over the
    processes in rank order.  An access outside MLGEQ is undefined: None. *)
From Coq Require Import ZArith List Bool.
Import ListNotations.
Local Open Scope Z_scope.

(** src/ASM/DomainDecomposition.h:288-297, struct BlockInfo: MLGEQ, minEq, maxEq, localEqs. *)
Record blk := { mlgeq : list Z; minEq : Z; maxEq : Z; localEqs : list Z }.

(** Assignment to one entry of a vector. *)
Fixpoint upd (l : list Z) (i : nat) (v : Z) : list Z :=
  match l, i with
  | [], _ => []
  | _ :: t, O => v :: t
  | x :: t, S j => x :: upd t j v
  end.

(** Lines 929-933: the start values. *)
Definition freshBlk (neq : nat) (loc : list Z) : blk :=
  {| mlgeq := repeat (-1) neq; minEq := 1; maxEq := 0; localEqs := loc |}.

(** Lines 935-940: what is received from the previous process. *)
Definition recvBlk (prev b : blk) : blk :=
  {| mlgeq := mlgeq prev; minEq := maxEq prev + 1; maxEq := maxEq prev; localEqs := localEqs b |}.

(** Lines 948-952: one equation in block number b. *)
Definition numberEq (first : bool) (eq : Z) (b : blk) : option blk :=
  let beq := if negb first && negb (existsb (Z.eqb eq) (localEqs b)) then 0 else eq in
  if 0 <? beq then
    match nth_error (mlgeq b) (Z.to_nat (beq - 1)) with
    | None => None
    | Some v => if v =? -1 then
        Some {| mlgeq := upd (mlgeq b) (Z.to_nat (beq - 1)) (maxEq b + 1);
                minEq := minEq b; maxEq := maxEq b + 1; localEqs := localEqs b |}
      else Some b
    end
  else Some b.

(** Line 947: all blocks, the first one takes every equation. *)
Fixpoint numberBlocks (first : bool) (eq : Z) (bs : list blk) : option (list blk) :=
  match bs with
  | [] => Some []
  | b :: t => match numberEq first eq b with
              | None => None
              | Some b' => match numberBlocks false eq t with
                           | None => None
                           | Some t' => Some (b' :: t')
                           end
              end
  end.

(** Lines 943-955: all equations of all elements (meen lists concatenated by the loops). *)
Fixpoint numberAll (eqs : list Z) (bs : list blk) : option (list blk) :=
  match eqs with
  | [] => Some bs
  | e :: t => match numberBlocks true e bs with None => None | Some bs' => numberAll t bs' end
  end.
Definition numberElms (elms : list (list Z)) (bs : list blk) : option (list blk) :=
  numberAll (concat elms) bs.

(** Lines 928-962: one process; prev is what process p-1 sent (None on process 0). *)
Definition runProc (neq : nat) (locs : list (list Z)) (prev : option (list blk))
  (elms : list (list Z)) : option (list blk) :=
  let fresh := map (freshBlk neq) locs in
  numberElms elms
    (match prev with None => fresh | Some ps => map (fun pb => recvBlk (fst pb) (snd pb)) (combine ps fresh) end).

(** All processes in rank order: the blocks each of them ends with.  The sets localEqs
    are the same on all processes (they come from the common model). *)
Fixpoint runProcs (neq : nat) (locs : list (list Z)) (prev : option (list blk))
  (procs : list (list (list Z))) : option (list (list blk)) :=
  match procs with
  | [] => Some []
  | p :: rest => match runProc neq locs prev p with
                 | None => None
                 | Some bs => match runProcs neq locs (Some bs) rest with
                              | None => None
                              | Some r => Some (bs :: r)
                              end
                 end
  end.

(** Lines 964-967, MPI_Bcast: every process gets the MLGEQ of the last one. *)
Definition bcast (res : list (list blk)) : list (list Z) :=
  match rev res with [] => [] | bs :: _ => map mlgeq bs end.

(** Lines 968-970: G2LEQ of the first block, an association list (last assignment first). *)
Fixpoint g2lLoop (i : Z) (l : list Z) (m : list (Z * Z)) : list (Z * Z) :=
  match l with
  | [] => m
  | v :: t => g2lLoop (i + 1) t (if v =? -1 then m else (v, i + 1) :: m)
  end.
Definition g2leq (ml : list Z) : list (Z * Z) := g2lLoop 0 ml [].
(** Access to a key of the map. *)
Fixpoint lookup (k : Z) (m : list (Z * Z)) : option Z :=
  match m with
  | [] => None
  | (a, v) :: t => if a =? k then Some v else lookup k t
  end.

(** Lines 977-993, getGlobalEq of a process: mls are its MLGEQ vectors, maxs its maxEq. *)
Definition getGlobalEq (mls : list (list Z)) (maxs : list Z) (lEq : Z) (idx : nat) : Z :=
  if (lEq <? 1) || (length mls <=? idx)%nat then 0
  else match nth 0 mls [] with
  | [] => if nth idx maxs 0 <? lEq then 0 else lEq
  | _ => match nth idx mls [] with
         | [] => 0
         | ml => if Z.of_nat (length ml) <? lEq then 0 else nth (Z.to_nat (lEq - 1)) ml 0
         end
  end.
