(** Specification-level notions for nodal forces and norms. *)
From Coq Require Import List Arith ZArith QArith Qcanon Bool.
From Verif Require Import Base SAM_model Glb_model.
Import ListNotations.
Local Open Scope nat_scope.

(** nodes of element [iel] (1-based), from the tables *)
Definition enodes (s : tables) (iel : Z) : list Z :=
  let ip := nth (Z.to_nat iel - 1) (mpmnpc s) 0 in let jp := nth (Z.to_nat iel) (mpmnpc s) 0 in
  map (fun q => nth (q - 1) (mmnpc s) 0%Z) (seq ip (jp - ip)).
(** number of degrees of freedom of node [n] (1-based) *)
Definition dofCount (s : tables) (n : Z) : nat := nth (Z.to_nat n) (madof s) 0 - nth (Z.to_nat n - 1) (madof s) 0.
(** offset of the [i]-th node in the element vector *)
Definition offset (s : tables) (nodes : list Z) (i : nat) : nat := list_sum (map (dofCount s) (firstn i nodes)).
(** what element [iel] with the vector [ES] contributes to component [j] at node [n] *)
Definition contribution (s : tables) (c : list Qc * Z) (n : Z) (j : nat) : Qc :=
  let nodes := enodes s (snd c) in
  qs (fun i => if (nth i nodes 0 =? n)%Z then nth (offset s nodes i + j) (fst c) 0%Qc else 0%Qc) (seq 0 (length nodes)).
(** legal tables: element pointers within mmnpc, element nodes within the nodes *)
Definition topologyOK (s : tables) : Prop :=
  forall iel, (1 <= iel <= Z.of_nat (nel s))%Z ->
    1 <= nth (Z.to_nat iel - 1) (mpmnpc s) 0 /\ nth (Z.to_nat iel) (mpmnpc s) 0 - 1 <= length (mmnpc s) /\
    (forall n, In n (enodes s iel) -> (1 <= n <= Z.of_nat (nnod s))%Z).
(** legal assembly calls for nodes [ns] and [nf] force components *)
Definition callOK (s : tables) (ns : list Z) (nf : nat) (c : list Qc * Z) : Prop :=
  (1 <= snd c <= Z.of_nat (nel s))%Z /\
  (forall i, i < length (enodes s (snd c)) -> In (nth i (enodes s (snd c)) 0%Z) ns -> offset s (enodes s (snd c)) i + nf <= length (fst c)).
(** a sequence of assembly calls: their results and the final state *)
Fixpoint assembleAll (s : tables) (f : fvec) (cs : list (list Qc * Z)) : option (list bool * fvec) :=
  match cs with
  | [] => Some ([], f)
  | c :: r => match assembleF s f (Some (fst c)) (snd c) with
              | None => None
              | Some (b, f') => match assembleAll s f' r with None => None | Some (bs, f'') => Some (b :: bs, f'') end
              end
  end.
(** three components, zero beyond [nf] *)
Definition force3 (nf : nat) (g : nat -> Qc) : list Qc := map (fun j => if j <? nf then g j else 0%Qc) [0; 1; 2].

(** component-wise sum of vectors of length [n] *)
Definition sumVec (n : nat) (ds : list (list Qc)) : list Qc := map (fun q => qs (fun d => nth q d 0%Qc) ds) (seq 0 n).
(** empty norm groups only at the end *)
Definition emptyLast (sizes : list nat) : Prop := forall k k', nth k sizes 0 = 0 -> k <= k' -> nth k' sizes 0 = 0.
