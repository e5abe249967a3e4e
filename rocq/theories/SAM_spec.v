(** Specification-level notions for the SAM theorems. *)
From Coq Require Import List Arith ZArith QArith Qcanon Bool Lia.
From Verif Require Import Base SAM_model.
Import ListNotations.
Local Open Scope Z_scope.

(** how many of the first [d] entries of [l] equal [c]; number of all such entries *)
Definition rank (c : Z) (l : list Z) (d : nat) : nat := length (filter (Z.eqb c) (firstn d l)).
Definition count (c : Z) (l : list Z) : nat := rank c l (length l).

(** status code of DOF number d+1 before initialisation *)
Definition status (s : tables) (d : nat) : Z := nth d (msc s) 0.
(** The tables as SAM.h documents them: constraint [i] (1-based) occupies the entries
    [mpmceq[i-1] .. mpmceq[i]-1] (1-based) of [mmceq]/[ttcc]; the first entry holds the
    slave DOF and the constant, the others the master DOFs and their coefficients.
    These definitions read the raw tables, not the model's accessors. *)
Definition firstPos (s : tables) (i : nat) : nat := nth (i-1) (mpmceq s) 0%nat.
Definition afterPos (s : tables) (i : nat) : nat := nth i (mpmceq s) 0%nat.
Definition slaveDof (s : tables) (i : nat) : Z := nth (firstPos s i - 1) (mmceq s) 0.
Definition offset (s : tables) (i : nat) : Qc := nth (firstPos s i - 1) (ttcc s) 0%Qc.
Definition masterTerms (s : tables) (i : nat) : list (Z * Qc) :=
  map (fun k => (nth k (mmceq s) 0, nth k (ttcc s) 0%Qc)) (seq (firstPos s i) (afterPos s i - 1 - firstPos s i)).
(** table entry (equation number if positive) of DOF number [dof] *)
Definition eqnOf (s : tables) (dof : Z) : Z := nth (Z.to_nat (dof-1)) (meqn s) 0.
(** DOF d+1 is the slave of constraint [i] and of none after it *)
Definition lastSlave (s : tables) (i d : nat) : Prop :=
  (1 <= i <= nceq s)%nat /\ slaveDof s i = Z.of_nat (S d) /\
  forall i', (i < i' <= nceq s)%nat -> slaveDof s i' <> Z.of_nat (S d).

(** The tables are consistent: all pointers in range, masters are free DOFs. *)
Definition consistent (s : tables) : Prop :=
  length (meqn s) = ndof s /\
  (forall i, (1 <= i <= nceq s)%nat ->
     (1 <= firstPos s i < afterPos s i)%nat /\ (afterPos s i - 1 <= length (mmceq s))%nat /\
     1 <= slaveDof s i <= Z.of_nat (ndof s) /\
     forall j c, In (j, c) (masterTerms s i) ->
       1 <= j <= Z.of_nat (ndof s) /\ 1 <= eqnOf s j <= Z.of_nat (neq s)) /\
  (forall d, (d < ndof s)%nat -> - Z.of_nat (nceq s) <= nth d (meqn s) 0 <= Z.of_nat (neq s)) /\
  (forall e, 1 <= e <= Z.of_nat (neq s) ->
     exists d, (d < ndof s)%nat /\ nth d (meqn s) 0 = e /\
       forall d', (d' < ndof s)%nat -> nth d' (meqn s) 0 = e -> d' = d).

Definition dot (a b : list Qc) : Qc := qs (fun p => fst p * snd p)%Qc (combine a b).

(** Coefficient of equation [r] in the DOF with table entry [m] (a free DOF is its
    own equation, a slave is the combination of its masters' equations). *)
Definition Tcoef (s : tables) (m r : Z) : Qc :=
  if 0 <? m then b2q (m =? r)
  else if m <? 0 then
    qs (fun p : Z * Qc => if (0 <? fst p) && (eqnOf s (fst p) =? r) then snd p else 0)%Qc (masterTerms s (Z.to_nat (- m)))
  else 0%Qc.
(** constant part of the DOF with table entry [m] *)
Definition c0 (s : tables) (m : Z) : Qc := if m <? 0 then offset s (Z.to_nat (- m)) else 0%Qc.

(** net effect of a sequence of updates on position (r,c) / r *)
Definition entry (r c : Z) (l : list (Z * Z * Qc)) : Qc :=
  qs (fun u => if (fst (fst u) =? r) && (snd (fst u) =? c) then snd u else 0)%Qc l.
Definition entryV (r : Z) (l : list (Z * Qc)) : Qc :=
  qs (fun u => if fst u =? r then snd u else 0)%Qc l.

(** all index pairs of an n x n matrix are summed *)
Definition qs2 (n : nat) (f : nat -> nat -> Qc) : Qc := qs (fun i => qs (f i) (seq 0 n)) (seq 0 n).

(** The equation list of an element is in range (true of every list taken from
    consistent tables, see [getElmEqns_range]). *)
Definition eqsOK (s : tables) (meen : list Z) : Prop :=
  forall m, In m meen -> - Z.of_nat (nceq s) <= m <= Z.of_nat (neq s).

(** value of the quadratic form y'Ax of the updates [l] of an n x n system *)
Definition bilin (n : nat) (y : list Qc) (l : list (Z * Z * Qc)) (x : list Qc) : Qc :=
  qs (fun r => qs (fun c => nth r y 0 * entry (Z.of_nat (S r)) (Z.of_nat (S c)) l * nth c x 0)%Qc (seq 0 n)) (seq 0 n).
Definition linform (n : nat) (y : list Qc) (l : list (Z * Qc)) : Qc :=
  qs (fun r => nth r y 0 * entryV (Z.of_nat (S r)) l)%Qc (seq 0 n).

(** The DOF table: the DOFs of node n are [madof[n-1] .. madof[n]-1], all DOFs
    1..ndof are covered in order. *)
Definition madofOK (s : tables) : Prop :=
  nth 0 (madof s) 0%nat = 1%nat /\
  (forall n, (n < nnod s)%nat -> (nth n (madof s) 0 <= nth (S n) (madof s) 0)%nat) /\
  nth (nnod s) (madof s) 0%nat = S (ndof s).
(** DOF number [idof] is the local DOF [l] of node [n] *)
Definition isDof (s : tables) (n l idof : Z) : Prop :=
  1 <= n <= Z.of_nat (nnod s) /\ 1 <= l /\
  idof = Z.of_nat (nth (Z.to_nat (n-1)) (madof s) 0%nat) + l - 1 /\
  idof < Z.of_nat (nth (Z.to_nat n) (madof s) 0%nat).

(** reaction force term of element DOF [i]: sum over all constrained DOFs j *)
Definition reactSum (s : tables) (K : emat) (meen : list Z) (i : nat) : Qc :=
  if nth i meen 0 <? 1 then
    qs (fun j => if (nth j meen 0 <? 0)%Z then - (offset s (Z.to_nat (- nth j meen 0%Z)) * K i j) else 0)%Qc (seq 0 (length meen))
  else 0%Qc.
(** position in the reaction vector of a DOF (0: none); [ds] element DOFs *)
Definition reactPos (s : tables) (d : option nat) : Z :=
  match d with Some k => - nth (k-1) (msc s) 0 | None => 0 end.

(** Valid input for equation initialisation: status codes 0, 1, 2; every constraint has
    a suppressed slave DOF, free master DOFs, and lies inside the tables. *)
Definition validInput (s : tables) : Prop :=
  Forall (fun c => c = 0 \/ c = 1 \/ c = 2) (msc s) /\
  forall i, (1 <= i <= nceq s)%nat ->
    (1 <= firstPos s i < afterPos s i)%nat /\ (afterPos s i - 1 <= length (mmceq s))%nat /\
    1 <= slaveDof s i <= Z.of_nat (ndof s) /\ status s (Z.to_nat (slaveDof s i - 1)) = 0 /\
    forall j c, In (j, c) (masterTerms s i) ->
      1 <= j <= Z.of_nat (ndof s) /\
      (status s (Z.to_nat (j - 1)) = 1 \/ status s (Z.to_nat (j - 1)) = 2).

(** equation [r] occurs in an element with equation list [meen], directly or as a master *)
Definition eqInElm (s : tables) (meen : list Z) (r : Z) : Prop :=
  exists m, In m meen /\
    ((0 < m /\ r = m) \/
     (m < 0 /\ exists j c, In (j, c) (masterTerms s (Z.to_nat (- m))) /\ 0 < j /\ r = eqnOf s j)).

(** The DOFs of an element, in order: all DOFs of its nodes; a DOF of a node with
    negative sign is marked [None] (it does not take part in the assembly). *)
Definition elmDofs (s : tables) (nodes : list Z) : list (option Z) :=
  flat_map (fun node =>
    let n := Z.to_nat (Z.abs node) in
    let b := nth (n-1) (madof s) 0%nat in
    map (fun d => if 0 <? node then Some (Z.of_nat d) else None) (seq b (nth n (madof s) 0%nat - b))) nodes.
Definition connOK (s : tables) (nodes : list Z) : Prop :=
  forall nd, In nd nodes -> nd <> 0 /\ Z.abs nd <= Z.of_nat (nnod s).
(** node list of element [iel] (1-based) in the connectivity table *)
Definition nodeList (s : tables) (iel : nat) : list Z :=
  map (fun k => nth (k-1) (mmnpc s) 0) (seq (nth (iel-1) (mpmnpc s) 0%nat) (nth iel (mpmnpc s) 0 - nth (iel-1) (mpmnpc s) 0)%nat).
(** the pointers of element [iel] lie in the connectivity table *)
Definition ptrOK (s : tables) (iel : nat) : Prop :=
  (1 <= nth (iel-1) (mpmnpc s) 0)%nat /\ (nth (iel-1) (mpmnpc s) 0 <= nth iel (mpmnpc s) 0)%nat /\
  (nth iel (mpmnpc s) 0 <= S (length (mmnpc s)))%nat.
