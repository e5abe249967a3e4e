(** Specification-level notions for the sparse matrix theorems. *)
From Coq Require Import List Arith ZArith QArith Qcanon Bool Lia Sorted Permutation.
From Verif Require Import Base SAM_model SAM_spec Sparse_model.
Import ListNotations.
Local Open Scope nat_scope.

(** the order of the (row, column) keys of the map *)
Definition keyLt (a b : key * Qc) : Prop :=
  fst (fst a) < fst (fst b) \/ (fst (fst a) = fst (fst b) /\ snd (fst a) < snd (fst b)).

(** Entries of compressed storage, read from the raw arrays: segment [k] (a column or a
    row, 0-based) holds the array positions [ptr k .. ptr (k+1) - 1]. *)
Definition segEnts (n : nat) (ptr : nat -> nat) (idx : list nat) (a : list Qc) : list (nat * nat * Qc) :=
  flat_map (fun k => map (fun i => (k, nth i idx 0, nth i a 0%Qc)) (seq (ptr k) (ptr (k+1) - ptr k))) (seq 0 n).
(** compressed columns: pointers 0-based, row indices 0-based *)
Definition colStored (M : spm) : list (key * Qc) :=
  map (fun e => ((snd (fst e) + 1, fst (fst e) + 1), snd e))
      (segEnts (ncol M) (fun k => nth k (IA M) 0) (JA M) (A M)).
(** compressed rows: pointers 1-based, column indices 1-based *)
Definition rowStored (M : spm) : list (key * Qc) :=
  map (fun e => ((fst (fst e) + 1, snd (fst e)), snd e))
      (segEnts (nrow M) (fun k => nth k (IA M) 0 - 1) (JA M) (A M)).
(** all stored entries (row, column, value) of a matrix, 1-based *)
Definition stored (M : spm) : list (key * Qc) :=
  match st M with
  | Compr => if colFmt (slv M) then colStored M else rowStored M
  | _ => elem M
  end.

(** the value at (r,c) of a list of entries: the sum of the entries at this position *)
Definition val (l : list (key * Qc)) (r c : nat) : Qc :=
  qs (fun e => if (fst (fst e) =? r) && (snd (fst e) =? c) then snd e else 0%Qc) l.

(** the pointer array divides the index and value arrays in [n] segments, no index
    occurs twice in a segment *)
Definition segOK (n : nat) (ptr : nat -> nat) (idx : list nat) (a : list Qc) : Prop :=
  ptr 0 = 0 /\ (forall k, k < n -> ptr k <= ptr (k+1)) /\ ptr n = length idx /\ length a = length idx /\
  forall k i j, k < n -> ptr k <= i < ptr (k+1) -> ptr k <= j < ptr (k+1) ->
    nth i idx 0 = nth j idx 0 -> i = j.

(** A matrix in a legal state. *)
Definition wf (M : spm) : Prop :=
  match st M with
  | Compr =>
    if colFmt (slv M) then
      length (IA M) = ncol M + 1 /\
      segOK (ncol M) (fun k => nth k (IA M) 0) (JA M) (A M) /\
      Forall (fun x => x < nrow M) (JA M)
    else
      length (IA M) = nrow M + 1 /\ (forall k, k <= nrow M -> 1 <= nth k (IA M) 0) /\
      segOK (nrow M) (fun k => nth k (IA M) 0 - 1) (JA M) (A M) /\
      Forall (fun x => 1 <= x <= ncol M) (JA M)
  | _ =>
    StronglySorted keyLt (elem M) /\ IA M = [] /\
    Forall (fun e => 1 <= fst (fst e) <= nrow M /\ 1 <= snd (fst e) <= ncol M) (elem M)
  end.

(** entry (r,c) exists in the sparsity pattern *)
Definition inPattern (M : spm) (r c : nat) : Prop := exists v, In ((r,c),v) (stored M).

(** a write access to (r,c) reaches the matrix *)
Definition writable (M : spm) (r c : nat) : Prop :=
  1 <= r <= nrow M /\ 1 <= c <= ncol M /\ (st M = EdP \/ inPattern M r c).

(** The states a program can bring a matrix to through the public operations.  Matrices
    that are combined use the same storage format. *)
Inductive reachable : spm -> Prop :=
| R_create m n s : reachable (create m n s)
| R_lock b M : reachable M -> reachable (lockPattern b M)
| R_resize r c f M : reachable M -> reachable (resize r c f M)
| R_redim r c M : reachable M -> reachable (snd (redim r c M))
| R_update r c f M b M' : reachable M -> update M r c f = Some (b, M') -> reachable M'
| R_augment B r0 c0 M : reachable M -> reachable B -> reachable (snd (augment B r0 c0 M))
| R_truncate t M : reachable M -> reachable (snd (truncate t M))
| R_mult a M : reachable M -> reachable (mult a M)
| R_add B a M b M' : reachable M -> reachable B -> colFmt (slv M) = colFmt (slv B) ->
    add B a M = Some (b, M') -> reachable M'
| R_sigma sg ieq M b M' : reachable M -> addSigma sg ieq M = Some (b, M') -> reachable M'
| R_flags M : reachable M -> reachable (initFlags M)
| R_compress M M' : reachable M -> compressPattern M = Some M' -> reachable M'
| R_initAsm s mode M M' : reachable M -> consistent s ->
    initAssembly s mode M = Some M' -> reachable M'
| R_assemble s K meen M b M' : reachable M -> assembleElm s K meen M = Some (b, M') -> reachable M'
| R_end sg M b M' : reachable M -> endAssembly sg M = Some (b, M') -> reachable M'.

(** absolute value and order on rationals, for the truncation theorem *)
Definition absQ (x : Qc) : Qc := if Qclt_le_dec x 0 then (- x)%Qc else x.

(** equation numbers of block 2 are given in increasing order within 1..n *)
Definition increasing (n : nat) (l : list Z) : Prop :=
  StronglySorted Z.lt l /\ Forall (fun m => 1 <= m <= Z.of_nat n)%Z l.
(** position (1-based) of equation [e] in the list of block-2 equations resp. in the
    list of the remaining ones *)
Definition pos2 (l : list Z) (e : nat) : nat := length (filter (fun m => m <=? Z.of_nat e)%Z l).
Definition pos1 (l : list Z) (e : nat) : nat := e - pos2 l e.

(** the element data of an assembly round: matrices with the equations of elements of the model *)
Definition fromModel (s : tables) (els : list (emat * list Z)) : Prop :=
  forall K meen, In (K, meen) els -> exists iel, getElmEqns s iel = Some meen.
(** equation [r] gets contributions from one of the elements *)
Definition contributes (s : tables) (els : list (emat * list Z)) (r : nat) : Prop :=
  exists K meen, In (K, meen) els /\ eqInElm s meen (Z.of_nat r).
(** sum of the element contributions, transformed by the constraints, at (r,c) *)
Definition elmSum (s : tables) (els : list (emat * list Z)) (r c : nat) : Qc :=
  qs (fun p => qs2 (length (snd p)) (fun i j =>
        (Tcoef s (nth i (snd p) 0%Z) (Z.of_nat r) * fst p i j * Tcoef s (nth j (snd p) 0%Z) (Z.of_nat c))%Qc)) els.
(** a matrix that was constructed, initialised for the model, and then went through any number of assembly rounds *)
Inductive assembled (s : tables) (sl : solverT) (mode : option bool) : spm -> Prop :=
| A_init m n M1 : initAssembly s mode (create m n sl) = Some M1 -> assembled s sl mode M1
| A_round fl els sg M b M' : assembled s sl mode M -> fromModel s els ->
    round s fl els sg M = Some (b, M') -> assembled s sl mode M'
| A_reinit M M1 : assembled s sl mode M -> initAssembly s mode M = Some M1 -> assembled s sl mode M1.
