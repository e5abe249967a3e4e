(** Specification-level notions for the transfer of nodal values and for the array utilities. *)
From Coq Require Import List Sorted Arith ZArith QArith Qcanon Bool Lia Ascii.
From Verif Require Import Base QcLra.
Import ListNotations.
Local Open Scope Z_scope.

(** ** gather *)
(** [inp] consists of whole blocks of [nr] values from the position [off] on *)
Definition wholeBlocks (off nr : nat) (inp : list Qc) : Prop := exists k, length inp = (off + nr * k)%nat.
(** the block number [ix] starts within [inp] *)
Definition within (off nr : nat) (inp : list Qc) (ix : Z) : Prop := 0 <= ix /\ Z.of_nat off + Z.of_nat nr * ix < Z.of_nat (length inp).
Definition outsideOf (off nr : nat) (inp : list Qc) (ix : Z) : Prop := 0 <= ix /\ ~ within off nr inp ix.
(** one row [ir] of the block number [ix - shift] *)
Definition within3 (off ir nr : nat) (inp : list Qc) (shift ix : Z) : Prop :=
  shift <= ix /\ Z.of_nat off + Z.of_nat ir + Z.of_nat nr * (ix - shift) < Z.of_nat (length inp).
Definition outside3 (off ir nr : nat) (inp : list Qc) (shift ix : Z) : Prop := ~ within3 off ir nr inp shift ix /\ (0 <= ix \/ shift <= ix).
(** the number of elements of [l] with [P] *)
Inductive countOf {A} (P : A -> Prop) : list A -> nat -> Prop :=
| count_nil : countOf P [] 0
| count_yes x l n : P x -> countOf P l n -> countOf P (x :: l) (S n)
| count_no x l n : ~ P x -> countOf P l n -> countOf P (x :: l) n.

(** ** nodal vectors *)
(** MADOF: node n (1..ngnod) has the global DOFs madof[n-1] .. madof[n]-1 (1-based) *)
Definition firstDof (madof : list Z) (n : Z) : Z := nth (Z.to_nat (n - 1)) madof 0.
Definition okMADOF (madof : list Z) (ndof : nat) : Prop :=
  Forall (fun d => 1 <= d <= Z.of_nat ndof + 1) madof /\
  forall n, 1 <= n < Z.of_nat (length madof) -> firstDof madof n <= firstDof madof (n + 1).
(** the values of node [n] in the global vector *)
Definition nodeVals (madof : list Z) (glob : list Qc) (n : Z) : list Qc :=
  map (fun k => nth (Z.to_nat (firstDof madof n - 1) + k) glob 0%Qc) (seq 0 (Z.to_nat (firstDof madof (n + 1) - firstDof madof n))).
(** the (0-based) position p belongs to node [n] *)
Definition ofNode (madof : list Z) (n : Z) (p : nat) : Prop := firstDof madof n <= Z.of_nat p + 1 < firstDof madof (n + 1).
(** all the nodes are in the model *)
Definition nodesIn (madof : list Z) (nodes : list Z) : Prop := Forall (fun n => 1 <= n < Z.of_nat (length madof)) nodes.

(** ** parsing *)
Inductive Digits : list ascii -> Z -> Z -> Prop := (* digits that turn the prefix value a into v *)
| dig_one c a : (48 <= nat_of_ascii c <= 57)%nat -> Digits [c] a (10 * a + Z.of_nat (nat_of_ascii c - 48))
| dig_more c a s v : (48 <= nat_of_ascii c <= 57)%nat -> Digits s (10 * a + Z.of_nat (nat_of_ascii c - 48)) v -> Digits (c :: s) a v.
(** decimal numbers with leading blanks *)
Inductive Number : list ascii -> Z -> Prop :=
| num_pos s v : Digits s 0 v -> Number s v
| num_neg s v : Digits s 0 v -> Number ("-"%char :: s) (- v)
| num_blank s v : Number s v -> Number (" "%char :: s) v.
(** i, i+1, ..., j; only i when j < i *)
Definition rangeOf (i j : Z) : list Z := i :: map (fun k => i + Z.of_nat k) (seq 1 (Z.to_nat (j - i))).
(** A list of integers and ranges i:j. Entries are separated by blanks; a comma may be used
    directly after an integer, and an entry in front of a comma, or after the last one, may be
    left out (0). *)
Inductive IntList : list ascii -> list Z -> Prop :=
| il_num w v : Number w v -> IntList w [v]
| il_range w v w2 v2 : Number w v -> Number w2 v2 -> IntList (w ++ ":"%char :: w2) (rangeOf v v2)
| il_num_blank w v s vs : Number w v -> IntList (" "%char :: s) vs -> IntList (w ++ " "%char :: s) (v :: vs)
| il_range_blank w v w2 v2 s vs : Number w v -> Number w2 v2 -> IntList (" "%char :: s) vs ->
    IntList (w ++ ":"%char :: w2 ++ " "%char :: s) (rangeOf v v2 ++ vs)
| il_num_comma w v s vs : Number w v -> IntList s vs -> IntList (w ++ ","%char :: s) (v :: vs)
| il_comma s vs : IntList s vs -> IntList (","%char :: s) (0 :: vs)
| il_num_last w v : Number w v -> IntList (w ++ [","%char]) [v; 0]
| il_last : IntList [","%char] [0; 0].

(** ** nodes with the same number of DOFs *)
(** component [c] of the global node [n] (1, 2, ...) *)
Definition uval (nd : nat) (glob : list Qc) (n : Z) (c : nat) : Qc := nth (nd * (Z.to_nat n - 1) + c) glob 0%Qc.
Definition uIn (nd : nat) (glob : list Qc) (n : Z) : Prop := 1 <= n /\ Z.of_nat nd * n <= Z.of_nat (length glob).

(** ** elements *)
(** elements with a positive number and at least two nodes *)
Definition active (e : Z * nat) : bool := (0 <? fst e) && (1 <? snd e)%nat.

(** ** points *)
(** the point with coordinates [vals], of which the first [nsd] count *)
Definition pt3 (nsd : nat) (vals : list Qc) : Qc * Qc * Qc :=
  ((if (0 <? nsd)%nat then nth 0 vals 0 else 0)%Qc, (if (1 <? nsd)%nat then nth 1 vals 0 else 0)%Qc, (if (2 <? nsd)%nat then nth 2 vals 0 else 0)%Qc).
Definition near (tol : Qc) (a b : Qc * Qc * Qc) : Prop :=
  let '(x, y, z) := a in let '(p, q, r) := b in
  (- tol <= x - p /\ x - p <= tol /\ - tol <= y - q /\ y - q <= tol /\ - tol <= z - r /\ z - r <= tol)%Qc.
Definition sqDist (a b : Qc * Qc * Qc) : Qc :=
  let '(x, y, z) := a in let '(p, q, r) := b in ((x - p) * (x - p) + (y - q) * (y - q) + (z - r) * (z - r))%Qc.
(** the result of a search among [pts]: 0 if none is near, otherwise the (1-based) first of the
    nearest ones *)
Definition bestOf (tol : Qc) (X : Qc * Qc * Qc) (pts : list (Qc * Qc * Qc)) (k : nat) : Prop :=
  match k with
  | O => Forall (fun P => ~ near tol X P) pts
  | S a => exists P, nth_error pts a = Some P /\ near tol X P /\
      forall b P', nth_error pts b = Some P' -> near tol X P' -> (sqDist X P <= sqDist X P')%Qc /\ ((b < a)%nat -> (sqDist X P < sqDist X P')%Qc)
  end.
