(** Model of the messages that the processes exchange while they establish global
    node and equation numbers.

    Source: src/LinAlg/ProcessAdm.C:121-190 (send, receive: MPI_Send and MPI_Recv with
    the tags 101 for a number and 102 for a vector; an empty vector is neither sent nor
    received), src/ASM/DomainDecomposition.C:509-640, 699-920, 923-962 (the order of the
    calls), 1105-1128 (setup).
    The contents of a message are an arbitrary function of what its sender has received
    so far (its own model is a constant of that function), so the contents follow from
    the order of the calls.  MPI: messages between two processes do not overtake each
    other; a send may return as soon as the message is copied, or wait until it is
    received; the implementation decides in every single case. *)
From Coq Require Import List Bool Arith.
Import ListNotations.

Section Messages.
Context {V : Type}.

(** One call of ProcessAdm::send (destination, tag, contents) or receive (source, tag). *)
Inductive act : Type :=
| Snd (dst tag : nat) (f : list V -> V)
| Rcv (src tag : nat).

(** The calls that each process still has to make, what it has received, and the
    messages under way from one process to another, oldest first. *)
Record conf := { rest : nat -> list act; got : nat -> list V; chan : nat -> nat -> list (nat * V) }.

(** Assignment to one entry. *)
Definition set1 {A} (f : nat -> A) (i : nat) (a : A) : nat -> A := fun j => if j =? i then a else f j.
Definition set2 {A} (f : nat -> nat -> A) (i j : nat) (a : A) : nat -> nat -> A :=
  fun k l => if (k =? i) && (l =? j) then a else f k l.

(** MPI_Send that returns after copying (ProcessAdm.C:121-138). *)
Inductive sendStep : conf -> conf -> Prop :=
| SendStep c p d t f r : rest c p = Snd d t f :: r ->
    sendStep c {| rest := set1 (rest c) p r; got := got c;
                  chan := set2 (chan c) p d (chan c p d ++ [(t, f (got c p))]) |}.

(** MPI_Recv: the oldest message under way with the tag (lines 160-181). *)
Inductive recvStep : conf -> conf -> Prop :=
| RecvStep c p s t r l1 v l2 : rest c p = Rcv s t :: r ->
    chan c s p = l1 ++ (t, v) :: l2 -> (forall x, In x l1 -> fst x <> t) ->
    recvStep c {| rest := set1 (rest c) p r; got := set1 (got c) p (got c p ++ [v]);
                  chan := set2 (chan c) s p (l1 ++ l2) |}.

(** MPI_Send that waits for its MPI_Recv: both return; no older message has the tag. *)
Inductive syncStep : conf -> conf -> Prop :=
| SyncStep c p d t f r r' : p <> d -> rest c p = Snd d t f :: r -> rest c d = Rcv p t :: r' ->
    (forall x, In x (chan c p d) -> fst x <> t) ->
    syncStep c {| rest := set1 (set1 (rest c) p r) d r';
                  got := set1 (got c) d (got c d ++ [f (got c p)]); chan := chan c |}.

Definition step (c c' : conf) : Prop := sendStep c c' \/ recvStep c c' \/ syncStep c c'.

Inductive steps : nat -> conf -> conf -> Prop :=
| Steps0 c : steps 0 c c
| StepsS n c c' c'' : step c c' -> steps n c' c'' -> steps (S n) c c''.

(** An interface between processes: owners of master and slave patch, and the messages
    (tag, contents) sent for it. *)
Record gconn := { gm : nat; gs : nat; gmsgs : list (nat * (list V -> V)) }.

Definition sends (d : nat) (ms : list (nat * (list V -> V))) : list act := map (fun m => Snd d (fst m) (snd m)) ms.
Definition recvs (s : nat) (ms : list (nat * (list V -> V))) : list act := map (fun m => Rcv s (fst m)) ms.

(** DomainDecomposition.C:533-548, 555-591, 611-619, 621-635 (nodes), 725-743, 785-857,
    875-901, 903-916 (equations), 935-940, 957-962 (partitioned; no interfaces): the
    calls of process p of n.  chn p are the messages that process p sends to process
    p+1; ifs is the set of ghost connections in its order. *)
Definition program (n : nat) (chn : nat -> list (nat * (list V -> V))) (ifs : list gconn) (p : nat) : list act :=
  (match p with O => [] | S q => recvs q (chn q) end) ++
  flat_map (fun it => if gs it =? p then recvs (gm it) (gmsgs it) else []) ifs ++
  (if S p <? n then sends (S p) (chn p) else []) ++
  flat_map (fun it => if gm it =? p then sends (gs it) (gmsgs it) else []) ifs.

(** The start: processes 0, ..., n-1, nothing received or under way. *)
Definition initial (n : nat) (progs : nat -> list act) : conf :=
  {| rest := fun p => if p <? n then progs p else []; got := fun _ => []; chan := fun _ _ => [] |}.

End Messages.
Arguments act : clear implicits.
Arguments conf : clear implicits.
Arguments gconn : clear implicits.

(** DomainDecomposition.C:1105-1126, setup in MPI builds: results are the values of
    calcGlobalNodeNumbers and of the check for own nodes of the processes; what process
    p does with them.  lok keeps its initial value. *)
Definition setupNodes (results : list (bool * bool)) (p : nat) : bool :=
  let lok := map (fun _ => 1) results in
  let ok := fold_right Nat.add 0 lok in
  negb (ok <? length results).
