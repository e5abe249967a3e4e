(** Specification of the message exchange (C94). *)
From Coq Require Import List Bool Arith Sorted.
From Verif Require Import Ddm_model.
Import ListNotations.

Section Spec.
Context {V : Type}.

(** All messages in the order of the receiving rank: first those of the previous rank,
    then those of the interfaces. *)
Definition msg : Type := (nat * nat * nat * (list V -> V))%type.
Definition rankOrder (n : nat) (chn : nat -> list (nat * (list V -> V))) (ifs : list (gconn V)) : list msg :=
  flat_map (fun d =>
    (match d with O => [] | S q => map (fun m => (q, d, fst m, snd m)) (chn q) end) ++
    flat_map (fun it => if gs it =? d then map (fun m => (gm it, d, fst m, snd m)) (gmsgs it) else []) ifs)
    (seq 0 n).

(** One message after the other: what the processes have received at the end. *)
Fixpoint oneByOne (ms : list msg) (g : nat -> list V) : nat -> list V :=
  match ms with
  | [] => g
  | (s, d, t, f) :: r => oneByOne r (set1 g d (g d ++ [f (g s)]))
  end.

(** Every interface has its master on a lower rank than its slave. *)
Definition rankedIfs (n : nat) (ifs : list (gconn V)) : Prop := forall it, In it ifs -> gm it < gs it < n.

(** The order of the set of ghost connections (C93): owner of the master, owner of the
    slave, others. *)
Definition before (a b : gconn V) : Prop := gm a < gm b \/ (gm a = gm b /\ gs a <= gs b).
Definition sortedIfs (ifs : list (gconn V)) : Prop := StronglySorted before ifs.

Definition finished (n : nat) (c : conf V) : Prop := forall p, p < n -> rest c p = [].
(** Some call can complete whatever the implementation decides about copying. *)
Definition canProceed (c : conf V) : Prop := exists c', recvStep c c' \/ syncStep c c'.
Definition callsLeft (n : nat) (c : conf V) : nat := fold_right Nat.add 0 (map (fun p => length (rest c p)) (seq 0 n)).
End Spec.
Arguments msg : clear implicits.
