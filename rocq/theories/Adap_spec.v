(** Specification of refinement marking.  [errs] is the vector of errors, an
    entry is marked when its index is in the list returned. *)
From Coq Require Import ZArith QArith Qround Qabs List Bool Lia.
From Verif Require Import Adap_model.
Import ListNotations.
Local Open Scope Z_scope.

(** The error of entry i. *)
Definition err (errs : list Q) (i : Z) : Q := nth (Z.to_nat i) errs 0%Q.

(** Valid indices. *)
Definition valid (errs : list Q) (i : Z) : Prop := 0 <= i < Z.of_nat (length errs).

(** The sum of the errors of some entries, and of all. *)
Fixpoint sumOf (errs : list Q) (l : list Z) : Q :=
  match l with [] => 0%Q | i :: l' => (err errs i + sumOf errs l')%Q end.
Fixpoint total (errs : list Q) : Q :=
  match errs with [] => 0%Q | e :: r => (e + total r)%Q end.

(** No unmarked entry has a larger error than a marked one. *)
Definition worst_first (errs : list Q) (l : list Z) : Prop :=
  forall i j, In i l -> valid errs j -> ~ In j l -> (err errs j <= err errs i)%Q.

(** Number of entries with an error above a value. *)
Definition above (errs : list Q) (v : Q) : nat :=
  length (filter (fun e => negb (Qle_bool e v)) errs).

(** The input of the selection: error and index of each entry. *)
Definition indexed (errs : list Q) : list (Q * Z) :=
  combine errs (map Z.of_nat (seq 0 (length errs))).

(** The error of a basis function: the sum of the errors of the elements whose
    support lists contain it (with multiplicity). *)
Fixpoint supportSum (supp : list (list nat)) (orig : list Q) (b : nat) : Q :=
  match supp, orig with
  | s :: supp', e :: orig' =>
      (inject_Z (Z.of_nat (count_occ Nat.eq_dec s b)) * e + supportSum supp' orig' b)%Q
  | _, _ => 0%Q
  end.

(** The threshold of a method: a percentage of the largest, average or smallest
    error. *)
Definition is_limit (errs : list Q) (beta : Q) (t : threshold) (limit : Q) : Prop :=
  match t with
  | MAXIMUM => exists i, valid errs i /\ (limit == err errs i * beta / 100)%Q /\
                 forall j, valid errs j -> (err errs j <= err errs i)%Q
  | AVERAGE => (limit == total errs / inject_Z (Z.of_nat (length errs)) * beta / 100)%Q
  | MINIMUM => exists i, valid errs i /\ (limit == err errs i * beta / 100)%Q /\
                 forall j, valid errs j -> (err errs i <= err errs j)%Q
  | _ => False
  end.


(** A patch as the user sees it: its element errors, and the sum of its
    functions' errors that belong to the global function g. *)
Definition patchErrors (p : rpatch) (refIn : list Q) : list Q :=
  map (fun id => nth (id - 1) refIn 0%Q) (rp_elm p).
Fixpoint patchSum (p : rpatch) (e : list Q) (g n : nat) : Q :=
  match n with
  | O => 0%Q
  | S i => ((if Nat.eqb (nth i (rp_mlgn p) O) g then supportSum (rp_supp p) e i else 0)
            + patchSum p e g i)%Q
  end.
Fixpoint globalSum (ps : list rpatch) (refIn : list Q) (g : nat) : Q :=
  match ps with
  | [] => 0%Q
  | p :: r => (patchSum p (patchErrors p refIn) g (rp_nf p) + globalSum r refIn g)%Q
  end.

(** Tables of the right sizes. *)
Definition patch_ok (nNodes : nat) (p : rpatch) : Prop :=
  length (rp_supp p) = length (rp_elm p) /\
  Forall (Forall (fun i => (i < rp_nf p)%nat)) (rp_supp p) /\
  length (rp_mlgn p) = rp_nf p /\ Forall (fun i => (i < nNodes)%nat) (rp_mlgn p).

(** Cycle i refines the mesh: something is marked, and the refinement succeeds. *)
Definition refines (s : setup) (env : Z -> cycle) (i : Z) : Prop :=
  c_refine (env i) = true /\
  ((exists l, l <> [] /\ calcRefinement s i (c_stat (env i)) = Mark l) \/
   (exists e, e <> [] /\ calcRefinement s i (c_stat (env i)) = MarkErrors e)).
