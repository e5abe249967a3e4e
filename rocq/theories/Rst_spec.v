(** Specification for the restart file and the output schedule: what a user expects to read back. *)
From Coq Require Import List ZArith Bool Ascii String.
From Verif Require Import Rst_model.
Import ListNotations.
Open Scope Z_scope.

(** the name is that of a basis: it contains "::basis" *)
Definition basis_name (n : string) : Prop := exists a b, n = (a ++ "::basis" ++ b)%string.

(** [r] holds exactly the non-empty entries of [data] of the wanted kind *)
Definition reads_as (data : sdata) (basis : bool) (r : sdata) : Prop :=
  forall n v, In (n, v) r <-> In (n, v) data /\ v <> EmptyString /\ (basis = true <-> basis_name n).

(** the level [l] has never been written to the file *)
Definition absent (d : disk) (l : Z) : Prop := forall f, d = Some f -> ~ In l (map fst f).

(** a usable set of data: at least one entry, no name twice (a std::map) *)
Definition proper (data : sdata) : Prop := data <> [] /\ NoDup (map fst data).

(** a history of writeData calls on one object *)
Fixpoint write_all (r : rst) (d : disk) (hist : list sdata) : rst * disk :=
  match hist with
  | [] => (r, d)
  | x :: h => let '(r1, d1) := write_data r d x in write_all r1 d1 h
  end.

(** the value the file holds for a name at a level, whatever its kind *)
Definition holds (d : disk) (l : Z) (n v : string) : Prop :=
  exists b r, read_data d l b = Some (l, r) /\ In (n, v) r.

(** the events of a new run: at step [s], the levels of the results and of the restart data *)
Definition expected_event (ndump stride s : Z) : Z * option Z * option Z :=
  (s, if s mod ndump =? 0 then Some (s / ndump) else None,
      if (0 <? s) && (s mod stride =? 0) then Some (s / stride - 1) else None).
Definition steps_from (s : Z) (n : nat) : list Z := map (fun k => s + Z.of_nat k) (seq 0 n).
