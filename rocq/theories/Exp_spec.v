(** Specification for the results file: the snapshots of the fields that a program dumps. *)
From Coq Require Import List ZArith Bool String.
From Verif Require Import Rst_model Exp_model.
Import ListNotations.
Open Scope Z_scope.

(** a declared field: name, type, to be written once only *)
Definition decl := (string * kind * bool)%type.
Definition d_name (d : decl) : string := fst (fst d).
Definition d_kind (d : decl) : kind := snd (fst d).
Definition d_once (d : decl) : bool := snd d.

Definition upd {A} (f : string -> A) (n : string) (v : A) : string -> A := fun m => if String.eqb m n then v else f m.

(** the fields of the exporter with the current values and enabled flags *)
Definition fields_of (ds : list decl) (val : string -> Z) (en : string -> bool) : fields :=
  map (fun d => (d_name d, mkF (d_kind d) (d_once d) (en (d_name d)) (PData (val (d_name d))))) ds.

(** what a user expects in a level: the enabled fields with their current values ... *)
Definition snapshot (ds : list decl) (val : string -> Z) (en : string -> bool) : list (string * Z) :=
  flat_map (fun d => if en (d_name d) then [(d_name d, val (d_name d))] else []) ds.
Definition is_once (ds : list decl) (n : string) : bool := existsb (fun d => String.eqb (d_name d) n && d_once d) ds.
(** ... for the steps that are due, fields marked once only the first time *)
Fixpoint snapshots (ds : list decl) (ndump : Z) (val : string -> Z) (en : string -> bool) (lst : Z) (ops : list xop) : list (list (string * Z)) :=
  match ops with
  | [] => []
  | OSet n (PData v) :: r => snapshots ds ndump (upd val n v) en lst r
  | OEnable n b :: r => snapshots ds ndump val (upd en n b) lst r
  | ODump (Some s) :: r =>
      if (s <=? 0) || (Z.max 0 lst + ndump <=? s)
      then snapshot ds val en :: snapshots ds ndump val (fun n => en n && negb (is_once ds n)) s r
      else snapshots ds ndump val en lst r
  | _ :: r => snapshots ds ndump val en lst r
  end.

(** a program that sets values, enables or disables fields and dumps time steps *)
Definition plain_op (o : xop) : Prop :=
  match o with OSet _ (PData _) => True | OEnable _ _ => True | ODump (Some _) => True | _ => False end.

(** levels [l], [l+1], ... *)
Fixpoint numbered {A} (l : Z) (xs : list A) : list (Z * A) :=
  match xs with [] => [] | x :: r => (l, x) :: numbered (l + 1) r end.

(** the field types that are stored as expected *)
Definition storable (d : decl) : Prop := d_kind d = KInt \/ d_kind d = KSim.
