(** Model of the restart file (src/Utility/HDF5Restart.C, HDF5Base.C) and of the schedule of the output of a
    transient simulation (src/Utility/DataExporter.C dumpTimeLevel, Apps/Utils/SIMSolver.h).  One process; the HDF5
    library keeps the effects of the completed calls in order.  A dataset that has been created but not written has
    no storage. *)
From Coq Require Import List ZArith Bool Ascii String.
Import ListNotations.
Open Scope bool_scope.
Open Scope Z_scope.

(** HDF5Restart.h SerializeData: std::map<string,string>, by increasing names *)
Definition sdata := list (string * string).

Inductive dset := DEmpty | DData (content : string).
(** a level has the sub-group "0" of the process or not *)
Definition grp := list (string * dset).
Definition hfile := list (Z * option grp).
(** [None] = the file does not exist *)
Definition disk := option hfile.

Definition find_grp (f : hfile) (l : Z) : option (option grp) :=
  match find (fun p => fst p =? l) f with Some p => Some (snd p) | None => None end.
Definition set_grp (f : hfile) (l : Z) (g : option grp) : hfile :=
  map (fun p => if fst p =? l then (fst p, g) else p) f.
Definition has_set (f : hfile) (l : Z) (name : string) : bool :=
  match find_grp f l with Some (Some g) => existsb (fun p => String.eqb (fst p) name) g | _ => false end.
(** H5Dcreate2 / H5Dwrite of a dataset in the group of the process *)
Definition put_set (f : hfile) (l : Z) (name : string) (v : dset) : hfile :=
  match find_grp f l with Some (Some g) => set_grp f l (Some (g ++ [(name, v)])) | _ => f end.

(** HDF5Restart.C:56-58: the group of the level *)
Definition add_level (f : hfile) (l : Z) : hfile :=
  match find_grp f l with Some _ => f | None => f ++ [(l, None)] end.
(** HDF5Restart.C:109-112: the group of the process *)
Definition add_group (f : hfile) (l : Z) : hfile :=
  match find_grp f l with Some None => set_grp f l (Some []) | _ => f end.

(** HDF5Restart.C:104-118: the states of the file while one entry is written (group, creation, contents) *)
Definition entry_trace (f : hfile) (l : Z) (e : string * string) : list hfile :=
  let f1 := add_group f l in
  if has_set f1 l (fst e) then [f1]
  else let f2 := put_set f1 l (fst e) DEmpty in
       if (0 <? String.length (snd e))%nat then [f1; f2; put_set f1 l (fst e) (DData (snd e))] else [f1; f2].
Fixpoint entries_trace (f : hfile) (l : Z) (d : sdata) : list hfile :=
  match d with
  | [] => []
  | e :: r => let t := entry_trace f l e in t ++ entries_trace (last t f) l r
  end.
(** HDF5Restart.C:48-121 writeData for the level l: all states of the file; the last one is the result *)
Definition write_trace (d : disk) (l : Z) (data : sdata) : list hfile :=
  let f0 := match d with Some f => f | None => [] end in
  let f1 := add_level f0 l in f0 :: f1 :: entries_trace f1 l data.
Definition write_level (d : disk) (l : Z) (data : sdata) : hfile := last (write_trace d l data) [].

(** the object: HDF5Restart.h:60-63, constructor HDF5Restart.C:32-36 *)
Record rst := mkRst { r_stride : Z; r_level : Z; r_last : Z }.
Definition new_rst (stride level0 : Z) : rst := mkRst stride (level0 - 1) 0.
(** HDF5Restart.C:39-46 dumpStep *)
Definition dump_step (r : rst) (step : Z) : bool * rst :=
  if step <? r_last r + r_stride r then (false, r) else (true, mkRst (r_stride r) (r_level r) step).
(** HDF5Restart.C:49-126 writeData: increments the level *)
Definition write_data (r : rst) (d : disk) (data : sdata) : rst * disk :=
  (mkRst (r_stride r) (r_level r + 1) (r_last r), Some (write_level d (r_level r + 1) data)).

(** strstr (name,"::basis"), HDF5Restart.C:137 *)
Fixpoint contains (pat s : string) : bool :=
  String.prefix pat s || match s with EmptyString => false | String _ r => contains pat r end.
Definition is_basis (name : string) : bool := contains "::basis" name.

(** HDF5Restart.C:159-197 readData: the level and the data read; [None] = negative return value *)
Definition read_entries (g : grp) (basis : bool) : sdata :=
  flat_map (fun p => match snd p with
                     | DData s => if Bool.eqb (is_basis (fst p)) basis then [(fst p, s)] else []
                     | DEmpty => []
                     end) g.
Definition last_level (f : hfile) (level : Z) : Z := fold_left (fun m p => if m <? fst p then fst p else m) f level.
Definition read_data (d : disk) (level : Z) (basis : bool) : option (Z * sdata) :=
  match d with
  | None => None
  | Some f => let l := if level <? 0 then last_level f level else level in
              match find_grp f l with Some (Some g) => Some (l, read_entries g basis) | _ => None end
  end.

(** the exporter: DataExporter.h:79-80 and 153-156 *)
Record expo := mkExpo { e_ndump : Z; e_level : Z; e_last : Z }.
Definition new_expo (ndump level0 : Z) : expo := mkExpo ndump (level0 - 1) (-1).
(** DataExporter.C:94-121 dumpTimeLevel with a time step: the level written, if any *)
Definition dump_level (e : expo) (step : Z) : option Z * expo :=
  if (0 <? step) && (step <? Z.max 0 (e_last e) + e_ndump e) then (None, e)
  else (Some (e_level e + 1), mkExpo (e_ndump e) (e_level e + 1) step).

(** Apps/Utils/SIMSolver.h:226-256 saveState for a time step: the level of the results and the level of the
    restart data written for the step (always serializable) *)
Definition save_state (er : expo * rst) (step : Z) : (Z * option Z * option Z) * (expo * rst) :=
  let '(lev, e) := dump_level (fst er) step in
  let '(b, r) := dump_step (snd er) step in
  if b then ((step, lev, Some (r_level r + 1)), (e, mkRst (r_stride r) (r_level r + 1) (r_last r)))
  else ((step, lev, None), (e, r)).
(** Apps/Utils/SIMSolver.h:152-174 solveProblem: the initial state, then one state per time step *)
Fixpoint run_steps (er : expo * rst) (first : Z) (n : nat) : list (Z * option Z * option Z) * (expo * rst) :=
  match n with
  | O => ([], er)
  | S m => let '(ev, er1) := save_state er first in
           let '(evs, er2) := run_steps er1 (first + 1) m in (ev :: evs, er2)
  end.
(** a new run saves steps 0, 1, ..., n-1; a run restarted from level [L] of the restart file, with the level [T] of
    the results stored in it (SIMSolver.h:266-300), saves the steps from the restored one on *)
Definition new_run (ndump stride : Z) (n : nat) := run_steps (new_expo ndump 0, new_rst stride 0) 0 n.
Definition restarted_run (ndump stride L T step : Z) (n : nat) := run_steps (new_expo ndump T, new_rst stride L) step n.

(** the restart file while the run goes on: [state s] = the serialized state at step s *)
Fixpoint write_events (d : disk) (state : Z -> sdata) (evs : list (Z * option Z * option Z)) : disk :=
  match evs with
  | [] => d
  | (s, _, Some l) :: r => write_events (Some (write_level d l (state s))) state r
  | (_, _, None) :: r => write_events d state r
  end.
