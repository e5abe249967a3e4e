(** Model of the results file: DataExporter (src/Utility/DataExporter.C) with one HDF5Writer (src/Utility/HDF5Writer.C).
    One process.  A field is reduced to one value (a number); a SIM or KNOTSPAN field to one dataset under its level.
    Not modelled: the bases, the time info, the log, eigenmodes, several writers. *)
From Coq Require Import List ZArith Bool String.
From Verif Require Import Rst_model.
Import ListNotations.
Open Scope bool_scope.
Open Scope Z_scope.

(** DataExporter.h:41-48 (VECTOR, INTVECTOR, SIM, KNOTSPAN) *)
Inductive kind := KVector | KInt | KSim | KKnot.
(** the pointer to the data: not initialised (DataExporter.C:61-70 leaves it so), null or pointing to a value *)
Inductive ptr := PUninit | PNull | PData (v : Z).
(** DataExporter.h:65-77 FileEntry; [f_once] = the flag ONCE *)
Record fentry := mkF { f_kind : kind; f_once : bool; f_enabled : bool; f_data : ptr }.
Definition fields := list (string * fentry).

(** the file: the levels with their datasets, and the datasets in the root *)
Record rfile := mkFile { r_levels : list (Z * list (string * Z)); r_root : list (string * Z) }.
(** HDF5Writer: m_flag == H5F_ACC_TRUNC, m_file != -1, and the file on the disk *)
Record writer := mkW { w_trunc : bool; w_open : bool; w_disk : option rfile }.
(** HDF5Writer.C:37-49 constructor *)
Definition new_writer (append : bool) (disk : option rfile) : writer :=
  mkW (negb (append && match disk with Some _ => true | None => false end)) false disk.

Definition has_level (f : rfile) (l : Z) : bool := existsb (fun p => fst p =? l) (r_levels f).
(** H5Dcreate2 fails when the name exists: the old contents stay *)
Definition add_data (ds : list (string * Z)) (n : string) (v : Z) : list (string * Z) :=
  if existsb (fun p => String.eqb (fst p) n) ds then ds else ds ++ [(n, v)].
Definition put_level (f : rfile) (l : Z) (n : string) (v : Z) : rfile :=
  mkFile (map (fun p => if fst p =? l then (fst p, add_data (snd p) n v) else p) (r_levels f)) (r_root f).

(** HDF5Writer.C:79-105 openFile: nothing is done when the file is open already *)
Definition open_writer (w : writer) (level : Z) : writer :=
  if w_open w then w
  else let trunc := w_trunc w || match w_disk w with None => true | Some _ => false end in
       let f := if trunc then mkFile [] [] else match w_disk w with Some f => f | None => mkFile [] [] end in
       let f1 := if has_level f level then f else mkFile (r_levels f ++ [(level, [])]) (r_root f) in
       mkW trunc true (Some f1).
(** HDF5Writer.C:108-118 closeFile *)
Definition close_writer (w : writer) : writer := mkW false false (w_disk w).

(** HDF5Writer.C:52-76 getLastTimeLevel: counts the levels 0, 1, ... that exist; the loop increments once more after the
    first missing one, so the number of levels is returned ([fuel] = more than the number of levels) *)
Fixpoint count_levels (f : rfile) (result : Z) (fuel : nat) : Z :=
  match fuel with
  | O => result
  | S k => if has_level f result then count_levels f (result + 1) k else result + 1
  end.
Definition last_time_level (w : writer) : Z :=
  if w_trunc w then -1
  else match w_disk w with
       | None => -1
       | Some f => count_levels f 0 (S (List.length (r_levels f))) - 1
       end.

(** one entry, HDF5Writer.C:188-213 (vectors), 231-235 (SIM), 538-545 (knotspan): a SIM or knotspan field is not stored
    when the level is missing; an INTVECTOR then goes to the root, as writeArray (HDF5Writer.C:131-140, 161) takes the
    file for the group -1; a VECTOR is given the level number as the group (HDF5Writer.C:202), an invalid handle *)
Definition write_field (f : rfile) (level : Z) (n : string) (e : fentry) (v : Z) : rfile :=
  match f_kind e with
  | KVector => f
  | KInt => if f_enabled e then
              if has_level f level then put_level f level n v else mkFile (r_levels f) (add_data (r_root f) n v)
            else f
  | KSim => if f_enabled e then put_level f level n v else f
  | KKnot => put_level f level n v
  end.
(** DataExporter.C:126-151: None = undefined behaviour (a pointer that was never set); the flag: false = null pointer met *)
Fixpoint write_fields (f : rfile) (level : Z) (fs : fields) : option (bool * rfile) :=
  match fs with
  | [] => Some (true, f)
  | (n, e) :: r => match f_data e with
                   | PUninit => None
                   | PNull => Some (false, f)
                   | PData v => write_fields (write_field f level n e v) level r
                   end
  end.

Record exporter := mkX { x_expo : expo; x_fields : fields; x_writer : writer }.
(** DataExporter.C:51-73 registerField (the map is ordered by name: a registration keeps the order) *)
Fixpoint insert_field (fs : fields) (n : string) (e : fentry) : fields :=
  match fs with
  | [] => [(n, e)]
  | (m, x) :: r => match String.compare n m with
                   | Eq => fs
                   | Lt => (n, e) :: fs
                   | Gt => (m, x) :: insert_field r n e
                   end
  end.
Definition register_field (x : exporter) (n : string) (k : kind) (once : bool) : exporter :=
  mkX (x_expo x) (insert_field (x_fields x) n (mkF k once true PUninit)) (x_writer x).
Definition update_field (fs : fields) (n : string) (g : fentry -> fentry) : fields :=
  map (fun p => if String.eqb (fst p) n then (fst p, g (snd p)) else p) fs.
(** DataExporter.C:76-92 setFieldValue *)
Definition set_value (x : exporter) (n : string) (p : ptr) : exporter :=
  mkX (x_expo x) (update_field (x_fields x) n (fun e => mkF (f_kind e) (f_once e) (f_enabled e) p)) (x_writer x).
(** DataExporter.C:171-182 OnControl enable_field *)
Definition enable_field (x : exporter) (n : string) (b : bool) : exporter :=
  mkX (x_expo x) (update_field (x_fields x) n (fun e => mkF (f_kind e) (f_once e) b (f_data e))) (x_writer x).
(** DataExporter.C:158-161 *)
Definition disable_once (fs : fields) : fields :=
  map (fun p => (fst p, if f_once (snd p) then mkF (f_kind (snd p)) true false (f_data (snd p)) else snd p)) fs.

(** DataExporter.C:95-164 dumpTimeLevel, [step] = the time step if given *)
Definition dump_time_level (x : exporter) (step : option Z) : option (bool * exporter) :=
  let due := match step with
             | Some s => dump_level (x_expo x) s
             | None => let e := x_expo x in
                       let lev := if e_level e <? 0 then last_time_level (x_writer x) else e_level e in
                       (Some (lev + 1), mkExpo (e_ndump e) (lev + 1) (e_last e))
             end in
  match fst due with
  | None => Some (true, x)
  | Some level =>
      let w1 := open_writer (x_writer x) level in
      match w_disk w1 with
      | None => Some (false, mkX (snd due) (x_fields x) w1)
      | Some f => match write_fields f level (x_fields x) with
                  | None => None
                  | Some (false, f') => Some (false, mkX (snd due) (x_fields x) (mkW (w_trunc w1) (w_open w1) (Some f')))
                  | Some (true, f') => Some (true, mkX (snd due) (disable_once (x_fields x)) (close_writer (mkW (w_trunc w1) (w_open w1) (Some f'))))
                  end
      end
  end.

(** the constructor of the exporter, DataExporter.h:83-84 *)
Definition new_exporter (ndump level0 : Z) (append : bool) (disk : option rfile) : exporter :=
  mkX (new_expo ndump level0) [] (new_writer append disk).

(** a program: registrations, values, control messages, dumps *)
Inductive xop := ORegister (n : string) (k : kind) (once : bool) | OSet (n : string) (p : ptr) | OEnable (n : string) (b : bool) | ODump (step : option Z).
Definition xstep (x : exporter) (o : xop) : option exporter :=
  match o with
  | ORegister n k once => Some (register_field x n k once)
  | OSet n p => Some (set_value x n p)
  | OEnable n b => Some (enable_field x n b)
  | ODump s => match dump_time_level x s with Some (_, x') => Some x' | None => None end
  end.
Fixpoint xrun (x : exporter) (ops : list xop) : option exporter :=
  match ops with
  | [] => Some x
  | o :: r => match xstep x o with Some x' => xrun x' r | None => None end
  end.
