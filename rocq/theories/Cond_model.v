(** Model of the static condensation of src/ASM/AlgEqSystem.C: the reduced system, the
    recovery matrix and its file, and the recovery of the internal unknowns.

    The equation solver (SparseMatrix::solve) is a parameter: [solve M v] is the solution
    vector or None (failure).  A function result [None] is undefined behaviour (index out
    of range), [Some None] the return value false. *)
From Coq Require Import List Arith ZArith QArith Qcanon Bool Lia Ascii.
From Verif Require Import Base SAM_model Sparse_model Mat_model.
Import ListNotations.
Local Open Scope nat_scope.

(** ** Retained equations *)

(** LinAlg/SAM.C:721-735 getNodeEqns *)
Definition getNodeEqns (s : tables) (inod : Z) : option (list Z) :=
  if (inod <? 1)%Z || (Z.of_nat (nnod s) <? inod)%Z then None
  else let k := Z.to_nat inod in
       Some (firstn (nth k (madof s) 0 - nth (k - 1) (madof s) 0) (skipn (nth (k - 1) (madof s) 0 - 1) (meqn s))).
(** AlgEqSystem.C:365-370 and 532-537: equations of all the nodes *)
Fixpoint nodesEqns (s : tables) (ext : list Z) : option (list Z) :=
  match ext with
  | [] => Some []
  | i :: r => match getNodeEqns s i with
              | None => None
              | Some m => match nodesEqns s r with None => None | Some l => Some (m ++ l) end
              end
  end.
(** std::sort (here by insertion: the result of sorting integers is unique) *)
Fixpoint insertZ (x : Z) (l : list Z) : list Z :=
  match l with [] => [x] | y :: r => if (x <=? y)%Z then x :: l else y :: insertZ x r end.
Definition sortZ (l : list Z) : list Z := fold_right insertZ [] l.

(** AlgEqSystem.C:399-406: internal and external part of the vector [R]; [meqn2[ip2]] is
    read without test of the size *)
Fixpoint partVec (eqs : list nat) (meqn2 : list Z) (R : list Qc) : option (list Qc * list Qc) :=
  match eqs with
  | [] => Some ([], [])
  | ieq :: r =>
    match meqn2, nth_error R ieq with
    | m :: q, Some v =>
      if (Z.of_nat ieq + 1 <? m)%Z then match partVec r meqn2 R with Some (a, b) => Some (v :: a, b) | None => None end
      else match partVec r q R with Some (a, b) => Some (a, v :: b) | None => None end
    | _, _ => None
    end
  end.

(** LinAlg/MatVec.C:43-48 operator-, for vectors of the same length *)
Definition vminus (a b : list Qc) : list Qc := map (fun p => (fst p - snd p)%Qc) (combine a b).

(** ** Condensation *)

(** AlgEqSystem.C:440-468: columns [j] = 1..[n] of the reduced matrix and of the recovery matrix *)
Fixpoint condCols (solve : spm -> list Qc -> option (list Qc)) (A11 A21 A12 A22 : spm) (js : list nat) (Ared : mat)
  : option (option (mat * list (list Qc))) :=
  match js with
  | [] => Some (Some (Ared, []))
  | j :: r =>
    let R2 := snd (Sparse_model.getColumn A22 j) in
    match solve A11 (snd (Sparse_model.getColumn A12 j)) with
    | None => Some None
    | Some R1 =>
      match Sparse_model.multiply A21 R1 with
      | None => None
      | Some (false, _) => Some None
      | Some (true, Rtmp) =>
        match fillColumn j (vminus R2 Rtmp) Ared with
        | None => None
        | Some Ared' =>
          match condCols solve A11 A21 A12 A22 r Ared' with
          | Some (Some (B, cols)) => Some (Some (B, map (fun x => (- x)%Qc) R1 :: cols))
          | o => o
          end
        end
      end
    end
  end.

(** the results: reduced matrix, reduced right-hand side, columns of the recovery matrix *)
Record reduced := mkRed { rA : mat; rb : list Qc; rec : list (list Qc) }.
(** AlgEqSystem.C:353-472 staticCondensation; [As]: matrices (None: other types) and
    associated vectors, [A0]: the matrix passed in for the result *)
Definition condense (solve : spm -> list Qc -> option (list Qc)) (s : tables)
  (As : list (option spm * option (list Qc))) (ext : list Z) (imat : nat) (A0 : mat) : option (option reduced) :=
  if length As <? imat then Some None
  else match nth_error As imat with
  | None => None
  | Some (Some M, Some R) =>
    match nodesEqns s ext with
    | None => Some None
    | Some l0 =>
      if existsb (fun e => (e <=? 0)%Z) l0 then Some None
      else
        let meqn2 := sortZ l0 in
        match split M meqn2 with
        | None => None
        | Some None => Some None
        | Some (Some (A11, A21, A12, A22)) =>
          match partVec (seq 0 (nrow M)) meqn2 R with
          | None => None
          | Some (R1, R2) =>
            (* as many writes to R1 and R2 as there are equations: none is outside if the numbers agree *)
            if negb ((length R1 =? nrow A11) && (length R2 =? nrow A21)) then None
            else match solve A11 R1 with
            | None => Some None
            | Some y =>
              match Sparse_model.multiply A21 y with
              | None => None
              | Some (false, _) => Some None
              | Some (true, Rtmp) =>
                match condCols solve A11 A21 A12 A22 (seq 1 (nrow A21)) (mresize (nrow A21) (nrow A21) false A0) with
                | None => None
                | Some None => Some None
                | Some (Some (B, cols)) => Some (Some (mkRed B (vminus R2 Rtmp) (y :: cols)))
                end
              end
            end
          end
        end
    end
  | Some _ => Some None
  end.

(** ** Recovery of the internal unknowns *)

(** AlgEqSystem.C:553-562: the full vector; [meqn2[ip2]] is read without test of the size *)
Fixpoint joinVec (eqs : list nat) (meqn2 : list Z) (x1 x2 : list Qc) : option (list Qc) :=
  match eqs with
  | [] => Some []
  | ieq :: r =>
    match meqn2 with
    | [] => None
    | m :: q =>
      if (Z.of_nat ieq + 1 <? m)%Z
      then match x1 with [] => None | v :: t => option_map (cons v) (joinVec r meqn2 t x2) end
      else match x2 with [] => None | v :: t => option_map (cons v) (joinVec r q x1 t) end
    end
  end.
(** AlgEqSystem.C:521-566 recoverInternals *)
Definition recoverInternals (s : tables) (Rmat : mat) (ext : list Z) (xe : list Qc) : option (option (list Qc)) :=
  match mulVec Rmat (1%Qc :: xe) [] false 0%Z with
  | None => None
  | Some (false, _) => Some None
  | Some (true, x1) =>
    match nodesEqns s ext with
    | None => Some None
    | Some l0 =>
      let meqn2 := sortZ l0 in
      if negb ((Z.of_nat (length x1) =? Z.of_nat (neq s) - Z.of_nat (length meqn2))%Z && (length meqn2 =? length xe)) then Some None
      else match joinVec (seq 0 (neq s)) meqn2 x1 xe with
           | None => None
           | Some x => Some (expandVector s 1%Qc x)
           end
    end
  end.

(** ** The recovery file *)

(** printf("%zu") *)
Definition digit (d : nat) : ascii := ascii_of_nat (48 + d).
Fixpoint digs (fuel n : nat) (acc : list ascii) : list ascii :=
  match fuel with
  | O => acc
  | S f => if n <? 10 then digit n :: acc else digs f (n / 10) (digit (n mod 10) :: acc)
  end.
Definition decimal (n : nat) : list ascii := digs (S n) n [].
Definition magic : list ascii := ["#";"I";"F";"E";"M";" ";"r";"e";"c";"o";"v";"e";"r";"y";" ";"m";"a";"t";"r";"i";"x";":"]%char.
Definition newline : ascii := "010"%char.
(** AlgEqSystem.C:418-432, 461-468: the file; [enc] gives the bytes of a number.  If the
    file cannot be opened nothing is written (and staticCondensation goes on) *)
Definition recFile (enc : Qc -> list ascii) (canOpen : bool) (n1 : nat) (cols : list (list Qc)) : option (list ascii) :=
  if canOpen then Some (magic ++ [" "%char] ++ decimal n1 ++ [" "%char] ++ decimal (length cols) ++ [newline] ++ flat_map (flat_map enc) cols)
  else None.

(** getline(): the first line with its newline, and the rest *)
Fixpoint getline (f : list ascii) : list ascii * list ascii :=
  match f with
  | [] => ([], [])
  | c :: r => if Ascii.eqb c newline then ([c], r) else let '(a, b) := getline r in (c :: a, b)
  end.
(** strstr(header,magic) *)
Fixpoint prefixB (p l : list ascii) : bool :=
  match p, l with
  | [], _ => true
  | a :: p', b :: l' => Ascii.eqb a b && prefixB p' l'
  | _, [] => false
  end.
Fixpoint contains (p l : list ascii) : bool :=
  prefixB p l || match l with [] => false | _ :: r => contains p r end.
(** sscanf("%zu"): white space, then digits (signs and overflow are not modelled) *)
Definition isSpace (c : ascii) : bool := Ascii.eqb c " " || ((9 <=? nat_of_ascii c) && (nat_of_ascii c <=? 13)).
Definition isDigit (c : ascii) : bool := (48 <=? nat_of_ascii c) && (nat_of_ascii c <=? 57).
Fixpoint skipSpace (l : list ascii) : list ascii :=
  match l with [] => [] | c :: r => if isSpace c then skipSpace r else l end.
Fixpoint scanDigits (l : list ascii) (acc : nat) : nat * list ascii :=
  match l with
  | [] => (acc, [])
  | c :: r => if isDigit c then scanDigits r (10 * acc + (nat_of_ascii c - 48)) else (acc, l)
  end.
Definition scanNum (l : list ascii) : option (nat * list ascii) :=
  match skipSpace l with
  | c :: r => if isDigit c then Some (scanDigits (c :: r) 0) else None
  | [] => None
  end.
(** fread of [n] numbers of 8 bytes: the numbers read and the rest *)
Fixpoint fread (dec : list ascii -> Qc) (n : nat) (f : list ascii) : list Qc * list ascii :=
  match n with
  | O => ([], f)
  | S k => if length f <? 8 then ([], []) else let '(a, b) := fread dec k (skipn 8 f) in (dec (firstn 8 f) :: a, b)
  end.
(** AlgEqSystem.C:502-509: columns [c] of the matrix, until one is incomplete; the numbers
    that were read are stored in the column.  Rmat.ptr(c) is null for an empty matrix, then n1 = 0 *)
Fixpoint readCols (dec : list ascii -> Qc) (n1 : nat) (cs : list nat) (f : list ascii) (M : mat) : option (bool * mat) :=
  match cs with
  | [] => Some (true, M)
  | c :: r =>
    let '(col, f') := fread dec n1 f in
    match fillColumn (c + 1) col M with
    | None => None
    | Some M' => if length col <? n1 then Some (false, M') else readCols dec n1 r f' M'
    end
  end.
(** AlgEqSystem.C:475-518 readRecoveryMatrix *)
Definition readRec (dec : list ascii -> Qc) (file : option (list ascii)) (M : mat) : option (bool * mat) :=
  match file with
  | None => Some (false, M)
  | Some f =>
    let '(h, rest) := getline f in
    match h with
    | [] => Some (false, M)
    | _ =>
      if contains magic h then
        match scanNum (skipn 22 h) with
        | None => Some (false, M)
        | Some (n1, t) =>
          match scanNum t with
          | None => Some (false, M)
          | Some (n2, _) => readCols dec n1 (seq 0 n2) rest (mresize n1 n2 false M)
          end
        end
      else Some (false, M)
    end
  end.
