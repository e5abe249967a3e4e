(** Model of multi-point constraint equations: src/Utility/MPC.C, MPC.h, the set
    ordering MPCLess, and the model-level processing in src/ASM/ASMbase.C
    (mergeAndGetAllMPCs, resolveMPCchains).

    Coefficients are exact rationals (so NaN is excluded).  Equations live in a list and
    pointers between them ([nextc]) are positions in that list. *)
From Coq Require Import List Arith ZArith QArith Qcanon Bool Lia.
From Verif Require Import Base.
Import ListNotations.
Local Open Scope Z_scope.

(** MPC.h:58-93 struct DOF: node, local DOF, coefficient, pointer to the next equation *)
Record dofT := mkD { dnode : Z; dldof : Z; dcoef : Qc; dnext : option nat }.
(** MPC.h:210-215: slave (its coefficient is the constant c0) and masters *)
Record mpc := mkMPC { mslave : dofT; mmast : list dofT }.

(** MPC.h:79-82 operator== of DOF: node and local DOF *)
Definition sameDof (a b : dofT) : bool := (dnode a =? dnode b) && (dldof a =? dldof b).
Definition qltb (a b : Qc) : bool := match Qccompare a b with Lt => true | _ => false end.
(** MPC.C:25-36 operator< of DOF; [so] is MPCLess::compareSlaveDofOnly *)
Definition dofLess (so : bool) (a b : dofT) : bool :=
  if dnode a <? dnode b then true else if dnode b <? dnode a then false
  else if dldof a <? dldof b then true else if dldof b <? dldof a then false
  else if so then false else qltb (dcoef a) (dcoef b).
(** MPC.C:50-57: the loop over the masters *)
Fixpoint mastLess (so : bool) (a b : list dofT) : bool :=
  match a, b with
  | x :: a', y :: b' => if dofLess so x y then true else if dofLess so y x then false else mastLess so a' b'
  | [], _ :: _ => true
  | _, [] => false
  end.
(** MPC.C:39-58 MPCLess::operator(); [None] is the null pointer *)
Definition mpcLess (so : bool) (a b : option mpc) : bool :=
  match b with
  | None => false
  | Some y =>
    match a with
    | None => true
    | Some x => if dofLess so (mslave x) (mslave y) then true
                else if dofLess so (mslave y) (mslave x) then false
                else if so then false else mastLess so (mmast x) (mmast y)
    end
  end.

(** MPC.C:74-83 addMaster *)
Fixpoint bumpMaster (d : dofT) (l : list dofT) : list dofT :=
  match l with
  | [] => [d]
  | x :: r => if sameDof x d then mkD (dnode x) (dldof x) (dcoef x + dcoef d)%Qc (dnext x) :: r else x :: bumpMaster d r
  end.
Definition negligible (tol c : Qc) : bool := negb (qltb c (- tol)%Qc) && negb (qltb tol c).
Definition addMaster (tol : Qc) (d : dofT) (m : mpc) : mpc :=
  if negligible tol (dcoef d) then m else mkMPC (mslave m) (bumpMaster d (mmast m)).

Definition qabsv (x : Qc) : Qc := if qltb x 0 then (- x)%Qc else x.
(** MPC.C:93-96: the comparison of the master lists *)
Fixpoint identicMasters (tol : Qc) (a b : list dofT) : bool :=
  match a, b with
  | [], [] => true
  | x :: a', y :: b' => sameDof x y && qltb (qabsv (dcoef x - dcoef y)%Qc) tol && identicMasters tol a' b'
  | _, _ => false
  end.
(** MPC.C:86-103 merge *)
Definition mergeMPC (tol : Qc) (m other : mpc) : bool * mpc :=
  if negb (sameDof (mslave m) (mslave other) && (if Qc_eq_dec (dcoef (mslave m)) (dcoef (mslave other)) then true else false))
  then (false, m)
  else if identicMasters tol (mmast m) (mmast other) then (false, m)
  else (true, fold_left (fun a d => addMaster tol d a) (mmast other) m).

(** MPC.C:106-114 renumberNodes with utl::renumber (Utilities.C:409-422): number of
    invalid node numbers and the new equation; [old2new] is a std::map *)
Fixpoint zfind (n : Z) (m : list (Z * Z)) : option Z :=
  match m with [] => None | (a, b) :: r => if n =? a then Some b else zfind n r end.
Definition renumDof (old2new : list (Z * Z)) (d : dofT) : dofT :=
  match zfind (dnode d) old2new with Some n => mkD n (dldof d) (dcoef d) (dnext d) | None => d end.
Definition badDof (old2new : list (Z * Z)) (d : dofT) : nat :=
  match zfind (dnode d) old2new with Some _ => 0 | None => 1 end.
Definition renumberMPC (old2new : list (Z * Z)) (m : mpc) : nat * mpc :=
  ((badDof old2new (mslave m) + list_sum (map (badDof old2new) (mmast m)))%nat,
   mkMPC (renumDof old2new (mslave m)) (map (renumDof old2new) (mmast m))).
(** MPC.C:117-122 shiftNodes *)
Definition shiftDof (k : Z) (d : dofT) : dofT := mkD (dnode d + k) (dldof d) (dcoef d) (dnext d).
Definition shiftMPC (k : Z) (m : mpc) : mpc := mkMPC (shiftDof k (mslave m)) (map (shiftDof k) (mmast m)).

(** ** Sets of equations (std::set<MPC*,MPCLess>), a list in increasing order *)

(** std::set::insert: the set, and whether the equation was new *)
Fixpoint setInsert (so : bool) (m : mpc) (l : list mpc) : bool * list mpc :=
  match l with
  | [] => (true, [m])
  | x :: r => if mpcLess so (Some x) (Some m)
              then let '(b, r') := setInsert so m r in (b, x :: r')
              else if mpcLess so (Some m) (Some x) then (true, m :: l) else (false, l)
  end.
(** std::set::find of an equation with the given slave DOF, in slave-only mode: its position *)
Fixpoint findSlave (l : list mpc) (n d : Z) : option nat :=
  match l with
  | [] => None
  | x :: r => if (dnode (mslave x) =? n) && (dldof (mslave x) =? d) then Some O else option_map S (findSlave r n d)
  end.

(** ** ASMbase.C:1008-1067 mergeAndGetAllMPCs, slave-only mode (SIMbase.C:79).
    Each element of the global set carries the patch that owns it. *)
Notation owned := (nat * mpc)%type.
Fixpoint insertOwned (tol : Qc) (p : nat) (m : mpc) (l : list owned) : list owned :=
  match l with
  | [] => [(p, m)]
  | (q, x) :: r =>
    if mpcLess true (Some x) (Some m) then (q, x) :: insertOwned tol p m r
    else if mpcLess true (Some m) (Some x) then (p, m) :: l
    else if (if Qc_eq_dec (dcoef (mslave x)) 0 then true else false) && (1 <? length (mmast x))%nat
         then (q, snd (mergeMPC tol x m)) :: r
         else l
  end.
Definition mergeAll (tol : Qc) (patches : list (list mpc)) : list owned :=
  fold_left (fun acc p => fold_left (fun acc m => insertOwned tol (fst p) m acc) (snd p) acc)
            (combine (seq 0 (length patches)) patches) [].

(** ** ASMbase.C:1098-1140 resolveMPCchains, the lambda [resolve].
    [i] is the loop counter, [k] the position of the equation; the recursion has no
    bound in the code, here [fuel] bounds it ([None]: not finished). *)
Definition nthM (st : list mpc) (k : nat) : mpc := nth k st (mkMPC (mkD 0 0 0 None) []).
Definition removeAt {X} (i : nat) (l : list X) : list X := firstn i l ++ skipn (S i) l.
(** lines 1118-1131: replace master [i] of [m] by the terms of equation [c] *)
Definition substMaster (tol : Qc) (m : mpc) (i : nat) (c : mpc) : mpc :=
  match nth_error (mmast m) i with
  | None => m
  | Some d =>
    let m1 := mkMPC (mkD (dnode (mslave m)) (dldof (mslave m)) (dcoef (mslave m) + dcoef d * dcoef (mslave c))%Qc (dnext (mslave m)))
                    (removeAt i (mmast m)) in
    fold_left (fun a x => addMaster tol (mkD (dnode x) (dldof x) (dcoef x * dcoef d)%Qc None) a) (mmast c) m1
  end.
Fixpoint resolve (tol : Qc) (fuel : nat) (st : list mpc) (k i : nat) : option (bool * list mpc) :=
  match fuel with
  | O => None
  | S f =>
    match nth_error (mmast (nthM st k)) i with
    | None => Some (false, st)
    | Some d =>
      match findSlave st (dnode d) (dldof d) with
      | None => resolve tol f st k (S i)
      | Some j =>
        match resolve tol f st j 0 with
        | None => None
        | Some (_, st1) =>
          match resolve tol f (upd k (substMaster tol (nthM st1 k) i (nthM st1 j)) st1) k i with
          | None => None
          | Some (_, st2) => Some (true, st2)
          end
        end
      end
    end
  end.
(** ASMbase.C:1177-1191: the loop over all equations; number of resolved ones *)
Fixpoint resolveAll (tol : Qc) (fuel : nat) (ks : list nat) (st : list mpc) : option (nat * list mpc) :=
  match ks with
  | [] => Some (O, st)
  | k :: r =>
    match resolve tol fuel st k 0 with
    | None => None
    | Some (b, st1) =>
      match resolveAll tol fuel r st1 with
      | None => None
      | Some (n, st2) => Some ((if b then S n else n), st2)
      end
    end
  end.

(** ASMbase.C:1142-1175 the lambda [resolveLnk]: [fixedDof] tells if some patch has the
    DOF fixed (ASMbase::isFixed).  Fixed masters are removed, chained ones get their
    pointer set.  The result is false for an equation that says "slave = 0". *)
Definition linked (m : mpc) : bool :=
  negb (length (mmast m) =? 0)%nat || negb (if Qc_eq_dec (dcoef (mslave m)) 0 then true else false).
Definition setNext (i : nat) (j : nat) (m : mpc) : mpc :=
  match nth_error (mmast m) i with
  | None => m
  | Some d => mkMPC (mslave m) (upd i (mkD (dnode d) (dldof d) (dcoef d) (Some j)) (mmast m))
  end.
Definition dropMaster (i : nat) (m : mpc) : mpc := mkMPC (mslave m) (removeAt i (mmast m)).
Fixpoint resolveLnk (fixedDof : Z -> Z -> bool) (fuel : nat) (st : list mpc) (k i : nat) : option (bool * list mpc) :=
  match fuel with
  | O => None
  | S f =>
    match nth_error (mmast (nthM st k)) i with
    | None => Some (linked (nthM st k), st)
    | Some d =>
      if fixedDof (dnode d) (dldof d) || (dldof d <=? 0) then
        resolveLnk fixedDof f (upd k (dropMaster i (nthM st k)) st) k i
      else
        match findSlave st (dnode d) (dldof d) with
        | None => resolveLnk fixedDof f st k (S i)
        | Some j =>
          match resolveLnk fixedDof f st j 0 with
          | None => None
          | Some (false, st1) => resolveLnk fixedDof f (upd k (dropMaster i (nthM st1 k)) st1) k i
          | Some (true, st1) => resolveLnk fixedDof f (upd k (setNext i j (nthM st1 k)) st1) k (S i)
          end
        end
    end
  end.
Fixpoint resolveLnkAll (fixedDof : Z -> Z -> bool) (fuel : nat) (ks : list nat) (st : list mpc) : option (list mpc) :=
  match ks with
  | [] => Some st
  | k :: r => match resolveLnk fixedDof fuel st k 0 with
              | None => None
              | Some (_, st1) => resolveLnkAll fixedDof fuel r st1
              end
  end.
