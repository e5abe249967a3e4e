(** Model of the global node and equation numbers of a model whose patches are
    distributed over processes.

    Source: src/ASM/DomainDecomposition.C:509-640 (calcGlobalNodeNumbers) and 699-920
    (calcGlobalEqNumbers), src/ASM/DomainDecomposition.h:70-106 (SlaveOrder).
    Simplifications: the first block of equations only (the other blocks run the same
    code on their own vectors), no Lagrange multipliers, and the processes run one
    after the other in rank order (that every schedule gives the same messages is the
    subject of Ddm_model.v).  Process 0 is nobody's slave.  An interface is given by
    what the two patches put on it: the local equation (node) numbers of the master
    and of the slave, non-positive when the degree of freedom is constrained, and the
    positions of the OrientIterator (Sub_model.v). *)
From Coq Require Import ZArith List Bool.
From Verif Require Import Ddp_model.
Import ListNotations.
Local Open Scope Z_scope.

(** An error return, an access outside a vector (or a message longer than the vector
    that receives it), or a value. *)
Inductive out (A : Type) : Type := Ok (a : A) | Err | UB.
Arguments Ok {A} a.
Arguments Err {A}.
Arguments UB {A}.

(** Lines 785-795 and 903-913: an interface of which a process has the slave patch. *)
Record iface := { mproc : nat; mlist : list Z; slist : list Z; ord : list nat }.

(** What a process has when it is done: MLGEQ (MLGN), minEq (minNode), maxEq (maxNode). *)
Record pres := { ml : list Z; mn : Z; mx : Z }.

(** std::iota. *)
Fixpoint iotaZ (a : Z) (n : nat) : list Z :=
  match n with O => [] | S m => a :: iotaZ (a + 1) m end.

(** Lines 645-696, setupEquationNumbers for the first block: the present number of the
    equations, zero where there is none. *)
Fixpoint setupEqs (v : list Z) (eqs : list Z) : option (list Z) :=
  match eqs with
  | [] => Some []
  | e :: t =>
      match (if 0 <? e then nth_error v (Z.to_nat (e - 1)) else Some 0), setupEqs v t with
      | Some g, Some r => Some (g :: r)
      | _, _ => None
      end
  end.

(** std::vector<bool> assignment. *)
Fixpoint setFlag (l : list bool) (i : nat) : list bool :=
  match l, i with
  | [], _ => []
  | _ :: t, O => true :: t
  | x :: t, S j => x :: setFlag t j
  end.

(** Lines 831-852: the loop over the positions of the interface; i is the position on
    the slave, the list has the positions on the master. *)
Fixpoint linkLoop (nEqs : Z) (loc glb : list Z) (i : nat) (os : list nat)
  (st : list (Z * Z) * list bool) : out (list (Z * Z) * list bool) :=
  match os with
  | [] => Ok st
  | o :: t =>
      match nth_error loc i, nth_error glb o with
      | Some leq, Some geq =>
          if ((leq <? 1) && (0 <? geq)) || ((0 <? leq) && (geq <? 1)) then Err
          else if leq <? 1 then linkLoop nEqs loc glb (S i) t st
          else linkLoop nEqs loc glb (S i) t
                 ((leq, geq) :: fst st, setFlag (snd st) (Z.to_nat (leq - nEqs - 1)))
      | _, _ => UB
      end
  end.

(** Lines 785-857: one interface; mls are the vectors of the earlier processes. *)
Definition linkIface (mls : list (list Z)) (nEqs : Z) (v : list Z) (it : iface)
  (st : list (Z * Z) * list bool) : out (list (Z * Z) * list bool) :=
  match setupEqs v (slist it), setupEqs (nth (mproc it) mls []) (mlist it) with
  | Some loc, Some glb =>
      if negb (length glb =? length loc)%nat then Err
      else linkLoop nEqs loc glb 0 (ord it) st
  | _, _ => UB
  end.
Fixpoint linkAll (mls : list (list Z)) (nEqs : Z) (v : list Z) (its : list iface)
  (st : list (Z * Z) * list bool) : out (list (Z * Z) * list bool) :=
  match its with
  | [] => Ok st
  | it :: r => match linkIface mls nEqs v it st with
               | Ok st' => linkAll mls nEqs v r st'
               | Err => Err
               | UB => UB
               end
  end.

(** src/Utility/Utilities.C:376-390, utl::renumber without message. *)
Definition renum (m : list (Z * Z)) (v : Z) : Z := match lookup v m with Some g => g | None => v end.

(** Lines 866-870: numbers for the equations that are not on an interface. *)
Fixpoint restLoop (i : Z) (flags : list bool) (nEqs mxe : Z) (m : list (Z * Z)) : list (Z * Z) * Z :=
  match flags with
  | [] => (m, mxe)
  | true :: t => restLoop (i + 1) t nEqs mxe m
  | false :: t => restLoop (i + 1) t nEqs (mxe + 1) ((i + nEqs, mxe + 1) :: m)
  end.

(** Lines 742-873: a process with neq equations after the numbers up to nEqs are used. *)
Definition eqProc (mls : list (list Z)) (nEqs : Z) (neq : nat) (its : list iface) : out pres :=
  let v := iotaZ (nEqs + 1) neq in
  match linkAll mls nEqs v its ([], repeat false neq) with
  | Ok (m, flags) =>
      let v1 := map (renum m) v in
      let (m2, mxe) := restLoop 1 flags nEqs nEqs [] in
      Ok {| ml := map (renum m2) v1; mn := nEqs + 1; mx := mxe |}
  | Err => Err
  | UB => UB
  end.

(** Process 0 keeps its own numbers (lines 755-757). *)
Definition eqProc0 (neq : nat) : pres := {| ml := iotaZ 1 neq; mn := 1; mx := Z.of_nat neq |}.

(** The other processes in rank order; done are the results so far (rank order). *)
Fixpoint eqRest (done : list pres) (nEqs : Z) (procs : list (nat * list iface)) : out (list pres) :=
  match procs with
  | [] => Ok done
  | (neq, its) :: r =>
      match eqProc (map ml done) nEqs neq its with
      | Ok p => eqRest (done ++ [p]) (mx p) r
      | Err => Err
      | UB => UB
      end
  end.
Definition eqNumbers (procs : list (nat * list iface)) : out (list pres) :=
  match procs with
  | [] => Ok []
  | (neq, _) :: r => eqRest [eqProc0 neq] (Z.of_nat neq) r
  end.

(* ---- nodes ---- *)

(** Lines 566-575: the comparison of the sizes is the assignment nRecv = !size; the
    numbers are received in a vector of the slave's size (a shorter message leaves
    zeros at its end, a longer one is an error of the message passing). *)
Definition recvNodes (sz : nat) (msg : list Z) : out (list Z) :=
  if (sz =? 0)%nat then Err
  else if (sz <? length msg)%nat then UB
  else Ok (msg ++ repeat 0 (sz - length msg)).

(** Lines 577-590. *)
Fixpoint nodeLoop (loc glb : list Z) (i : nat) (os : list nat) (m : list (Z * Z)) : out (list (Z * Z)) :=
  match os with
  | [] => Ok m
  | o :: t =>
      match nth_error loc i, nth_error glb o with
      | Some ln, Some gn => nodeLoop loc glb (S i) t ((ln, gn) :: m)
      | _, _ => UB
      end
  end.
(** Lines 555-591. *)
Definition nodeIface (mls : list (list Z)) (v : list Z) (it : iface) (m : list (Z * Z)) : out (list (Z * Z)) :=
  match setupEqs v (slist it), setupEqs (nth (mproc it) mls []) (mlist it) with
  | Some loc, Some msg =>
      match recvNodes (length (slist it)) msg with
      | Ok glb => nodeLoop loc glb 0 (ord it) m
      | Err => Err
      | UB => UB
      end
  | _, _ => UB
  end.
Fixpoint nodeAll (mls : list (list Z)) (v : list Z) (its : list iface) (m : list (Z * Z)) : out (list (Z * Z)) :=
  match its with
  | [] => Ok m
  | it :: r => match nodeIface mls v it m with
               | Ok m' => nodeAll mls v r m'
               | Err => Err
               | UB => UB
               end
  end.

(** Lines 600-609: every node that is not on an interface renumbers the whole vector. *)
Fixpoint nodeRest (i : nat) (todo : nat) (minN : Z) (m : list (Z * Z)) (maxN : Z) (v : list Z) : list Z * Z :=
  match todo with
  | O => (v, maxN)
  | S t =>
      match lookup (Z.of_nat i + minN) m with
      | None => nodeRest (S i) t minN m (maxN + 1) (map (renum [(Z.of_nat i + minN, maxN + 1)]) v)
      | Some _ => nodeRest (S i) t minN m maxN v
      end
  end.

(** Lines 547-609: a process with nn nodes after the numbers up to nPrev are used. *)
Definition nodeProc (mls : list (list Z)) (nPrev : Z) (nn : nat) (its : list iface) : out pres :=
  let v := iotaZ (nPrev + 1) nn in
  match nodeAll mls v its [] with
  | Ok m =>
      let (w, mxn) := nodeRest 0 nn (nPrev + 1) m nPrev (map (renum m) v) in
      Ok {| ml := w; mn := nPrev + 1; mx := mxn |}
  | Err => Err
  | UB => UB
  end.
Fixpoint nodesRest (done : list pres) (nPrev : Z) (procs : list (nat * list iface)) : out (list pres) :=
  match procs with
  | [] => Ok done
  | (nn, its) :: r =>
      match nodeProc (map ml done) nPrev nn its with
      | Ok p => nodesRest (done ++ [p]) (mx p) r
      | Err => Err
      | UB => UB
      end
  end.
Definition nodeNumbers (procs : list (nat * list iface)) : out (list pres) :=
  match procs with
  | [] => Ok []
  | (nn, _) :: r => nodesRest [eqProc0 nn] (Z.of_nat nn) r
  end.

(** src/LinAlg/SAM.C:738-743, SAM::getNodeDOFs; madof has the first DOF of each node
    and one more entry. *)
Definition nodeDOFs (madof : list Z) (nn : nat) (inod : Z) : Z * Z :=
  if (inod <? 1) || (Z.of_nat nn <? inod) then (0, 0)
  else (nth (Z.to_nat (inod - 1)) madof 0, nth (Z.to_nat inod) madof 0 - 1).
(** Lines 601-606: the DOFs of the nodes that the process numbers itself; own i tells
    whether node i (from 0) is one of them. *)
Fixpoint dofLoop (madof : list Z) (nn : nat) (own : nat -> bool) (i todo : nat) (maxDof : Z) : Z :=
  match todo with
  | O => maxDof
  | S t => dofLoop madof nn own (S i) t
             (if own i then maxDof + (snd (nodeDOFs madof nn (Z.of_nat i)) - fst (nodeDOFs madof nn (Z.of_nat i)) + 1)
              else maxDof)
  end.

(* ---- the set of ghost connections ---- *)

(** src/ASM/Interface.h:22-33. *)
Record conn := { master : Z; slave : Z; midx : Z; sidx : Z; orient : Z; dim : Z; basis : Z; thick : Z }.

(** src/ASM/DomainDecomposition.h:77-101, SlaveOrder::operator(). *)
Definition slaveOrder (own : Z -> Z) (a b : conn) : bool :=
  if negb (own (master a) =? own (master b)) then own (master a) <? own (master b)
  else if negb (own (slave a) =? own (slave b)) then own (slave a) <? own (slave b)
  else if negb (slave a =? slave b) then slave a <? slave b
  else if negb (dim a =? dim b) then dim a <? dim b
  else if negb (basis a =? basis b) then basis a <? basis b
  else midx a <? midx b.

(** std::set::insert (SIM2D.C:107, SIM3D.C:96): the set as a sorted list; an
    equivalent element that is already there stays. *)
Fixpoint insertConn (own : Z -> Z) (c : conn) (s : list conn) : list conn :=
  match s with
  | [] => [c]
  | d :: t => if slaveOrder own c d then c :: s
              else if slaveOrder own d c then d :: insertConn own c t
              else s
  end.
Definition ghostSet (own : Z -> Z) (cs : list conn) : list conn :=
  fold_left (fun s c => insertConn own c s) cs [].
