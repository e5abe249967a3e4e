(** Model of the boundary-condition bookkeeping of a patch: the nodal fixation codes, the
    constraint equations and the property codes of prescribed values, as edited by
    fix / prescribe / addMPC / add2PC / add3PC / addPeriodicity / makePeriodic /
    addRigidMPC / addNodalCouplings (src/ASM/ASMbase.C), with utl::getDigits and
    utl::getDirs (src/Utility/Utilities.C).

    Integers are unbounded, reals are exact rationals.  Constraint equations are ordered in
    slave-only mode (SIMbase.C:79), so that an equation is identified by its slave DOF; the
    pointer that addMPC returns is modelled by that DOF. *)
From Coq Require Import List Arith ZArith QArith Qcanon Bool Lia.
From Verif Require Import Base MPC_model.
Import ListNotations.
Local Open Scope Z_scope.

(** ** Digits *)

(** number of loop iterations sufficient for "num /= 10" to reach zero *)
Definition digitFuel (num : Z) : nat := S (Z.to_nat (Z.log2 (Z.abs num))).
(** std::set<int>::insert, the set as an increasing list *)
Fixpoint zinsert (x : Z) (l : list Z) : list Z :=
  match l with
  | [] => [x]
  | y :: r => if y <? x then y :: zinsert x r else if x <? y then x :: l else l
  end.
(** Utilities.C:479-487 getDigits; / and % truncate towards zero *)
Fixpoint digitsLoop (fuel : nat) (num : Z) (acc : list Z) : list Z :=
  match fuel with
  | O => acc
  | S f => if num =? 0 then acc else digitsLoop f (Z.quot num 10) (zinsert (Z.rem num 10) acc)
  end.
Definition getDigits (num : Z) : list Z := digitsLoop (digitFuel num) num [].
(** Utilities.C:490-497 getDirs: i runs from ncmp down to 1, mul = 1, 10, 100, ... *)
Fixpoint getDirsLoop (i : nat) (res mul : Z) : Z :=
  match i with O => res | S i' => getDirsLoop i' (res + Z.of_nat i * mul) (mul * 10) end.
Definition getDirs (ncmp : nat) : Z := getDirsLoop ncmp 0 1.

(** ** Nodal fixation codes *)

(** ASMbase.h:75-92 struct BC; [true] is the code 1 (free), [false] the code 0 (fixed) *)
Record bc := mkBC { bnode : Z; bCX : bool; bCY : bool; bCZ : bool; bRX : bool; bRY : bool; bRZ : bool }.
(** ASMbase.h:86 the constructor *)
Definition newBC (n : Z) : bc := mkBC n true true true true true true.
(** the switch of BC::free and BC::fix (ASMbase.C:935-942, 950-957) *)
Definition bcSet (v : bool) (dof : Z) (b : bc) : bc :=
  if dof =? 1 then mkBC (bnode b) v (bCY b) (bCZ b) (bRX b) (bRY b) (bRZ b)
  else if dof =? 2 then mkBC (bnode b) (bCX b) v (bCZ b) (bRX b) (bRY b) (bRZ b)
  else if dof =? 3 then mkBC (bnode b) (bCX b) (bCY b) v (bRX b) (bRY b) (bRZ b)
  else if dof =? 4 then mkBC (bnode b) (bCX b) (bCY b) (bCZ b) v (bRY b) (bRZ b)
  else if dof =? 5 then mkBC (bnode b) (bCX b) (bCY b) (bCZ b) (bRX b) v (bRZ b)
  else if dof =? 6 then mkBC (bnode b) (bCX b) (bCY b) (bCZ b) (bRX b) (bRY b) v
  else b.
(** ASMbase.C:944: all six codes are 1 *)
Definition allFree (b : bc) : bool := bCX b && bCY b && bCZ b && bRX b && bRY b && bRZ b.

(** ASMbase.C:497-510 the functor [fixed]: the loop returns at the first digit (from the
    right) in 1..6 *)
Fixpoint fixedLoop (fuel : nat) (dof : Z) (b : bc) : bool :=
  match fuel with
  | O => false
  | S f =>
    if negb (0 <? dof) then false
    else let k := Z.rem dof 10 in
         if k =? 1 then negb (bCX b) else if k =? 2 then negb (bCY b)
         else if k =? 3 then negb (bCZ b) else if k =? 4 then negb (bRX b)
         else if k =? 5 then negb (bRY b) else if k =? 6 then negb (bRZ b)
         else fixedLoop f (Z.quot dof 10) b
  end.
Definition fixedBC (node dof : Z) (b : bc) : bool :=
  (bnode b =? node) && fixedLoop (digitFuel dof) dof b.

(** ** The patch *)

(** an equation, and its entry in the map [dCode] if any *)
Notation eqn := (mpc * option Z)%type.
(** ASMbase.h: nf, MLGN, nnod, BCode, mpcs with dCode *)
Record patch := mkP { pnf : Z; pMLGN : list Z; pnnod : nat; pBC : list bc; pEQ : list eqn }.
Definition setBC (p : patch) (l : list bc) : patch := mkP (pnf p) (pMLGN p) (pnnod p) l (pEQ p).
Definition setEQ (p : patch) (l : list eqn) : patch := mkP (pnf p) (pMLGN p) (pnnod p) (pBC p) l.

(** ASMbase.C:277-280 getNodeID; [inod] is unsigned *)
Definition getNodeID (p : patch) (inod : nat) : Z :=
  match inod with O => 0 | S i => nth i (pMLGN p) 0 end.

(** ASMbase.C:514-524 isFixed.  [None] of the loop is bit == BCode.end() *)
Fixpoint isFixedLoop (fuel : nat) (p : patch) (node d : Z) (found : bool) : bool :=
  match fuel with
  | O => found
  | S f => if (0 <? d) && found
           then isFixedLoop f p node (Z.quot d 10)
                  (if d <=? pnf p then existsb (fixedBC node (Z.rem d 10)) (pBC p) else found)
           else found
  end.
Definition isFixed (p : patch) (node dof : Z) (all : bool) : bool :=
  if (dof <? 10) || negb all then existsb (fixedBC node dof) (pBC p)
  else isFixedLoop (digitFuel dof) p node dof (match pBC p with [] => false | _ => true end).

(** ASMbase.C:963-996 fix *)
Definition fixBC (nf : Z) (digits : list Z) (b : bc) : bc :=
  fold_left (fun b dof => if dof <=? nf then bcSet false dof b else b) digits b.
Definition invalidOf (nf : Z) (digits : list Z) : Z :=
  fold_left (fun r dof => if dof <=? nf then r else 10 * r + dof) digits 0.
(** std::find of the first BC of the node, or push_back of a new one, then the edit *)
Fixpoint onBC (node : Z) (f : bc -> bc) (l : list bc) : list bc :=
  match l with
  | [] => [f (newBC node)]
  | b :: r => if bnode b =? node then f b :: r else b :: onBC node f r
  end.
Definition fixNode (p : patch) (inod : nat) (dirs : Z) : patch * Z :=
  let node := getNodeID p inod in
  if (node <? 1) || (dirs <? 1) then (p, dirs)
  else (setBC p (onBC node (fixBC (pnf p) (getDigits dirs)) (pBC p)), invalidOf (pnf p) (getDigits dirs)).

(** ASMbase.C:998-1006 allDofs *)
Fixpoint allDofsLoop (l : list Z) (myDof nf : Z) : bool :=
  match l with
  | [] => myDof =? nf
  | d :: r => if myDof + 1 =? d then allDofsLoop r (myDof + 1) nf else false
  end.
Definition allDofs (p : patch) (dirs : Z) : bool := allDofsLoop (getDigits dirs) 0 (pnf p).

(** ** Constraint equations *)

(** mpcs.insert with the assignment of dCode for a new equation (ASMbase.C:550-557); the
    boolean tells whether it was new *)
Fixpoint insertEq (m : mpc) (c : option Z) (l : list eqn) : bool * list eqn :=
  match l with
  | [] => (true, [(m, c)])
  | x :: r => if mpcLess true (Some (fst x)) (Some m)
              then let '(b, r') := insertEq m c r in (b, x :: r')
              else if mpcLess true (Some m) (Some (fst x)) then (true, (m, c) :: l) else (false, l)
  end.
(** the equation with a given slave DOF: mpcs.find (ASMbase.C:775-780 findMPC) *)
Definition isSlaveEq (n d : Z) (x : eqn) : bool := (dnode (mslave (fst x)) =? n) && (dldof (mslave (fst x)) =? d).
Definition findMPC (p : patch) (n d : Z) : option eqn := find (isSlaveEq n d) (pEQ p).
(** editing the equation a pointer refers to *)
Fixpoint editEq (n d : Z) (f : mpc -> mpc) (l : list eqn) : list eqn :=
  match l with
  | [] => []
  | x :: r => if isSlaveEq n d x then (f (fst x), snd x) :: r else x :: editEq n d f r
  end.
(** ASMbase.C:534, 546-548: the first BC where the DOF is fixed; free it, and erase the BC
    if nothing is fixed in it any more *)
Fixpoint freeFirst (n d : Z) (l : list bc) : list bc :=
  match l with
  | [] => []
  | b :: r => if fixedBC n d b
              then (let b' := bcSet true d b in if allFree b' then r else b' :: r)
              else b :: freeFirst n d r
  end.
(** ASMbase.C:527-579 addMPC of a non-null pointer.  The result: the patch, the returned
    status, and whether the pointer is still non-null.  [None]: the erased iterator of the
    overridden equation is dereferenced (569-570), which is undefined behaviour. *)
Definition addMPC (p : patch) (m : mpc) (code : Z) (overrideD : bool) : option (patch * bool * bool) :=
  let n := dnode (mslave m) in
  let d := dldof (mslave m) in
  let isfix := existsb (fixedBC n d) (pBC p) in
  if isfix && negb overrideD then Some (p, true, false)
  else
    let p1 := if isfix then setBC p (freeFirst n d (pBC p)) else p in
    let '(new, l) := insertEq m (if 0 <? code then Some code else None) (pEQ p1) in
    if new then Some (setEQ p1 l, true, true)
    else match findMPC p1 n d with
         | Some x => if overrideD && (match mmast (fst x) with [] => true | _ => false end)
                     then None
                     else Some (p1, false, true)
         | None => None (* unreachable when the set is ordered *)
         end.

(** a new equation MPC(n,d,c0) (MPC.h:95-98) *)
Definition newMPC (n d : Z) (c : Qc) : mpc := mkMPC (mkD n d c None) [].
(** cons->addMaster(n,d,c) with the default tolerance 1.0e-8 (MPC.h:111-114) *)
Definition zeroTol : Qc := Q2Qc (1 # 100000000).
Definition addM (n d : Z) (c : Qc) (m : mpc) : mpc := addMaster zeroTol (mkD n d c None) m.

(** ASMbase.C:582-597 add2PC *)
Definition add2PC (p : patch) (slave dir master code : Z) : option (patch * bool) :=
  if (dir <? 1) || (pnf p <? dir) then Some (p, true)
  else if slave =? master then Some (p, true)
  else match addMPC p (newMPC slave dir 0) code false with
       | None => None
       | Some (p1, stat, live) =>
         Some (if live then setEQ p1 (editEq slave dir (addM master dir 1) (pEQ p1)) else p1, stat)
       end.
(** ASMbase.C:600-618 add3PC *)
Definition add3PC (p : patch) (slave dir master1 master2 code : Z) : option (patch * bool) :=
  if master1 =? master2 then add2PC p slave dir master1 code
  else if (dir <? 1) || (pnf p <? dir) then Some (p, true)
  else match addMPC p (newMPC slave dir 0) code false with
       | None => None
       | Some (p1, stat, live) =>
         Some (if live
               then setEQ p1 (editEq slave dir
                      (fun m => let m1 := if master1 =? slave then m else addM master1 dir 1 m in
                                if master2 =? slave then m1 else addM master2 dir 1 m1) (pEQ p1))
               else p1, stat)
       end.
(** ASMbase.C:783-802 addPeriodicity *)
Definition addPeriodicity (p : patch) (master slave : nat) (dir : Z) : option (patch * bool) :=
  let slaveNode := getNodeID p slave in
  let masterNode := getNodeID p master in
  if (slaveNode <? 1) || (masterNode <? 1) then Some (p, false)
  else match add2PC p masterNode dir slaveNode 0 with
       | None => None
       | Some (p1, true) => Some (p1, true)
       | Some (p1, false) => add2PC p1 slaveNode dir masterNode 0
       end.

(** ASMbase.C:884-908 prescribe; fixHomogeneousDirichlet is true (ASMbase.C:30) *)
Fixpoint prescribeLoop (p : patch) (node : Z) (digits : list Z) (code : Z) (overrideD : bool) (ign : Z)
  : option (patch * Z) :=
  match digits with
  | [] => Some (p, ign)
  | dof :: r =>
    if dof <=? pnf p then
      match addMPC p (newMPC node dof 1) code overrideD with
      | None => None
      | Some (p1, stat, _) => prescribeLoop p1 node r code overrideD (if stat then ign else 10 * ign + dof)
      end
    else prescribeLoop p node r code overrideD (10 * ign + dof)
  end.
Definition prescribe (p : patch) (inod : nat) (dirs code : Z) (overrideD : bool) : option (patch * Z) :=
  if code =? 0 then Some (fixNode p inod dirs)
  else let node := getNodeID p inod in
       if (node <? 1) || (dirs <? 1) then Some (p, dirs)
       else prescribeLoop p node (getDigits dirs) code overrideD 0.

(** ASMbase.C:855-868 constrainNodes *)
Fixpoint constrainNodesLoop (p : patch) (nodes : list Z) (dof code : Z) (overrideD : bool) : option patch :=
  match nodes with
  | [] => Some p
  | node :: r =>
    if (0 <? node) && (node <=? Z.of_nat (pnnod p))
    then match prescribe p (Z.to_nat node) dof code overrideD with
         | None => None
         | Some (p1, _) => constrainNodesLoop p1 r dof code overrideD
         end
    else constrainNodesLoop p r dof code overrideD
  end.
Definition constrainNodes (p : patch) (nodes : list Z) (dof code : Z) (overrideD : bool) : option patch :=
  constrainNodesLoop p nodes dof (Z.abs code) overrideD.
(** ASMbase.C:843-853 constrainPatch: the nodes 1, ..., nnod *)
Definition constrainPatch (p : patch) (dof code : Z) : option patch :=
  constrainNodesLoop p (map Z.of_nat (seq 1 (pnnod p))) dof (Z.abs code) false.

(** ** Couplings *)

(** "if (MPC* cons = new MPC(slave,d); this->addMPC(cons) && cons) edit" *)
Definition couple (p : patch) (slave d : Z) (f : mpc -> mpc) : option patch :=
  match addMPC p (newMPC slave d 0) 0 false with
  | None => None
  | Some (p1, stat, live) =>
    Some (if stat && live then setEQ p1 (editEq slave d f (pEQ p1)) else p1)
  end.
Fixpoint coupleAll (p : patch) (slave : Z) (f : Z -> mpc -> mpc) (ds : list nat) : option patch :=
  match ds with
  | [] => Some p
  | d :: r => match couple p slave (Z.of_nat d) (f (Z.of_nat d)) with
              | None => None
              | Some p1 => coupleAll p1 slave f r
              end
  end.
(** ASMbase.C:677-703 addRigidMPC *)
Definition rigidMasters (g : Z) (dx dy dz : Qc) (dof : Z) (m : mpc) : mpc :=
  let m1 := addM g dof 1 m in
  if dof =? 1 then addM g 6 (- dy) (addM g 5 dz m1)
  else if dof =? 2 then addM g 6 dx (addM g 4 (- dz) m1)
  else if dof =? 3 then addM g 5 (- dx) (addM g 4 dy m1)
  else m1.
Definition addRigidMPC (p : patch) (gSlave gMaster : Z) (dx dy dz : Qc) : option patch :=
  coupleAll p gSlave (rigidMasters gMaster dx dy dz) (seq 1 (Z.to_nat (pnf p))).
(** ASMbase.C:759-772 addNodalCouplings; reading MLGN outside its range is undefined.
    Simplification: the nodes are looked up once, also when no DOF can be coupled. *)
Fixpoint masterNodes (p : patch) (masters : list nat) : option (list Z) :=
  match masters with
  | [] => Some []
  | i :: r => match i with
              | O => None
              | S k => match nth_error (pMLGN p) k, masterNodes p r with
                       | Some g, Some l => Some (g :: l)
                       | _, _ => None
                       end
              end
  end.
Definition addNodalCouplings (p : patch) (slave : nat) (masters : list nat) (weights : list Qc) : option patch :=
  match masterNodes p (firstn (length weights) masters) with
  | None => None
  | Some gs =>
    match slave with
    | O => None
    | S k => match nth_error (pMLGN p) k with
             | None => None
             | Some s => coupleAll p s (fun d m => fold_left (fun m gw => addM (fst gw) d (snd gw) m) (combine gs weights) m)
                                   (seq 1 (Z.to_nat (pnf p)))
             end
    end
  end.
