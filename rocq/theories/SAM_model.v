(** Model of src/LinAlg/SAM.C (the non-Fortran branches) and of the element
    assembly of src/LinAlg/SparseMatrix.C and src/LinAlg/DiagMatrix.C.

    The integer tables keep the layout of the code: [madof], [mpmnpc], [mpmceq] are
    1-based pointers (length: number of items + 1), [mmnpc], [mmceq], [meqn], [msc]
    hold signed integers.  [nnod], [nel], [nceq], [ndof] are the table lengths, as
    set by the code that allocates them.  Reals are exact rationals. *)
From Coq Require Import List Arith ZArith QArith Qcanon Bool Lia.
From Verif Require Import Base.
Import ListNotations.
Local Open Scope Z_scope.

(** SAM.h:260-330, data members *)
Record tables := mkS {
  madof : list nat; msc : list Z;
  mpmnpc : list nat; mmnpc : list Z;
  mpmceq : list nat; mmceq : list Z; ttcc : list Qc;
  meqn : list Z; neq : nat; nspdof : nat }.

Definition ndof (s : tables) : nat := length (msc s).
Definition nceq (s : tables) : nat := pred (length (mpmceq s)).
Definition nnod (s : tables) : nat := pred (length (madof s)).
Definition nel (s : tables) : nat := pred (length (mpmnpc s)).

(** pointers of constraint [i] (1-based): [ip = mpmceq[i-1]] and [mpmceq[i]-1];
    the slave entry is [mmceq[ip-1]], the masters are [mmceq[ip..jp-1]] *)
Definition cbeg (s : tables) (i : nat) : nat := nth (i-1) (mpmceq s) 0%nat.
Definition cend (s : tables) (i : nat) : nat := (nth i (mpmceq s) 0 - 1)%nat.
Definition mm (s : tables) (k : nat) : Z := nth k (mmceq s) 0.
Definition cc (s : tables) (k : nat) : Qc := nth k (ttcc s) 0%Qc.
Definition eqn (s : tables) (dof : Z) : Z := nth (Z.to_nat (dof-1)) (meqn s) 0.

(** ** initSystemEquations, SAM.C:225-331 *)

(** lines 246-256: (new msc, ndof1, ndof2, nspdof, number of invalid codes) *)
Fixpoint scanMsc (sc : list Z) (n1 n2 np err : nat) : list Z * (nat * nat * nat * nat) :=
  match sc with
  | [] => ([], (n1, n2, np, err))
  | x :: r =>
    if x =? 0 then let '(r', q) := scanMsc r n1 n2 (S np) err in (- Z.of_nat (S np) :: r', q)
    else if x =? 1 then let '(r', q) := scanMsc r (S n1) n2 np err in (x :: r', q)
    else if x =? 2 then let '(r', q) := scanMsc r n1 (S n2) np err in (x :: r', q)
    else let '(r', q) := scanMsc r n1 n2 np (S err) in (x :: r', q)
  end.

(** lines 283-299: number of invalid masters at positions [ks] of [mmceq];
    [None] is a read outside [mmceq] *)
Fixpoint checkMasters (sc : list Z) (mmc : list Z) (ks : list nat) : option nat :=
  match ks with
  | [] => Some 0%nat
  | k :: r =>
    match nth_error mmc k, checkMasters sc mmc r with
    | Some j, Some n =>
      if (j <? 1) || (Z.of_nat (length sc) <? j) then Some (S n)
      else if nth (Z.to_nat (j-1)) sc 0 <? 1 then Some (S n) else Some n
    | _, _ => None
    end
  end.

(** lines 262-312: the loop over the constraints [i..nceq] ([ps] are the pointers
    [mpmceq[i-1..]]); [None] = read outside the tables.  Result: (errors, meqn). *)
Fixpoint checkCeqs (sc mmc : list Z) (i : nat) (ps : list nat) (meq : list Z) : option (nat * list Z) :=
  match ps with
  | ip :: ((jp1 :: _) as r) =>
    match ip with
    | O => None
    | S ip0 =>
      match nth_error mmc ip0 with
      | None => None
      | Some idof =>
        if (idof <? 1) || (Z.of_nat (length sc) <? idof) then
          match checkCeqs sc mmc (S i) r meq with Some (e, m) => Some (S e, m) | None => None end
        else
          let meq' := upd (Z.to_nat (idof-1)) (- Z.of_nat i) meq in
          if 0 <? nth (Z.to_nat (idof-1)) sc 0 then
            match checkCeqs sc mmc (S i) r meq' with Some (e, m) => Some (S e, m) | None => None end
          else if (jp1 =? S ip)%nat then checkCeqs sc mmc (S i) r meq'
          else if (S ip <? jp1)%nat then
            match checkMasters sc mmc (seq ip (jp1 - 1 - ip)) with
            | None => None
            | Some n =>
              match checkCeqs sc mmc (S i) r meq' with Some (e, m) => Some (n + e, m)%nat | None => None end
            end
          else Some (1%nat, meq)  (* logic error: break *)
      end
    end
  | _ => Some (0%nat, meq)
  end.

(** lines 314-327: equation numbers *)
Fixpoint number (sc meq : list Z) (i j : nat) : list Z :=
  match sc, meq with
  | s :: r, m :: q =>
    if s =? 1 then Z.of_nat i :: number r q (S i) j
    else if s =? 2 then Z.of_nat j :: number r q i (S j)
    else m :: number r q i j
  | _, _ => []
  end.

Definition initEqs (s : tables) : option (bool * tables) :=
  let '(sc, (n1, n2, np, e1)) := scanMsc (msc s) 0 0 (nspdof s) 0 in
  match checkCeqs sc (mmceq s) 1 (mpmceq s) (repeat 0 (length sc)) with
  | None => None
  | Some (e2, meq) =>
    Some ((e1 + e2 =? 0)%nat,
          mkS (madof s) sc (mpmnpc s) (mmnpc s) (mpmceq s) (mmceq s) (ttcc s)
              (number sc meq 1 (n1+1)) (n1+n2) np)
  end.

(** ** Constraint evaluation *)

(** the positions [ip] with [mpmceq[iceq-1] <= ip < mpmceq[iceq]-1] and
    [mmceq[ip] > 0]: master equation and coefficient (e.g. SAM.C:595-602) *)
Definition masters (s : tables) (i : nat) : list (Z * Qc) :=
  flat_map (fun k => if 0 <? mm s k then [(eqn s (mm s k), cc s k)] else [])
           (seq (cbeg s i) (cend s i - cbeg s i)).
(** [ttcc[mpmceq[iceq-1]-1]] *)
Definition coff (s : tables) (i : nat) : Qc := cc s (cbeg s i - 1).
(** constraint number of a table entry [ieq < 0] *)
Definition ceqno (m : Z) : nat := Z.to_nat (- m).

(** SAM.C:786-812 expandVector: the value of one DOF with table entry [m] *)
Definition expandDof (s : tables) (scale : Qc) (x : list Qc) (m : Z) : Qc :=
  if 0 <? m then nth (Z.to_nat (m-1)) x 0%Qc
  else if m <? 0 then
    fold_left (fun v p => if (0 <? fst p) && (fst p <=? Z.of_nat (neq s))
                          then (v + snd p * nth (Z.to_nat (fst p - 1)) x 0)%Qc else v)
              (masters s (ceqno m)) (scale * coff s (ceqno m))%Qc
  else 0%Qc.
Definition expandVector (s : tables) (scale : Qc) (x : list Qc) : option (list Qc) :=
  if (length x <? neq s)%nat then None else Some (map (expandDof s scale x) (meqn s)).

(** SAM.C:815-825 getSolVec; [old] is the vector passed in *)
Definition vresizeQ (n : nat) (l : list Qc) : list Qc := firstn n l ++ repeat 0%Qc (n - length l).
Fixpoint solLoop (meq : list Z) (v : list Qc) (x : list Qc) : list Qc :=
  match meq, v with
  | m :: q, a :: r => solLoop q r (if 0 <? m then upd (Z.to_nat (m-1)) a x else x)
  | _, _ => x
  end.
Definition getSolVec (s : tables) (old v : list Qc) : list Qc :=
  solLoop (meqn s) v (vresizeQ (neq s) old).

(** SAM.C:828-843 applyDirichlet *)
Definition dirichletDof (s : tables) (m : Z) (v : Qc) : Qc :=
  if m <? 0 then coff s (ceqno m) else if m =? 0 then 0%Qc else v.
Definition applyDirichlet (s : tables) (v : list Qc) : list Qc :=
  map (fun p => dirichletDof s (fst p) (snd p)) (combine (meqn s) v).

(** ** Right-hand-side assembly *)

(** [RHS[ieq-1] += v] *)
Definition addAt (k : nat) (v : Qc) (l : list Qc) : list Qc := upd k (nth k l 0 + v)%Qc l.
(** SAM.C:591-604 assembleRHS *)
Definition assembleRHS (s : tables) (rhs : list Qc) (value : Qc) (m : Z) : list Qc :=
  if 0 <? m then addAt (Z.to_nat (m-1)) value rhs
  else if m <? 0 then
    fold_left (fun r p => addAt (Z.to_nat (fst p - 1)) (snd p * value)%Qc r) (masters s (ceqno m)) rhs
  else rhs.
(** SAM.C:578-588 addToRHS *)
Fixpoint addToRHSloop (s : tables) (meq : list Z) (S : list Qc) (rhs : list Qc) : list Qc :=
  match meq, S with
  | m :: q, v :: r => addToRHSloop s q r (assembleRHS s rhs v m)
  | _, _ => rhs
  end.
Definition addToRHS (s : tables) (rhs S : list Qc) : list Qc := addToRHSloop s (meqn s) S rhs.

(** ** Element tables *)

(** SAM.C:640-684 getElmEqns (with nedof = 0, i.e. no size check); [None]: element
    number out of range *)
Definition nodeEqs (s : tables) (node : Z) : list Z :=
  let n := Z.to_nat (Z.abs node) in
  let b := nth (n-1) (madof s) 0%nat in
  let e := nth n (madof s) 0%nat in
  if 0 <? node then firstn (e-b) (skipn (b-1) (meqn s))
  else if node <? 0 then repeat 0 (e-b)
  else [].
Definition elmNodes (s : tables) (iel : nat) : option (list Z) :=
  if (1 <=? iel)%nat && (iel <=? nel s)%nat then
    let b := nth (iel-1) (mpmnpc s) 0%nat in
    let e := nth iel (mpmnpc s) 0%nat in
    Some (firstn (e-b) (skipn (b-1) (mmnpc s)))
  else None.
Definition getElmEqns (s : tables) (iel : nat) : option (list Z) :=
  match elmNodes s iel with
  | None => None
  | Some nodes => Some (flat_map (nodeEqs s) nodes)
  end.
(** ... with the size check of lines 678-683 *)
Definition getElmEqnsN (s : tables) (iel nedof : nat) : option (list Z) :=
  match elmNodes s iel with
  | None => None
  | Some [] => Some []
  | Some nodes =>
    let m := flat_map (nodeEqs s) nodes in
    if (nedof =? 0)%nat || (length m =? nedof)%nat then Some m else None
  end.

(** ** Matrix assembly: SparseMatrix.C:614-680 assemSparse.

    The element matrix is a function of two 0-based indices.  The result is the
    sequence of updates [SM(r,c) += v] and [SV(r) += v] in the order the code
    makes them (r, c are 1-based equation numbers). *)
Definition emat := nat -> nat -> Qc.
Definition me (meen : list Z) (i : nat) : Z := nth i meen 0.

Definition freeUpd (K : emat) (meen : list Z) : list (Z * Z * Qc) :=
  flat_map (fun j =>
    if me meen j <? 1 then [] else
    (me meen j, me meen j, K j j) ::
    flat_map (fun i => if me meen i <? 1 then [] else
                       [(me meen i, me meen j, K i j); (me meen j, me meen i, K j i)]) (seq 0 j))
    (seq 0 (length meen)).

Definition consUpd (s : tables) (K : emat) (meen : list Z) : list (Z * Z * Qc) :=
  flat_map (fun j =>
    if - me meen j <? 1 then [] else
    flat_map (fun jp : Z * Qc =>
      flat_map (fun i =>
        if 0 <? me meen i then
          [(me meen i, fst jp, snd jp * K i j)%Qc; (fst jp, me meen i, snd jp * K j i)%Qc]
        else if me meen i <? 0 then
          map (fun ip : Z * Qc => (fst ip, fst jp, snd ip * snd jp * K i j)%Qc) (masters s (ceqno (me meen i)))
        else [])
        (seq 0 (length meen)))
      (masters s (ceqno (me meen j))))
    (seq 0 (length meen)).

Definition consRHS (s : tables) (K : emat) (meen : list Z) : list (Z * Qc) :=
  flat_map (fun j =>
    if - me meen j <? 1 then [] else
    flat_map (fun i =>
      if 0 <? me meen i then [(me meen i, - (coff s (ceqno (me meen j)) * K i j))%Qc]
      else if me meen i <? 0 then
        map (fun ip : Z * Qc => (fst ip, - (coff s (ceqno (me meen j)) * snd ip * K i j))%Qc)
            (masters s (ceqno (me meen i)))
      else [])
      (seq 0 (length meen)))
    (seq 0 (length meen)).

Definition assemSparse (s : tables) (K : emat) (meen : list Z) : list (Z*Z*Qc) * list (Z*Qc) :=
  (freeUpd K meen ++ consUpd s K meen, consRHS s K meen).

(** DiagMatrix.C:80-107 assemble: sequence of [myMat(r) += v] *)
Definition diagUpd (s : tables) (K : emat) (meen : list Z) : list (Z * Qc) :=
  flat_map (fun j =>
    if 0 <? me meen j then [(me meen j, K j j)]
    else if me meen j <? 0 then
      flat_map (fun jp : Z * Qc => if 0 <? fst jp then
        flat_map (fun i =>
          if me meen i =? fst jp then [(fst jp, snd jp * (K i j + K j i))%Qc]
          else if me meen i <? 0 then
            flat_map (fun ip : Z * Qc => if fst ip =? fst jp then [(fst jp, snd ip * snd jp * K i j)%Qc] else [])
                     (masters s (ceqno (me meen i)))
          else []) (seq 0 (length meen)) else [])
        (masters s (ceqno (me meen j)))
    else [])
    (seq 0 (length meen)).

(** SAM.C:373-428 getDofCouplings: the pairs (row, column) inserted, in order *)
Definition elmCouplings (s : tables) (meen : list Z) : list (Z * Z) :=
  flat_map (fun j =>
    if 0 <? me meen j then
      (me meen j, me meen j) ::
      flat_map (fun i => if 0 <? me meen i then [(me meen i, me meen j); (me meen j, me meen i)] else [])
               (seq 0 j)
    else if me meen j <? 0 then
      flat_map (fun jp : Z * Qc =>
        flat_map (fun i =>
          if 0 <? me meen i then [(me meen i, fst jp); (fst jp, me meen i)]
          else if me meen i <? 0 then
            map (fun ip : Z * Qc => (fst ip, fst jp)) (masters s (ceqno (me meen i)))
          else []) (seq 0 (length meen)))
        (masters s (ceqno (me meen j)))
    else [])
    (seq 0 (length meen)).
Definition dofCouplings (s : tables) : list (Z * Z) :=
  flat_map (fun iel => match getElmEqns s iel with Some m => elmCouplings s m | None => [] end)
           (seq 1 (nel s)).

(** SAM.C:686-705 getUniqueEqns (as a list, the code uses a set) *)
Definition uniqueEqns (s : tables) (meen : list Z) : list Z :=
  flat_map (fun m => if m <? 0 then map fst (masters s (ceqno m)) else if 0 <? m then [m] else []) meen.

(** ** Reaction forces *)

(** SAM.C:440-461: the vector [eS]; [None] = not resized (empty), lines 445-459
    (also 489-511).  Each constrained DOF j in turn overwrites the entries. *)
Fixpoint reactLoop (s : tables) (K : emat) (meen : list Z) (js : list nat) (eS : option (list Qc)) : option (list Qc) :=
  match js with
  | [] => eS
  | j :: r =>
    if - me meen j <? 1 then reactLoop s K meen r eS
    else
      let c0 := coff s (ceqno (me meen j)) in
      let eS' := fold_left (fun e i => if me meen i <? 1 then
                     let l := match e with Some l => l | None => repeat 0%Qc (length meen) end in
                     Some (upd i (- (c0 * K i j))%Qc l) else e) (seq 0 (length meen)) eS in
      reactLoop s K meen r eS'
  end.
Definition reactVec (s : tables) (K : emat) (meen : list Z) : option (list Qc) :=
  reactLoop s K meen (seq 0 (length meen)) None.

(** SAM.C:607-619 assembleReactions: [es] are the values of the element DOFs, the
    element DOFs of node [n] are its [madof] range; a negative node is skipped *)
Definition dofsOf (s : tables) (node : Z) : list (option nat) :=
  let n := Z.to_nat (Z.abs node) in
  let b := nth (n-1) (madof s) 0%nat in
  let e := nth n (madof s) 0%nat in
  if 0 <? node then map Some (seq b (e-b)) else if node <? 0 then repeat None (e-b) else [].
Definition assembleReactions (s : tables) (rf eS : list Qc) (nodes : list Z) : list Qc :=
  fold_left (fun r p => match fst p with
                        | Some d => let ipR := - nth (d-1) (msc s) 0 in
                                    if (0 <? ipR) && (ipR <=? Z.of_nat (length r))
                                    then addAt (Z.to_nat (ipR-1)) (snd p) r else r
                        | None => r end)
            (combine (flat_map (dofsOf s) nodes) eS) rf.

(** ** Lookups *)

(** SAM.C:758-765 getDofVal *)
Definition getDofVal (s : tables) (v : list Qc) (inod ldof : Z) : Qc :=
  if (inod <? 1) || (Z.of_nat (nnod s) <? inod) || (ldof <? 1) then 0%Qc
  else
    let idof := Z.of_nat (nth (Z.to_nat (inod-1)) (madof s) 0%nat) + ldof - 1 in
    if (idof <? Z.of_nat (nth (Z.to_nat inod) (madof s) 0%nat)) && (idof <? Z.of_nat (length v))
    then nth (Z.to_nat (idof-1)) v 0%Qc else 0%Qc.

(** SAM.C:745-755 getEquation *)
Definition getEquation (s : tables) (inod ldof : Z) : Z :=
  if (inod <? 1) || (Z.of_nat (nnod s) <? inod) || (ldof <? 1) then -1
  else
    let idof := Z.of_nat (nth (Z.to_nat (inod-1)) (madof s) 0%nat) + ldof - 1 in
    if Z.of_nat (nth (Z.to_nat inod) (madof s) 0%nat) <=? idof then -2
    else let ieq := nth (Z.to_nat (idof-1)) (meqn s) 0 in if 0 <? ieq then ieq else 0.

(** SAM.C:111-115: the search over the nodes [n..] *)
Fixpoint findNode (mad : list nat) (n : nat) (idof : Z) : Z * Z :=
  match mad with
  | b :: ((e :: _) as r) =>
    if idof <? Z.of_nat e then (Z.of_nat n, idof - Z.of_nat b + 1) else findNode r (S n) idof
  | _ => (0, 0)
  end.
(** [std::find]: 0-based position *)
Fixpoint findPos (x : Z) (l : list Z) : option nat :=
  match l with [] => None | y :: r => if x =? y then Some O else option_map S (findPos x r) end.
(** SAM.C:101-116 getNodeAndLocalDof; the external node numbering [minex] is the identity *)
Definition getNodeAndLocalDof (s : tables) (idof : Z) (eqno : bool) : Z * Z :=
  if eqno then
    match findPos idof (meqn s) with
    | Some k => findNode (madof s) 1 (Z.of_nat k)
    | None => (0, 0)
    end
  else findNode (madof s) 1 idof.

(** ** The other assembly entry points *)

(** SAM.C:476-513 assembleSystem(sysRHS, eK, iel): prescribed values times the
    element matrix go to the right-hand side (the equation list [meen] is given) *)
Definition assembleKRHS (s : tables) (K : emat) (meen : list Z) (rhs : list Qc) : list Qc :=
  fold_left (fun r j =>
      if - me meen j <? 1 then r else
      fold_left (fun r' i => assembleRHS s r' (- (coff s (ceqno (me meen j)) * K i j))%Qc (me meen i))
                (seq 0 (length meen)) r)
    (seq 0 (length meen)) rhs.

(** SAM.C:516-542 assembleSystem(sysRHS, eS, iel), the non-Fortran branch: the
    result flag and the right-hand side (without reaction forces) *)
Definition assembleElmVec (s : tables) (eS : list Qc) (iel : nat) (rhs : list Qc) : bool * list Qc :=
  match eS with
  | [] => (true, rhs)
  | _ => match getElmEqnsN s iel (length eS) with
         | None => (false, rhs)
         | Some meen => (true, addToRHSloop s meen eS rhs)
         end
  end.

(** SparseMatrix.C:690-711 assemSparse(V, SM, col, mnen, ...): the updates
    [SM(r,c) += v]; [V] is not empty (SparseMatrix.C:865).  The constraint branch
    does not test [mmceq[ip] > 0]; a read of [meqn] before its begin is [None]. *)
Fixpoint colUpd (s : tables) (V : list Qc) (col : Z) (d : nat) (mnen : list Z) : option (list (Z * Z * Qc)) :=
  match mnen with
  | [] => Some []
  | m :: q =>
    let vd := if (d <? length V)%nat then nth d V 0%Qc else last V 0%Qc in
    let here :=
      if 0 <? m then Some [(m, col, vd)]
      else if m <? 0 then
        fold_right (fun k acc => match acc with
                                 | None => None
                                 | Some l => if mm s k <? 1 then None else Some ((eqn s (mm s k), col, vd) :: l)
                                 end) (Some [])
                   (seq (cbeg s (ceqno m)) (cend s (ceqno m) - cbeg s (ceqno m)))
      else Some [] in
    match here, colUpd s V (col + 1) (S d) q with
    | Some a, Some b => Some (a ++ b)
    | _, _ => None
    end
  end.
