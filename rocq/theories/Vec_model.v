(** Model of the transfer of nodal and element values between patches and the global model,
    src/ASM/ASMbase.C:1487-1784, and of the array utilities in src/Utility/Utilities.C.

    Simplifications: exact rationals; int and size_t do not overflow; error messages are left
    out. Every access outside an array is [None]; forming a pointer is not an error, and
    &in.front() of an empty vector is taken as such. [chk] tells whether the code is compiled
    with INDEX_CHECK. *)
From Coq Require Import List Arith ZArith QArith Qcanon Bool Lia Ascii.
From Verif Require Import Base QcLra Mat_model.
Import ListNotations.
Local Open Scope Z_scope.

(** a[k] for an int array *)
Definition rdZ (a : list Z) (k : Z) : option Z := if k <? 0 then None else nth_error a (Z.to_nat k).

(** ** gather *)
(** Utilities.C:392-409; returns the number of indices outside and the new [out] *)
Definition gather1 (index : list Z) (nr : nat) (inp out : list Qc) (off nskip : nat) : option (nat * list Qc) :=
  let nout := if (nskip <? length index)%nat then (length index - nskip)%nat else O in
  forN nout (fun i s =>
    let ix := nth i index 0 in
    if (0 <=? ix) && (off + nr * Z.to_nat ix <? length inp)%nat then
      bind (memcpy nr (off + nr * Z.to_nat ix) inp (i * nr) (snd s)) (fun v => Some (fst s, v))
    else if 0 <=? ix then Some (S (fst s), snd s) else Some s)
  (O, stdResize (nr * nout) out).
(** Utilities.C:412-427 *)
Definition gather2 (index : list Z) (nr : nat) (inp : list Qc) (out : mat) (off nskip : nat) : option (nat * mat) :=
  let nout := if (nskip <? length index)%nat then (length index - nskip)%nat else O in
  forN nout (fun i s =>
    let ix := nth i index 0 in
    if (0 <=? ix) && (off + nr * Z.to_nat ix <? length inp)%nat then
      bind (fillColumnPtr (1 + i) inp (off + nr * Z.to_nat ix) (snd s)) (fun v => Some (fst s, v))
    else if 0 <=? ix then Some (S (fst s), snd s) else Some s)
  (O, mresize nr nout false out).
(** Utilities.C:430-452 *)
Definition gather3 (index : list Z) (ir nr : nat) (inp out : list Qc) (off : nat) (shift : Z) (nskip : nat) : option (nat * list Qc) :=
  if (nr <=? ir)%nat then Some (length index, out)
  else
    let nout := if (nskip <? length index)%nat then (length index - nskip)%nat else O in
    forN nout (fun i s =>
      let ix := nth i index 0 in
      if shift <=? ix then
        let ip := (off + ir + nr * Z.to_nat (ix - shift))%nat in
        if (ip <? length inp)%nat then bind (rd inp ip) (fun x => bind (wr i x (snd s)) (fun v => Some (fst s, v)))
        else Some (S (fst s), snd s)
      else if 0 <=? ix then Some (S (fst s), snd s) else Some s)
    (O, stdResize nout out).

(** ** Nodal vectors *)
(** ASMbase.C:1537-1565, the loop over the patch nodes *)
Fixpoint extractLoop (chk : bool) (madof : list Z) (ngnod : Z) (glob : list Qc) (nodes : list Z) (out : list Qc) : option (bool * list Qc) :=
  match nodes with
  | [] => Some (true, out)
  | inod :: rest =>
    if chk && ((inod <? 1) || ((ngnod <? inod) && (0 <? ngnod))) then Some (false, out)
    else bind (rdZ madof (inod - 1)) (fun a => bind (rdZ madof inod) (fun b =>
      let idof := a - 1 in let jdof := b - 1 in
      if idof =? jdof then extractLoop chk madof ngnod glob rest out
      else if chk && ((idof <? 0) || (jdof <? idof) || (Z.of_nat (length glob) <? jdof)) then Some (false, out)
      else if (0 <=? idof) && (idof <=? jdof) && (jdof <=? Z.of_nat (length glob))
      then extractLoop chk madof ngnod glob rest (out ++ firstn (Z.to_nat (jdof - idof)) (skipn (Z.to_nat idof) glob))
      else None))
  end.
(** ASMbase.C:1523-1568 extractNodalVec *)
Definition extractNodalVec (chk : bool) (MLGN : list Z) (nnod : nat) (madof : list Z) (ngnod : Z) (glob : list Qc) : option (bool * list Qc) :=
  if ngnod =? 0 then Some (false, [])
  else if ngnod =? -2 then
    if (nnod <=? length MLGN)%nat then extractLoop chk madof ngnod glob (firstn nnod MLGN) [] else None
  else extractLoop chk madof ngnod glob MLGN [].
(** ASMbase.C:1587-1620, the loop over the patch nodes; the flag tells if the node is on the basis *)
Fixpoint injectLoop (chk : bool) (madof : list Z) (nodeVec : list Qc) (nodes : list (Z * bool)) (ldof : nat) (glob : list Qc) : option (bool * list Qc) :=
  match nodes with
  | [] => Some (true, glob)
  | (inod, sel) :: rest =>
    if negb sel then injectLoop chk madof nodeVec rest ldof glob
    else if chk && ((inod <? 1) || (Z.of_nat (length madof) <? inod)) then Some (false, glob)
    else bind (rdZ madof (inod - 1)) (fun a => bind (rdZ madof inod) (fun b =>
      let idof := a - 1 in let ndof := b - 1 - idof in
      if ndof =? 0 then injectLoop chk madof nodeVec rest ldof glob
      else if chk && ((ndof <? 0) || (Z.of_nat (length nodeVec) <? Z.of_nat ldof + ndof)) then Some (false, glob)
      else if chk && (Z.of_nat (length glob) <? idof + ndof) then Some (false, glob)
      else if (ndof <? 0) || (idof <? 0) then None
      else bind (memcpy (Z.to_nat ndof) ldof nodeVec (Z.to_nat idof) glob)
                (fun g => injectLoop chk madof nodeVec rest (ldof + Z.to_nat ndof) g)))
  end.
(** ASMbase.C:1571-1622 injectNodalVec; [types] are the node types (character codes) returned
    by getNodeType for the nodes of the patch; 'D' is 68 and 'P' is 80 *)
Definition injectNodalVec (chk : bool) (MLGN types madof : list Z) (basis : Z) (nodeVec glob : list Qc) : option (bool * list Qc) :=
  match madof with
  | [] => Some (false, glob)
  | _ =>
    let bType := if basis =? 1 then 68 else 80 + basis - 2 in
    injectLoop chk madof nodeVec
      (map (fun k => (nth k MLGN 0, (basis =? 0) || (nth k types 0 =? bType))) (seq 0 (length MLGN))) 0 glob
  end.
(** ASMbase.C:1631, 1661: the number of nodes without Lagrange multipliers; [lms] is the
    ordered set of their local numbers *)
Definition noLM (MLGN : list Z) (lms : list nat) : nat := match lms with [] => length MLGN | f :: _ => (f - 1)%nat end.
(** ASMbase.C:1625-1652 extractNodeVec; getNodeID as in ASMbase.C:277-280 *)
Definition extractNodeVec (MLGN : list Z) (lms : list nat) (nf nndof : nat) (glob nodeVec : list Qc) : option (list Qc) :=
  let nndof := if (nndof =? 0)%nat then nf else nndof in
  let nNod := noLM MLGN lms in
  forN nNod (fun i v =>
    let lastDof := Z.of_nat nndof * nth i MLGN 0 in
    if lastDof - Z.of_nat nndof <? 0 then (if (nndof =? 0)%nat then Some v else None)
    else memcpy nndof (Z.to_nat (lastDof - Z.of_nat nndof)) glob (i * nndof) v) (stdResize (nndof * nNod) nodeVec).
(** ASMbase.C:1655-1685 injectNodeVec *)
Definition injectNodeVec (MLGN : list Z) (lms : list nat) (nf nndof : nat) (nodeVec glob : list Qc) : option (bool * list Qc) :=
  let nndof := if (nndof =? 0)%nat then nf else nndof in
  let nNod := noLM MLGN lms in
  if negb (length nodeVec =? nNod * nndof)%nat then Some (false, glob)
  else bind (forN nNod (fun i g => bind (nth_error MLGN i) (fun n =>
         let lastDof := Z.of_nat nndof * n in
         if (0 <? lastDof) && (lastDof <=? Z.of_nat (length glob))
         then memcpy nndof (i * nndof) nodeVec (Z.to_nat (lastDof - Z.of_nat nndof)) g else Some g)) glob)
       (fun g => Some (true, g)).

(** ** Element results *)
(** ASMbase.C:1487-1501 extractElmRes; the elements are given as (MLGE[i], MNPC[i].size()) *)
Fixpoint extractElmRes1 (els : list (Z * nat)) (glob : list Qc) (internal : bool) (jel : nat) (out : list Qc) : option (list Qc) :=
  match els with
  | [] => Some out
  | (ge, np) :: rest =>
    if (0 <? ge) && (1 <? np)%nat then
      let idx := if internal then jel else Z.to_nat ge in
      bind (if (idx <=? length glob)%nat then rd glob (idx - 1) else Some 0%Qc) (fun x =>
        extractElmRes1 rest glob internal (if internal then S jel else jel) (out ++ [x]))
    else extractElmRes1 rest glob internal jel out
  end.
Definition extractElmRes (els : list (Z * nat)) (glob : list Qc) (internalFirst : nat) : option (list Qc) :=
  extractElmRes1 els glob (0 <? internalFirst)%nat internalFirst [].
(** ASMbase.C:1504-1520, the variant for a matrix with one column per element *)
Fixpoint extractElmRow1 (els : list (Z * nat)) (glob : mat) (irow : nat) (out : list Qc) : option (list Qc) :=
  match els with
  | [] => Some out
  | (ge, np) :: rest =>
    if (0 <? ge) && (1 <? np)%nat then
      bind (if (Z.to_nat ge <=? d2 glob)%nat then rd2 glob (irow - 1) (Z.to_nat ge - 1) else Some 0%Qc) (fun x =>
        extractElmRow1 rest glob irow (out ++ [x]))
    else extractElmRow1 rest glob irow out
  end.
Definition extractElmRow (els : list (Z * nat)) (glob : mat) (irow : nat) : option (list Qc) := extractElmRow1 els glob irow [].

(** ** Solution fields *)
(** ASMbase.C:1688-1710 getSolution *)
Fixpoint getSolLoop (nf maxNod : nat) (lms : list nat) (locSol : list Qc) (i : nat) (nodes : list Z) (sField : mat) : option (bool * mat) :=
  match nodes with
  | [] => Some (true, sField)
  | n :: rest =>
    if (n <? 1) || (Z.of_nat maxNod <? n) then Some (false, sField)
    else bind (if existsb (Nat.eqb (Z.to_nat n)) lms then fillColumn (i + 1) (repeat 0%Qc nf) sField
               else fillColumnPtr (i + 1) locSol (nf * Z.to_nat n - nf) sField)
              (getSolLoop nf maxNod lms locSol (S i) rest)
  end.
Definition getSolution (nf maxNod : nat) (lms : list nat) (locSol : list Qc) (nodes : list Z) (sField : mat) : option (bool * mat) :=
  getSolLoop nf maxNod lms locSol 0 nodes (mresize nf (length nodes) false sField).
(** ASMbase.C:1722-1755 deformedConfig *)
Definition deformedConfig (Xnod : mat) (eVec : list (list Qc)) (force2nd : bool) : bool * list (list Qc) :=
  match eVec with
  | [] => (true, eVec)
  | [] :: _ => (true, eVec)
  | eV :: _ =>
    let nsd := d1 Xnod in let nen := d2 Xnod in
    let npv := if (0 <? nen)%nat then (length eV / nen)%nat else O in
    if (npv <? nsd)%nat || negb (npv * nen =? length eV)%nat then (false, eVec)
    else
      let Xdef := if (npv =? nsd)%nat then vadd eV 1 0 1 0 1 (elem Xnod)
                  else fold_left (fun X i => vadd eV 1 i (Z.of_nat nsd) i (Z.of_nat nsd) X) (seq 0 nsd) (elem Xnod) in
      if force2nd && (2 <=? length eVec)%nat then (true, upd 1 Xdef eVec) else (true, eVec ++ [Xdef])
  end.
(** Vec3.h:132-141 equal *)
Definition equal3 (tol : Qc) (a b : Qc * Qc * Qc) : bool :=
  let '(x, y, z) := a in let '(p, q, r) := b in
  qleb (qabs (x - p)) tol && qleb (qabs (y - q)) tol && qleb (qabs (z - r)) tol.
Definition set3 (i : nat) (c : Qc) (a : Qc * Qc * Qc) : Qc * Qc * Qc :=
  let '(x, y, z) := a in match i with O => (c, y, z) | 1%nat => (x, c, z) | _ => (x, y, c) end.
Definition dist2 (a b : Qc * Qc * Qc) : Qc :=
  let '(x, y, z) := a in let '(p, q, r) := b in ((x - p) * (x - p) + (y - q) * (y - q) + (z - r) * (z - r))%Qc.
(** ASMbase.C:1758-1784 searchCtrlPt; distances are compared by their squares *)
Fixpoint searchLoop (nsd dim : nat) (X : Qc * Qc * Qc) (tol : Qc) (cs : list Qc) (i : nat) (Xnod : Qc * Qc * Qc) (inod iclose : nat) (dist : Qc) : nat :=
  match cs with
  | [] => iclose
  | c :: rest =>
    let Xnod := if (i <? nsd)%nat then set3 i c Xnod else Xnod in
    if (S i =? dim)%nat then
      if equal3 tol X Xnod && ((iclose =? 0)%nat || qltb (dist2 X Xnod) dist)
      then searchLoop nsd dim X tol rest 0 Xnod (S inod) (S inod) (dist2 X Xnod)
      else searchLoop nsd dim X tol rest 0 Xnod (S inod) iclose dist
    else searchLoop nsd dim X tol rest (S i) Xnod inod iclose dist
  end.
Definition searchCtrlPt (nsd dim : nat) (X : Qc * Qc * Qc) (tol : Qc) (cs : list Qc) : nat :=
  searchLoop nsd dim X tol cs 0 (0%Qc, 0%Qc, 0%Qc) 0 0 0%Qc.

(** ** Array utilities *)
(** std::lower_bound: the bisection of the standard library on [first, first+len) *)
Fixpoint lowerBound (fuel : nat) (a : list Qc) (v : Qc) (first len : nat) : nat :=
  match fuel with
  | O => first
  | S f => if (len =? 0)%nat then first
           else let half := (len / 2)%nat in
                if qltb (nth (first + half) a 0%Qc) v then lowerBound f a v (first + half + 1) (len - half - 1)
                else lowerBound f a v first half
  end.
(** Utilities.C:455-465 find_closest; for an empty array the result is 0 *)
Definition find_closest (a : list Qc) (v : Qc) : nat :=
  let i := lowerBound (length a) a v 0 (length a) in
  if (0 <? i)%nat && (i <? length a)%nat
  then (if qltb (nth i a 0 - v) (v - nth (i - 1) a 0) then i else (i - 1)%nat)%Qc
  else if (i =? 0)%nat then O else (i - 1)%nat.
(** Utilities.C:519-526 findValue, findKey (the map is a list ordered by key) *)
Definition findKey (m : list (Z * Z)) (v : Z) : Z := match find (fun kv => snd kv =? v) m with Some (k, _) => k | None => v end.
(** Utilities.C:533-537 findIndex *)
Fixpoint findIndexFrom (k : Z) (a : list Z) (v : Z) : Z :=
  match a with [] => -1 | x :: r => if x =? v then k else findIndexFrom (k + 1) r v end.
Definition findIndex (a : list Z) (v : Z) : Z := findIndexFrom 0 a v.
(** Utilities.C:540-545 merge *)
Definition mergeInts (a1 a2 : list Z) : list Z := fold_left (fun a x => if existsb (Z.eqb x) a then a else a ++ [x]) a2 a1.
(** Utilities.C:548-554 merge of values by keys *)
Definition mergeVals (a1 a2 : list Qc) (k1 k2 : list Z) : option (list Qc) :=
  forN (length k2) (fun i a => if existsb (Z.eqb (nth i k2 0)) k1 then Some a else bind (rd a2 i) (fun x => Some (a ++ [x]))) a1.
(** Utilities.C:557-568 interleave; [pos], [p1], [p2] are the iterators; a copy outside an
    array, or a loop that never ends, is [None] *)
Fixpoint interleaveLoop (fuel : nat) (v1 v2 : list Qc) (n1 n2 pos p1 p2 : nat) (out : list Qc) : option (list Qc) :=
  match fuel with
  | O => None
  | S f => if (pos =? length out)%nat then Some out
           else bind (memcpy n1 p1 v1 pos out) (fun o => bind (memcpy n2 p2 v2 (pos + n1) o) (fun o =>
                  interleaveLoop f v1 v2 n1 n2 (pos + n1 + n2) (p1 + n1) (p2 + n2) o))
  end.
Definition interleave (v1 v2 : list Qc) (n1 n2 : nat) (out : list Qc) : option (list Qc) :=
  let L := (length v1 + length v2)%nat in interleaveLoop (S L) v1 v2 n1 n2 0 0 0 (stdResize L out).

(** ** Parsing *)
Definition isSpace (c : ascii) : bool := let n := nat_of_ascii c in ((n =? 32) || ((9 <=? n) && (n <=? 13)))%nat.
Definition digitOf (c : ascii) : option Z := let n := nat_of_ascii c in if ((48 <=? n) && (n <=? 57))%nat then Some (Z.of_nat (n - 48)) else None.
Fixpoint skipSpace (s : list ascii) : list ascii := match s with c :: r => if isSpace c then skipSpace r else s | [] => [] end.
Fixpoint takeDigits (acc : Z) (s : list ascii) : Z * list ascii :=
  match s with c :: r => match digitOf c with Some d => takeDigits (10 * acc + d) r | None => (acc, s) end | [] => (acc, []) end.
Definition sign (s : list ascii) : bool * list ascii :=
  match s with c :: r => if Ascii.eqb c "-"%char then (true, r) else if Ascii.eqb c "+"%char then (false, r) else (false, s) | [] => (false, s) end.
(** strtol(s,&rest,10): without a number the value is 0 and the rest is [s] *)
Definition strtol (s : list ascii) : Z * list ascii :=
  let '(neg, t) := sign (skipSpace s) in
  match t with
  | c :: _ => match digitOf c with
              | Some _ => let '(v, r) := takeDigits 0 t in (if neg then - v else v, r)
              | None => (0, s) end
  | [] => (0, s)
  end.
(** the values v+1, ..., e *)
Definition upTo (v e : Z) : list Z := map (fun k => v + 1 + Z.of_nat k) (seq 0 (Z.to_nat (e - v))).
(** Utilities.C:26-50, the loop; [None] if the fuel is exhausted *)
Fixpoint parseLoop (fuel : nat) (s : list ascii) (vals : list Z) : option (bool * list Z) :=
  match s with
  | [] => Some (true, vals)
  | _ =>
    match fuel with
    | O => None
    | S f =>
      let '(v, r) := strtol s in
      let vals := vals ++ [v] in
      match r with
      | [] => parseLoop f [] vals
      | c :: r' =>
        if Ascii.eqb c ","%char then parseLoop f r' vals
        else if Ascii.eqb c ":"%char then let '(e, r2) := strtol r' in parseLoop f r2 (vals ++ upTo v e)
        else if (length r =? length s)%nat then Some (false, vals)
        else parseLoop f r vals
      end
    end
  end.
(** Utilities.C:22-57 parseIntegers, for a string (argv is not null) *)
Definition parseIntegers (vals : list Z) (s : list ascii) : option (bool * list Z) :=
  bind (parseLoop (S (length s)) s vals) (fun r =>
    if fst r then
      let w := if negb (length s =? 0)%nat && Ascii.eqb (last s " "%char) ","%char then snd r ++ [0] else snd r in
      Some ((length vals <? length w)%nat, w)
    else Some (false, snd r)).
