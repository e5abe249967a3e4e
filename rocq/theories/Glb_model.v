(** Model of the global integrals other than the equation system: nodal forces
    (src/ASM/GlbForceVec.C), norms (src/ASM/GlbNorm.C, ElmNorm.h), the boundary force
    resultant (ForceBase in src/ASM/IntegrandBase.C) and the collection of boundary nodes
    (src/SIM/SIMbase.C). Exact rationals; [None] is an access outside of an array. *)
From Coq Require Import List Arith ZArith QArith Qcanon Bool.
From Verif Require Import Base SAM_model.
From Verif Require Import QcLra.
Import ListNotations.
Local Open Scope nat_scope.

(** ** Boundary nodes *)
(** the nodes of one property of the requested code: all the nodes of a patch (the property
    has the dimension of the patch), or those of a boundary or node set *)
Inductive bprop := Whole (ns : list Z) | Part (ns : list Z).
(** SIMbase.C:1113-1165 getBoundaryNodes, patch lookup and coordinates left out *)
Definition addUnique (l : list Z) (n : Z) : list Z := if existsb (Z.eqb n) l then l else l ++ [n].
Definition boundaryNodes (ps : list bprop) : list Z :=
  fold_left (fun l p => match p with
                        | Whole ns => l ++ ns
                        | Part ns => fold_left addUnique ns l
                        end) ps [].

(** ** Nodal forces *)
(** GlbForceVec.h:71-75: the matrix F by columns, nodeNum and nodeMap *)
Record fvec := mkF { nfc : nat; fcols : list (list Qc); nums : list Z; nmap : list (Z * nat) }.
(** std::map::operator[] assignment and find *)
Definition assign (k : Z) (v : nat) (m : list (Z * nat)) : list (Z * nat) :=
  (k, v) :: filter (fun p => negb (fst p =? k)%Z) m.
Fixpoint lookup (m : list (Z * nat)) (k : Z) : option nat :=
  match m with [] => None | (a, v) :: r => if (a =? k)%Z then Some v else lookup r k end.
(** GlbForceVec.C:23-42 initNodeMap; resizing F does not clear it in general, but
    initialize() is called before any assembly *)
Fixpoint mapNodes (n : Z) (ns : list Z) (i : nat) (m : list (Z * nat)) (illegal : nat) : list (Z * nat) * nat :=
  match ns with
  | [] => (m, illegal)
  | g :: r => if ((0 <? g) && (g <=? n))%Z then mapNodes n r (S i) (assign g (S i) m) illegal else mapNodes n r (S i) m (S illegal)
  end.
Definition initNodeMap (s : tables) (ns : list Z) (nf : nat) : bool * fvec :=
  let '(m, bad) := mapNodes (Z.of_nat (nnod s)) ns 0 [] 0 in
  (bad =? 0, mkF nf (repeat (repeat 0%Qc nf) (length m)) ns m).
(** GlbForceVec.C:45-48 initialize *)
Definition initialize (f : fvec) : fvec := mkF (nfc f) (map (map (fun _ => 0%Qc)) (fcols f)) (nums f) (nmap f).
(** SAM.C:635-652 getElmNodes *)
Definition elmNodes (s : tables) (iel : Z) : option (list Z) :=
  if ((iel <? 1) || (Z.of_nat (nel s) <? iel))%Z then None
  else let ip := nth (Z.to_nat iel - 1) (mpmnpc s) 0 - 1 in
       let jp := nth (Z.to_nat iel) (mpmnpc s) 0 - 1 in
       Some (firstn (jp - ip) (skipn ip (mmnpc s))).
(** SAM.C:738-743 getNodeDOFs: last - first + 1 *)
Definition nodeDofs (s : tables) (n : Z) : nat :=
  if ((n <? 1) || (Z.of_nat (nnod s) <? n))%Z then 1
  else nth (Z.to_nat n) (madof s) 0 - nth (Z.to_nat n - 1) (madof s) 0.
(** GlbForceVec.C:75-76: F(j+1,c) -= ES[k+j] for j = 0..n-1 *)
Fixpoint subCol (n j : nat) (ES : list Qc) (k : nat) (col : list Qc) : option (list Qc) :=
  match n with
  | O => Some col
  | S n' => match nth_error ES (k + j) with
            | None => None
            | Some v => subCol n' (S j) ES k (upd j (nth j col 0%Qc - v)%Qc col)
            end
  end.
(** GlbForceVec.C:70-79: the loop over the element nodes; result: columns, ninod *)
Fixpoint addNodes (s : tables) (m : list (Z * nat)) (nf : nat) (ES : list Qc) (mnpc : list Z) (k ninod : nat) (cs : list (list Qc)) : option (list (list Qc) * nat) :=
  match mnpc with
  | [] => Some (cs, ninod)
  | n :: r =>
    match lookup m n with
    | None => addNodes s m nf ES r (k + nodeDofs s n) (S ninod) cs
    | Some c =>
      if nf =? 0 then addNodes s m nf ES r (k + nodeDofs s n) ninod cs
      else match nth_error cs (c - 1) with
           | None => None
           | Some col => match subCol nf 0 ES k col with
                         | None => None
                         | Some col' => addNodes s m nf ES r (k + nodeDofs s n) ninod (upd (c - 1) col' cs)
                         end
           end
    end
  end.
(** GlbForceVec.C:51-87 assemble; [ES] is None if the object is not an ElmMats or has no vectors *)
Definition assembleF (s : tables) (f : fvec) (ES : option (list Qc)) (iel : Z) : option (bool * fvec) :=
  match ES with
  | None => Some (false, f)
  | Some v => match elmNodes s iel with
              | None => Some (false, f)
              | Some mnpc => match addNodes s (nmap f) (nfc f) v mnpc 0 0 (fcols f) with
                             | None => None
                             | Some (cs, ninod) => Some (ninod <? length mnpc, mkF (nfc f) cs (nums f) (nmap f))
                             end
              end
  end.
(** matrix.h:627-636 getColumn, 1-based *)
Definition getColumn (cs : list (list Qc)) (c : nat) : option (list Qc) :=
  if length cs <? 2 then Some (concat cs) else nth_error cs (c - 1).
(** Vec3.h:44-45 *)
Definition vec3 (x : list Qc) : list Qc := [nth 0 x 0%Qc; nth 1 x 0%Qc; nth 2 x 0%Qc].
Definition vec3add (a b : list Qc) : list Qc := [(nth 0 a 0 + nth 0 b 0)%Qc; (nth 1 a 0 + nth 1 b 0)%Qc; (nth 2 a 0 + nth 2 b 0)%Qc].
(** GlbForceVec.C:97-108 getForce(node) *)
Definition getForce (f : fvec) (node : Z) : option (list Qc) :=
  match lookup (nmap f) node with
  | None => Some (vec3 [])
  | Some c => option_map vec3 (getColumn (fcols f) c)
  end.
(** GlbForceVec.C:111-118 getTotalForce *)
Fixpoint sumCols (cs : list (list Qc)) (js : list nat) (a : list Qc) : option (list Qc) :=
  match js with
  | [] => Some a
  | j :: r => match getColumn cs j with None => None | Some c => sumCols cs r (vec3add a (vec3 c)) end
  end.
Definition getTotalForce (f : fvec) : option (list Qc) := sumCols (fcols f) (seq 1 (length (fcols f))) (vec3 []).
(** GlbForceVec.C:121-132 getForce(indx,force): node number and force *)
Definition getForceAt (f : fvec) (indx : nat) : option (Z * option (list Qc)) :=
  if (indx <? length (fcols f)) && (indx <? length (nums f))
  then match getColumn (fcols f) (S indx) with
       | None => None
       | Some c => Some (nth indx (nums f) 0%Z, Some (vec3 c))
       end
  else Some (0%Z, None).

(** ** Norms *)
Inductive finalOp := ONone | OAbs | OSqrt.
Section Norm.
Variable sqroot : Qc -> Qc.
(** GlbNorm.C:61-79 applyFinalOp *)
Definition applyOp (op : finalOp) (v : Qc) : Qc :=
  match op with
  | ONone => v
  | OAbs => if qltb v 0%Qc then (- v)%Qc else v
  | OSqrt => if qltb v 0%Qc then (- sqroot (- v))%Qc else sqroot v
  end.
(** GlbNorm.C:46-55: the summation loop, state k and j *)
Fixpoint addVals (vals : list (list Qc)) (k j : nat) (el : list Qc) : option (list (list Qc)) :=
  match el with
  | [] => Some vals
  | v :: r =>
    match nth_error vals k with
    | None => None
    | Some g0 =>
      let '(k, j) := if length g0 <=? j then (S k, 0) else (k, j) in
      match nth_error vals k with
      | Some g => if j <? length g then addVals (upd k (upd j (nth j g 0 + v)%Qc g) vals) k (S j) r else addVals vals k j r
      | None => addVals vals k j r
      end
    end
  end.
(** GlbNorm.C:33-58 assemble: result, global values, element values *)
Definition assembleN (op : finalOp) (delAss : bool) (vals : list (list Qc)) (ext : bool) (el : list Qc) (elmId : Z) : option (bool * list (list Qc) * list Qc) :=
  if (0 <? elmId)%Z && ext then Some (delAss, vals, el)
  else match addVals vals 0 0 el with
       | None => None
       | Some vals' => Some (true, vals', map (applyOp op) el)
       end.
(** GlbNorm.C:25-30 the destructor *)
Definition destroy (op : finalOp) (vals : list (list Qc)) : list (list Qc) := map (map (applyOp op)) vals.

(** the integration: element [e] gets the terms [d] (evalInt/evalBou), then assemble is called;
    one event is one element in one integration loop *)
Definition vplus (a d : list Qc) : list Qc := map (fun p => (fst p + snd p)%Qc) (combine a d).
(** without element norms: IntegrandBase.C:484-498 a new buffer for each event *)
Fixpoint integrateInt (op : finalOp) (n : nat) (evs : list (nat * list Qc)) (vals : list (list Qc)) : option (bool * list (list Qc)) :=
  match evs with
  | [] => Some (true, vals)
  | (e, d) :: r =>
    match assembleN op false vals false (vplus (repeat 0%Qc n) d) (Z.of_nat e + 1) with
    | None => None
    | Some (false, vals', _) => Some (false, vals')
    | Some (true, vals', _) => integrateInt op n r vals'
    end
  end.
(** with element norms: the values are accumulated in the columns of eNorm *)
Fixpoint integrateExt (op : finalOp) (evs : list (nat * list Qc)) (vals : list (list Qc)) (en : list (list Qc)) : option (bool * list (list Qc) * list (list Qc)) :=
  match evs with
  | [] => Some (true, vals, en)
  | (e, d) :: r =>
    match nth_error en e with
    | None => None
    | Some el =>
      match assembleN op true vals true (vplus el d) (Z.of_nat e + 1) with
      | None => None
      | Some (false, vals', el') => Some (false, vals', upd e el' en)
      | Some (true, vals', el') => integrateExt op r vals' (upd e el' en)
      end
    end
  end.
(** SIMbase.C:2066-2070: the final loop over the element norms (elmId = 0) *)
Fixpoint finalLoop (op : finalOp) (vals : list (list Qc)) (en : list (list Qc)) : option (list (list Qc) * list (list Qc)) :=
  match en with
  | [] => Some (vals, [])
  | el :: r =>
    match assembleN op true vals true el 0 with
    | None => None
    | Some (_, vals', el') => match finalLoop op vals' r with
                              | None => None
                              | Some (v, q) => Some (v, el' :: q)
                              end
    end
  end.
(** SIMbase.C:1969-2085 solutionNorms without and with element norms: [sizes] are the sizes of
    the norm groups (all of them counted in nNorms); no boundary terms, one process *)
Definition normsInt (op : finalOp) (sizes : list nat) (evs : list (nat * list Qc)) : option (bool * list (list Qc)) :=
  match integrateInt op (list_sum sizes) evs (map (repeat 0%Qc) sizes) with
  | None => None
  | Some (ok, vals) => Some (ok, destroy op vals)
  end.
Definition normsExt (op : finalOp) (sizes : list nat) (nelm : nat) (evs : list (nat * list Qc)) : option (bool * list (list Qc) * list (list Qc)) :=
  match integrateExt op evs (map (repeat 0%Qc) sizes) (repeat (repeat 0%Qc (list_sum sizes)) nelm) with
  | None => None
  | Some (ok, vals, en) => match finalLoop op vals en with
                           | None => None
                           | Some (vals', en') => Some (ok, destroy op vals', en')
                           end
  end.
End Norm.

(** IntegrandBase.C:684-694 ForceBase::assemble: the element buffers have [n] values each *)
Definition forceResultant (n : nat) (ef : list (list Qc)) : list Qc :=
  fold_left (fun g el => map (fun j => if j <? length el then (nth j g 0 + nth j el 0)%Qc else nth j g 0%Qc) (seq 0 n)) ef (repeat 0%Qc n).
