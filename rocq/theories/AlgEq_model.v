(** Model of src/ASM/AlgEqSystem.C: the algebraic equation system, its system matrices
    and vectors on the heap, and the assembly of elements into it.

    The system matrices are [SparseMatrix] objects (model in Sparse_model.v), the system
    vectors [StdVector] objects.  All systems refer to the same [SAM] tables.  A pointer
    is [option nat]: [None] is the null pointer, [Some p] the address [p] in the heap of
    its type.  A function result [None] is undefined behaviour (use of a null or dangling
    pointer, double delete, index out of range). *)
From Coq Require Import List Arith ZArith QArith Qcanon Bool Lia.
From Verif Require Import Base SAM_model Sparse_model.
Import ListNotations.
Local Open Scope nat_scope.

(** ** The heap *)

(** dereference a pointer *)
Definition getp {X} (l : list (option X)) (p : option nat) : option X :=
  match p with
  | Some k => match nth_error l k with Some (Some x) => Some x | _ => None end
  | None => None
  end.
(** write through a pointer that was dereferenced *)
Definition setp {X} (l : list (option X)) (p : option nat) (x : X) : list (option X) :=
  match p with Some k => upd k (Some x) l | None => l end.
(** [delete p] (null is allowed), for each pointer of a list *)
Fixpoint freeAll {X} (ps : list (option nat)) (l : list (option X)) : option (list (option X)) :=
  match ps with
  | [] => Some l
  | None :: r => freeAll r l
  | Some k :: r => match nth_error l k with
                   | Some (Some _) => freeAll r (upd k None l)
                   | _ => None
                   end
  end.
(** a new copy of the object of each pointer [p] of a list *)
Fixpoint copyAll {X} (ps : list (option nat)) (l : list (option X)) : option (list (option nat) * list (option X)) :=
  match ps with
  | [] => Some ([], l)
  | p :: r => match getp l p with
              | None => None
              | Some x => match copyAll r (l ++ [Some x]) with
                          | None => None
                          | Some (q, l') => Some (Some (length l) :: q, l')
                          end
              end
  end.
(** [p->f()] for each pointer of a list *)
Fixpoint mapAll {X} (f : X -> X) (ps : list (option nat)) (l : list (option X)) : option (list (option X)) :=
  match ps with
  | [] => Some l
  | p :: r => match getp l p with None => None | Some x => mapAll f r (setp l p (f x)) end
  end.

(** the dynamically allocated objects: matrices, vectors, per-thread scalar buffers *)
Record heap := mkH { hM : list (option spm); hV : list (option (list Qc)); hD : list (option (list (list Qc))) }.

(** AlgEqSystem.h:146-149: the pointer [d] is null, the address of [c], or an array *)
Inductive dbuf := DNull | DSelf | DArr (p : nat).
(** AlgEqSystem.h:134-152 data members; [A]: the pointer pairs (_A, _b) *)
Record sys := mkY {
  A : list (option nat * option nat); b : list (option nat);
  c : list Qc; d : dbuf; R : list Qc }.

(** ElmMats.h:76-85: element matrices (dimension and coefficients), vectors, scalars *)
Record elm := mkE { eA : list (nat * emat); eB : list (list Qc); eC : list Qc; withLHS : bool; rhsOnly : bool }.

(** AlgEqSystem.C:27-30 *)
Definition newSys : sys := mkY [] [] [] DNull [].

(** ** Allocation: AlgEqSystem.C:33-96 init *)

(** AlgEqSystem.C:37-43 and SparseMatrix.C:713-726: the pre-assembly flag; [force]:
    forcePreAss, [neg]: num_threads_SLU < 0, [nthr] = omp_get_max_threads() *)
Definition preMode (nthr : nat) (force neg : bool) : option bool :=
  if force then Some neg else if 1 <? nthr then Some neg else None.

(** AlgEqSystem.C:61-75: the first matrix is constructed and initialised (SystemMatrix.C
    create gives an empty SparseMatrix), the others are copies of it *)
Definition initMats (s : tables) (sl : solverT) (mode : option bool) (n : nat) (m : list (option spm))
  : option (list (option nat * option nat) * list (option spm)) :=
  match n with
  | O => Some ([], m)
  | S k => match initAssembly s mode (create 0 0 sl) with
           | None => None
           | Some M0 => Some (map (fun p => (Some p, None)) (seq (length m) (S k)), m ++ repeat (Some M0) (S k))
           end
  end.
(** AlgEqSystem.C:77-82: missing vectors are created (empty) *)
Fixpoint initVecs (bs : list (option nat)) (v : list (option (list Qc))) : list (option nat) * list (option (list Qc)) :=
  match bs with
  | [] => ([], v)
  | Some p :: r => let '(q, v') := initVecs r v in (Some p :: q, v')
  | None :: r => let '(q, v') := initVecs r (v ++ [Some []]) in (Some (length v) :: q, v')
  end.
(** AlgEqSystem.C:33-96 init for a sparse matrix type; the test of line 84 never fails
    ([neq] is a natural number here); [b.front()] is resized twice, with the same size *)
Definition init (s : tables) (sl : solverT) (mode : option bool) (nmat nvec nscl : nat) (react : bool) (h : heap) (y : sys)
  : option (heap * sys) :=
  match freeAll (map fst (skipn nmat (A y))) (hM h), freeAll (skipn nvec (b y)) (hV h) with
  | Some m1, Some v1 =>
    match initMats s sl mode nmat m1 with
    | None => None
    | Some (A2, m2) =>
      let '(b2, v2) := initVecs (vresize nvec None (b y)) v1 in
      match mapAll (vresize (neq s) 0%Qc) b2 v2 with
      | None => None
      | Some v3 =>
        let single := match A2, b2 with [_], _ :: _ => true | _, _ => false end in
        Some (mkH m2 v3 (hD h),
              mkY (if single then map (fun a => (fst a, hd None b2)) A2 else A2) b2
                  (vresize nscl 0%Qc (c y)) (d y)
                  (if single && react then repeat 0%Qc (nspdof s) else []))
      end
    end
  | _, _ => None
  end.

(** AlgEqSystem.C:99-126 copy: [y] becomes a copy of [z] *)
Definition copySys (h : heap) (y z : sys) : option (heap * sys) :=
  match freeAll (map fst (A y)) (hM h), freeAll (b y) (hV h) with
  | Some m1, Some v1 =>
    match copyAll (map fst (A z)) m1, copyAll (b z) v1 with
    | Some (pA, m2), Some (pb, v2) =>
      Some (mkH m2 v2 (hD h),
            mkY (match pA, pb with [a], p :: _ => [(a, p)] | _, _ => map (fun a => (a, None)) pA end) pb (c z) DNull (R z))
    | _, _ => None
    end
  | _, _ => None
  end.

(** [y[i] += x[i]] for all i below both sizes *)
Fixpoint addPre (x y : list Qc) : list Qc :=
  match x, y with
  | a :: p, e :: q => (e + a)%Qc :: addPre p q
  | _, _ => y
  end.
(** AlgEqSystem.C:133-134 with SparseMatrix::add; the result flag is ignored *)
Fixpoint addMats (ps qs : list (option nat)) (m : list (option spm)) : option (list (option spm)) :=
  match ps, qs with
  | p :: r, q :: t =>
    match getp m p, getp m q with
    | Some M, Some B => match add B 1%Qc M with Some (_, M') => addMats r t (setp m p M') | None => None end
    | _, _ => None
    end
  | _, _ => Some m
  end.
(** AlgEqSystem.C:136-137: [n] is that.A.size(), [qs] the vectors of that *)
Fixpoint addVecs (n : nat) (ps qs : list (option nat)) (v : list (option (list Qc))) : option (list (option (list Qc))) :=
  match n, ps with
  | S n', p :: r =>
    match qs with
    | [] => None
    | q :: t => match getp v p, getp v q with
                | Some x, Some z =>
                  (* matrix.h:1619-1640 vector::add of vectors of the same length *)
                  if length x =? length z then addVecs n' r t (setp v p (addPre z x)) else None
                | _, _ => None
                end
    end
  | _, _ => Some v
  end.
(** AlgEqSystem.C:129-146 add *)
Definition addSys (h : heap) (y z : sys) : option (heap * sys) :=
  match addMats (map fst (A y)) (map fst (A z)) (hM h) with
  | None => None
  | Some m => match addVecs (length (A z)) (b y) (b z) (hV h) with
              | None => None
              | Some v =>
                let n := Nat.min (length (b y)) (length (R z)) in
                if length (R y) <? n then None
                else Some (mkH m v (hD h), mkY (A y) (b y) (addPre (c z) (c y)) (d y) (addPre (firstn n (R z)) (R y)))
              end
  end.

(** AlgEqSystem.C:149-168 clear (also the destructor) *)
Definition clear (h : heap) (y : sys) : option (heap * sys) :=
  match freeAll (map fst (A y)) (hM h), freeAll (b y) (hV h),
        (match d y with DArr p => freeAll [Some p] (hD h) | _ => Some (hD h) end) with
  | Some m, Some v, Some e => Some (mkH m v e, newSys)
  | _, _, _ => None
  end.

(** AlgEqSystem.C:171-179 setAssociatedVector *)
Definition setAssoc (imat ivec : nat) (y : sys) : bool * sys :=
  match nth_error (A y) imat, nth_error (b y) ivec with
  | Some a, Some p => (true, mkY (upd imat (fst a, p) (A y)) (b y) (c y) (d y) (R y))
  | _, _ => (false, y)
  end.
(** AlgEqSystem.h:94 addScalar *)
Definition addScalar (v : Qc) (i : nat) (y : sys) : sys :=
  mkY (A y) (b y) (if i <? length (c y) then upd i (nth i (c y) 0 + v)%Qc (c y) else c y) (d y) (R y).

(** ** Assembly *)

(** AlgEqSystem.C:182-213 initialize; [lhs] is 0, 1 or 2 *)
Definition initialize (nthr lhs : nat) (h : heap) (y : sys) : option (heap * sys) :=
  match (if lhs =? 0 then Some (hM h)
         else mapAll (fun M => let M1 := resize (nrow M) (ncol M) false M in
                               if lhs =? 2 then initFlags M1 else M1) (map fst (A y)) (hM h)),
        mapAll (fun x => repeat 0%Qc (length x)) (b y) (hV h) with
  | Some m, Some v =>
    let c' := repeat 0%Qc (length (c y)) in
    let R' := repeat 0%Qc (length (R y)) in
    match c y with
    | [] => Some (mkH m v (hD h), mkY (A y) (b y) c' (d y) R')
    | _ => if 1 <? nthr
           then Some (mkH m v (hD h ++ [Some (repeat c' nthr)]), mkY (A y) (b y) c' (DArr (length (hD h))) R')
           else Some (mkH m v (hD h), mkY (A y) (b y) c' DSelf R')
    end
  | _, _ => None
  end.

(** SAM.C:516-542 assembleSystem(sysRHS, eS, iel, reactionForces): flag, right-hand side,
    reactions.  With a bad element number the reactions are accumulated from outside of
    the element table (line 539).  A right-hand side shorter than the number of equations
    is undefined. *)
Definition asmVec (s : tables) (eS : list Qc) (iel : nat) (rhs : list Qc) (reac : option (list Qc))
  : option (bool * list Qc * option (list Qc)) :=
  match eS with
  | [] => Some (true, rhs, reac)
  | _ =>
    if length rhs <? neq s then None
    else
      let '(ok, rhs') := assembleElmVec s eS iel rhs in
      match reac with
      | None => Some (ok, rhs', None)
      | Some rf => match elmNodes s iel with
                   | None => None
                   | Some nodes => Some (ok, rhs', Some (assembleReactions s rf eS nodes))
                   end
      end
  end.
(** SAM.C:440-467 and 489-511: reaction forces due to prescribed values *)
Definition asmReact (s : tables) (K : emat) (meen nodes : list Z) (reac : option (list Qc)) : option (list Qc) :=
  match reac with
  | None => None
  | Some rf => match reactVec s K meen with
               | None => Some rf
               | Some eS => Some (assembleReactions s rf eS nodes)
               end
  end.
(** SAM.C:476-513 assembleSystem(sysRHS, eK, iel, reactionForces) *)
Definition asmKVec (s : tables) (E : nat * emat) (iel : nat) (rhs : list Qc) (reac : option (list Qc))
  : option (bool * list Qc * option (list Qc)) :=
  if fst E =? 0 then Some (true, rhs, reac)
  else match getElmEqnsN s iel (fst E), elmNodes s iel with
       | Some meen, Some nodes =>
         if length rhs <? neq s then None
         else Some (true, assembleKRHS s (snd E) meen rhs, asmReact s (snd E) meen nodes reac)
       | _, _ => Some (false, rhs, reac)
       end.
(** the updates of the right-hand side made by SparseMatrix.C:640-662 *)
Definition applyRHS (us : list (Z * Qc)) (rhs : list Qc) : list Qc :=
  fold_left (fun r u => addAt (Z.to_nat (fst u - 1)) (snd u) r) us rhs.
(** SAM.C:431-466 assembleSystem(sysK, sysRHS, eK, iel, reactionForces) with
    SparseMatrix.C:817-830, and SAM.C:469-473 with SparseMatrix.C:804-814 (no right-hand
    side: [rhs] = None) *)
Definition asmMat (s : tables) (E : nat * emat) (iel : nat) (M : spm) (rhs : option (list Qc)) (reac : option (list Qc))
  : option (bool * spm * option (list Qc) * option (list Qc)) :=
  if fst E =? 0 then Some (true, M, rhs, reac)
  else match getElmEqnsN s iel (fst E), elmNodes s iel with
       | Some meen, Some nodes =>
         if match rhs with Some v => length v <? neq s | None => false end then None
         else match assembleElm s (snd E) meen M with
              | None => None
              | Some (ok, M') =>
                Some (ok, M', option_map (applyRHS (snd (assemSparse s (snd E) meen))) rhs,
                      asmReact s (snd E) meen nodes reac)
              end
       | _, _ => Some (false, M, rhs, reac)
       end.

(** AlgEqSystem.C:253-254 and 267-268: vectors [b[i] += elMat->b[i]] while the status is true *)
Fixpoint asmVecs (s : tables) (iel : nat) (ps : list (option nat)) (es : list (list Qc)) (ok : bool)
  (v : list (option (list Qc))) : option (bool * list (option (list Qc))) :=
  match ps, es, ok with
  | p :: r, e :: t, true =>
    match getp v p with
    | None => None
    | Some x => match asmVec s e iel x None with
                | None => None
                | Some (ok', x', _) => asmVecs s iel r t ok' (setp v p x')
                end
    end
  | _, _, _ => Some (ok, v)
  end.
(** AlgEqSystem.C:272-282: matrices, with right-hand side contributions to the associated vector *)
Fixpoint asmMats (s : tables) (iel : nat) (rhsOnly : bool) (ps : list (option nat * option nat)) (es : list (nat * emat)) (ok : bool)
  (h : heap) : option (bool * heap) :=
  match ps, es, ok with
  | (pA, Some pb) :: r, e :: t, true =>
    match getp (hV h) (Some pb) with
    | None => None
    | Some x =>
      if rhsOnly then
        match asmKVec s e iel x None with
        | None => None
        | Some (ok', x', _) => asmMats s iel rhsOnly r t ok' (mkH (hM h) (setp (hV h) (Some pb) x') (hD h))
        end
      else match getp (hM h) pA with
           | None => None
           | Some M => match asmMat s e iel M (Some x) None with
                       | Some (ok', M', Some x', _) =>
                         asmMats s iel rhsOnly r t ok' (mkH (setp (hM h) pA M') (setp (hV h) (Some pb) x') (hD h))
                       | _ => None
                       end
           end
    end
  | (pA, None) :: r, e :: t, true =>
    if rhsOnly then asmMats s iel rhsOnly r t ok h
    else match getp (hM h) pA with
         | None => None
         | Some M => match asmMat s e iel M None None with
                     | Some (ok', M', _, _) => asmMats s iel rhsOnly r t ok' (mkH (setp (hM h) pA M') (hV h) (hD h))
                     | None => None
                     end
         end
  | _, _, _ => Some (ok, h)
  end.
(** ElmMats.C:31-66 getNewtonMatrix, getRHSVector *)
Definition newtonMat (e : elm) : nat * emat := hd (0, fun _ _ => 0%Qc) (eA e).
Definition rhsVec (e : elm) : list Qc := hd [] (eB e).

(** AlgEqSystem.C:230-255: one system matrix and its right-hand side vector [p0] *)
Definition asmSingle (s : tables) (e : elm) (iel : nat) (pA p0 : option nat) (bt : list (option nat)) (h : heap) (Rf : list Qc)
  : option (bool * heap * list Qc) :=
  match getp (hV h) p0 with
  | None => None
  | Some x0 =>
    let reac := match Rf with [] => None | _ => Some Rf end in
    let back (r : option (list Qc)) := match r with Some l => l | None => Rf end in
    match asmVec s (rhsVec e) iel x0 reac with
    | None => None
    | Some (ok1, x1, r1) =>
      match (if ok1 && withLHS e then
               if rhsOnly e then
                 match asmKVec s (newtonMat e) iel x1 r1 with
                 | None => None
                 | Some (ok, x, r) => Some (ok, mkH (hM h) (setp (hV h) p0 x) (hD h), back r)
                 end
               else match getp (hM h) pA with
                    | None => None
                    | Some M => match asmMat s (newtonMat e) iel M (Some x1) r1 with
                                | Some (ok, M', Some x, r) => Some (ok, mkH (setp (hM h) pA M') (setp (hV h) p0 x) (hD h), back r)
                                | _ => None
                                end
                    end
             else Some (ok1, mkH (hM h) (setp (hV h) p0 x1) (hD h), back r1)) with
      | None => None
      | Some (ok2, h2, R2) =>
        match asmVecs s iel bt (tl (eB e)) ok2 (hV h2) with
        | None => None
        | Some (ok3, v3) => Some (ok3, mkH (hM h2) v3 (hD h2), R2)
        end
      end
    end
  end.

(** AlgEqSystem.C:289-295: scalars, into the buffer of thread [it] *)
Definition asmScalars (it : nat) (ec : list Qc) (h : heap) (y : sys) : option (heap * sys) :=
  if Nat.min (length (c y)) (length ec) =? 0 then Some (h, y)
  else match d y with
       | DNull => None
       | DSelf => if it =? 0 then Some (h, mkY (A y) (b y) (addPre ec (c y)) (d y) (R y)) else None
       | DArr p => match getp (hD h) (Some p) with
                   | None => None
                   | Some bufs => match nth_error bufs it with
                                  | None => None
                                  | Some buf => if length buf <? Nat.min (length (c y)) (length ec) then None
                                                else Some (mkH (hM h) (hV h) (setp (hD h) (Some p)
                                                             (upd it (addPre (firstn (length (c y)) ec) buf) bufs)), y)
                                  end
                   end
       end.

(** AlgEqSystem.C:216-301 assemble, called by thread [it]; the element object is of type
    ElmMats (else the code returns false) *)
Definition assemble (s : tables) (it : nat) (e : elm) (iel : nat) (h : heap) (y : sys) : option (bool * heap * sys) :=
  match eA e, eB e with
  | [], [] => Some (true, h, y)
  | _, _ =>
    match (match A y, b y with
           | [(pA, _)], p0 :: bt =>
             match asmSingle s e iel pA p0 bt h (R y) with
             | None => None
             | Some (ok, h1, R1) => Some (ok, h1, mkY (A y) (b y) (c y) (d y) R1)
             end
           | _, _ =>
             match asmVecs s iel (b y) (eB e) true (hV h) with
             | None => None
             | Some (ok, v1) =>
               let h1 := mkH (hM h) v1 (hD h) in
               if withLHS e then
                 match asmMats s iel (rhsOnly e) (A y) (eA e) ok h1 with
                 | None => None
                 | Some (ok2, h2) => Some (ok2, h2, y)
                 end
               else Some (ok, h1, y)
             end
           end) with
    | None => None
    | Some (ok, h1, y1) => match asmScalars it (eC e) h1 y1 with
                           | None => None
                           | Some (h2, y2) => Some (ok, h2, y2)
                           end
    end
  end.

(** AlgEqSystem.C:308-315: endAssembly of all matrices (SystemMatrix.C:257-265) *)
Fixpoint endAll (sigma : Qc) (ps : list (option nat)) (ok : bool) (m : list (option spm)) : option (bool * list (option spm)) :=
  match ps with
  | [] => Some (ok, m)
  | p :: r => match getp m p with
              | None => None
              | Some M => match endAssembly sigma M with
                          | None => None
                          | Some (k, M') => endAll sigma r (ok && k) (setp m p M')
                          end
              end
  end.
(** AlgEqSystem.C:333-336: [c[j] += d[i][j]] for [n] threads *)
Fixpoint reduce (n : nat) (bufs : list (list Qc)) (cs : list Qc) : option (list Qc) :=
  match n with
  | O => Some cs
  | S k => match bufs with
           | [] => None
           | u :: r => if length u <? length cs then None else reduce k r (addPre u cs)
           end
  end.
(** AlgEqSystem.C:304-347 finalize (StdVector::endAssembly does nothing) *)
Definition finalize (nthr : nat) (sigma : Qc) (newLHS : bool) (h : heap) (y : sys) : option (bool * heap * sys) :=
  match (if newLHS then endAll sigma (map fst (A y)) true (hM h) else Some (true, hM h)) with
  | None => None
  | Some (ok, m) =>
    match (match b y with [] => Some (hV h) | _ => mapAll (fun x => x) (b y) (hV h) end) with
    | None => None
    | Some v =>
      match c y with
      | [] => Some (ok, mkH m v (hD h), y)
      | _ =>
        if 1 <? nthr then
          match d y with
          | DArr p => match getp (hD h) (Some p) with
                      | None => None
                      | Some bufs => match reduce nthr bufs (c y), freeAll [Some p] (hD h) with
                                     | Some c', Some e' => Some (ok, mkH m v e', mkY (A y) (b y) c' DNull (R y))
                                     | _, _ => None
                                     end
                      end
          | _ => None
          end
        else Some (ok, mkH m v (hD h), y)
      end
    end
  end.

(** ** Programs using several systems *)

Inductive op :=
| New
| NewCopy (j : nat)                                   (* AlgEqSystem.h:36 copy constructor *)
| Init (i : nat) (mode : option bool) (nmat nvec nscl : nat) (react : bool)
| Copy (i j : nat)                                    (* AlgEqSystem.h:41 assignment *)
| Add (i j : nat)
| Assoc (i imat ivec : nat)
| AddScalar (i : nat) (v : Qc) (k : nat)
| Initialize (i lhs : nat)
| Assemble (i it : nat) (e : elm) (iel : nat)
| Finalize (i : nat) (newLHS : bool)
| Clear (i : nat)
| Delete (i : nat).                                   (* AlgEqSystem.h:38 destructor *)

(** the heap and the AlgEqSystem objects ([None]: destroyed) *)
Record world := mkW { hp : heap; objs : list (option sys) }.
Definition w0 : world := mkW (mkH [] [] []) [].
Definition obj (w : world) (i : nat) : option sys := match nth_error (objs w) i with Some o => o | None => None end.
Definition put (w : world) (i : nat) (r : option (heap * sys)) : option world :=
  match r with None => None | Some (h, y) => Some (mkW h (upd i (Some y) (objs w))) end.

(** one call; using an object that does not exist (any more) is undefined *)
Definition step (nthr : nat) (s : tables) (sl : solverT) (sigma : Qc) (o : op) (w : world) : option world :=
  match o with
  | New => Some (mkW (hp w) (objs w ++ [Some newSys]))
  | NewCopy j => match obj w j with
                 | None => None
                 | Some z => match copySys (hp w) newSys z with
                             | None => None
                             | Some (h, y) => Some (mkW h (objs w ++ [Some y]))
                             end
                 end
  | Init i mode nmat nvec nscl react =>
    match obj w i with None => None | Some y => put w i (init s sl mode nmat nvec nscl react (hp w) y) end
  | Copy i j => match obj w i, obj w j with Some y, Some z => put w i (copySys (hp w) y z) | _, _ => None end
  | Add i j => match obj w i, obj w j with Some y, Some z => put w i (addSys (hp w) y z) | _, _ => None end
  | Assoc i imat ivec => match obj w i with None => None | Some y => put w i (Some (hp w, snd (setAssoc imat ivec y))) end
  | AddScalar i v k => match obj w i with None => None | Some y => put w i (Some (hp w, addScalar v k y)) end
  | Initialize i lhs => match obj w i with None => None | Some y => put w i (initialize nthr lhs (hp w) y) end
  | Assemble i it e iel =>
    match obj w i with
    | None => None
    | Some y => put w i (match assemble s it e iel (hp w) y with Some (_, h, y') => Some (h, y') | None => None end)
    end
  | Finalize i nl =>
    match obj w i with
    | None => None
    | Some y => put w i (match finalize nthr sigma nl (hp w) y with Some (_, h, y') => Some (h, y') | None => None end)
    end
  | Clear i => match obj w i with None => None | Some y => put w i (clear (hp w) y) end
  | Delete i => match obj w i with
                | None => None
                | Some y => match clear (hp w) y with
                            | None => None
                            | Some (h, _) => Some (mkW h (upd i None (objs w)))
                            end
                end
  end.
Fixpoint run (nthr : nat) (s : tables) (sl : solverT) (sigma : Qc) (os : list op) (w : world) : option world :=
  match os with
  | [] => Some w
  | o :: r => match step nthr s sl sigma o w with None => None | Some w' => run nthr s sl sigma r w' end
  end.
