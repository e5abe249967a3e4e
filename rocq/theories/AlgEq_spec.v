(** Specification-level notions for the equation system theorems. *)
From Coq Require Import List Arith ZArith QArith Qcanon Bool Lia.
From Verif Require Import Base SAM_model SAM_spec Sparse_model Sparse_spec AlgEq_model.
Import ListNotations.
Local Open Scope nat_scope.

(** ** Memory *)

(** the object at address [p] is allocated *)
Definition live {X} (l : list (option X)) (p : nat) : Prop := exists x, nth_error l p = Some (Some x).
(** the references [refs] are to different allocated objects, and each allocated object
    is referenced *)
Definition exclusive {X} (refs : list (option nat)) (l : list (option X)) : Prop :=
  NoDup refs /\ ~ In None refs /\ forall p, In (Some p) refs <-> live l p.
(** the owning pointers of one system, and of all systems *)
Definition refD (y : sys) : list (option nat) := match d y with DArr p => [Some p] | _ => [] end.
Definition refs (f : sys -> list (option nat)) (w : world) : list (option nat) :=
  flat_map (fun o => match o with Some y => f y | None => [] end) (objs w).
(** each allocated matrix, vector and buffer belongs to exactly one system, and no system
    has a null or dangling pointer *)
Definition noLeaks (w : world) : Prop :=
  exclusive (refs (fun y => map fst (A y)) w) (hM (hp w)) /\
  exclusive (refs b w) (hV (hp w)) /\
  exclusive (refs refD w) (hD (hp w)).
(** the vector associated with a matrix is one of the system's own *)
Definition assocOwn (w : world) : Prop :=
  forall i y pA pb, nth_error (objs w) i = Some (Some y) -> In (pA, Some pb) (A y) -> In (Some pb) (b y).

(** ** Legal use of the interface *)

(** number of matrices, vectors, scalars, and if reaction forces were asked for *)
Record shape := mkShape { nmat : nat; nvec : nat; nscl : nat; react : bool }.
(** the reaction forces exist only in systems with one matrix and at least one vector *)
Definition hasReact (sh : shape) : bool := react sh && (nmat sh =? 1) && (0 <? nvec sh).
(** a system is empty (new or cleared), initialised, or between initialize() and finalize() *)
Inductive phase := Clean | Ready (sh : shape) | Busy (sh : shape).
Definition settled (p : phase) : phase := match p with Busy sh => Ready sh | _ => p end.

(** [legal nthr s sl P o P']: call [o] is allowed when the systems are in the phases [P],
    and takes them to [P'].  The restrictions: init() only on an empty system, no
    initialize() between initialize() and finalize(), no assignment to a system between
    these or from itself, add() only with systems of the same shape that have at least as
    many vectors as matrices, assemble() and finalize() only after initialize(), element
    numbers in range if there are reactions, no locked pattern for row formats. *)
Inductive legal (nthr : nat) (s : tables) (sl : solverT) : list (option phase) -> op -> list (option phase) -> Prop :=
| L_new P : legal nthr s sl P New (P ++ [Some Clean])
| L_newcopy P j ph : nth_error P j = Some (Some ph) -> legal nthr s sl P (NewCopy j) (P ++ [Some (settled ph)])
| L_init P i mode nm nv nc rc : nth_error P i = Some (Some Clean) -> mode <> Some false \/ colFmt sl = true ->
    legal nthr s sl P (Init i mode nm nv nc rc) (upd i (Some (Ready (mkShape nm nv nc rc))) P)
| L_copy P i j phi phj : i <> j -> nth_error P i = Some (Some phi) -> (forall sh, phi <> Busy sh) ->
    nth_error P j = Some (Some phj) -> legal nthr s sl P (Copy i j) (upd i (Some (settled phj)) P)
| L_add P i j phi phj sh : nth_error P i = Some (Some phi) -> phi = Ready sh \/ phi = Busy sh ->
    nth_error P j = Some (Some phj) -> phj = Ready sh \/ phj = Busy sh -> nmat sh <= nvec sh ->
    legal nthr s sl P (Add i j) P
| L_assoc P i imat ivec ph : nth_error P i = Some (Some ph) -> legal nthr s sl P (Assoc i imat ivec) P
| L_scalar P i v k ph : nth_error P i = Some (Some ph) -> legal nthr s sl P (AddScalar i v k) P
| L_initialize P i lhs sh : nth_error P i = Some (Some (Ready sh)) ->
    legal nthr s sl P (Initialize i lhs) (upd i (Some (Busy sh)) P)
| L_assemble P i it e iel sh : nth_error P i = Some (Some (Busy sh)) -> it < nthr ->
    (hasReact sh = true -> 1 <= iel <= nel s) -> legal nthr s sl P (Assemble i it e iel) P
| L_finalize P i nl sh : nth_error P i = Some (Some (Busy sh)) ->
    legal nthr s sl P (Finalize i nl) (upd i (Some (Ready sh)) P)
| L_clear P i ph : nth_error P i = Some (Some ph) -> legal nthr s sl P (Clear i) (upd i (Some Clean) P)
| L_delete P i ph : nth_error P i = Some (Some ph) -> legal nthr s sl P (Delete i) (upd i None P).
Inductive legalRun (nthr : nat) (s : tables) (sl : solverT) : list (option phase) -> list op -> list (option phase) -> Prop :=
| LR_nil P : legalRun nthr s sl P [] P
| LR_cons P o P' os P'' : legal nthr s sl P o P' -> legalRun nthr s sl P' os P'' -> legalRun nthr s sl P (o :: os) P''.

(** ** Contents *)

(** getMatrix(k), getVector(k) of system [i] *)
Definition matrixOf (w : world) (i k : nat) : option spm :=
  match nth_error (objs w) i with
  | Some (Some y) => match nth_error (A y) k with
                     | Some (Some p, _) => match nth_error (hM (hp w)) p with Some o => o | None => None end
                     | _ => None
                     end
  | _ => None
  end.
Definition vectorOf (w : world) (i k : nat) : option (list Qc) :=
  match nth_error (objs w) i with
  | Some (Some y) => match nth_error (b y) k with
                     | Some (Some p) => match nth_error (hV (hp w)) p with Some o => o | None => None end
                     | _ => None
                     end
  | _ => None
  end.
(** getScalars(), getReactions() *)
Definition scalarsOf (w : world) (i : nat) : list Qc :=
  match nth_error (objs w) i with Some (Some y) => c y | _ => [] end.
Definition reactionsOf (w : world) (i : nat) : list Qc :=
  match nth_error (objs w) i with Some (Some y) => R y | _ => [] end.
(** matrix [k] of system [i] sends right-hand side contributions to vector [j] (with one
    matrix this is always the first vector) *)
Definition assocTo (w : world) (i k j : nat) : Prop :=
  match nth_error (objs w) i with
  | Some (Some y) =>
    exists a p, nth_error (A y) k = Some a /\ nth_error (b y) j = Some p /\
      (if length (A y) =? 1 then j = 0 else snd a = p)
  | _ => False
  end.

(** the element's matrices and vectors are empty or fit to the equations of element [iel] *)
Definition elmFits (s : tables) (e : elm) (iel : nat) (meen : list Z) : Prop :=
  getElmEqns s iel = Some meen /\
  (forall E, In E (eA e) -> fst E = 0 \/ fst E = length meen) /\
  (forall v, In v (eB e) -> v = [] \/ length v = length meen).
(** equation [r] of the element vector [v], dependent DOFs distributed on their masters *)
Definition vecTerm (s : tables) (meen : list Z) (v : list Qc) (r : nat) : Qc :=
  qs (fun i => nth i v 0 * Tcoef s (nth i meen 0%Z) (Z.of_nat r))%Qc (seq 0 (length meen)).
(** equation [r] of the element matrix times the prescribed values *)
Definition prescTerm (s : tables) (meen : list Z) (E : nat * emat) (r : nat) : Qc :=
  if fst E =? 0 then 0%Qc
  else qs2 (length meen) (fun i j => Tcoef s (nth i meen 0%Z) (Z.of_nat r) * snd E i j * c0 s (nth j meen 0%Z))%Qc.
(** element matrices number [k] that go into system matrix [k] *)
Definition matList (s : tables) (els : list (nat * elm * nat)) (k : nat) : list (emat * list Z) :=
  flat_map (fun t => let '(_, e, iel) := t in
     match nth_error (eA e) k, getElmEqns s iel with
     | Some E, Some meen => if withLHS e && negb (rhsOnly e) && negb (fst E =? 0) then [(snd E, meen)] else []
     | _, _ => []
     end) els.
(** what one element adds to equation [r] of vector [j], the matrices [ks] being associated with it *)
Definition vecContrib (s : tables) (e : elm) (iel : nat) (ks : list nat) (j r : nat) : Qc :=
  match getElmEqns s iel with
  | None => 0%Qc
  | Some meen =>
    (vecTerm s meen (nth j (eB e) []) r -
     (if withLHS e then qs (fun k => match nth_error (eA e) k with Some E => prescTerm s meen E r | None => 0 end) ks else 0))%Qc
  end.
(** what one element adds to reaction force number [p] (0-based): its vector, and minus
    the last constrained DOF's column times the prescribed value *)
Definition lastPresc (meen : list Z) : option nat :=
  fold_left (fun a j => if (nth j meen 0 <? 0)%Z then Some j else a) (seq 0 (length meen)) None.
Definition reactTerm (s : tables) (meen : list Z) (e : elm) (i : nat) : Qc :=
  (nth i (nth 0 (eB e) []) 0 +
   match nth_error (eA e) 0, lastPresc meen with
   | Some E, Some j => if withLHS e && negb (fst E =? 0) && (nth i meen 0 <? 1)%Z
                       then - (offset s (Z.to_nat (- nth j meen 0%Z)) * snd E i j) else 0
   | _, _ => 0
   end)%Qc.
(** sum of [f i] over the element DOFs [i] whose reaction force has number [p] (0-based);
    the status code of a DOF with reaction force number q is -q *)
Definition reactAt (s : tables) (nodes : list Z) (n : nat) (f : nat -> Qc) (p : nat) : Qc :=
  qs (fun i => match nth_error (elmDofs s nodes) i with
               | Some (Some k) => if (- nth (Z.to_nat k - 1) (msc s) 0 =? Z.of_nat (S p))%Z then f i else 0%Qc
               | _ => 0%Qc
               end) (seq 0 n).
(** what one element adds to reaction force number [p] *)
Definition reactContrib (s : tables) (e : elm) (iel p : nat) : Qc :=
  match getElmEqns s iel, elmNodes s iel with
  | Some meen, Some nodes => reactAt s nodes (length meen) (reactTerm s meen e) p
  | _, _ => 0%Qc
  end.
(** what one element adds to scalar number [j]: nothing, if the element has neither matrices nor vectors *)
Definition sclContrib (e : elm) (j : nat) : Qc :=
  match eA e, eB e with [], [] => 0%Qc | _, _ => nth j (eC e) 0%Qc end.

(** ** Programs *)

(** assemble() of all the elements [els] (thread, element, element number) into system [i], in this order *)
Definition assembleAll (i : nat) (els : list (nat * elm * nat)) : list op :=
  map (fun t => Assemble i (fst (fst t)) (snd (fst t)) (snd t)) els.
(** the elements fit to the model, and the thread numbers are in range *)
Definition elmsFit (nthr : nat) (s : tables) (els : list (nat * elm * nat)) : Prop :=
  forall it e iel, In (it, e, iel) els -> it < nthr /\ exists meen, elmFits s e iel meen.
(** [w] is the outcome of a legal program that starts with no systems; its systems are in the phases [P] *)
Definition legalOutcome (nthr : nat) (s : tables) (sl : solverT) (sg : Qc) (w : world) (P : list (option phase)) : Prop :=
  exists os, legalRun nthr s sl [] os P /\ run nthr s sl sg os w0 = Some w.
(** system [i] has the same contents in the two worlds *)
Definition sameContents (w : world) (i : nat) (w' : world) (i' : nat) : Prop :=
  (forall k, matrixOf w i k = matrixOf w' i' k) /\ (forall k, vectorOf w i k = vectorOf w' i' k) /\
  scalarsOf w i = scalarsOf w' i' /\ reactionsOf w i = reactionsOf w' i'.

(** the system a call is made on (the new ones get new numbers) *)
Definition target (o : op) : option nat :=
  match o with
  | New | NewCopy _ => None
  | Init i _ _ _ _ _ | Copy i _ | Add i _ | Assoc i _ _ | AddScalar i _ _ | Initialize i _ | Assemble i _ _ _ | Finalize i _ | Clear i | Delete i => Some i
  end.
