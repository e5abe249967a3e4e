(** Model of src/ASM/SAMpatch.C: building the DOF, connectivity and constraint tables
    from the FE patches; re-building them when two models are merged; updating the
    constraint coefficients.

    Writes to consecutive positions of freshly allocated arrays are modelled as appends
    with a check of the allocated size.  [None] is undefined behaviour (access outside
    an array) or an unfinished recursion ([fuel]).  Equations live in the list [h] (see
    MPC_model.v); the pointers of a patch's constraint set are positions in it. *)
From Coq Require Import List Arith ZArith QArith Qcanon Bool Lia.
From Verif Require Import Base SAM_model MPC_model.
Import ListNotations.
Local Open Scope Z_scope.

(** ASMbase.h:75-92 struct BC: global node, codes CX CY CZ RX RY RZ *)
Record bc := mkBC { bnode : Z; bcodes : list Z }.
(** The parts of ASMbase used by SAMpatch: global node numbers, number of DOFs of the
    local nodes, external element numbers, element connectivity (0-based local nodes),
    nodal boundary conditions, constraint equations. *)
Record patch := mkP { pMLGN : list Z; pNdof : list nat; pMLGE : list Z; pMNPC : list (list Z); pBC : list bc; pMPC : list nat }.

(** ASMbase.C:277-280 getNodeID (base class version) *)
Definition getNodeID (p : patch) (inod : Z) : Z :=
  if (inod <? 1) || (Z.of_nat (length (pMLGN p)) <? inod) then 0 else nth (Z.to_nat (inod-1)) (pMLGN p) 0.
(** ASMbase.C:296-299 getElmID *)
Definition getElmID (p : patch) (iel : nat) : Z :=
  if (iel <? 1)%nat || (length (pMLGE p) <? iel)%nat then 0 else Z.abs (nth (iel-1) (pMLGE p) 0).
(** ASMbase.C:365-377 getNoElms(false,true) *)
Definition noElms (p : patch) : nat := length (filter (fun e => negb (e =? 0)) (pMLGE p)).

(** ** initNodeDofs, SAMpatch.C:83-156 (node and DOF types are not modelled) *)

(** lines 95-114: one node [(global number, number of DOFs)] of a patch *)
Definition nodeStep (nn : nat) (acc : list nat * nat) (x : Z * nat) : list nat * nat :=
  if (0 <? fst x) && (fst x <=? Z.of_nat nn) then
    let i := Z.to_nat (fst x) in
    if (nth i (fst acc) 0 =? 0)%nat then (upd i (snd x) (fst acc), snd acc)
    else if (nth i (fst acc) 0 =? snd x)%nat then acc else (fst acc, S (snd acc))
  else acc.
Definition patchNodes (p : patch) : list (Z * nat) :=
  map (fun j => (getNodeID p (Z.of_nat (S j)), nth j (pNdof p) 0%nat)) (seq 0 (length (pMLGN p))).
(** lines 126-128: accumulation *)
Fixpoint psum (a : nat) (l : list nat) : list nat := match l with [] => [a] | x :: r => a :: psum (a + x) r end.
(** lines 139-150: one boundary condition *)
Definition bcStep (md : list nat) (sc : list Z) (b : bc) : option (list Z) :=
  if (bnode b <? 1) || (Z.of_nat (pred (length md)) <? bnode b) then None
  else
    let i1 := nth (Z.to_nat (bnode b - 1)) md 0%nat in
    let n := (nth (Z.to_nat (bnode b)) md 0 - i1)%nat in
    Some (fold_left (fun m c => upd (i1 - 1 + c) (nth (i1 - 1 + c) m 0 * nth c (bcodes b) 0) m) (seq 0 (Nat.min n 6)) sc).
Fixpoint foldO {A X} (f : A -> X -> option A) (l : list X) (a : A) : option A :=
  match l with [] => Some a | x :: r => match f a x with None => None | Some b => foldO f r b end end.
(** result: success, madof, msc *)
Definition initNodeDofs (nn : nat) (ps : list patch) : option (bool * list nat * list Z) :=
  if (nn <? 1)%nat then Some (true, [], [])
  else
    let '(cnt, ierr) := fold_left (nodeStep nn) (flat_map patchNodes ps) (repeat 0%nat (S nn), 0%nat) in
    let md := psum 1 (tl cnt) in
    match foldO (bcStep md) (flat_map pBC ps) (repeat 1 (nth nn md 0 - 1)%nat) with
    | None => None
    | Some sc => Some ((ierr =? 0)%nat, md, sc)
    end.

(** ** initElementConn, SAMpatch.C:159-256 *)

(** lines 187-199: global nodes of one element *)
Definition elmNodes (p : patch) (nodes : list Z) : list Z :=
  map (fun n => if n =? -2147483648 then - getNodeID p 1 else if n <? 0 then - getNodeID p (1 - n) else getNodeID p (1 + n)) nodes.
(** the elements with a non-zero external number, in patch order *)
Definition patchElms (p : patch) : list (Z * list Z) :=
  flat_map (fun i => if 0 <? getElmID p (S i) then [(getElmID p (S i), elmNodes p (nth i (pMNPC p) []))] else []) (seq 0 (length (pMNPC p))).
(** lines 202-205: number of elements out of order *)
Fixpoint outOfOrder (l : list Z) : nat :=
  match l with
  | x :: ((y :: _) as r) => ((if (y <=? x)%Z then 1 else 0) + outOfOrder r)%nat
  | _ => 0%nat
  end.
(** std::map keyed by the external number: [None] if the number is used already *)
Fixpoint mapInsert (e : Z * list Z) (l : list (Z * list Z)) : option (list (Z * list Z)) :=
  match l with
  | [] => Some [e]
  | x :: r => if fst x <? fst e then match mapInsert e r with Some r' => Some (x :: r') | None => None end
              else if fst e <? fst x then Some (e :: l) else None
  end.
Fixpoint buildMap (es : list (Z * list Z)) (m : list (Z * list Z)) : option (list (Z * list Z)) :=
  match es with [] => Some m | e :: r => match mapInsert e m with Some m' => buildMap r m' | None => None end end.
(** lines 239-248: pointers with holes; the list has [ip] entries so far *)
Fixpoint newPtrs (es : list (Z * list Z)) (ptrs : list nat) : list nat :=
  match es with
  | [] => ptrs
  | (id, ns) :: r =>
    let l := last ptrs 0%nat in
    newPtrs r (ptrs ++ repeat l (Z.to_nat id - length ptrs) ++ [(l + length ns)%nat])
  end.
(** [nel0] is the member nel on entry, [junk] the content of never-written array
    elements.  Result: success, mpmnpc, mmnpc (nel afterwards is the length of mpmnpc - 1) *)
Definition initElementConn (junk : nat) (nel0 : nat) (ps : list patch) : option (bool * list nat * list Z) :=
  if (nel0 <? 1)%nat then Some (true, [], [])
  else
    let es := flat_map patchElms ps in
    let eMax := fold_right Z.max 0 (map fst es) in
    if (nel0 <? length es)%nat then None  (* writes behind mpmnpc[nel] *)
    else if (outOfOrder (map fst es) =? 0)%nat && (eMax =? Z.of_nat nel0) then
      Some (true, psum 1 (map (fun e => length (snd e)) es) ++ repeat junk (nel0 - length es), flat_map snd es)
    else
      match buildMap es [] with
      | None => Some (false, psum 1 (map (fun e => length (snd e)) es) ++ repeat junk (nel0 - length es), flat_map snd es)
      | Some m => Some (true, newPtrs m [1%nat], flat_map snd m)
      end.

(** ** initConstraintEqs, SAMpatch.C:259-360 *)

(** line 285 etc.: DOF number of a (node, local DOF) pair *)
Definition dofNo (md : list nat) (d : dofT) : option Z :=
  if dnode d <? 1 then None
  else match nth_error md (Z.to_nat (dnode d - 1)) with Some a => Some (Z.of_nat a + dldof d - 1) | None => None end.
Definition rdMsc (sc : list Z) (idof : Z) : option Z :=
  if idof <? 1 then None else nth_error sc (Z.to_nat (idof - 1)).
(** MPC.C:61-71 getNoMaster(true) *)
Fixpoint leaves (fuel : nat) (h : list mpc) (m : mpc) : option Z :=
  match fuel with
  | O => None
  | S f => foldO (fun n d => match dnext d with
                             | None => Some n
                             | Some j => match leaves f h (nthM h j) with Some x => Some (n + x - 1) | None => None end
                             end) (mmast m) (Z.of_nat (length (mmast m)))
  end.
(** lines 280-303, the lambda [resolve]: master terms and addition to the constant *)
Fixpoint flat (fuel : nat) (h : list mpc) (md : list nat) (sc : list Z) (d : dofT) (scale : Qc) : option (list (Z * Qc) * Qc) :=
  match fuel with
  | O => None
  | S f =>
    match dofNo md d with
    | None => None
    | Some idof =>
      match dnext d with
      | Some j =>
        let s' := (scale * dcoef d)%Qc in
        foldO (fun acc x => match flat f h md sc x s' with
                            | Some (t, o) => Some (fst acc ++ t, snd acc + o)%Qc
                            | None => None end)
              (mmast (nthM h j)) ([], (dcoef (mslave (nthM h j)) * s')%Qc)
      | None =>
        match rdMsc sc idof with
        | None => None
        | Some c => Some (if 0 <? c then [(idof, dcoef d * scale)%Qc] else [], 0%Qc)
        end
      end
    end
  end.
(** the arrays while they are filled; [cnq] is the member nceq, [icq] the members
    [iceq] of the equations *)
Record cst := mkC { cnq : Z; cmp : list nat; cmm : list Z; ctt : list Qc; csc : list Z; icq : list Z }.
(** lines 307-344: one equation *)
Definition ceqStep (fuel : nat) (h : list mpc) (md : list nat) (cap1 cap2 : Z) (s : cst) (k : nat) : option cst :=
  if cap1 <=? Z.of_nat (length (cmp s)) then None  (* writes behind mpmceq *)
  else
    match dofNo md (mslave (nthM h k)) with
    | None => None
    | Some idof =>
      match rdMsc (csc s) idof with
      | None => None
      | Some c =>
        if c <=? 0 then Some (mkC (cnq s - 1) (cmp s) (cmm s) (ctt s) (csc s) (icq s))
        else
          let sc' := upd (Z.to_nat (idof-1)) (- Z.of_nat (length (cmp s))) (csc s) in
          match foldO (fun acc x => match flat fuel h md sc' x 1%Qc with
                                    | Some (t, o) => Some (fst acc ++ t, snd acc + o)%Qc
                                    | None => None end)
                      (mmast (nthM h k)) ([], dcoef (mslave (nthM h k))) with
          | None => None
          | Some (t, o) =>
            if cap2 <? Z.of_nat (length (cmm s) + 1 + length t) then None  (* writes behind mmceq *)
            else Some (mkC (cnq s) (cmp s ++ [(last (cmp s) 0 + 1 + length t)%nat])
                           (cmm s ++ idof :: map fst t) (ctt s ++ o :: map snd t) sc'
                           (upd k (Z.of_nat (pred (length (cmp s)))) (icq s)))
          end
      end
    end.
(** [nceq0], [nmm0] are the members on entry; result: the tables and nceq, nmmceq *)
Definition initConstraintEqs (fuel : nat) (h : list mpc) (md : list nat) (sc : list Z) (nceq0 nmm0 : Z) (ks : list nat) (icq0 : list Z)
  : option (cst * Z) :=
  match foldO (fun n k => match leaves fuel h (nthM h k) with Some x => Some (n + 1 + x) | None => None end) ks nmm0 with
  | None => None
  | Some nmm =>
    if nceq0 <? 1 then Some (mkC nceq0 [1%nat] [] [] sc icq0, nmm)
    else
      match foldO (ceqStep fuel h md (nceq0 + 1) nmm) ks (mkC nceq0 [1%nat] [] [] sc icq0) with
      | None => None
      | Some s => Some (mkC (cnq s) (cmp s) (cmm s) (ctt s) (map (fun c => if c <? 0 then 0 else c) (csc s)) (icq s), nmm)
      end
  end.

(** ** init, SAMpatch.C:21-80 *)
Record sampatch := mkSP { spModel : list patch; spNnod : nat; spNel : nat; spNceq : Z; spNmm : Z; spTab : tables; spIceq : list Z }.
Definition rebuild (fuel junk : nat) (h : list mpc) (ps : list patch) (nn ne : nat) (nq nmm np : Z) (icq0 : list Z) : option (bool * sampatch) :=
  match initNodeDofs nn ps with
  | None => None
  | Some (false, md, sc) => Some (false, mkSP ps nn ne nq nmm (mkS md sc [] [] [] [] [] [] 0 (Z.to_nat np)) icq0)
  | Some (true, md, sc) =>
    match initElementConn junk ne ps with
    | None => None
    | Some (false, pn, mn) => Some (false, mkSP ps nn ne nq nmm (mkS md sc pn mn [] [] [] [] 0 (Z.to_nat np)) icq0)
    | Some (true, pn, mn) =>
      match initConstraintEqs fuel h md sc nq nmm (flat_map pMPC ps) icq0 with
      | None => None
      | Some (s, nmm') =>
        (* from here on the member nceq is the number of equations, not the number of rows written *)
        match initEqs (mkS md (csc s) pn mn (firstn (S (Z.to_nat (cnq s))) (cmp s)) (cmm s) (ctt s) [] 0 (Z.to_nat np)) with
        | None => None
        | Some (ok3, t) => Some (ok3, mkSP ps nn (pred (length pn)) (cnq s) nmm' t (icq s))
        end
      end
    end
  end.
Definition samInit (fuel junk : nat) (h : list mpc) (ps : list patch) (numNod : nat) : option (bool * sampatch) :=
  rebuild fuel junk h ps
          (if (numNod =? 0)%nat then list_sum (map (fun p => length (pMLGN p)) ps) else numNod)
          (list_sum (map noElms ps)) (Z.of_nat (list_sum (map (fun p => length (pMPC p)) ps))) 0 0 (repeat (-1) (length h)).

(** ** merge, SAMpatch.C:425-510, without the optional renumbering map *)
(** ASMbase.C shiftGlobalElmNums, shiftGlobalNodeNums *)
Definition shiftPatch (ne nn : Z) (p : patch) : patch :=
  mkP (map (Z.add nn) (pMLGN p)) (pNdof p) (map (Z.add ne) (pMLGE p)) (pMNPC p)
      (map (fun b => mkBC (bnode b + nn) (bcodes b)) (pBC p)) (pMPC p).
(** [nspdof] is not reset (SAM.C:241) *)
Definition samMerge (fuel junk : nat) (h : list mpc) (a b : sampatch) : option (bool * list mpc * sampatch) :=
  let ks := flat_map pMPC (spModel b) in
  let h' := fold_left (fun h k => upd k (shiftMPC (Z.of_nat (spNnod a)) (nthM h k)) h) ks h in
  let ps := spModel a ++ map (shiftPatch (Z.of_nat (spNel a)) (Z.of_nat (spNnod a))) (spModel b) in
  let ic := fold_left (fun l k => upd k (nth k (spIceq b) (-1)) l) ks (spIceq a) in  (* each equation has its own [iceq] *)
  match rebuild fuel junk h' ps (spNnod a + spNnod b) (spNel a + spNel b) (spNceq a + spNceq b) (spNmm a)
                (Z.of_nat (nspdof (spTab a))) ic with
  | None => None
  | Some (ok, s) => Some (ok, h', s)
  end.

(** ** updateConstraintEqs, SAMpatch.C:363-422 *)
(** the lambda [update]; [ip] is the 0-based position of the previous entry.
    Result: ttcc, position, constant *)
Fixpoint updTerm (fuel : nat) (h : list mpc) (s : tables) (d : dofT) (tc : list Qc) (ip : nat) (off scale : Qc) : option (list Qc * nat * Qc) :=
  match fuel with
  | O => None
  | S f =>
    match dofNo (madof s) d with
    | None => None
    | Some idof =>
      match rdMsc (msc s) idof with
      | None => None
      | Some c =>
        let chain (ip' : nat) :=
          match dnext d with
          | None => Some (tc, ip', off)
          | Some j =>
            let s' := (scale * dcoef d)%Qc in
            foldO (fun acc x => let '(t, i, o) := acc in updTerm f h s x t i o s') (mmast (nthM h j))
                  (tc, ip', (off + dcoef (mslave (nthM h j)) * s')%Qc)
          end in
        if 0 <? c then
          match nth_error (mmceq s) (S ip) with
          | None => None
          | Some m => if m =? idof then Some (upd (S ip) (dcoef d * scale)%Qc tc, S ip, off) else chain (S ip)
          end
        else chain ip
      end
    end
  end.
(** lines 383-419: one equation; the boolean is false if the table does not match *)
Definition updCeq (fuel : nat) (h : list mpc) (s : tables) (icq : list Z) (prev : option (list Qc)) (acc : bool * list Qc) (k : nat) : option (bool * list Qc) :=
  if negb (fst acc) then Some acc
  else if nth k icq (-1) <? 0 then Some acc
  else
    match dofNo (madof s) (mslave (nthM h k)), nth_error (mpmceq s) (Z.to_nat (nth k icq (-1))) with
    | Some idof, Some (S ip) =>
      match rdMsc (msc s) idof, nth_error (mmceq s) ip with
      | Some c, Some m =>
        if (0 <? c) || negb (m =? idof) then Some (false, snd acc)
        else
          match prev with
          | None => Some (true, upd ip 0%Qc (snd acc))
          | Some v =>
            match foldO (fun a x => let '(t, i, o) := a in updTerm fuel h s x t i o 1%Qc) (mmast (nthM h k))
                        (snd acc, ip, dcoef (mslave (nthM h k))) with
            | None => None
            | Some (t, _, o) =>
              Some (true, upd ip (if Qc_eq_dec o 0 then 0
                                  else if idof <=? Z.of_nat (length v) then o - nth (Z.to_nat (idof-1)) v 0 else o)%Qc t)
            end
          end
      | _, _ => None
      end
    | _, _ => None
    end.
Definition updateConstraintEqs (fuel : nat) (h : list mpc) (sp : sampatch) (prev : option (list Qc)) : option (bool * sampatch) :=
  if spNceq sp <? 1 then Some (true, sp)
  else
    let s := spTab sp in
    match foldO (updCeq fuel h s (spIceq sp) prev) (flat_map pMPC (spModel sp)) (true, ttcc s) with
    | None => None
    | Some (ok, tc) => Some (ok, mkSP (spModel sp) (spNnod sp) (spNel sp) (spNceq sp) (spNmm sp)
        (mkS (madof s) (msc s) (mpmnpc s) (mmnpc s) (mpmceq s) (mmceq s) tc (meqn s) (neq s) (nspdof s)) (spIceq sp))
    end.
