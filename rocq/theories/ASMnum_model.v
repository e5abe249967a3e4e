(** Model of global node numbering: utl::renumber (src/Utility/Utilities.C), the
    renumberNodes methods, mergeNodes, collapseNodes, makePeriodic and shiftGlobalNodeNums
    of src/ASM/ASMbase.C, closeBoundaries of src/ASM/ASMs2D.C and ASMs3D.C, and
    SIMbase::renumberNodes (src/SIM/SIMbase.C).

    Simplifications: patches sharing FE data with another patch (shareFE) are left out;
    messages are left out; reads outside a table are explicit ([None]). *)
From Coq Require Import List Arith ZArith QArith Qcanon Bool Lia.
From Verif Require Import Base MPC_model ASMbc_model.
Import ListNotations.
Local Open Scope Z_scope.

(** ** std::map<int,int> as a list in increasing key order; [zfind] of MPC_model is find *)
(** operator[] = v *)
Fixpoint mset (k v : Z) (m : list (Z * Z)) : list (Z * Z) :=
  match m with
  | [] => [(k, v)]
  | (a, b) :: r => if a <? k then (a, b) :: mset k v r else if k <? a then (k, v) :: m else (k, v) :: r
  end.

(** Utilities.C:363-373 renumber, first come first served: changed?, number, runner, map *)
Definition renumFC (num runner : Z) (m : list (Z * Z)) : bool * Z * Z * list (Z * Z) :=
  match zfind num m with
  | Some v => (negb (num =? v), v, runner, m)
  | None => let r := runner + 1 in (negb (num =? r), r, r, mset num r m)
  end.
(** Utilities.C:376-389 renumber with a given map: found?, number *)
Definition renumMap (num : Z) (m : list (Z * Z)) : bool * Z :=
  match zfind num m with Some v => (true, v) | None => (false, num) end.

(** ** One patch: number table, conditions, element connectivities, element numbers *)
Record npatch := mkN { nb : patch; nMNPC : list (list nat); nMLGE : list Z }.
Definition setMLGN (p : npatch) (l : list Z) : npatch :=
  mkN (mkP (pnf (nb p)) l (pnnod (nb p)) (pBC (nb p)) (pEQ (nb p))) (nMNPC p) (nMLGE p).
Definition nMLGN (p : npatch) : list Z := pMLGN (nb p).

(** ASMbase.C:1358-1370 renumberNodes(old2new,nNod): new numbers, count, runner, map *)
Fixpoint renumTable (l : list Z) (runner : Z) (m : list (Z * Z)) : list Z * nat * Z * list (Z * Z) :=
  match l with
  | [] => ([], 0%nat, runner, m)
  | n :: r => let '(ch, n', runner', m') := renumFC n runner m in
              let '(r', c, runner'', m'') := renumTable r runner' m' in
              (n' :: r', ((if ch then 1 else 0) + c)%nat, runner'', m'')
  end.
Definition maxOf (l : list Z) : Z := match l with [] => 0 | x :: r => fold_left Z.max r x end.
Definition renumPatch (p : npatch) (nNod : Z) (m : list (Z * Z)) : npatch * nat * Z * list (Z * Z) :=
  let '(l, c, runner, m') := renumTable (nMLGN p) nNod m in
  (setMLGN p l, c,
   (if (c =? 0)%nat && negb (match l with [] => true | _ => false end) then Z.max runner (maxOf l) else runner), m').
(** SIMbase.C:544-545: all patches in turn *)
Fixpoint renumModel (ps : list npatch) (nNod : Z) (m : list (Z * Z)) : list npatch * nat * Z * list (Z * Z) :=
  match ps with
  | [] => ([], 0%nat, nNod, m)
  | p :: r => let '(p', c, n', m') := renumPatch p nNod m in
              let '(r', c', n'', m'') := renumModel r n' m' in
              (p' :: r', (c + c')%nat, n'', m'')
  end.

(** ASMbase.C:1336-1339: the identity map of all node numbers of the model *)
Definition collectNodes (ps : list npatch) (m : list (Z * Z)) : list (Z * Z) :=
  fold_left (fun m p => fold_left (fun m n => mset n n m) (nMLGN p) m) ps m.
(** ASMbase.C:1341-1347: compress the new numbers in key order *)
Fixpoint compress (m : list (Z * Z)) (n : Z) : list (Z * Z) * nat :=
  match m with
  | [] => ([], 0%nat)
  | (a, b) :: r => let '(r', c) := compress r (n + 1) in
                   if n + 1 <? b then ((a, n + 1) :: r', S c) else ((a, b) :: r', c)
  end.
(** ASMbase.C:1334-1355 renumberNodes(model,old2new), preserving the order *)
Definition renumOrdered (ps : list npatch) (m : list (Z * Z)) : list npatch * nat * list (Z * Z) :=
  let '(m', c) := compress (collectNodes ps m) 0 in
  ((if (0 <? c)%nat then map (fun p => setMLGN p (map (fun n => snd (renumMap n m')) (nMLGN p))) ps else ps), c, m').

(** ASMbase.C:1390-1429 renumberNodes(old2new,..,renumGN), renumGN >= 0: the result, and
    the patch *)
Fixpoint renumBCs (renumAll : bool) (m : list (Z * Z)) (l : list bc) : list bc * nat :=
  match l with
  | [] => ([], 0%nat)
  | b :: r => let '(r', c) := renumBCs renumAll m r in
              match zfind (bnode b) m with
              | Some n => (mkBC n (bCX b) (bCY b) (bCZ b) (bRX b) (bRY b) (bRZ b) :: r', c)
              | None => if renumAll then (r', S c) else (b :: r', S c)
              end
  end.
Definition renumConds (p : npatch) (m : list (Z * Z)) (renumGN : Z) : bool * npatch :=
  let renumAll := (1 <? length m)%nat && (renumGN <? 2) in
  let l := if 0 <? renumGN then map (fun n => snd (renumMap n m)) (nMLGN p) else nMLGN p in
  let inv1 := if (0 <? renumGN) && renumAll then length (filter (fun n => negb (fst (renumMap n m))) (nMLGN p)) else 0%nat in
  let '(bcs, inv2) := renumBCs renumAll m (pBC (nb p)) in
  let eqs := map (fun x : eqn => (snd (renumberMPC m (fst x)), snd x)) (pEQ (nb p)) in
  let inv3 := list_sum (map (fun x : eqn => fst (renumberMPC m (fst x))) (pEQ (nb p))) in
  (negb ((0 <? inv1 + inv2 + inv3)%nat && renumAll),
   mkN (mkP (pnf (nb p)) l (pnnod (nb p)) bcs eqs) (nMNPC p) (nMLGE p)).

(** ASMbase.C:1430-1468, renumGN < 0: elements referring to the second node [j] of a pair
    with equal numbers refer to the first node [i] instead; three-node elements that
    degenerate get the element number 0 *)
Definition degenerate (mnpc : list nat) (k : nat) : bool :=
  (length mnpc =? 3)%nat &&
  ((nth ((k + 1) mod 3) mnpc 0 =? nth k mnpc 0) || (nth ((k + 2) mod 3) mnpc 0 =? nth k mnpc 0))%nat.
Fixpoint replaceLoop (fuel k i j : nat) (mnpc : list nat) (mlge : Z) : list nat * Z :=
  match fuel with
  | O => (mnpc, mlge)
  | S f => if (nth k mnpc 0 =? j)%nat
           then let mnpc' := upd k i mnpc in
                replaceLoop f (S k) i j mnpc' (if degenerate mnpc' k then 0 else mlge)
           else replaceLoop f (S k) i j mnpc mlge
  end.
Definition replaceElm (i j : nat) (e : list nat * Z) : list nat * Z := replaceLoop (length (fst e)) 0 i j (fst e) (snd e).
Definition mergeDuplicates (mlgn : list Z) (elms : list (list nat * Z)) : list (list nat * Z) :=
  fold_left (fun elms i =>
    fold_left (fun elms j => if nth j mlgn 0 =? nth i mlgn 0 then map (replaceElm i j) elms else elms)
              (seq (S i) (length mlgn - S i)) elms) (seq 0 (length mlgn)) elms.

(** SIMbase.C:535-563 renumberNodes, with renumMNPC = false; [preserve] is preserveNOrder.
    The new-to-old map is filled as in 551-554. *)
Definition loc2glb (n : nat) (m : list (Z * Z)) : list Z :=
  fold_left (fun l (kv : Z * Z) => if (0 <? snd kv) && (snd kv <=? Z.of_nat n) then upd (Z.to_nat (snd kv) - 1) (fst kv) l else l)
            m (repeat 0 n).
Definition simRenumber (preserve : bool) (ps : list npatch) : Z * list npatch * list (Z * Z) * list Z :=
  let '(ps1, ngnod, m) :=
    (if preserve then (let '(ps1, _, m) := renumOrdered ps [] in (ps1, Z.of_nat (length m), m))
     else (let '(ps1, _, n, m) := renumModel ps 0 [] in (ps1, n, m))) in
  let rs := map (fun p => renumConds p m 0) ps1 in
  ((if forallb fst rs then ngnod else - ngnod), map snd rs, m, loc2glb (Z.to_nat ngnod) m).

(** ** Merging nodes *)

(** ASMbase.C:1470-1480 shiftGlobalNodeNums *)
Definition shiftNodes (k : Z) (p : npatch) : npatch :=
  mkN (mkP (pnf (nb p)) (map (fun n => n + k) (nMLGN p)) (pnnod (nb p))
           (map (fun b => mkBC (bnode b + k) (bCX b) (bCY b) (bCZ b) (bRX b) (bRY b) (bRZ b)) (pBC (nb p)))
           (map (fun x : eqn => (shiftMPC k (fst x), snd x)) (pEQ (nb p)))) (nMNPC p) (nMLGE p).

(** a model: the patches, and for each the neighbor list (positions of patches) *)
Notation model := (list npatch * list (list nat))%type.
Definition dummyN : npatch := mkN (mkP 0 [] 0 [] []) [] [].
(** ASMbase.C:1312-1331 mergeNodes on patch number [k] *)
Definition mergeNodes (M : model) (k : nat) (inod : nat) (globalNum : Z) : bool * model :=
  let p := nth k (fst M) dummyN in
  if (inod <? 1)%nat || (length (nMLGN p) <? inod)%nat then (false, M)
  else
    let oldNum := nth (inod - 1) (nMLGN p) 0 in
    if oldNum =? globalNum then (false, M)
    else
      let o2n := [(oldNum, globalNum)] in
      let ps1 := upd k (setMLGN p (upd (inod - 1) globalNum (nMLGN p))) (fst M) in
      let ps2 := fold_left (fun ps j => upd j (snd (renumConds (nth j ps dummyN) o2n 1)) ps) (nth k (snd M) []) ps1 in
      let '(ok, p3) := renumConds (nth k ps2 dummyN) o2n 0 in
      (ok, (upd k p3 ps2, snd M)).
(** ASMbase.C:1289-1309 collapseNodes *)
Definition collapseNodes (M : model) (k1 node1 k2 node2 : nat) : bool * model :=
  let p1 := nth k1 (fst M) dummyN in
  let p2 := nth k2 (fst M) dummyN in
  if (node1 <? 1)%nat || (length (nMLGN p1) <? node1)%nat then (false, M)
  else if (node2 <? 1)%nat || (length (nMLGN p2) <? node2)%nat then (false, M)
  else
    let g1 := nth (node1 - 1) (nMLGN p1) 0 in
    let g2 := nth (node2 - 1) (nMLGN p2) 0 in
    if g2 <? g1 then (true, snd (mergeNodes M k1 node1 g2))
    else if g1 <? g2 then (true, snd (mergeNodes M k2 node2 g1))
    else (false, M).
(** ASMbase.C:1277-1286 addNeighbor *)
Definition addNeighbor (M : model) (k j : nat) : model :=
  if existsb (Nat.eqb j) (nth k (snd M) []) then M
  else let nb1 := upd k (nth k (snd M) [] ++ [j]) (snd M) in
       (fst M, upd j (nth j nb1 [] ++ [k]) nb1).
(** ASMs2D.C:730-748 (without coordinate check) and 692: the node pairs (master in patch
    [j], slave in patch [k]) are collapsed, then the patches become neighbors *)
Definition connect (M : model) (k j : nat) (pairs : list (nat * nat)) : model :=
  addNeighbor (fold_left (fun M ms => snd (collapseNodes M j (fst ms) k (snd ms))) pairs M) k j.

(** ASMbase.C:805-814 makePeriodic: if [dirs] covers all DOFs the nodes of this patch are
    collapsed, otherwise each DOF is coupled by a constraint equation. The neighbors of the
    patch are left out here. *)
Definition allPeriodic (p : npatch) (dirs : Z) : bool :=
  (Z.of_nat (length (getDigits dirs)) =? pnf (nb p)) && (last (getDigits dirs) 0 =? pnf (nb p)).
Definition collapseOwn (p : npatch) (master slave : nat) : npatch :=
  nth 0 (fst (snd (collapseNodes ([p], [[]]) 0 master 0 slave))) dummyN.
Definition setNB (p : npatch) (q : patch) : npatch := mkN q (nMNPC p) (nMLGE p).
Definition makePeriodic (p : npatch) (master slave : nat) (dirs : Z) : option npatch :=
  if allPeriodic p dirs then Some (collapseOwn p master slave)
  else fold_left (fun o dof => match o with None => None | Some p =>
                    option_map (fun r => setNB p (fst r)) (addPeriodicity (nb p) master slave dof) end)
                 (getDigits dirs) (Some p).
(** a loop of [n] steps over the patch and the running master node *)
Fixpoint closeLoop (n : nat) (body : npatch -> nat -> option (npatch * nat)) (p : npatch) (master : nat) : option (npatch * nat) :=
  match n with
  | O => Some (p, master)
  | S k => match body p master with None => None | Some (p', m') => closeLoop k body p' m' end
  end.
Definition closeStep (dirs : Z) (gap inc : nat) (p : npatch) (master : nat) : option (npatch * nat) :=
  option_map (fun q => (q, (master + inc)%nat)) (makePeriodic p master (master + gap) dirs).
(** ASMs2D.C:752-774 closeBoundaries; [nfb] is getNoFields(basis), n1 and n2 are from getSize *)
Definition close2D (n1 n2 nfb : nat) (dir : nat) (master : nat) (p : npatch) : option npatch :=
  let dirs := getDirs nfb in
  match dir with
  | 1%nat => option_map fst (closeLoop n2 (closeStep dirs (n1 - 1) n1) p master)
  | 2%nat => option_map fst (closeLoop n1 (closeStep dirs (n1 * (n2 - 1)) 1) p master)
  | _ => Some p
  end.
(** ASMs3D.C:815-848 closeBoundaries *)
Definition close3D (n1 n2 n3 nfb : nat) (dir : nat) (master : nat) (p : npatch) : option npatch :=
  let dirs := getDirs nfb in
  match dir with
  | 1%nat => option_map fst (closeLoop n3 (closeLoop n2 (closeStep dirs (n1 - 1) n1)) p master)
  | 2%nat => option_map fst (closeLoop n3 (fun p m =>
               option_map (fun r => (fst r, (snd r + n1 * (n2 - 1))%nat)) (closeLoop n1 (closeStep dirs (n1 * (n2 - 1)) 1) p m)) p master)
  | 3%nat => option_map fst (closeLoop n2 (closeLoop n1 (closeStep dirs (n1 * n2 * (n3 - 1)) 1)) p master)
  | _ => Some p
  end.
