(** Model of the multi-coloring of the elements of unstructured patches for multi-threaded
    assembly: LR B-spline patches (src/ASM/LR/ASMLRSpline.C) and unstructured Lagrange
    patches (src/ASM/ASMu2DLag.C), compiled with OpenMP and run with more than one thread.
    [None]: index out of range, or the loop did not end within the given number of rounds. *)
From Coq Require Import List Arith ZArith Bool.
From Verif Require Import Base.
Import ListNotations.
Local Open Scope nat_scope.

(** ** The coloring loop (the same in both functions) *)

(** [status[j] = -1] for the available elements of the list
    (ASMLRSpline.C:165-175, ASMu2DLag.C:462-465) *)
Fixpoint markAll (js : list nat) (status : list Z) : option (list Z) :=
  match js with
  | [] => Some status
  | j :: r => match nth_error status j with
              | None => None
              | Some s => markAll r (if (s =? 0)%Z then upd j (-1)%Z status else status)
              end
  end.
(** ASMLRSpline.C:155-176, ASMu2DLag.C:454-466: one color; [mark i] are the elements visited
    when element [i] gets the color, result: status and the elements of this color *)
Fixpoint oneColor (mark : nat -> option (list nat)) (c : Z) (order : list nat) (status : list Z) : option (list Z * list nat) :=
  match order with
  | [] => Some (status, [])
  | i :: r =>
    match nth_error status i with
    | None => None
    | Some s =>
      if (s =? 0)%Z then
        match mark i with
        | None => None
        | Some js => match markAll js (upd i c status) with
                     | None => None
                     | Some st => match oneColor mark c r st with
                                  | None => None
                                  | Some (st', col) => Some (st', i :: col)
                                  end
                     end
        end
      else oneColor mark c r status
    end
  end.
(** ASMLRSpline.C:146-180, ASMu2DLag.C:446-467: until all elements have a color;
    [k] colors exist already *)
Fixpoint colorLoop (fuel : nat) (mark : nat -> option (list nat)) (order : list nat) (n k fixed : nat) (status : list Z) : option (list (list nat)) :=
  if n <=? fixed then Some []
  else match fuel with
  | O => None
  | S f =>
    match oneColor mark (Z.of_nat k + 1) order (map (fun s => if (s <? 0)%Z then 0%Z else s) status) with
    | None => None
    | Some (st, col) => option_map (cons col) (colorLoop f mark order n (S k) (fixed + length col) st)
    end
  end.

(** ** LR B-spline patches *)

(** a basis: element numbers in the order of getAllElements(), basis functions of each
    element (support() of the element) and elements of each basis function *)
Record basis := mkB { elems : list nat; funcs : list (list nat); suppt : list (list nat) }.
(** another basis of a mixed patch: for each element of the first basis the element of
    this one that contains its midpoint; for each element of this one the elements of the
    first basis found at its midpoint or, if the numbers of elements differ, at its four
    or eight quarter points (ASMLRSpline.C:112-144; the search is not modelled) *)
Record other := mkO { ob : basis; within : list nat; points : list (list nat) }.

(** fold with failure *)
Fixpoint flatM {X Y} (f : X -> option (list Y)) (l : list X) : option (list Y) :=
  match l with
  | [] => Some []
  | x :: r => match f x, flatM f r with Some a, Some b => Some (a ++ b) | _, _ => None end
  end.
(** ASMLRSpline.C:109-144: the additional neighbours of element [e] *)
Definition additional (os : list other) (e : nat) : option (list nat) :=
  flatM (fun o =>
    match nth_error (within o) e with
    | None => None
    | Some elB => match nth_error (funcs (ob o)) elB with
                  | None => None
                  | Some bs => flatM (fun b2 => match nth_error (suppt (ob o)) b2 with
                                                | None => None
                                                | Some els => flatM (fun el3 => nth_error (points o) el3) els
                                                end) bs
                  end
    end) os.
(** ASMLRSpline.C:163-175: the elements visited from element [e] *)
Definition markLR (B : basis) (adds : list (list nat)) (e : nat) : option (list nat) :=
  match nth_error (funcs B) e with
  | None => None
  | Some bs => flatM (fun b => match nth_error (suppt B) b with
                               | None => None
                               | Some els => Some (flat_map (fun j => j :: nth j adds []) els)
                               end) bs
  end.
Fixpoint mapM {X Y} (f : X -> option Y) (l : list X) : option (list Y) :=
  match l with
  | [] => Some []
  | x :: r => match f x, mapM f r with Some a, Some b => Some (a :: b) | _, _ => None end
  end.
(** ASMLRSpline.C:95-186 LR::generateThreadGroups: the colors (threadGroups[0]); the number
    of rounds is bounded by the number of elements *)
Definition colorsLR (B : basis) (os : list other) : option (list (list nat)) :=
  let n := length (elems B) in
  match (match os with [] => Some [] | _ => mapM (additional os) (seq 0 n) end) with
  | None => None
  | Some adds => colorLoop n (markLR B adds) (elems B) n 0 0 (repeat 0%Z n)
  end.
(** ASMLRSpline.C:491-516 checkThreadGroups: false if a function occurs twice in a group;
    [bs]: the bases with the elements containing the midpoints *)
Fixpoint insertAll (l : list nat) (s : list nat) (ok : bool) : list nat * bool :=
  match l with
  | [] => (s, ok)
  | x :: r => if existsb (Nat.eqb x) s then insertAll r s false else insertAll r (x :: s) ok
  end.
Fixpoint checkGroup (fs : list (list nat)) (w : list nat) (grp : list nat) (s : list nat) (ok : bool) : option bool :=
  match grp with
  | [] => Some ok
  | e :: r => match nth_error w e with
              | None => None
              | Some elB => match nth_error fs elB with
                            | None => None
                            | Some l => let '(s', ok') := insertAll l s ok in checkGroup fs w r s' ok'
                            end
              end
  end.
Definition checkThreadGroups (groups : list (list nat)) (bs : list (basis * list nat)) : option bool :=
  option_map (forallb (fun b => b)) (mapM (fun p => checkGroup (funcs (fst (snd p))) (snd (snd p)) (fst p) [] true) (list_prod groups bs)).

(** ** Unstructured Lagrange patches *)

(** a constraint equation: slave (node, local DOF) and masters *)
Record mpc := mkMpc { slave : Z * nat; masters : list (Z * nat) }.
(** ASMbase.C:271-274 getNodeIndex, Utilities.C findIndex: 1-based position or 0 *)
Fixpoint nodeIndex (mlgn : list Z) (g : Z) : nat :=
  match mlgn with
  | [] => 0
  | x :: r => if (x =? g)%Z then 1 else match nodeIndex r g with O => O | S k => S (S k) end
  end.
(** std::set insertion; the order of a set does not matter here *)
Definition sadd (x : nat) (s : list nat) : list nat := if existsb (Nat.eqb x) s then s else x :: s.
Definition sunion (a s : list nat) : list nat := fold_right sadd s a.
(** ASMu2DLag.C:399-407: slave nodes, and the slaves of each master node *)
Definition oneMpc (mlgn : list Z) (c : mpc) (p : list nat * list (list nat)) : list nat * list (list nat) :=
  match nodeIndex mlgn (fst (slave c)) with
  | O => p
  | S s => fold_left (fun p m => match nodeIndex mlgn (fst m) with
                                 | O => p
                                 | S k => (sadd s (fst p), upd k (sadd s (nth k (snd p) [])) (snd p))
                                 end) (masters c) p
  end.
Definition couplings (mlgn : list Z) (mpcs : list mpc) : list nat * list (list nat) :=
  fold_left (fun p c => oneMpc mlgn c p) mpcs ([], repeat [] (length mlgn)).
(** ASMu2DLag.C:409-423: single-noded elements are colored, the others are connected to their nodes *)
Fixpoint addConn (nodes : list nat) (e : nat) (conn : list (list nat)) : option (list (list nat)) :=
  match nodes with
  | [] => Some conn
  | a :: r => match nth_error conn a with None => None | Some s => addConn r e (upd a (sadd e s) conn) end
  end.
Definition isSingle (sep : bool) (slaves nodes : list nat) : bool :=
  sep && match nodes with [a] => negb (existsb (Nat.eqb a) slaves) | _ => false end.
Fixpoint firstPass (sep : bool) (slaves : list nat) (es : list nat) (mnpc : list (list nat)) (status : list Z) (grp : list nat) (conn : list (list nat))
  : option (list Z * list nat * list (list nat)) :=
  match es, mnpc with
  | e :: r, nodes :: q =>
    if isSingle sep slaves nodes then firstPass sep slaves r q (upd e 1%Z status) (grp ++ [e]) conn
    else match addConn nodes e conn with None => None | Some c => firstPass sep slaves r q status grp c end
  | _, _ => Some (status, grp, conn)
  end.
(** ASMu2DLag.C:425-435: the couplings *)
Definition couple (m : nat) (nn : list (list nat)) (conn : list (list nat)) : list (list nat) :=
  let sl := nth m nn [] in
  match sl with
  | [] => conn
  | _ => let common := fold_left (fun c s => sunion (nth s conn []) c) sl (nth m conn []) in
         fold_left (fun cn s => upd s common cn) sl (upd m (sunion common (nth m conn [])) conn)
  end.
Definition secondPass (nn : list (list nat)) (conn : list (list nat)) : list (list nat) :=
  fold_left (fun c m => couple m nn c) (seq 0 (length nn)) conn.
(** ASMu2DLag.C:462-463 *)
Definition markLag (mnpc : list (list nat)) (conn : list (list nat)) (e : nat) : option (list nat) :=
  match nth_error mnpc e with
  | None => None
  | Some nodes => flatM (fun a => nth_error conn a) nodes
  end.
(** ASMu2DLag.C:383-471 generateThreadGroupsMultiColored: the colors; [mlgn] has the nodes,
    [mnpc] the elements *)
Definition colorsLag (sep : bool) (mlgn : list Z) (mnpc : list (list nat)) (mpcs : list mpc) : option (list (list nat)) :=
  let n := length mnpc in
  let '(slaves, nn) := couplings mlgn mpcs in
  match firstPass sep slaves (seq 0 n) mnpc (repeat 0%Z n) [] (repeat [] (length mlgn)) with
  | None => None
  | Some (status, grp, conn) =>
    option_map (fun cs => match grp with [] => cs | _ => grp :: cs end)
      (colorLoop n (markLag mnpc (secondPass nn conn)) (seq 0 n) n (match grp with [] => 0 | _ => 1 end) (length grp) status)
  end.
