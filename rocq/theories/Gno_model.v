(** Model of the global numbering of the functions of a multi-patch model with
    unstructured (LR spline) patches.

    Sources: src/ASM/LR/GlobalNodes.C, src/Utility/Utilities.C (renumber),
    src/SIM/AdaptiveSetup.C (number of functions), src/ASM/Interface.h.

    Modelling choices.  Numbers are natural numbers without overflow.  The lists
    of functions on the boundaries of a patch (GlobalNodes::getBoundaryNodes,
    computed by the LRSpline library) are an argument.  Accesses outside of a
    vector are explicit (None). *)
From Coq Require Import List Arith ZArith Bool Lia.
Import ListNotations.

(** src/ASM/Interface.h:22-32, ASM::Interface (the members used here). *)
Record iface := mkIf { i_master : nat; i_slave : nat; i_midx : Z; i_sidx : Z;
                       i_orient : Z; i_dim : Z }.

(** src/ASM/LR/GlobalNodes.C:32-44, InterfaceOrder::operator(). *)
Definition ifLess (A B : iface) : bool :=
  if negb (i_master A =? i_master B) then i_master A <? i_master B
  else if negb (i_slave A =? i_slave B) then i_slave A <? i_slave B
  else if negb (i_dim A =? i_dim B)%Z then (i_dim A <? i_dim B)%Z
  else (i_midx A <? i_midx B)%Z.

(** std::set::insert with that order (line 158): equivalent elements are not
    inserted. *)
Fixpoint insertI (x : iface) (l : list iface) : list iface :=
  match l with
  | [] => [x]
  | y :: l' => if ifLess x y then x :: l
               else if ifLess y x then y :: insertI x l'
               else l
  end.

(** Lines 156-158, the set of interfaces in processing order. *)
Definition ifset (ifs : list iface) : list iface :=
  fold_left (fun s x => insertI x s) ifs [].

(** Lines 145-153, the initial numbers of the functions of each patch. *)
Fixpoint initial (nf : list nat) (nNodes : nat) : list (list nat) :=
  match nf with
  | [] => []
  | n :: nf' => seq nNodes n :: initial nf' (nNodes + n)
  end.

(** result[p][a]. *)
Definition at2 (r : list (list nat)) (p a : nat) : option nat :=
  match nth_error r p with
  | None => None
  | Some l => nth_error l a
  end.

(** std::map<int,int>: the last assignment comes first. *)
Definition imap := list (nat * nat).
Fixpoint find (m : imap) (k : nat) : option nat :=
  match m with
  | [] => None
  | (k', v) :: m' => if k' =? k then Some v else find m' k
  end.

(** src/Utility/Utilities.C:376-389, utl::renumber. *)
Definition renumber (m : imap) (num : nat) : nat :=
  match find m num with
  | None => num
  | Some v => v
  end.

(** src/ASM/LR/GlobalNodes.C:167-168, the loop over the functions of an
    interface between the patches i and s. *)
Fixpoint mapPairs (r : list (list nat)) (i s : nat) (mN sN : list nat) (m : imap)
  : option imap :=
  match mN, sN with
  | [], _ => Some m
  | _ :: _, [] => None
  | a :: mN', b :: sN' =>
      match at2 r s b, at2 r i a with
      | Some k, Some v => mapPairs r i s mN' sN' ((k, v) :: m)
      | _, _ => None
      end
  end.

(** Lines 160-169, the map of the interfaces with patch i as master.  [bnd p dim
    lidx orient] stands for getBoundaryNodes of patch p. *)
Definition boundary := nat -> Z -> Z -> Z -> list nat.
Fixpoint mapIfs (r : list (list nat)) (bnd : boundary) (i : nat) (ifs : list iface)
  (m : imap) : option imap :=
  match ifs with
  | [] => Some m
  | it :: ifs' =>
      if negb (i_master it =? i + 1) then mapIfs r bnd i ifs' m
      else if (i_slave it =? 0) || (length r <? i_slave it) then None
      else
        let s := i_slave it - 1 in
        match mapPairs r i s (bnd i (i_dim it) (i_midx it) 0%Z)
                             (bnd s (i_dim it) (i_sidx it) (i_orient it)) m with
        | None => None
        | Some m' => mapIfs r bnd i ifs' m'
        end
  end.

(** Lines 178-181, the numbers of one patch, with the value of maxNode. *)
Fixpoint compress1 (maxNode : nat) (l : list nat) : nat * list nat :=
  match l with
  | [] => (maxNode, [])
  | n :: l' =>
      if maxNode <? n then
        let (mx, l2) := compress1 (maxNode + 1) l' in (mx, (maxNode + 1) :: l2)
      else
        let (mx, l2) := compress1 maxNode l' in (mx, n :: l2)
  end.
Fixpoint compress (maxNode : nat) (r : list (list nat)) : list (list nat) :=
  match r with
  | [] => []
  | l :: r' => let (mx, l2) := compress1 maxNode l in l2 :: compress mx r'
  end.

(** *std::max_element(begin,end); None: the range is empty. *)
Definition maxOf (l : list nat) : option nat :=
  match l with
  | [] => None
  | x :: l' => Some (fold_left Nat.max l' x)
  end.

(** Lines 159-182, one pass of the loop. *)
Definition pass (bnd : boundary) (ifs : list iface) (r : list (list nat)) (i : nat)
  : option (list (list nat)) :=
  match mapIfs r bnd i ifs [] with
  | None => None
  | Some old2new =>
      let r1 := firstn i r ++ map (map (renumber old2new)) (skipn i r) in
      match nth_error r1 i with
      | None => None
      | Some ri =>
          match maxOf ri with
          | None => None
          | Some maxNode => Some (firstn (S i) r1 ++ compress maxNode (skipn (S i) r1))
          end
      end
  end.

(** src/ASM/LR/GlobalNodes.C:141-185, GlobalNodes::calcGlobalNodes for patches
    with nf functions. *)
Definition calcGlobalNodes (nf : list nat) (bnd : boundary) (ifs : list iface)
  : option (list (list nat)) :=
  fold_left (fun o i => match o with
                        | None => None
                        | Some r => pass bnd (ifset ifs) r i
                        end)
            (seq 0 (length nf)) (Some (initial nf 0)).

(** src/SIM/AdaptiveSetup.C:338, the number of functions. *)
Definition numFunctions (mlgn : list (list nat)) : option nat :=
  match maxOf (last mlgn []) with
  | None => None
  | Some m => Some (m + 1)
  end.
