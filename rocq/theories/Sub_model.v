(** Model of the subdomains and orientation iterators of the domain decomposition.

    Source: src/ASM/DomainDecomposition.C.  size_t arithmetic is modulo 2^64; the
    quotient double(nel)/g is exact (its floor is the integer quotient for the
    numbers of elements that occur).  An exception (length_error of reserve) is
    None.  Elements are numbered from 0. *)
From Coq Require Import ZArith List Bool Lia.
Import ListNotations.
Local Open Scope Z_scope.

(** size_t. *)
Definition wrap (z : Z) : Z := z mod 2 ^ 64.
(** std::vector<int>::max_size. *)
Definition maxSize : Z := 2 ^ 61 - 1.

(** a, a+1, ..., a+n-1 (std::iota). *)
Fixpoint iota (a : Z) (n : nat) : list Z :=
  match n with
  | O => []
  | S m => a :: iota (a + 1) m
  end.

(** src/ASM/DomainDecomposition.C:355-356 and the inner loops of lines 391-392 and
    438-440: the positions ofs+i for i < sub and ofs+i < nel, in one direction. *)
Fixpoint posLoop (fuel : nat) (i sub ofs nel : Z) : list Z :=
  match fuel with
  | O => []
  | S f => if (i <? sub) && (wrap (ofs + i) <? nel)
           then wrap (ofs + i) :: posLoop f (i + 1) sub ofs nel
           else []
  end.
Definition positions (sub ofs nel : Z) : list Z := posLoop (Z.to_nat nel) 0 sub ofs nel.

(** Lines 350-357: the sizes and offsets of the subdomains in one direction; gleft
    subdomains are left.  The loops over the other directions start with the same
    values every time (lines 381-398, 421-447). *)
Fixpoint piecesFrom (gleft : nat) (sub ofs nel ov : Z) : list (Z * Z) :=
  match gleft with
  | O => []
  | S g =>
      let s := match g with O => wrap (nel - ofs) | _ => sub end in
      (s, ofs) :: piecesFrom g s (wrap (ofs + s - ov)) nel ov
  end.
Definition pieces (nel g ov : Z) : list (Z * Z) :=
  piecesFrom (Z.to_nat g) (nel / g + 1) 0 nel ov.

(** vector::reserve. *)
Definition reserve {A} (n : Z) (k : option A) : option A :=
  if maxSize <? n then None else k.

Fixpoint mapM {A B} (f : A -> option B) (l : list A) : option (list B) :=
  match l with
  | [] => Some []
  | a :: l' => match f a with
               | None => None
               | Some b => match mapM f l' with None => None | Some r => Some (b :: r) end
               end
  end.

(** Lines 337-362. *)
Definition calcSubdomains1D (nel1 g1 ov : Z) : option (list (list Z)) :=
  if g1 =? 1 then Some [iota 0 (Z.to_nat nel1)]
  else mapM (fun p => reserve (fst p) (Some (positions (fst p) (snd p) nel1))) (pieces nel1 g1 ov).

(** Lines 367-403. *)
Definition calcSubdomains2D (nel1 nel2 g1 g2 ov : Z) : option (list (list Z)) :=
  if g1 * g2 =? 1 then Some [iota 0 (Z.to_nat (nel1 * nel2))]
  else mapM (fun pq =>
      let '(q, p) := pq in
      reserve (wrap (fst p * fst q))
        (Some (flat_map (fun y => map (fun x => y * nel1 + x) (positions (fst p) (snd p) nel1))
                 (positions (fst q) (snd q) nel2))))
    (list_prod (pieces nel2 g2 ov) (pieces nel1 g1 ov)).

(** Lines 408-454. *)
Definition calcSubdomains3D (nel1 nel2 nel3 g1 g2 g3 ov : Z) : option (list (list Z)) :=
  if g1 * g2 * g3 =? 1 then Some [iota 0 (Z.to_nat (nel1 * nel2 * nel3))]
  else mapM (fun pqr =>
      let '(r, (q, p)) := pqr in
      reserve (wrap (fst p * fst q * fst r))
        (Some (flat_map (fun z => flat_map (fun y =>
                 map (fun x => z * nel1 * nel2 + y * nel1 + x) (positions (fst p) (snd p) nel1))
                 (positions (fst q) (snd q) nel2)) (positions (fst r) (snd r) nel3))))
    (list_prod (pieces nel3 g3 ov) (list_prod (pieces nel2 g2 ov) (pieces nel1 g1 ov))).

(** Lines 323-334. *)
Definition calcSubdomains (nel1 nel2 nel3 g1 g2 g3 ov : Z) : option (list (list Z)) :=
  if 0 <? nel3 then calcSubdomains3D nel1 nel2 nel3 g1 g2 g3 ov
  else if 0 <? nel2 then calcSubdomains2D nel1 nel2 g1 g2 ov
  else calcSubdomains1D nel1 g1 ov.

(** Lines 94-101 (and 153-160): start and increment of row n for the orientation. *)
Definition orders (orient dim1 dim2 n : Z) : Z * Z :=
  match orient with
  | 0 => (n * dim1, 1)
  | 1 => ((dim2 - n - 1) * dim1, 1)
  | 2 => ((n + 1) * dim1 - 1, -1)
  | 3 => (dim1 * dim2 - n * dim1 - 1, -1)
  | 4 => (n, dim1)
  | 5 => (dim2 - n - 1, dim1)
  | 6 => ((dim2 - 1) * dim1 + n, - dim1)
  | _ => (dim2 * dim1 - n - 1, - dim1)
  end.

(** Lines 107-108: the inner loop. *)
Fixpoint rowLoop (n : nat) (first step : Z) : list Z :=
  match n with
  | O => []
  | S m => first :: rowLoop m (first + step) step
  end.

(** Lines 91-109 (nodes) and 150-168 (elements), OrientIterator of a face with dim1 x dim2 nodes (or elements) of a
    structured volume patch. *)
Definition orientFace (orient dim1 dim2 : Z) : list Z :=
  flat_map (fun n => let (f, s) := orders orient dim1 dim2 n in rowLoop (Z.to_nat dim1) f s)
           (iota 0 (Z.to_nat dim2)).

(** Lines 83-89 (and 142-148): the size of a face of a volume with n1 x n2 x n3 nodes. *)
Definition faceDims (lIdx n1 n2 n3 : Z) : Z * Z :=
  if (lIdx =? 1) || (lIdx =? 2) then (n2, n3)
  else if (lIdx =? 3) || (lIdx =? 4) then (n1, n3)
  else (n1, n2).

(** Lines 67-80, 110-120 and 169-179: an edge of n nodes. *)
Definition orientEdge (orient : Z) (n : nat) : list Z :=
  if orient =? 0 then iota 0 n else rev (iota 0 n).
(** The number of nodes of edge lIdx of a surface and of a volume. *)
Definition edgeDim2 (lIdx n1 n2 : Z) : Z := if (lIdx =? 1) || (lIdx =? 2) then n2 else n1.
Definition edgeDim3 (lIdx n1 n2 n3 : Z) : Z :=
  if lIdx <=? 4 then n1 else if lIdx <=? 8 then n2 else n3.

(** src/SIM/SIMinput.C:1950-1974, SIMinput::getElmConnectivities: the pairs
    (master element, slave element) that an interface joins, as positions on the two
    faces.  The slave face has d1 x d2 elements.  ASMstruct patches. *)
Definition ifacePairs (orient d1 d2 : Z) : list (Z * Z) :=
  combine (iota 0 (Z.to_nat (d1 * d2))) (orientFace orient d1 d2).
