(** Specification of the structured patches, in terms of grid positions.
    Nodes of a patch sit at the positions (i,j) or (i,j,k) of a rectangular
    grid; this file says which node numbers, elements, boundary sets and
    connections belong to which positions.  It does not use the loops of the
    model, only its data types. *)
From Coq Require Import ZArith List Bool Sorting.Sorted.
From Verif Require Import Str_model.
Import ListNotations.
Local Open Scope Z_scope.

(** Entry at a 0-based position, and length, with integer indices. *)
Definition znth {A} (l : list A) (k : Z) : option A :=
  if k <? 0 then None else nth_error l (Z.to_nat k).
Definition zlen {A} (l : list A) : Z := Z.of_nat (length l).

(** A direction as the code accepts it: 1 <= order <= number of coefficients
    and a non-decreasing knot vector u_0 .. u_{n+p-1}. *)
Definition dir_ok (d : sdir) : Prop :=
  1 <= ord d <= ncf d /\
  (forall a b, 0 <= a <= b -> b < ncf d + ord d -> knot d a <= knot d b).

(** Number of knot spans of the parameter domain, and the knot span number of
    the e-th of them: [u_{p-1+e}, u_{p+e}]. *)
Definition nspan (d : sdir) : Z := ncf d - ord d + 1.
Definition span_lo (d : sdir) (e : Z) : Z := knot d (ord d - 1 + e).
Definition span_hi (d : sdir) (e : Z) : Z := knot d (ord d + e).
Definition nonzero (d : sdir) (e : Z) : Prop := span_lo d e < span_hi d e.

(** The i-th B-spline of order p is supported on [u_i, u_{i+p}]; it is non-zero
    on a non-empty span exactly when its support covers the span. *)
Definition covers (d : sdir) (i e : Z) : Prop :=
  0 <= i < ncf d /\ knot d i <= span_lo d e /\ span_hi d e <= knot d (i + ord d).

(** An open (clamped) knot vector: the parameter domain is the whole of it. *)
Definition clamped (d : sdir) : Prop :=
  knot d 0 = knot d (ord d - 1) /\ knot d (ncf d) = knot d (ncf d + ord d - 1).

(** 0-based node number of a grid position. *)
Definition node2 (n1 i j : Z) : Z := i + n1 * j.
Definition node3 (n1 n2 i j k : Z) : Z := i + n1 * (j + n2 * k).

(** The number of the first node of a basis (1-based), from the sizes of the
    bases before it: local numbering restarts at 1 for every basis. *)
Definition first2 (sz : list (Z * Z)) (b : nat) : Z :=
  1 + fold_right Z.add 0 (map (fun s => fst s * snd s) (firstn (b - 1) sz)).
Definition first3 (sz : list (Z * Z * Z)) (b : nat) : Z :=
  1 + fold_right Z.add 0
        (map (fun s => fst (fst s) * snd (fst s) * snd s) (firstn (b - 1) sz)).

(** The number reported for a node: local, or global through MLGN. *)
Definition report (mlgn : list Z) (local : bool) (first x : Z) : Z :=
  if local then 1 + x else getNodeID mlgn (first + x).

(* ---- boundaries of a 2D patch ---- *)

(** Number of nodes along an edge and across it. *)
Definition along2 (n1 n2 edge : Z) : Z := if edge <=? 2 then n2 else n1.
Definition across2 (n1 n2 edge : Z) : Z := if edge <=? 2 then n1 else n2.

(** Position of the q-th node along the edge in the t-th of [thick] layers; the
    layers are counted in the direction of increasing parameter value. *)
Definition edge_pos (n1 n2 thick edge q t : Z) : Z * Z :=
  match edge with
  | 1 => (t, q)
  | 2 => (n1 - thick + t, q)
  | 3 => (q, t)
  | _ => (q, n2 - thick + t)
  end.

(** The positions on an edge (one layer): 1: i = 0, 2: i = n1-1, 3: j = 0,
    4: j = n2-1. *)
Definition on_edge (n1 n2 edge i j : Z) : Prop :=
  0 <= i < n1 /\ 0 <= j < n2 /\
  ((edge = 1 /\ i = 0) \/ (edge = 2 /\ i = n1 - 1) \/
   (edge = 3 /\ j = 0) \/ (edge = 4 /\ j = n2 - 1)).

(** The same, without the two end points of the edge. *)
Definition in_edge (n1 n2 edge i j : Z) : Prop :=
  on_edge n1 n2 edge i j /\
  (if edge <=? 2 then 0 < j < n2 - 1 else 0 < i < n1 - 1).

(** The edge a signed direction refers to: -1,1,-2,2 are edges 1,2,3,4. *)
Definition dir_edge (dir : Z) : Z :=
  match dir with -1 => 1 | 1 => 2 | -2 => 3 | 2 => 4 | _ => 0 end.

(* ---- boundaries of a 3D patch ---- *)

Definition along3 (n1 n2 n3 face : Z) : Z * Z :=
  if face <=? 2 then (n2, n3) else if face <=? 4 then (n1, n3) else (n1, n2).
Definition across3 (n1 n2 n3 face : Z) : Z :=
  if face <=? 2 then n1 else if face <=? 4 then n2 else n3.

(** Position of the face node (q,r) in the t-th of [thick] layers. *)
Definition face_pos (n1 n2 n3 thick face q r t : Z) : Z * Z * Z :=
  match face with
  | 1 => (t, q, r)
  | 2 => (n1 - thick + t, q, r)
  | 3 => (q, t, r)
  | 4 => (q, n2 - thick + t, r)
  | 5 => (q, r, t)
  | _ => (q, r, n3 - thick + t)
  end.

Definition on_face (n1 n2 n3 face i j k : Z) : Prop :=
  0 <= i < n1 /\ 0 <= j < n2 /\ 0 <= k < n3 /\
  ((face = 1 /\ i = 0) \/ (face = 2 /\ i = n1 - 1) \/
   (face = 3 /\ j = 0) \/ (face = 4 /\ j = n2 - 1) \/
   (face = 5 /\ k = 0) \/ (face = 6 /\ k = n3 - 1)).

(** Positions of a face that are not on one of its own edges. *)
Definition in_face (n1 n2 n3 face i j k : Z) : Prop :=
  on_face n1 n2 n3 face i j k /\
  (face <= 2 \/ 0 < i < n1 - 1) /\
  (face = 3 \/ face = 4 \/ 0 < j < n2 - 1) /\
  (5 <= face \/ 0 < k < n3 - 1).

Definition dir_face (dir : Z) : Z :=
  match dir with
  | -1 => 1 | 1 => 2 | -2 => 3 | 2 => 4 | -3 => 5 | 3 => 6 | _ => 0
  end.

(** The two faces whose intersection is edge 1..12 of a volume. *)
Definition edge_faces (edge : Z) : Z * Z :=
  match edge with
  | 1 => (3, 5) | 2 => (4, 5) | 3 => (3, 6) | 4 => (4, 6)
  | 5 => (1, 5) | 6 => (2, 5) | 7 => (1, 6) | 8 => (2, 6)
  | 9 => (1, 3) | 10 => (2, 3) | 11 => (1, 4) | _ => (2, 4)
  end.

(** Number of nodes along a volume edge, and position along it. *)
Definition edge_len (n1 n2 n3 edge : Z) : Z :=
  if edge <=? 4 then n1 else if edge <=? 8 then n2 else n3.
Definition edge_coord (edge i j k : Z) : Z :=
  if edge <=? 4 then i else if edge <=? 8 then j else k.

(** A patch whose last parameter direction was reversed on reading
    (checkRightHandSystem): the node the user knows at position j in the last
    direction is stored at position n-1-j. *)
Definition stored (swapped : bool) (n j : Z) : Z :=
  if swapped then n - 1 - j else j.

(* ---- patch connection ---- *)

(** The orientation flag of ASMs3D::connectPatch, as its documentation decodes
    it: bit 2 swaps the parameters (u,v) of the neighbour face, then bit 1
    reverses the first and bit 0 the second of them.  (q,r) is a position on
    the neighbour face, (m1,m2) the size of this face. *)
Definition orient_spec (norient m1 m2 q r : Z) : Z * Z :=
  let '(a, b) := if Z.testbit norient 2 then (r, q) else (q, r) in
  (if Z.testbit norient 1 then m1 - 1 - a else a,
   if Z.testbit norient 0 then m2 - 1 - b else b).

(** The face of the stored volume that is the user's face. *)
Definition stored_face (swapped : bool) (face : Z) : Z :=
  if swapped && (5 <=? face) then 11 - face else face.

(** Corners of a grid. *)
Definition corner2 (n1 n2 i j : Z) : Prop :=
  (i = 0 \/ i = n1 - 1) /\ (j = 0 \/ j = n2 - 1).
Definition corner3 (n1 n2 n3 i j k : Z) : Prop :=
  (i = 0 \/ i = n1 - 1) /\ (j = 0 \/ j = n2 - 1) /\ (k = 0 \/ k = n3 - 1).

(** The end of a direction a sign refers to. *)
Definition end_of (s n : Z) : Z := if 0 <? s then n - 1 else 0.
