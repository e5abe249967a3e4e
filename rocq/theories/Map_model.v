(** Model of the coordinate mapping of finite elements.

    Sources: src/Utility/CoordinateMapping.C, src/Utility/Vec3.h,
    src/LinAlg/matrix.h (det, inverse), src/ASM/FiniteElement.C (Piola mapping),
    and the calls in src/ASM/ASMs2D.C, ASMs3D.C and src/ASM/LR/ASMu2D.C, ASMu3D.C.

    Modelling choices.  Floating point numbers are real numbers without rounding.
    A matrix is a function of its 1-based indices together with its dimensions,
    which are arguments where the code uses them; entries outside of the
    dimensions have no meaning.  Sums over the entries of a product are written
    without fixing their order.  Dimension errors reported by multiply are left
    out: the arguments have the dimensions that the callers give them. *)
From Coq Require Import Reals List Arith Bool.
Local Open Scope R_scope.

(** The sum of f(1),...,f(n). *)
Fixpoint sum (n : nat) (f : nat -> R) : R :=
  match n with
  | O => 0
  | S m => sum m f + f (S m)
  end.

Definition mat := nat -> nat -> R.
Definition mat3 := nat -> nat -> nat -> R.
Definition mat4 := nat -> nat -> nat -> nat -> R.

(** matrix::multiply as in J.multiply(X,dNdu), src/Utility/CoordinateMapping.C:30:
    n is the number of columns of A. *)
Definition mmul (n : nat) (A B : mat) : mat := fun i j => sum n (fun k => A i k * B k j).

(** CMakeLists.txt:538. *)
Definition epsZ : R := / 1000000000000.

Notation "A .[ i , j ]" := (A i%nat j%nat) (at level 2, left associativity, format "A .[ i ,  j ]").
Notation "A .[ i , j , k ]" := (A i%nat j%nat k%nat)
  (at level 2, left associativity, format "A .[ i ,  j ,  k ]").
Notation "A .[ i , j , k , l ]" := (A i%nat j%nat k%nat l%nat)
  (at level 2, left associativity, format "A .[ i ,  j ,  k ,  l ]").

(** src/LinAlg/matrix.h:791-809, matrix::det. *)
Definition det (nrow ncol : nat) (J : mat) : R :=
  if (ncol =? 1)%nat && (1 <=? nrow)%nat then J.[1,1]
  else if (ncol =? 2)%nat && (2 <=? nrow)%nat then J.[1,1] * J.[2,2] - J.[2,1] * J.[1,2]
  else if (ncol =? 3)%nat && (3 <=? nrow)%nat then
    J.[1,1] * (J.[2,2] * J.[3,3] - J.[3,2] * J.[2,3])
    - J.[1,2] * (J.[2,1] * J.[3,3] - J.[3,1] * J.[2,3])
    + J.[1,3] * (J.[2,1] * J.[3,2] - J.[3,1] * J.[2,2])
  else if (0 <? ncol)%nat && (0 <? nrow)%nat then -999
  else 0.

(** src/LinAlg/matrix.h:825-847, the entries of the inverse. *)
Definition invEntries (ncol : nat) (J : mat) (D : R) : mat := fun i j =>
  match ncol, i, j with
  | 1%nat, 1%nat, 1%nat => 1 / D
  | 2%nat, 1%nat, 1%nat => J.[2,2] / D
  | 2%nat, 2%nat, 1%nat => - J.[2,1] / D
  | 2%nat, 1%nat, 2%nat => - J.[1,2] / D
  | 2%nat, 2%nat, 2%nat => J.[1,1] / D
  | 3%nat, 1%nat, 1%nat => (J.[2,2] * J.[3,3] - J.[3,2] * J.[2,3]) / D
  | 3%nat, 2%nat, 1%nat => - (J.[2,1] * J.[3,3] - J.[3,1] * J.[2,3]) / D
  | 3%nat, 3%nat, 1%nat => (J.[2,1] * J.[3,2] - J.[3,1] * J.[2,2]) / D
  | 3%nat, 1%nat, 2%nat => - (J.[1,2] * J.[3,3] - J.[3,2] * J.[1,3]) / D
  | 3%nat, 2%nat, 2%nat => (J.[1,1] * J.[3,3] - J.[3,1] * J.[1,3]) / D
  | 3%nat, 3%nat, 2%nat => - (J.[1,1] * J.[3,2] - J.[3,1] * J.[1,2]) / D
  | 3%nat, 1%nat, 3%nat => (J.[1,2] * J.[2,3] - J.[2,2] * J.[1,3]) / D
  | 3%nat, 2%nat, 3%nat => - (J.[1,1] * J.[2,3] - J.[2,1] * J.[1,3]) / D
  | 3%nat, 3%nat, 3%nat => (J.[1,1] * J.[2,2] - J.[2,1] * J.[1,2]) / D
  | _, _, _ => J i j
  end.

(** src/LinAlg/matrix.h:814-850, matrix::inverse: the return value and the
    matrix afterwards. *)
Definition inverse (nrow ncol : nat) (tol : R) (J : mat) : R * mat :=
  let D := det nrow ncol J in
  if Req_EM_T D (-999) then (D, J)
  else if Rle_dec D tol then
    if Rle_dec (- tol) D then (0, J) else (D, invEntries ncol J D)
  else (D, invEntries ncol J D).

(** src/Utility/Vec3.h:26-130, Vec3. *)
Record vec3 := V3 { vx : R; vy : R; vz : R }.
(** Vec3(const std::vector&) of a column of a matrix with nrow rows (line 44). *)
Definition column (nrow : nat) (J : mat) (c : nat) : vec3 :=
  V3 (if (1 <=? nrow)%nat then J 1%nat c else 0)
     (if (2 <=? nrow)%nat then J 2%nat c else 0)
     (if (3 <=? nrow)%nat then J 3%nat c else 0).
(** Line 124. *)
Definition cross (a b : vec3) : vec3 :=
  V3 (vy a * vz b - vz a * vy b) (vz a * vx b - vx a * vz b) (vx a * vy b - vy a * vx b).
(** Lines 109 and 112. *)
Definition length2 (a : vec3) : R := vx a * vx a + vy a * vy a + vz a * vz a.
Definition length (a : vec3) : R := sqrt (length2 a).
(** Lines 115-121, normalize with the default tolerance: the vector afterwards
    and the return value. *)
Definition normalize (a : vec3) : vec3 * R :=
  let len := length a in
  if Rle_dec len (/ 10000000000000000) then (a, len)
  else (V3 (vx a / len) (vy a / len) (vz a / len), len).

(** The result of utl::Jacobian: the return value, the matrix J, and dNdX;
    None: dNdX was cleared. *)
Record jres := mkJ { j_det : R; j_J : mat; j_dNdX : option mat }.

(** src/Utility/CoordinateMapping.C:25-63, the element Jacobian: rows is the
    number of rows of X, cols the number of columns of dNdu, nen the number of
    element nodes; old is the value of dNdX before the call. *)
Definition Jacobian (rows cols nen : nat) (X dNdu : mat) (grad : bool) (old : option mat) : jres :=
  let J := mmul nen X dNdu in
  if (cols =? 1)%nat && (1 <? rows)%nat then
    mkJ (length (column rows J 1)) J (Some dNdu)
  else if (cols =? 2)%nat && (2 <? rows)%nat then
    mkJ (length (cross (column rows J 1) (column rows J 2))) J (Some dNdu)
  else
    let (detJ, Ji) := inverse rows cols epsZ J in
    mkJ detJ Ji
        (if grad then if Req_EM_T detJ 0 then None else Some (mmul rows dNdu Ji) else old).

(** Lines 66-87, the Jacobian along an edge: the result with the curve dilation
    as return value, and the tangent. *)
Definition JacobianEdge (rows cols nen : nat) (X dNdu : mat) (tangent : nat) : jres * vec3 :=
  let J := mmul nen X dNdu in
  let t := column rows J tangent in
  let (detJ, Ji) := inverse rows cols epsZ J in
  let dNdX := if Req_EM_T detJ 0 then None else Some (mmul rows dNdu Ji) in
  let (tn, dS) := normalize t in
  (mkJ dS Ji dNdX, tn).

(** Lines 90-132, the Jacobian on a boundary: the result with the dilation as
    return value, and the normal. *)
Definition JacobianFace (rows cols nen : nat) (X dNdu : mat) (t1 t2 : nat) : jres * vec3 :=
  let J := mmul nen X dNdu in
  let rest dS n :=
    let (detJ, Ji) := inverse rows cols epsZ J in
    if Req_EM_T detJ 0 then (mkJ 0 Ji None, n)
    else (mkJ dS Ji (Some (mmul rows dNdu Ji)), n) in
  if (cols =? 2)%nat then
    let v1 := column rows J t1 in
    let v2 := column rows J t2 in
    let v3 := cross v1 v2 in
    let (v2n, dS) := normalize v2 in
    let (v3n, _) := normalize v3 in
    let n := cross v2n v3n in
    if (2 <? rows)%nat then (mkJ dS J (Some dNdu), n) else rest dS n
  else
    let (n, dS) := normalize (cross (column rows J t1) (column rows J t2)) in
    rest dS n.

Definition vneg (a : vec3) : vec3 := V3 (- vx a) (- vy a) (- vz a).

(** src/ASM/ASMs2D.C:2391-2392, 2519-2522 (also LR/ASMu2D.C), the normal on edge
    edgeDir = -1, 1, -2, 2 of a surface patch. *)
Definition edgeNormal (rows nen : nat) (X dNdu : mat) (dir : nat) (minus : bool) : jres * vec3 :=
  let (r, n) := JacobianFace rows 2 nen X dNdu dir (3 - dir) in
  (r, if minus then vneg n else n).

(** src/ASM/ASMs3D.C:2568-2569, 2770-2773 (also LR/ASMu3D.C), the normal on face
    faceDir = -1, 1, -2, 2, -3, 3 of a volume patch. *)
Definition faceNormal (nen : nat) (X dNdu : mat) (dir : nat) (minus : bool) : jres * vec3 :=
  let t1 := (1 + dir mod 3)%nat in
  let t2 := (1 + t1 mod 3)%nat in
  let (r, n) := JacobianFace 3 3 nen X dNdu t1 t2 in
  (r, if minus then vneg n else n).

(** matrix3d::multiply as in H.multiply(X,d2Ndu2), line 143. *)
Definition mmul3 (n : nat) (A : mat) (B : mat3) : mat3 := fun i j k => sum n (fun m => A i m * B m j k).

(** src/Utility/CoordinateMapping.C:170-190, the second derivatives of a square
    mapping; the entries above the diagonal are copies. *)
Definition hess (nsd : nat) (H : mat3) (Ji : mat) (d2Ndu2 : mat3) (dNdX : mat) : mat3 :=
  fun n i j =>
    let i1 := Nat.max i j in
    let i2 := Nat.min i j in
    sum nsd (fun i3 => sum nsd (fun i4 =>
      d2Ndu2 n i3 i4 * (Ji i3 i1 * Ji i4 i2)
      - sum nsd (fun i6 => dNdX n i6 * H i6 i3 i4 * (Ji i3 i1 * Ji i4 i2)))).

(** src/Utility/CoordinateMapping.C:135-193, utl::Hessian with geoMapping: H and
    d2NdX2 (None: cleared).  nsd is the number of rows of X, cols that of columns
    of Ji. *)
Definition Hessian (nsd cols nen : nat) (Ji X : mat) (d2Ndu2 : mat3) (dNdX : option mat)
  : mat3 * option mat3 :=
  let H := mmul3 nen X d2Ndu2 in
  match dNdX with
  | None => (H, None)
  | Some dN => if (cols <? nsd)%nat then (H, Some d2Ndu2)
               else (H, Some (hess nsd H Ji d2Ndu2 dN))
  end.

(** Lines 196-211, utl::Hessian to a matrix with one column for each pair. *)
Definition HessianVoigt (n : nat) (Hess : mat3) : mat := fun r c =>
  if (c <=? n)%nat then Hess r c c
  else if (c <=? n + n - 1)%nat then Hess r 1%nat (c + 1 - n)%nat
  else Hess r 2%nat 3%nat.

(** src/ASM/ASMs2D.C:1933-1943 (ASMs3D.C:2285-2293 likewise): the derivatives
    in an integration point of a structured patch. *)
Definition structuredPoint (nsd nen : nat) (X dNdu : mat) (d2Ndu2 : mat3)
  : jres * option mat3 :=
  let r := Jacobian nsd nsd nen X dNdu true None in
  (r, snd (Hessian nsd nsd nen (j_J r) X d2Ndu2 (j_dNdX r))).

(** src/ASM/LR/ASMu2D.C:1322-1332 (also 1525-1531, 2144-2145, 2330-2335 and
    ASMu3D.C:1113-1118, 1623-1624, 1819): the same in an unstructured patch. *)
Definition unstructuredPoint (nsd nen : nat) (X dNdu : mat) (d2Ndu2 : mat3)
  : jres * option mat3 :=
  let r := Jacobian nsd nsd nen X dNdu true None in
  (r, snd (Hessian nsd nsd nen (j_J r) X d2Ndu2 (Some dNdu))).

(** src/Utility/CoordinateMapping.C:231-305, utl::Hessian2 for a square mapping;
    None: not implemented. *)
Definition Hessian2 (nsd : nat) (Ji : mat) (D : mat4) : option mat4 :=
  if (nsd =? 1)%nat then
    Some (fun i _ _ _ => D.[i,1,1,1] * Ji.[1,1] * Ji.[1,1] * Ji.[1,1])
  else if negb (nsd =? 2)%nat then None
  else
    let d111 i := D.[i,1,1,1]*Ji.[1,1]*Ji.[1,1]*Ji.[1,1] +
                  D.[i,1,2,2]*Ji.[2,1]*Ji.[2,1]*Ji.[1,1] +
                  2*D.[i,1,1,2]*Ji.[1,1]*Ji.[1,1]*Ji.[2,1] +
                  D.[i,2,2,2]*Ji.[2,1]*Ji.[2,1]*Ji.[2,1] +
                  D.[i,1,1,2]*Ji.[1,1]*Ji.[1,1]*Ji.[2,1] +
                  2*D.[i,1,2,2]*Ji.[1,1]*Ji.[2,1]*Ji.[2,1] in
    let d222 i := D.[i,1,1,1]*Ji.[1,2]*Ji.[1,2]*Ji.[1,2] +
                  D.[i,1,2,2]*Ji.[2,2]*Ji.[2,2]*Ji.[1,2] +
                  2*D.[i,1,1,2]*Ji.[1,2]*Ji.[1,2]*Ji.[2,2] +
                  D.[i,1,1,2]*Ji.[1,2]*Ji.[1,2]*Ji.[2,2] +
                  D.[i,2,2,2]*Ji.[2,2]*Ji.[2,2]*Ji.[2,2] +
                  2*D.[i,1,2,2]*Ji.[1,2]*Ji.[2,2]*Ji.[2,2] in
    let d112 i := D.[i,1,1,1]*Ji.[1,1]*Ji.[1,1]*Ji.[1,2] +
                  D.[i,1,2,2]*Ji.[2,1]*Ji.[2,1]*Ji.[1,2] +
                  2*D.[i,1,1,2]*Ji.[1,1]*Ji.[1,2]*Ji.[2,1] +
                  D.[i,1,1,2]*Ji.[1,1]*Ji.[1,1]*Ji.[2,2] +
                  D.[i,2,2,2]*Ji.[2,1]*Ji.[2,1]*Ji.[2,2] +
                  2*D.[i,1,2,2]*Ji.[1,1]*Ji.[2,1]*Ji.[2,2] in
    let d122 i := D.[i,1,1,1]*Ji.[1,1]*Ji.[1,2]*Ji.[1,2] +
                  D.[i,1,2,2]*Ji.[1,1]*Ji.[2,2]*Ji.[2,2] +
                  2*D.[i,1,1,2]*Ji.[1,1]*Ji.[1,2]*Ji.[2,2] +
                  D.[i,1,1,2]*Ji.[1,2]*Ji.[1,2]*Ji.[2,1] +
                  D.[i,2,2,2]*Ji.[2,1]*Ji.[2,2]*Ji.[2,2] +
                  2*D.[i,1,2,2]*Ji.[1,2]*Ji.[2,1]*Ji.[2,2] in
    Some (fun i j k l =>
      match j, k, l with
      | 1%nat, 1%nat, 1%nat => d111 i
      | 2%nat, 2%nat, 2%nat => d222 i
      | 1%nat, 1%nat, 2%nat | 2%nat, 1%nat, 1%nat | 1%nat, 2%nat, 1%nat => d112 i
      | 1%nat, 2%nat, 2%nat | 2%nat, 2%nat, 1%nat | 2%nat, 1%nat, 2%nat => d122 i
      | _, _, _ => 0
      end).

(** src/Utility/CoordinateMapping.C:214-228, utl::getGmat; du is 1-based here. *)
Definition getGmat (nsd : nat) (Ji : mat) (du : nat -> R) : mat := fun k l =>
  sum nsd (fun m => Ji m k * Ji m l * (2 ^ nsd / (du k * du l))).

(** src/Utility/CoordinateMapping.C:308-334, utl::JacobianGradient: entry (i,l) of
    dJdX[j-1]; old are the entries before the call, if the matrices existed with
    these dimensions (matrix::resize keeps them then), otherwise zero. *)
Definition JacobianGradient (dim : nat) (dudX : mat) (d2Xdu2 : mat3)
  (old : nat -> mat) : nat -> mat :=
  let dJdu k : mat := fun i j => d2Xdu2 i k j in
  fun j i l => old j i l + sum dim (fun k => dudX k j * dJdu k i l).

(** src/Utility/CoordinateMapping.C:337-385, utl::detJacGradient. *)
Definition dDetdu (dim : nat) (J : mat) (H : mat3) : nat -> R := fun d =>
  if (dim =? 2)%nat then
    match d with
    | 1%nat => H.[1,1,1]*J.[2,2] + J.[1,1]*H.[2,2,1] - H.[1,2,1]*J.[2,1] - J.[1,2]*H.[2,1,1]
    | _ => H.[1,1,2]*J.[2,2] + J.[1,1]*H.[2,2,2] - H.[1,2,2]*J.[2,1] - J.[1,2]*H.[2,1,2]
    end
  else if (dim =? 3)%nat then
    let i1 i := if (i =? 1)%nat then 2%nat else 1%nat in
    let i2 i := if (i =? 3)%nat then 2%nat else 3%nat in
    let det i := J 2%nat (i1 i) * J 3%nat (i2 i) - J 2%nat (i2 i) * J 3%nat (i1 i) in
    let detD i d := H 2%nat (i1 i) d * J 3%nat (i2 i) + J 2%nat (i1 i) * H 3%nat (i2 i) d
                  - H 2%nat (i2 i) d * J 3%nat (i1 i) - J 2%nat (i2 i) * H 3%nat (i1 i) d in
    H.[1,1,d] * det 1%nat + J.[1,1] * detD 1%nat d
    - (H.[1,2,d] * det 2%nat + J.[1,2] * detD 2%nat d)
    + H.[1,3,d] * det 3%nat + J.[1,3] * detD 3%nat d
  else 0.
Definition detJacGradient (dim : nat) (J Ji : mat) (H : mat3) : nat -> R := fun j =>
  sum dim (fun k => Ji k j * dDetdu dim J H k).

(** src/ASM/FiniteElement.C:193-206, MxFiniteElement::piolaBasis: the mapped
    vector of function i of basis b, component j. *)
Definition piolaBasis (detJ : R) (J : mat) (N : mat) (b i : nat) : nat -> R := fun j =>
  J j b * N b i * (1 / detJ).

(** src/ASM/FiniteElement.C:209-254, MxFiniteElement::piolaGradient: the derivative
    of component j with respect to coordinate d of function i of basis b; the
    entry (d-1)*dim+j of its column of dPdX.  dN b i a is bfs[b-1]->dNdu(i,a). *)
Definition piolaGradient (dim : nat) (detJ : R) (J Ji : mat) (H : mat3) (N : mat) (dN : mat3)
  (b i : nat) : nat -> nat -> R := fun d j =>
  let Ptmp : mat := fun r c => JacobianGradient dim Ji H (fun _ _ _ => 0) d r c * (1 / detJ)
                       + J r c * (- detJacGradient dim J Ji H d / (detJ * detJ)) in
  let bf c := if (c =? b)%nat then N b i else 0 in
  let dBf : mat := fun r a => if (r =? b)%nat then dN b i a else 0 in
  let tmp r := sum dim (fun a => dBf r a * Ji a d) in
  sum dim (fun r => J j r * tmp r) * (1 / detJ) + sum dim (fun c => Ptmp j c * bf c).
