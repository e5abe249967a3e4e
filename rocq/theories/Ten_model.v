(** Model of second-order tensors.

    Source: src/Utility/Tensor.C, src/Utility/Tensor.h, src/Utility/Vec3.h.
    Exact real arithmetic.  A tensor is its dimension, its symmetry flag (the
    dynamic type Tensor or SymmTensor) and its array of components.  Printing and
    the error messages are left out, and so is everything that needs LAPACK. *)
From Coq Require Import Reals List Bool ZArith.
Import ListNotations.
Local Open Scope R_scope.

(** Vec3.h:26-34. *)
Record vec3 := V3 { vx : R; vy : R; vz : R }.
(** Vec3.h:62,66: one-based component. *)
Definition vget (v : vec3) (i : nat) : R :=
  match i with 1%nat => vx v | 2%nat => vy v | _ => vz v end.
Definition vset (v : vec3) (i : nat) (x : R) : vec3 :=
  match i with
  | 1%nat => V3 x (vy v) (vz v)
  | 2%nat => V3 (vx v) x (vz v)
  | _ => V3 (vx v) (vy v) x
  end.
(** Vec3.h:78-80. *)
Definition vscale (c : R) (v : vec3) : vec3 := V3 (vx v * c) (vy v * c) (vz v * c).
Definition vdiv (v : vec3) (d : R) : vec3 := V3 (vx v / d) (vy v / d) (vz v / d).
(** Vec3.h:83-89. *)
Definition vadd (a b : vec3) : vec3 := V3 (vx a + vx b) (vy a + vy b) (vz a + vz b).
(** Vec3.h:106. *)
Definition asum (v : vec3) : R := Rabs (vx v) + Rabs (vy v) + Rabs (vz v).
(** Vec3.h:109-112. *)
Definition vlength (v : vec3) : R := sqrt (vx v * vx v + vy v * vy v + vz v * vz v).
(** Vec3.h:115-121: the default tolerance. *)
Definition ntol : R := / 10 ^ 16.
Definition normalize (v : vec3) : vec3 :=
  if Rle_dec (vlength v) ntol then v else vdiv v (vlength v).
(** Vec3.h:124-130. *)
Definition cross (a b : vec3) : vec3 :=
  V3 (vy a * vz b - vz a * vy b) (vz a * vx b - vx a * vz b) (vx a * vy b - vy a * vx b).

(** Tensor.h:32-33,170: dimension, dynamic type, components. *)
Record tensor := mkT { tdim : nat; tsymm : bool; tv : list R }.

(** Tensor.h:37 and Tensor.h:201-210: the array index of component (i,j). *)
Definition index (T : tensor) (i j : nat) : nat :=
  if tsymm T then
    if (i =? j)%nat then i - 1
    else if (tdim T =? 2)%nat then length (tv T) - 1
    else if (i =? j + 1)%nat || (i + 2 =? j)%nat then j + 2 else i + 2
  else (i - 1) + tdim T * (j - 1).

(** Tensor.h:85-87. *)
Definition get (T : tensor) (i j : nat) : R := nth (index T i j) (tv T) 0.
Fixpoint lset (l : list R) (k : nat) (x : R) : list R :=
  match l, k with
  | [], _ => []
  | _ :: r, O => x :: r
  | y :: r, Datatypes.S k' => y :: lset r k' x
  end.
Definition set (T : tensor) (i j : nat) (x : R) : tensor :=
  mkT (tdim T) (tsymm T) (lset (tv T) (index T i j) x).
(** v[k], zero-based. *)
Definition v_ (T : tensor) (k : nat) : R := nth k (tv T) 0.

(** Tensor.C:185-192: the copy constructor of Tensor; the argument may be a
    SymmTensor, whose components are then copied one by one. *)
Definition copyT (T : tensor) : tensor :=
  mkT (tdim T) false
      (tv T ++ repeat 0 (tdim T * tdim T - length (tv T))).

(** The loops over (i,j), rows outermost. *)
Definition pairs (n : nat) : list (nat * nat) :=
  flat_map (fun i => map (fun j => (i, j)) (seq 1 n)) (seq 1 n).

(** The sum in the loops of Tensor.C:374-385, 407-418, 768-783. *)
Definition psum (n : nat) (A B : tensor) (i j : nat) : R :=
  match n with
  | 1%nat => v_ A 0 * v_ B 0
  | 2%nat => get A i 1 * get B 1 j + get A i 2 * get B 2 j
  | 3%nat => get A i 1 * get B 1 j + get A i 2 * get B 2 j + get A i 3 * get B 3 j
  | _ => 0
  end.

(** Tensor.C:366-396.  Another object than *this is given by [Some B], the same
    object by [None]: then B is read while it is written. *)
Definition postMult (T : tensor) (ob : option tensor) : tensor :=
  let B0 := match ob with Some B => B | None => T end in
  let n := Nat.min (tdim T) (tdim B0) in
  match n with
  | 1%nat => mkT (tdim T) (tsymm T) (lset (tv T) 0 (v_ T 0 * v_ B0 0))
  | 2%nat | 3%nat =>
      let A := copyT T in
      fold_left (fun cur ij =>
        let B := match ob with Some B => B | None => cur end in
        set cur (fst ij) (snd ij) (psum n A B (fst ij) (snd ij))) (pairs n) T
  | _ => T
  end.

(** Tensor.C:399-429. *)
Definition preMult (T : tensor) (oa : option tensor) : tensor :=
  let A0 := match oa with Some A => A | None => T end in
  let n := Nat.min (tdim T) (tdim A0) in
  match n with
  | 1%nat => mkT (tdim T) (tsymm T) (lset (tv T) 0 (v_ T 0 * v_ A0 0))
  | 2%nat | 3%nat =>
      let B := copyT T in
      fold_left (fun cur ij =>
        let A := match oa with Some A => A | None => cur end in
        set cur (fst ij) (snd ij) (psum n A B (fst ij) (snd ij))) (pairs n) T
  | _ => T
  end.

(** Tensor.C:762-788: operator* for two tensors. *)
Definition tmul (A B : tensor) : tensor :=
  let n := Nat.min (tdim A) (tdim B) in
  fold_left (fun C ij => set C (fst ij) (snd ij) (psum n A B (fst ij) (snd ij)))
            (pairs n) (mkT n false (repeat 0 (n * n))).

(** Tensor.C:718-733: tensor times point. *)
Definition tvec (T : tensor) (v : vec3) : vec3 :=
  match tdim T with
  | 1%nat => V3 (v_ T 0 * vx v) (vy v) (vz v)
  | 2%nat => V3 (get T 1 1 * vx v + get T 1 2 * vy v)
                (get T 2 1 * vx v + get T 2 2 * vy v) (vz v)
  | 3%nat => V3 (get T 1 1 * vx v + get T 1 2 * vy v + get T 1 3 * vz v)
                (get T 2 1 * vx v + get T 2 2 * vy v + get T 2 3 * vz v)
                (get T 3 1 * vx v + get T 3 2 * vy v + get T 3 3 * vz v)
  | _ => v
  end.

(** Tensor.C:740-755: point times tensor (the transpose times the point). *)
Definition vtvec (v : vec3) (T : tensor) : vec3 :=
  match tdim T with
  | 1%nat => V3 (v_ T 0 * vx v) (vy v) (vz v)
  | 2%nat => V3 (get T 1 1 * vx v + get T 2 1 * vy v)
                (get T 1 2 * vx v + get T 2 2 * vy v) (vz v)
  | 3%nat => V3 (get T 1 1 * vx v + get T 2 1 * vy v + get T 3 1 * vz v)
                (get T 1 2 * vx v + get T 2 2 * vy v + get T 3 2 * vz v)
                (get T 1 3 * vx v + get T 2 3 * vy v + get T 3 3 * vz v)
  | _ => v
  end.

(** Tensor.C:246-272: assignment from a tensor of any kind. *)
Definition zeroT (T : tensor) : tensor :=
  mkT (tdim T) (tsymm T) (repeat 0 (length (tv T))).
Definition assign (this T : tensor) : tensor :=
  if (length (tv this) =? length (tv T))%nat then mkT (tdim this) (tsymm this) (tv T)
  else
    let start := if (tdim T <? tdim this)%nat then zeroT this else this in
    let nd := Nat.min (tdim this) (tdim T) in
    let r := fold_left (fun cur ij =>
               if tsymm this && (snd ij <? fst ij)%nat then cur
               else set cur (fst ij) (snd ij) (get T (fst ij) (snd ij)))
             (pairs nd) start in
    if (4 <=? length (tv T))%nat && tsymm T then
      if (length (tv this) =? 4)%nat && tsymm this
      then mkT (tdim r) (tsymm r) (lset (tv r) 2 (get T 3 3))
      else if (length (tv this) =? 9)%nat
      then mkT (tdim r) (tsymm r) (lset (tv r) 8 (get T 3 3))
      else r
    else r.

(** Tensor.C:530-548. *)
Definition transpose (T : tensor) : tensor :=
  if tsymm T then T else
  match tdim T, tv T with
  | 2%nat, [a; b; c; d] => mkT 2 false [a; c; b; d]
  | 3%nat, [a; b; c; d; e; f; g; h; i] => mkT 3 false [a; d; g; b; e; h; c; f; i]
  | _, _ => T
  end.

(** Tensor.C:551-569. *)
Definition symmetrize (T : tensor) : tensor :=
  if tsymm T then T else
  match tdim T, tv T with
  | 2%nat, [a; b; c; d] => let s := / 2 * (b + c) in mkT 2 false [a; s; s; d]
  | 3%nat, [a; b; c; d; e; f; g; h; i] =>
      let p := / 2 * (b + d) in let q := / 2 * (c + g) in let r := / 2 * (f + h) in
      mkT 3 false [a; p; q; p; e; r; q; r; i]
  | _, _ => T
  end.

(** Tensor.C:572-593: the cyclic permutation of the columns. *)
Definition swapv (l : list R) (i j : nat) : list R :=
  lset (lset l i (nth j l 0)) j (nth i l 0).
Definition shift (T : tensor) (idx : Z) : tensor :=
  let n := Z.of_nat (tdim T) in
  if tsymm T || (idx <=? - n)%Z || (Z.rem (n + idx) n =? 0)%Z then T
  else
    match tdim T with
    | 2%nat => mkT 2 false (swapv (swapv (tv T) 0 2) 1 3)
    | 3%nat =>
        let j := Z.to_nat (Z.rem (3 + idx) 3) in
        mkT 3 false (fold_left (fun l r =>
          swapv (swapv l r (r + 3 * j)) r (r + 9 - 3 * j)) [0; 1; 2]%nat (tv T))
    | _ => T
    end.

(** Tensor.C:596-606 and 920-932. *)
Definition trace (T : tensor) : R :=
  if tsymm T then
    if (tdim T =? 3)%nat || (length (tv T) =? 4)%nat then v_ T 0 + v_ T 1 + v_ T 2
    else match tdim T with 2%nat => v_ T 0 + v_ T 1 | 1%nat => v_ T 0 | _ => 0 end
  else
    match tdim T with
    | 3%nat => v_ T 0 + v_ T 4 + v_ T 8
    | 2%nat => v_ T 0 + v_ T 3
    | 1%nat => v_ T 0
    | _ => 0
    end.

(** v.back(). *)
Definition back (T : tensor) : R := last (tv T) 0.

(** Tensor.C:635-647 and 935-952. *)
Definition det (T : tensor) : R :=
  if tsymm T then
    let d := match tdim T with
      | 3%nat => v_ T 0 * (v_ T 1 * v_ T 2 - v_ T 4 * v_ T 4)
               - v_ T 3 * (v_ T 3 * v_ T 2 - v_ T 5 * v_ T 4)
               + v_ T 5 * (v_ T 3 * v_ T 4 - v_ T 5 * v_ T 1)
      | 2%nat => v_ T 0 * v_ T 1 - back T * back T
      | 1%nat => v_ T 0
      | _ => 0
      end in
    if (length (tv T) =? 4)%nat then d * v_ T 2 else d
  else
    match tdim T with
    | 3%nat => v_ T 0 * (v_ T 4 * v_ T 8 - v_ T 5 * v_ T 7)
             - v_ T 3 * (v_ T 1 * v_ T 8 - v_ T 2 * v_ T 7)
             + v_ T 6 * (v_ T 1 * v_ T 5 - v_ T 2 * v_ T 4)
    | 2%nat => v_ T 0 * v_ T 3 - v_ T 1 * v_ T 2
    | 1%nat => v_ T 0
    | _ => 0
    end.

(** Tensor.C:658-687 and 963-992: the components of the inverse. *)
Definition invbody (T : tensor) (d : R) : list R :=
  if tsymm T then
        match tdim T with
        | 3%nat =>
          let T11 := v_ T 0 in let T21 := v_ T 3 in let T22 := v_ T 1 in
          let T31 := v_ T 5 in let T32 := v_ T 4 in let T33 := v_ T 2 in
          [ (T22*T33 - T32*T32) / d; (T11*T33 - T31*T31) / d; (T11*T22 - T21*T21) / d;
            - (T21*T33 - T31*T32) / d; - (T11*T32 - T31*T21) / d; (T21*T32 - T31*T22) / d ]
        | 2%nat =>
          let T11 := v_ T 0 in let T21 := back T in let T22 := v_ T 1 in
          if (length (tv T) =? 4)%nat then
            [ T22 / d * v_ T 2; T11 / d * v_ T 2; (T11*T22 - T21*T21) / d; - T21 / d * v_ T 2 ]
          else [ T22 / d; T11 / d; - T21 / d ]
        | 1%nat => [ 1 / d ]
        | _ => tv T
        end
      else
        match tdim T with
        | 3%nat =>
          let T11 := v_ T 0 in let T12 := v_ T 3 in let T13 := v_ T 6 in
          let T21 := v_ T 1 in let T22 := v_ T 4 in let T23 := v_ T 7 in
          let T31 := v_ T 2 in let T32 := v_ T 5 in let T33 := v_ T 8 in
          [ (T22*T33 - T32*T23) / d; - (T21*T33 - T31*T23) / d; (T21*T32 - T31*T22) / d;
            - (T12*T33 - T32*T13) / d; (T11*T33 - T31*T13) / d; - (T11*T32 - T31*T12) / d;
            (T12*T23 - T22*T13) / d; - (T11*T23 - T21*T13) / d; (T11*T22 - T21*T12) / d ]
        | 2%nat =>
          let T11 := v_ T 0 in let T12 := v_ T 2 in let T21 := v_ T 1 in let T22 := v_ T 3 in
          [ T22 / d; - T21 / d; - T12 / d; T11 / d ]
        | 1%nat => [ 1 / d ]
        | _ => tv T
        end.

(** Tensor.C:650-690 and 955-995: the tensor afterwards and the returned value. *)
Definition inverse (T : tensor) (tol : R) : tensor * R :=
  let d := det T in
  if Rle_dec d tol then
    if Rle_dec (- tol) d then (T, 0) else (mkT (tdim T) (tsymm T) (invbody T d), d)
  else (mkT (tdim T) (tsymm T) (invbody T d), d).

(** Tensor.C:225-234: the columns are the three vectors. *)
Definition define3D (a b c : vec3) : tensor :=
  mkT 3 false [vx a; vy a; vz a; vx b; vy b; vz b; vx c; vy c; vz c].

(** Tensor.C:50-106: local axes from one vector. *)
Definition axes1 (vn : vec3) (vnIsX : bool) : tensor :=
  let v3 := normalize vn in
  if vnIsX then
    if Rlt_dec (Rabs (vy v3)) (Rabs (vz v3)) then
      let v2 := V3 (- vy v3 * vx v3) (vx v3 * vx v3 + vz v3 * vz v3) (- vy v3 * vz v3) in
      let v1 := cross v3 v2 in
      define3D v3 (normalize v2) (normalize v1)
    else
      let v1 := V3 (- vz v3 * vx v3) (- vz v3 * vy v3) (vx v3 * vx v3 + vy v3 * vy v3) in
      let v2 := cross v1 v3 in
      define3D v3 (normalize v2) (normalize v1)
  else
    if Rlt_dec (Rabs (vy v3)) (Rabs (vx v3)) then
      let v2 := V3 (- vy v3 * vx v3) (vx v3 * vx v3 + vz v3 * vz v3) (- vy v3 * vz v3) in
      let v1 := cross v2 v3 in
      define3D (normalize v1) (normalize v2) v3
    else
      let v1 := V3 (vy v3 * vy v3 + vz v3 * vz v3) (- vx v3 * vy v3) (- vx v3 * vz v3) in
      let v2 := cross v3 v1 in
      define3D (normalize v1) (normalize v2) v3.

(** Tensor.C:117-137: local axes from two tangents. *)
Definition axes2 (t1 t2 : vec3) (t1isZ t2isXZ : bool) : tensor :=
  let v1 := normalize t1 in
  let v3' := normalize (cross t1 t2) in
  let v2 := if t2isXZ then normalize (cross t2 t1) else cross v3' v1 in
  let v3 := if t2isXZ then cross v1 v2 else v3' in
  if t1isZ then define3D v2 v3 v1 else define3D v1 v2 v3.

(** Tensor.C:22-25. *)
Definition epsZ : R := / 10 ^ 16.

(** Tensor.C:156-182: the incremental rotation through a quaternion. *)
Definition rottensor (a : vec3) : tensor :=
  let theta := vlength a in
  let q := vscale (if Rlt_dec theta epsZ then / 2 else sin (/ 2 * theta) / theta) a in
  let q0 := cos (/ 2 * theta) in
  let ql := sqrt (q0 * q0 + vx q * vx q + vy q * vy q + vz q * vz q) in
  let w := q0 / ql in
  let p := vdiv q ql in
  mkT 3 false
    [ 2 * (vx p * vx p + w * w) - 1; 2 * (vy p * vx p + vz p * w); 2 * (vz p * vx p - vy p * w);
      2 * (vx p * vy p - vz p * w); 2 * (vy p * vy p + w * w) - 1; 2 * (vz p * vy p + vx p * w);
      2 * (vx p * vz p + vy p * w); 2 * (vy p * vz p - vx p * w); 2 * (vz p * vz p + w * w) - 1 ].

(** Tensor.C:609-632: the rotation angles of a tensor; "1 > 1 - |s|" is s <> 0. *)
Definition rotVec (T : tensor) : vec3 :=
  if (tdim T <? 2)%nat then V3 0 0 0 else
  let r := / 2 * trace T - / 2 in
  let theta := if Rlt_dec r 1 then acos r else 0 in
  let f := if Req_EM_T (sin theta) 0 then / 2 else / 2 * theta / sin theta in
  let z := f * (get T 2 1 - get T 1 2) in
  if (tdim T <? 3)%nat then V3 0 0 z else
  V3 (f * (get T 3 2 - get T 2 3)) (f * (get T 1 3 - get T 3 1)) z.

(** Tensor.C:432-472: columns p and q of row c. *)
Definition rotcols (ca sa : R) (p q : nat) (T : tensor) (c : nat) : tensor :=
  let t := ca * get T c p + sa * get T c q in
  let T1 := set T c q (ca * get T c q - sa * get T c p) in
  set T1 c p t.
Definition rotate (T : tensor) (alpha : R) (axis : nat) : tensor :=
  if ((tdim T =? 3)%nat && (axis <=? 3)%nat) || ((tdim T =? 2)%nat && (axis =? 3)%nat) then
    match axis with
    | 1%nat => fold_left (rotcols (cos alpha) (sin alpha) 2 3) (seq 1 (tdim T)) T
    | 2%nat => fold_left (rotcols (cos alpha) (sin alpha) 1 3) (seq 1 (tdim T)) T
    | 3%nat => fold_left (rotcols (cos alpha) (sin alpha) 1 2) (seq 1 (tdim T)) T
    | _ => T
    end
  else T.

(** Tensor.C:485-504. *)
Fixpoint dot (a b : list R) : R :=
  match a, b with x :: r, y :: t => x * y + dot r t | _, _ => 0 end.
Definition innerProd (A B : tensor) : R :=
  if (length (tv A) =? length (tv B))%nat then dot (tv A) (tv B)
  else if tsymm A && tsymm B then
    let nd := Nat.min (tdim A) (tdim B) in
    fold_left (fun acc ij => if (snd ij <? fst ij)%nat then acc
                             else acc + get A (fst ij) (snd ij) * get B (fst ij) (snd ij))
              (pairs nd) 0
  else 0.

(** Tensor.C:808-815: the dimension is changed only when it differs. *)
Fixpoint resize (l : list R) (m : nat) : list R :=
  match m with O => [] | Datatypes.S k => hd 0 l :: resize (tl l) k end.
Definition redim (T : tensor) (n : nat) (with33 : bool) : tensor :=
  if (tdim T =? n)%nat then T
  else mkT n true (resize (tv T)
         (if (n =? 2)%nat && with33 then 4 else Nat.div2 (n * (n + 1)))).
Definition setv (T : tensor) (k : nat) (x : R) : tensor :=
  mkT (tdim T) (tsymm T) (lset (tv T) k x).

(** Tensor.C:998-1027. *)
Definition rightCG (this F : tensor) : tensor :=
  let C := redim this (tdim F) false in
  match tdim C with
  | 1%nat => setv C 0 (get F 1 1 * get F 1 1)
  | 2%nat =>
      setv (setv (setv C 0 (get F 1 1 * get F 1 1 + get F 2 1 * get F 2 1))
                 1 (get F 1 2 * get F 1 2 + get F 2 2 * get F 2 2))
           2 (get F 1 1 * get F 1 2 + get F 2 1 * get F 2 2)
  | 3%nat =>
      setv (setv (setv (setv (setv (setv C
        0 (get F 1 1 * get F 1 1 + get F 2 1 * get F 2 1 + get F 3 1 * get F 3 1))
        1 (get F 1 2 * get F 1 2 + get F 2 2 * get F 2 2 + get F 3 2 * get F 3 2))
        2 (get F 1 3 * get F 1 3 + get F 2 3 * get F 2 3 + get F 3 3 * get F 3 3))
        3 (get F 1 1 * get F 1 2 + get F 2 1 * get F 2 2 + get F 3 1 * get F 3 2))
        4 (get F 1 2 * get F 1 3 + get F 2 2 * get F 2 3 + get F 3 2 * get F 3 3))
        5 (get F 1 1 * get F 1 3 + get F 2 1 * get F 2 3 + get F 3 1 * get F 3 3)
  | _ => C
  end.

(** Tensor.C:1030-1059. *)
Definition leftCG (this F : tensor) : tensor :=
  let C := redim this (tdim F) false in
  match tdim C with
  | 1%nat => setv C 0 (get F 1 1 * get F 1 1)
  | 2%nat =>
      setv (setv (setv C 0 (get F 1 1 * get F 1 1 + get F 1 2 * get F 1 2))
                 1 (get F 2 1 * get F 2 1 + get F 2 2 * get F 2 2))
           2 (get F 1 1 * get F 2 1 + get F 1 2 * get F 2 2)
  | 3%nat =>
      setv (setv (setv (setv (setv (setv C
        0 (get F 1 1 * get F 1 1 + get F 1 2 * get F 1 2 + get F 1 3 * get F 1 3))
        1 (get F 2 1 * get F 2 1 + get F 2 2 * get F 2 2 + get F 2 3 * get F 2 3))
        2 (get F 3 1 * get F 3 1 + get F 3 2 * get F 3 2 + get F 3 3 * get F 3 3))
        3 (get F 1 1 * get F 2 1 + get F 1 2 * get F 2 2 + get F 1 3 * get F 2 3))
        4 (get F 2 1 * get F 3 1 + get F 2 2 * get F 3 2 + get F 2 3 * get F 3 3))
        5 (get F 1 1 * get F 3 1 + get F 1 2 * get F 3 2 + get F 1 3 * get F 3 3)
  | _ => C
  end.

(** Tensor.C:1062-1089. *)
Definition outerProd (T : tensor) (u : vec3) : tensor :=
  match tdim T with
  | 1%nat => setv T 0 (vx u * vx u)
  | 2%nat => setv (setv (setv T 0 (vx u * vx u)) 1 (vy u * vy u)) 2 (vx u * vy u)
  | 3%nat => setv (setv (setv (setv (setv (setv T 0 (vx u * vx u)) 1 (vy u * vy u))
               2 (vz u * vz u)) 3 (vx u * vy u)) 4 (vy u * vz u)) 5 (vx u * vz u)
  | _ => T
  end.

(** Tensor.C:1502-1530: operator* for two symmetric tensors. *)
Definition smul (A B : tensor) : tensor :=
  let a := v_ A in let b := v_ B in
  match Nat.min (tdim A) (tdim B) with
  | 1%nat => mkT 1 true [a 0%nat * b 0%nat]
  | 2%nat => mkT 2 true [a 0%nat * b 0%nat + a 2%nat * b 2%nat;
                         a 2%nat * b 2%nat + a 1%nat * b 1%nat;
                         a 0%nat * b 2%nat + a 2%nat * b 1%nat]
  | 3%nat => mkT 3 true [a 0%nat * b 0%nat + a 3%nat * b 3%nat + a 5%nat * b 5%nat;
                         a 3%nat * b 3%nat + a 1%nat * b 1%nat + a 4%nat * b 4%nat;
                         a 5%nat * b 5%nat + a 4%nat * b 4%nat + a 2%nat * b 2%nat;
                         a 0%nat * b 3%nat + a 3%nat * b 1%nat + a 5%nat * b 4%nat;
                         a 3%nat * b 5%nat + a 1%nat * b 4%nat + a 4%nat * b 2%nat;
                         a 0%nat * b 5%nat + a 3%nat * b 4%nat + a 5%nat * b 2%nat]
  | n => mkT n true []
  end.

(** Tensor.C:855-917: the congruence transformation. *)
Definition transform (A T : tensor) : tensor :=
  if tsymm T then A else
  let t (i j : nat) := get T i j in
  match tdim A with
  | 2%nat =>
      if (1 <? tdim T)%nat then
        let v0 := v_ A 0 in let v1 := v_ A 1 in let vb := back A in
        let S11 := t 1%nat 1%nat * v0 + t 1%nat 2%nat * vb in
        let S12 := t 1%nat 1%nat * vb + t 1%nat 2%nat * v1 in
        let S21 := t 2%nat 1%nat * v0 + t 2%nat 2%nat * vb in
        let S22 := t 2%nat 1%nat * vb + t 2%nat 2%nat * v1 in
        setv (setv (setv A 0 (S11 * t 1%nat 1%nat + S12 * t 1%nat 2%nat))
                   1 (S21 * t 2%nat 1%nat + S22 * t 2%nat 2%nat))
             (length (tv A) - 1) (S11 * t 2%nat 1%nat + S12 * t 2%nat 2%nat)
      else A
  | 3%nat =>
      let v0 := v_ A 0 in let v1 := v_ A 1 in let v2 := v_ A 2 in
      let v3 := v_ A 3 in let v4 := v_ A 4 in let v5 := v_ A 5 in
      if (2 <? tdim T)%nat then
        let S11 := t 1%nat 1%nat * v0 + t 1%nat 2%nat * v3 + t 1%nat 3%nat * v5 in
        let S12 := t 1%nat 1%nat * v3 + t 1%nat 2%nat * v1 + t 1%nat 3%nat * v4 in
        let S13 := t 1%nat 1%nat * v5 + t 1%nat 2%nat * v4 + t 1%nat 3%nat * v2 in
        let S21 := t 2%nat 1%nat * v0 + t 2%nat 2%nat * v3 + t 2%nat 3%nat * v5 in
        let S22 := t 2%nat 1%nat * v3 + t 2%nat 2%nat * v1 + t 2%nat 3%nat * v4 in
        let S23 := t 2%nat 1%nat * v5 + t 2%nat 2%nat * v4 + t 2%nat 3%nat * v2 in
        let S31 := t 3%nat 1%nat * v0 + t 3%nat 2%nat * v3 + t 3%nat 3%nat * v5 in
        let S32 := t 3%nat 1%nat * v3 + t 3%nat 2%nat * v1 + t 3%nat 3%nat * v4 in
        let S33 := t 3%nat 1%nat * v5 + t 3%nat 2%nat * v4 + t 3%nat 3%nat * v2 in
        mkT 3 true [ S11 * t 1%nat 1%nat + S12 * t 1%nat 2%nat + S13 * t 1%nat 3%nat;
                     S21 * t 2%nat 1%nat + S22 * t 2%nat 2%nat + S23 * t 2%nat 3%nat;
                     S31 * t 3%nat 1%nat + S32 * t 3%nat 2%nat + S33 * t 3%nat 3%nat;
                     S11 * t 2%nat 1%nat + S12 * t 2%nat 2%nat + S13 * t 2%nat 3%nat;
                     S21 * t 3%nat 1%nat + S22 * t 3%nat 2%nat + S23 * t 3%nat 3%nat;
                     S31 * t 1%nat 1%nat + S32 * t 1%nat 2%nat + S33 * t 1%nat 3%nat ]
      else if (tdim T =? 2)%nat then
        let S11 := t 1%nat 1%nat * v0 + t 1%nat 2%nat * v3 in
        let S12 := t 1%nat 1%nat * v3 + t 1%nat 2%nat * v1 in
        let S13 := t 1%nat 1%nat * v5 + t 1%nat 2%nat * v4 in
        let S21 := t 2%nat 1%nat * v0 + t 2%nat 2%nat * v3 in
        let S22 := t 2%nat 1%nat * v3 + t 2%nat 2%nat * v1 in
        let S23 := t 2%nat 1%nat * v5 + t 2%nat 2%nat * v4 in
        mkT 3 true [ S11 * t 1%nat 1%nat + S12 * t 1%nat 2%nat; S21 * t 2%nat 1%nat + S22 * t 2%nat 2%nat; v2;
                     S11 * t 2%nat 1%nat + S12 * t 2%nat 2%nat; S23; S13 ]
      else A
  | _ => A
  end.

(** Tensor.C:1092-1099, with doSqrt = false: the weighted sum of squares, from component i. *)
Fixpoint l2sum (n : nat) (four : bool) (i : nat) (l : list R) : R :=
  match l with
  | [] => 0
  | x :: r => (if (i <? n)%nat || ((i =? 2)%nat && four) then 1 else 2) * x * x
              + l2sum n four (Datatypes.S i) r
  end.
Definition L2norm2 (T : tensor) : R :=
  l2sum (tdim T) (length (tv T) =? 4)%nat 0 (tv T).

(** Tensor.C:1111-1137, with doSqrt = false and doSqrt = true. *)
Definition vonMises2 (T : tensor) : R :=
  match tdim T with
  | 3%nat =>
      let s11 := v_ T 0 in let s22 := v_ T 1 in let s33 := v_ T 2 in
      let s12 := v_ T 3 in let s23 := v_ T 4 in let s31 := v_ T 5 in
      s11*(s11-s22) + s22*(s22-s33) + s33*(s33-s11) + 3 * (s12*s12 + s23*s23 + s31*s31)
  | 2%nat =>
      let s11 := v_ T 0 in let s22 := v_ T 1 in
      let s33 := if (length (tv T) =? 4)%nat then v_ T 2 else 0 in
      let s12 := if (length (tv T) =? 4)%nat then v_ T 3 else v_ T 2 in
      s11*(s11-s22) + s22*(s22-s33) + s33*(s33-s11) + 3 * s12*s12
  | 1%nat => v_ T 0 * v_ T 0
  | _ => 0
  end.
Definition vonMises (T : tensor) : R :=
  match tdim T with 1%nat => v_ T 0 | _ => sqrt (vonMises2 T) end.

(** atan2 of the C library. *)
Definition atan2 (y x : R) : R :=
  if Rlt_dec 0 x then atan (y / x)
  else if Rlt_dec x 0 then (if Rle_dec 0 y then atan (y / x) + PI else atan (y / x) - PI)
  else if Rlt_dec 0 y then PI / 2 else if Rlt_dec y 0 then - PI / 2 else 0.

(** Tensor.C:1206-1212: three conditional swaps. *)
Definition swap12 (p : vec3) : vec3 := if Rlt_dec (vx p) (vy p) then V3 (vy p) (vx p) (vz p) else p.
Definition swap23 (p : vec3) : vec3 := if Rlt_dec (vy p) (vz p) then V3 (vx p) (vz p) (vy p) else p.
Definition sort3 (p : vec3) : vec3 := swap12 (swap23 (swap12 p)).

(** Tensor.C:1140-1215: the principal values; None is the result false. *)
Definition principal (T : tensor) (sorted : bool) : option vec3 :=
  if (tdim T <? 2)%nat then None
  else if (length (tv T) =? 3)%nat then
    let C := v_ T 0 + v_ T 1 in
    let D := v_ T 0 * v_ T 1 - v_ T 2 * v_ T 2 in
    let P := C * C - 4 * D in
    if Rlt_dec 0 P then
      let Q := sqrt P in Some (V3 ((C + Q) / 2) ((C - Q) / 2) 0)
    else if Rlt_dec (- / 10 ^ 16) P then Some (V3 (C / 2) (C / 2) 0)
    else None
  else
    let b1 := trace T / 3 in
    let s1 := v_ T 0 - b1 in
    let s2 := v_ T 1 - b1 in
    let s3 := v_ T 2 - b1 in
    let s4 := if (2 <? tdim T)%nat then v_ T 3 else back T in
    let s5 := if (2 <? tdim T)%nat then v_ T 4 else 0 in
    let s6 := if (2 <? tdim T)%nat then v_ T 5 else 0 in
    let c1 := s4 * s4 in let c2 := s5 * s5 in let c3 := s6 * s6 in
    let b2 := (s1 * s1 + s2 * s2 + s3 * s3) / 2 + c1 + c2 + c3 in
    if Rle_dec b2 (/ 10 ^ 12 * b1 * b1) then Some (V3 s1 s1 s1)
    else
      let b3 := s1 * s2 * s3 + (s4 + s4) * s5 * s6 + s1 * (c1 - c2) + s2 * (c1 - c3) in
      let k1 := 2 * sqrt (b2 / 3) in
      let k2 := 4 * b3 in
      let k3 := k1 * k1 * k1 in
      let al := atan2 (sqrt (Rabs (k3 * k3 - k2 * k2))) k2 / 3 in
      let pi23 := PI * 2 / 3 in
      let p := V3 (b1 + k1 * cos al) (b1 + k1 * cos (al - pi23)) (b1 + k1 * cos (al + pi23)) in
      Some (if sorted then sort3 p else p).

(** Tensor.C:1251-1305: the state of the Jacobi sweeps; pdir by its components. *)
Record jst := J { jd : vec3; ja : vec3; jz : vec3; jq : tensor }.

(** copysign(2,h/aij); for h = 0 the quotient is a zero with the sign of aij. *)
Definition csign2 (h aij : R) : R :=
  if Req_EM_T h 0 then (if Rlt_dec aij 0 then - (2) else 2)
  else if Rlt_dec (h / aij) 0 then - (2) else 2.

(** Tensor.C:1293-1299. *)
Definition rotdir (s tau : R) (i j : nat) (Q : tensor) (k : nat) : tensor :=
  let g := get Q k i in let h := get Q k j in
  set (set Q k i (g - s * (h + g * tau))) k j (h + s * (g - h * tau)).

(** Tensor.C:1254-1300: one pair (i,j). *)
Definition jrot (thres : R) (st : jst) (i : nat) : jst :=
  let j := (i mod 3 + 1)%nat in
  let k := (j mod 3 + 1)%nat in
  let d := jd st in let a := ja st in let z := jz st in
  let aij := vget a i in
  let g := 100 * Rabs aij in
  if (if Req_EM_T (Rabs (vget d i) + g) (Rabs (vget d i)) then true else false)
     && (if Req_EM_T (Rabs (vget d j) + g) (Rabs (vget d j)) then true else false)
  then J d (vset a i 0) z (jq st)
  else if Rlt_dec thres (Rabs aij) then
    let a1 := vset a i 0 in
    let h := vget d j - vget d i in
    let t0 := h / aij in
    let t := if Req_EM_T (Rabs h + g) (Rabs h) then 1 / t0
             else csign2 h aij / (Rabs t0 + sqrt (4 + t0 * t0)) in
    let c := 1 / sqrt (1 + t * t) in
    let s := t * c in
    let tau := s / (1 + c) in
    let h1 := t * aij in
    let z1 := vset z i (vget z i - h1) in
    let z2 := vset z1 j (vget z1 j + h1) in
    let d1 := vset d i (vget d i - h1) in
    let d2 := vset d1 j (vget d1 j + h1) in
    let h2 := vget a1 j in
    let g2 := vget a1 k in
    let a2 := vset a1 j (h2 + s * (g2 - h2 * tau)) in
    let a3 := vset a2 k (g2 - s * (h2 + g2 * tau)) in
    J d2 a3 z2 (fold_left (rotdir s tau i j) (seq 1 3) (jq st))
  else st.

(** Tensor.C:1240-1306: the iterations; [it] is the iteration number, [fuel] what is
    left of maxit.  The pairs visited are i = 1 and i = 2. *)
Fixpoint jiter (fuel it : nat) (p d a : vec3) (Q : tensor) : vec3 * vec3 * tensor :=
  match fuel with
  | O => (p, a, Q)
  | Datatypes.S f =>
      let sm := asum a in
      if Rlt_dec sm epsZ then (p, a, Q)
      else
        let thres := if (it <? 4)%nat then 11 / 1000 * sm else 0 in
        let st := fold_left (jrot thres) [1; 2]%nat (J d a (V3 0 0 0) Q) in
        let p' := vadd p (jz st) in
        jiter f (Datatypes.S it) p' p' (ja st) (jq st)
  end.

(** Tensor.C:1224-1310: the principal values and the directions; the off-diagonal terms
    that are left are given too. *)
Definition principal_dir (T : tensor) : option (vec3 * vec3 * tensor) :=
  if (tdim T =? 3)%nat then
    let d := V3 (v_ T 0) (v_ T 1) (v_ T 2) in
    let a := V3 (v_ T 3) (v_ T 4) (v_ T 5) in
    let maxit := if Rlt_dec (asum a) (asum d * / 10 ^ 13) then O else 50%nat in
    Some (jiter maxit 0 d d a (mkT 3 false [1; 0; 0; 0; 1; 0; 0; 0; 1]))
  else None.
