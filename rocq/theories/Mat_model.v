(** Model of the dense vector and matrix classes, src/LinAlg/matrix.h and matrixnd.h
    (the built-in, non-BLAS versions of the arithmetic, plus the index ranges that are
    handed over to BLAS).

    Simplifications: exact rationals for the element type; size_t and int do not overflow,
    except where a size_t loop counter would pass below zero; the storage is owned by the
    matrix (matrices on external vectors are left out); operands are different objects.
    Every access outside the storage, and a loop that never ends, is [None]; merely forming
    a pointer is not an error. Indices are 0-based here unless said otherwise. *)
From Coq Require Import List Arith ZArith QArith Qcanon Bool Lia.
From Verif Require Import Base QcLra.
Import ListNotations.
Local Open Scope Qc_scope.

(** ** Memory *)
Definition rd (v : list Qc) (k : nat) : option Qc := nth_error v k.
Definition wr (k : nat) (x : Qc) (v : list Qc) : option (list Qc) := if (k <? length v)%nat then Some (upd k x v) else None.
(** memcpy/memmove/std::copy of [n] elements *)
Definition memcpy {A} (n so : nat) (src : list A) (d : nat) (dst : list A) : option (list A) :=
  if (n =? 0)%nat then Some dst
  else if (so + n <=? length src)%nat && (d + n <=? length dst)%nat
  then Some (firstn d dst ++ firstn n (skipn so src) ++ skipn (d + n) dst) else None.
Definition bind {A B} (o : option A) (f : A -> option B) : option B := match o with Some x => f x | None => None end.
(** for (k = 0; k < n; k++) *)
Fixpoint forN {S} (n : nat) (f : nat -> S -> option S) (s : S) : option S :=
  match n with O => Some s | S k => bind (forN k f s) (f k) end.
(** std::vector::resize(n,0) *)
Definition stdResize (n : nat) (v : list Qc) : list Qc := firstn n v ++ repeat 0 (n - length v).

(** ** utl::vector *)
(** matrix.h:277-290 vector::resize; [retain] is forceClear == RETAIN (2), [clear] is forceClear == 1 *)
Definition vresize (n : nat) (clear retain : bool) (v : list Qc) : list Qc :=
  if (n =? length v)%nat then (if clear then repeat 0 (length v) else v)
  else stdResize n (if retain then v else []).
(** matrix.h:139-144 vector::fill(values,n): the array [a] is read from its start *)
Definition vfill (a : list Qc) (n : nat) (v : list Qc) : option (list Qc) :=
  let v := if (length v <? n)%nat then stdResize n v else v in memcpy (length v) 0 a 0 v.
(** matrix.h:1550-1556 operator*= *)
Definition vscale (c : Qc) (v : list Qc) : list Qc := map (fun x => x * c) v.
(** matrix.h:1618-1638 vector::add (for an empty destination ofsx must not exceed the length of X: the difference is unsigned); the loop ends when one of the indices is past its end;
    [fuel] bounds the number of steps (both strides are nonnegative and not both zero) *)
Fixpoint axpy (fuel : nat) (X : list Qc) (alfa : Qc) (ox sx oy sy : nat) (Y : list Qc) : list Qc :=
  match fuel with
  | O => Y
  | S f => if ((ox <? length X) && (oy <? length Y))%nat
           then axpy f X alfa (ox + sx) sx (oy + sy) sy (upd oy (nth oy Y 0 + alfa * nth ox X 0) Y)
           else Y
  end.
Definition vadd (X : list Qc) (alfa : Qc) (ox : nat) (sx : Z) (oy : nat) (sy : Z) (Y : list Qc) : list Qc :=
  if ((sx <? 0) || (sy <? 0) || (sx + sy =? 0))%Z then Y
  else let sxn := Z.to_nat sx in let syn := Z.to_nat sy in
       let Y := match Y with
                | [] => if (0 <? sxn)%nat then repeat 0 (oy + syn * (length X - ox) / sxn)%nat else Y
                | _ => Y end in
       axpy (length X + length Y) X alfa ox sxn oy syn Y.
(** matrix.h:192-200 relax *)
Definition vrelax (alfa : Qc) (X Y : list Qc) : list Qc :=
  if Qc_eq_dec alfa 1 then Y else vadd X (1 - alfa) 0 1 0 1 (vscale alfa Y).
(** the index sequence off, off+inc, ... below [max] (inc > 0) *)
Fixpoint strided (fuel off inc max : nat) : list nat :=
  match fuel with O => [] | S f => if (off <? max)%nat then off :: strided f (off + inc) inc max else [] end.
(** matrix.h:260-271 vector::sum *)
Definition vsum (off : nat) (inc : Z) (max : nat) (v : list Qc) : Qc :=
  if ((inc <? 1)%Z || (length v =? 0)%nat) then 0
  else let max := if ((max =? 0) || (length v <? max))%nat then length v else max in
       fold_left (fun s i => s + nth i v 0) (strided max off (Z.to_nat inc) max) 0.
Definition qabs (x : Qc) : Qc := if qltb x 0 then - x else x.
(** matrix.h:1606-1616 vector::asum *)
Definition vasum (off : nat) (inc : Z) (v : list Qc) : Qc :=
  if ((inc <? 1)%Z || (length v <=? off)%nat) then 0
  else fold_left (fun s i => s + (if qltb (nth i v 0) 0 then - nth i v 0 else nth i v 0)) (strided (length v) off (Z.to_nat inc) (length v)) 0.
(** matrix.h:1582-1604 vector::normInf: value, offset on output *)
Definition vnormInf (off : nat) (inc : Z) (sign : bool) (v : list Qc) : Qc * nat :=
  if ((inc <? 1)%Z || (length v <=? off)%nat) then (0, off)
  else let '(xmax, amax, o) :=
         fold_left (fun st i => let '(xmax, amax, o) := st in let x := nth i v 0 in
            if qltb amax x then (x, x, (1 + i / Z.to_nat inc)%nat)
            else if qltb x (- amax) then (x, - x, (1 + i / Z.to_nat inc)%nat) else st)
           (strided (length v) off (Z.to_nat inc) (length v)) (0, 0, off) in
       ((if sign then xmax else amax), o).
(** matrix.h:1558-1567 vector::dot, positive increments *)
Fixpoint vdot (fuel o1 i1 o2 i2 : nat) (v w : list Qc) : Qc :=
  match fuel with
  | O => 0
  | S f => if ((o1 <? length v) && (o2 <? length w))%nat
           then nth o1 v 0 * nth o2 w 0 + vdot f (o1 + i1) i1 (o2 + i2) i2 v w else 0
  end.

(** ** What BLAS is asked to do: the positions of the elements used *)
(** matrix.h:1099-1117, 1126-1131, 1162-1167: number of elements in dot, norm2 and asum (double), inc > 0 *)
Definition blasCount (len off inc : nat) : nat := if (1 <? inc)%nat then (len / inc)%nat else (len - off)%nat.
Definition blasIdx (n off inc : nat) : list nat := map (fun k => (off + k * inc)%nat) (seq 0 n).
(** matrix.h:1146-1154 normInf: the elements idamax looks at *)
Definition blasNormInfIdx (len off inc : nat) : list nat := blasIdx (len / inc) off inc.

(** ** Matrices of up to four dimensions *)
Record mat := mkMat { d1 : nat; d2 : nat; d3 : nat; d4 : nat; elem : list Qc }.
Definition msize (m : mat) : nat := (d1 m * d2 m * d3 m * d4 m)%nat.
(** matrix.h:408 clear *)
Definition mclear : mat := mkMat 0 0 0 0 [].
(** matrix.h:308-315 constructors *)
Definition mnew2 (r c : nat) : mat := mkMat r c 1 1 (repeat 0 (r * c * 1 * 1)).
(** matrix.h:338-369 redim; [k] is the number of leading dimensions that clearIfNrowChanged
    compares (1, 2, 3 for 2D, 3D, 4D: matrix.h:1065-1068, matrixnd.h:204-207, 331-336) *)
Definition redim (k : nat) (n1 n2 n3 n4 : nat) (force : bool) (m : mat) : mat :=
  let m := if force then (if (msize m =? n1 * n2 * n3 * n4)%nat then mkMat (d1 m) (d2 m) (d3 m) (d4 m) (repeat 0 (length (elem m))) else mclear) else m in
  if ((d1 m =? n1) && (d2 m =? n2) && (d3 m =? n3) && (d4 m =? n4))%nat then m
  else if (n1 * n2 * n3 * n4 =? msize m)%nat then mkMat n1 n2 n3 n4 (elem m)
  else
    let changed := negb (d1 m =? n1)%nat || ((2 <=? k)%nat && negb (d2 m =? n2)%nat) || ((3 <=? k)%nat && negb (d3 m =? n3)%nat) in
    let v := if negb force && changed then [] else elem m in
    mkMat n1 n2 n3 n4 (vresize (n1 * n2 * n3 * n4) false true v).
(** matrix.h:488-491 resize *)
Definition mresize (r c : nat) (force : bool) (m : mat) : mat := redim 1 r c 1 1 force m.
(** matrix.h:392-401 ptr(c): position of column [c], or null *)
Definition ptr (m : mat) (c : nat) : option nat := if (d1 m * c <? length (elem m))%nat then Some (d1 m * c)%nat else None.
Definition setElem (m : mat) (v : list Qc) : mat := mkMat (d1 m) (d2 m) (d3 m) (d4 m) v.
Definition setRows (r : nat) (m : mat) : mat := mkMat r (d2 m) (d3 m) (d4 m) (elem m).
(** element access, 0-based (operator(), matrix.h:597-611) *)
Definition rd2 (m : mat) (i j : nat) : option Qc := rd (elem m) (i + d1 m * j).

(** matrix.h:497-528 expandRows *)
Definition expandRows (incRows : Z) (setR : bool) (m : mat) : option mat :=
  let cur := Z.of_nat (d1 m) in
  let inc := if setR then (incRows - cur)%Z else incRows in
  let newRows := (cur + inc)%Z in
  if ((newRows <? 1)%Z || (d2 m <? 1)%nat) then Some mclear
  else if (inc <? 0)%Z then
    let nr := Z.to_nat newRows in
    bind (forN (d2 m - 1) (fun c0 v => let c := S c0 in
            bind (ptr (setElem m v) c) (fun p => memcpy nr p v (nr * c) v)) (elem m))
         (fun v => Some (setElem (setRows nr m) (vresize (nr * d2 m) false true v)))
  else if (0 <? inc)%Z then
    let old := d1 m in
    let m1 := setRows (Z.to_nat newRows) m in
    let v1 := vresize (d1 m1 * d2 m1) false true (elem m1) in
    bind (forN (d2 m - 1) (fun t v => let c := (d2 m - 1 - t)%nat in
            bind (ptr (setElem m1 v) c) (fun p =>
            bind (memcpy old (old * c) v p v) (fun v =>
            (* for (size_t r = nrow-1; r >= oldRows; r--): never ends if oldRows is 0 *)
            if (old =? 0)%nat then None
            else forN (d1 m1 - old) (fun s v => wr (d1 m1 - 1 - s + d1 m1 * (c - 1)) 0 v) v))) v1)
         (fun v => Some (setElem m1 v))
  else Some m.

(** matrix.h:534-556 augmentRows; the position [old * (c-1)] is the running pointer oldMat *)
Definition augmentRows (B : mat) (prepend : bool) (m : mat) : option (bool * mat) :=
  if negb (d2 B =? d2 m)%nat then Some (false, m)
  else
    let old := d1 m in
    let offset := if prepend then d1 B else 0%nat in
    let m1 := setRows (d1 m + d1 B) m in
    let v1 := vresize (d1 m1 * d2 m1) false true (elem m1) in
    bind (forN (d2 m) (fun t v => let c := (d2 m - t)%nat in
            bind (if (1 <? c)%nat || prepend
                  then (if (old =? 0)%nat then Some v else bind (ptr (setElem m1 v) (c - 1)) (fun p => memcpy old (old * (c - 1)) v (p + offset) v))
                  else Some v) (fun v =>
            if prepend
            then forN (d1 B) (fun r0 v => bind (rd2 B r0 (c - 1)) (fun x => wr (r0 + d1 m1 * (c - 1)) x v)) v
            else forN (d1 m1 - old) (fun s v => let r := (d1 m1 - s)%nat in
                   bind (rd2 B (r - old - 1) (c - 1)) (fun x => wr (r - 1 + d1 m1 * (c - 1)) x v)) v)) v1)
         (fun v => Some (true, setElem m1 v)).
(** matrix.h:559-567 augmentCols *)
Definition augmentCols (B : mat) (m : mat) : bool * mat :=
  if negb (d1 B =? d1 m)%nat then (false, m)
  else (true, mkMat (d1 m) (d2 m + d2 B) (d3 m) (d4 m) (elem m ++ elem B)).

(** matrix.h:467-478 copy constructor with transposition *)
Definition copyTransposed (m : mat) : option mat :=
  let nr := d2 m in let nc := d1 m in
  bind (forN nc (fun r v => forN nr (fun c v => bind (rd (elem m) (r + nc * c)) (fun x => wr (c + nr * r) x v)) v) (repeat 0 (msize m)))
       (fun v => Some (mkMat nr nc (d3 m) (d4 m) v)).
(** matrix.h:769-779 transpose *)
Definition transpose (m : mat) : option mat :=
  bind (forN (d1 m) (fun r v => forN (d2 m) (fun c v => bind (rd (elem m) (r + d1 m * c)) (fun x => wr (c + d2 m * r) x v)) v) (elem m))
       (fun v => Some (mkMat (d2 m) (d1 m) (d3 m) (d4 m) v)).

(** matrix.h:614-624 getRow(r), 1-based *)
Definition getRow (r : nat) (m : mat) : option (list Qc) :=
  if (d1 m <? 2)%nat then Some (elem m)
  else forN (d2 m) (fun i row => bind (rd (elem m) (r - 1 + d1 m * i)) (fun x => wr i x row)) (repeat 0 (d2 m)).
(** matrix.h:627-636 getColumn(c), 1-based *)
Definition getColumn (c : nat) (m : mat) : option (list Qc) :=
  if (d2 m <? 2)%nat then Some (elem m)
  else if (d1 m =? 0)%nat then Some []
  else bind (ptr m (c - 1)) (fun p => memcpy (d1 m) p (elem m) 0 (repeat 0 (d1 m))).
(** matrix.h:658-670 fillColumn(c,data), 1-based, from a std::vector and from a pointer to [data] at [o] *)
Definition fillColumn (c : nat) (data : list Qc) (m : mat) : option mat :=
  let nd := if (length data <? d1 m)%nat then length data else d1 m in
  if (nd =? 0)%nat then Some m
  else bind (ptr m (c - 1)) (fun p => bind (memcpy nd 0 data p (elem m)) (fun v => Some (setElem m v))).
Definition fillColumnPtr (c : nat) (data : list Qc) (o : nat) (m : mat) : option mat :=
  if (d1 m =? 0)%nat then Some m
  else bind (ptr m (c - 1)) (fun p => bind (memcpy (d1 m) o data p (elem m)) (fun v => Some (setElem m v))).
(** matrix.h:673-680 fillRow(r,data), 1-based *)
Definition fillRow (r : nat) (data : list Qc) (m : mat) : option mat :=
  bind (if (d1 m <? 2)%nat then vfill data 0 (elem m)
        else forN (d2 m) (fun i v => bind (rd data i) (fun x => wr (r - 1 + d1 m * i) x v)) (elem m))
       (fun v => Some (setElem m v)).
(** matrix.h:640-655 fill(v,n,m) *)
Definition mfill (v : list Qc) (n mm : nat) (A : mat) : option mat :=
  if ((n =? 0) || (length v <? n))%nat then Some A
  else
    let mm := if (mm =? 0)%nat then (length v / n)%nat else mm in
    let A := mresize n mm true A in
    if (n * mm =? length v)%nat then bind (vfill v 0 (elem A)) (fun w => Some (setElem A w))
    else
      let n := (length v / mm)%nat in
      if (d1 A <? n)%nat then forN (d2 A) (fun c A => fillColumnPtr (c + 1) v (c * n) A) A
      else bind (forN (d2 A) (fun c w => forN n (fun r w => bind (rd v (r + c * n)) (fun x => wr (r + c * d1 A) x w)) w) (elem A))
                (fun w => Some (setElem A w)).

(** number of passes of a loop "for (i = 1; i <= nr && i+r-1 <= nrow; i++)", 1-based r *)
Definition passes (nr r nrow : nat) : nat := Nat.min nr (nrow + 1 - r).
(** matrix.h:683-694, 697-708, 711-726: block operations; [f old new] is what is stored. r, c are 1-based *)
Definition blockLoop (f : Qc -> Qc -> Qc) (block : mat) (r c : nat) (transposed : bool) (m : mat) : option mat :=
  let nr := if transposed then d2 block else d1 block in
  let nc := if transposed then d1 block else d2 block in
  bind (forN (passes nr r (d1 m)) (fun i0 v =>
          forN (passes nc c (d2 m)) (fun j0 v =>
            let ip := (i0 + 1 + r - 2 + d1 m * (c - 1) + j0 * d1 m)%nat in
            bind (if transposed then rd2 block j0 i0 else rd2 block i0 j0) (fun b =>
            bind (rd v ip) (fun x => wr ip (f x b) v))) v) (elem m))
       (fun v => Some (setElem m v)).
Definition fillBlock (block : mat) (r c : nat) (transposed : bool) (m : mat) : option mat := blockLoop (fun _ b => b) block r c transposed m.
Definition addBlock (block : mat) (s : Qc) (r c : nat) (transposed : bool) (m : mat) : option mat := blockLoop (fun x b => x + s * b) block r c transposed m.
Definition extractBlock (block : mat) (r c : nat) (addTo transposed : bool) (m : mat) : option mat :=
  let nr := if transposed then d2 block else d1 block in
  let nc := if transposed then d1 block else d2 block in
  bind (forN (passes nr r (d1 m)) (fun i0 v =>
          forN (passes nc c (d2 m)) (fun j0 v =>
            let ip := (i0 + 1 + r - 2 + d1 m * (c - 1) + j0 * d1 m)%nat in
            let bp := if transposed then (j0 + d1 block * i0)%nat else (i0 + d1 block * j0)%nat in
            bind (rd (elem m) ip) (fun x =>
            bind (rd v bp) (fun b => wr bp (if addTo then b + x else x) v))) v) (elem block))
       (fun v => Some (setElem block v)).

(** matrix.h:728-757 diag; the values are given by [d r] *)
Definition diagLoop (d : nat -> option Qc) (dim : nat) (m : mat) : option mat :=
  let m := if (0 <? dim)%nat then mresize dim dim true m else mresize (d1 m) (d2 m) true m in
  bind (forN (Nat.min (d1 m) (d2 m)) (fun r v => bind (d r) (fun x => wr (r + d1 m * r) x v)) (elem m))
       (fun v => Some (setElem m v)).
Definition diagConst (d : Qc) (dim : nat) (m : mat) : option mat := diagLoop (fun _ => Some d) dim m.
Definition diagVec (d : list Qc) (m : mat) : option mat :=
  match d with [] => Some mclear | _ => diagLoop (rd d) (length d) m end.
(** matrix.h:1659-1666 scale *)
Definition scaleCols (d : list Qc) (m : mat) : option mat :=
  bind (forN (Nat.min (length d) (d2 m)) (fun c v => forN (d1 m) (fun r v =>
          bind (rd d c) (fun s => bind (rd v (r + d1 m * c)) (fun x => wr (r + d1 m * c) (x * s) v))) v) (elem m))
       (fun v => Some (setElem m v)).
(** matrix.h:781-786 trace, rowsum(r), colsum(c), 1-based *)
Definition trace (m : mat) : Qc := vsum 0 (Z.of_nat (d1 m + 1)) 0 (elem m).
Definition rowsum (r : nat) (m : mat) : Qc := vsum (r - 1) (Z.of_nat (d1 m)) 0 (elem m).
Definition colsum (c : nat) (m : mat) : Qc := vsum (d1 m * (c - 1)) 1 (d1 m * c) (elem m).
(** matrix.h:429-437 matrixBase::sum *)
Definition msum (inc : Z) (m : mat) : Qc :=
  if (0 <? inc)%Z then vsum 0 inc 0 (elem m)
  else if ((inc =? 0) || (Z.of_nat (d2 m) <? - inc))%Z then 0
  else let c := Z.to_nat (- inc) in vsum ((c - 1) * d1 m) 1 (c * d1 m) (elem m).

(** matrix.h:791-809 det and 814-850 inverse; entries are 1-based *)
Definition E (m : mat) (i j : nat) : Qc := nth (i - 1 + d1 m * (j - 1)) (elem m) 0.
Definition det (m : mat) : Qc :=
  if ((d2 m =? 1) && (1 <=? d1 m))%nat then E m 1 1
  else if ((d2 m =? 2) && (2 <=? d1 m))%nat then E m 1 1 * E m 2 2 - E m 2 1 * E m 1 2
  else if ((d2 m =? 3) && (3 <=? d1 m))%nat
  then E m 1 1 * (E m 2 2 * E m 3 3 - E m 3 2 * E m 2 3)
       - E m 1 2 * (E m 2 1 * E m 3 3 - E m 3 1 * E m 2 3)
       + E m 1 3 * (E m 2 1 * E m 3 2 - E m 3 1 * E m 2 2)
  else if ((0 <? d2 m) && (0 <? d1 m))%nat then Q2Qc (-999 # 1) else 0.
Definition inverse (tol : Qc) (m : mat) : Qc * mat :=
  let D := det m in
  if Qc_eq_dec D (Q2Qc (-999 # 1)) then (D, m)
  else if qleb D tol && qleb (- tol) D then (0, m)
  else if (d2 m =? 1)%nat then (D, setElem m (upd 0 (1 / D) (elem m)))
  else if (d2 m =? 2)%nat
  then (D, mkMat 2 2 1 1 [ E m 2 2 / D; - E m 2 1 / D; - E m 1 2 / D; E m 1 1 / D ])
  else if (d2 m =? 3)%nat
  then (D, mkMat 3 3 1 1
    [ (E m 2 2 * E m 3 3 - E m 3 2 * E m 2 3) / D;
      - (E m 2 1 * E m 3 3 - E m 3 1 * E m 2 3) / D;
      (E m 2 1 * E m 3 2 - E m 3 1 * E m 2 2) / D;
      - (E m 1 2 * E m 3 3 - E m 3 2 * E m 1 3) / D;
      (E m 1 1 * E m 3 3 - E m 3 1 * E m 1 3) / D;
      - (E m 1 1 * E m 3 2 - E m 3 1 * E m 1 2) / D;
      (E m 1 2 * E m 2 3 - E m 2 2 * E m 1 3) / D;
      - (E m 1 1 * E m 2 3 - E m 2 1 * E m 1 3) / D;
      (E m 1 1 * E m 2 2 - E m 2 1 * E m 1 2) / D ])
  else (D, m).
(** matrix.h:854-868 isSymmetric *)
Definition isSymmetric (tol : Qc) (m : mat) : bool :=
  (d1 m =? d2 m)%nat &&
  forallb (fun r => forallb (fun c => let diff := nth (r + d1 m * c) (elem m) 0 - nth (c + d1 m * r) (elem m) 0 in
                                      negb (qltb diff (- tol) || qltb tol diff)) (seq 0 r)) (seq 0 (d1 m)).

(** ** Products *)
(** matrix.h:1640-1649 matrixBase::add and 1651-1657 multiply(c) *)
Definition madd (A : mat) (alfa : Qc) (m : mat) : mat :=
  setElem m (map (fun xy => snd xy + alfa * fst xy) (combine (elem A) (elem m)) ++ skipn (length (elem A)) (elem m)).
Definition mscale (c : Qc) (m : mat) : mat := setElem m (vscale c (elem m)).
(** matrix.h:1668-1688 multiply(X,Y,transA,addTo); addTo is 0, positive or negative *)
Definition mulVec (A : mat) (X : list Qc) (Y : list Qc) (transA : bool) (addTo : Z) : option (bool * list Qc) :=
  if negb ((0 <? d1 A) && (0 <? d2 A) && ((if transA then d1 A else d2 A) =? length X))%nat then Some (false, Y)
  else
    let Y := if ((addTo =? 0)%Z || (length Y =? 0)%nat) then repeat 0 (if transA then d2 A else d1 A) else Y in
    bind (forN (length Y) (fun i Y => forN (length X) (fun j Y =>
            bind (if transA then rd2 A j i else rd2 A i j) (fun a => bind (rd X j) (fun x => bind (rd Y i) (fun y =>
            wr i (y + a * (if (addTo <? 0)%Z then - x else x)) Y)))) Y) Y)
         (fun Y => Some (true, Y)).
(** matrix.h:1726-1754 multiply(A,B,transA,transB,addTo,alpha) *)
Definition mulMat (A B : mat) (transA transB addTo : bool) (alpha : Qc) (C : mat) : option mat :=
  let M := if transA then d2 A else d1 A in
  let N := if transB then d1 B else d2 B in
  let K := if transA then d1 A else d2 A in
  if negb (K =? (if transB then d2 B else d1 B))%nat then Some mclear
  else
    let C := if negb addTo || (length (elem C) =? 0)%nat then mresize M N true C else C in
    bind (forN M (fun i v => forN N (fun j v => forN K (fun k v =>
            bind (if transA then rd2 A k i else rd2 A i k) (fun a =>
            bind (if transB then rd2 B j k else rd2 B k j) (fun b =>
            bind (rd v (i + d1 C * j)) (fun x => wr (i + d1 C * j) (x + alpha * a * b) v)))) v) v) (elem C))
         (fun v => Some (setElem C v)).
(** matrix.h:1756-1775 multiplyMat(A,B as vector) *)
Definition mulMatVec (A : mat) (B : list Qc) (transA addTo : bool) (C : mat) : option (bool * mat) :=
  let M := if transA then d2 A else d1 A in
  let K := if transA then d1 A else d2 A in
  let N := if (0 <? K)%nat then (length B / K)%nat else 0%nat in
  if negb ((N * K =? length B) && negb (length B =? 0))%nat then Some (false, C)
  else
    let C := if negb addTo || (length (elem C) =? 0)%nat then mresize M N true C else C in
    bind (forN M (fun i v => forN N (fun j v => forN K (fun k v =>
            bind (if transA then rd2 A k i else rd2 A i k) (fun a =>
            bind (rd B (k + K * j)) (fun b =>
            bind (rd v (i + d1 C * j)) (fun x => wr (i + d1 C * j) (x + a * b) v)))) v) v) (elem C))
         (fun v => Some (true, setElem C v)).
(** matrix.h:1777-1796 multiplyMat(A as vector,B) *)
Definition mulVecMat (A : list Qc) (B : mat) (transB addTo : bool) (C : mat) : option (bool * mat) :=
  let N := if transB then d1 B else d2 B in
  let K := if transB then d2 B else d1 B in
  let M := if (0 <? K)%nat then (length A / K)%nat else 0%nat in
  if negb ((M * K =? length A) && negb (length A =? 0))%nat then Some (false, C)
  else
    let C := if negb addTo || (length (elem C) =? 0)%nat then mresize M N true C else C in
    bind (forN M (fun i v => forN N (fun j v => forN K (fun k v =>
            bind (rd A (i + M * k)) (fun a =>
            bind (if transB then rd2 B j k else rd2 B k j) (fun b =>
            bind (rd v (i + d1 C * j)) (fun x => wr (i + d1 C * j) (x + a * b) v)))) v) v) (elem C))
         (fun v => Some (true, setElem C v)).
(** matrix.h:1798-1818 outer_product *)
Definition outerProduct (X Y : list Qc) (addTo : bool) (alpha : Qc) (A : mat) : option (bool * mat) :=
  let A1 := if addTo then A else mresize (length X) (length Y) false A in
  if addTo && negb ((length X =? d1 A) && (length Y =? d2 A))%nat then Some (false, A)
  else
    bind (forN (d2 A1) (fun j v => forN (d1 A1) (fun i v =>
            bind (rd X i) (fun x => bind (rd Y j) (fun y => bind (rd v (i + d1 A1 * j)) (fun a =>
            wr (i + d1 A1 * j) (if addTo then a + alpha * x * y else alpha * x * y) v)))) v) (elem A1))
         (fun v => Some (true, setElem A1 v)).

(** ** Three and four dimensions *)
(** matrixnd.h:87-110 and 271-290 element positions, 0-based *)
Definition pos3d (m : mat) (i1 i2 i3 : nat) : nat := (i1 + d1 m * (i2 + d2 m * i3))%nat.
Definition pos4d (m : mat) (i1 i2 i3 i4 : nat) : nat := (i1 + d1 m * (i2 + d2 m * (i3 + d3 m * i4)))%nat.
(** matrixnd.h:111-128 getColumn and fillColumn, 1-based *)
Definition getColumn3 (i2 i3 : nat) (m : mat) : option (list Qc) :=
  if ((d2 m <? 2) && (d3 m <? 2))%nat then Some (elem m)
  else if (d1 m =? 0)%nat then Some []
  else bind (ptr m (i2 - 1 + d2 m * (i3 - 1))) (fun p => memcpy (d1 m) p (elem m) 0 (repeat 0 (d1 m))).
Definition fillColumn3 (i2 i3 : nat) (data : list Qc) (m : mat) : option mat :=
  let nd := if (length data <? d1 m)%nat then length data else d1 m in
  if (nd =? 0)%nat then Some m
  else bind (ptr m (i2 - 1 + d2 m * (i3 - 1))) (fun p => bind (memcpy nd 0 data p (elem m)) (fun v => Some (setElem m v))).
(** matrixnd.h:131-135 trace *)
Definition trace3 (i1 : nat) (m : mat) : Qc := vsum (i1 - 1) (Z.of_nat (d1 m * (d2 m + 1))) 0 (elem m).
(** matrixnd.h:306-317 getColumn and 320-328 fillColumn of 4D matrices, 1-based *)
Definition getColumn4 (i2 i3 i4 : nat) (m : mat) : option (list Qc) :=
  if ((d2 m <? 2) && (d3 m <? 2) && (d4 m <? 2))%nat then Some (elem m)
  else if (d1 m =? 0)%nat then Some []
  else bind (ptr m (i2 - 1 + d2 m * ((i3 - 1) + d3 m * (i4 - 1)))) (fun p => memcpy (d1 m) p (elem m) 0 (repeat 0 (d1 m))).
Definition fillColumn4 (i2 i3 i4 : nat) (data : list Qc) (m : mat) : option mat :=
  let nd := if (length data <? d1 m)%nat then length data else d1 m in
  if (nd =? 0)%nat then Some m
  else bind (ptr m (i2 - 1 + d2 m * (i3 - 1) + d3 m * (i4 - 1))) (fun p => bind (memcpy nd 0 data p (elem m)) (fun v => Some (setElem m v))).
(** matrixnd.h:178-191 and 426-444 multiply(A,B,transA,addTo) of a matrix and a 3D matrix *)
Definition mulMat3 (A B : mat) (transA addTo : bool) (C : mat) : option (bool * mat) :=
  let M := if transA then d2 A else d1 A in
  let K := if transA then d1 A else d2 A in
  if negb (K =? d1 B)%nat then Some (false, C)
  else
    let C := if addTo then C else redim 2 M (d2 B) (d3 B) 1 true C in
    bind (forN (d1 C) (fun i v => forN (d2 C) (fun j v => forN K (fun k v => forN (d3 C) (fun l v =>
            bind (if transA then rd2 A k i else rd2 A i k) (fun a =>
            bind (rd (elem B) (pos3d B k j l)) (fun b =>
            bind (rd v (pos3d C i j l)) (fun x => wr (pos3d C i j l) (x + a * b) v)))) v) v) v) (elem C))
         (fun v => Some (true, setElem C v)).
(** matrixnd.h:446-461 multiplyMat(A,B,addTo), the matrix being given as a vector *)
Definition mulVec3 (A : list Qc) (B : mat) (addTo : bool) (C : mat) : option (bool * mat) :=
  let K := d1 B in
  let M := if (0 <? K)%nat then (length A / K)%nat else 0%nat in
  if negb ((M * K =? length A)%nat && negb (length A =? 0)%nat) then Some (false, C)
  else
    let C := if addTo then C else redim 2 M (d2 B) (d3 B) 1 true C in
    bind (forN (d1 C) (fun i v => forN (d2 C) (fun j v => forN K (fun k v => forN (d3 C) (fun l v =>
            bind (rd A (i + M * k)) (fun a =>
            bind (rd (elem B) (pos3d B k j l)) (fun b =>
            bind (rd v (pos3d C i j l)) (fun x => wr (pos3d C i j l) (x + a * b) v)))) v) v) v) (elem C))
         (fun v => Some (true, setElem C v)).
(** matrixnd.h:489-510 printing of a 4D matrix: for each block the two labels and its entries *)
Definition print4 (m : mat) : list (nat * nat * list Qc) :=
  map (fun kl => (S (fst kl), S (snd kl), firstn (d1 m * d2 m) (skipn ((fst kl * d4 m + snd kl) * (d1 m * d2 m)) (elem m))))
      (list_prod (seq 0 (d3 m)) (seq 0 (d4 m))).
