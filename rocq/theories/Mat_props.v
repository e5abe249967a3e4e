(** Properties C43 - C47: dense vectors and matrices. *)
From Coq Require Import List Arith ZArith QArith Qcanon Bool Lia.
From Verif Require Import Base QcLra Mat_model Mat_spec Mat_proofs Mat_proofs2 Mat_proofs3 Mat_proofs4 Mat_proofs5 Mat_proofs6 Mat_proofs7 Mat_proofs8.
Import ListNotations.
Local Open Scope Qc_scope.

(** a few literals for the examples *)
Definition q (z : Z) : Qc := Q2Qc (z # 1).
(** the 2 x 3 matrix [1 3 5; 2 4 6] and the 1 x 3 matrix [7 8 9] *)
Definition m23 : mat := mkMat 2 3 1 1 (map q [1; 2; 3; 4; 5; 6]%Z).
Definition m13 : mat := mkMat 1 3 1 1 (map q [7; 8; 9]%Z).
Definition ent (m : mat) (i j : nat) : Qc := nth (i + d1 m * j) (elem m) 0.
Lemma isMat_lit (r c : nat) l : length l = (r * c)%nat -> isMat r c (ent (mkMat r c 1 1 l)) (mkMat r c 1 1 l).
Proof. intros H. apply mkIsMat; auto. Qed.
Example m23_ok : isMat 2 3 (ent m23) m23. Proof. apply isMat_lit. reflexivity. Qed.
Example m13_ok : isMat 1 3 (ent m13) m13. Proof. apply isMat_lit. reflexivity. Qed.

(** ** C43 reshaping *)
(** resize with forceClear gives a zero matrix; without it, whole columns are kept when the number of rows is
    unchanged, everything is dropped when it changes, and when the total size does not change the content is kept as
    it is in memory *)
Theorem C43_resize r c r' c' f m : isMat r c f m ->
  isMat r' c' (fun _ _ => 0) (mresize r' c' true m) /\
  ((r' * c' <> r * c)%nat -> isMat r' c' (fun i j => if (r' =? r)%nat && (j <? c)%nat then f i j else 0) (mresize r' c' false m)) /\
  ((r' * c' = r * c)%nat -> d1 (mresize r' c' false m) = r' /\ d2 (mresize r' c' false m) = c' /\ elem (mresize r' c' false m) = elem m).
Proof.
  intros M. split; [exact (resize_force _ _ _ _ _ _ M)|]. split; [intros H; exact (resize_keep _ _ _ _ _ _ M H)|].
  intros H. destruct (resize_same _ _ _ _ _ _ M H) as (A & B & C & _). auto.
Qed.
Print Assumptions C43_resize.
Example C43_resize_ex : elem (mresize 2 4 false m23) = map q [1; 2; 3; 4; 5; 6; 0; 0]%Z /\ elem (mresize 3 4 false m23) = repeat 0 12 /\ elem (mresize 3 2 false m23) = map q [1; 2; 3; 4; 5; 6]%Z.
Proof. vm_compute. auto. Qed.

(** resizing a vector: the length is always the requested one; an unchanged size keeps the content unless clearing is
    forced, a changed size erases it unless it is to be retained *)
Theorem C43_vector_resize n v : 
  (forall clear retain, length (vresize n clear retain v) = n) /\
  (forall retain k, nth k (vresize (length v) true retain v) 0 = 0) /\
  (forall retain, vresize (length v) false retain v = v) /\
  (n <> length v -> forall clear k, nth k (vresize n clear false v) 0 = 0) /\
  (n <> length v -> forall clear k, nth k (vresize n clear true v) 0 = if (k <? n)%nat then nth k v 0 else 0).
Proof.
  assert (Z0 : forall m k, nth k (repeat (0:Qc) m) 0 = 0).
  { intros m; induction m as [|m IH]; intros [|k]; cbn; auto. }
  split; [intros; apply vresize_length|].
  split; [intros retain k; unfold vresize; rewrite Nat.eqb_refl; apply Z0|].
  split; [intros; unfold vresize; rewrite Nat.eqb_refl; reflexivity|].
  split; intros Hn clear k; unfold vresize; rewrite (proj2 (Nat.eqb_neq n (length v)) Hn).
  - unfold stdResize. rewrite firstn_nil. cbn [app]. apply Z0.
  - destruct (Nat.ltb_spec k n) as [L|L]; [apply stdResize_nth; auto|apply nth_overflow; rewrite stdResize_length; auto].
Qed.
Print Assumptions C43_vector_resize.
Example C43_vector_resize_ex : vresize 3 false false [q 7; q 8] = [0; 0; 0] /\ vresize 3 false true [q 7; q 8] = [q 7; q 8; 0]. Proof. split; reflexivity. Qed.

(** changing the number of rows keeps the entries of the remaining rows and adds zero rows, in place and without touching
    anything outside the storage *)
Theorem C43_expandRows r c f m r' : isMat r c f m -> (1 <= r)%nat -> (1 <= r')%nat -> (1 <= c)%nat ->
  exists m', expandRows (Z.of_nat r' - Z.of_nat r) false m = Some m' /\ expandRows (Z.of_nat r') true m = Some m' /\
    isMat r' c (fun i j => if (i <? r)%nat then f i j else 0) m'.
Proof.
  intros M Hr Hr' Hc. pose proof M as (A & B & _). assert (K : exists m', expandRows (Z.of_nat r' - Z.of_nat r) false m = Some m' /\ isMat r' c (fun i j => if (i <? r)%nat then f i j else 0) m').
  { destruct (Nat.lt_trichotomy r' r) as [L|[->|L]].
    - destruct (shrink_ok r c f m r' M ltac:(lia) Hc) as (m' & E1 & E2). exists m'. split; [auto|]. revert E2. apply isMat_ext. intros i j Hi Hj. destruct (Nat.ltb_spec i r); [reflexivity|lia].
    - rewrite Z.sub_diag. exists m. split; [apply expandRows_id; congruence|]. revert M. apply isMat_ext. intros i j Hi Hj. destruct (Nat.ltb_spec i r); [reflexivity|lia].
    - apply grow_ok; auto. }
  destruct K as (m' & E1 & E2). exists m'. split; [auto|]. split; [|auto]. rewrite expandRows_set, A. auto.
Qed.
Print Assumptions C43_expandRows.
Example C43_expandRows_ex : option_map elem (expandRows 2 false m23) = Some (map q [1; 2; 0; 0; 3; 4; 0; 0; 5; 6; 0; 0]%Z) /\ option_map elem (expandRows 1 true m23) = Some (map q [1; 3; 5]%Z).
Proof. vm_compute. auto. Qed.
(** removing all rows clears the matrix; but adding rows to a matrix with no rows and at least two columns never returns
    (matrix.h:523: the unsigned counter r is always >= 0), although a result exists *)
Theorem C43_expandRows_none_refuted : 
  (forall inc m, (Z.of_nat (d1 m) + inc < 1)%Z -> expandRows inc false m = Some mclear) /\
  ~ (forall r c f m inc, isMat r c f m -> (1 <= inc)%Z -> expandRows inc false m <> None).
Proof.
  split; [intros; apply expandRows_empty; auto|]. intros H. apply (H 0%nat 2%nat (fun _ _ => 0) (mkMat 0 2 1 1 []) 1%Z); [apply mkIsMat; auto; intros; lia|lia|].
  apply (expandRows_hang 1 2); [apply mkIsMat; auto; intros; lia|lia|lia].
Qed.
Print Assumptions C43_expandRows_none_refuted.

(** appending or prepending rows, and appending columns *)
Theorem C43_augment r c f m : isMat r c f m ->
  (forall s g B, isMat s c g B -> (1 <= c)%nat ->
    (exists m', augmentRows B false m = Some (true, m') /\ isMat (r + s) c (fun i j => if (i <? r)%nat then f i j else g (i - r)%nat j) m') /\
    (exists m', augmentRows B true m = Some (true, m') /\ isMat (r + s) c (fun i j => if (i <? s)%nat then g i j else f (i - s)%nat j) m')) /\
  (forall s g B, isMat r s g B -> (1 <= r)%nat ->
    exists m', augmentCols B m = (true, m') /\ isMat r (c + s) (fun i j => if (j <? c)%nat then f i j else g i (j - c)%nat) m') /\
  (forall s t g B, isMat s t g B -> (t <> c -> forall pre, augmentRows B pre m = Some (false, m)) /\ (s <> r -> augmentCols B m = (false, m))).
Proof.
  intros M. split; [|split].
  - intros s g B MB Hc. split; [exact (augmentRows_ok r s c f g m B false M MB Hc)|exact (augmentRows_ok r s c f g m B true M MB Hc)].
  - intros s g B MB Hr. destruct (augmentCols_ok r c s f g m B M MB Hr) as [E1 E2]. exists (snd (augmentCols B m)). split; [|auto]. destruct (augmentCols B m). cbn in E1. subst. reflexivity.
  - intros s t g B (B1 & B2 & _). pose proof M as (A1 & A2 & _). split; intros H.
    + intros pre. unfold augmentRows. rewrite B2, A2. destruct (Nat.eqb_spec t c); [contradiction|reflexivity].
    + unfold augmentCols. rewrite B1, A1. destruct (Nat.eqb_spec s r); [contradiction|reflexivity].
Qed.
Print Assumptions C43_augment.
Example C43_augment_ex : option_map (fun p => elem (snd p)) (augmentRows m13 true m23) = Some (map q [7; 1; 2; 8; 3; 4; 9; 5; 6]%Z) /\ option_map (fun p => elem (snd p)) (augmentRows m13 false m23) = Some (map q [1; 2; 7; 3; 4; 8; 5; 6; 9]%Z).
Proof. vm_compute. auto. Qed.

(** transposition, in place and when copying *)
Theorem C43_transpose r c f m : isMat r c f m ->
  (exists m', transpose m = Some m' /\ isMat c r (fun i j => f j i) m') /\ (exists m', copyTransposed m = Some m' /\ isMat c r (fun i j => f j i) m').
Proof. intros M. split; [exact (transpose_ok r c f m M)|exact (copyTransposed_ok r c f m M)]. Qed.
Print Assumptions C43_transpose.
Example C43_transpose_ex : option_map elem (transpose m23) = Some (map q [1; 3; 5; 2; 4; 6]%Z). Proof. reflexivity. Qed.

(** reading and replacing rows and columns; other entries are not changed *)
Theorem C43_lines r c f m : isMat r c f m ->
  (forall k, (1 <= k <= r)%nat -> exists v, getRow k m = Some v /\ isVec c (fun j => f (k - 1)%nat j) v) /\
  (forall k, (1 <= k <= c)%nat -> exists v, getColumn k m = Some v /\ isVec r (fun i => f i (k - 1)%nat) v) /\
  (forall k data, (1 <= k <= r)%nat -> (c <= length data)%nat ->
     exists m', fillRow k data m = Some m' /\ isMat r c (fun i j => if (i =? k - 1)%nat then nth j data 0 else f i j) m') /\
  (forall k data, (1 <= k <= c)%nat ->
     exists m', fillColumn k data m = Some m' /\ isMat r c (fun i j => if (j =? k - 1)%nat && (i <? length data)%nat then nth i data 0 else f i j) m') /\
  (forall k data o, (1 <= k <= c)%nat -> (o + r <= length data)%nat ->
     exists m', fillColumnPtr k data o m = Some m' /\ isMat r c (fun i j => if (j =? k - 1)%nat then nth (o + i) data 0 else f i j) m').
Proof.
  intros M. repeat split; intros.
  - exact (getRow_ok r c f m k M H).
  - exact (getColumn_ok r c f m k M H).
  - apply fillRow_ok; auto.
  - apply fillColumn_ok; auto.
  - apply fillColumnPtr_ok; auto.
Qed.
Print Assumptions C43_lines.
Example C43_lines_ex : getRow 2 m23 = Some (map q [2; 4; 6]%Z) /\ getColumn 3 m23 = Some (map q [5; 6]%Z) /\ option_map elem (fillRow 1 (map q [7; 8; 9]%Z) m23) = Some (map q [7; 2; 8; 4; 9; 6]%Z).
Proof. vm_compute. auto. Qed.

(** filling and adding a block, optionally transposed, at (r0,c0): the part of the block that falls outside the matrix is
    ignored, entries outside the block are not changed *)
Theorem C43_blocks r c s t f g m B r0 c0 (tr : bool) : isMat r c f m -> isMat s t g B -> (1 <= r0)%nat -> (1 <= c0)%nat ->
  let covered i j := (r0 <= i + 1 < r0 + (if tr then t else s) /\ c0 <= j + 1 < c0 + (if tr then s else t))%nat in
  let b i j := if tr then g (j + 1 - c0)%nat (i + 1 - r0)%nat else g (i + 1 - r0)%nat (j + 1 - c0)%nat in
  (exists m' h, fillBlock B r0 c0 tr m = Some m' /\ isMat r c h m' /\ forall i j, (covered i j -> h i j = b i j) /\ (~ covered i j -> h i j = f i j)) /\
  (forall a, exists m' h, addBlock B a r0 c0 tr m = Some m' /\ isMat r c h m' /\ forall i j, (covered i j -> h i j = f i j + a * b i j) /\ (~ covered i j -> h i j = f i j)).
Proof.
  intros M MB Hr Hc covered b.
  assert (In : forall i j, inBlock (r0 - 1) (c0 - 1) (if tr then t else s) (if tr then s else t) i j = true <-> covered i j).
  { intros i j. unfold inBlock, covered. rewrite !andb_true_iff, !Nat.leb_le, !Nat.ltb_lt. lia. }
  assert (Bv : forall i j, flip tr g (i - (r0 - 1)) (j - (c0 - 1)) = b i j).
  { intros i j. unfold flip, b. replace (i + 1 - r0)%nat with (i - (r0 - 1))%nat by lia. replace (j + 1 - c0)%nat with (j - (c0 - 1))%nat by lia. destruct tr; reflexivity. }
  split; [|intros a].
  - destruct (blockLoop_ok (fun _ x => x) r c s t f g m B r0 c0 tr M MB Hr Hc) as (m' & E1 & E2). exists m'. eexists. split; [exact E1|]. split; [exact E2|]. intros i j. cbv beta. rewrite Bv.
    destruct (inBlock _ _ _ _ i j) eqn:E0; [apply In in E0; tauto|]. split; [intros H; apply In in H; congruence|auto].
  - destruct (blockLoop_ok (fun x y => x + a * y) r c s t f g m B r0 c0 tr M MB Hr Hc) as (m' & E1 & E2). exists m'. eexists. split; [exact E1|]. split; [exact E2|]. intros i j. cbv beta. rewrite Bv.
    destruct (inBlock _ _ _ _ i j) eqn:E0; [apply In in E0; tauto|]. split; [intros H; apply In in H; congruence|auto].
Qed.
Print Assumptions C43_blocks.
(** extracting a block: entries of the block outside the matrix are not changed *)
Theorem C43_extractBlock r c s t f g m B r0 c0 (add tr : bool) : isMat r c f m -> isMat s t g B -> (1 <= r0)%nat -> (1 <= c0)%nat ->
  exists B', extractBlock B r0 c0 add tr m = Some B' /\
    isMat s t (fun a b => let i := (r0 - 1 + if tr then b else a)%nat in let j := (c0 - 1 + if tr then a else b)%nat in
       if (i <? r)%nat && (j <? c)%nat then (if add then g a b + f i j else f i j) else g a b) B'.
Proof. intros M MB Hr Hc. exact (extractBlock_ok r c s t f g m B r0 c0 add tr M MB Hr Hc). Qed.
Print Assumptions C43_extractBlock.
Example C43_blocks_ex : option_map elem (fillBlock m13 2 1 false m23) = Some (map q [1; 7; 3; 8; 5; 9]%Z) /\ option_map elem (addBlock m13 (q 2) 1 3 true m23) = Some (map q [1; 2; 3; 4; 19; 22]%Z) /\
  option_map elem (extractBlock m13 2 2 false false m23) = Some (map q [4; 6; 9]%Z).
Proof. vm_compute. auto. Qed.
(** filling from a vector: column by column, cutting or zero-padding the columns when the sizes differ *)
Theorem C43_fill_vector r c f A v n mm : isMat r c f A ->
  ((1 <= n <= length v)%nat -> let M := if (mm =? 0)%nat then (length v / n)%nat else mm in let K := (length v / M)%nat in
    exists A', mfill v n mm A = Some A' /\ isMat n M (fun i j => if (i <? K)%nat then nth (i + j * K) v 0 else 0) A') /\
  ((n = 0 \/ length v < n)%nat -> mfill v n mm A = Some A).
Proof. intros M. split; [exact (mfill_ok r c f A v n mm M)|exact (mfill_noop v n mm A)]. Qed.
Print Assumptions C43_fill_vector.
Example C43_fill_vector_ex : option_map elem (mfill (map q [1; 2; 3; 4; 5; 6]%Z) 2 2 m13) = Some (map q [1; 2; 4; 5]%Z) /\ option_map elem (mfill (map q [1; 2; 3; 4]%Z) 3 2 m13) = Some (map q [1; 2; 0; 3; 4; 0]%Z).
Proof. vm_compute. auto. Qed.
(** filling a vector from an array reads as many values as the larger of n and the vector length: right if the array has
    them, outside the array otherwise *)
Theorem C43_fill_array_refuted : (forall a n v, (Nat.max n (length v) <= length a)%nat -> vfill a n v = Some (firstn (Nat.max n (length v)) a)) /\
  ~ (forall a v, vfill a (length a) v <> None).
Proof. split; [exact vfill_ok|]. intros H. apply (H [q 1] [q 2; q 3]). reflexivity. Qed.
Print Assumptions C43_fill_array_refuted.
(** diagonal matrices, scaled columns, sums and symmetry *)
Theorem C43_diag r c f m : isMat r c f m ->
  (forall d dim, exists m', diagConst d dim m = Some m' /\ isMat (if (0 <? dim)%nat then dim else r) (if (0 <? dim)%nat then dim else c) (fun i j => if (i =? j)%nat then d else 0) m') /\
  (forall d, exists m', diagVec d m = Some m' /\ isMat (length d) (length d) (fun i j => if (i =? j)%nat then nth i d 0 else 0) m') /\
  (forall d, exists m', scaleCols d m = Some m' /\ isMat r c (fun i j => if (j <? length d)%nat then f i j * nth j d 0 else f i j) m').
Proof. intros M. split; [intros; exact (diagConst_ok r c f m d dim M)|]. split; [intros; exact (diagVec_ok r c f m d M)|intros; exact (scaleCols_ok r c f m d M)]. Qed.
Print Assumptions C43_diag.
Example C43_diag_ex : option_map elem (diagVec (map q [2; 3]%Z) m23) = Some (map q [2; 0; 0; 3]%Z) /\ option_map elem (scaleCols (map q [2; 3]%Z) m23) = Some (map q [2; 4; 9; 12; 5; 6]%Z). Proof. vm_compute. auto. Qed.
Theorem C43_sums r c f m : isMat r c f m ->
  (forall k, (1 <= k <= r)%nat -> rowsum k m = sumTo c (fun j => f (k - 1)%nat j)) /\ (forall k, (1 <= k <= c)%nat -> colsum k m = sumTo r (fun i => f i (k - 1)%nat)) /\
  ((c <= r + 1)%nat -> trace m = sumTo (Nat.min r c) (fun i => f i i)) /\
  (forall tol, isSymmetric tol m = true <-> r = c /\ forall i j, (j < i)%nat -> (i < r)%nat -> - tol <= f i j - f j i /\ f i j - f j i <= tol).
Proof. intros M. split; [intros; apply (rowsum_ok r c f); auto|]. split; [intros; apply (colsum_ok r c f); auto|]. split; [intros; apply (trace_ok r c f); auto|intros; apply (isSymmetric_ok r c f m tol M)]. Qed.
Print Assumptions C43_sums.
Example C43_sums_ex : rowsum 2 m23 = q 12 /\ colsum 3 m23 = q 11 /\ trace m23 = q 5 /\ isSymmetric 0 (mkMat 2 2 1 1 (map q [1; 5; 5; 2]%Z)) = true /\ isSymmetric 0 (mkMat 2 2 1 1 (map q [1; 5; 4; 2]%Z)) = false.
Proof. vm_compute. repeat split; reflexivity || (apply Qc_is_canon; reflexivity). Qed.
(** the trace of a matrix with two more columns than rows adds an entry that is not on the diagonal (matrix.h:782) *)
Theorem C43_trace_refuted : ~ (forall r c f m, isMat r c f m -> trace m = sumTo (Nat.min r c) (fun i => f i i)).
Proof. intros H. specialize (H 1%nat 3%nat _ m13 m13_ok). apply (f_equal this) in H. vm_compute in H. discriminate. Qed.
Print Assumptions C43_trace_refuted.

(** ** C44 determinant and inverse *)
Theorem C44_inverse n f m tol : isMat n n f m -> (1 <= n <= 3)%nat -> 0 <= tol -> (detOf n f < - tol \/ tol < detOf n f) -> detOf n f <> q (-999) ->
  fst (inverse tol m) = detOf n f /\ exists g, isMat n n g (snd (inverse tol m)) /\
    (forall i j, (i < n)%nat -> (j < n)%nat -> prodOf n f g i j = delta i j) /\ (forall i j, (i < n)%nat -> (j < n)%nat -> prodOf n g f i j = delta i j).
Proof. exact (inverse_ok n f m tol). Qed.
Print Assumptions C44_inverse.
(** within the tolerance of zero the matrix is reported singular and not changed *)
Theorem C44_singular n f m tol : isMat n n f m -> (1 <= n <= 3)%nat -> - tol <= detOf n f -> detOf n f <= tol -> detOf n f <> q (-999) -> inverse tol m = (0, m).
Proof.
  intros M Hn H1 H2 H9. unfold inverse. rewrite (det_ok _ _ _ M Hn). destruct (Qc_eq_dec (detOf n f) (Q2Qc (-999 # 1))) as [E9|_]; [contradiction|].
  apply qleb_true in H1, H2. rewrite H1, H2. reflexivity.
Qed.
Print Assumptions C44_singular.
Theorem C44_det n f m : isMat n n f m -> (1 <= n <= 3)%nat -> det m = detOf n f.
Proof. exact (det_ok n f m). Qed.
Print Assumptions C44_det.
Definition m33 : mat := mkMat 3 3 1 1 (map q [2; 0; 1; 1; 3; 0; 0; 1; 4]%Z).
Example C44_ex : isMat 3 3 (ent m33) m33 /\ detOf 3 (ent m33) = q 25 /\ fst (inverse 0 m33) = q 25.
Proof. split; [apply isMat_lit; reflexivity|]. split; apply Qc_is_canon; vm_compute; reflexivity. Qed.
(** a regular matrix whose determinant is -999 is returned unchanged, as is said for sizes that are not supported *)
Definition m999 : mat := mkMat 2 2 1 1 (map q [-27; 0; 0; 37]%Z).
Theorem C44_minus_999_refuted : ~ (forall n f m, isMat n n f m -> (1 <= n <= 3)%nat -> detOf n f <> 0 ->
  exists g, isMat n n g (snd (inverse 0 m)) /\ forall i j, (i < n)%nat -> (j < n)%nat -> prodOf n f g i j = delta i j).
Proof.
  intros H. destruct (H 2%nat (ent m999) m999) as (g & G & P); [apply isMat_lit; reflexivity|lia|intros E0; apply (f_equal this) in E0; vm_compute in E0; discriminate|].
  assert (Ei : snd (inverse 0 m999) = m999) by reflexivity. rewrite Ei in G. destruct G as (_ & _ & _ & _ & G). specialize (P 0%nat 0%nat ltac:(lia) ltac:(lia)).
  unfold prodOf, sumTo, qs in P. cbn [seq fold_right] in P. rewrite <- !G in P by lia. apply (f_equal this) in P. vm_compute in P. discriminate.
Qed.
Print Assumptions C44_minus_999_refuted.
(** a matrix with more rows than columns is accepted: the determinant of its upper square part is returned as if it were
    its own, and the result is not an inverse *)
Theorem C44_not_square_refuted : exists m, d1 m <> d2 m /\ det m = q 2 /\ fst (inverse 0 m) = q 2 /\ elem (snd (inverse 0 m)) = [Q2Qc (1 # 2); q 5] /\ d1 (snd (inverse 0 m)) = 2%nat.
Proof. exists (mkMat 2 1 1 1 (map q [2; 5]%Z)). split; [discriminate|]. repeat split; try (apply Qc_is_canon; reflexivity); reflexivity || (vm_compute; reflexivity). Qed.
Print Assumptions C44_not_square_refuted.

(** ** C45 products *)
(** matrix-vector product, with the transpose, added, subtracted or assigned *)
Theorem C45_mulVec r c f A X Y (tr : bool) (add : Z) : isMat r c f A ->
  ((1 <= r)%nat -> (1 <= c)%nat -> length X = (if tr then r else c) -> (add = 0%Z \/ Y = [] \/ length Y = (if tr then c else r)) ->
   exists Y', mulVec A X Y tr add = Some (true, Y') /\ isVec (if tr then c else r)
     (fun i => (if (add =? 0)%Z then 0 else nth i Y 0) + (if (add <? 0)%Z then - (1) else 1) * sumTo (if tr then r else c) (fun j => (if tr then f j i else f i j) * nth j X 0)) Y') /\
  ((r = 0 \/ c = 0 \/ length X <> (if tr then r else c))%nat -> mulVec A X Y tr add = Some (false, Y)).
Proof.
  intros M. split; [|exact (mulVec_reject r c f A X Y tr add M)]. intros Hr Hc HX HY. destruct (mulVec_ok r c f A X Y tr add M Hr Hc HX HY) as (Y' & E1 & E2 & E3). exists Y'. split; [auto|]. split; [auto|].
  intros i Hi. rewrite E3 by auto. do 2 f_equal. apply sumTo_ext. intros j Hj. unfold flip. destruct tr; reflexivity.
Qed.
Print Assumptions C45_mulVec.
Example C45_mulVec_ex : mulVec m23 (map q [1; 0; 2]%Z) (map q [100; 200]%Z) false (-1) = Some (true, map q [89; 186]%Z). Proof. vm_compute. reflexivity. Qed.
(** matrix-matrix product alpha A B (either transposed), assigned or added; incompatible sizes give the empty matrix *)
Theorem C45_mulMat ra ca f A rb cb g B (ta tb addTo : bool) alpha r c h C : isMat ra ca f A -> isMat rb cb g B -> isMat r c h C ->
  ((if ta then ra else ca) = (if tb then cb else rb) -> (addTo = false \/ (r = (if ta then ca else ra) /\ c = (if tb then rb else cb)) \/ (r * c = 0)%nat) ->
   exists C', mulMat A B ta tb addTo alpha C = Some C' /\
    isMat (if ta then ca else ra) (if tb then rb else cb)
      (fun i j => (if addTo && negb (r * c =? 0)%nat then h i j else 0) +
                  alpha * sumTo (if ta then ra else ca) (fun l => (if ta then f l i else f i l) * (if tb then g j l else g l j))) C') /\
  ((if ta then ra else ca) <> (if tb then cb else rb) -> mulMat A B ta tb addTo alpha C = Some mclear).
Proof.
  intros MA MB MC. split; [|exact (mulMat_reject ra ca f A rb cb g B ta tb addTo alpha C MA MB)]. intros HK HC. destruct (mulMat_ok ra ca f A rb cb g B ta tb addTo alpha r c h C MA MB MC HK HC) as (C' & E1 & E2).
  exists C'. split; [auto|]. revert E2. apply isMat_ext. intros i j Hi Hj. do 2 f_equal. unfold prodOf. apply sumTo_ext. intros. unfold flip. destruct ta, tb; reflexivity.
Qed.
Print Assumptions C45_mulMat.
Example C45_mulMat_ex : option_map elem (mulMat m13 m23 false true false (q 2) mclear) = Some (map q [152; 200]%Z) /\ option_map elem (mulMat m23 m13 false true true 1 (mkMat 2 1 1 1 (map q [1; 1]%Z))) = Some (map q [77; 101]%Z).
Proof. vm_compute. auto. Qed.
(** one of the factors given as a vector, stored column by column *)
Theorem C45_mulMat_vector r c h C (t addTo : bool) :
  isMat r c h C ->
  (forall ra ca f A B N, isMat ra ca f A -> length B = (N * if t then ra else ca)%nat -> length B <> 0%nat -> (addTo = false \/ (r = (if t then ca else ra) /\ c = N) \/ (r * c = 0)%nat) ->
    exists C', mulMatVec A B t addTo C = Some (true, C') /\ isMat (if t then ca else ra) N
      (fun i j => (if addTo && negb (r * c =? 0)%nat then h i j else 0) + sumTo (if t then ra else ca) (fun l => flip t f i l * nth (l + (if t then ra else ca) * j) B 0)) C') /\
  (forall rb cb g B A M, isMat rb cb g B -> length A = (M * if t then cb else rb)%nat -> length A <> 0%nat -> (addTo = false \/ (r = M /\ c = (if t then rb else cb)) \/ (r * c = 0)%nat) ->
    exists C', mulVecMat A B t addTo C = Some (true, C') /\ isMat M (if t then rb else cb)
      (fun i j => (if addTo && negb (r * c =? 0)%nat then h i j else 0) + sumTo (if t then cb else rb) (fun l => nth (i + M * l) A 0 * flip t g l j)) C').
Proof.
  intros MC. split; intros.
  - exact (mulMatVec_ok ra ca f A B t addTo N r c h C H MC H0 H1 H2).
  - exact (mulVecMat_ok A rb cb g B t addTo M r c h C H MC H0 H1 H2).
Qed.
Print Assumptions C45_mulMat_vector.
Theorem C45_outer X Y (addTo : bool) alpha r c h A : isMat r c h A ->
  ((addTo = false \/ (r = length X /\ c = length Y)) -> exists A', outerProduct X Y addTo alpha A = Some (true, A') /\
     isMat (length X) (length Y) (fun i j => (if addTo then h i j else 0) + alpha * nth i X 0 * nth j Y 0) A') /\
  (addTo = true -> (r <> length X \/ c <> length Y) -> outerProduct X Y addTo alpha A = Some (false, A)).
Proof.
  intros M. split; [exact (outerProduct_ok X Y addTo alpha r c h A M)|]. intros -> H. unfold outerProduct. pose proof M as (A1 & A2 & _). rewrite A1, A2. cbn [andb].
  destruct (Nat.eqb_spec (length X) r); [|reflexivity]. destruct (Nat.eqb_spec (length Y) c); [|reflexivity]. destruct H; congruence.
Qed.
Print Assumptions C45_outer.
Example C45_outer_ex : option_map (fun p => elem (snd p)) (outerProduct (map q [1; 2]%Z) (map q [3; 4; 5]%Z) true (q 10) m23) = Some (map q [31; 62; 43; 84; 55; 106]%Z). Proof. vm_compute. reflexivity. Qed.
Theorem C45_add_scale r c f g A m alfa : isMat r c f A -> isMat r c g m ->
  isMat r c (fun i j => g i j + alfa * f i j) (madd A alfa m) /\ isMat r c (fun i j => g i j * alfa) (mscale alfa m).
Proof. intros MA M. split; [exact (madd_ok r c f A g m alfa MA M)|exact (mscale_ok r c g m alfa M)]. Qed.
Print Assumptions C45_add_scale.
(** adding a product to a matrix of another size is not checked: it can leave the storage *)
Theorem C45_addTo_size_refuted : ~ (forall ra ca f A cb g B r c h C, isMat ra ca f A -> isMat ca cb g B -> isMat r c h C -> mulMat A B false false true 1 C <> None).
Proof.
  intros H. eapply (H 2%nat 3%nat _ m23 2%nat _ (mkMat 3 2 1 1 (map q [1; 2; 3; 4; 5; 6]%Z)) 1%nat 1%nat _ (mkMat 1 1 1 1 [q 5])); [exact m23_ok|apply isMat_lit; reflexivity|apply isMat_lit; reflexivity|].
  vm_compute. reflexivity.
Qed.
Print Assumptions C45_addTo_size_refuted.

(** ** C46 three and four dimensions *)
Theorem C46_columns3 n1 n2 n3 f m i2 i3 : isMat3 n1 n2 n3 f m -> (1 <= i2 <= n2)%nat -> (1 <= i3 <= n3)%nat ->
  (exists v, getColumn3 i2 i3 m = Some v /\ isVec n1 (fun i => f i (i2 - 1)%nat (i3 - 1)%nat) v) /\
  (forall data, exists m', fillColumn3 i2 i3 data m = Some m' /\
    isMat3 n1 n2 n3 (fun i j k => if (j =? i2 - 1)%nat && (k =? i3 - 1)%nat && (i <? length data)%nat then nth i data 0 else f i j k) m').
Proof. intros M H2 H3. split; [exact (getColumn3_ok n1 n2 n3 f m i2 i3 M H2 H3)|intros; exact (fillColumn3_ok n1 n2 n3 f m i2 i3 data M H2 H3)]. Qed.
Print Assumptions C46_columns3.
(** sub-matrix trace: right for square sub-matrices *)
Theorem C46_trace3 n1 n f m i1 : isMat3 n1 n n f m -> (1 <= i1 <= n1)%nat -> trace3 i1 m = sumTo n (fun i => f (i1 - 1)%nat i i).
Proof. intros M H. rewrite (trace3_ok n1 n n f m i1 M H) by lia. rewrite Nat.min_id. reflexivity. Qed.
Print Assumptions C46_trace3.
Theorem C46_product3 (addTo : bool) r c d h C k1 n2 n3 g B : isMat3 k1 n2 n3 g B -> isMat3 r c d h C ->
  (forall ra ca f A (ta : bool), isMat ra ca f A -> (if ta then ra else ca) = k1 -> (addTo = false \/ (r = (if ta then ca else ra) /\ c = n2 /\ d = n3)) ->
    exists C', mulMat3 A B ta addTo C = Some (true, C') /\
      isMat3 (if ta then ca else ra) n2 n3 (fun i j l => (if addTo then h i j l else 0) + sumTo k1 (fun k => (if ta then f k i else f i k) * g k j l)) C') /\
  (forall A M, length A = (M * k1)%nat -> length A <> 0%nat -> (addTo = false \/ (r = M /\ c = n2 /\ d = n3)) ->
    exists C', mulVec3 A B addTo C = Some (true, C') /\
      isMat3 M n2 n3 (fun i j l => (if addTo then h i j l else 0) + sumTo k1 (fun k => nth (i + M * k) A 0 * g k j l)) C').
Proof.
  intros MB MC. split; intros.
  - destruct (mulMat3_ok ra ca f A k1 n2 n3 g B ta addTo r c d h C H MB MC H0 H1) as (C' & E1 & E2). exists C'. split; [auto|]. revert E2. apply isMat3_ext. intros. do 2 f_equal. unfold flip. destruct ta; reflexivity.
  - exact (mulVec3_ok A k1 n2 n3 g B addTo M r c d h C MB MC H H0 H1).
Qed.
Print Assumptions C46_product3.
Definition m222 : mat := mkMat 2 2 2 1 (map q [1; 2; 3; 4; 5; 6; 7; 8]%Z).
Example C46_3d_ex : isMat3 2 2 2 (fun i j k => nth (i + 2 * (j + 2 * k)) (elem m222) 0) m222 /\ getColumn3 2 1 m222 = Some (map q [3; 4]%Z) /\ trace3 2 m222 = q 10 /\
  option_map (fun p => elem (snd p)) (mulMat3 (mkMat 2 2 1 1 (map q [1; 2; 3; 4]%Z)) m222 true false mclear) = Some (map q [5; 11; 11; 25; 17; 39; 23; 53]%Z).
Proof. split; [repeat split; auto|]. split; [reflexivity|]. split; [apply Qc_is_canon; reflexivity|vm_compute; reflexivity]. Qed.
(** columns of four-dimensional matrices: reading is right *)
Theorem C46_getColumn4 n1 n2 n3 n4 f m i2 i3 i4 : isMat4 n1 n2 n3 n4 f m -> (1 <= i2 <= n2)%nat -> (1 <= i3 <= n3)%nat -> (1 <= i4 <= n4)%nat ->
  exists v, getColumn4 i2 i3 i4 m = Some v /\ isVec n1 (fun i => f i (i2 - 1)%nat (i3 - 1)%nat (i4 - 1)%nat) v.
Proof. exact (getColumn4_ok n1 n2 n3 n4 f m i2 i3 i4). Qed.
Print Assumptions C46_getColumn4.
(** writing is right when the last index is 1 or the second dimension is 1, and wrong otherwise (matrixnd.h:326) *)
Theorem C46_fillColumn4_partial n1 n2 n3 n4 f m i2 i3 i4 data : isMat4 n1 n2 n3 n4 f m -> (1 <= i2 <= n2)%nat -> (1 <= i3 <= n3)%nat -> (1 <= i4 <= n4)%nat -> (i4 = 1 \/ n2 = 1)%nat ->
  exists m', fillColumn4 i2 i3 i4 data m = Some m' /\
    isMat4 n1 n2 n3 n4 (fun i j k l => if (j =? i2 - 1)%nat && (k =? i3 - 1)%nat && (l =? i4 - 1)%nat && (i <? length data)%nat then nth i data 0 else f i j k l) m'.
Proof. exact (fillColumn4_ok n1 n2 n3 n4 f m i2 i3 i4 data). Qed.
Print Assumptions C46_fillColumn4_partial.
Definition m1222 : mat := mkMat 1 2 2 2 (map q [1; 2; 3; 4; 5; 6; 7; 8]%Z).
Example m1222_ok : isMat4 1 2 2 2 (fun i j k l => nth (i + 1 * (j + 2 * (k + 2 * l))) (elem m1222) 0) m1222. Proof. repeat split; auto. Qed.
Theorem C46_fillColumn4_refuted : ~ (forall n1 n2 n3 n4 f m i2 i3 i4 data, isMat4 n1 n2 n3 n4 f m -> (1 <= i2 <= n2)%nat -> (1 <= i3 <= n3)%nat -> (1 <= i4 <= n4)%nat -> length data = n1 ->
  exists m', fillColumn4 i2 i3 i4 data m = Some m' /\ getColumn4 i2 i3 i4 m' = Some data).
Proof.
  intros H. destruct (H 1%nat 2%nat 2%nat 2%nat _ m1222 1%nat 1%nat 2%nat [q 9] m1222_ok ltac:(lia) ltac:(lia) ltac:(lia) eq_refl) as (m' & E1 & E2).
  vm_compute in E1. inversion E1; subst m'. vm_compute in E2. discriminate.
Qed.
Print Assumptions C46_fillColumn4_refuted.
(** printing: the block labelled i3=k, i4=l is not the block (k,l) (matrixnd.h:499-500) *)
Theorem C46_print4_refuted : exists k l b, In (S k, S l, b) (print4 m1222) /\ b <> map (fun j => nth (0 + 1 * (j + 2 * (k + 2 * l))) (elem m1222) 0) (seq 0 2).
Proof. exists 0%nat, 1%nat, (map q [3; 4]%Z). split; [vm_compute; auto|]. intros H. vm_compute in H. discriminate. Qed.
Print Assumptions C46_print4_refuted.

(** ** C47 vector kernels (built-in versions) *)
(** Y += a X with offsets and strides *)
Theorem C47_add X a ox sx oy sy Y : (0 <= sx)%Z -> (1 <= sy)%Z -> Y <> [] ->
  let Y' := vadd X a ox sx oy sy Y in
  length Y' = length Y /\
  (forall k, (oy + k * Z.to_nat sy < length Y)%nat -> nth (oy + k * Z.to_nat sy) Y' 0 =
     nth (oy + k * Z.to_nat sy) Y 0 + (if (ox + k * Z.to_nat sx <? length X)%nat then a * nth (ox + k * Z.to_nat sx) X 0 else 0)) /\
  (forall p, (forall k, (oy + k * Z.to_nat sy <> p)%nat) -> nth p Y' 0 = nth p Y 0).
Proof. exact (vadd_nonempty X a ox sx oy sy Y). Qed.
Print Assumptions C47_add.
Theorem C47_add_sum X a ox sx oy Y n : (1 <= sx)%nat -> (oy < length Y)%nat -> (forall j, (j < n)%nat -> (ox + sx * j < length X)%nat) -> (length X <= ox + sx * n)%nat ->
  vadd X a ox (Z.of_nat sx) oy 0 Y = upd oy (nth oy Y 0 + a * sumTo n (fun j => nth (ox + sx * j) X 0)) Y.
Proof. exact (vadd_acc X a ox sx oy Y n). Qed.
Print Assumptions C47_add_sum.
Theorem C47_add_to_empty X a ox oy : (ox <= length X)%nat ->
  isVec (oy + (length X - ox))%nat (fun p => if (p <? oy)%nat then 0 else a * nth (ox + (p - oy)) X 0) (vadd X a ox 1 oy 1 []).
Proof. exact (vadd_empty X a ox oy). Qed.
Print Assumptions C47_add_to_empty.
Example C47_add_ex : vadd (map q [1; 2; 3; 4]%Z) (q 10) 1 2 0 3 (map q [1; 1; 1; 1; 1]%Z) = map q [21; 1; 1; 41; 1]%Z. Proof. vm_compute. reflexivity. Qed.
(** adding every second element to an empty vector loses the last one (matrix.h:1633: the size is rounded down) *)
Theorem C47_add_to_empty_strided_refuted : ~ (forall X sx k, (1 <= sx)%nat -> (sx * k < length X)%nat -> nth k (vadd X 1 0 (Z.of_nat sx) 0 1 []) 0 = nth (sx * k) X 0).
Proof. intros H. specialize (H (map q [1; 2; 3]%Z) 2%nat 1%nat ltac:(lia) ltac:(cbn; lia)). apply (f_equal this) in H. vm_compute in H. discriminate. Qed.
Print Assumptions C47_add_to_empty_strided_refuted.
Theorem C47_relax a X Y n f g : isVec n f X -> isVec n g Y -> isVec n (fun i => a * g i + (1 - a) * f i) (vrelax a X Y).
Proof. exact (vrelax_ok a X Y n f g). Qed.
Print Assumptions C47_relax.
Theorem C47_sums n off inc v : (1 <= inc)%nat -> (off < length v)%nat -> (forall j, (j < n)%nat -> (off + inc * j < length v)%nat) -> (length v <= off + inc * n)%nat ->
  vsum off (Z.of_nat inc) 0 v = sumTo n (fun j => nth (off + inc * j) v 0) /\
  vasum off (Z.of_nat inc) v = sumTo n (fun j => let x := nth (off + inc * j) v 0 in if qltb x 0 then - x else x).
Proof.
  intros Hi Ho Hlt Hge. split; [|exact (vasum_ok n off inc v Hi Ho Hlt Hge)]. apply vsum_strided; cbn [Nat.eqb orb]; auto.
  - intros E0. rewrite E0 in Ho. cbn in Ho. lia.
  - destruct n as [|n]; [lia|]. specialize (Hlt n ltac:(lia)). nia.
Qed.
Print Assumptions C47_sums.
Theorem C47_dot n fuel o1 i1 o2 i2 v w : (n <= fuel)%nat -> (forall k, (k < n)%nat -> (o1 + i1 * k < length v)%nat /\ (o2 + i2 * k < length w)%nat) -> (length v <= o1 + i1 * n \/ length w <= o2 + i2 * n)%nat ->
  vdot fuel o1 i1 o2 i2 v w = sumTo n (fun k => nth (o1 + i1 * k) v 0 * nth (o2 + i2 * k) w 0).
Proof. exact (vdot_ok n fuel o1 i1 o2 i2 v w). Qed.
Print Assumptions C47_dot.
(** the largest absolute value, its sign and where it is *)
Theorem C47_normInf off inc (sign : bool) v : (1 <= inc)%nat -> (off < length v)%nat ->
  let '(x, o) := vnormInf off (Z.of_nat inc) sign v in
  exists xm, x = (if sign then xm else if qltb xm 0 then - xm else xm) /\
    (forall k, (off + inc * k < length v)%nat -> qabs (nth (off + inc * k) v 0) <= qabs xm) /\
    ((xm = 0 /\ o = off) \/ exists k, (off + inc * k < length v)%nat /\ xm = nth (off + inc * k) v 0 /\ o = (1 + (off + inc * k) / inc)%nat).
Proof. exact (vnormInf_ok off inc sign v). Qed.
Print Assumptions C47_normInf.
Example C47_normInf_ex : vnormInf 1 2 true (map q [9; 1; 9; -4; 9; 3]%Z) = (q (-4), 2%nat) /\ vasum 1 2 (map q [9; 1; 9; -4; 9; 3]%Z) = q 8 /\ vdot 9 0 2 1 1 (map q [1; 2; 3; 4]%Z) (map q [5; 6; 7]%Z) = q 27.
Proof. vm_compute. repeat split; f_equal; apply Qc_is_canon; reflexivity. Qed.
(** the BLAS versions of dot, norm2 and asum use the same elements when the stride divides the length and the offset is less
    than the stride, or the stride is 1 *)
Theorem C47_blas_partial len off inc k : (1 <= inc)%nat -> (len = inc * k)%nat -> (off < inc)%nat \/ inc = 1%nat -> (off <= len)%nat ->
  blasIdx (blasCount len off inc) off inc = strided len off inc len.
Proof. exact (blas_same len off inc k). Qed.
Print Assumptions C47_blas_partial.
Example C47_blas_ex : blasIdx (blasCount 6 1 3) 1 3 = [1; 4]%nat /\ strided 6 1 3 6 = [1; 4]%nat. Proof. vm_compute. auto. Qed.
(** otherwise they differ from the built-in versions, or read past the end of the vector *)
Theorem C47_blas_refuted :
  blasIdx (blasCount 4 0 3) 0 3 <> strided 4 0 3 4 /\
  (exists len off inc i, (1 <= inc)%nat /\ (off < len)%nat /\ In i (blasIdx (blasCount len off inc) off inc) /\ (len <= i)%nat) /\
  (exists len off i, (off < len)%nat /\ In i (blasNormInfIdx len off 1) /\ (len <= i)%nat).
Proof.
  split; [discriminate|]. split.
  - exists 4%nat, 3%nat, 2%nat, 5%nat. vm_compute. repeat split; auto; lia.
  - exists 3%nat, 1%nat, 3%nat. vm_compute. repeat split; auto; lia.
Qed.
Print Assumptions C47_blas_refuted.
