(** Model of src/LinAlg/SparseMatrix.C (storage, editing, compression, product, dump,
    splitting) and of the equation flags of src/LinAlg/SystemMatrix.C.

    The std::map [elem] is a list sorted on the (row, column) keys, indices are 1-based
    as in the code.  [None] as the result of an [option spm] is undefined behaviour
    (access outside an array).  Reals are exact rationals. *)
From Coq Require Import List Arith ZArith QArith Qcanon Bool Lia.
From Verif Require Import Base SAM_model.
Import ListNotations.
Local Open Scope nat_scope.

Notation key := (nat * nat)%type.
Definition keq (a b : key) : bool := (fst a =? fst b) && (snd a =? snd b).
(** std::pair's operator<, the order of [ValueMap] (SparseMatrix.h:23-24) *)
Definition klt (a b : key) : bool := (fst a <? fst b) || ((fst a =? fst b) && (snd a <? snd b)).
Notation vmap := (list (nat * nat * Qc)).


(** [elem[k] = f(elem[k])] of std::map: a missing entry starts as zero *)
Fixpoint mput (k : key) (f : Qc -> Qc) (m : vmap) : vmap :=
  match m with
  | [] => [(k, f 0%Qc)]
  | (k', v) :: r => if keq k k' then (k', f v) :: r
                    else if klt k k' then (k, f 0%Qc) :: m else (k', v) :: mput k f r
  end.
(** [elem.find(k)] *)
Fixpoint mget (k : key) (m : vmap) : option Qc :=
  match m with [] => None | (k', v) :: r => if keq k k' then Some v else mget k r end.

(** SparseMatrix.h:49 *)
Inductive solverT := SNone | SuperLU | SAMG | UMFPack.
(** [editable]: 'P', 'V' and 0 *)
Inductive stT := EdP | EdV | Compr.

(** SparseMatrix.h:285-310 and SystemMatrix.h:387; the SuperLU/UMFPACK handles,
    [factored] and the number of threads are left out *)
Record spm := mkM {
  st : stT; nrow : nat; ncol : nat; elem : vmap; slv : solverT;
  IA : list nat; JA : list nat; A : list Qc; nz : list bool }.

Definition colFmt (s : solverT) : bool := match s with SuperLU | UMFPack => true | _ => false end.
Definition editable (M : spm) : bool := match st M with Compr => false | _ => true end.

Definition setElem (M : spm) (e : vmap) : spm :=
  mkM (st M) (nrow M) (ncol M) e (slv M) (IA M) (JA M) (A M) (nz M).
Definition setA (M : spm) (a : list Qc) : spm :=
  mkM (st M) (nrow M) (ncol M) (elem M) (slv M) (IA M) (JA M) a (nz M).
Definition setNz (M : spm) (z : list bool) : spm :=
  mkM (st M) (nrow M) (ncol M) (elem M) (slv M) (IA M) (JA M) (A M) z.
Definition setSt (M : spm) (s : stT) : spm :=
  mkM s (nrow M) (ncol M) (elem M) (slv M) (IA M) (JA M) (A M) (nz M).

(** SparseMatrix.C:141-162 (constructors), SystemMatrix.h:231 *)
Definition create (m n : nat) (s : solverT) : spm :=
  mkM EdP m (if n =? 0 then m else n) [] s [] [] [] [false].

(** SparseMatrix.C:196-201 lockPattern *)
Definition lockPattern (doLock : bool) (M : spm) : spm :=
  match st M with Compr => M | _ => setSt M (if doLock then EdV else EdP) end.

(** SparseMatrix.C:204-234 resize *)
Definition resize (r c : nat) (force : bool) (M : spm) : spm :=
  let c := if c =? 0 then r else c in
  if (r =? nrow M) && (c =? ncol M) && negb force then
    setA (setElem M (map (fun e => (fst e, 0%Qc)) (elem M))) (map (fun _ => 0%Qc) (A M))
  else mkM EdP r c [] (slv M) [] [] [] (nz M).

(** SparseMatrix.C:237-253 redim: result flag and matrix *)
Definition redim (r c : nat) (M : spm) : bool * spm :=
  match st M with
  | EdP =>
    let n := if 0 <? c then c else r in
    (true, mkM EdP r n
             (filter (fun e => negb ((r <? fst (fst e)) || (n <? snd (fst e)))) (elem M))
             (slv M) (IA M) (JA M) (A M) (nz M))
  | _ => (false, M)
  end.

(** iterator range [begin+b, begin+e) of an array: [None] if it is not inside *)
Definition slice {X} (b e : nat) (l : list X) : option (list X) :=
  if (b <=? e) && (e <=? length l) then Some (firstn (e - b) (skipn b l)) else None.
(** std::find: position in the list *)
Fixpoint findN (x : nat) (l : list nat) : option nat :=
  match l with [] => None | y :: r => if x =? y then Some 0 else option_map S (findN x r) end.

(** position in A of entry (r,c) of a compressed matrix, SparseMatrix.C:279-293 and
    318-332: [None] = undefined, [Some None] = no such entry *)
Definition position (M : spm) (r c : nat) : option (option nat) :=
  if colFmt (slv M) then
    match nth_error (IA M) (c-1), nth_error (IA M) c with
    | Some b, Some e =>
      match slice b e (JA M) with
      | Some l => match findN (r-1) l with
                  | Some k => if b + k <? length (A M) then Some (Some (b + k)) else None
                  | None => Some None
                  end
      | None => None
      end
    | _, _ => None
    end
  else
    match nth_error (IA M) (r-1), nth_error (IA M) r with
    | Some (S b), Some (S e) =>
      match slice b e (JA M) with
      | Some l => match findN c l with
                  | Some k => if b + k <? length (A M) then Some (Some (b + k)) else None
                  | None => Some None
                  end
      | None => None
      end
    | _, _ => None
    end.

Definition inRange (M : spm) (r c : nat) : bool :=
  negb ((r <? 1) || (nrow M <? r) || (c <? 1) || (ncol M <? c)).

(** SparseMatrix.C:310-338 operator() const *)
Definition get (M : spm) (r c : nat) : option Qc :=
  if negb (inRange M r c) then Some 0%Qc
  else if editable M then Some (match mget (r,c) (elem M) with Some v => v | None => 0%Qc end)
  else match position M r c with
       | None => None
       | Some None => Some 0%Qc
       | Some (Some k) => Some (nth k (A M) 0%Qc)
       end.

(** SparseMatrix.C:267-307 operator(): the statement [M(r,c) = f(M(r,c))]; the flag is
    false if the code hands out its dummy variable [anyValue] (M is not changed) *)
Definition update (M : spm) (r c : nat) (f : Qc -> Qc) : option (bool * spm) :=
  if negb (inRange M r c) then Some (false, M)
  else match st M with
       | EdP => Some (true, setElem M (mput (r,c) f (elem M)))
       | EdV => match mget (r,c) (elem M) with
                | Some _ => Some (true, setElem M (mput (r,c) f (elem M)))
                | None => Some (false, M)
                end
       | Compr => match position M r c with
                  | None => None
                  | Some None => Some (false, M)
                  | Some (Some k) => Some (true, setA M (upd k (f (nth k (A M) 0%Qc)) (A M)))
                  end
       end.
Definition addTo (M : spm) (r c : nat) (v : Qc) : option (bool * spm) := update M r c (fun x => (x + v)%Qc).
Definition setTo (M : spm) (r c : nat) (v : Qc) : option (bool * spm) := update M r c (fun _ => v).
(** a sequence of [M(r,c) += v]; the flag tells if all entries existed *)
Fixpoint addAll (l : list (nat * nat * Qc)) (M : spm) : option (bool * spm) :=
  match l with
  | [] => Some (true, M)
  | (r, c, v) :: q =>
    match addTo M r c v with
    | None => None
    | Some (b, M') => match addAll q M' with
                      | None => None
                      | Some (b', M'') => Some (b && b', M'')
                      end
    end
  end.

(** SparseMatrix.C:460-480 augment *)
Definition augment (B : spm) (r0 c0 : nat) (M : spm) : bool * spm :=
  match st M with
  | EdP =>
    if editable B then
      let n1 := if nrow M <? r0 + nrow B then r0 + nrow B else nrow M in
      let m1 := if ncol M <? r0 + nrow B then r0 + nrow B else ncol M in
      let m2 := if m1 <? c0 + ncol B then c0 + ncol B else m1 in
      let n2 := if n1 <? c0 + ncol B then c0 + ncol B else n1 in
      (true, mkM EdP n2 m2
        (fold_left (fun m e =>
           mput (c0 + snd (fst e), r0 + fst (fst e)) (fun x => (x + snd e)%Qc)
             (mput (r0 + fst (fst e), c0 + snd (fst e)) (fun x => (x + snd e)%Qc) m)) (elem B) (elem M))
        (slv M) (IA M) (JA M) (A M) (nz M))
    else (false, M)
  | _ => (false, M)
  end.

Definition qlt (a b : Qc) : bool := match Qccompare a b with Lt => true | _ => false end.
Definition qle (a b : Qc) : bool := match Qccompare a b with Gt => false | _ => true end.

(** SparseMatrix.C:487-493: the largest absolute diagonal value *)
Definition diagMax (m : vmap) : Qc :=
  fold_left (fun tol e => if fst (fst e) =? snd (fst e) then
                            if qlt tol (snd e) then snd e
                            else if qlt (snd e) (- tol)%Qc then (- snd e)%Qc else tol
                          else tol) m 0%Qc.
(** SparseMatrix.C:483-512 truncate *)
Definition truncate (thr : Qc) (M : spm) : bool * spm :=
  let tol := (diagMax (elem M) * thr)%Qc in
  let keep := fun e : key * Qc => qle (snd e) (- tol)%Qc || qle tol (snd e) in
  match st M with
  | Compr => (false, M)
  | EdP => (true, setElem M (filter keep (elem M)))
  | EdV => (true, setElem M (map (fun e => if keep e then e else (fst e, 0%Qc)) (elem M)))
  end.

(** SparseMatrix.C:515-522 mult *)
Definition mult (alpha : Qc) (M : spm) : spm :=
  if editable M then setElem M (map (fun e => (fst e, (snd e * alpha)%Qc)) (elem M))
  else setA M (map (fun v => (v * alpha)%Qc) (A M)).

(** SystemMatrix.C:184-196 flagNonZeroEq *)
Definition flagEq (ieq : Z) (z : list bool) : bool * list bool :=
  if length z =? 1 then (true, [true])
  else if (ieq =? 0)%Z then (true, map (fun _ => true) z)
  else if (ieq <? 0)%Z || (Z.of_nat (length z) <? ieq)%Z then (false, z)
  else (true, upd (Z.to_nat ieq - 1) true z).
(** SystemMatrix.C:199-221 flagNonZeroEqs(sam, meq): result flag and flags; [None]: the
    equation of a master DOF is outside the flag vector *)
Fixpoint flagMasters (eqs : list (Z * Qc)) (z : list bool) : option (list bool) :=
  match eqs with
  | [] => Some z
  | (e, _) :: r => if (1 <=? e)%Z && (e <=? Z.of_nat (length z))%Z
                   then flagMasters r (upd (Z.to_nat e - 1) true z) else None
  end.
Fixpoint flagLoop (s : tables) (meq : list Z) (z : list bool) : option (bool * list bool) :=
  match meq with
  | [] => Some (true, z)
  | ieq :: r =>
    if (Z.of_nat (length z) <? ieq)%Z then Some (false, z)
    else if (ieq <? 0)%Z then
      match flagMasters (masters s (ceqno ieq)) z with Some z' => flagLoop s r z' | None => None end
    else if (0 <? ieq)%Z then flagLoop s r (upd (Z.to_nat ieq - 1) true z)
    else flagLoop s r z
  end.
Definition flagEqs (s : tables) (meq : list Z) (z : list bool) : option (bool * list bool) :=
  if length z =? 1 then Some (true, [true]) else flagLoop s meq z.
(** SystemMatrix.C:224-238 flagNonZeroEqs(B) *)
Fixpoint orFlags (z b : list bool) : list bool :=
  match z, b with
  | x :: z', y :: b' => (x || y) :: orFlags z' b'
  | _, _ => z
  end.
Definition flagFrom (b z : list bool) : list bool := if length z =? 1 then [true] else orFlags z b.
(** SystemMatrix.C:241-248 isZero *)
Definition isZero (M : spm) : bool := (0 <? nrow M) && negb (existsb (fun b => b) (nz M)).
(** SystemMatrix.C:177-181 initNonZeroEqs *)
Definition initFlags (M : spm) : spm := setNz M (repeat false (nrow M)).

(** the entries visited by the loops over a compressed matrix, with bounds check:
    column format (e.g. SparseMatrix.C:373-376, 548-550), row format (382-385, 553-555) *)
Fixpoint colLoop (ia : list nat) (ja : list nat) (a : list Qc) (j : nat) : option vmap :=
  match ia with
  | b :: ((e :: _) as r) =>
    match colLoop r ja a (S j) with
    | None => None
    | Some rest =>
      if (e <=? b) then Some rest
      else if (e <=? length ja) && (e <=? length a) then
        Some (map (fun i => ((nth i ja 0 + 1, j), nth i a 0%Qc)) (seq b (e - b)) ++ rest)
      else None
    end
  | _ => Some []
  end.
Fixpoint rowLoop (ia : list nat) (ja : list nat) (a : list Qc) (i : nat) : option vmap :=
  match ia with
  | b :: ((e :: _) as r) =>
    match rowLoop r ja a (S i) with
    | None => None
    | Some rest =>
      if (e <=? b) then Some rest
      else if (1 <=? b) && (e - 1 <=? length ja) && (e - 1 <=? length a) then
        Some (map (fun j => ((i, nth (j-1) ja 0), nth (j-1) a 0%Qc)) (seq b (e - b)) ++ rest)
      else None
    end
  | _ => Some []
  end.
(** [for (j = 1; j <= n; j++)] over the pointers [IA[j-1]], [IA[j]] *)
Definition colEnts (n : nat) (M : spm) : option vmap :=
  if length (IA M) <? S n then None else colLoop (firstn (S n) (IA M)) (JA M) (A M) 1.
Definition rowEnts (n : nat) (M : spm) : option vmap :=
  if length (IA M) <? S n then None else rowLoop (firstn (S n) (IA M)) (JA M) (A M) 1.

Fixpoint listNatEqb (a b : list nat) : bool :=
  match a, b with
  | [], [] => true
  | x :: a', y :: b' => (x =? y) && listNatEqb a' b'
  | _, _ => false
  end.
Definition addEnts (alpha : Qc) (l : vmap) (m : vmap) : vmap :=
  fold_left (fun m e => mput (fst e) (fun x => (x + alpha * snd e)%Qc) m) l m.
(** SparseMatrix.C:525-562 add(B, alpha) *)
Definition add (B : spm) (alpha : Qc) (M : spm) : option (bool * spm) :=
  if isZero B then Some (true, M)
  else if (nrow M <? nrow B) || (ncol M <? ncol B) then Some (false, M)
  else match st M, editable B with
       | EdP, true => Some (true, setNz (setElem M (addEnts alpha (elem B) (elem M))) (flagFrom (nz B) (nz M)))
       | Compr, false =>
         if (length (A M) =? length (A B)) && listNatEqb (IA M) (IA B) && listNatEqb (JA M) (JA B) then
           Some (true, setNz (setA M (map (fun p => (fst p + alpha * snd p)%Qc) (combine (A M) (A B))))
                             (flagFrom (nz B) (nz M)))
         else Some (false, M)
       | EdP, false =>
         match (if colFmt (slv M) then colEnts (ncol B) B else rowEnts (nrow B) B) with
         | None => None
         | Some l => Some (true, setNz (setElem M (addEnts alpha l (elem M))) (flagFrom (nz B) (nz M)))
         end
       | _, _ => Some (false, M)
       end.

(** SparseMatrix.C:565-575 add(sigma, ieq) *)
Definition addSigma (sigma : Qc) (ieq : Z) (M : spm) : option (bool * spm) :=
  if (Z.of_nat (nrow M) <? ieq)%Z then Some (false, M)
  else
    match (if (0 <? ieq)%Z then addTo M (Z.to_nat ieq) (Z.to_nat ieq) sigma
           else addAll (map (fun i => (i, i, sigma)) (seq 1 (Nat.min (nrow M) (ncol M)))) M) with
    | None => None
    | Some (_, M') => let '(ok, z) := flagEq ieq (nz M') in Some (ok, setNz M' z)
    end.

(** SystemMatrix.C:257-265 endAssembly (SparseMatrix overrides only add) *)
Fixpoint endLoop (sigma : Qc) (eqs : list nat) (M : spm) : option (bool * spm) :=
  match eqs with
  | [] => Some (true, M)
  | ieq :: r =>
    if nth (ieq - 1) (nz M) false then endLoop sigma r M
    else match addSigma sigma (Z.of_nat ieq) M with
         | None => None
         | Some (false, M') => Some (false, M')
         | Some (true, M') => endLoop sigma r M'
         end
  end.
Definition endAssembly (sigma : Qc) (M : spm) : option (bool * spm) :=
  if (1 <? length (nz M)) && negb (isZero M) then endLoop sigma (seq 1 (length (nz M))) M
  else Some (true, M).

(** SparseMatrix.C:578-606 multiply: [x] the vector B; result flag and C.
    [None]: undefined.  The compressed column format is only used for SUPERLU. *)
Definition accum (l : vmap) (x : list Qc) (y : list Qc) : option (list Qc) :=
  fold_left (fun acc e =>
     match acc with
     | None => None
     | Some y => if (1 <=? fst (fst e)) && (fst (fst e) <=? length y)
                    && (1 <=? snd (fst e)) && (snd (fst e) <=? length x)
                 then Some (upd (fst (fst e) - 1) (nth (fst (fst e) - 1) y 0 + snd e * nth (snd (fst e) - 1) x 0)%Qc y)
                 else None
     end) l (Some y).
Definition multiply (M : spm) (x : list Qc) : option (bool * list Qc) :=
  let y := repeat 0%Qc (nrow M) in
  if length x <? ncol M then Some (false, y)
  else
    match (if editable M then Some (elem M)
           else match slv M with
                | SuperLU => colEnts (ncol M) M
                | _ => rowEnts (nrow M) M
                end) with
    | None => None
    | Some l => match accum l x y with None => None | Some y' => Some (true, y') end
    end.

(** ** Compression *)

Definition vresize {X} (n : nat) (d : X) (l : list X) : list X := firstn n l ++ repeat d (n - length l).

(** SparseMatrix.C:897-904: the row pointers; [ks] are the keys, [ix] the index *)
Fixpoint rowPtr (ks : list key) (cur ix : nat) (ia : list nat) : list nat :=
  match ks with
  | [] => ia
  | (r, _) :: q =>
    rowPtr q (Nat.max cur r) (S ix) (fold_left (fun a k => upd k (ix+1) a) (seq cur (r - cur)) ia)
  end.
(** std::swap of two array entries *)
Definition swapAt {X} (d : X) (i j : nat) (l : list X) : list X := upd j (nth i l d) (upd i (nth j l d) l).
(** SparseMatrix.C:910-925: diagonal term first in each row *)
Definition diagFirst (ia : list nat) (p : list nat * list Qc) (r : nat) : list nat * list Qc :=
  let '(ja, a) := p in
  let rs := nth r ia 0 - 1 in
  let re := nth (r+1) ia 0 - 1 in
  match findN (1 + r) (firstn (re - rs) (skipn rs ja)) with
  | Some (S k) => (swapAt 0 rs (rs + S k) ja, swapAt 0%Qc rs (rs + S k) a)
  | _ => (ja, a)
  end.
(** SparseMatrix.C:876-928 optimiseRows; [None]: write outside IA *)
Definition optimiseRows (transposed : bool) (M : spm) : option (bool * spm) :=
  if negb (editable M) then Some (false, M) else
  let l := if transposed
           then fold_left (fun t e => mput (snd (fst e), fst (fst e)) (fun _ => snd e) t) (elem M) []
           else elem M in
  let nr := if transposed then ncol M else nrow M in
  let nc := if transposed then nrow M else ncol M in
  let nnz := length (elem M) in
  if existsb (fun e => nr + 1 <? fst (fst e)) l then None else
  let ia := rowPtr (map fst l) 1 0 (upd 0 1 (vresize (nr+1) (nnz+1) (IA M))) in
  let '(ja, a) := fold_left (diagFirst ia) (seq 0 nr) (map (fun e => snd (fst e)) l, map snd l) in
  Some (true, mkM Compr nr nc [] (slv M) ia ja a (nz M)).

(** SparseMatrix.C:945-950, 990-1000: count the entries of each column;
    the flag is false if an entry is out of range (the loop stops there) *)
Fixpoint countCols (nr nc : nat) (l : vmap) (ia : list nat) : bool * list nat :=
  match l with
  | [] => (true, ia)
  | ((r, c), _) :: q =>
    if (r <=? nr) && (c <=? nc) then countCols nr nc q (upd (c-1) (S (nth (c-1) ia 0)) ia)
    else (false, ia)
  end.
(** SparseMatrix.C:952-958, 1002-1007: counts to start pointers.  [js] = 1..ncol-1 *)
Fixpoint prefixCols (js : list nat) (k jsize : nat) (ia : list nat) : list nat :=
  match js with
  | [] => ia
  | j :: r => prefixCols r (k + jsize) (nth j ia 0) (upd j (k + jsize) ia)
  end.
(** SparseMatrix.C:960-966, 1009-1013: place the entries, advancing the pointers *)
Fixpoint placeCols (l : vmap) (ia : list nat) (ja : list nat) (a : list Qc) : list nat * list nat * list Qc :=
  match l with
  | [] => (ia, ja, a)
  | ((r, c), v) :: q =>
    let k := nth (c-1) ia 0 in
    placeCols q (upd (c-1) (S k) ia) (upd k (r-1) ja) (upd k v a)
  end.
(** SparseMatrix.C:968-971, 1015-1018: [IA[j] = IA[j-1]] downwards, [IA[0] = 0] *)
Definition shiftCols (ncol : nat) (ia : list nat) : list nat :=
  upd 0 0 (fold_left (fun a j => upd j (nth (j-1) a 0) a) (rev (seq 1 ncol)) ia).
Definition compressCols (nr nc : nat) (l : vmap) (ia : list nat) : option (list nat * list nat * list Qc) :=
  let '(ok, ia1) := countCols nr nc l (vresize (nc+1) 0 ia) in
  if negb ok then None else
  let ia2 := prefixCols (seq 1 (nc-1)) 0 (nth 0 ia1 0) (upd 0 0 ia1) in
  let '(ia3, ja, a) := placeCols l ia2 (repeat 0 (length l)) (repeat 0%Qc (length l)) in
  Some (shiftCols nc ia3, ja, a).
(** SparseMatrix.C:936-977 optimiseCols.  A failed call leaves partly counted
    pointers behind; this is not tracked (the flag is false, M is returned). *)
Definition optimiseCols (M : spm) : bool * spm :=
  if negb (editable M) then (false, M) else
  match compressCols (nrow M) (ncol M) (elem M) (IA M) with
  | None => (false, M)
  | Some (ia, ja, a) => (true, mkM Compr (nrow M) (ncol M) [] (slv M) ia ja a (nz M))
  end.
(** SparseMatrix.C:984-1021 optimiseCols(dofc): [dofc] is the set of columns of each row *)
Definition pattern (dofc : list (list nat)) : vmap :=
  flat_map (fun p => map (fun k => ((fst p + 1, k), 0%Qc)) (snd p)) (combine (seq 0 (length dofc)) dofc).
Definition optimiseColsP (dofc : list (list nat)) (M : spm) : bool * spm :=
  if negb (editable M) then (false, M) else
  match compressCols (nrow M) (ncol M) (pattern dofc) (IA M) with
  | None => (false, M)
  | Some (ia, ja, a) => (true, mkM Compr (nrow M) (ncol M) (elem M) (slv M) ia ja a (nz M))
  end.
(** SparseMatrix.C:789-795 compressPattern *)
Definition compressPattern (M : spm) : option spm :=
  match slv M with
  | SuperLU | UMFPack => Some (snd (optimiseCols M))
  | SAMG => option_map snd (optimiseRows false M)
  | SNone => Some M
  end.

(** std::set<int>::insert into a sorted list without duplicates *)
Fixpoint sinsert (x : nat) (l : list nat) : list nat :=
  match l with
  | [] => [x]
  | y :: r => if x =? y then l else if x <? y then x :: l else y :: sinsert x r
  end.
(** SAM.C:373-428: the sets filled from the coupling pairs (row, column), 1-based *)
Definition dofSets (n : nat) (ps : list (Z * Z)) : list (list nat) :=
  fold_left (fun d p => upd (Z.to_nat (fst p) - 1) (sinsert (Z.to_nat (snd p)) (nth (Z.to_nat (fst p) - 1) d [])) d)
            ps (repeat [] n).

(** SparseMatrix.C:731-762 preAssemble(sam, delayLocking) *)
Definition preAssemble (s : tables) (delay : bool) (M : spm) : option spm :=
  match st M with
  | EdP =>
    let dofc := dofSets (neq s) (dofCouplings s) in
    if delay then
      match fold_left (fun acc e => match acc with
                                    | None => None
                                    | Some M => option_map snd (setTo M (fst (fst e)) (snd (fst e)) 0%Qc)
                                    end) (pattern dofc) (Some M) with
      | None => None
      | Some M' => Some (setSt M' EdV)
      end
    else
      let M' := setSt M EdV in
      match slv M with
      | SuperLU | UMFPack => Some (snd (optimiseColsP dofc M'))
      | SAMG => option_map snd (optimiseRows false M')
      | SNone => Some M'
      end
  | _ => Some M
  end.
(** SparseMatrix.C:717-728 initAssembly: [mode] None: no pre-assembly, otherwise
    preAssemble with the given flag (the OpenMP branch calls it in the same way) *)
Definition initAssembly (s : tables) (mode : option bool) (M : spm) : option spm :=
  let M1 := resize (neq s) (neq s) false M in
  match mode with None => Some M1 | Some d => preAssemble s d M1 end.

(** SparseMatrix.C:817-830 (and 804-814) assemble(eM, sam, B, e) with the equation
    list [meen]: matrix part; result flag and matrix *)
Definition toN (l : list (Z * Z * Qc)) : list (nat * nat * Qc) :=
  map (fun u => (Z.to_nat (fst (fst u)), Z.to_nat (snd (fst u)), snd u)) l.
Definition assembleElm (s : tables) (K : emat) (meen : list Z) (M : spm) : option (bool * spm) :=
  match addAll (toN (fst (assemSparse s K meen))) M with
  | None => None
  | Some (_, M') => match flagEqs s meen (nz M') with
                    | None => None
                    | Some (ok, z) => Some (ok, setNz M' z)
                    end
  end.
Fixpoint assembleElms (s : tables) (l : list (emat * list Z)) (M : spm) : option spm :=
  match l with
  | [] => Some M
  | (K, meen) :: r => match assembleElm s K meen M with
                      | Some (_, M') => assembleElms s r M'
                      | None => None
                      end
  end.

(** One assembly round of a system with one matrix: SparseMatrix.C:798-801 (init) and
    SystemMatrix.C:177-181 called from AlgEqSystem.C:183-192 (initialize; [flags] tells
    if initLHS = 2), the element loop, and endAssembly (AlgEqSystem.C:302). *)
Definition round (s : tables) (flags : bool) (els : list (emat * list Z)) (sigma : Qc) (M : spm) : option (bool * spm) :=
  let M1 := resize (nrow M) (ncol M) false M in
  match assembleElms s els (if flags then initFlags M1 else M1) with
  | None => None
  | Some M2 => endAssembly sigma M2
  end.

(** ** Output, splitting *)

(** SparseMatrix.C:363-386 dump (formats MATLAB and MATRIX_MARKET): the (row, column,
    value) triplets written, [None] is undefined ([JA.front()] of an empty array) *)
Definition dump (M : spm) : option vmap :=
  if editable M then Some (elem M)
  else if colFmt (slv M) then
    match JA M, A M, colEnts (ncol M) M with
    | j0 :: _, a0 :: _, Some _ =>
      Some (((j0 + 1, 1), a0) ::
            flat_map (fun j => flat_map (fun i => if (1 <? j) || negb (i =? nth 0 (IA M) 0)
                                                  then [((nth i (JA M) 0 + 1, j), nth i (A M) 0%Qc)] else [])
                                 (seq (nth (j-1) (IA M) 0) (nth j (IA M) 0 - nth (j-1) (IA M) 0)))
                     (seq 1 (ncol M)))
    | _, _, _ => None
    end
  else
    match JA M, A M, rowEnts (nrow M) M with
    | j0 :: _, a0 :: _, Some _ =>
      Some (((1, j0), a0) ::
            flat_map (fun i => flat_map (fun j => if (1 <? i) || negb (j =? nth 0 (IA M) 0)
                                                  then [((i, nth (j-1) (JA M) 0), nth (i-1) (A M) 0%Qc)] else [])
                                 (seq (nth (i-1) (IA M) 0) (nth i (IA M) 0 - nth (i-1) (IA M) 0)))
                     (seq 1 (nrow M)))
    | _, _, _ => None
    end.

(** SparseMatrix.C:1427-1441 calcCSR: row pointers and column indices (0-based) *)
Fixpoint csrPtr (ks : list key) (cur ix : nat) (ia : list nat) : list nat :=
  match ks with
  | [] => ia
  | (r, _) :: q =>
    csrPtr q (Nat.max cur r) (S ix) (fold_left (fun a k => upd k ix a) (seq cur (r - cur)) ia)
  end.
Definition calcCSR (M : spm) : list nat * list nat :=
  (csrPtr (map fst (elem M)) 1 0 (upd 0 0 (repeat (length (elem M)) (nrow M + 1))),
   map (fun e => snd (fst e) - 1) (elem M)).

(** SparseMatrix.C:1405-1424 Linfnorm; [None]: no rows (dereference of end()) or index
    out of range *)
Definition qabs (x : Qc) : Qc := if qlt x 0%Qc then (- x)%Qc else x.
Definition rowSums (l : vmap) (y : list Qc) : option (list Qc) :=
  fold_left (fun acc e => match acc with
     | None => None
     | Some y => if (1 <=? fst (fst e)) && (fst (fst e) <=? length y)
                 then Some (upd (fst (fst e) - 1) (nth (fst (fst e) - 1) y 0 + qabs (snd e))%Qc y) else None
     end) l (Some y).
(** std::max_element: first of the largest *)
Fixpoint maxElm (l : list Qc) (best : Qc) : Qc :=
  match l with [] => best | x :: r => maxElm r (if qlt best x then x else best) end.
Definition Linfnorm (M : spm) : option Qc :=
  match (if editable M then Some (elem M)
         else if colFmt (slv M) then colEnts (ncol M) M else rowEnts (nrow M) M) with
  | None => None
  | Some l => match rowSums l (repeat 0%Qc (nrow M)) with
              | Some (x :: r) => Some (maxElm r x)
              | _ => None
              end
  end.

(** SparseMatrix.C:1466-1476: equation map, positive for block 1, negative for block 2 *)
Fixpoint eqnMap (eqs : list nat) (meqn2 : list Z) (i1 i2 : Z) : list Z :=
  match eqs with
  | [] => []
  | ieq :: r =>
    match meqn2 with
    | m :: q => if (Z.of_nat ieq + 1 <? m)%Z then (i1 + 1)%Z :: eqnMap r meqn2 (i1 + 1) i2
                else (- (i2 + 1))%Z :: eqnMap r q i1 (i2 + 1)
    | [] => (i1 + 1)%Z :: eqnMap r [] (i1 + 1) i2
    end
  end.
(** SparseMatrix.C:1479-1491: one entry goes to one of the four sub-matrices *)
Definition splitOne (em : list Z) (e : key * Qc) (Sm : spm * spm * spm * spm) : option (spm * spm * spm * spm) :=
  let '(S0, S1, S2, S3) := Sm in
  match nth_error em (fst (fst e) - 1), nth_error em (snd (fst e) - 1) with
  | Some e1, Some e2 =>
    if (0 <? e1)%Z && (0 <? e2)%Z then
      option_map (fun p => (snd p, S1, S2, S3)) (setTo S0 (Z.to_nat e1) (Z.to_nat e2) (snd e))
    else if (0 <? e2)%Z then
      option_map (fun p => (S0, snd p, S2, S3)) (setTo S1 (Z.to_nat (- e1)) (Z.to_nat e2) (snd e))
    else if (0 <? e1)%Z then
      option_map (fun p => (S0, S1, snd p, S3)) (setTo S2 (Z.to_nat e1) (Z.to_nat (- e2)) (snd e))
    else
      option_map (fun p => (S0, S1, S2, snd p)) (setTo S3 (Z.to_nat (- e1)) (Z.to_nat (- e2)) (snd e))
  | _, _ => None
  end.
Fixpoint splitLoop (em : list Z) (l : vmap) (Sm : spm * spm * spm * spm) : option (spm * spm * spm * spm) :=
  match l with
  | [] => Some Sm
  | e :: r => match splitOne em e Sm with None => None | Some Sm' => splitLoop em r Sm' end
  end.
(** SparseMatrix.C:1444-1497 split; the sub-matrices passed in are newly constructed
    (AlgEqSystem.C:386, TestSparseMatrix.C:64): outer None undefined, inner None = false *)
Definition split (M : spm) (meqn2 : list Z) : option (option (spm * spm * spm * spm)) :=
  let n2 := length meqn2 in
  if match elem M with [] => true | _ => false end || negb (nrow M =? ncol M) then Some None
  else if (n2 <? 1) || (nrow M <=? n2) then Some None
  else
    let n1 := nrow M - n2 in
    match splitLoop (eqnMap (seq 0 (nrow M)) meqn2 0 0) (elem M)
            (resize n1 n1 false (create 0 0 (slv M)), resize n2 n1 false (create 0 0 SNone),
             resize n1 n2 false (create 0 0 SNone), resize n2 n2 false (create 0 0 SNone)) with
    | None => None
    | Some Sm => Some (Some Sm)
    end.

(** SparseMatrix.C:1500-1512 getColumn: flag and column *)
Definition getColumn (M : spm) (c : nat) : bool * list Qc :=
  let z := repeat 0%Qc (nrow M) in
  if match elem M with [] => true | _ => false end || (c <? 1) || (ncol M <? c) then (false, z)
  else (true, fold_left (fun y e => if snd (fst e) =? c then upd (fst (fst e) - 1) (snd e) y else y) (elem M) z).
