(** Model of the Lagrange basis functions: src/ASM/Lagrange.C and
    src/Utility/LagrangeInterpolator.C.  Exact real arithmetic (Coq's Reals) is
    used in place of double; a division by zero yields [None] (C++: an infinity
    or NaN), and [None] is contagious. *)
From Coq Require Import List Arith Lia ZArith Reals.
Import ListNotations.
Open Scope bool_scope.
Open Scope R_scope.

(** a double: [None] = not a finite number *)
Definition fl := option R.
Definition fadd (a b : fl) : fl := match a, b with Some x, Some y => Some (x + y) | _, _ => None end.
Definition fsub (a b : fl) : fl := match a, b with Some x, Some y => Some (x - y) | _, _ => None end.
Definition fmul (a b : fl) : fl := match a, b with Some x, Some y => Some (x * y) | _, _ => None end.
Definition fdiv (a b : fl) : fl :=
  match a, b with
  | Some x, Some y => if Req_EM_T y 0 then None else Some (x / y)
  | _, _ => None
  end.
(** C++ [<] on doubles: false as soon as an operand is a NaN.  (The only
    non-finite operands met below are the points 0.0/0.0 of Lagrange.C:88-90.) *)
Definition fltb (a b : fl) : bool :=
  match a, b with Some x, Some y => if Rlt_dec x y then true else false | _, _ => false end.

(** Lagrange.C:60-74, value branch: the loop over [j] *)
Definition lag_val (pts : list fl) (k : nat) (xi : R) : fl :=
  fold_left (fun r j => if (j =? k)%nat then r
                        else fmul r (fdiv (fsub (Some xi) (nth j pts None))
                                          (fsub (nth k pts None) (nth j pts None))))
            (seq 0 (length pts)) (Some 1).

(** Lagrange.C:66-69, the inner loop over [i] *)
Definition lag_prod (pts : list fl) (k j : nat) (xi : R) : fl :=
  fold_left (fun r i => if (i =? k)%nat || (i =? j)%nat then r
                        else fmul r (fdiv (fsub (Some xi) (nth i pts None))
                                          (fsub (nth k pts None) (nth i pts None))))
            (seq 0 (length pts)) (Some 1).

(** Lagrange.C:60-74, derivative branch *)
Definition lag_der (pts : list fl) (k : nat) (xi : R) : fl :=
  fold_left (fun r j => if (j =? k)%nat then r
                        else fadd r (fdiv (lag_prod pts k j xi)
                                          (fsub (nth k pts None) (nth j pts None))))
            (seq 0 (length pts)) (Some 0).

(** Lagrange.C:36-77 Lagrange1D::eval; [None] is the return value false *)
Definition lag_eval (pts : list fl) (polnum : Z) (xi : R) (deriv : bool) : option fl :=
  if ((polnum <? 0) || (Z.of_nat (length pts) <=? polnum))%Z then None          (* :42-48 *)
  else if deriv && (fltb (Some xi) (hd None pts) || fltb (last pts None) (Some xi)) then None (* :51-57 *)
  else let k := Z.to_nat polnum in
       Some (if deriv then lag_der pts k xi else lag_val pts k xi).

(** the nested loops over k, j, i of Lagrange.C:149-152 and 182-189, in the order in which [count] runs *)
Definition tens {A} (n1 n2 n3 : nat) (f : nat -> nat -> nat -> A) : list A :=
  flat_map (fun k => flat_map (fun j => map (fun i => f i j k) (seq 0 n1)) (seq 0 n2)) (seq 0 n3).

(** A Matrix: dimensions and entries by 1-based (row,column); entries of a matrix that was
    resized and not written afterwards are left unspecified: outer [None] (simplification of
    utl::matrix::resize, modelled in full in Mat_model.v) *)
Record dmat := mkDmat { drows : nat; dcols : nat; delem : nat -> nat -> option fl }.

(** Lagrange.C:133-143 and 162-172: a loop over the polynomials of one direction *)
Fixpoint all_eval (pts : list fl) (x : R) (deriv : bool) (ks : list nat) : option (list fl) :=
  match ks with
  | [] => Some []
  | k :: ks' => match lag_eval pts (Z.of_nat k) x deriv with
                | None => None
                | Some v => match all_eval pts x deriv ks' with None => None | Some l => Some (v :: l) end
                end
  end.

(** Lagrange.C:120-122 *)
Definition n_of (pts : list fl) : nat := if (0 <? length pts)%nat then length pts else 1%nat.

(** Lagrange.C:130-143: [tempval]: initialised with 1.0 and overwritten by the evaluation *)
Definition tempval (pts : list fl) (x : R) : option (list fl) :=
  match all_eval pts x false (seq 0 (length pts)) with
  | None => None
  | Some l => Some (l ++ repeat (Some 1) (n_of pts - length pts))
  end.

(** Lagrange.C:160-172: [tempder] *)
Definition tempder (pts : list fl) (x : R) : option (list fl) := all_eval pts x true (seq 0 (length pts)).

(** Lagrange.C:145-152: the values, [tv]s read at in-range indices *)
Definition set_val (val : list fl) (nen : nat) (new : list fl) : list fl := new ++ skipn nen val.

Definition prod3 (a b c : list fl) (i j k : nat) : fl :=
  fmul (fmul (nth i a None) (nth j b None)) (nth k c None).

(** Lagrange.C:175-190: one column of [deriv]: written only if the direction has points *)
Definition set_col (d : nat) (active : bool) (col : list fl) (e : nat -> nat -> option fl) (r c : nat) : option fl :=
  if active && (c =? d)%nat && (1 <=? r)%nat && (r <=? length col)%nat then Some (nth (r - 1) col None) else e r c.

(** Lagrange.C:109-192 Lagrange::computeBasis with given interpolation points: (return value, val, derval) *)
Definition compute_basis (val : list fl) (derval : option dmat)
  (p1 : list fl) (x1 : R) (p2 : list fl) (x2 : R) (p3 : list fl) (x3 : R) : bool * list fl * option dmat :=
  let n1 := n_of p1 in let n2 := n_of p2 in let n3 := n_of p3 in
  match tempval p1 x1, tempval p2 x2, tempval p3 x3 with
  | Some t1, Some t2, Some t3 =>
    let nen := (n1 * n2 * n3)%nat in
    let val := set_val val nen (tens n1 n2 n3 (prod3 t1 t2 t3)) in
    match derval with
    | None => (true, val, None)
    | Some D =>
      match tempder p1 x1, tempder p2 x2, tempder p3 x3 with
      | Some d1, Some d2, Some d3 =>
        let ndim := if (0 <? length p3)%nat then 3%nat else if (0 <? length p2)%nat then 2%nat else 1%nat in
        let D := if ((drows D <? nen) || (dcols D <? ndim))%nat
                 then mkDmat nen ndim (fun _ _ => None) else D in
        let e1 := set_col 1 (0 <? length p1)%nat (tens n1 n2 n3 (prod3 d1 t2 t3)) (delem D) in
        let e2 := set_col 2 (0 <? length p2)%nat (tens n1 n2 n3 (prod3 t1 d2 t3)) e1 in
        let e3 := set_col 3 (0 <? length p3)%nat (tens n1 n2 n3 (prod3 t1 t2 d3)) e2 in
        (true, val, Some (mkDmat (drows D) (dcols D) e3))
      | _, _, _ => (false, val, Some D)
      end
    end
  | _, _, _ => (false, val, derval)
  end.

(** Lagrange.C:87-90 and 102-104: equidistant interpolation points, -1.0 + (i+i)/double(p-1) *)
Definition equi (p : nat) : list fl :=
  map (fun i => fadd (Some (-1)) (fdiv (Some (INR (i + i))) (Some (INR p - 1)))) (seq 0 p).

(** Lagrange.C:81-106 the two overloads of computeBasis taking the numbers of points *)
Definition compute_basis_n (val : list fl) (derval : option dmat)
  (p1 : nat) (x1 : R) (p2 : nat) (x2 : R) (p3 : nat) (x3 : R) : bool * list fl * option dmat :=
  compute_basis val derval (equi p1) x1 (equi p2) x2 (equi p3) x3.

(** LagrangeInterpolator.C:17-25 evaluate; outer [None] = the out-of-bounds access grid[nr] *)
Definition li_evaluate (grid : list R) (x : R) (nr : nat) : option fl :=
  if (existsb (fun j => negb (j =? nr)) (seq 0 (length grid)) && (length grid <=? nr))%nat then None
  else Some (fold_left (fun r j => if (j =? nr)%nat then r
                                   else fmul r (fdiv (Some (x - nth j grid 0)) (Some (nth nr grid 0 - nth j grid 0))))
                       (seq 0 (length grid)) (Some 1)).

(** LagrangeInterpolator.C:28-36 interpolate *)
Definition li_interpolate (grid : list R) (x : R) (data : list R) : option fl :=
  fold_left (fun r i => match r, li_evaluate grid x i with
                        | Some a, Some b => Some (fadd a (fmul (Some (nth i data 0)) b))
                        | _, _ => None end) (seq 0 (length data)) (Some (Some 0)).

(** LagrangeInterpolator.C:39-47 get: number of rows, number of columns, entry (row,column), 1-based *)
Definition li_get (grid xg : list R) : nat * nat * (nat -> nat -> option fl) :=
  (length xg, length grid, fun r c => li_evaluate grid (nth (r - 1) xg 0) (c - 1)).
