(** Model of src/Utility/Legendre.C: Legendre polynomials, Gauss-Legendre (GL) and
    Gauss-Lobatto-Legendre (GLL) rules, and the derivative matrix of the GLL basis.
    Exact reals; [None] as a number = not finite (division by zero), see Lagr_model.v.
    The eigenvalue routine of LAPACK (DenseMatrix::solveEigNon) is a parameter [eig]. *)
From Coq Require Import List Arith ZArith Reals.
From Verif Require Import Lagr_model.
Import ListNotations.
Open Scope bool_scope.
Open Scope R_scope.

(** Legendre.C:123-127 and 156-160: the element [n] of the array [val] *)
Fixpoint leg (n : nat) (x : R) : R :=
  match n with
  | O => 1
  | S O => x
  | S (S m as p) => INR (2 * n - 1) / INR n * x * leg p x - INR (n - 1) / INR n * leg m x
  end.

Definition rltb (x y : R) : bool := if Rlt_dec x y then true else false.
Definition reqb (x y : R) : bool := if Req_EM_T x y then true else false.

(** Legendre.C:107-131 eval; [None] is the return value false *)
Definition leg_eval (n : Z) (x : R) : option R :=
  if (n <? 1)%Z then None
  else if rltb x (-1) || rltb 1 x then None
  else Some (leg (Z.to_nat n) x).

(** Legendre.C:134-164 derEval *)
Definition leg_derEval (n : Z) (x : R) : option R :=
  if (n <? 1)%Z then None
  else if rltb x (-1) || rltb 1 x then None
  else let m := Z.to_nat n in
  if reqb x 1 || reqb x (-1) then Some (x ^ (m - 1) * INR m * INR (m + 1) / 2)
  else Some (INR m / (1 - x * x) * leg (m - 1) x - INR m * x / (1 - x * x) * leg m x).

(** Legendre.C:24-36: the matrix A of order [n], entry (i,j), 1-based *)
Definition gl_matrix (n i j : nat) : R :=
  if ((i =? 1) && (j =? 2))%nat then 1
  else if (2 <? n)%nat then
    if ((2 <=? i) && (i <? n) && (j =? i - 1))%nat then INR (i - 1) / INR (2 * i - 1)
    else if ((2 <=? i) && (i <? n) && (j =? i + 1))%nat then INR i / INR (2 * i - 1)
    else if ((i =? n) && (j =? n - 1))%nat then INR (n - 1) / INR (2 * n - 1)
    else 0
  else 0.

(** std::sort *)
Fixpoint rinsert (x : R) (l : list R) : list R :=
  match l with [] => [x] | y :: l' => if Rle_dec x y then x :: l else y :: rinsert x l' end.
Definition rsort (l : list R) : list R := fold_right rinsert [] l.

(** Legendre.C:44-49: the weights of GL *)
Fixpoint gl_weights (n : nat) (xs : list R) : option (list fl) :=
  match xs with
  | [] => Some []
  | x :: xs' => match leg_derEval (Z.of_nat n) x with
                | None => None
                | Some L => match gl_weights n xs' with
                            | None => None
                            | Some w => Some (fdiv (Some 2) (Some ((1 - x * x) * L * L)) :: w)
                            end
                end
  end.

(** Legendre.C:18-52 GL: weights and points; [eig n A] = the real parts of the eigenvalues of A *)
Definition gl_rule (eig : nat -> (nat -> nat -> R) -> option (list R)) (n : nat) : option (list fl * list R) :=
  if (n <? 2)%nat then None
  else match eig n (gl_matrix n) with
       | None => None
       | Some ev => let pts := rsort ev in
                    match gl_weights n pts with None => None | Some w => Some (w, pts) end
       end.

(** Legendre.C:89-92.  One step of the iteration: [None] = false is returned; the new point may be non-finite *)
Definition gll_step (n : nat) (p : R) : option fl :=
  match leg_eval (Z.of_nat n - 1) p with
  | None => None
  | Some L => match leg_derEval (Z.of_nat n - 1) p with
              | None => None
              | Some Ld => Some (fadd (Some p) (fdiv (Some ((1 - p * p) * Ld)) (Some (INR (n - 1) * INR n * L))))
              end
  end.

(** the loop of Legendre.C:86-94; [NLoop] = not finished after [fuel] iterations;
    with a non-finite point the comparison [res > tol] is false and the loop ends *)
Inductive nres := NLoop | NFalse | NOk (p : fl).
Fixpoint gll_newton (fuel n : nat) (p : R) : nres :=
  match fuel with
  | O => NLoop
  | S f => match gll_step n p with
           | None => NFalse
           | Some None => NOk None
           | Some (Some p') => if rltb (/ 100000000) (Rabs (p' - p)) then gll_newton f n p' else NOk (Some p')
           end
  end.

(** Legendre.C:83-95: the interior points, one after the other *)
Fixpoint gll_interior (fuel n : nat) (starts : list R) : option (list R) :=
  match starts with
  | [] => Some []
  | s :: ss => match gll_newton fuel n s with
               | NOk (Some p) => match gll_interior fuel n ss with Some l => Some (p :: l) | None => None end
               | _ => None
               end
  end.

(** Legendre.C:69-73 and 97-101: the weights of GLL *)
Fixpoint gll_weights (n : nat) (xs : list R) : option (list fl) :=
  match xs with
  | [] => Some []
  | x :: xs' => match leg_eval (Z.of_nat n - 1) x with
                | None => None
                | Some L => match gll_weights n xs' with
                            | None => None
                            | Some w => Some (fdiv (Some 2) (Some (INR (n - 1) * INR n * L * L)) :: w)
                            end
                end
  end.

(** the midpoints (xg[i-1]+xg[i])/2 of Legendre.C:85 *)
Fixpoint midpoints (l : list R) : list R :=
  match l with a :: (b :: _ as l') => (a + b) / 2 :: midpoints l' | _ => [] end.

(** Legendre.C:56-104 GLL.  [None]: false is returned, or the iteration did not end within [fuel] steps or
    broke down.  For n = 1 the one point is overwritten with 1; for n = 0 points.front() is undefined. *)
Definition gll_rule (eig : nat -> (nat -> nat -> R) -> option (list R)) (fuel n : nat) : option (list fl * list R) :=
  match n with
  | O => None
  | S O => match gll_weights 1 [1] with Some w => Some (w, [1]) | None => None end
  | S (S O) => match gll_weights 2 [-1; 1] with Some w => Some (w, [-1; 1]) | None => None end
  | _ => match gl_rule eig (n - 1) with
         | None => None
         | Some (_, xg) =>
           match gll_interior fuel n (midpoints xg) with
           | None => None
           | Some l => let pts := -1 :: l ++ [1] in
                       match gll_weights n pts with Some w => Some (w, pts) | None => None end
           end
         end
  end.

(** Legendre.C:167-189 basisDerivatives: entry (i,j), 1-based, given the points of GLL;
    outer [None] = false is returned *)
Definition bd_entry (n : nat) (p : list R) (i j : nat) : option fl :=
  if ((i =? n) && (j =? n))%nat then Some (Some (INR n * INR (n - 1) / 4))        (* :187, D(n,n) = -D(1,1), last *)
  else if ((i =? 1) && (j =? 1))%nat then Some (Some (- INR n * INR (n - 1) / 4)) (* :186 *)
  else if (i =? j)%nat then Some (Some 0)
  else match leg_eval (Z.of_nat n - 1) (nth (i - 1) p 0), leg_eval (Z.of_nat n - 1) (nth (j - 1) p 0) with
       | Some l1, Some l2 => Some (fdiv (Some l1) (Some (l2 * (nth (i - 1) p 0 - nth (j - 1) p 0))))
       | _, _ => None
       end.
