(** Model of src/Utility/Chebyshev.C: Chebyshev polynomials, their derivatives, and the scalar
    function ChebyshevFunc spanned by them.  Arithmetic as in Lagr_model.v: exact reals,
    [None] = not a finite number (contagious). *)
From Coq Require Import List Arith Reals.
From Verif Require Import Lagr_model.
Import ListNotations.
Open Scope R_scope.

(** Chebyshev.C:22-30 evalPol1 (the callers only pass polynomial numbers >= 0) *)
Fixpoint evalPol1 (n : nat) (xi : fl) : fl :=
  match n with
  | O => Some 1
  | S O => xi
  | S (S m as p) => fsub (fmul (fmul (Some 2) xi) (evalPol1 p xi)) (evalPol1 m xi)
  end.

(** Chebyshev.C:33-41 evalPol2 *)
Fixpoint evalPol2 (n : nat) (xi : fl) : fl :=
  match n with
  | O => Some 1
  | S O => fmul (Some 2) xi
  | S (S m as p) => fsub (fmul (fmul (Some 2) xi) (evalPol2 p xi)) (evalPol2 m xi)
  end.

(** Chebyshev.C:44-50 evalDer1 *)
Definition evalDer1 (n : nat) (xi : fl) : fl :=
  match n with O => Some 0 | S m => fmul (Some (INR n)) (evalPol2 m xi) end.

(** Chebyshev.C:53-56 evalDer2 *)
Definition evalDer2 (n : nat) (xi : fl) : fl :=
  fdiv (fsub (fmul (Some (INR (n + 1))) (evalPol1 (n + 1) xi)) (fmul xi (evalPol2 n xi)))
       (fsub (fmul xi xi) (Some 1)).

(** std::abs *)
Definition fabs (a : fl) : fl := match a with Some x => Some (Rabs x) | None => None end.

(** Chebyshev.C:59-70 eval2Der1 *)
Definition eval2Der1 (n : nat) (xi : fl) : fl :=
  if (n <? 2)%nat then Some 0
  else if fltb (fabs (fsub xi (Some 1))) (Some (/ 1000000)) then Some ((INR n ^ 4 - INR n ^ 2) / 3)
  else if fltb (fabs (fadd (Some 1) xi)) (Some (/ 1000000)) then Some ((-1) ^ n * (INR n ^ 4 - INR n ^ 2) / 3)
  else fdiv (fmul (Some (INR n)) (fsub (fmul (Some (INR (n + 1))) (evalPol1 n xi)) (evalPol2 n xi)))
            (fsub (fmul xi xi) (Some 1)).

(** Chebyshev.h:50-54 the members of ChebyshevFunc: number of coefficients and domain per direction (0,1,2) *)
Record chebF := mkCheb { cn : nat -> nat; cdom : nat -> R * R; ccoef : list R }.

(** Chebyshev.C:87-97 ChebyshevFunc::read on the tokens of the input: three triples and the coefficients;
    a coefficient missing at the end of the input is zero *)
Definition cheb_read (ns : nat -> nat) (dom : nat -> R * R) (toks : list R) : chebF :=
  let n c := if (ns c =? 0)%nat then 1%nat else ns c in
  let m := (n 0 * n 1 * n 2)%nat in
  mkCheb n dom (firstn m toks ++ repeat 0 (m - length toks)).

(** Chebyshev.h:81-85 struct Func *)
Record func := mkFunc { ff : nat -> fl -> fl; fw : fl }.

(** Chebyshev.C:112-121: the lambda [eval] of evaluateTP *)
Definition tp_vals (F : chebF) (X : nat -> R) (fs : nat -> func) (c : nat) : list fl :=
  let coord := fadd (Some (-1)) (fdiv (fmul (Some 2) (fsub (Some (X c)) (Some (fst (cdom F c)))))
                                      (fsub (Some (snd (cdom F c))) (Some (fst (cdom F c))))) in
  map (fun i => fmul (ff (fs c) i coord) (fw (fs c))) (seq 0 (cn F c)).

(** matrix.h outer_product (see Mat_model.v): the elements of X*Y^T, column by column *)
Definition outer (X Y : list fl) : list fl := flat_map (fun y => map (fun x => fmul x y) X) Y.

(** std::inner_product over the coefficients; an element read past the end of [T] is garbage ([None]) *)
Definition inner (cs : list R) (T : list fl) : fl :=
  fold_left (fun a i => fadd a (fmul (Some (nth i cs 0)) (nth i T None))) (seq 0 (length cs)) (Some 0).

(** Chebyshev.C:107-136 evaluateTP *)
Definition evaluateTP (F : chebF) (X : nat -> R) (fs : nat -> func) : fl :=
  let TX := tp_vals F X fs 0 in
  if ((cn F 1 =? 1) && (cn F 2 =? 1))%nat%bool then inner (ccoef F) TX
  else let T := outer TX (tp_vals F X fs 1) in
       if (cn F 2 =? 1)%nat then inner (ccoef F) T
       else inner (ccoef F) (outer T (tp_vals F X fs 2)).

Definition f_eval : func := mkFunc evalPol1 (Some 1).

(** Chebyshev.C:100-104 evaluate *)
Definition cheb_evaluate (F : chebF) (X : nat -> R) : fl := evaluateTP F X (fun _ => f_eval).

(** the weight 2.0/(domain[c][1]-domain[c][0]) *)
Definition f_der1 (F : chebF) (c : nat) : func :=
  mkFunc evalDer1 (fdiv (Some 2) (fsub (Some (snd (cdom F c))) (Some (fst (cdom F c))))).

(** Chebyshev.C:162: the weight 4.0/pow(domain[c][1]-domain[c][0],2.0) *)
Definition f_der2 (F : chebF) (c : nat) : func :=
  mkFunc eval2Der1 (fdiv (Some 4) (Some ((snd (cdom F c) - fst (cdom F c)) ^ 2))).

(** Chebyshev.C:139-150 deriv; [c] = 1,2,3 *)
Definition cheb_deriv (F : chebF) (X : nat -> R) (c : nat) : fl :=
  if (cn F (c - 1) =? 1)%nat then Some 0
  else evaluateTP F X (fun d => if (c =? d + 1)%nat then f_der1 F (c - 1) else f_eval).

(** Chebyshev.C:153-172 dderiv *)
Definition cheb_dderiv (F : chebF) (X : nat -> R) (c1 c2 : nat) : fl :=
  if ((cn F (c1 - 1) =? 1) || (cn F (c2 - 1) =? 1))%nat%bool then Some 0
  else if (c1 =? c2)%nat then
    evaluateTP F X (fun d => if (c1 =? d + 1)%nat then f_der2 F (c1 - 1) else f_eval)
  else
    evaluateTP F X (fun d => if (c1 =? d + 1)%nat then f_der1 F (c1 - 1)
                             else if (c2 =? d + 1)%nat then f_der1 F (c2 - 1) else f_eval).

(** Chebyshev.C:175-182 ChebyshevVecFunc: the (at most 3) component functions and ncmp;
    [None] = the dereference of a null pointer when no component is given *)
Definition vecf_make (fs : list chebF) : option (list chebF * nat) :=
  match fs with
  | [] => None
  | f0 :: _ => Some (firstn 3 fs, if (cn f0 2 =? 1)%nat then 2%nat else length fs)
  end.

(** Chebyshev.C:185-188 evaluate: three values, zero for a component that is not given *)
Definition vecf_evaluate (v : list chebF * nat) (X : nat -> R) : list fl :=
  map (fun c => match nth_error (fst v) c with Some f => cheb_evaluate f X | None => Some 0 end) [0; 1; 2]%nat.

(** Chebyshev.C:191-200 evalGradient: [None] = a null component is dereferenced (or f[c] with c > 2) *)
Definition vecf_gradient (v : list chebF * nat) (X : nat -> R) : option (list fl) :=
  let n := snd v in
  if (length (fst v) <? n)%nat then None
  else Some (flat_map (fun d => map (fun c => match nth_error (fst v) c with
                                              | Some f => cheb_deriv f X d | None => None end) (seq 0 n)) (seq 1 n)).

(** Chebyshev.C:203-213 evalHessian *)
Definition vecf_hessian (v : list chebF * nat) (X : nat -> R) : option (list fl) :=
  let n := snd v in
  if (length (fst v) <? n)%nat then None
  else Some (flat_map (fun d2 => flat_map (fun d1 => map (fun c => match nth_error (fst v) c with
                                              | Some f => cheb_dderiv f X d1 d2 | None => None end) (seq 0 n)) (seq 1 n)) (seq 1 n)).
