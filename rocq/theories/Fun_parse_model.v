(** Model of the definition of scalar functions by text, src/Utility/Functions.C:36-151 and 667-871.  The text is
    the list of the space-separated tokens left in the strtok buffer.  Results: [None] = undefined behaviour
    (a null pointer given to atof, atoi or used as a name), [Some None] = null pointer, [Some (Some f)] = function.
    The conversions atof, atoi, the contents of files (see linear_read) and expression functions are variables. *)
From Coq Require Import List Arith ZArith Bool Reals String Ascii.
From Verif Require Import Lagr_model Fun_model.
Import ListNotations.
Open Scope bool_scope.
Open Scope string_scope.

(** strcasecmp, strncasecmp: ASCII letters are compared in lower case *)
Definition lcase (c : ascii) : ascii :=
  let n := nat_of_ascii c in if ((65 <=? n) && (n <=? 90))%nat then ascii_of_nat (n + 32) else c.
Fixpoint lc (s : string) : string := match s with EmptyString => EmptyString | String c r => String (lcase c) (lc r) end.
Definition ieq (s name : string) : bool := String.eqb (lc s) (lc name).
Definition ipfx (name s : string) : bool := String.prefix (lc name) (lc s).
Definition head_is (c : ascii) (s : string) : bool := match s with String a _ => Ascii.eqb a c | _ => false end.
Definition tl_s (s : string) : string := match s with String _ r => r | EmptyString => EmptyString end.

Section Parse.
Variable atof : string -> R.
Variable atoi : string -> Z.
(** points read from the column of a file; [None] = the file cannot be opened *)
Variable file : string -> Z -> option (list (R * R)).
(** [expr rest eps]: expression function of t from the rest of the text, derivatives by differences with [eps];
    [None] = null pointer *)
Variable expr : list string -> R -> option sfun.

(** LinearFunc (file, column, scale), Functions.C:160-202: no points if the file cannot be opened *)
Definition file_pts (name : string) (col : Z) : list (R * R) :=
  match file name col with Some l => linear_read l | None => [] end.

(** The text of a time function: [Strtok toks] = parameters from the strtok buffer (argument cline is null),
    [Line toks] = own text with its tokens (cline is not null; strtok(cline," ") starts on it) *)
Inductive src := Strtok (toks : list string) | Line (toks : list string).
Definition toks_of (s : src) : list string := match s with Strtok l | Line l => l end.

(** first parameter with its default, Functions.C:78,86,94,102 *)
Definition param (l : list string) (dflt : R) : R * list string :=
  match l with [] => (dflt, []) | t :: r => (atof t, r) end.
(** Functions.C:67-73 getConstant *)
Definition get_constant (parseConstant : bool) (l : list string) (c : R) : R :=
  if parseConstant then match l with t :: _ => atof t | [] => c end else c.

(** Functions.C:36-149 parseFunction *)
Definition parse_function (type : string) (s : src) (C : R) (parseConstant : bool) : option (option sfun) :=
  let l := toks_of s in
  if ipfx "expr" type then Some (match l with [] => None | _ => expr l C end)
  else if ipfx "Ramp" type || String.eqb type "Tinit" then
    let '(xmax, r) := param l 1%R in Some (Some (SRamp (get_constant parseConstant r C) xmax))
  else if ipfx "Dirac" type then
    let '(xmax, r) := param l 1%R in Some (Some (SDirac (get_constant parseConstant r C) xmax))
  else if ipfx "Step" type then
    let '(xmax, r) := param l 1%R in Some (Some (SStep (get_constant parseConstant r C) xmax))
  else if ieq type "sin" then
    let '(freq, r) := param l 1%R in
    match r with
    | t :: r' => Some (Some (SSine (get_constant parseConstant r' C) freq (atof t)))
    | [] => Some (Some (SSine C freq 0))
    end
  else if ipfx "PiecewiseLin" type then
    match l with
    | [] => Some None
    | fname :: r =>
      let '(col, r') := match r with t :: r' => (atoi t, r') | [] => (2%Z, []) end in
      Some (Some (SLinear (file_pts fname col) (get_constant parseConstant r' C)))
    end
  else
    match s with
    | Line l' =>
      (* atof reads the first number of the line; an empty line gives zero *)
      let first := match l' with t :: _ => atof t | [] => 0%R end in
      if ipfx "Constant" type then Some (Some (SConst (C * first)))
      else Some (Some (SLinear [] (C * (if ipfx "Lin" type then first else atof type))))
    | Strtok _ => Some (Some (SLinear [] (C * 1)))
    end.

(** the kinds of spatial variation, Functions.C:683-722 *)
Inductive kind := KNone | KLin (d : nat) | KRot (rX : bool) | KStep (d : nat) | KStepXY | KInterp | KQuad (d : nat) | KOther.
Definition kind_of (name : string) : kind :=
  if ieq name "X" then KLin 1 else if ieq name "Y" then KLin 2 else if ieq name "Z" then KLin 3
  else if ieq name "XrotZ" then KRot true else if ieq name "YrotZ" then KRot false
  else if ieq name "StepX" then KStep 0 else if ieq name "StepY" then KStep 1 else if ieq name "StepZ" then KStep 2
  else if ieq name "StepXY" then KStepXY else if ieq name "Interpolate1D" then KInterp
  else if ieq name "Field" then KOther else if ieq name "Chebyshev" then KOther
  else if ieq name "quadX" then KQuad 1 else if ieq name "quadY" then KQuad 2 else if ieq name "quadZ" then KQuad 3
  else KNone.

(** Functions.C:858-871: the time variation *)
Definition with_time (f : option rfun) (toks : list string) (C : R) : option (option rfun) :=
  match toks with
  | [] => Some f
  | t :: r =>
    match parse_function t (Strtok r) C false with
    | Some (Some s) => Some (Some (match f with Some g => RSpaceTime g s | None => RTime s end))
    | Some None => None  (* a null pointer in the function object *)
    | None => None
    end
  end.

(** Functions.C:681-871 parseRealFunc (cline, A): [name] = cline, [toks] = the rest of the buffer.  Field and
    Chebyshev functions are not modelled ([Some None]). *)
Definition parse_real (name : option string) (toks : list string) (A : R) : option (option rfun) :=
  match name with
  | None => Some (Some (RConst A))
  | Some nm =>
    match kind_of nm with
    | KNone => with_time None (nm :: toks) A
    | KLin d => match toks with [] => Some None | b :: r => with_time (Some (RLin d A (atof b))) r 1 end
    | KRot rX => match toks with
                 | [] => Some None
                 | x :: y :: r => with_time (Some (RRotZ rX A (atof x) (atof y))) r 1
                 | _ => None
                 end
    | KStep d => match toks with
                 | [] => Some None
                 | a :: b :: r => with_time (Some (RStepX A (atof a) (atof b) d)) r 1
                 | _ => None
                 end
    | KStepXY => match toks with
                 | [] => Some None
                 | x :: y :: r =>
                   let x0 := atof x in let y0 := atof y in
                   match r with
                   | c :: r' =>
                     if head_is "t" c then
                       match r' with
                       | x1 :: y1 :: r'' => with_time (Some (RStepXY A x0 y0 (atof x1) (atof y1))) r'' 1
                       | _ => None
                       end
                     else with_time (Some (RStepXY A (-1) (-1) x0 y0)) r 1
                   | [] => with_time (Some (RStepXY A (-1) (-1) x0 y0)) [] 1
                   end
                 | _ => None
                 end
    | KInterp => match toks with
                 | [] => Some None
                 | fname :: d :: r =>
                   let dir := Z.to_nat (atoi d) in
                   let '(col, r1) := match r with
                                     | c :: r' => if head_is "c" c then (atoi (tl_s c), r') else (2%Z, r)
                                     | [] => (2%Z, [])
                                     end in
                   match r1 with
                   | t :: r2 => with_time (Some (RInterp (file_pts fname col) dir (atof t))) r2 1
                   | [] => with_time (Some (RInterp (file_pts fname col) dir 0)) [] 1
                   end
                 | _ => None
                 end
    | KQuad d => match toks with
                 | [] => Some None
                 | a :: b :: r => with_time (Some (RQuad d A (atof a) (atof b))) r 1
                 | _ => None
                 end
    | KOther => Some None
    end
  end.
End Parse.
