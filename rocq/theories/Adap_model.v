(** Model of the selection of elements or basis functions for mesh refinement
    and of the adaptive solution loop.

    Sources: src/SIM/AdaptiveSetup.C, src/SIM/AdaptiveSIM.C,
    Apps/Utils/SIMSolverAdap.h, src/ASM/LR/ASMu2D.C, ASMu2Dmx.C (remapErrors).

    Modelling choices.  Floating point numbers are rationals, without rounding,
    infinities and NaN; int and size_t are Z without overflow.  Accesses outside
    of a vector are explicit (None).  Console output and the error dump file are
    left out, except for the element of the error vector that the console
    message reads.  The model behind the SIM object is a set of arguments. *)
From Coq Require Import ZArith QArith Qround Qabs List Bool Lia.
Import ListNotations.
Local Open Scope Z_scope.

(** src/SIM/AdaptiveSetup.h:103, DblIdx. *)
Definition dblIdx := (Q * Z)%type.

(** a < b for doubles (src/SIM/AdaptiveSetup.C:578). *)
Definition qlt (a b : Q) : bool := negb (Qle_bool b a).

(** operator> of std::pair<double,int>, as used by std::greater at
    src/SIM/AdaptiveSetup.C:383. *)
Definition gtP (a b : dblIdx) : bool :=
  qlt (fst b) (fst a) ||
  (negb (qlt (fst a) (fst b)) && (snd b <? snd a)).

(** operator>= of the pairs (std::greater_equal, line 395): !(a < b). *)
Definition geP (a b : dblIdx) : bool := negb (gtP b a).

(** std::sort(begin,end,std::greater), src/SIM/AdaptiveSetup.C:383.  The order
    is total on the pairs, so that every sorting algorithm gives this result. *)
Fixpoint insertP (x : dblIdx) (l : list dblIdx) : list dblIdx :=
  match l with
  | [] => [x]
  | y :: l' => if gtP y x then y :: insertP x l' else x :: l
  end.
Definition sortP (l : list dblIdx) : list dblIdx := fold_right insertP [] l.

(** src/SIM/AdaptiveSetup.h:113-114, Threshold. *)
Inductive threshold := NONE | MAXIMUM | AVERAGE | MINIMUM | TRUE_BETA | DORFEL | SYMMETRIZED.

(** The loops over error at src/SIM/AdaptiveSetup.C:565-566 and 574-575. *)
Definition sumErr (error : list dblIdx) : Q :=
  fold_left (fun s e => (s + fst e)%Q) error 0%Q.

(** The loop of src/SIM/AdaptiveSetup.C:577-583, with curErr as state. *)
Fixpoint dorfelLimit (error : list dblIdx) (sumErr curErr limit : Q) : Q :=
  match error with
  | [] => limit
  | e :: error' =>
      if qlt curErr sumErr then dorfelLimit error' sumErr (curErr + fst e) limit
      else fst e
  end.

(** src/SIM/AdaptiveSetup.C:554-591, AdaptiveSetup::errorLimits: the value of
    limit; None: front() or back() of an empty vector. *)
Definition errorLimits (error : list dblIdx) (beta : Q) (t : threshold) : option Q :=
  match t with
  | MAXIMUM => match error with
               | [] => None
               | e :: _ => Some (fst e * beta * (1#100))%Q
               end
  | AVERAGE => match error with
               | [] => None
               | _ => Some ((sumErr error / inject_Z (Z.of_nat (length error)))
                            * beta * (1#100))%Q
               end
  | MINIMUM => match error with
               | [] => None
               | e :: _ => Some (fst (last error e) * beta * (1#100))%Q
               end
  | DORFEL => match error with
              | [] => None
              | e :: _ => Some (dorfelLimit error (sumErr error * beta * (1#100))
                                            0 (fst (last error e)))
              end
  | _ => Some 0%Q
  end.

(** std::upper_bound(begin,end,value,comp) - begin on a range partitioned by
    comp(value,.), src/SIM/AdaptiveSetup.C:394-395: the position of the first
    element x with comp(value,x), here value >= x. *)
Fixpoint upper_bound (error : list dblIdx) (v : dblIdx) : nat :=
  match error with
  | [] => O
  | e :: error' => if geP v e then O else S (upper_bound error' v)
  end.

(** src/SIM/AdaptiveSetup.C:401-403, the loop extending refineSize; [rest] are
    the elements from position refineSize on. *)
Fixpoint symm_extend (rest : list dblIdx) (fErr fEps : Q) : nat :=
  match rest with
  | [] => O
  | e :: rest' =>
      if qlt (Qabs (fst e - fErr)) fEps then S (symm_extend rest' fErr fEps)
      else O
  end.

(** error[i] with i a size_t computed as refineSize-1. *)
Definition at_ {A} (l : list A) (i : Z) : option A :=
  if i <? 0 then None else nth_error l (Z.to_nat i).

(** src/SIM/AdaptiveSetup.C:383-404, 424-425 and 451-455: the marked entries;
    None: an access outside of [error] (by lines 389, 399, 424, 425). *)
Definition select (error0 : list dblIdx) (beta symmEps : Q) (t : threshold)
  : option (list Z) :=
  let error := sortP error0 in
  match errorLimits error beta t with
  | None => None
  | Some limit =>
      let n := Z.of_nat (length error) in
      let size0 :=
        match t with
        | NONE | SYMMETRIZED => Qceiling (inject_Z n * beta / 100)%Q
        | _ => Z.of_nat (upper_bound error (limit, 0))
        end in
      let size :=
        match t with
        | SYMMETRIZED =>
            match at_ error (size0 - 1) with
            | None => None
            | Some (fErr, _) =>
                Some (size0 + Z.of_nat (symm_extend (skipn (Z.to_nat size0) error)
                                          fErr (Qabs fErr * symmEps)%Q))
            end
        | _ => Some size0
        end in
      match size with
      | None => None
      | Some sz =>
          match at_ error (sz - 1), error with
          | Some _, _ :: _ => Some (map snd (firstn (Z.to_nat sz) error))
          | _, _ => None
          end
      end
  end.

(** errors[i] += v on a vector. *)
Fixpoint addAt (l : list Q) (i : nat) (v : Q) : list Q :=
  match l, i with
  | [], _ => []
  | x :: l', O => (x + v)%Q :: l'
  | x :: l', S i' => x :: addAt l' i' v
  end.

(** src/ASM/LR/ASMu2D.C:2706-2708 (ASMu3D.C:2068-2070), ASMu2D::remapErrors to
    the basis functions; supp lists, for each element, the functions on it. *)
Definition remapErrors (errors : list Q) (supp : list (list nat)) (orig : list Q)
  : list Q :=
  fold_left (fun err es => fold_left (fun err b => addAt err b (snd es)) (fst es) err)
            (combine supp orig) errors.

(** src/ASM/LR/ASMu2Dmx.C:1282-1289, ASMu2Dmx::remapErrors to the elements of
    the refinement basis; rEl is the element that contains the midpoint of the
    integration element. *)
Definition remapErrorsMx (errors : list Q) (rEl : list nat) (orig : list Q) : list Q :=
  fold_left (fun err re => addAt err (fst re) (snd re)) (combine rEl orig) errors.

(** One patch of a multi-patch model: MLGE (getElmID), the support of its
    elements, the number of functions, and the global function numbers
    prm.MLGN[patch->idx]. *)
Record rpatch := mkRP { rp_elm : list nat; rp_supp : list (list nat);
                        rp_nf : nat; rp_mlgn : list nat }.

(** src/SIM/AdaptiveSetup.C:342-366, the errors per function; [refIn] is the
    vector of element errors, getElmID is 1-based. *)
Definition functionErrors (nNodes : nat) (patches : list rpatch) (refIn : list Q)
  : list Q :=
  fold_left (fun err p =>
      let locNorm := map (fun id => nth (id - 1) refIn 0%Q) (rp_elm p) in
      let locErr := remapErrors (repeat 0%Q (rp_nf p)) (rp_supp p) locNorm in
      fold_left (fun err il => addAt err (nth (fst il) (rp_mlgn p) O) (snd il))
                (combine (seq 0 (length locErr)) locErr) err)
    patches (repeat 0%Q nNodes).

(** Refinement schemes, src/SIM/AdaptiveSetup.h:142-144. *)
Inductive scheme := FULLSPAN | MINSPAN | ISOTROPIC_FUNCTION | ISOTROPIC_ELEMENT.

(** The parameters of AdaptiveSetup that calcRefinement uses
    (src/SIM/AdaptiveSetup.h:93-151); betaFunc is evaluated at iStep-1. *)
Record setup := mkSetup {
  s_adaptor : nat; s_adNorm : nat;
  s_beta : Q; s_betaFunc : option (Q -> Q); s_errTol : Q; s_condLimit : Q;
  s_maxStep : Z; s_maxDOFs : Z; s_thr : threshold; s_scheme : scheme; s_eps : Q }.

(** What the model and the norms of the current mesh provide: the number of
    patches, haveAnaSol, the global norms, the element errors, the reference
    norm (getReferenceNorm), the number of DOFs, the reciprocal condition
    number, and the tables of functionErrors. *)
Record status := mkStatus {
  t_npatch : nat; t_ana : bool; t_gNorm : list (list Q); t_refIn : list Q;
  t_ref : Q; t_dofs : Z; t_rCond : Q;
  t_nNodes : nat; t_patches : list rpatch }.

(** The result of calcRefinement: the return value with the entries of
    prm.elements, or the error vector of true beta refinement; undefined
    behaviour. *)
Inductive outcome :=
| Ret (code : Z)
| Mark (l : list Z)
| MarkErrors (e : list Q)
| Undef.

(** 1.0/rCond > condLimit, where a division by zero gives +infinity
    (src/SIM/AdaptiveSetup.C:291). *)
Definition condHigh (rCond limit : Q) : bool :=
  if Qeq_bool rCond 0 then true else qlt limit (/ rCond).

(** CMakeLists.txt:538. *)
Definition epsZ : Q := (1 # 1000000000000)%Q.

(** src/SIM/AdaptiveSetup.C:247-456, AdaptiveSetup::calcRefinement (with
    currDofs = -1), for patches of type ASMunstruct with a single basis. *)
Definition calcRefinement (s : setup) (iStep : Z) (m : status) : outcome :=
  if Nat.eqb (t_npatch m) 0 then Ret 0
  else if (Nat.leb (length (t_gNorm m)) (s_adaptor s)) || Nat.eqb (length (t_refIn m)) 0
  then Ret 0
  else if Nat.eqb (s_adaptor s) 0 && negb (t_ana m) then Ret 0
  else
    let refNorm := ((1#100) * t_ref m)%Q in
    if qlt refNorm (- epsZ) then Ret (-1)
    else if qlt refNorm epsZ then Ret 0
    else if s_maxStep s <? iStep then Ret 0
    else if s_maxDOFs s <? t_dofs m then Ret 0
    else
      match at_ (nth (s_adaptor s) (t_gNorm m) []) (Z.of_nat (s_adNorm s) - 1) with
      | None => Undef
      | Some err =>
          if qlt err (s_errTol s * refNorm)%Q then Ret 0
          else if condHigh (t_rCond m) (s_condLimit s) then Ret 0
          else
            let beta := match s_betaFunc s with
                        | Some f => f (inject_Z (iStep - 1))
                        | None => s_beta s
                        end in
            match s_thr s with
            | TRUE_BETA =>
                if Nat.ltb 1 (t_npatch m) then Ret (-2) else MarkErrors (t_refIn m)
            | t =>
                let errs :=
                  match s_scheme s with
                  | ISOTROPIC_FUNCTION =>
                      Some (functionErrors (t_nNodes m) (t_patches m) (t_refIn m))
                  | _ => if Nat.ltb 1 (t_npatch m) then None else Some (t_refIn m)
                  end in
                match errs with
                | None => Ret (-4)
                | Some e =>
                    match select (combine e (map Z.of_nat (seq 0 (length e))))
                                 beta (s_eps s) t with
                    | None => Undef
                    | Some l => Mark l
                    end
                end
            end
      end.

(** src/SIM/AdaptiveSIM.C:197-219, AdaptiveSIM::adaptMesh: true when the mesh
    was refined (refineOk: the value of model.refine && writeMesh), or in the
    first step.  None: undefined behaviour. *)
Definition adaptMesh (s : setup) (iStep : Z) (m : status) (refineOk : bool) : option bool :=
  if iStep <? 2 then Some true
  else match calcRefinement s iStep m with
       | Undef => None
       | Ret c => if c <=? 0 then Some false else Some refineOk
       | Mark l => if Z.of_nat (length l) <=? 0 then Some false else Some refineOk
       | MarkErrors e => if Z.of_nat (length e) <=? 0 then Some false else Some refineOk
       end.

(** What happens in one cycle of solveProblem: the status of the model before
    it (as used by adaptMesh), whether the refinement, the solution and the
    output succeed. *)
Record cycle := mkCycle { c_stat : status; c_refine : bool; c_solve : bool; c_write : bool }.

(** Apps/Utils/SIMSolverAdap.h:124-131, the loop of solveProblem, started at
    step iStep with at most [fuel] further evaluations of the loop condition:
    the return value and the number of meshes solved; None: undefined
    behaviour; (-1): out of fuel. *)
Fixpoint solveLoop (s : setup) (env : Z -> cycle) (fuel : nat) (iStep solved : Z)
  : option (Z * Z) :=
  match fuel with
  | O => Some (-1, solved)
  | S fuel' =>
      match adaptMesh s iStep (c_stat (env iStep)) (c_refine (env iStep)) with
      | None => None
      | Some false => Some (0, solved)
      | Some true =>
          if negb (c_solve (env iStep)) then Some (1, solved)
          else if negb (c_write (env iStep)) then Some (2, solved + 1)
          else solveLoop s env fuel' (iStep + 1) (solved + 1)
      end
  end.
