(** Model of the dynamic and nonlinear solution procedures: src/SIM/NewmarkSIM.C, GenAlphaSIM.C,
    HHTSIM.C, NewmarkNLSIM.C, NonLinSIM.C, SIMsolution.C, of the element matrices in
    src/ASM/NewmarkMats.C, HHTMats.C, BDFMats.C and of src/Utility/BDF.C.

    Simplifications: exact rationals (no NaN except where stated); nodal rotations (rotUpd) are
    switched off; model.updateConfiguration, assembly and equation solving succeed, their results
    (the solution [lin k] of the k-th linear system and the norms of iteration k) are arbitrary. *)
From Coq Require Import List Arith ZArith QArith Qcanon Bool Lia Ascii.
From Verif Require Import Base QcLra Mat_model.
Import ListNotations.
Local Open Scope Qc_scope.

(** the literals of the code *)
Definition q_half : Qc := Q2Qc (1 # 2).
Definition q_2 : Qc := Q2Qc 2.
Definition q_3h : Qc := Q2Qc (3 # 2).
Definition q_quart : Qc := Q2Qc (1 # 4).
(** Y.add(X,a), matrix.h:185-188 with the default strides *)
Definition add1 (Y X : list Qc) (a : Qc) : list Qc := vadd X a 0 1 0 1 Y.
(** v.fill(0.0), matrix.h:137 *)
Definition zeroed (v : list Qc) : list Qc := map (fun _ => 0) v.

(** ** Newmark *)
Record nprm := mkN { beta : Qc; gamma : Qc; solveDisp : bool; predictor : ascii }.
(** the first three solution vectors: displacement, velocity and acceleration *)
Record state := mkS { dis : list Qc; vel : list Qc; acc : list Qc }.
(** NewmarkSIM.C:270-353 predictStep; [None] is the return value false *)
Definition newmarkPredict (p : nprm) (dt : Qc) (s : state) : option state :=
  if Ascii.eqb (predictor p) "a" then
    let u := add1 (dis s) (vel s) dt in
    let u := add1 u (acc s) (dt * dt * (q_half - beta p)) in
    let v := add1 (vel s) (acc s) (dt * (1 - gamma p)) in
    Some (mkS u v (zeroed (acc s)))
  else if Ascii.eqb (predictor p) "v" then
    let u := add1 (dis s) (vel s) dt in
    let u := add1 u (acc s) (dt * dt * (q_half - beta p / gamma p)) in
    Some (mkS u (vel s) (vscale (1 - 1 / gamma p) (acc s)))
  else if Ascii.eqb (predictor p) "d" then
    let v := add1 (vscale (1 - gamma p / beta p) (vel s)) (acc s) (dt * (1 - q_half * gamma p / beta p)) in
    let a := add1 (vscale (1 - q_half / beta p) (acc s)) (vel s) (- (1) / (beta p * dt)) in
    Some (mkS (dis s) v a)
  else None.
(** NewmarkSIM.C:356-382 correctStep *)
Definition newmarkCorrect (p : nprm) (dt : Qc) (lin : list Qc) (s : state) : state :=
  mkS (add1 (dis s) lin (if solveDisp p then 1 else beta p * dt * dt))
      (add1 (vel s) lin (if solveDisp p then gamma p / (beta p * dt) else gamma p * dt))
      (add1 (acc s) lin (if solveDisp p then 1 / (beta p * dt * dt) else 1)).

(** ** Generalized alpha *)
Record gstate := mkG { gsol : state; gprev : state; gtemp : state }.
(** GenAlphaSIM.C:84-91 advanceStep (the vectors have equal lengths, so the copies replace the contents) *)
Definition genAdvance (g : gstate) : gstate := mkG (gsol g) (gsol g) (gtemp g).
(** GenAlphaSIM.C:102-106: {U}_(n+alpha) = (1-alpha)*{U}_n + alpha*{U}_(n+1) *)
Definition genMix (am af : Qc) (prev new : state) : state :=
  mkS (vrelax af (dis prev) (dis new)) (vrelax af (vel prev) (vel new)) (vrelax am (acc prev) (acc new)).
(** GenAlphaSIM.C:94-109 predictStep *)
Definition genPredict (p : nprm) (am af dt : Qc) (g : gstate) : option gstate :=
  match newmarkPredict p dt (gsol g) with
  | None => None
  | Some s => Some (mkG (genMix am af (gprev g) s) (gprev g) s)
  end.
(** GenAlphaSIM.C:112-158 correctStep *)
Definition genCorrect (p : nprm) (am af dt : Qc) (converged : bool) (lin : list Qc) (g : gstate) : gstate :=
  let bdt := beta p * dt in let bdt2 := bdt * dt in
  let t := mkS (add1 (dis (gtemp g)) lin (if solveDisp p then 1 else bdt2))
               (add1 (vel (gtemp g)) lin (if solveDisp p then gamma p / bdt else gamma p * dt))
               (add1 (acc (gtemp g)) lin (if solveDisp p then 1 / bdt2 else 1)) in
  if converged then mkG t (gprev g) t else mkG (genMix am af (gprev g) t) (gprev g) t.

(** ** Hilber-Hughes-Taylor *)
Record hstate := mkH { hsol : state; pV : list Qc; pA : list Qc; incDis : list Qc }.
(** HHTSIM.C:148-198 predictStep *)
Definition hhtPredict (b g dt : Qc) (h : hstate) : hstate :=
  let s := hsol h in
  mkH s (add1 (vscale (g / b) (vel s)) (acc s) (dt * (g / b - q_2) * q_half))
        (add1 (vscale (q_half / b) (acc s)) (vel s) (1 / (b * dt)))
        (zeroed (incDis h)).
(** HHTSIM.C:201-259 correctStep; [iter] is param.iter *)
Definition hhtCorrect (b g dt : Qc) (iter : nat) (converged : bool) (lin : list Qc) (h : hstate) : hstate :=
  let s := hsol h in
  let '(v, a, pv, pa) :=
    if (iter =? 1)%nat && negb converged
    then let v := add1 (vel s) (pV h) (- (1)) in let a := add1 (acc s) (pA h) (- (1)) in (v, a, v, a)
    else (pV h, pA h, pV h, pA h) in
  let inc := add1 (incDis h) lin 1 in
  mkH (mkS (add1 (dis s) lin 1) (add1 v inc (g / (b * dt))) (add1 a inc (1 / (b * dt * dt)))) pv pa inc.
(** HHTSIM.C:262-279 and NewmarkNLSIM.C:225-236 setSolution, for the displacements *)
Definition hhtSetSolution (new : list Qc) (h : hstate) : hstate :=
  mkH (mkS new (vel (hsol h)) (acc (hsol h))) (pV h) (pA h) (add1 (add1 (incDis h) (dis (hsol h)) (- (1))) new 1).
(** NewmarkNLSIM.C:118-174 predictStep; pV and pA are predVel and predAcc *)
Definition nlPredict (b g dt : Qc) (h : hstate) : hstate :=
  let s := hsol h in
  let pv := add1 (vscale (g / b - 1) (vel s)) (acc s) (dt * (g / b - q_2) * q_half) in
  let pa := add1 (vscale (q_half / b - 1) (acc s)) (vel s) (1 / (b * dt)) in
  mkH (mkS (dis s) pv pa) (vscale (- (1)) pv) (vscale (- (1)) pa) (zeroed (incDis h)).
(** NewmarkNLSIM.C:177-222 correctStep *)
Definition nlCorrect (b g dt : Qc) (lin : list Qc) (h : hstate) : hstate :=
  let inc := add1 (incDis h) lin 1 in
  mkH (mkS (add1 (dis (hsol h)) lin 1) (add1 (pV h) inc (g / (b * dt))) (add1 (pA h) inc (1 / (b * dt * dt)))) (pV h) (pA h) inc.

(** ** Parameters *)
(** GenAlphaSIM.C:30-56, HHTSIM.C:43-65: from alpha, or from rho_inf; (alpha_m, alpha_f, beta, gamma) *)
Definition fromAlpha (alpha : Qc) : Qc * Qc * Qc * Qc :=
  (1, alpha + 1, q_quart * (1 - alpha) * (1 - alpha), q_half - alpha).
Definition fromRho (rho : Qc) : Qc * Qc * Qc * Qc :=
  let af := 1 / (1 + rho) in let am := (q_2 - rho) / (1 + rho) in let alpha := af - am in
  (am, af, q_quart * (1 - alpha) * (1 - alpha), q_half - alpha).

(** ** Convergence control *)
Inductive status := OK | SLOW | CONVERGED | DIVERGED.
Record cprm := mkC { rTol : Qc; aTol : Qc; divgLim : Qc; maxIncr : Z; refAll : bool }.
(** convTol, prevNorm, nIncrease are static variables of checkConvergence, shared by all
    simulators of the same class; refNorm is a member *)
Record cstate := mkCs { convTol : Qc; prevNorm : Qc; nIncrease : Z; refNorm : Qc }.
(** NewmarkSIM.C:544-610 checkConvergence and NonLinSIM.C:409-490 ([nl], for iteNorm > NONE);
    [norm] is the selected norm, [incn] the norm of the solution increment, [first] is subiter&FIRST *)
Definition checkConv (p : cprm) (nl first : bool) (iter : nat) (norm incn : Qc) (c : cstate) : status * cstate :=
  if (iter =? 0)%nat && (if Qc_eq_dec incn 0 then true else false) then (CONVERGED, c)
  else
    let '(nrm, c) :=
      if (iter =? 0)%nat then
        let ref := if (first && refAll p) || qltb (refNorm c) (qabs norm) then qabs norm else refNorm c in
        if qltb (aTol p) (ref * rTol p) then let n := norm / ref in (n, mkCs (rTol p) n 0 ref)
        else (norm, mkCs (aTol p) norm 0 1)
      else (norm / refNorm c, c) in
    let slow := nl && (1 <? iter)%nat && qltb 0 (prevNorm c) && qltb (prevNorm c * Q2Qc (1 # 10)) (qabs nrm) in
    let st0 := if slow then SLOW else OK in
    let '(st, ninc) :=
      if qltb (qabs nrm) (convTol c) && ((0 <? iter)%nat || refAll p) then (CONVERGED, nIncrease c)
      else if qleb (qabs nrm) (qabs (prevNorm c)) then (st0, 0%Z)
      else let k := (nIncrease c + 1)%Z in
           if (maxIncr p <? k)%Z || qltb (divgLim p) (qabs nrm) then (DIVERGED, k) else (st0, k) in
    (st, mkCs (convTol c) nrm ninc (refNorm c)).

(** ** The iteration loop *)
(** NewmarkSIM.C:443-500 and NonLinSIM.C:254-299: [correct iter converged lin] updates the
    solution; result: status, solution, convergence state, number of iterations. *)
Section Loop.
  Variable ST : Type.
  Variable correct : nat -> bool -> list Qc -> ST -> ST.
  Variables (p : cprm) (nl first last : bool) (norms : nat -> Qc * Qc) (lin : nat -> list Qc).
  Fixpoint solveLoop (fuel iter : nat) (c : cstate) (s : ST) : status * ST * cstate * nat :=
    match fuel with
    | O => (DIVERGED, s, c, iter)
    | S f =>
      let '(st, c') := checkConv p nl first iter (fst (norms iter)) (snd (norms iter)) c in
      match st with
      | CONVERGED => (CONVERGED, correct iter last (lin iter) s, c', iter)
      | DIVERGED => (DIVERGED, s, c', iter)
      | _ => solveLoop f (S iter) c' (correct (S iter) false (lin iter) s)
      end
    end.
  (** the loop is entered while iter <= maxit, from iter = 0 *)
  Definition iterate (maxit : Z) (c : cstate) (s : ST) := solveLoop (Z.to_nat (maxit + 1)) 0 c s.
End Loop.

(** ** Line search *)
(** NonLinSIM.C:388-393, the new step length; 0/0 gives NaN ([None]), x/0 an infinite value
    which is limited like any other (ck is positive) *)
Definition nextStep (ck s0 sk : Qc) : option Qc :=
  if Qc_eq_dec s0 sk then
    if Qc_eq_dec s0 0 then None else Some (if qltb 0 s0 then q_3h else q_half)
  else let c := ck * (s0 / (s0 - sk)) in Some (if qltb q_3h c then q_3h else if qltb c q_half then q_half else c).
(** NonLinSIM.C:343-406 lineSearch; [sk c] is the product of the residual and the increment when
    [c] times the increment has been added; the result is (alpha, alphaO, the factor added so far) *)
Fixpoint lineLoop (fuel : nat) (eta : Qc) (sk : Qc -> Qc) (s0 smin cmin ck cp : Qc) : option (Qc * Qc * Qc) :=
  match fuel with
  | O => Some (cmin - cp, cmin, cp)
  | S f =>
    let s := sk ck in
    if qltb (qabs s) (eta * qabs s0) then Some (0, ck, ck)
    else
      let '(smin, cmin) := if qltb (qabs s) smin then (qabs s, ck) else (smin, cmin) in
      match nextStep ck s0 s with
      | None => None
      | Some cn => if qltb (qabs (cn - ck)) (q_half * eta * qabs (cn + ck)) then Some (0, cn, ck)
                   else lineLoop f eta sk s0 smin cmin cn ck
      end
  end.
(** [s0] is computed from the residual before the search, which belongs to factor 0 *)
Definition lineSearch (eta : Qc) (sk : Qc -> Qc) : option (Qc * Qc * Qc) :=
  if qleb eta 0 then Some (1, 1, 0) else lineLoop 10 eta sk (sk 0) (qabs (sk 0)) 1 1 0.

(** ** Solution vectors of previous steps *)
(** SIMsolution.C:31-40 pushSolution; [None] is a division by zero or a copy outside a vector *)
Definition pushSolution (nVec : nat) (sol : list (list Qc)) : option (list (list Qc)) :=
  if (nVec =? 0)%nat then None
  else
    let nState := (length sol / nVec)%nat in
    if (nState <? 2)%nat then Some sol
    else fold_left (fun o n => bind o (forN nVec (fun i a => bind (nth_error a (n + i)) (fun x => bind (nth_error a (n + i + nVec)) (fun y =>
                       bind (memcpy (length x) 0 x 0 y) (fun z => Some (upd (n + i + nVec) z a)))))))
                   (map (fun k => (k * nVec)%nat) (rev (seq 0 (nState - 1)))) (Some sol).

(** ** Element matrices *)
(** A: element matrices, b: element vectors, vec: element solutions *)
Record elm := mkE { eA : list mat; eb : list (list Qc); evec : list (list Qc);
  eh : Qc; ea1 : Qc; ea2 : Qc; ebeta : Qc; egamma : Qc; eam : Qc; eaf : Qc; eslv : bool; epred : bool }.
(** NewmarkMats.C:18-40 the constructor *)
Definition newmarkMats (a1 a2 b c : Qc) (genAlpha : bool) (A : list mat) (bv vec : list (list Qc)) (h : Qc) (pred : bool) : elm :=
  if genAlpha then
    let am := qabs b in let alpha := c - am in
    mkE A bv vec h a1 a2 (q_quart * (1 - alpha) * (1 - alpha)) (q_half - alpha) am c (qltb b 0) pred
  else mkE A bv vec h a1 a2 (qabs b) c 1 1 (qltb b 0) pred.
(** HHTMats.C:17-22 the constructor *)
Definition hhtMats (alpha a1 a2 : Qc) (A : list mat) (bv vec : list (list Qc)) (h : Qc) (pred : bool) : elm :=
  mkE A bv vec h a1 a2 (q_quart * (1 - alpha) * (1 - alpha)) (q_half - alpha) 1 1 false pred.
Definition mEmpty (m : mat) : bool := (length (elem m) =? 0)%nat.
(** A*x, MatVec.C:57-62 operator*: the product in a new vector (empty when rejected) *)
Definition matVec (A : mat) (x : list Qc) : option (list Qc) := bind (mulVec A x [] false 0) (fun r => Some (snd r)).
Definition mfill0 (m : mat) : mat := setElem m (zeroed (elem m)).
(** [N.add(A[k],s)] if A.size() > k *)
Definition addIf (A : list mat) (k : nat) (s : Qc) (N : mat) : mat :=
  match nth_error A k with Some B => madd B s N | None => N end.
(** NewmarkMats.C:43-79 getNewtonMatrix; [None]: the access A[1] is outside *)
Definition newmarkNewton (e : elm) : option mat :=
  match eA e with
  | [] => Some (mkMat 0 0 1 1 [])
  | A0 :: _ =>
    bind (nth_error (eA e) 1) (fun M =>
      let N := if mEmpty M then mfill0 A0 else mscale (eam e + eaf e * ea1 e * egamma e * eh e) M in
      let N := addIf (eA e) 2 (eaf e * (ea2 e * egamma e + ebeta e * eh e) * eh e) N in
      let N := addIf (eA e) 3 (eaf e * egamma e * eh e) N in
      Some (if eslv e then mscale (1 / (ebeta e * eh e * eh e)) N else N))
  end.
(** dF.add(A*x,s) *)
Definition subMV (A : mat) (x : list Qc) (s : Qc) (dF : list Qc) : option (list Qc) := bind (matVec A x) (fun y => Some (add1 dF y s)).
Definition have (A : list mat) (k : nat) : option mat := match nth_error A k with Some M => if mEmpty M then None else Some M | None => None end.
Definition onM (m : option mat) (cond : bool) (x : list Qc) (s : Qc) (dF : list Qc) : option (list Qc) :=
  match m with Some M => if cond then subMV M x s dF else Some dF | None => Some dF end.
(** NewmarkMats.C:82-131 getRHSVector *)
Definition newmarkRHS (e : elm) : option (list Qc) :=
  match eb e with
  | [] => Some []
  | dF :: rest =>
    if (length (evec e) <? 3)%nat then Some dF
    else
      let v := nth 1 (evec e) [] in let a := nth 2 (evec e) [] in
      bind (onM (have (eA e) 1) true a (- (1)) dF) (fun dF =>
      bind (match rest with fd :: _ => Some (add1 dF fd (- (1))) | [] => onM (have (eA e) 3) true v (- (1)) dF end) (fun dF =>
      bind (onM (have (eA e) 1) (qltb 0 (ea1 e)) v (- ea1 e) dF) (fun dF =>
      onM (have (eA e) 2) (qltb 0 (ea2 e)) v (- ea2 e) dF)))
  end.
(** HHTMats.C:25-72 getNewtonMatrix *)
Definition hhtNewton (e : elm) : option mat :=
  match eA e with
  | [] => Some (mkMat 0 0 1 1 [])
  | A0 :: _ =>
    let ap := q_3h - egamma e in let g := egamma e / (ebeta e * eh e) in
    bind (nth_error (eA e) 1) (fun M =>
      let N := if mEmpty M then mfill0 A0 else mscale (1 / (ebeta e * eh e * eh e) + ap * ea1 e * g) M in
      let N := addIf (eA e) 2 (ap + ap * ea2 e * g) N in
      let N := addIf (eA e) 3 ap N in
      Some (addIf (eA e) 4 (ap * g) N))
  end.
(** HHTMats.C:75-176 getRHSVector; [old] is oldHHT; the result is (RHS, Fia): the first two vectors in b *)
Definition hhtRHS (old : bool) (e : elm) : option (list Qc * option (list Qc)) :=
  match eb e with
  | [] => Some ([], None)
  | b0 :: rest =>
    if (length (evec e) <? 3)%nat then Some (b0, nth_error rest 0)
    else
      let v := nth 1 (evec e) [] in let a := nth 2 (evec e) [] in
      let ap := q_3h - egamma e in
      let pa := (length (evec e) - 1)%nat in
      bind (if (epred e || old) && (0 <? length rest)%nat then
              bind (onM (have (eA e) 1) (qltb 0 (ea1 e)) v (- ea1 e) (match nth_error rest 1 with Some x => add1 b0 x 1 | None => b0 end)) (fun F =>
              bind (onM (have (eA e) 2) (qltb 0 (ea2 e)) v (- ea2 e) F) (fun F =>
              bind (onM (have (eA e) 4) true v (- (1)) F) (fun F => Some (Some F))))
            else Some (nth_error rest 0)) (fun Fia =>
      let pm := negb old && epred e && (3 * (length (evec e) / 3) <? pa)%nat in
      bind (match have (eA e) 1 with
            | None => Some (b0, v)
            | Some M => if pm then bind (mulVec M (add1 (nth pa (evec e) []) a (- (1))) b0 false 0) (fun r => Some (snd r, nth (pa - 1) (evec e) []))
                        else bind (subMV M a (if old && epred e then 1 else - (1)) (vscale ap b0)) (fun r => Some (r, v))
            end) (fun rw => let '(R, w) := rw in
      let R := match nth_error rest 1 with Some x => if old then add1 R x ap else R | None => R end in
      let ap := if epred e then ap else - ap in
      bind (onM (have (eA e) 1) (qltb 0 (ea1 e)) w (ap * ea1 e) R) (fun R =>
      bind (onM (have (eA e) 2) (qltb 0 (ea2 e)) w (ap * ea2 e) R) (fun R =>
      bind (match nth_error rest 2 with Some fd => Some (add1 R fd ap) | None => onM (have (eA e) 4) true w ap R end) (fun R =>
      Some (R, Fia))))))
  end.

(** ** BDF *)
(** Utility/BDF.h:88-92; [degree] is 1 for BDF and 2 for BDFD2 *)
Record bdf := mkB { degree : nat; bstep : nat; coefs : list Qc; coefs1 : list Qc; coefs2 : list Qc }.
(** BDF.C:17-38 constructor and setOrder (a negative order leaves the arrays empty) *)
Definition bdfSetOrder (order : Z) (b : bdf) : bdf :=
  if (1 <? degree b)%nat then b
  else let c1 := if (order <? 1)%Z then [1] else [1; - (1)] in
       mkB (degree b) (bstep b) (if (order <? 2)%Z then c1 else [q_3h; - q_2; q_half]) c1 (coefs2 b).
Definition bdfNew (order : Z) : bdf :=
  let b := mkB 1 0 [] [] [] in if (0 <=? order)%Z then bdfSetOrder order b else b.
(** BDF.C:41-44 getOrder, BDF.h:48 getActualOrder *)
Definition bdfActual (b : bdf) : Z := (Z.of_nat (length (coefs b)) - Z.of_nat (degree b))%Z.
Definition bdfGetOrder (b : bdf) : Z := if (bstep b <? degree b + 1)%nat then (Z.of_nat (length (coefs1 b)) - 1)%Z else bdfActual b.
(** BDF.C:47-63 advanceStep *)
Definition bdfAdvance (dt dtn : Qc) (b : bdf) : bool * bdf :=
  if (length (coefs1 b) <? 2)%nat then (false, b)
  else
    let s := S (bstep b) in
    if (2 <? s)%nat && (degree b =? 1)%nat && (length (coefs b) =? 3)%nat && qltb 0 dt && qltb 0 dtn then
      let tau := dt / dtn in let t1 := tau + 1 in
      (true, mkB (degree b) s [(1 + q_2 * tau) / t1; - t1; tau * tau / t1] (coefs1 b) (coefs2 b))
    else (true, mkB (degree b) s (coefs b) (coefs1 b) (coefs2 b)).
(** BDF.C:66-69 and 93-101 getCoefs *)
Definition bdfCoefs (b : bdf) : list Qc :=
  if (bstep b <? 2)%nat then coefs1 b
  else if (degree b =? 2)%nat && (bstep b =? 2)%nat && (2 <=? bdfActual b)%Z then coefs2 b else coefs b.
(** BDF.h:63-71 extrapolate *)
Definition bdfExtrapolate (b : bdf) (v0 v1 : Qc) : Qc :=
  if (1 <? bstep b)%nat && (bdfActual b =? 2)%Z then q_2 * v0 - v1 else v0.
(** BDF.C:72-90 BDFD2; a negative order other than -1, -2 is not considered *)
Definition bdfd2New (order : Z) (step : nat) : bdf :=
  let c1 := if (order <? 1)%Z then [1] else [q_2; - q_2] in
  let c2 := if (1 <? order)%Z then [Q2Qc (5 # 2); - Q2Qc 8; Q2Qc (11 # 2)] else [] in
  let c := repeat 1 (Z.to_nat (if (order <=? 2)%Z then order + 2 else 4)) in
  let c := if (order =? 1)%Z then upd 1 (- q_2) c else if (2 <=? order)%Z then [q_2; - Q2Qc 5; Q2Qc 4; - (1)] else c in
  mkB 2 step c c1 c2.
(** BDFMats.C:17-33 getNewtonMatrix *)
Definition bdfNewton (b : bdf) (h : Qc) (A : list mat) : option mat :=
  bind (nth_error A 1) (fun M => bind (nth_error A 2) (fun K => bind (nth_error (bdfCoefs b) 0) (fun c =>
    Some (madd K 1 (mscale (c / (if (degree b =? 2)%nat then h * h else h)) M))))).
(** BDFMats.C:36-53 getRHSVector *)
Definition bdfRHS (b : bdf) (h : Qc) (A : list mat) (bv vec : list (list Qc)) : option (list Qc) :=
  bind (nth_error bv 0) (fun db =>
    if negb (length A =? 0)%nat && (3 <? length vec)%nat then
      bind (nth_error A 1) (fun M =>
        forN (length (bdfCoefs b)) (fun i db => bind (nth_error vec i) (fun x =>
          subMV M x (- nth i (bdfCoefs b) 0 / (if (degree b =? 2)%nat then h * h else h)) db)) db)
    else Some db).

(** ** The right-hand side of the HHT procedure *)
(** HHTSIM.C:116-145 finalizeRHSvector, with SIMbase.C addToRHSvector (vec.add(s,scale)); [R], [Fi] and
    [Rx] are the right-hand-side vectors 0, 1 and 2 of the model, [Fext] and [Finert] the members; a null
    pointer is [None]; adding a vector of zero norm is the same as skipping it.  Result: (RHS, Finert). *)
Definition hhtFinal (g : Qc) (predicting : bool) (R : list Qc) (Fi Rx Fext Finert : option (list Qc)) : list Qc * option (list Qc) :=
  let addO (v : list Qc) (x : option (list Qc)) (s : Qc) := match x with Some y => add1 v y s | None => v end in
  let Fin := if predicting then match Fi with Some f => Some (addO f Fext 1) | None => None end else Finert in
  let R := addO R Fin (if predicting then 1 else g - q_half) in
  let R := addO R Rx (q_3h - g) in
  (if predicting then addO R Fext (g - q_3h) else R, Fin).
