(** Theorems on the dynamic and nonlinear solution procedures (C53-C59). *)
From Coq Require Import List Arith ZArith QArith Qcanon Bool Lia Ascii.
From Verif Require Import Base QcLra Mat_model Mat_spec Mat_proofs Dyn_model Dyn_spec Dyn_proofs Dyn_proofs2 Dyn_proofs3 Dyn_proofs4.
Import ListNotations.
Local Open Scope Qc_scope.

Lemma qne (a b : Qc) : Qc_eq_bool a b = false -> a <> b.
Proof. intros H E0. subst. unfold Qc_eq_bool in H. destruct (Qc_eq_dec b b); [discriminate|contradiction]. Qed.
Ltac qneq := apply qne; vm_compute; reflexivity.
Ltac qcl := apply Qc_is_canon; vm_compute; reflexivity.

(** * C53 Newmark *)
(** the predictor satisfies the relations; 'a', 'v' and 'd' keep zero acceleration, the velocity, the displacement *)
Theorem C53_predict : forall p dt n s, usable p dt -> sized n s ->
  exists s', newmarkPredict p dt s = Some s' /\ sized n s' /\ newmarkRel (beta p) (gamma p) dt n s s' /\
    (predictor p = "a"%char -> forall k, nth k (acc s') 0 = 0) /\ (predictor p = "v"%char -> vel s' = vel s) /\ (predictor p = "d"%char -> dis s' = dis s).
Proof. exact newmarkPredict_ok. Qed.
(** any number of corrections with arbitrary solution increments keeps them *)
Theorem C53_corrections : forall p dt n old s lins, usable p dt -> sized n s -> newmarkRel (beta p) (gamma p) dt n old s -> (forall l, In l lins -> length l = n) ->
  let s' := fold_left (fun s l => newmarkCorrect p dt l s) lins s in sized n s' /\ newmarkRel (beta p) (gamma p) dt n old s'.
Proof.
  intros p dt n old s lins U Hs HR HL. revert s Hs HR. induction lins as [|l r IH]; intros s Hs HR; cbn [fold_left]; [auto|].
  destruct (newmarkCorrect_ok p dt n l old s U Hs (HL l (or_introl eq_refl)) HR) as [A B]. apply IH; auto. intros x Hx. apply HL. right; auto.
Qed.
(** a whole time step, whatever its norms, limits and final status *)
Theorem C53_step : forall p cp nl first last norms lin maxit c dt n s, usable p dt -> sized n s -> (forall k, length (lin k) = n) ->
  exists s0, newmarkPredict p dt s = Some s0 /\
    let s' := snd (fst (fst (iterate state (fun _ _ => newmarkCorrect p dt) cp nl first last norms lin maxit c s0))) in sized n s' /\ newmarkRel (beta p) (gamma p) dt n s s'.
Proof.
  intros p cp nl first last norms lin maxit c dt n s U Hs HL. destruct (newmarkPredict_ok p dt n s U Hs) as (s0 & E0 & S0 & R0 & _). exists s0. split; [auto|].
  apply (solveLoop_inv state (fun _ _ => newmarkCorrect p dt) cp nl first last norms lin (fun s' => sized n s' /\ newmarkRel (beta p) (gamma p) dt n s s')); [|auto].
  intros it cv k t [A B]. apply newmarkCorrect_ok; auto.
Qed.
Example C53_ex : usable (mkN q_quart q_half true "d") q_2 /\ sized 2 (mkS [1; q_2] [0; 1] [q_half; 0]).
Proof. split; [split; [right; right; repeat split; qneq|intros _; split; qneq]|repeat split]. Qed.
Print Assumptions C53_predict.
Print Assumptions C53_corrections.
Print Assumptions C53_step.

(** * C54 generalized alpha, HHT, nonlinear Newmark *)
(** during the iterations the solution is the alpha-mix of the old state and a new state satisfying the
    relations; it is the new state itself after convergence of the last sub-iteration *)
Theorem C54_genalpha : forall p am af cp nl first last norms lin maxit c dt n g, usable p dt -> sized n (gsol g) -> (forall k, length (lin k) = n) ->
  exists g0, genPredict p am af dt (genAdvance g) = Some g0 /\
    let r := iterate gstate (fun _ cv => genCorrect p am af dt cv) cp nl first last norms lin maxit c g0 in let g' := snd (fst (fst r)) in
    gprev g' = gsol g /\ newmarkRel (beta p) (gamma p) dt n (gsol g) (gtemp g') /\
    (if last then fst (fst (fst r)) = CONVERGED -> gsol g' = gtemp g' else True) /\
    ((if last then fst (fst (fst r)) <> CONVERGED else True) ->
      mixed af n (dis (gsol g')) (dis (gsol g)) (dis (gtemp g')) /\ mixed af n (vel (gsol g')) (vel (gsol g)) (vel (gtemp g')) /\ mixed am n (acc (gsol g')) (acc (gsol g)) (acc (gtemp g'))).
Proof.
  intros p am af cp nl first last norms lin maxit c dt n g U Hs HL. destruct (genPredict_ok p am af dt n g U Hs) as (g0 & E0 & P0 & I0). exists g0. split; [auto|]. cbv zeta. unfold iterate.
  generalize (Z.to_nat (maxit + 1)) as fuel. intros fuel. rewrite <- P0. clear E0 P0 Hs.
  assert (H : forall fuel it c g1, gprev g1 = gprev g0 -> genInv p am af dt n g1 ->
    let r := solveLoop gstate (fun _ cv => genCorrect p am af dt cv) cp nl first last norms lin fuel it c g1 in let g' := snd (fst (fst r)) in
    gprev g' = gprev g0 /\ newmarkRel (beta p) (gamma p) dt n (gprev g0) (gtemp g') /\ (if last then fst (fst (fst r)) = CONVERGED -> gsol g' = gtemp g' else True) /\ ((if last then fst (fst (fst r)) <> CONVERGED else True) -> genInv p am af dt n g')).
  { clear fuel c I0. induction fuel as [|f IH]; intros it c g1 P1 I1; cbn [solveLoop]; cbv zeta.
    - cbn [fst snd]. split; [auto|]. split; [rewrite <- P1; apply I1|]. split; [destruct last; [discriminate|auto]|auto].
    - destruct (checkConv cp nl first it (fst (norms it)) (snd (norms it)) c) as [st c'].
      destruct (genCorrect_ok p am af dt n (lin it) g1 false U I1 (HL it)) as (F1 & F2 & F3 & _ & F5).
      destruct st; cbn [fst snd]; try (apply IH; [congruence|auto]).
      + destruct (genCorrect_ok p am af dt n (lin it) g1 last U I1 (HL it)) as (A1 & A2 & A3 & A4 & A5). split; [congruence|]. split; [rewrite <- P1; auto|]. destruct last; [split; [auto|intros X; contradiction X; reflexivity]|auto].
      + split; [auto|]. split; [rewrite <- P1; apply I1|]. split; [destruct last; [discriminate|auto]|auto]. }
  destruct (H fuel 0%nat c g0 eq_refl I0) as (A & B & C & D). split; [auto|]. split; [auto|]. split; [auto|]. intros X. specialize (D X).
  destruct D as (_ & _ & _ & D1 & D2 & D3). rewrite A in *. auto.
Qed.
(** HHT: at least one iteration, not split in sub-iterations *)
Theorem C54_hht_partial : forall b g cp nl first norms lin maxit c dt n h, b <> 0 -> dt <> 0 -> sized n (hsol h) -> length (incDis h) = n -> (forall k, length (lin k) = n) ->
  let r := iterate hstate (hhtCorrect b g dt) cp nl first true norms lin maxit c (hhtPredict b g dt h) in
  (1 <= snd r)%nat -> newmarkRel b g dt n (hsol h) (hsol (snd (fst (fst r)))).
Proof.
  intros b g cp nl first norms lin maxit c dt n h B D Hs Hi HL. unfold iterate. cbv zeta. pose proof (hhtPredict_ok b g dt n h Hs Hi) as I0.
  destruct (Z.to_nat (maxit + 1)) as [|f]; cbn [solveLoop]; [cbn [snd]; lia|].
  destruct (checkConv cp nl first 0 (fst (norms 0%nat)) (snd (norms 0%nat)) c) as [st c']. destruct st; cbn [fst snd]; try lia; intros _.
  - apply (hht_loop b g dt n (hsol h) cp nl first norms lin B D HL f 1 c'); [lia|]. apply hhtCorrect_first; auto.
  - apply (hht_loop b g dt n (hsol h) cp nl first norms lin B D HL f 1 c'); [lia|]. apply hhtCorrect_first; auto.
Qed.
(** the relation is lost when the first check already succeeds (HHTSIM.C:213-226): the velocity becomes pV *)
Theorem C54_hht_immediate_refuted : exists b g dt h cp c norms lin, b <> 0 /\ dt <> 0 /\ sized 1 (hsol h) /\ length (incDis h) = 1%nat /\ (forall k, length (lin k) = 1%nat) /\
  let r := iterate hstate (hhtCorrect b g dt) cp false true true norms lin 10 c (hhtPredict b g dt h) in
  fst (fst (fst r)) = CONVERGED /\ snd r = 0%nat /\ ~ newmarkRel b g dt 1 (hsol h) (hsol (snd (fst (fst r)))).
Proof.
  exists q_quart, q_half, 1, (mkH (mkS [0] [1] [0]) [0] [0] [0]), (mkC (Q2Qc (1 # 100)) 1 q_2 10 true), (mkCs 0 0 0 0), (fun _ => (q_half, q_half)), (fun _ => [q_half]).
  split; [qneq|]. split; [qneq|]. split; [repeat split|]. split; [reflexivity|]. split; [reflexivity|]. cbv zeta. split; [vm_compute; reflexivity|]. split; [vm_compute; reflexivity|].
  intros R. destruct (R 0%nat ltac:(lia)) as [_ R2]. revert R2. qneq.
Qed.
(** and in the second of two sub-iterations, each of one iteration or more *)
Theorem C54_hht_subiteration_refuted : exists b g dt h cp c norms lin, b <> 0 /\ dt <> 0 /\ sized 1 (hsol h) /\ length (incDis h) = 1%nat /\ (forall k, length (lin k) = 1%nat) /\
  let r1 := iterate hstate (hhtCorrect b g dt) cp false true false norms lin 10 c (hhtPredict b g dt h) in
  let r2 := iterate hstate (hhtCorrect b g dt) cp false false true norms lin 10 (snd (fst r1)) (snd (fst (fst r1))) in
  fst (fst (fst r1)) = CONVERGED /\ snd r1 = 2%nat /\ fst (fst (fst r2)) = CONVERGED /\ snd r2 = 2%nat /\
  newmarkRel b g dt 1 (hsol h) (hsol (snd (fst (fst r1)))) /\ ~ newmarkRel b g dt 1 (hsol h) (hsol (snd (fst (fst r2)))).
Proof.
  exists q_quart, q_half, 1, (mkH (mkS [0] [1] [0]) [0] [0] [0]), (mkC (Q2Qc (1 # 100)) (Q2Qc (1 # 1000)) q_2 10 false), (mkCs 0 0 0 0),
    (fun k => match k with O => (1, 1) | S O => (q_half, q_half) | _ => (0, 0) end), (fun k => match k with O => [1] | S O => [q_half] | _ => [0] end).
  split; [qneq|]. split; [qneq|]. split; [repeat split|]. split; [reflexivity|]. split; [intros [|[|k]]; reflexivity|]. cbv zeta.
  split; [vm_compute; reflexivity|]. split; [vm_compute; reflexivity|]. split; [vm_compute; reflexivity|]. split; [vm_compute; reflexivity|]. split.
  - intros k Hk. destruct k; [|lia]. split; qcl.
  - intros R. destruct (R 0%nat ltac:(lia)) as [_ R2]. revert R2. qneq.
Qed.
(** nonlinear Newmark: after any sequence of corrections and displacement updates that ends with a correction *)
Theorem C54_nonlinear_newmark : forall b g dt n h ops lin, b <> 0 -> dt <> 0 -> sized n (hsol h) -> length (incDis h) = n -> (forall o, In o ops -> opLen o = n) -> length lin = n ->
  newmarkRel b g dt n (hsol h) (hsol (nlRun b g dt (ops ++ [Corr lin]) (nlPredict b g dt h))).
Proof.
  intros b g dt n h ops lin B D Hs Hi HO HL. unfold nlRun. rewrite fold_left_app. cbn [fold_left].
  assert (H : hhtInv b g dt n (hsol h) (fold_left (fun h0 o => match o with Corr l => nlCorrect b g dt l h0 | SetSol u => hhtSetSolution u h0 end) ops (nlPredict b g dt h))).
  { assert (G : forall ops h0, (forall o, In o ops -> opLen o = n) -> hhtInv b g dt n (hsol h) h0 -> hhtInv b g dt n (hsol h) (fold_left (fun h0 o => match o with Corr l => nlCorrect b g dt l h0 | SetSol u => hhtSetSolution u h0 end) ops h0)).
    { clear ops HO. induction ops as [|o r IH]; intros h0 HO I0; cbn [fold_left]; [auto|]. apply IH; [intros; apply HO; right; auto|]. pose proof (HO o (or_introl eq_refl)) as L. destruct o; cbn [opLen] in L; [apply nlCorrect_ok; auto|apply hhtSetSolution_ok; auto]. }
    apply G; auto. apply nlPredict_ok; auto. }
  apply nlCorrect_ok; auto.
Qed.
(** its predictor leaves the displacements and stores the negative of the velocity and acceleration that satisfy the relations *)
Theorem C54_nonlinear_predict : forall b g dt n h, b <> 0 -> dt <> 0 -> sized n (hsol h) -> length (incDis h) = n ->
  let s := hsol (nlPredict b g dt h) in
  dis s = dis (hsol h) /\ sized n s /\ newmarkRel b g dt n (hsol h) (mkS (dis s) (map Qcopp (vel s)) (map Qcopp (acc s))).
Proof.
  intros b g dt n h B D (L1 & L2 & L3) Li. pose proof (nlPredict_ok b g dt n h (conj L1 (conj L2 L3)) Li) as ((M1 & M2 & M3) & M4 & M5 & _ & H). cbv zeta. split; [reflexivity|]. split; [repeat split; auto|].
  assert (N : forall k (v w : list Qc), length v = n -> w = vscale (- (1)) v -> (k < n)%nat -> nth k (map Qcopp v) 0 = nth k w 0).
  { intros k v w L -> Hk. rewrite (vscale_nth n) by auto. rewrite (nth_indep _ 0 (Qcopp 0)) by (rewrite map_length; lia). rewrite map_nth. ring. }
  intros k Hk. destruct (H k Hk) as (H1 & H2 & H3). cbn [dis vel acc]. rewrite (N k (vel (hsol (nlPredict b g dt h))) (pV (nlPredict b g dt h)) M2 eq_refl Hk), (N k (acc (hsol (nlPredict b g dt h))) (pA (nlPredict b g dt h)) M3 eq_refl Hk), H1, H2.
  cbn [nlPredict hsol dis]. split; qfield.
Qed.
(** the simulators and the element matrices use the same beta and gamma, and these are the ones which make the method second-order accurate *)
Theorem C54_parameters : forall alpha rho a1 a2 A bv vec h pred, 1 + rho <> 0 ->
  (let '(am, af, b, g) := fromAlpha alpha in
    (let e := newmarkMats a1 a2 am af true A bv vec h pred in ebeta e = b /\ egamma e = g /\ eam e = am /\ eaf e = af) /\
    (let e := hhtMats alpha a1 a2 A bv vec h pred in ebeta e = b /\ egamma e = g) /\
    g = q_half + am - af /\ b = q_quart * (1 + am - af) * (1 + am - af)) /\
  (let '(am, af, b, g) := fromRho rho in
    g = q_half + am - af /\ b = q_quart * (1 + am - af) * (1 + am - af) /\ am * (1 + rho) = q_2 - rho /\ af * (1 + rho) = 1 /\
    (0 <= am -> let e := newmarkMats a1 a2 am af true A bv vec h pred in ebeta e = b /\ egamma e = g /\ eam e = am /\ eaf e = af)).
Proof.
  intros alpha rho a1 a2 A bv vec h pred N. assert (Q1 : qabs 1 = 1) by (vm_compute; reflexivity). unfold fromAlpha, fromRho, newmarkMats, hhtMats. split.
  - split; [cbn [ebeta egamma eam eaf]; rewrite Q1; repeat split; ring|]. split; [cbn; auto|]. split; ring.
  - cbv zeta. split; [ring|]. split; [ring|]. split; [field; auto|]. split; [field; auto|]. intros P.
    assert (Q : qabs ((q_2 - rho) / (1 + rho)) = (q_2 - rho) / (1 + rho)) by (unfold qabs; pose proof (qltb_spec ((q_2 - rho) / (1 + rho)) 0) as T; destruct (qltb ((q_2 - rho) / (1 + rho)) 0); [exfalso; qclra|auto]).
    cbn [ebeta egamma eam eaf]. rewrite Q. repeat split.
Qed.
Example C54_ex : let r := iterate hstate (hhtCorrect q_quart q_half 1) (mkC (Q2Qc (1 # 100)) (Q2Qc (1 # 1000)) q_2 10 false) false true true
    (fun k => match k with O => (1, 1) | S O => (q_half, q_half) | _ => (0, 0) end) (fun k => match k with O => [1] | S O => [q_half] | _ => [0] end) 10 (mkCs 0 0 0 0) (hhtPredict q_quart q_half 1 (mkH (mkS [0] [1] [0]) [0] [0] [0])) in
  fst (fst (fst r)) = CONVERGED /\ snd r = 2%nat /\ map this (vel (hsol (snd (fst (fst r))))) = [2%Q].
Proof. vm_compute. auto. Qed.
Print Assumptions C54_genalpha.
Print Assumptions C54_hht_partial.
Print Assumptions C54_hht_immediate_refuted.
Print Assumptions C54_hht_subiteration_refuted.
Print Assumptions C54_nonlinear_newmark.
Print Assumptions C54_nonlinear_predict.
Print Assumptions C54_parameters.

(** * C55 the Newton matrix is the derivative of the residual *)
(** Newmark and generalized alpha, linear elements (b = F - K u): moving the state along the increment x
    as the corrector does changes the element residual by -N x *)
Theorem C55_newmark : forall n e b0 b0' u v a u' v' a' x fA fM fK fC p, (1 <= n)%nat -> (2 <= length (eA e))%nat ->
  (exists A0, nth_error (eA e) 0 = Some A0 /\ isMat n n fA A0) -> elmMat n (eA e) 1 fM -> elmMat n (eA e) 2 fK -> elmMat n (eA e) 3 fC ->
  0 <= ea1 e -> 0 <= ea2 e -> (eslv e = true -> ebeta e <> 0 /\ eh e <> 0) ->
  length b0 = n -> length b0' = n -> length v = n -> length a = n ->
  (let c := if eslv e then 1 / (ebeta e * eh e * eh e) else 1 in
   moved n (c * eaf e * ebeta e * eh e * eh e) u x u' /\ moved n (c * eaf e * egamma e * eh e) v x v' /\ moved n (c * eam e) a x a') ->
  (forall i, (i < n)%nat -> nth i b0' 0 + mv n fK u' i = nth i b0 0 + mv n fK u i) ->
  exists R R' N f, newmarkRHS (withData e [b0] [u; v; a] p) = Some R /\ newmarkRHS (withData e [b0'] [u'; v'; a'] p) = Some R' /\
    newmarkNewton e = Some N /\ isMat n n f N /\ isVec n (fun i => nth i R 0 - mv n f x i) R'.
Proof. exact newmark_consistent. Qed.
(** the corrector moves the state in exactly this way *)
Theorem C55_corrector_moves : forall p dt n lin s, usable p dt -> sized n s -> length lin = n ->
  let c := if solveDisp p then 1 / (beta p * dt * dt) else 1 in let s' := newmarkCorrect p dt lin s in
  moved n (c * 1 * beta p * dt * dt) (dis s) lin (dis s') /\ moved n (c * 1 * gamma p * dt) (vel s) lin (vel s') /\ moved n (c * 1) (acc s) lin (acc s').
Proof.
  intros p dt n lin s [_ U] (L1 & L2 & L3) L. cbv zeta. unfold newmarkCorrect; cbn [dis vel acc].
  repeat split; try (lens; fail); intros k Hk; rewrite (add1_nth n) by auto; (destruct (solveDisp p); [destruct (U eq_refl) as [B D]|]; qfield).
Qed.
(** HHT: the predictor residual is the alpha-residual of the predicted state v - V, a - A, with the inertia
    force from the equilibrium of the previous step; [Rx] and [Fx] are the external loads of this and the last step *)
Theorem C55_hht_predictor : forall n e b0 b1 u v a V Ac fM fK fC Rx Fx, (1 <= n)%nat -> length b0 = n -> length v = n -> length a = n -> length V = n -> length Ac = n -> length Rx = n -> length Fx = n ->
  massive n e fM -> elmMat n (eA e) 2 fK -> elmMat n (eA e) 4 fC -> 0 <= ea1 e -> 0 <= ea2 e ->
  exists R Fi Fin, hhtRHS false (withData e [b0; b1] [u; v; a; V; Ac] true) = Some (R, Fi) /\
    snd (hhtFinal (egamma e) true R Fi (Some Rx) (Some Fx) None) = Some Fin /\
    isVec n (fun i => nth i Fx 0 + nth i b0 0 - (ea1 e * mv n fM v i + ea2 e * mv n fK v i + mv n fC v i)) Fin /\
    forall vp acp, moved n (- (1)) v V vp -> moved n (- (1)) a Ac acp ->
    isVec n (alphaRes n e fM fK fC b0 vp acp Rx Fin) (fst (hhtFinal (egamma e) true R Fi (Some Rx) (Some Fx) None)).
Proof. exact hht_predictor. Qed.
Theorem C55_hht_corrector_partial : forall n e b0 b1 u v a fM fK fC Rx Fin, (1 <= n)%nat -> length b0 = n -> length v = n -> length a = n -> length Rx = n -> length Fin = n ->
  massive n e fM -> elmMat n (eA e) 2 fK -> elmMat n (eA e) 4 fC -> 0 <= ea1 e -> 0 <= ea2 e ->
  exists R Fi, hhtRHS false (withData e [b0; b1] [u; v; a] false) = Some (R, Fi) /\
    isVec n (alphaRes n e fM fK fC b0 v a Rx Fin) (fst (hhtFinal (egamma e) false R Fi (Some Rx) None (Some Fin))).
Proof. exact hht_corrector. Qed.
(** and the Newton matrix is minus the derivative of the alpha-residual (b = F - (K + Kg) u) *)
Theorem C55_hht_newton : forall n e b0 b0' u v a u' v' a' x fA fM fK fG fC Rx Fin, (1 <= n)%nat -> (2 <= length (eA e))%nat ->
  (exists A0, nth_error (eA e) 0 = Some A0 /\ isMat n n fA A0) -> elmMat n (eA e) 1 fM -> elmMat n (eA e) 2 fK -> elmMat n (eA e) 3 fG -> elmMat n (eA e) 4 fC ->
  moved n 1 u x u' -> moved n (egamma e / (ebeta e * eh e)) v x v' -> moved n (1 / (ebeta e * eh e * eh e)) a x a' ->
  (forall i, (i < n)%nat -> nth i b0' 0 + mv n fK u' i + mv n fG u' i = nth i b0 0 + mv n fK u i + mv n fG u i) ->
  exists N f, hhtNewton e = Some N /\ isMat n n f N /\
    forall i, (i < n)%nat -> alphaRes n e fM fK fC b0' v' a' Rx Fin i = alphaRes n e fM fK fC b0 v a Rx Fin i - mv n f x i.
Proof. exact hht_newton. Qed.
(** nonlinear Newmark (oldHHT): with the negated vectors in the predictor and the actual ones in the corrector *)
Theorem C55_nonlinear_newmark : forall n e b0 b1 bx u v a vs acs fM fK fC (pr : bool) Fin, (1 <= n)%nat -> length b0 = n -> length b1 = n -> length bx = n -> length v = n -> length a = n -> length Fin = n ->
  massive n e fM -> elmMat n (eA e) 2 fK -> elmMat n (eA e) 4 fC -> 0 <= ea1 e -> 0 <= ea2 e ->
  moved n (if pr then - (1) else 1) (repeat 0 n) v vs -> moved n (if pr then - (1) else 1) (repeat 0 n) a acs ->
  exists R Fi, hhtRHS true (withData e [b0; b1; bx] [u; vs; acs] pr) = Some (R, Some Fi) /\
    isVec n (fun i => nth i b0 0 + nth i bx 0 - ea1 e * mv n fM vs i - ea2 e * mv n fK vs i - mv n fC vs i) Fi /\
    isVec n (alphaRes n e fM fK fC b0 v a bx Fin) (add1 R Fin (egamma e - q_half)).
Proof.
  intros n e b0 b1 bx u v a vs acs fM fK fC pr Fin Hn L0 L1 Lx Lv La LF HM HK HC P1 P2 Mv Ma.
  destruct (hhtRHS_old n (withData e [b0; b1; bx] [u; vs; acs] pr) b0 [b1; bx] u vs acs fM fK fC) as (R & F & ER & VF & VR); auto; [cbn; lia|intros y [<-|[<-|[]]]; auto|apply Mv|apply Ma|].
  exists R, F. split; [exact ER|]. split; [exact VF|]. eapply isVec_ext; [|apply isVec_addO; [exact VR|exact LF]]. intros i Hi. cbv beta zeta. unfold alphaRes, ext. cbn [withData epred egamma ea1 ea2 nth_error].
  assert (Z : forall f, mv n f (repeat 0 n) i = 0). { intros f. unfold mv, sumTo. apply qs_zero. intros j _. rewrite nth_repeat. ring. }
  rewrite (mv_moved n fM _ _ v vs i Mv), (mv_moved n fK _ _ v vs i Mv), (mv_moved n fC _ _ v vs i Mv), (mv_moved n fM _ _ a acs i Ma), !Z. destruct pr; qfield.
Qed.
Definition scal (x : Qc) : mat := mkMat 1 1 1 1 [x].
Lemma scal_ok x : isMat 1 1 (fun _ _ => x) (scal x).
Proof. split; [reflexivity|]. split; [reflexivity|]. split; [left; split; reflexivity|]. split; [reflexivity|]. intros i j Hi Hj. destruct i; [|lia]. destruct j; [reflexivity|lia]. Qed.
(** an element without mass matrix: its corrector residual lacks the factor 1 + alpha (HHTMats.C:134-155), so it
    is neither the alpha-residual nor consistent with the Newton matrix *)
Theorem C55_hht_massless_refuted : exists e u v a u' v' a' b0 b0' x fK R R' N k, eA e = [scal 0; mkMat 0 0 1 1 []; scal k] /\ ea1 e = 0 /\ ea2 e = 0 /\
  fK = (fun _ _ : nat => k) /\ moved 1 1 u x u' /\ moved 1 (egamma e / (ebeta e * eh e)) v x v' /\ moved 1 (1 / (ebeta e * eh e * eh e)) a x a' /\
  nth 0 b0' 0 + mv 1 fK u' 0 = nth 0 b0 0 + mv 1 fK u 0 /\
  hhtRHS false (withData e [b0; [0]] [u; v; a] false) = Some R /\ hhtRHS false (withData e [b0'; [0]] [u'; v'; a'] false) = Some R' /\
  hhtNewton e = Some N /\ nth 0 (fst R') 0 <> nth 0 (fst R) 0 - nth 0 (elem N) 0 * nth 0 x 0.
Proof.
  exists (mkE [scal 0; mkMat 0 0 1 1 []; scal 1] [] [] 1 0 0 (Q2Qc (121 # 400)) (Q2Qc (6 # 10)) 1 1 false false).
  exists [0], [0], [0], [1], [Q2Qc (6 # 10) / (Q2Qc (121 # 400) * 1)], [1 / (Q2Qc (121 # 400) * 1 * 1)], [0], [- (1)], [1], (fun _ _ => 1).
  eexists; eexists; eexists; exists 1. split; [reflexivity|]. split; [reflexivity|]. split; [reflexivity|]. split; [reflexivity|].
  split; [split; [reflexivity|intros k Hk; destruct k; [qcl|lia]]|]. split; [split; [reflexivity|intros k Hk; destruct k; [qcl|lia]]|]. split; [split; [reflexivity|intros k Hk; destruct k; [qcl|lia]]|].
  split; [qcl|]. split; [vm_compute; reflexivity|]. split; [vm_compute; reflexivity|]. split; [vm_compute; reflexivity|]. qneq.
Qed.
(** negative Rayleigh coefficients enter the Newton matrix but not the residual *)
Theorem C55_negative_damping_refuted : exists e v a v' a' x R R' N, eA e = [scal 0; scal 1] /\ ea1 e = - (1) /\
  moved 1 (egamma e * eh e) v x v' /\ moved 1 1 a x a' /\ newmarkRHS (withData e [[0]] [[0]; v; a] false) = Some R /\ newmarkRHS (withData e [[0]] [[0]; v'; a'] false) = Some R' /\
  newmarkNewton e = Some N /\ nth 0 R' 0 <> nth 0 R 0 - nth 0 (elem N) 0 * nth 0 x 0.
Proof.
  exists (mkE [scal 0; scal 1] [] [] 1 (- (1)) 0 q_quart q_half 1 1 false false), [0], [0], [q_half], [1], [1].
  eexists; eexists; eexists. split; [reflexivity|]. split; [reflexivity|]. split; [split; [reflexivity|intros k Hk; destruct k; [qcl|lia]]|]. split; [split; [reflexivity|intros k Hk; destruct k; [qcl|lia]]|].
  split; [vm_compute; reflexivity|]. split; [vm_compute; reflexivity|]. split; [vm_compute; reflexivity|]. qneq.
Qed.
Example C55_ex : let e := mkE [scal 0; scal 1; scal q_2; scal 0; scal 1] [] [] 1 0 q_half q_quart q_half 1 1 false false in
  massive 1 e (fun _ _ => 1) /\ elmMat 1 (eA e) 2 (fun _ _ => q_2) /\ elmMat 1 (eA e) 4 (fun _ _ => 1) /\ 0 <= ea2 e.
Proof. repeat split; [exists (scal 1); split; [reflexivity|apply scal_ok]|left; apply scal_ok|left; apply scal_ok|apply Qclt_le_weak; reflexivity]. Qed.
Print Assumptions C55_newmark.
Print Assumptions C55_corrector_moves.
Print Assumptions C55_hht_predictor.
Print Assumptions C55_hht_corrector_partial.
Print Assumptions C55_hht_newton.
Print Assumptions C55_nonlinear_newmark.
Print Assumptions C55_hht_massless_refuted.
Print Assumptions C55_negative_damping_refuted.

(** * C56 BDF *)
(** first order, from the first step on: exact for linear functions *)
Theorem C56_order1 : forall hs t dt dtn cs, (length cs <= 2)%nat -> combineAt (bdfCoefs (run (bdfNew 1) (hs ++ [(dt, dtn)]))) (peval cs) [t; t - dt] = dt * pderiv cs t.
Proof. intros hs t dt dtn cs L. rewrite bdf1_coefs by (rewrite app_length; cbn; lia). apply bdf1_exact; auto. Qed.
(** second order: the first step is of first order; exact for quadratic functions from the third step on, whatever the
    positive step sizes before, and in the second step when the two steps are equal *)
Theorem C56_order2_first : forall t dt dtn cs, (length cs <= 2)%nat -> combineAt (bdfCoefs (run (bdfNew 2) [(dt, dtn)])) (peval cs) [t; t - dt] = dt * pderiv cs t.
Proof. intros t dt dtn cs L. rewrite bdf2_first by reflexivity. apply bdf1_exact; auto. Qed.
Theorem C56_order2 : forall hs t dt dtn cs, (2 <= length hs)%nat -> 0 < dt -> 0 < dtn -> (length cs <= 3)%nat ->
  combineAt (bdfCoefs (run (bdfNew 2) (hs ++ [(dt, dtn)]))) (peval cs) [t; t - dt; t - dt - dtn] = dt * pderiv cs t.
Proof. intros hs t dt dtn cs L D1 D2 Lc. rewrite bdf2_coefs by auto. apply bdf2_exact; auto. Qed.
Theorem C56_order2_second_partial : forall h0 dt dtn t cs, (length cs <= 3)%nat -> combineAt (bdfCoefs (run (bdfNew 2) [h0; (dt, dtn)])) (peval cs) [t; t - dt; t - dt - dt] = dt * pderiv cs t.
Proof. intros. rewrite bdf2_second. apply bdf2_const; auto. Qed.
(** in the second step with another step size than in the first one it is not even exact for linear functions (BDF.C:52) *)
Theorem C56_order2_second_refuted : exists h0 dt dtn t cs, 0 < dt /\ 0 < dtn /\ (length cs <= 2)%nat /\
  combineAt (bdfCoefs (run (bdfNew 2) [h0; (dt, dtn)])) (peval cs) [t; t - dt; t - dt - dtn] <> dt * pderiv cs t.
Proof. exists (q_2, 1), 1, q_2, 0, [0; 1]. split; [reflexivity|]. split; [reflexivity|]. split; [cbn; lia|]. qneq. Qed.
(** second-order problems: the first two steps assume a zero derivative at t = 0, the later ones are exact for cubic
    functions (order 2) or quadratic functions (order 1); constant step size *)
Theorem C56_second_derivative : forall o hs t dt cs, (1 <= o)%Z -> let w := bdfCoefs (run (bdfd2New o 0) hs) in
  (length hs = 1%nat -> (length cs <= 3)%nat -> pderiv cs 0 = 0 -> combineAt w (peval cs) (times 1 dt dt) = dt * dt * pderiv2 cs dt) /\
  (length hs = 2%nat -> (2 <= o)%Z -> (length cs <= 4)%nat -> pderiv cs 0 = 0 -> combineAt w (peval cs) (times 2 (q_2 * dt) dt) = dt * dt * pderiv2 cs (q_2 * dt)) /\
  ((3 <= length hs)%nat -> (2 <= o)%Z -> (length cs <= 4)%nat -> combineAt w (peval cs) (times 3 t dt) = dt * dt * pderiv2 cs t) /\
  ((2 <= length hs)%nat -> o = 1%Z -> (length cs <= 3)%nat -> combineAt w (peval cs) (times 2 t dt) = dt * dt * pderiv2 cs t).
Proof.
  intros o hs t dt cs Ho w. unfold w. rewrite bdfd2_coefs by auto. cbv zeta. rewrite Nat.add_0_l. repeat split.
  - intros -> L D. apply bdfd2_first; auto.
  - intros -> O2 L D. destruct (Z.eqb_spec o 1); [lia|]. apply bdfd2_second; auto.
  - intros L3 O2 L. destruct (Nat.ltb_spec (length hs) 2); [lia|]. destruct (Z.eqb_spec o 1); [lia|]. destruct (Nat.eqb_spec (length hs) 2); [lia|]. apply bdfd2_exact; auto.
  - intros L2 -> L. destruct (Nat.ltb_spec (length hs) 2); [lia|]. apply bdfd2_exact1; auto.
Qed.
(** the second-order extrapolation is exact for linear functions with equal steps, not for unequal ones *)
Theorem C56_extrapolate_partial : forall b dt t cs, (1 < bstep b)%nat -> bdfActual b = 2%Z -> (length cs <= 2)%nat ->
  bdfExtrapolate b (peval cs (t - dt)) (peval cs (t - dt - dt)) = peval cs t.
Proof.
  intros b dt t cs H1 H2 L. destruct (bdf_extrapolate b dt t cs) as [X|[X|X]]; [auto| |lia]. apply Nat.ltb_lt in H1. apply Z.eqb_eq in H2. rewrite H1, H2 in X. discriminate X.
Qed.
Theorem C56_extrapolate_variable_refuted : exists hs dt dtn t cs, (2 <= length hs)%nat /\ 0 < dt /\ 0 < dtn /\ (length cs <= 2)%nat /\
  bdfExtrapolate (run (bdfNew 2) (hs ++ [(dt, dtn)])) (peval cs (t - dt)) (peval cs (t - dt - dtn)) <> peval cs t.
Proof. exists [(1, 1); (1, 1)], q_2, 1, 0, [0; 1]. split; [cbn; lia|]. split; [reflexivity|]. split; [reflexivity|]. split; [cbn; lia|]. qneq. Qed.
(** the order in use: 1 in the first step, 2 afterwards *)
Theorem C56_order : forall hs, (1 <= length hs)%nat -> bdfGetOrder (run (bdfNew 2) hs) = (if (length hs =? 1)%nat then 1 else 2)%Z /\
  (Z.of_nat (length (bdfCoefs (run (bdfNew 2) hs))) = bdfGetOrder (run (bdfNew 2) hs) + 1)%Z.
Proof.
  intros hs L. destruct (run_shape (bdfNew 2) hs) as ((A1 & A2 & A3 & A4) & B & _); [exact (le_n 2)|].
  unfold bdfGetOrder, bdfActual, bdfCoefs. rewrite A1, A2, A4, B. change (bstep (bdfNew 2)) with 0%nat. change (degree (bdfNew 2)) with 1%nat. rewrite Nat.add_0_l. change (1 + 1)%nat with 2%nat.
  destruct (Nat.eqb_spec (length hs) 1) as [->|N]; [split; reflexivity|]. destruct (Nat.ltb_spec (length hs) 2); [lia|]. cbn [Nat.eqb andb]. rewrite A4. split; reflexivity.
Qed.
(** element matrices: the residual b - M sum c_k x_k / h^d and its derivative *)
Theorem C56_element_partial : forall n b h M K A0 b0 vec fM fK c cs, (1 <= n)%nat -> isMat n n fM M -> isMat n n fK K -> length b0 = n -> (4 <= length vec)%nat -> bdfCoefs b = c :: cs -> (length (c :: cs) <= length vec)%nat -> (forall x, In x vec -> length x = n) ->
  let hd := if (degree b =? 2)%nat then h * h else h in
  (exists R, bdfRHS b h [A0; M; K] [b0] vec = Some R /\ isVec n (fun i => nth i b0 0 - sumTo (length (c :: cs)) (fun k => nth k (c :: cs) 0 / hd * mv n fM (nth k vec []) i)) R) /\
  (exists N, bdfNewton b h [A0; M; K] = Some N /\ isMat n n (fun i j => c / hd * fM i j + fK i j) N).
Proof.
  intros n b h M K A0 b0 vec fM fK c cs Hn HM HK Lb L4 EC LC LV. cbv zeta. split.
  - destruct (bdfRHS_ok n b h M K A0 b0 vec fM Hn HM Lb L4) as (R & E0 & V); [rewrite EC; auto|auto|]. exists R. rewrite EC in V. auto.
  - apply (bdfNewton_ok n b h M K A0 c cs); auto.
Qed.
(** with exactly the three vectors that the first-order scheme needs, the inertia terms are left out (BDFMats.C:38) *)
Theorem C56_element_refuted : exists hs M K b0 vec R, bdfCoefs (run (bdfd2New 1 0) hs) = [1; - q_2; 1] /\ length vec = 3%nat /\ M = scal 1 /\
  bdfRHS (run (bdfd2New 1 0) hs) 1 [scal 0; M; K] [b0] vec = Some R /\ nth 0 R 0 <> nth 0 b0 0 - sumTo 3 (fun k => nth k [1; - q_2; 1] 0 * nth 0 (nth k vec []) 0).
Proof.
  exists [(1, 1); (1, 1)], (scal 1), (scal 0), [0], [[1]; [0]; [0]]. eexists. split; [vm_compute; reflexivity|]. split; [reflexivity|]. split; [reflexivity|]. split; [vm_compute; reflexivity|]. qneq.
Qed.
Example C56_ex : map this (bdfCoefs (run (bdfNew 2) [(1, 1); (1, 1); (q_2, 1)])) = [(5 # 3)%Q; (-3)%Q; (4 # 3)%Q].
Proof. vm_compute. reflexivity. Qed.
Print Assumptions C56_order1.
Print Assumptions C56_order2_first.
Print Assumptions C56_order2.
Print Assumptions C56_order2_second_partial.
Print Assumptions C56_order2_second_refuted.
Print Assumptions C56_second_derivative.
Print Assumptions C56_extrapolate_partial.
Print Assumptions C56_extrapolate_variable_refuted.
Print Assumptions C56_order.
Print Assumptions C56_element_partial.
Print Assumptions C56_element_refuted.

(** * C57 convergence control *)
(** the step ends at the first iteration where the tolerance is met or divergence is detected, or after maxit + 1 checks *)
Theorem C57_status : forall ST (correct : nat -> bool -> list Qc -> ST -> ST) p nl first last norms lin maxit c s, 0 <= refNorm c -> 0 <= aTol p -> (0 <= maxIncr p)%Z ->
  let r := iterate ST correct p nl first last norms lin maxit c s in let st := fst (fst (fst r)) in let k := snd r in
  (((st = CONVERGED \/ st = DIVERGED) /\ (Z.of_nat k <= maxit)%Z /\ isStatus p nl first norms (refNorm c) k st) \/ (st = DIVERGED /\ k = Z.to_nat (maxit + 1))) /\
  forall j, (j < k)%nat -> isStatus p nl first norms (refNorm c) j OK \/ isStatus p nl first norms (refNorm c) j SLOW.
Proof. exact iterate_outcome. Qed.
(** one increment is added per iteration, and the last one when the step has converged *)
Theorem C57_updates : forall p nl first last norms lin maxit c,
  let r := iterate (list (list Qc)) (fun _ _ l s => s ++ [l]) p nl first last norms lin maxit c [] in
  snd (fst (fst r)) = map lin (seq 0 (snd r + (match fst (fst (fst r)) with CONVERGED => 1 | _ => 0 end))).
Proof.
  intros p nl first last norms lin maxit c. cbv zeta. unfold iterate.
  assert (H : forall fuel it c, let r := solveLoop (list (list Qc)) (fun _ _ l s => s ++ [l]) p nl first last norms lin fuel it c (map lin (seq 0 it)) in
    snd (fst (fst r)) = map lin (seq 0 (snd r + (match fst (fst (fst r)) with CONVERGED => 1 | _ => 0 end)))).
  { induction fuel as [|f IH]; intros it c0; cbn [solveLoop]; cbv zeta; [cbn [fst snd]; rewrite Nat.add_0_r; reflexivity|].
    assert (E0 : map lin (seq 0 it) ++ [lin it] = map lin (seq 0 (S it))) by (rewrite seq_S, map_app; reflexivity).
    destruct (checkConv p nl first it (fst (norms it)) (snd (norms it)) c0) as [st c']. destruct st; cbn [fst snd]; rewrite ?E0; try apply IH; [rewrite Nat.add_1_r; reflexivity|rewrite Nat.add_0_r; reflexivity]. }
  exact (H _ 0%nat c).
Qed.
(** "converged" should mean: below aTol, or below rTol times the largest norm seen in the simulation.  When a step has
    used the absolute tolerance, the reference norm is set to 1 (NewmarkSIM.C:571), and a later step converges with
    a norm that meets neither *)
Theorem C57_reference_refuted : exists p norms1 norms2 lin, 0 < rTol p /\ 0 < aTol p /\
  let r1 := iterate unit (fun _ _ _ s => s) p false true true norms1 lin 10 (mkCs 0 0 0 0) tt in
  let r2 := iterate unit (fun _ _ _ s => s) p false true true norms2 lin 10 (snd (fst r1)) tt in
  fst (fst (fst r1)) = CONVERGED /\ fst (fst (fst r2)) = CONVERGED /\ snd r2 = 1%nat /\
  aTol p < qabs (fst (norms2 1%nat)) /\ (forall j, rTol p * qabs (fst (norms1 j)) < qabs (fst (norms2 1%nat)) /\ rTol p * qabs (fst (norms2 j)) < qabs (fst (norms2 1%nat))).
Proof.
  exists (mkC (Q2Qc (1 # 1000)) (Q2Qc (1 # 1000000)) (Q2Qc 10) 10 false), (fun k => match k with O => (Q2Qc (1 # 10000), 1) | _ => (0, 1) end), (fun k => match k with O => (Q2Qc (1 # 100), 1) | _ => (Q2Qc (1 # 2000), 1) end), (fun _ => []).
  split; [reflexivity|]. split; [reflexivity|]. cbv zeta. split; [vm_compute; reflexivity|]. split; [vm_compute; reflexivity|]. split; [vm_compute; reflexivity|]. split; [reflexivity|].
  intros [|j]; split; reflexivity.
Qed.
(** two simulators of the same class iterated alternately (solveIteration): the tolerance of the one is applied to the other *)
Theorem C57_shared_refuted : exists pA pB nA nB, let c0 := mkCs 0 0 0 0 in
  let a0 := checkConv pA false true 0 (fst (nA 0%nat)) (snd (nA 0%nat)) c0 in
  let b0 := checkConv pB false true 0 (fst (nB 0%nat)) (snd (nB 0%nat)) (handOver c0 (snd a0)) in
  let a1 := checkConv pA false true 1 (fst (nA 1%nat)) (snd (nA 1%nat)) (handOver (snd a0) (snd b0)) in
  fst a0 = OK /\ fst b0 = OK /\ fst a1 = CONVERGED /\ fst (checkConv pA false true 1 (fst (nA 1%nat)) (snd (nA 1%nat)) (snd a0)) = OK /\ ~ isStatus pA false true nA 0 1 CONVERGED.
Proof.
  exists (mkC (Q2Qc (1 # 1000)) (Q2Qc (1 # 1000000)) (Q2Qc 10) 10 false), (mkC q_half (Q2Qc (1 # 1000000)) (Q2Qc 10) 10 false), (fun k => match k with O => (1, 1) | _ => (q_quart, 1) end), (fun _ => (1, 1)).
  cbv zeta. split; [vm_compute; reflexivity|]. split; [vm_compute; reflexivity|]. split; [vm_compute; reflexivity|]. split; [vm_compute; reflexivity|].
  intros [[X _]|[X _]]; [discriminate X|]. apply qltb_true in X. vm_compute in X. discriminate X.
Qed.
Example C57_ex : let norms := fun k : nat => match k with O => (1, 1) | S O => (q_half, 1) | S (S O) => (1, 1) | S (S (S O)) => (q_2, 1) | _ => (0, 1) end in
  let p := mkC (Q2Qc (1 # 1000)) 0 (Q2Qc 10) 1 false in
  (fun r => (fst (fst (fst r)), snd r)) (iterate unit (fun _ _ _ s => s) p true true true norms (fun _ => []) 10 (mkCs 0 0 0 0) tt) = (DIVERGED, 3%nat).
Proof. vm_compute. reflexivity. Qed.
Print Assumptions C57_status.
Print Assumptions C57_updates.
Print Assumptions C57_reference_refuted.
Print Assumptions C57_shared_refuted.

(** * C58 line search *)
(** the factors tried are the clipped secant steps; the search ends with a factor that meets the criterion, with two
    factors that nearly agree, or with the best of ten (1 if none improves) *)
Theorem C58_search : forall eta sk al alO cp, 0 < eta -> lineSearch eta sk = Some (al, alO, cp) -> lineOutcome eta sk al alO cp.
Proof. exact lineSearch_ok. Qed.
(** the increment is scaled by a factor between 1/2 and 3/2 in total *)
Theorem C58_range : forall eta sk al alO cp, 0 < eta -> lineSearch eta sk = Some (al, alO, cp) -> q_half <= al + cp <= q_3h.
Proof. exact lineSearch_total. Qed.
Theorem C58_defined_partial : forall eta sk, sk 0 <> 0 -> exists r, lineSearch eta sk = Some r.
Proof. exact lineSearch_def. Qed.
Theorem C58_off : forall eta sk, eta <= 0 -> lineSearch eta sk = Some (1, 1, 0).
Proof. intros eta sk H. unfold lineSearch. pose proof (qleb_spec eta 0) as A. destruct (qleb eta 0); [reflexivity|exfalso; qclra]. Qed.
(** if the increment does no work on the residual, neither before nor after the update, the factor is not a number *)
Theorem C58_zero_refuted : exists eta sk, 0 < eta /\ sk 0 = 0 /\ lineSearch eta sk = None.
Proof. exists q_half, (fun _ => 0). split; [reflexivity|]. split; [reflexivity|]. vm_compute. reflexivity. Qed.
(** the factor that is reported is not always the one that was applied (NonLinSIM.C:395-399) *)
Theorem C58_reported_refuted : exists eta sk al alO cp, 0 < eta /\ lineSearch eta sk = Some (al, alO, cp) /\ alO <> al + cp.
Proof. exists (Q2Qc (1 # 100)), (fun c => if Qc_eq_dec c 0 then 1 else - Q2Qc (1 # 100)), 0. eexists; eexists. split; [reflexivity|]. split; [vm_compute; reflexivity|]. qneq. Qed.
Example C58_ex : option_map (fun r => (this (fst (fst r)), this (snd (fst r)), this (snd r))) (lineSearch (Q2Qc (1 # 10)) (fun c => 1 - c * c * q_half)) = Some ((-1 # 6)%Q, (4 # 3)%Q, (3 # 2)%Q).
Proof. vm_compute. reflexivity. Qed.
Print Assumptions C58_search.
Print Assumptions C58_range.
Print Assumptions C58_defined_partial.
Print Assumptions C58_off.
Print Assumptions C58_zero_refuted.
Print Assumptions C58_reported_refuted.

(** * C59 solution vectors of previous steps *)
(** every state moves one place back, the current one stays, vectors beyond the last complete state stay *)
Theorem C59_push : forall nVec ndof (sol : list (list Qc)), (1 <= nVec)%nat -> (forall x, In x sol -> length x = ndof) ->
  exists r, pushSolution nVec sol = Some r /\ length r = length sol /\
    forall j, nth j r [] = if (nVec <=? j)%nat && (j <? length sol / nVec * nVec)%nat then nth (j - nVec) sol [] else nth j sol [].
Proof. exact pushSolution_ok. Qed.
Example C59_ex : pushSolution 2 [[1]; [q_2]; [0]; [0]; [q_half]; [q_3h]; [0]] = Some [[1]; [q_2]; [1]; [q_2]; [0]; [0]; [0]].
Proof. vm_compute. reflexivity. Qed.
Print Assumptions C59_push.
