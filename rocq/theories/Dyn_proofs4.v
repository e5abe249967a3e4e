(** Convergence control, line search, pushSolution. *)
From Coq Require Import List Arith ZArith QArith Qcanon Bool Lia Ascii.
From Verif Require Import Base QcLra Mat_model Mat_spec Mat_proofs Vec_proofs4 Dyn_model Dyn_spec Dyn_proofs.
Import ListNotations.
Local Open Scope Qc_scope.

Lemma qabs_div x r : 0 < r -> qabs (x / r) = qabs x / r.
Proof.
  intros P. assert (N : r <> 0) by (intros ->; apply (Qclt_not_eq _ _ P); reflexivity).
  assert (PI : 0 < / r). { destruct (Qclt_le_dec 0 (/ r)) as [|Q]; [auto|]. exfalso.
    assert (M : / r * r <= 0 * r) by (apply Qcmult_le_compat_r; [auto|qclra]). rewrite (Qcmult_comm (/ r)), Qcmult_inv_r in M by auto. apply (Qcle_not_lt _ _ M). apply Qclt_alt. reflexivity. }
  assert (SG : forall y, 0 <= y -> 0 <= y / r). { intros y Hy. unfold Qcdiv. rewrite <- (Qcmult_0_l (/ r)). apply Qcmult_le_compat_r; [auto|qclra]. }
  destruct (qabs_cases x) as [[H E0]|[H E0]]; rewrite E0; destruct (qabs_cases (x / r)) as [[H' E1]|[H' E1]]; rewrite E1; auto.
  - assert (Q : 0 <= x / r) by auto. assert (Z : x / r = 0) by (apply Qcle_antisym; auto). rewrite Z. reflexivity.
  - assert (Q : 0 <= (- x) / r) by (apply SG; qclra). assert (Z : x / r = 0). { apply Qcle_antisym; [|auto]. unfold Qcdiv in *. replace (- x * / r) with (- (x * / r)) in Q by ring. qclra. }
    replace (- x / r) with (- (x / r)) by (unfold Qcdiv; ring). rewrite Z. reflexivity.
  - unfold Qcdiv. ring.
Qed.
Lemma qdiv_lt x y r : 0 < r -> (x / r < y <-> x < y * r).
Proof.
  intros P. assert (N : r <> 0) by (intros ->; apply (Qclt_not_eq _ _ P); reflexivity). split; intros H.
  - replace x with (x / r * r) by (field; auto). apply Qcmult_lt_compat_r; auto.
  - destruct (Qclt_le_dec (x / r) y) as [|Q]; [auto|]. exfalso. assert (M : y * r <= x / r * r) by (apply Qcmult_le_compat_r; [auto|qclra]).
    replace (x / r * r) with x in M by (field; auto). apply (Qcle_not_lt _ _ M H).
Qed.
Lemma qdiv_lt2 x y r : 0 < r -> (x / r < y / r <-> x < y).
Proof. intros P. rewrite qdiv_lt by auto. assert (N : r <> 0) by (intros ->; apply (Qclt_not_eq _ _ P); reflexivity). replace (y / r * r) with y by (field; auto). tauto. Qed.
Lemma qdiv_gt x y r : 0 < r -> (y < x / r <-> y * r < x).
Proof. intros P. assert (N : r <> 0) by (intros ->; apply (Qclt_not_eq _ _ P); reflexivity). rewrite <- (qdiv_lt2 (y * r) x r P). replace (y * r / r) with y by (field; auto). tauto. Qed.
Lemma qleb_false a b : qleb a b = false <-> b < a.
Proof. unfold qleb. destruct (Qclt_le_dec b a) as [H|H]; split; auto; try discriminate. intros C. exfalso. apply (Qcle_not_lt _ _ H C). Qed.
Lemma qltb_false a b : qltb a b = false <-> b <= a.
Proof. unfold qltb. destruct (Qclt_le_dec a b) as [H|H]; split; auto; try discriminate. intros C. exfalso. apply (Qcle_not_lt _ _ C H). Qed.

Lemma stepRef_nonneg p first r0 n0 : 0 <= r0 -> 0 <= stepRef p first r0 n0.
Proof. intros H. unfold stepRef. destruct (_ || _); [|auto]. destruct (qabs_cases n0) as [[A B]|[A B]]; rewrite B; qclra. Qed.
Lemma stepDiv_pos p first r0 n0 : 0 <= r0 -> 0 <= aTol p -> 0 < stepDiv p first r0 n0.
Proof.
  intros H HA. unfold stepDiv. cbv zeta. destruct (qltb (aTol p) (stepRef p first r0 n0 * rTol p)) eqn:Q; [|apply Qclt_alt; reflexivity].
  apply qltb_true in Q. pose proof (stepRef_nonneg p first r0 n0 H) as N. destruct (Qclt_le_dec 0 (stepRef p first r0 n0)) as [|C]; [auto|]. exfalso.
  assert (Z : stepRef p first r0 n0 = 0) by (apply Qcle_antisym; auto). rewrite Z in Q. replace (0 * rTol p) with 0 in Q by ring. qclra.
Qed.
(** invariant at the start of iteration [it] >= 1; m is the number of increases in a row *)
Definition convInv (p : cprm) (first : bool) (norms : nat -> Qc * Qc) (r0 : Qc) (it : nat) (c : cstate) : Prop :=
  let n0 := fst (norms 0%nat) in let D := stepDiv p first r0 n0 in
  refNorm c = D /\ convTol c * D = stepTol p first r0 n0 /\ prevNorm c = fst (norms (it - 1)%nat) / D /\
  exists m, nIncrease c = Z.of_nat m /\ (m <= it - 1)%nat /\ (Z.of_nat m <= maxIncr p)%Z /\
    (forall j, (j < m)%nat -> increases norms (it - 1 - j)) /\ ((m < it - 1)%nat -> ~ increases norms (it - 1 - m)).
Lemma check_tail p nl first norms r0 it c st c' n0 : n0 = fst (norms 0%nat) -> 0 <= r0 -> 0 <= aTol p -> (0 <= maxIncr p)%Z -> (it = 0%nat -> snd (norms 0%nat) <> 0) ->
  (forall D, D = stepDiv p first r0 n0 -> refNorm c = D /\ convTol c * D = stepTol p first r0 n0 /\
    ((it = 0%nat /\ prevNorm c = fst (norms 0%nat) / D /\ nIncrease c = 0%Z) \/ ((1 <= it)%nat /\ convInv p first norms r0 it c))) ->
  (let nrm := fst (norms it) / stepDiv p first r0 n0 in
    let slow := nl && (1 <? it)%nat && qltb 0 (prevNorm c) && qltb (prevNorm c * Q2Qc (1 # 10)) (qabs nrm) in
    let st0 := if slow then SLOW else OK in
    let '(st, ninc) :=
      if qltb (qabs nrm) (convTol c) && ((0 <? it)%nat || refAll p) then (CONVERGED, nIncrease c)
      else if qleb (qabs nrm) (qabs (prevNorm c)) then (st0, 0%Z)
      else let k := (nIncrease c + 1)%Z in
           if (maxIncr p <? k)%Z || qltb (divgLim p) (qabs nrm) then (DIVERGED, k) else (st0, k) in
    (st, mkCs (convTol c) nrm ninc (refNorm c))) = (st, c') ->
  isStatus p nl first norms r0 it st /\ ((st = OK \/ st = SLOW) -> convInv p first norms r0 (S it) c').
Proof.
  intros En H0 HA HM HZ HI. set (D := stepDiv p first r0 n0). specialize (HI D eq_refl). destruct HI as (R1 & R2 & R3).
  pose proof (stepDiv_pos p first r0 n0 H0 HA) as PD. fold D in PD.
  cbv zeta. set (nrm := fst (norms it) / D).
  assert (EA : qabs nrm = qabs (fst (norms it)) / D) by (apply qabs_div; auto).
  set (slow := nl && (1 <? it)%nat && qltb 0 (prevNorm c) && qltb (prevNorm c * Q2Qc (1 # 10)) (qabs nrm)).
  assert (PR : (1 <= it)%nat -> prevNorm c = fst (norms (it - 1)%nat) / D).
  { intros Hi. destruct R3 as [[E0 _]|[_ (_ & _ & E0 & _)]]; [lia|]. rewrite E0. rewrite <- En. fold D. reflexivity. }
  assert (PV : (1 <= it)%nat -> qabs (prevNorm c) = qabs (fst (norms (it - 1)%nat)) / D) by (intros Hi; rewrite (PR Hi); apply qabs_div; auto).
  assert (HSL : slow = true <-> isSlow nl norms it).
  { unfold slow, isSlow. destruct (Nat.lt_ge_cases 1 it) as [I1|I1].
    - assert (X : (1 <? it)%nat = true) by (apply Nat.ltb_lt; auto). rewrite X, (PR ltac:(lia)), EA. rewrite !andb_true_iff, !qltb_true.
      rewrite (qdiv_gt (fst (norms (it - 1)%nat)) 0 D PD). replace (0 * D) with 0 by ring.
      replace (fst (norms (it - 1)%nat) / D * Q2Qc (1 # 10)) with (fst (norms (it - 1)%nat) * Q2Qc (1 # 10) / D) by (unfold Qcdiv; ring). rewrite (qdiv_lt2 _ _ D PD). intuition lia.
    - assert (X : (1 <? it)%nat = false) by (apply Nat.ltb_ge; auto). rewrite X. rewrite andb_false_r. cbn [andb]. split; [discriminate|]. intros (_ & Y & _). lia. }
  assert (HTM : qltb (qabs nrm) (convTol c) && ((0 <? it)%nat || refAll p) = true <-> tolMet p first norms r0 it).
  { unfold tolMet. rewrite <- En, andb_true_iff, qltb_true, EA, (qdiv_lt _ _ D PD), R2, orb_true_iff, Nat.ltb_lt. split; [right; intuition lia|]. intros [[X Y]|[X Y]]; [exfalso; apply (HZ X); auto|]. intuition lia. }
  assert (HIN : (1 <= it)%nat -> (qabs (prevNorm c) < qabs nrm <-> increases norms it)).
  { intros I1. rewrite (PV I1), EA, (qdiv_lt2 _ _ D PD). unfold increases. intuition. }
  assert (NI : exists m, nIncrease c = Z.of_nat m /\ (m <= it - 1)%nat /\ (Z.of_nat m <= maxIncr p)%Z /\
    (forall j, (j < m)%nat -> increases norms (it - 1 - j)) /\ ((m < it - 1)%nat -> ~ increases norms (it - 1 - m))).
  { destruct R3 as [(E0 & _ & E1)|[_ (_ & _ & _ & m & Q)]]; [exists 0%nat; rewrite E1; repeat split; try lia|exists m; exact Q]. }
  destruct NI as (m & N1 & N2 & N3 & N4 & N5).
  destruct (qltb (qabs nrm) (convTol c) && ((0 <? it)%nat || refAll p)) eqn:T.
  { intros Q. injection Q as <- <-. split; [|intros [X|X]; discriminate X]. apply HTM. reflexivity. }
  assert (NT : ~ tolMet p first norms r0 it) by (intros X; apply HTM in X; discriminate X).
  assert (FIN : ~ diverges p first norms r0 it -> isStatus p nl first norms r0 it (if slow then SLOW else OK)).
  { intros X. destruct slow; cbn [isStatus]; (split; [auto|split; [auto|]]); [apply HSL; auto|]. intros Y. apply HSL in Y. discriminate Y. }
  destruct (qleb (qabs nrm) (qabs (prevNorm c))) eqn:L.
  - assert (ND : ~ increases norms it). { intros X. pose proof X as [X1 _]. apply (HIN X1) in X. apply qleb_false in X. rewrite X in L. discriminate L. }
    intros Q. injection Q as <- <-. split; [apply FIN; intros [X _]; auto|].
    intros _. unfold convInv. cbv zeta. cbn [refNorm convTol prevNorm nIncrease]. rewrite <- En. fold D. split; [auto|]. split; [auto|]. split; [unfold nrm; replace (S it - 1)%nat with it by lia; reflexivity|].
    exists 0%nat. repeat split; try lia. intros _. replace (S it - 1 - 0)%nat with it by lia. auto.
  - apply qleb_false in L.
    assert (I1 : (1 <= it)%nat). { destruct R3 as [(E0 & E1 & _)|[? _]]; [|auto]. subst it. exfalso. rewrite E1 in L. unfold nrm in L. apply (Qclt_not_eq _ _ L). reflexivity. }
    assert (I2 : increases norms it) by (apply (HIN I1); auto).
    assert (GL : qltb (divgLim p) (qabs nrm) = true <-> divgLim p * D < qabs (fst (norms it))) by (rewrite qltb_true, EA, (qdiv_gt _ _ D PD); tauto).
    destruct ((maxIncr p <? nIncrease c + 1)%Z || qltb (divgLim p) (qabs nrm)) eqn:G; intros Q; injection Q as <- <-.
    * split; [|intros [X|X]; discriminate X]. split; [auto|]. split; [auto|]. rewrite <- En. fold D.
      apply orb_prop in G as [G|G].
      -- right. apply Z.ltb_lt in G. intros j Hj. destruct j as [|j]; [rewrite Nat.sub_0_r; auto|]. 
         replace (it - S j)%nat with (it - 1 - j)%nat by lia. apply N4. lia.
      -- left. apply GL. auto.
    * apply orb_false_iff in G as [G1 G2]. apply Z.ltb_ge in G1. split.
      -- apply FIN. intros [_ [X|X]]; [rewrite <- En in X; fold D in X; apply GL in X; rewrite X in G2; discriminate G2|].
         assert (Y : increases norms (it - S m)) by (apply X; lia). pose proof Y as [Y1 _]. apply (N5 ltac:(lia)). replace (it - 1 - m)%nat with (it - S m)%nat by lia. auto.
      -- intros _. unfold convInv. cbv zeta. cbn [refNorm convTol prevNorm nIncrease]. rewrite <- En. fold D. split; [auto|]. split; [auto|]. split; [unfold nrm; replace (S it - 1)%nat with it by lia; reflexivity|].
         exists (S m). split; [lia|]. split; [lia|]. split; [lia|]. split.
         ++ intros j Hj. destruct j as [|j]; [replace (S it - 1 - 0)%nat with it by lia; auto|]. replace (S it - 1 - S j)%nat with (it - 1 - j)%nat by lia. apply N4. lia.
         ++ intros Hm. replace (S it - 1 - S m)%nat with (it - 1 - m)%nat by lia. apply N5. lia.
Qed.
Lemma check_first p nl first norms c st c' : 0 <= refNorm c -> 0 <= aTol p -> (0 <= maxIncr p)%Z ->
  checkConv p nl first 0 (fst (norms 0%nat)) (snd (norms 0%nat)) c = (st, c') ->
  isStatus p nl first norms (refNorm c) 0 st /\ ((st = OK \/ st = SLOW) -> convInv p first norms (refNorm c) 1 c').
Proof.
  intros H0 HA HM. unfold checkConv. cbn [Nat.eqb andb]. destruct (Qc_eq_dec (snd (norms 0%nat)) 0) as [Z|NZ].
  { intros Q. injection Q as <- <-. split; [|intros [X|X]; discriminate X]. left. auto. }
  fold (stepRef p first (refNorm c) (fst (norms 0%nat))). set (ref := stepRef p first (refNorm c) (fst (norms 0%nat))).
  set (n0 := fst (norms 0%nat)).
  destruct (qltb (aTol p) (ref * rTol p)) eqn:T.
  - assert (ED : stepDiv p first (refNorm c) n0 = ref) by (unfold stepDiv; cbv zeta; fold n0; fold n0 in ref; fold ref; rewrite T; reflexivity).
    intros Q. apply (check_tail p nl first norms (refNorm c) 0 (mkCs (rTol p) (n0 / ref) 0 ref) st c' n0); auto.
    + intros D ->. rewrite ED. cbn [refNorm convTol prevNorm nIncrease]. split; [auto|]. split; [unfold stepTol; cbv zeta; fold n0; fold n0 in ref; fold ref; rewrite T; reflexivity|]. left. repeat split.
    + rewrite ED. exact Q.
  - assert (ED : stepDiv p first (refNorm c) n0 = 1) by (unfold stepDiv; cbv zeta; fold n0; fold n0 in ref; fold ref; rewrite T; reflexivity).
    assert (D1 : n0 / 1 = n0) by (field; intros X; apply (f_equal this) in X; discriminate X).
    intros Q. apply (check_tail p nl first norms (refNorm c) 0 (mkCs (aTol p) n0 0 1) st c' n0); auto.
    + intros D ->. rewrite ED. cbn [refNorm convTol prevNorm nIncrease]. split; [auto|]. split; [unfold stepTol; cbv zeta; fold n0; fold n0 in ref; fold ref; rewrite T; ring|]. left. repeat split. unfold n0 in D1. rewrite D1. reflexivity.
    + rewrite ED. fold n0. rewrite D1. exact Q.
Qed.
Lemma check_next p nl first norms r0 it c st c' : (1 <= it)%nat -> 0 <= r0 -> 0 <= aTol p -> (0 <= maxIncr p)%Z -> convInv p first norms r0 it c ->
  checkConv p nl first it (fst (norms it)) (snd (norms it)) c = (st, c') ->
  isStatus p nl first norms r0 it st /\ ((st = OK \/ st = SLOW) -> convInv p first norms r0 (S it) c').
Proof.
  intros Hi H0 HA HM HI. unfold checkConv. destruct it as [|it]; [lia|]. cbn [Nat.eqb andb]. intros Q.
  apply (check_tail p nl first norms r0 (S it) c st c' (fst (norms 0%nat))); auto; [discriminate| |].
  - intros D ->. pose proof HI as (A & B & _). split; [auto|]. split; [auto|]. right. auto.
  - unfold convInv in HI. cbv zeta in HI. destruct HI as (A & _). rewrite <- A. exact Q.
Qed.
(** the loop stops at iteration k with status st, all earlier iterations go on *)
Definition stops p nl first norms r0 (from k : nat) (st : status) : Prop :=
  (st = CONVERGED \/ st = DIVERGED) /\ isStatus p nl first norms r0 k st /\ forall j, (from <= j < k)%nat -> isStatus p nl first norms r0 j OK \/ isStatus p nl first norms r0 j SLOW.
Lemma loop_outcome ST correct p nl first last norms lin r0 : 0 <= r0 -> 0 <= aTol p -> (0 <= maxIncr p)%Z ->
  forall fuel it c s, (1 <= it)%nat -> convInv p first norms r0 it c ->
  let r := solveLoop ST correct p nl first last norms lin fuel it c s in let st := fst (fst (fst r)) in let k := snd r in
  stops p nl first norms r0 it k st \/ (st = DIVERGED /\ k = (it + fuel)%nat /\ forall j, (it <= j < k)%nat -> isStatus p nl first norms r0 j OK \/ isStatus p nl first norms r0 j SLOW).
Proof.
  intros H0 HA HM fuel. induction fuel as [|f IH]; intros it c s Hi HI; cbn [solveLoop]; cbv zeta.
  { cbn [fst snd]. right. split; [auto|]. split; [lia|]. intros; lia. }
  destruct (checkConv p nl first it (fst (norms it)) (snd (norms it)) c) as [st c'] eqn:EC.
  destruct (check_next p nl first norms r0 it c st c' Hi H0 HA HM HI EC) as [O N].
  assert (REC : st = OK \/ st = SLOW -> let r := solveLoop ST correct p nl first last norms lin f (S it) c' (correct (S it) false (lin it) s) in let st := fst (fst (fst r)) in let k := snd r in
    stops p nl first norms r0 it k st \/ (st = DIVERGED /\ k = (it + S f)%nat /\ forall j, (it <= j < k)%nat -> isStatus p nl first norms r0 j OK \/ isStatus p nl first norms r0 j SLOW)).
  { intros X. assert (Y : isStatus p nl first norms r0 it OK \/ isStatus p nl first norms r0 it SLOW) by (destruct X; subst st; auto).
    destruct (IH (S it) c' (correct (S it) false (lin it) s) ltac:(lia) (N X)) as [(A & B & C)|(A & B & C)]; cbv zeta in *; [left; split; [auto|]; split; [auto|]|right; split; [auto|]; split; [lia|]];
      intros j Hj; (destruct (Nat.eq_dec j it) as [->|]; [auto|apply C; lia]). }
  destruct st; cbn [fst snd]; try (apply REC; auto; fail).
  - left. split; [auto|]. split; [auto|]. intros; lia.
  - left. split; [auto|]. split; [auto|]. intros; lia.
Qed.
Lemma iterate_outcome ST correct p nl first last norms lin maxit c s : 0 <= refNorm c -> 0 <= aTol p -> (0 <= maxIncr p)%Z ->
  let r := iterate ST correct p nl first last norms lin maxit c s in let st := fst (fst (fst r)) in let k := snd r in
  (((st = CONVERGED \/ st = DIVERGED) /\ (Z.of_nat k <= maxit)%Z /\ isStatus p nl first norms (refNorm c) k st) \/ (st = DIVERGED /\ k = Z.to_nat (maxit + 1))) /\
  forall j, (j < k)%nat -> isStatus p nl first norms (refNorm c) j OK \/ isStatus p nl first norms (refNorm c) j SLOW.
Proof.
  intros H0 HA HM. cbv zeta. unfold iterate. destruct (Z.to_nat (maxit + 1)) as [|f] eqn:EF; [split; [right; split; reflexivity|cbn; intros; lia]|].
  assert (O : let r := solveLoop ST correct p nl first last norms lin (S f) 0 c s in let st := fst (fst (fst r)) in let k := snd r in
    stops p nl first norms (refNorm c) 0 k st \/ (st = DIVERGED /\ k = S f /\ forall j, (0 <= j < k)%nat -> isStatus p nl first norms (refNorm c) j OK \/ isStatus p nl first norms (refNorm c) j SLOW)).
  { cbn [solveLoop]. cbv zeta. destruct (checkConv p nl first 0 (fst (norms 0%nat)) (snd (norms 0%nat)) c) as [st c'] eqn:EC.
    destruct (check_first p nl first norms c st c' H0 HA HM EC) as [O N].
    assert (REC : st = OK \/ st = SLOW -> let r := solveLoop ST correct p nl first last norms lin f 1 c' (correct 1%nat false (lin 0%nat) s) in let st := fst (fst (fst r)) in let k := snd r in
      stops p nl first norms (refNorm c) 0 k st \/ (st = DIVERGED /\ k = S f /\ forall j, (0 <= j < k)%nat -> isStatus p nl first norms (refNorm c) j OK \/ isStatus p nl first norms (refNorm c) j SLOW)).
    { intros X. assert (Y : isStatus p nl first norms (refNorm c) 0 OK \/ isStatus p nl first norms (refNorm c) 0 SLOW) by (destruct X; subst st; auto).
      destruct (loop_outcome ST correct p nl first last norms lin (refNorm c) H0 HA HM f 1 c' (correct 1%nat false (lin 0%nat) s) ltac:(lia) (N X)) as [(A & B & C)|(A & B & C)]; cbv zeta in *; [left; split; [auto|]; split; [auto|]|right; split; [auto|]; split; [lia|]];
      intros j Hj; (destruct (Nat.eq_dec j 0) as [->|]; [auto|apply C; lia]). }
    destruct st; cbn [fst snd]; try (apply REC; auto; fail).
    - left. split; [auto|]. split; [auto|]. intros; lia.
    - left. split; [auto|]. split; [auto|]. intros; lia. }
  pose proof (solveLoop_iters ST correct p nl first last norms lin (S f) 0 c s) as [IT1 IT2].
  cbv zeta in O. destruct O as [(O1 & O2 & O3)|(O1 & O2 & O3)].
  - split; [|intros j Hj; apply O3; lia]. destruct (Nat.eq_dec (snd (solveLoop ST correct p nl first last norms lin (S f) 0 c s)) (S f)) as [X|X]; [|left; split; [auto|split; [lia|auto]]].
    destruct O1 as [O1|O1]; [specialize (IT2 O1); lia|right; auto].
  - split; [right; auto|]. intros j Hj; apply O3; lia.
Qed.

(** *** line search *)
Lemma clipped_range x : q_half <= clipped x <= q_3h.
Proof.
  unfold clipped. assert (H : q_half <= q_3h) by (apply Qclt_le_weak; reflexivity). pose proof (qltb_spec q_3h x) as A. destruct (qltb q_3h x); [split; [auto|apply Qcle_refl]|].
  pose proof (qltb_spec x q_half) as B. destruct (qltb x q_half); [split; [apply Qcle_refl|auto]|auto].
Qed.
Lemma tried_range sk T : tried sk T -> forall c, In c T -> q_half <= c <= q_3h.
Proof.
  assert (H : q_half <= q_3h) by (apply Qclt_le_weak; reflexivity).
  induction 1 as [|c r HT IH N|c r HT IH E0 N]; intros x Hx; destruct Hx as [<-|Hx].
  - split; apply Qclt_le_weak; reflexivity.
  - destruct Hx.
  - apply clipped_range.
  - apply IH; auto.
  - destruct (qltb 0 (sk 0)); split; auto; apply Qcle_refl.
  - apply IH; auto.
Qed.
Definition bestOf (sk : Qc -> Qc) (smin cmin : Qc) (T : list Qc) : Prop := (forall c, In c T -> smin <= qabs (sk c)) /\
  ((smin = qabs (sk cmin) /\ qabs (sk cmin) < qabs (sk 0) /\ In cmin T) \/ (cmin = 1 /\ smin = qabs (sk 0))).
Lemma tried_one sk T : tried sk T -> In 1 T. Proof. induction 1; [left; auto|right; auto|right; auto]. Qed.
Lemma lineLoop_ok eta sk fuel : forall smin cmin ck cp T al alO cf, (length T + fuel = 10)%nat ->
  tried sk (ck :: T) -> (T = [] \/ exists T', T = cp :: T') -> (fuel = 0%nat -> T <> []) ->
  bestOf sk smin cmin T -> (forall c, In c T -> eta * qabs (sk 0) <= qabs (sk c)) ->
  lineLoop fuel eta sk (sk 0) smin cmin ck cp = Some (al, alO, cf) ->
  lineOutcome eta sk al alO cf.
Proof.
  induction fuel as [|f IH]; intros smin cmin ck cp T al alO cf HL HT HC HN (B1 & B2) HF; cbn [lineLoop].
  - intros Q. injection Q as <- <- <-. destruct HC as [->|[T' ->]]; [exfalso; apply HN; auto|].
    assert (HTT : tried sk (cp :: T')) by (inversion HT; subst; auto).
    exists T'. split; [auto|]. cbn [length] in HL. split; [lia|]. right. right. split; [ring|]. split; [lia|].
    assert (IC : In cmin (cp :: T')) by (destruct B2 as [(_ & _ & ?)|[-> _]]; [auto|apply (tried_one sk); auto]). split; [auto|]. split; [auto|].
    destruct B2 as [(E0 & L & _)|[-> E0]]; [left; split; [auto|]; rewrite <- E0; auto|right; split; [auto|]; rewrite <- E0; auto].
  - pose proof (qltb_spec (qabs (sk ck)) (eta * qabs (sk 0))) as A. destruct (qltb (qabs (sk ck)) (eta * qabs (sk 0))).
    { intros Q. injection Q as <- <- <-. exists T. split; [auto|]. split; [lia|]. left. auto. }
    set (best := if qltb (qabs (sk ck)) smin then (qabs (sk ck), ck) else (smin, cmin)).
    assert (BB : bestOf sk (fst best) (snd best) (ck :: T)).
    { unfold best. pose proof (qltb_spec (qabs (sk ck)) smin) as C. destruct (qltb (qabs (sk ck)) smin); cbn [fst snd].
      - split; [intros c [<-|Hc]; [apply Qcle_refl|specialize (B1 c Hc); qclra]|]. left. split; [auto|]. split; [|left; auto]. destruct B2 as [(E0 & L & _)|[_ E0]]; qclra.
      - split; [intros c [<-|Hc]; auto|]. destruct B2 as [(E0 & L & I0)|?]; [left; split; [auto|split; [auto|right; auto]]|auto]. }
    destruct best as [smin' cmin']. cbn [fst snd] in BB.
    assert (HF' : forall c, In c (ck :: T) -> eta * qabs (sk 0) <= qabs (sk c)) by (intros c [<-|Hc]; auto).
    unfold nextStep. destruct (Qc_eq_dec (sk 0) (sk ck)) as [E0|N].
    + destruct (Qc_eq_dec (sk 0) 0) as [Z|Z]; [discriminate|]. 
      assert (HTT : tried sk ((if qltb 0 (sk 0) then q_3h else q_half) :: ck :: T)) by (apply triedI; auto).
      set (cn := if qltb 0 (sk 0) then q_3h else q_half) in *. pose proof (qltb_spec (qabs (cn - ck)) (q_half * eta * qabs (cn + ck))) as C.
      destruct (qltb (qabs (cn - ck)) (q_half * eta * qabs (cn + ck))).
      * intros Q. injection Q as <- <- <-. exists T. split; [auto|]. split; [lia|]. right. left. auto.
      * apply (IH smin' cmin' cn ck (ck :: T)); auto; [cbn [length]; lia|right; eauto|discriminate].
    + fold (clipped (ck * (sk 0 / (sk 0 - sk ck)))).
      assert (HTT : tried sk (clipped (ck * (sk 0 / (sk 0 - sk ck))) :: ck :: T)) by (apply triedS; auto).
      set (cn := clipped (ck * (sk 0 / (sk 0 - sk ck)))) in *. pose proof (qltb_spec (qabs (cn - ck)) (q_half * eta * qabs (cn + ck))) as C.
      destruct (qltb (qabs (cn - ck)) (q_half * eta * qabs (cn + ck))).
      * intros Q. injection Q as <- <- <-. exists T. split; [auto|]. split; [lia|]. right. left. auto.
      * apply (IH smin' cmin' cn ck (ck :: T)); auto; [cbn [length]; lia|right; eauto|discriminate].
Qed.
Lemma lineSearch_ok eta sk al alO cp : 0 < eta -> lineSearch eta sk = Some (al, alO, cp) -> lineOutcome eta sk al alO cp.
Proof.
  intros HE. unfold lineSearch. pose proof (qleb_spec eta 0) as A. destruct (qleb eta 0); [exfalso; qclra|].
  intros Q. refine (lineLoop_ok eta sk 10 (qabs (sk 0)) 1 1 0 [] al alO cp eq_refl (tried1 sk) (or_introl eq_refl) _ _ _ Q); [discriminate| |intros c []].
  split; [intros c []|]. right. auto.
Qed.
Lemma lineSearch_total eta sk al alO cp : 0 < eta -> lineSearch eta sk = Some (al, alO, cp) -> q_half <= al + cp <= q_3h.
Proof.
  intros HE H. destruct (lineSearch_ok eta sk al alO cp HE H) as (T & HT & _ & [(-> & _)|[(-> & _)|(-> & _ & HI & _)]]).
  - rewrite Qcplus_0_l. apply (tried_range sk _ HT). left; auto.
  - rewrite Qcplus_0_l. apply (tried_range sk _ HT). left; auto.
  - apply (tried_range sk _ HT). auto.
Qed.
Lemma lineLoop_def eta sk fuel : sk 0 <> 0 -> forall smin cmin ck cp, exists r, lineLoop fuel eta sk (sk 0) smin cmin ck cp = Some r.
Proof.
  intros N. induction fuel as [|f IH]; intros smin cmin ck cp; cbn [lineLoop]; [eauto|]. destruct (qltb (qabs (sk ck)) (eta * qabs (sk 0))); [eauto|].
  destruct (if qltb (qabs (sk ck)) smin then (qabs (sk ck), ck) else (smin, cmin)) as [s' c']. unfold nextStep.
  destruct (Qc_eq_dec (sk 0) (sk ck)); [destruct (Qc_eq_dec (sk 0) 0); [contradiction|]|]; match goal with |- context [if ?b then _ else _] => destruct b end; eauto.
Qed.
Lemma lineSearch_def eta sk : sk 0 <> 0 -> exists r, lineSearch eta sk = Some r.
Proof. intros N. unfold lineSearch. destruct (qleb eta 0); [eauto|]. apply lineLoop_def; auto. Qed.

(** *** pushSolution *)
Lemma nth_upd_list {A} k j (x d : A) l : (k < length l)%nat -> nth j (upd k x l) d = if (j =? k)%nat then x else nth j l d.
Proof.
  revert k j. induction l as [|y l IH]; intros k j H; [cbn in H; lia|]. destruct k, j; cbn [upd nth Nat.eqb]; auto. apply IH. cbn in H. lia.
Qed.
Lemma copy_all n (x y : list Qc) : length x = n -> length y = n -> memcpy (length x) 0 x 0 y = Some x.
Proof.
  intros Lx Ly. unfold memcpy. destruct (Nat.eqb_spec (length x) 0) as [Z|Z]; [destruct x; [|discriminate]; destruct y; [reflexivity|cbn in *; lia]|].
  destruct (Nat.leb_spec (0 + length x) (length x)); [|lia]. destruct (Nat.leb_spec (0 + length x) (length y)); [|lia]. cbn [andb firstn skipn app]. rewrite Nat.add_0_l, firstn_all, Lx, <- Ly, skipn_all. rewrite app_nil_r. reflexivity.
Qed.
Lemma push_inner nVec ndof k (sol : list (list Qc)) : (1 <= nVec)%nat -> (forall x, In x sol -> length x = ndof) -> ((k + 2) * nVec <= length sol)%nat ->
  exists r, forN nVec (fun i a => bind (nth_error a (k * nVec + i)) (fun x => bind (nth_error a (k * nVec + i + nVec)) (fun y => bind (memcpy (length x) 0 x 0 y) (fun z => Some (upd (k * nVec + i + nVec) z a))))) sol = Some r /\
    length r = length sol /\ forall j, nth j r [] = if ((k + 1) * nVec <=? j)%nat && (j <? (k + 2) * nVec)%nat then nth (j - nVec) sol [] else nth j sol [].
Proof.
  intros Hn HL HK.
  destruct (forN_inv (fun i r => length r = length sol /\ (forall x, In x r -> length x = ndof) /\ forall j, nth j r [] = if ((k + 1) * nVec <=? j)%nat && (j <? (k + 1) * nVec + i)%nat then nth (j - nVec) sol [] else nth j sol [])
    (fun i a => bind (nth_error a (k * nVec + i)) (fun x => bind (nth_error a (k * nVec + i + nVec)) (fun y => bind (memcpy (length x) 0 x 0 y) (fun z => Some (upd (k * nVec + i + nVec) z a))))) nVec sol) as (r & E & L & _ & P).
  - split; [auto|]. split; [auto|]. intros j. destruct (Nat.leb_spec ((k + 1) * nVec) j); cbn [andb]; [|auto]. destruct (Nat.ltb_spec j ((k + 1) * nVec + 0)); [lia|auto].
  - intros i a Hi (L & HLa & P). assert (B1 : (k * nVec + i < length a)%nat) by nia. assert (B2 : (k * nVec + i + nVec < length a)%nat) by nia.
    rewrite (nth_error_nth' a [] B1). cbn [bind]. rewrite (nth_error_nth' a [] B2). cbn [bind].
    rewrite (copy_all ndof) by (apply HLa; apply nth_In; auto). cbn [bind]. eexists. split; [reflexivity|]. split; [rewrite upd_length; auto|]. split.
    + intros x Hx. apply (In_nth _ _ []) in Hx as (q & Hq & <-). rewrite upd_length in Hq. rewrite nth_upd_list by auto. destruct (q =? k * nVec + i + nVec)%nat; apply HLa; apply nth_In; auto.
    + intros j. rewrite nth_upd_list by auto. destruct (Nat.eqb_spec j (k * nVec + i + nVec)) as [->|Nj].
      * rewrite P. destruct (Nat.leb_spec ((k + 1) * nVec) (k * nVec + i)); [nia|]. cbn [andb].
        destruct (Nat.leb_spec ((k + 1) * nVec) (k * nVec + i + nVec)); [|nia]. destruct (Nat.ltb_spec (k * nVec + i + nVec) ((k + 1) * nVec + S i)); [|nia]. cbn [andb]. f_equal. lia.
      * rewrite P. destruct (Nat.leb_spec ((k + 1) * nVec) j); cbn [andb]; [|auto]. destruct (Nat.ltb_spec j ((k + 1) * nVec + i)), (Nat.ltb_spec j ((k + 1) * nVec + S i)); auto; nia.
  - exists r. split; [exact E|]. split; [auto|]. intros j. rewrite P. replace ((k + 1) * nVec + nVec)%nat with ((k + 2) * nVec)%nat by lia. reflexivity.
Qed.
Lemma pushSolution_ok nVec ndof (sol : list (list Qc)) : (1 <= nVec)%nat -> (forall x, In x sol -> length x = ndof) ->
  exists r, pushSolution nVec sol = Some r /\ length r = length sol /\
    forall j, nth j r [] = if (nVec <=? j)%nat && (j <? length sol / nVec * nVec)%nat then nth (j - nVec) sol [] else nth j sol [].
Proof.
  intros Hn HL. unfold pushSolution. destruct (Nat.eqb_spec nVec 0); [lia|]. cbv zeta. set (ns := (length sol / nVec)%nat).
  assert (HD : (ns * nVec <= length sol)%nat) by (unfold ns; rewrite Nat.mul_comm; apply Nat.mul_div_le; lia).
  destruct (Nat.ltb_spec ns 2) as [S2|S2].
  { exists sol. split; [auto|]. split; [auto|]. intros j. destruct (Nat.leb_spec nVec j); cbn [andb]; [|auto]. destruct (Nat.ltb_spec j (ns * nVec)); [nia|auto]. }
  (* downward induction *)
  assert (H : forall m a, (m <= ns - 1)%nat -> length a = length sol -> (forall x, In x a -> length x = ndof) ->
    (forall j, nth j a [] = if ((m + 1) * nVec <=? j)%nat && (j <? ns * nVec)%nat then nth (j - nVec) sol [] else nth j sol []) ->
    exists r, fold_left (fun o n => bind o (forN nVec (fun i a => bind (nth_error a (n + i)) (fun x => bind (nth_error a (n + i + nVec)) (fun y => bind (memcpy (length x) 0 x 0 y) (fun z => Some (upd (n + i + nVec) z a)))))))
      (map (fun k => (k * nVec)%nat) (rev (seq 0 m))) (Some a) = Some r /\ length r = length sol /\
      forall j, nth j r [] = if (nVec <=? j)%nat && (j <? ns * nVec)%nat then nth (j - nVec) sol [] else nth j sol []).
  { induction m as [|m IH]; intros a Hm La HLa P.
    - cbn [seq rev map fold_left]. exists a. split; [auto|]. split; [auto|]. intros j. rewrite P. rewrite Nat.mul_add_distr_r, Nat.mul_0_l, Nat.mul_1_l, Nat.add_0_l. reflexivity.
    - rewrite seq_S, rev_app_distr. cbn [rev app map fold_left]. rewrite Nat.add_0_l. cbn [bind].
      destruct (push_inner nVec ndof m a Hn HLa) as (r & E & L & Q); [nia|]. rewrite E. apply IH; [lia|lia| |].
      + intros x Hx. apply (In_nth _ _ []) in Hx as (q & Hq & <-). rewrite Q. destruct (((m + 1) * nVec <=? q)%nat && (q <? (m + 2) * nVec)%nat) eqn:T; apply HLa; apply nth_In; [|lia].
        apply andb_prop in T as [T1 T2]. apply Nat.leb_le in T1. lia.
      + intros j. rewrite Q, !P. destruct (Nat.leb_spec ((m + 1) * nVec) j) as [A1|A1]; cbn [andb].
        * destruct (Nat.ltb_spec j ((m + 2) * nVec)) as [A2|A2].
          -- destruct (Nat.ltb_spec j (ns * nVec)); [|nia]. destruct (Nat.leb_spec ((S m + 1) * nVec) (j - nVec)); [nia|]. reflexivity.
          -- destruct (Nat.leb_spec ((S m + 1) * nVec) j); [reflexivity|nia].
        * destruct (Nat.leb_spec ((S m + 1) * nVec) j); [nia|]. reflexivity. }
  apply (H (ns - 1)%nat sol); auto. intros j. replace (ns - 1 + 1)%nat with ns by lia. destruct (Nat.leb_spec (ns * nVec) j); cbn [andb]; [|auto]. destruct (Nat.ltb_spec j (ns * nVec)); [lia|auto].
Qed.
