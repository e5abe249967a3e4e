(** Consistency of residual and Newton matrix; BDF. *)
From Coq Require Import List Arith ZArith QArith Qcanon Bool Lia Ascii.
From Verif Require Import Base QcLra Mat_model Mat_spec Mat_proofs Mat_proofs5 Mat_proofs6 Mat_proofs8 Dyn_model Dyn_spec Dyn_proofs Dyn_proofs2.
Import ListNotations.
Local Open Scope Qc_scope.

Lemma mv_lin3 n f g h a b c x i : mv n (fun i j => a * f i j + b * g i j + c * h i j) x i = a * mv n f x i + b * mv n g x i + c * mv n h x i.
Proof. unfold mv, sumTo. rewrite <- !qs_scal, <- !qs_plus. apply qs_ext. intros. ring. Qed.
Lemma mv_lin4 n f g h k a b c d x i : mv n (fun i j => a * f i j + b * g i j + c * h i j + d * k i j) x i = a * mv n f x i + b * mv n g x i + c * mv n h x i + d * mv n k x i.
Proof. unfold mv, sumTo. rewrite <- !qs_scal, <- !qs_plus. apply qs_ext. intros. ring. Qed.
Lemma mv_scal n f a x i : mv n (fun i j => a * f i j) x i = a * mv n f x i.
Proof. unfold mv, sumTo. rewrite <- !qs_scal. apply qs_ext. intros. ring. Qed.

(** Newmark and generalized alpha: x is the increment solved for *)
Lemma newmark_consistent n e b0 b0' u v a u' v' a' x fA fM fK fC p : (1 <= n)%nat -> (2 <= length (eA e))%nat ->
  (exists A0, nth_error (eA e) 0 = Some A0 /\ isMat n n fA A0) -> elmMat n (eA e) 1 fM -> elmMat n (eA e) 2 fK -> elmMat n (eA e) 3 fC ->
  0 <= ea1 e -> 0 <= ea2 e -> (eslv e = true -> ebeta e <> 0 /\ eh e <> 0) ->
  length b0 = n -> length b0' = n -> length v = n -> length a = n ->
  (let c := if eslv e then 1 / (ebeta e * eh e * eh e) else 1 in
   moved n (c * eaf e * ebeta e * eh e * eh e) u x u' /\ moved n (c * eaf e * egamma e * eh e) v x v' /\ moved n (c * eam e) a x a') ->
  (forall i, (i < n)%nat -> nth i b0' 0 + mv n fK u' i = nth i b0 0 + mv n fK u i) ->
  exists R R' N f, newmarkRHS (withData e [b0] [u; v; a] p) = Some R /\ newmarkRHS (withData e [b0'] [u'; v'; a'] p) = Some R' /\
    newmarkNewton e = Some N /\ isMat n n f N /\ isVec n (fun i => nth i R 0 - mv n f x i) R'.
Proof.
  intros Hn L2 HA HM HK HC P1 P2 PS Lb Lb' Lv La HMv HB.
  cbv zeta in HMv. destruct HMv as (Mu & Mv & Ma).
  destruct (newmarkRHS_ok n (withData e [b0] [u; v; a] p) b0 u v a fM fK fC) as (R & ER & [LR VR]); auto; [exists []; reflexivity|].
  destruct (newmarkRHS_ok n (withData e [b0'] [u'; v'; a'] p) b0' u' v' a' fM fK fC) as (R' & ER' & [LR' VR']); auto; [exists []; reflexivity|apply Mv|apply Ma|].
  destruct (newmarkNewton_ok n e fA fM fK fC) as (N & EN & VN); auto.
  exists R, R', N. eexists. split; [exact ER|]. split; [exact ER'|]. split; [exact EN|]. split; [exact VN|]. split; [exact LR'|].
  intros i Hi. rewrite VR', VR by auto. cbn [withData eA eb evec eh ea1 ea2 ebeta egamma eam eaf eslv] in *.
  rewrite mv_scal, mv_lin3. specialize (HB i Hi).
  rewrite (mv_moved n fM _ v x v' i Mv), (mv_moved n fK _ v x v' i Mv), (mv_moved n fC _ v x v' i Mv), (mv_moved n fM _ a x a' i Ma).
  rewrite (mv_moved n fK _ u x u' i Mu) in HB.
  assert (HB2 : nth i b0' 0 = nth i b0 0 - (if eslv e then 1 / (ebeta e * eh e * eh e) else 1) * eaf e * ebeta e * eh e * eh e * mv n fK x i).
  { replace (nth i b0' 0) with (nth i b0 0 + mv n fK u i - (mv n fK u i + (if eslv e then 1 / (ebeta e * eh e * eh e) else 1) * eaf e * ebeta e * eh e * eh e * mv n fK x i)); [ring|]. rewrite <- HB. ring. }
  rewrite HB2. ring.
Qed.
Lemma isVec_addO n f R x s : isVec n f R -> length x = n -> isVec n (fun i => f i + s * nth i x 0) (add1 R x s).
Proof. intros H L. apply add1_ok; [auto|apply isVec_self; auto]. Qed.
Lemma hht_corrector n e b0 b1 u v a fM fK fC Rx Fin : (1 <= n)%nat -> length b0 = n -> length v = n -> length a = n -> length Rx = n -> length Fin = n ->
  massive n e fM -> elmMat n (eA e) 2 fK -> elmMat n (eA e) 4 fC -> 0 <= ea1 e -> 0 <= ea2 e ->
  exists R Fi, hhtRHS false (withData e [b0; b1] [u; v; a] false) = Some (R, Fi) /\
    isVec n (alphaRes n e fM fK fC b0 v a Rx Fin) (fst (hhtFinal (egamma e) false R Fi (Some Rx) None (Some Fin))).
Proof.
  intros Hn Lb Lv La LR LF HM HK HC P1 P2.
  destruct (hhtRHS_corr n (withData e [b0; b1] [u; v; a] false) b0 [b1] u v a [] fM fK fC) as (R & E & V); auto.
  exists R, (Some b1). split; [exact E|]. unfold hhtFinal. cbn [fst].
  eapply isVec_ext; [|apply isVec_addO; [apply isVec_addO; [exact V|auto]|auto]]. intros i Hi. unfold alphaRes. cbv beta zeta. cbn [withData egamma ea1 ea2]. qfield.
Qed.
Lemma hht_predictor n e b0 b1 u v a V Ac fM fK fC Rx Fx : (1 <= n)%nat -> length b0 = n -> length v = n -> length a = n -> length V = n -> length Ac = n -> length Rx = n -> length Fx = n ->
  massive n e fM -> elmMat n (eA e) 2 fK -> elmMat n (eA e) 4 fC -> 0 <= ea1 e -> 0 <= ea2 e ->
  exists R Fi Fin, hhtRHS false (withData e [b0; b1] [u; v; a; V; Ac] true) = Some (R, Fi) /\
    snd (hhtFinal (egamma e) true R Fi (Some Rx) (Some Fx) None) = Some Fin /\
    isVec n (fun i => nth i Fx 0 + nth i b0 0 - (ea1 e * mv n fM v i + ea2 e * mv n fK v i + mv n fC v i)) Fin /\
    forall vp acp, moved n (- (1)) v V vp -> moved n (- (1)) a Ac acp ->
    isVec n (alphaRes n e fM fK fC b0 vp acp Rx Fin) (fst (hhtFinal (egamma e) true R Fi (Some Rx) (Some Fx) None)).
Proof.
  intros Hn Lb Lv La LV LA LR LF HM HK HC P1 P2.
  destruct (hhtRHS_pred n (withData e [b0; b1] [u; v; a; V; Ac] true) b0 b1 u v a V Ac fM fK fC) as (R & F & E & VF & VR); auto.
  exists R, (Some F). eexists. split; [exact E|]. unfold hhtFinal. cbn [fst snd]. split; [reflexivity|].
  assert (VFin : isVec n (fun i => nth i Fx 0 + nth i b0 0 - (ea1 e * mv n fM v i + ea2 e * mv n fK v i + mv n fC v i)) (add1 F Fx 1)).
  { eapply isVec_ext; [|apply isVec_addO; [exact VF|auto]]. intros i Hi. cbv beta. cbn [withData ea1 ea2]. ring. }
  split; [exact VFin|]. intros vp acp Mv Ma. destruct VFin as [LFin NFin].
  eapply isVec_ext; [|apply isVec_addO; [apply isVec_addO; [apply isVec_addO; [exact VR|auto]|auto]|auto]].
  intros i Hi. unfold alphaRes. cbv beta zeta. cbn [withData egamma ea1 ea2].
  rewrite (mv_moved n fM _ v V vp i Mv), (mv_moved n fK _ v V vp i Mv), (mv_moved n fC _ v V vp i Mv), (mv_moved n fM _ a Ac acp i Ma).
  rewrite NFin by auto. qfield.
Qed.
Lemma hht_newton n e b0 b0' u v a u' v' a' x fA fM fK fG fC Rx Fin : (1 <= n)%nat -> (2 <= length (eA e))%nat ->
  (exists A0, nth_error (eA e) 0 = Some A0 /\ isMat n n fA A0) -> elmMat n (eA e) 1 fM -> elmMat n (eA e) 2 fK -> elmMat n (eA e) 3 fG -> elmMat n (eA e) 4 fC ->
  moved n 1 u x u' -> moved n (egamma e / (ebeta e * eh e)) v x v' -> moved n (1 / (ebeta e * eh e * eh e)) a x a' ->
  (forall i, (i < n)%nat -> nth i b0' 0 + mv n fK u' i + mv n fG u' i = nth i b0 0 + mv n fK u i + mv n fG u i) ->
  exists N f, hhtNewton e = Some N /\ isMat n n f N /\
    forall i, (i < n)%nat -> alphaRes n e fM fK fC b0' v' a' Rx Fin i = alphaRes n e fM fK fC b0 v a Rx Fin i - mv n f x i.
Proof.
  intros Hn L2 HA HM HK HG HC Mu Mv Ma HB. destruct (hhtNewton_ok n e fA fM fK fG fC) as (N & EN & VN); auto.
  exists N. eexists. split; [exact EN|]. split; [exact VN|]. intros i Hi. cbv zeta. rewrite mv_lin4. unfold alphaRes. cbv zeta.
  specialize (HB i Hi). rewrite (mv_moved n fM _ v x v' i Mv), (mv_moved n fK _ v x v' i Mv), (mv_moved n fC _ v x v' i Mv), (mv_moved n fM _ a x a' i Ma).
  rewrite (mv_moved n fK _ u x u' i Mu), (mv_moved n fG _ u x u' i Mu) in HB.
  assert (HB2 : nth i b0' 0 = nth i b0 0 - mv n fK x i - mv n fG x i).
  { replace (nth i b0' 0) with (nth i b0 0 + mv n fK u i + mv n fG u i - (mv n fK u i + 1 * mv n fK x i) - (mv n fG u i + 1 * mv n fG x i)); [ring|]. rewrite <- HB. ring. }
  rewrite HB2. ring.
Qed.

Lemma sumTo_S n f : sumTo (S n) f = sumTo n f + f n.
Proof. unfold sumTo. rewrite seq_S, qs_app. unfold qs at 2. cbn [map fold_right]. rewrite Nat.add_0_l. ring. Qed.
(** *** BDF *)
Definition bshape (b0 b : bdf) : Prop := degree b = degree b0 /\ coefs1 b = coefs1 b0 /\ coefs2 b = coefs2 b0 /\ length (coefs b) = length (coefs b0).
Lemma run_shape b0 hs : (2 <= length (coefs1 b0))%nat -> bshape b0 (run b0 hs) /\ bstep (run b0 hs) = (bstep b0 + length hs)%nat /\
  (degree b0 <> 1%nat \/ length (coefs b0) <> 3%nat -> coefs (run b0 hs) = coefs b0).
Proof.
  intros L. unfold run. assert (H : forall hs b, bshape b0 b -> (degree b0 <> 1%nat \/ length (coefs b0) <> 3%nat -> coefs b = coefs b0) ->
    let r := fold_left (fun b h => snd (bdfAdvance (fst h) (snd h) b)) hs b in bshape b0 r /\ bstep r = (bstep b + length hs)%nat /\ (degree b0 <> 1%nat \/ length (coefs b0) <> 3%nat -> coefs r = coefs b0)).
  { intros hs1; induction hs1 as [|[dt dtn] hs0 IH]; intros b B C; cbv zeta; cbn [fold_left length fst snd]; [split; [auto|split; [apply plus_n_O|auto]]|].
    assert (Q : bshape b0 (snd (bdfAdvance dt dtn b)) /\ bstep (snd (bdfAdvance dt dtn b)) = S (bstep b) /\ (degree b0 <> 1%nat \/ length (coefs b0) <> 3%nat -> coefs (snd (bdfAdvance dt dtn b)) = coefs b0)).
    { destruct B as (B1 & B2 & B3 & B4). unfold bdfAdvance. rewrite B2. destruct (Nat.ltb_spec (length (coefs1 b0)) 2) as [X|X]; [lia|].
      rewrite B1, B4. destruct ((2 <? S (bstep b))%nat && (degree b0 =? 1)%nat && (length (coefs b0) =? 3)%nat && qltb 0 dt && qltb 0 dtn) eqn:T; cbn [snd bstep coefs]; unfold bshape; cbn [degree coefs1 coefs2 coefs].
      - apply andb_prop in T as [T _]. apply andb_prop in T as [T _]. apply andb_prop in T as [T1 T2]. apply andb_prop in T1 as [_ T1]. apply Nat.eqb_eq in T1, T2.
        split; [repeat split; auto|]. split; [auto|]. intros [Y|Y]; contradiction.
      - split; [repeat split; auto|]. split; [auto|]. auto. }
    destruct Q as (Q1 & Q2 & Q3). destruct (IH _ Q1 Q3) as (I1 & I2 & I3). cbv zeta in *. split; [exact I1|]. split; [rewrite I2, Q2; lia|exact I3]. }
  destruct (H hs b0) as (A & B & C); auto. repeat split; auto.
Qed.
Ltac poly := unfold combineAt, qs, times; cbn [combine map fold_right fst snd peval pderiv pderiv2 nth].
Lemma bdf1_coefs hs : (1 <= length hs)%nat -> bdfCoefs (run (bdfNew 1) hs) = [1; - (1)].
Proof.
  intros L. destruct (run_shape (bdfNew 1) hs) as ((A1 & A2 & A3 & A4) & B & C); [exact (le_n 2)|]. unfold bdfCoefs. rewrite B. destruct ((bstep (bdfNew 1) + length hs <? 2)%nat); [exact A2|].
  rewrite A1. change (degree (bdfNew 1)) with 1%nat. cbn [Nat.eqb andb]. rewrite C by (right; intros X; discriminate X). reflexivity.
Qed.
Lemma bdf2_first hs : length hs = 1%nat -> bdfCoefs (run (bdfNew 2) hs) = [1; - (1)].
Proof. intros L. destruct (run_shape (bdfNew 2) hs) as ((A1 & A2 & A3 & A4) & B & C); [exact (le_n 2)|]. unfold bdfCoefs. rewrite B, L. exact A2. Qed.
Lemma bdf2_coefs hs dt dtn : (2 <= length hs)%nat -> 0 < dt -> 0 < dtn ->
  bdfCoefs (run (bdfNew 2) (hs ++ [(dt, dtn)])) = (let tau := dt / dtn in [(1 + q_2 * tau) / (tau + 1); - (tau + 1); tau * tau / (tau + 1)]).
Proof.
  intros L D1 D2. unfold run. rewrite fold_left_app. cbn [fold_left fst snd]. fold (run (bdfNew 2) hs).
  destruct (run_shape (bdfNew 2) hs) as ((A1 & A2 & A3 & A4) & B & _); [exact (le_n 2)|].
  unfold bdfAdvance. rewrite A2, A1, A4, B. change (bstep (bdfNew 2)) with 0%nat. change (length (coefs1 (bdfNew 2)) <? 2)%nat with false. change (degree (bdfNew 2) =? 1)%nat with true. change (length (coefs (bdfNew 2)) =? 3)%nat with true.
  destruct (Nat.ltb_spec 2 (S (0 + length hs))) as [X|X]; [|lia]. apply qltb_true in D1, D2. rewrite D1, D2. cbn [andb snd]. unfold bdfCoefs. cbn [bstep degree coefs].
  destruct (Nat.ltb_spec (S (0 + length hs)) 2); [lia|]. change (degree (bdfNew 2) =? 2)%nat with false. reflexivity.
Qed.
Lemma bdf2_second dt0 dt1 : bdfCoefs (run (bdfNew 2) [dt0; dt1]) = [q_3h; - q_2; q_half].
Proof. destruct dt0, dt1. reflexivity. Qed.
Lemma bdf1_exact dt t cs : (length cs <= 2)%nat -> combineAt [1; - (1)] (peval cs) [t; t - dt] = dt * pderiv cs t.
Proof. destruct cs as [|c0 [|c1 [|]]]; cbn [length]; intros; try lia; poly; ring. Qed.
Lemma bdf2_exact dt dtn t cs : 0 < dt -> 0 < dtn -> (length cs <= 3)%nat ->
  combineAt (let tau := dt / dtn in [(1 + q_2 * tau) / (tau + 1); - (tau + 1); tau * tau / (tau + 1)]) (peval cs) [t; t - dt; t - dt - dtn] = dt * pderiv cs t.
Proof.
  intros D1 D2. assert (N1 : dtn <> 0) by (intros ->; apply (Qclt_not_eq _ _ D2); reflexivity).
  assert (N2 : dt + dtn <> 0) by (intros E0; assert (P : 0 < dt + dtn) by qclra; rewrite E0 in P; apply (Qclt_not_eq _ _ P); reflexivity).
  destruct cs as [|c0 [|c1 [|c2 [|]]]]; cbn [length]; intros; try lia; poly; qfield.
Qed.
Lemma bdf2_const dt t cs : (length cs <= 3)%nat -> combineAt [q_3h; - q_2; q_half] (peval cs) [t; t - dt; t - dt - dt] = dt * pderiv cs t.
Proof. destruct cs as [|c0 [|c1 [|c2 [|]]]]; cbn [length]; intros; try lia; poly; qfield. Qed.
(** second-order problems *)
Lemma bdfd2_coefs o st hs : (1 <= o)%Z -> bdfCoefs (run (bdfd2New o st) hs) =
  (let s := (st + length hs)%nat in if (s <? 2)%nat then [q_2; - q_2] else if (o =? 1)%Z then [1; - q_2; 1] else if (s =? 2)%nat then [Q2Qc (5 # 2); - Q2Qc 8; Q2Qc (11 # 2)] else [q_2; - Q2Qc 5; Q2Qc 4; - (1)]).
Proof.
  intros Ho. assert (C1 : coefs1 (bdfd2New o st) = [q_2; - q_2]) by (cbn; destruct (Z.ltb_spec o 1); [lia|reflexivity]).
  destruct (run_shape (bdfd2New o st) hs) as ((A1 & A2 & A3 & A4) & B & C); [rewrite C1; cbn; lia|]. unfold bdfCoefs, bdfActual. cbv zeta. rewrite A1, A2, A3, A4, B, C by (left; cbn; lia).
  change (bstep (bdfd2New o st)) with st. change (degree (bdfd2New o st)) with 2%nat. rewrite C1. destruct ((st + length hs <? 2)%nat); [reflexivity|]. cbn [Nat.eqb andb].
  destruct (Z.eqb_spec o 1) as [->|N].
  - change (2 <=? Z.of_nat (length (coefs (bdfd2New 1 st))) - Z.of_nat 2)%Z with false. rewrite andb_false_r. reflexivity.
  - unfold bdfd2New. cbn [coefs coefs2]. destruct (Z.eqb_spec o 1); [lia|]. destruct (Z.leb_spec 2 o); [|lia]. destruct (Z.ltb_spec 1 o); [|lia].
    match goal with |- context [(2 <=? ?z)%Z] => change (2 <=? z)%Z with true end. rewrite andb_true_r. reflexivity.
Qed.
Lemma lit52 : Q2Qc (5 # 2) = (1 + 1 + 1 + 1 + 1) / (1 + 1). Proof. apply Qc_is_canon. reflexivity. Qed.
Lemma lit112 : Q2Qc (11 # 2) = (1 + 1 + 1 + 1 + 1 + 1 + 1 + 1 + 1 + 1 + 1) / (1 + 1). Proof. apply Qc_is_canon. reflexivity. Qed.
Lemma lit8 : Q2Qc 8 = 1 + 1 + 1 + 1 + 1 + 1 + 1 + 1. Proof. apply Qc_is_canon. reflexivity. Qed.
Lemma lit5 : Q2Qc 5 = 1 + 1 + 1 + 1 + 1. Proof. apply Qc_is_canon. reflexivity. Qed.
Lemma lit4 : Q2Qc 4 = 1 + 1 + 1 + 1. Proof. apply Qc_is_canon. reflexivity. Qed.
Lemma bdfd2_first dt cs : (length cs <= 3)%nat -> pderiv cs 0 = 0 -> combineAt [q_2; - q_2] (peval cs) (times 1 dt dt) = dt * dt * pderiv2 cs dt.
Proof.
  destruct cs as [|c0 [|c1 [|c2 [|]]]]; cbn [length]; intros L D; try lia; revert D; poly; intros D; lits; try ring.
  - assert (D1 : c1 = 0) by (rewrite <- D; ring). rewrite D1. ring.
  - assert (D1 : c1 = 0) by (rewrite <- D; ring). rewrite D1. ring.
Qed.
Lemma bdfd2_second dt cs : (length cs <= 4)%nat -> pderiv cs 0 = 0 -> combineAt [Q2Qc (5 # 2); - Q2Qc 8; Q2Qc (11 # 2)] (peval cs) (times 2 (q_2 * dt) dt) = dt * dt * pderiv2 cs (q_2 * dt).
Proof.
  destruct cs as [|c0 [|c1 [|c2 [|c3 [|]]]]]; cbn [length]; intros L D; try lia; revert D; poly; intros D; rewrite lit52, lit112, lit8; try (qfield; fail);
  (assert (D1 : c1 = 0) by (rewrite <- D; ring)); rewrite D1; qfield.
Qed.
Lemma bdfd2_exact dt t cs : (length cs <= 4)%nat -> combineAt [q_2; - Q2Qc 5; Q2Qc 4; - (1)] (peval cs) (times 3 t dt) = dt * dt * pderiv2 cs t.
Proof. destruct cs as [|c0 [|c1 [|c2 [|c3 [|]]]]]; cbn [length]; intros L; try lia; poly; rewrite lit5, lit4; lits; ring. Qed.
Lemma bdfd2_exact1 dt t cs : (length cs <= 3)%nat -> combineAt [1; - q_2; 1] (peval cs) (times 2 t dt) = dt * dt * (pderiv2 cs t).
Proof. destruct cs as [|c0 [|c1 [|c2 [|]]]]; cbn [length]; intros L; try lia; poly; lits; ring. Qed.
Lemma bdf_extrapolate b dt t cs : bdfExtrapolate b (peval cs (t - dt)) (peval cs (t - dt - dt)) = peval cs t \/ (1 <? bstep b)%nat && (bdfActual b =? 2)%Z = false \/ (2 < length cs)%nat.
Proof.
  unfold bdfExtrapolate. destruct ((1 <? bstep b)%nat && (bdfActual b =? 2)%Z); [|auto]. destruct (Nat.lt_ge_cases 2 (length cs)); [auto|]. left.
  destruct cs as [|c0 [|c1 [|]]]; cbn [length] in *; try lia; cbn [peval]; lits; ring.
Qed.
(** BDFMats *)
Lemma bdfRHS_ok n b h M K A0 b0 vec fM : (1 <= n)%nat -> isMat n n fM M -> length b0 = n -> (4 <= length vec)%nat -> (length (bdfCoefs b) <= length vec)%nat -> (forall x, In x vec -> length x = n) ->
  exists R, bdfRHS b h [A0; M; K] [b0] vec = Some R /\
    isVec n (fun i => nth i b0 0 - sumTo (length (bdfCoefs b)) (fun k => nth k (bdfCoefs b) 0 / (if (degree b =? 2)%nat then h * h else h) * mv n fM (nth k vec []) i)) R.
Proof.
  intros Hn HM Lb L4 LC LV. unfold bdfRHS. cbn [nth_error bind length Nat.eqb negb andb]. destruct (Nat.ltb_spec 3 (length vec)); [|lia].
  set (dc := if (degree b =? 2)%nat then h * h else h).
  destruct (forN_inv (fun k R => isVec n (fun i => nth i b0 0 - sumTo k (fun k => nth k (bdfCoefs b) 0 / dc * mv n fM (nth k vec []) i)) R)
    (fun i db => bind (nth_error vec i) (fun x => subMV M x (- nth i (bdfCoefs b) 0 / dc) db)) (length (bdfCoefs b)) b0) as (R & E & V).
  - split; [auto|]. intros i Hi. unfold sumTo, qs. cbn. ring.
  - intros k s Hk Hs. assert (Hv : (k < length vec)%nat) by lia. rewrite (nth_error_nth' vec [] Hv). cbn [bind].
    destruct (subMV_ok n fM M (nth k vec []) (- nth k (bdfCoefs b) 0 / dc) _ s HM Hn (LV _ (nth_In _ _ Hv)) Hs) as (y & E & V). exists y. split; [exact E|].
    eapply isVec_ext; [|exact V]. intros i Hi. cbv beta. rewrite sumTo_S. unfold Qcdiv. ring.
  - exists R. auto.
Qed.
Lemma bdfNewton_ok n b h M K A0 c cs fM fK : isMat n n fM M -> isMat n n fK K -> bdfCoefs b = c :: cs ->
  exists N, bdfNewton b h [A0; M; K] = Some N /\ isMat n n (fun i j => c / (if (degree b =? 2)%nat then h * h else h) * fM i j + fK i j) N.
Proof.
  intros HM HK EC. unfold bdfNewton. rewrite EC. cbn [nth_error bind]. eexists. split; [reflexivity|].
  eapply isMat_ext2; [|apply madd_ok; [exact HK|apply mscale_ok; exact HM]]. intros i j _ _. cbv beta. unfold Qcdiv. ring.
Qed.
