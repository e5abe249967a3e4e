(** Element matrices: the Newton matrix is the derivative of the residual. *)
From Coq Require Import List Arith ZArith QArith Qcanon Bool Lia Ascii.
From Verif Require Import Base QcLra Mat_model Mat_spec Mat_proofs Mat_proofs5 Mat_proofs6 Mat_proofs8 Dyn_model Dyn_spec Dyn_proofs.
Import ListNotations.
Local Open Scope Qc_scope.

Lemma isVec_ext n f g v : (forall i, (i < n)%nat -> f i = g i) -> isVec n f v -> isVec n g v.
Proof. intros H [L P]. split; auto. intros i Hi. rewrite <- H by auto. auto. Qed.
Lemma isMat_ext2 r c f g m : (forall i j, (i < r)%nat -> (j < c)%nat -> f i j = g i j) -> isMat r c f m -> isMat r c g m.
Proof. intros H (A & B & C & D & P). repeat split; auto. intros i j Hi Hj. rewrite <- H by auto. auto. Qed.
Lemma mv_zero n f x i : (forall j, f i j = 0) -> mv n f x i = 0.
Proof. intros H. unfold mv, sumTo. apply qs_zero. intros j _. rewrite H. ring. Qed.
Lemma matVec_ok n f A x : isMat n n f A -> (1 <= n)%nat -> length x = n -> exists y, matVec A x = Some y /\ isVec n (mv n f x) y.
Proof.
  intros M Hn L. destruct (mulVec_ok n n f A x [] false 0%Z M Hn Hn L) as (Y & E & P); [auto|].
  unfold matVec. rewrite E. exists Y. split; [reflexivity|]. eapply isVec_ext; [|exact P]. intros i Hi. cbn [Z.eqb Z.ltb Z.compare flip]. unfold mv. ring.
Qed.
Lemma subMV_ok n f A x s g dF : isMat n n f A -> (1 <= n)%nat -> length x = n -> isVec n g dF ->
  exists y, subMV A x s dF = Some y /\ isVec n (fun i => g i + s * mv n f x i) y.
Proof.
  intros M Hn L G. destruct (matVec_ok n f A x M Hn L) as (y & E & P). unfold subMV. rewrite E. cbn [bind]. eexists. split; [reflexivity|]. apply add1_ok; auto.
Qed.
Lemma isMat_nonempty n f A : isMat n n f A -> (1 <= n)%nat -> mEmpty A = false.
Proof. intros (_ & _ & _ & L & _) Hn. unfold mEmpty. rewrite L. apply Nat.eqb_neq. nia. Qed.
Lemma onM_ok n A k f cond x s g dF : elmMat n A k f -> (1 <= n)%nat -> length x = n -> isVec n g dF ->
  exists y, onM (have A k) cond x s dF = Some y /\ isVec n (fun i => g i + (if cond then s else 0) * mv n f x i) y.
Proof.
  unfold elmMat, have. intros H Hn L G. destruct (nth_error A k) as [B|].
  - destruct H as [M|[E Z]].
    + rewrite (isMat_nonempty n f B M Hn). cbn [onM]. destruct cond.
      * exact (subMV_ok n f B x s g dF M Hn L G).
      * eexists. split; [reflexivity|]. eapply isVec_ext; [|exact G]. intros; ring.
    + unfold mEmpty. rewrite E. cbn [length Nat.eqb onM]. eexists. split; [reflexivity|]. eapply isVec_ext; [|exact G]. intros i Hi. rewrite mv_zero by auto. ring.
  - cbn [onM]. eexists. split; [reflexivity|]. eapply isVec_ext; [|exact G]. intros i Hi. rewrite mv_zero by auto. ring.
Qed.
Lemma addIf_ok n A k f s g N : elmMat n A k f -> isMat n n g N -> isMat n n (fun i j => g i j + s * f i j) (addIf A k s N).
Proof.
  unfold elmMat, addIf. intros H G. destruct (nth_error A k) as [B|].
  - destruct H as [M|[E Z]]; [apply madd_ok; auto|].
    apply (isMat_ext2 n n g); [intros i j _ _; rewrite Z; ring|].
    unfold madd. rewrite E. cbn [combine map app length skipn]. destruct N; exact G.
  - eapply isMat_ext2; [|exact G]. intros i j _ _. rewrite H. ring.
Qed.
(** sums of a linear combination *)
Lemma mv_moved n f c x d y i : moved n c x d y -> mv n f y i = mv n f x i + c * mv n f d i.
Proof.
  intros [_ H]. unfold mv, sumTo. rewrite <- qs_scal, <- qs_plus. apply qs_ext. intros j Hj. apply in_seq in Hj. rewrite H by lia. ring.
Qed.
Lemma mv_lin2 n f g a b x i : mv n (fun i j => a * f i j + b * g i j) x i = a * mv n f x i + b * mv n g x i.
Proof. unfold mv, sumTo. rewrite <- !qs_scal, <- qs_plus. apply qs_ext. intros. ring. Qed.
Lemma mv_ext n f g x i : (forall j, (j < n)%nat -> f i j = g i j) -> mv n f x i = mv n g x i.
Proof. intros H. unfold mv, sumTo. apply qs_ext. intros j Hj. apply in_seq in Hj. rewrite H by lia. reflexivity. Qed.

(** *** NewmarkMats *)
Lemma newmarkRHS_ok n e b0 u v a fM fK fC : (1 <= n)%nat -> eb e = [b0] -> length b0 = n -> (exists rest, evec e = u :: v :: a :: rest) -> length v = n -> length a = n ->
  elmMat n (eA e) 1 fM -> elmMat n (eA e) 2 fK -> elmMat n (eA e) 3 fC -> 0 <= ea1 e -> 0 <= ea2 e ->
  exists R, newmarkRHS e = Some R /\ isVec n (fun i => nth i b0 0 - mv n fM a i - mv n fC v i - ea1 e * mv n fM v i - ea2 e * mv n fK v i) R.
Proof.
  intros Hn Eb Lb [rest Ev] Lv La HM HK HC P1 P2. unfold newmarkRHS. rewrite Eb, Ev. cbn [length Nat.ltb Nat.leb nth].
  destruct (onM_ok n (eA e) 1 fM true a (- (1)) _ b0 HM Hn La (isVec_self _ _ Lb)) as (r1 & E1 & V1). rewrite E1. cbn [bind].
  destruct (onM_ok n (eA e) 3 fC true v (- (1)) _ r1 HC Hn Lv V1) as (r2 & E2 & V2). rewrite E2. cbn [bind].
  destruct (onM_ok n (eA e) 1 fM (qltb 0 (ea1 e)) v (- ea1 e) _ r2 HM Hn Lv V2) as (r3 & E3 & V3). rewrite E3. cbn [bind].
  destruct (onM_ok n (eA e) 2 fK (qltb 0 (ea2 e)) v (- ea2 e) _ r3 HK Hn Lv V3) as (r4 & E4 & V4). rewrite E4.
  exists r4. split; [reflexivity|]. eapply isVec_ext; [|exact V4]. intros i Hi. cbv beta.
  assert (Z : forall c, 0 <= c -> (if qltb 0 c then - c else 0) = - c).
  { intros c Hc. unfold qltb. destruct (Qclt_le_dec 0 c) as [|Q]; [auto|]. assert (c = 0) as -> by (apply Qcle_antisym; auto). ring. }
  rewrite !Z by auto. ring.
Qed.
Lemma newmarkNewton_ok n e fA fM fK fC : (1 <= n)%nat -> (2 <= length (eA e))%nat -> (exists A0, nth_error (eA e) 0 = Some A0 /\ isMat n n fA A0) ->
  elmMat n (eA e) 1 fM -> elmMat n (eA e) 2 fK -> elmMat n (eA e) 3 fC ->
  exists N, newmarkNewton e = Some N /\ isMat n n (fun i j =>
    (if eslv e then 1 / (ebeta e * eh e * eh e) else 1) *
    ((eam e + eaf e * ea1 e * egamma e * eh e) * fM i j + eaf e * (ea2 e * egamma e + ebeta e * eh e) * eh e * fK i j + eaf e * egamma e * eh e * fC i j)) N.
Proof.
  intros Hn L2 (A0 & EA0 & MA0) HM HK HC. unfold newmarkNewton. destruct (eA e) as [|A0' [|M rest]] eqn:EA; [discriminate|cbn in L2; lia|].
  cbn in EA0. injection EA0 as ->. cbn [nth_error bind].
  assert (M1 : isMat n n (fun i j => (eam e + eaf e * ea1 e * egamma e * eh e) * fM i j) (if mEmpty M then mfill0 A0 else mscale (eam e + eaf e * ea1 e * egamma e * eh e) M)).
  { unfold elmMat in HM. cbn [nth_error] in HM. destruct HM as [HM|[E0 Z]].
    - rewrite (isMat_nonempty n fM M HM Hn). eapply isMat_ext2; [|apply mscale_ok; exact HM]. intros; cbv beta; ring.
    - unfold mEmpty. rewrite E0. cbn [length Nat.eqb]. destruct MA0 as (A1 & A2 & A3 & A4 & A5). unfold mfill0, isMat; cbn [setElem d1 d2 d3 d4 elem].
      split; [auto|]. split; [auto|]. split; [auto|]. split; [unfold zeroed; rewrite map_length; auto|]. intros i j _ _. rewrite zeroed_nth, Z. ring. }
  pose proof (addIf_ok n _ 2 fK (eaf e * (ea2 e * egamma e + ebeta e * eh e) * eh e) _ _ HK M1) as M2.
  pose proof (addIf_ok n _ 3 fC (eaf e * egamma e * eh e) _ _ HC M2) as M3.
  eexists. split; [reflexivity|]. destruct (eslv e).
  - eapply isMat_ext2; [|apply mscale_ok; exact M3]. intros i j _ _. cbv beta. ring.
  - eapply isMat_ext2; [|exact M3]. intros i j _ _. cbv beta. ring.
Qed.
(** *** HHTMats *)
Lemma hhtNewton_ok n e fA fM fK fG fC : (1 <= n)%nat -> (2 <= length (eA e))%nat -> (exists A0, nth_error (eA e) 0 = Some A0 /\ isMat n n fA A0) ->
  elmMat n (eA e) 1 fM -> elmMat n (eA e) 2 fK -> elmMat n (eA e) 3 fG -> elmMat n (eA e) 4 fC ->
  exists N, hhtNewton e = Some N /\ isMat n n (fun i j => let ap := q_3h - egamma e in let g := egamma e / (ebeta e * eh e) in
    (1 / (ebeta e * eh e * eh e) + ap * ea1 e * g) * fM i j + (ap + ap * ea2 e * g) * fK i j + ap * fG i j + ap * g * fC i j) N.
Proof.
  intros Hn L2 (A0 & EA0 & MA0) HM HK HG HC. unfold hhtNewton. destruct (eA e) as [|A0' [|M rest]] eqn:EA; [discriminate|cbn in L2; lia|].
  cbn in EA0. injection EA0 as ->. cbn [nth_error bind]. set (ap := q_3h - egamma e). set (g := egamma e / (ebeta e * eh e)). cbv zeta.
  assert (M1 : isMat n n (fun i j => (1 / (ebeta e * eh e * eh e) + ap * ea1 e * g) * fM i j) (if mEmpty M then mfill0 A0 else mscale (1 / (ebeta e * eh e * eh e) + ap * ea1 e * g) M)).
  { unfold elmMat in HM. cbn [nth_error] in HM. destruct HM as [HM|[E0 Z]].
    - rewrite (isMat_nonempty n fM M HM Hn). eapply isMat_ext2; [|apply mscale_ok; exact HM]. intros; cbv beta; ring.
    - unfold mEmpty. rewrite E0. cbn [length Nat.eqb]. destruct MA0 as (A1 & A2 & A3 & A4 & A5). unfold mfill0, isMat; cbn [setElem d1 d2 d3 d4 elem].
      split; [auto|]. split; [auto|]. split; [auto|]. split; [unfold zeroed; rewrite map_length; auto|]. intros i j _ _. rewrite zeroed_nth, Z. ring. }
  pose proof (addIf_ok n _ 2 fK (ap + ap * ea2 e * g) _ _ HK M1) as M2.
  pose proof (addIf_ok n _ 3 fG ap _ _ HG M2) as M3.
  pose proof (addIf_ok n _ 4 fC (ap * g) _ _ HC M3) as M4.
  eexists. split; [reflexivity|exact M4].
Qed.
Lemma pos_if c s : 0 <= c -> (if qltb 0 c then s * c else 0) = s * c.
Proof. intros Hc. unfold qltb. destruct (Qclt_le_dec 0 c) as [|Q]; [auto|]. assert (c = 0) as -> by (apply Qcle_antisym; auto). ring. Qed.
Lemma pos_if1 c : 0 <= c -> (if qltb 0 c then - c else 0) = - c.
Proof. intros Hc. unfold qltb. destruct (Qclt_le_dec 0 c) as [|Q]; [auto|]. assert (c = 0) as -> by (apply Qcle_antisym; auto). ring. Qed.
Lemma massive_elm n e f : massive n e f -> elmMat n (eA e) 1 f. Proof. intros (M & E & H). unfold elmMat. rewrite E. auto. Qed.
(** the corrector; at most two further vectors in b *)
Lemma hhtRHS_corr n e b0 rest u v a vr fM fK fC : (1 <= n)%nat -> epred e = false -> eb e = b0 :: rest -> (length rest <= 2)%nat -> length b0 = n ->
  evec e = u :: v :: a :: vr -> length v = n -> length a = n -> massive n e fM -> elmMat n (eA e) 2 fK -> elmMat n (eA e) 4 fC -> 0 <= ea1 e -> 0 <= ea2 e ->
  exists R, hhtRHS false e = Some (R, nth_error rest 0) /\
    isVec n (fun i => let ap := q_3h - egamma e in ap * (nth i b0 0 - ea1 e * mv n fM v i - ea2 e * mv n fK v i - mv n fC v i) - mv n fM a i) R.
Proof.
  intros Hn Ep Eb Lr Lb Ev Lv La HMs HK HC P1 P2. pose proof (massive_elm _ _ _ HMs) as HM. destruct HMs as (M & EM & MM). unfold hhtRHS. rewrite Eb, Ev, Ep. cbn [length Nat.ltb Nat.leb nth andb orb bind negb].
  assert (HV : have (eA e) 1 = Some M) by (unfold have; rewrite EM, (isMat_nonempty n fM M MM Hn); reflexivity). rewrite HV. 
  destruct (subMV_ok n fM M a (- (1)) _ (vscale (q_3h - egamma e) b0) MM Hn La (vscale_ok n _ _ b0 (isVec_self _ _ Lb))) as (r1 & E1 & V1). rewrite E1. cbn [bind].
  assert (SKIP : match nth_error rest 1 with Some _ => r1 | None => r1 end = r1) by (destruct (nth_error rest 1); reflexivity). rewrite SKIP.
  destruct (onM_ok n (eA e) 1 fM (qltb 0 (ea1 e)) v (- (q_3h - egamma e) * ea1 e) _ r1 HM Hn Lv V1) as (r2 & E2 & V2). rewrite HV in E2. rewrite E2. cbn [bind].
  destruct (onM_ok n (eA e) 2 fK (qltb 0 (ea2 e)) v (- (q_3h - egamma e) * ea2 e) _ r2 HK Hn Lv V2) as (r3 & E3 & V3). rewrite E3. cbn [bind].
  destruct (onM_ok n (eA e) 4 fC true v (- (q_3h - egamma e)) _ r3 HC Hn Lv V3) as (r4 & E4 & V4).
  assert (NR : nth_error rest 2 = None) by (apply nth_error_None; auto). rewrite NR, E4. cbn [bind].
  exists r4. split; [reflexivity|]. eapply isVec_ext; [|exact V4]. intros i Hi. cbv beta zeta. rewrite !pos_if by auto. ring.
Qed.
(** the predictor, with predicted velocity V and acceleration A *)
Lemma hhtRHS_pred n e b0 b1 u v a V Ac fM fK fC : (1 <= n)%nat -> epred e = true -> eb e = [b0; b1] -> length b0 = n ->
  evec e = [u; v; a; V; Ac] -> length v = n -> length a = n -> length V = n -> length Ac = n -> massive n e fM -> elmMat n (eA e) 2 fK -> elmMat n (eA e) 4 fC -> 0 <= ea1 e -> 0 <= ea2 e ->
  exists R F, hhtRHS false e = Some (R, Some F) /\
    isVec n (fun i => nth i b0 0 - ea1 e * mv n fM v i - ea2 e * mv n fK v i - mv n fC v i) F /\
    isVec n (fun i => let ap := q_3h - egamma e in mv n fM Ac i - mv n fM a i + ap * (ea1 e * mv n fM V i + ea2 e * mv n fK V i + mv n fC V i)) R.
Proof.
  intros Hn Ep Eb Lb Ev Lv La LV LA HMs HK HC P1 P2. pose proof (massive_elm _ _ _ HMs) as HM. destruct HMs as (M & EM & MM). unfold hhtRHS. rewrite Eb, Ev, Ep. cbn [length Nat.ltb Nat.leb nth andb orb negb nth_error].
  destruct (onM_ok n (eA e) 1 fM (qltb 0 (ea1 e)) v (- ea1 e) _ b0 HM Hn Lv (isVec_self _ _ Lb)) as (f1 & F1 & W1). rewrite F1. cbn [bind].
  destruct (onM_ok n (eA e) 2 fK (qltb 0 (ea2 e)) v (- ea2 e) _ f1 HK Hn Lv W1) as (f2 & F2 & W2). rewrite F2. cbn [bind].
  destruct (onM_ok n (eA e) 4 fC true v (- (1)) _ f2 HC Hn Lv W2) as (f3 & F3 & W3). rewrite F3. cbn [bind].
  assert (HV : have (eA e) 1 = Some M) by (unfold have; rewrite EM, (isMat_nonempty n fM M MM Hn); reflexivity). rewrite HV.
  cbn [Nat.sub nth]. assert (LD : length (add1 Ac a (- (1))) = n) by (lens).
  destruct (mulVec_ok n n fM M (add1 Ac a (- (1))) b0 false 0%Z MM Hn Hn LD) as (r0 & E0 & V0); [auto|]. rewrite E0. cbn [bind snd Nat.sub nth]. match goal with |- context [if ?c then Some (r0, _) else _] => change c with true end. cbv iota. cbn [bind].
  destruct (onM_ok n (eA e) 1 fM (qltb 0 (ea1 e)) V ((q_3h - egamma e) * ea1 e) _ r0 HM Hn LV V0) as (r2 & E2 & V2). rewrite HV in E2. rewrite E2. cbn [bind].
  destruct (onM_ok n (eA e) 2 fK (qltb 0 (ea2 e)) V ((q_3h - egamma e) * ea2 e) _ r2 HK Hn LV V2) as (r3 & E3 & V3). rewrite E3. cbn [bind].
  destruct (onM_ok n (eA e) 4 fC true V (q_3h - egamma e) _ r3 HC Hn LV V3) as (r4 & E4 & V4). rewrite E4. cbn [bind].
  exists r4, f3. split; [reflexivity|]. split; [eapply isVec_ext; [|exact W3]; intros i Hi; cbv beta; rewrite !pos_if1 by auto; ring|].
  eapply isVec_ext; [|exact V4]. intros i Hi. cbv beta zeta. cbn [Z.eqb Z.ltb Z.compare flip]. rewrite !pos_if by auto.
  assert (MD : moved n (- (1)) Ac a (add1 Ac a (- (1)))) by (split; [auto|]; intros; apply (add1_nth n); auto).
  pose proof (mv_moved n fM (- (1)) Ac a _ i MD) as Q. unfold mv in Q at 1. rewrite Q. ring.
Qed.

(** the old predictor and corrector; ext: the third vector in b *)
Definition ext (rest : list (list Qc)) (i : nat) : Qc := match nth_error rest 1 with Some x => nth i x 0 | None => 0 end.
Lemma hhtRHS_old n e b0 rest u v a fM fK fC : (1 <= n)%nat -> eb e = b0 :: rest -> (1 <= length rest <= 2)%nat -> length b0 = n -> (forall x, In x rest -> length x = n) ->
  evec e = [u; v; a] -> length v = n -> length a = n -> massive n e fM -> elmMat n (eA e) 2 fK -> elmMat n (eA e) 4 fC -> 0 <= ea1 e -> 0 <= ea2 e ->
  exists R F, hhtRHS true e = Some (R, Some F) /\
    isVec n (fun i => nth i b0 0 + ext rest i - ea1 e * mv n fM v i - ea2 e * mv n fK v i - mv n fC v i) F /\
    isVec n (fun i => let ap := q_3h - egamma e in let sg := if epred e then - (1) else 1 in
      ap * (nth i b0 0 + ext rest i - sg * (ea1 e * mv n fM v i + ea2 e * mv n fK v i + mv n fC v i)) - sg * mv n fM a i) R.
Proof.
  intros Hn Eb Lr Lb LR Ev Lv La HMs HK HC P1 P2. pose proof (massive_elm _ _ _ HMs) as HM. destruct HMs as (M & EM & MM). unfold hhtRHS. rewrite Eb, Ev. change (length [u; v; a] <? 3)%nat with false. cbn [nth].
  rewrite orb_true_r. assert (LT : (0 <? length rest)%nat = true) by (apply Nat.ltb_lt; lia). rewrite LT. cbn [andb negb].
  assert (LE : match nth_error rest 1 with Some x => length x = n | None => True end) by (destruct (nth_error rest 1) eqn:X; [apply LR; apply (nth_error_In _ _ X)|auto]).
  assert (V0 : isVec n (fun i => nth i b0 0 + ext rest i) (match nth_error rest 1 with Some x => add1 b0 x 1 | None => b0 end)).
  { unfold ext. destruct (nth_error rest 1) as [x|]; [eapply isVec_ext; [|apply add1_ok; [apply isVec_self; exact Lb|apply isVec_self; exact LE]]; intros; cbv beta; ring|eapply isVec_ext; [|apply isVec_self; exact Lb]; intros; cbv beta; ring]. }
  destruct (onM_ok n (eA e) 1 fM (qltb 0 (ea1 e)) v (- ea1 e) _ _ HM Hn Lv V0) as (f1 & F1 & W1). rewrite F1. cbn [bind].
  destruct (onM_ok n (eA e) 2 fK (qltb 0 (ea2 e)) v (- ea2 e) _ f1 HK Hn Lv W1) as (f2 & F2 & W2). rewrite F2. cbn [bind].
  destruct (onM_ok n (eA e) 4 fC true v (- (1)) _ f2 HC Hn Lv W2) as (f3 & F3 & W3). rewrite F3. cbn [bind].
  assert (HV : have (eA e) 1 = Some M) by (unfold have; rewrite EM, (isMat_nonempty n fM M MM Hn); reflexivity). rewrite HV.
  destruct (subMV_ok n fM M a (if epred e then 1 else - (1)) _ (vscale (q_3h - egamma e) b0) MM Hn La (vscale_ok n _ _ b0 (isVec_self _ _ Lb))) as (r1 & E1 & V1). rewrite E1. cbn [bind].
  assert (V1' : isVec n (fun i => nth i b0 0 * (q_3h - egamma e) + (if epred e then 1 else - (1)) * mv n fM a i + (q_3h - egamma e) * ext rest i) (match nth_error rest 1 with Some x => add1 r1 x (q_3h - egamma e) | None => r1 end)).
  { unfold ext. destruct (nth_error rest 1) as [x|]; [eapply isVec_ext; [|apply add1_ok; [exact V1|apply isVec_self; exact LE]]; intros; cbv beta; ring|eapply isVec_ext; [|exact V1]; intros; cbv beta; ring]. }
  set (ap := if epred e then q_3h - egamma e else - (q_3h - egamma e)).
  destruct (onM_ok n (eA e) 1 fM (qltb 0 (ea1 e)) v (ap * ea1 e) _ _ HM Hn Lv V1') as (r2 & E2 & V2). rewrite HV in E2. rewrite E2. cbn [bind].
  destruct (onM_ok n (eA e) 2 fK (qltb 0 (ea2 e)) v (ap * ea2 e) _ r2 HK Hn Lv V2) as (r3 & E3 & V3). rewrite E3. cbn [bind].
  destruct (onM_ok n (eA e) 4 fC true v ap _ r3 HC Hn Lv V3) as (r4 & E4 & V4).
  assert (NR : nth_error rest 2 = None) by (apply nth_error_None; lia). rewrite NR, E4. cbn [bind].
  exists r4, f3. split; [reflexivity|]. split; [eapply isVec_ext; [|exact W3]; intros i Hi; cbv beta; rewrite !pos_if1 by auto; ring|].
  eapply isVec_ext; [|exact V4]. intros i Hi. cbv beta zeta. rewrite !pos_if by auto. unfold ap. destruct (epred e); ring.
Qed.
