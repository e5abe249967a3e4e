(** assemble and finalize of one system. *)
From Coq Require Import List Arith ZArith QArith Qcanon Bool Lia Permutation.
From Verif Require Import Base SAM_model SAM_spec SAM_proofs SAM_proofs2 SAM_proofs3 SAM_proofs4 Sparse_model Sparse_spec Sparse_proofs Sparse_proofs2 Sparse_proofs3 Sparse_proofs4 Sparse_proofs5 Sparse_proofs6 Sparse_proofs8 AlgEq_model AlgEq_spec AlgEq_proofs AlgEq_proofs2 AlgEq_proofs3 AlgEq_proofs4.
Import ListNotations.
Local Open Scope nat_scope.

Lemma back_eq (Rf : list Qc) r : rOK (match Rf with [] => None | _ => Some Rf end) r ->
  length (match r with Some l => l | None => Rf end) = length Rf /\
  forall f, rAdd f (match Rf with [] => None | _ => Some Rf end) r -> forall p, p < length Rf -> nth p (match r with Some l => l | None => Rf end) 0%Qc = (nth p Rf 0 + f p)%Qc.
Proof.
  destruct Rf as [|r0 Rf]; cbn.
  - destruct r; [tauto|]. intros _. split; [reflexivity|]. intros f _ p Hp. lia.
  - destruct r; [|tauto]. intros L. split; [congruence|]. intros f H p Hp. apply H. exact Hp.
Qed.
Lemma reactAt_plus s nodes n f g p : reactAt s nodes n (fun i => f i + g i)%Qc p = (reactAt s nodes n f p + reactAt s nodes n g p)%Qc.
Proof.
  unfold reactAt. rewrite <- qs_plus. apply qs_ext. intros i _. destruct (nth_error _ i) as [[k|]|]; try ring. destruct (_ =? _)%Z; ring.
Qed.
Lemma newton_fits e (meen : list Z) : (forall E, In E (eA e) -> fst E = 0 \/ fst E = length meen) -> fst (newtonMat e) = 0 \/ fst (newtonMat e) = length meen.
Proof. unfold newtonMat. destruct (eA e); cbn; [auto|]. intros H. apply H. auto. Qed.
Lemma rhs_fits e (meen : list Z) : (forall v, In v (eB e) -> v = [] \/ length v = length meen) -> rhsVec e = [] \/ length (rhsVec e) = length meen.
Proof. unfold rhsVec. destruct (eB e); cbn; [auto|]. intros H. apply H. auto. Qed.

Lemma asmSingle_ok s sl e iel ka k0 bt h Rf owM owV : consistent s -> own (hM h) owM -> own (hV h) owV -> allv (ready s sl) (hM h) -> allv (lenV s) (hV h) ->
  In ka owM -> In k0 owV -> (forall p, In p bt -> In p owV) -> (Rf <> [] -> exists nodes, elmNodes s iel = Some nodes) ->
  exists ok h' R', asmSingle s e iel (Some ka) (Some k0) (map Some bt) h Rf = Some (ok, h', R') /\ own (hM h') owM /\ own (hV h') owV /\ allv (ready s sl) (hM h') /\ allv (lenV s) (hV h') /\ hD h' = hD h /\
    (forall q, q <> ka -> nth_error (hM h') q = nth_error (hM h) q) /\ (forall rs, (forall p, In p rs -> ~ In p (k0 :: bt)) -> same rs (hV h) (hV h')) /\ length R' = length Rf /\
    (forall meen nodes, elmFits s e iel meen -> elmNodes s iel = Some nodes -> ok = true /\
       (forall q p, vval (hV h') q p = (vval (hV h) q p + qs (fun t => if fst t =? q then vecTerm s meen (snd t) (S p) else 0) (combine (k0 :: bt) (rhsVec e :: tl (eB e)))
            - if (q =? k0) && withLHS e then prescTerm s meen (newtonMat e) (S p) else 0)%Qc) /\
       (forall M, nth_error (hM h) ka = Some (Some M) -> exists M', assembleElms s (if withLHS e then em1 (rhsOnly e) meen (Some (newtonMat e)) else []) M = Some M' /\ nth_error (hM h') ka = Some (Some M')) /\
       forall p, p < length Rf -> nth p R' 0%Qc = (nth p Rf 0 + reactAt s nodes (length meen) (fun i => nth i (rhsVec e) 0 + if withLHS e then matReact s meen (newtonMat e) i else 0) p)%Qc).
Proof.
  intros C OM OV VM VV Ia I0 It HR. unfold asmSingle.
  pose proof (own_live _ _ _ OM Ia) as La. destruct (getp_live _ _ La) as (M & GM & EM).
  pose proof (own_live _ _ _ OV I0) as L0. destruct (getp_live _ _ L0) as (x0 & -> & E0). cbv zeta.
  set (reac := match Rf with [] => None | _ => Some Rf end).
  destruct (asmVec_ok s (rhsVec e) iel x0 reac C (VV _ _ E0)) as (ok1 & x1 & r1 & -> & L1 & R1 & V1).
  { intros Hr. apply HR. unfold reac in Hr. destruct Rf; [congruence|discriminate]. }
  assert (Mid : exists ok2 h2 r2, (if ok1 && withLHS e then
               if rhsOnly e then
                 match asmKVec s (newtonMat e) iel x1 r1 with
                 | None => None
                 | Some (ok, x, r) => Some (ok, mkH (hM h) (setp (hV h) (Some k0) x) (hD h), match r with Some l => l | None => Rf end)
                 end
               else match getp (hM h) (Some ka) with
                    | None => None
                    | Some M => match asmMat s (newtonMat e) iel M (Some x1) r1 with
                                | Some (ok, M', Some x, r) => Some (ok, mkH (setp (hM h) (Some ka) M') (setp (hV h) (Some k0) x) (hD h), match r with Some l => l | None => Rf end)
                                | _ => None
                                end
                    end
             else Some (ok1, mkH (hM h) (setp (hV h) (Some k0) x1) (hD h), match r1 with Some l => l | None => Rf end)) = Some (ok2, h2, match r2 with Some l => l | None => Rf end) /\
     own (hM h2) owM /\ own (hV h2) owV /\ allv (ready s sl) (hM h2) /\ allv (lenV s) (hV h2) /\ hD h2 = hD h /\
     (forall q, q <> ka -> nth_error (hM h2) q = nth_error (hM h) q) /\ (forall q, q <> k0 -> nth_error (hV h2) q = nth_error (hV h) q) /\ rOK reac r2 /\
     (forall meen nodes, elmFits s e iel meen -> elmNodes s iel = Some nodes -> ok2 = true /\
        (forall p, vval (hV h2) k0 p = (nth p x0 0 + vecTerm s meen (rhsVec e) (S p) - if withLHS e then prescTerm s meen (newtonMat e) (S p) else 0)%Qc) /\
        (exists M', assembleElms s (if withLHS e then em1 (rhsOnly e) meen (Some (newtonMat e)) else []) M = Some M' /\ nth_error (hM h2) ka = Some (Some M')) /\
        rAdd (reactAt s nodes (length meen) (fun i => nth i (rhsVec e) 0 + if withLHS e then matReact s meen (newtonMat e) i else 0)%Qc) reac r2)).
  { destruct (ok1 && withLHS e) eqn:Ew.
    - apply andb_true_iff in Ew. destruct Ew as [Eo Ew]. rewrite Ew. destruct (rhsOnly e) eqn:Er.
      + destruct (asmKVec_ok s (newtonMat e) iel x1 r1 C L1) as (ok2 & x2 & r2 & -> & L2 & R2 & V2). eexists. eexists. eexists. split; [reflexivity|]. cbn [hM hV hD].
        split; [exact OM|]. split; [apply setp_own; auto|]. split; [exact VM|]. split; [apply setp_allv; auto|]. split; [reflexivity|]. split; [auto|].
        split; [intros q Hq; rewrite setp_get by exact L0; destruct (Nat.eqb_spec q k0); [contradiction|reflexivity]|]. split; [eapply rOK_trans; eauto|].
        intros meen nodes (G & FA & FB) En. destruct (V1 meen nodes G En (rhs_fits e meen FB)) as (_ & X1 & Y1). destruct (V2 meen nodes G En (newton_fits e meen FA)) as (Z2 & X2 & Y2).
        split; [exact Z2|]. split; [intros p; rewrite vval_setp, Nat.eqb_refl, X2, X1 by exact L0; ring|]. split; [exists M; split; [reflexivity|exact EM]|].
        exact (rAdd_trans _ _ _ _ _ _ R1 Y1 Y2 (reactAt_plus s nodes (length meen) _ _) R2).
      + rewrite GM. destruct (asmMat_ok s sl (newtonMat e) iel M (Some x1) r1 C (VM _ _ EM)) as (ok2 & M2 & x2 & r2 & EE & RM2 & L2 & R2 & V2); [intros v [= <-]; exact L1|].
        rewrite EE. destruct x2 as [x2|]; [|destruct L2]. eexists. eexists. eexists. split; [reflexivity|]. cbn [hM hV hD].
        split; [apply setp_own; auto|]. split; [apply setp_own; auto|]. split; [apply setp_allv; auto|]. split; [apply setp_allv; auto|]. split; [reflexivity|].
        split; [intros q Hq; rewrite setp_get by exact La; destruct (Nat.eqb_spec q ka); [contradiction|reflexivity]|].
        split; [intros q Hq; rewrite setp_get by exact L0; destruct (Nat.eqb_spec q k0); [contradiction|reflexivity]|]. split; [eapply rOK_trans; eauto|].
        intros meen nodes (G & FA & FB) En. destruct (V1 meen nodes G En (rhs_fits e meen FB)) as (_ & X1 & Y1). destruct (V2 meen nodes G En (newton_fits e meen FA)) as (Z2 & X0 & X2 & Y2).
        split; [exact Z2|]. split; [intros p; cbn in X2; rewrite vval_setp, Nat.eqb_refl, X2, X1 by exact L0; ring|].
        split; [exists M2; split; [exact X0|rewrite setp_get, Nat.eqb_refl by exact La; reflexivity]|].
        exact (rAdd_trans _ _ _ _ _ _ R1 Y1 Y2 (reactAt_plus s nodes (length meen) _ _) R2).
    - eexists. eexists. eexists. split; [reflexivity|]. cbn [hM hV hD].
      split; [exact OM|]. split; [apply setp_own; auto|]. split; [exact VM|]. split; [apply setp_allv; auto|]. split; [reflexivity|]. split; [auto|].
      split; [intros q Hq; rewrite setp_get by exact L0; destruct (Nat.eqb_spec q k0); [contradiction|reflexivity]|]. split; [exact R1|].
      intros meen nodes (G & FA & FB) En. destruct (V1 meen nodes G En (rhs_fits e meen FB)) as (Z1 & X1 & Y1). subst ok1. cbn in Ew. rewrite Ew.
      split; [reflexivity|]. split; [intros p; rewrite vval_setp, Nat.eqb_refl, X1 by exact L0; ring|]. split; [exists M; split; [reflexivity|exact EM]|].
      eapply rAdd_trans; [exact R1|exact Y1|apply rAdd_zero; intros; reflexivity| |apply rOK_refl]. intros p. rewrite reactAt_plus. cbv beta.
      unfold reactAt at 2. rewrite qs_zero; [reflexivity|]. intros i _. destruct (nth_error _ i) as [[k|]|]; try reflexivity. destruct (_ =? _)%Z; reflexivity. }
  destruct Mid as (ok2 & h2 & r2 & EQ & OM2 & OV2 & VM2 & VV2 & HD2 & F1 & F2 & R2 & W2). rewrite EQ.
  destruct (asmVecs_ok s iel bt (tl (eB e)) ok2 (hV h2) owV C OV2 VV2 It) as (ok3 & v3 & -> & OV3 & VV3 & S3 & W3).
  eexists. eexists. eexists. split; [reflexivity|]. cbn [hM hV hD]. destruct (back_eq Rf r2 R2) as [BL BV].
  do 4 (split; [assumption|]). split; [exact HD2|]. split; [exact F1|]. split; [|split; [exact BL|]].
  - intros rs Hr p Hp. rewrite (S3 rs); auto; [apply F2; intros ->; apply (Hr k0 Hp); left; reflexivity|]. intros u Hu Hi. apply (Hr u Hu). right; exact Hi.
  - intros meen nodes Fi En. destruct (W2 meen nodes Fi En) as (-> & X1 & X2 & X3). destruct Fi as (G & FA & FB).
    destruct (W3 meen G) as (Z3 & Y3); [intros x Hx; apply FB; destruct (eB e); [destruct Hx|right; exact Hx]|reflexivity|].
    split; [exact Z3|]. split; [|split].
    + intros q p. rewrite Y3. cbn [combine]. rewrite qs_cons. cbn [fst snd]. rewrite (Nat.eqb_sym k0 q). destruct (Nat.eqb_spec q k0) as [->|Hn]; cbn [andb].
      * rewrite X1, (vval_get (hV h) k0 x0 p E0). destruct (withLHS e); ring.
      * assert (Ev : vval (hV h2) q p = vval (hV h) q p) by (unfold vval; rewrite F2 by exact Hn; reflexivity). rewrite Ev. ring.
    + intros M0 HM. rewrite EM in HM. injection HM as <-. exact X2.
    + exact (BV _ X3).
Qed.

(** ** Scalars *)
Definition sclSum (h : heap) (y : sys) (j : nat) : Qc :=
  (nth j (c y) 0 + match d y with DArr p => match nth_error (hD h) p with Some (Some bufs) => qs (fun u => nth j u 0) bufs | _ => 0 end | _ => 0 end)%Qc.
Lemma addPre_nth : forall x y j, j < length y -> nth j (addPre x y) 0%Qc = (nth j y 0 + nth j x 0)%Qc.
Proof.
  induction x as [|a x IH]; intros [|e y] j Hj; cbn [addPre length] in *; try lia.
  - destruct j; cbn [nth]; ring.
  - destruct j; cbn [nth]; [ring|]. rewrite IH by lia. ring.
Qed.
Lemma qs_upd {X} (f : X -> Qc) (l : list X) i x x' : nth_error l i = Some x -> qs f (upd i x' l) = (qs f l + (f x' - f x))%Qc.
Proof.
  revert i. induction l as [|z l IH]; intros [|i] H; cbn in H; try discriminate; cbn [upd]; rewrite !qs_cons; [injection H as ->; ring|]. rewrite (IH i H). ring.
Qed.
Lemma Forall_upd {X} (P : X -> Prop) l i x : Forall P l -> P x -> Forall P (upd i x l).
Proof. intros H Hx. revert i. induction H as [|z l Hz H IH]; intros [|i]; cbn; constructor; auto. Qed.
Lemma asmScalars_ok nthr it ec h y rD : own (hD h) (aD y ++ rD) -> bufOK nthr (hD h) y -> it < nthr ->
  exists h' y', asmScalars it ec h y = Some (h', y') /\ hM h' = hM h /\ hV h' = hV h /\ A y' = A y /\ b y' = b y /\ R y' = R y /\ d y' = d y /\ length (c y') = length (c y) /\
    own (hD h') (aD y ++ rD) /\ same rD (hD h) (hD h') /\ bufOK nthr (hD h') y' /\ forall j, j < length (c y) -> sclSum h' y' j = (sclSum h y j + nth j ec 0)%Qc.
Proof.
  intros Ho Bf Hit. unfold asmScalars. destruct (Nat.eqb_spec (Nat.min (length (c y)) (length ec)) 0) as [E0|E0].
  - exists h, y. do 8 (split; [reflexivity|]). split; [exact Ho|]. split; [apply same_refl|]. split; [exact Bf|].
    intros j Hj. rewrite (nth_overflow ec) by lia. ring.
  - assert (c y <> []) by (intros Hc; rewrite Hc in E0; cbn in E0; lia). unfold bufOK in Bf. destruct (c y) as [|c1 cs] eqn:Ec; [contradiction|]. rewrite <- Ec in *.
    destruct (1 <? nthr) eqn:En.
    + destruct Bf as (p & bufs & Dy & Gp & Lb & Fb). rewrite Dy. cbn [getp]. rewrite Gp.
      destruct (nth_error bufs it) as [buf|] eqn:Eb; [|apply nth_error_None in Eb; lia].
      assert (Lf : length buf = length (c y)) by (rewrite Forall_forall in Fb; apply Fb; eapply nth_error_In; exact Eb).
      destruct (Nat.ltb_spec (length buf) (Nat.min (length (c y)) (length ec))) as [Hl|_]; [lia|].
      assert (Lp : live (hD h) p) by (exists bufs; exact Gp).
      eexists. eexists. split; [reflexivity|]. cbn [hM hV hD]. do 7 (split; [reflexivity || (symmetry; assumption) || assumption|]). split; [apply setp_own; auto|].
      split; [apply setp_same; [exact Lp|]; intros Hi; eapply own_disj; [exact Ho|exact Hi|]; unfold aD; rewrite Dy; left; reflexivity|].
      split.
      * unfold bufOK. rewrite Ec, En, <- Ec. exists p, (upd it (addPre (firstn (length (c y)) ec) buf) bufs). split; [exact Dy|]. rewrite setp_get, Nat.eqb_refl by exact Lp. split; [reflexivity|].
        rewrite upd_length. split; [exact Lb|]. apply Forall_upd; [exact Fb|]. rewrite addPre_length. exact Lf.
      * intros j Hj. unfold sclSum. cbn [hD]. rewrite Dy, setp_get, Nat.eqb_refl, Gp by exact Lp. rewrite (qs_upd _ _ _ _ _ Eb), addPre_nth by lia.
        rewrite nth_firstn_lt by exact Hj. ring.
    + assert (it = 0) as -> by (apply Nat.ltb_ge in En; lia). rewrite Bf. cbn [Nat.eqb]. eexists. eexists. split; [reflexivity|]. cbn [A b c d R].
      do 6 (split; [reflexivity|]). split; [apply addPre_length|]. split; [exact Ho|]. split; [apply same_refl|]. split.
      * unfold bufOK. cbn [c d]. destruct (addPre ec (c y)) eqn:Ea; [|rewrite En; reflexivity]. apply (f_equal (@length Qc)) in Ea. rewrite addPre_length, Ec in Ea. discriminate.
      * intros j Hj. unfold sclSum. cbn [c d]. rewrite Bf, addPre_nth by exact Hj. ring.
Qed.
