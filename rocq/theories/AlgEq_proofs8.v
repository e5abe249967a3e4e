(** Contents after an assembly round, a copy and an addition. *)
From Coq Require Import List Arith ZArith QArith Qcanon Bool Lia Permutation.
From Verif Require Import Base SAM_model SAM_spec SAM_proofs SAM_proofs2 SAM_proofs3 SAM_proofs4 Sparse_model Sparse_spec Sparse_proofs Sparse_proofs2 Sparse_proofs3 Sparse_proofs4 Sparse_proofs5 Sparse_proofs6 Sparse_proofs8 AlgEq_model AlgEq_spec AlgEq_proofs AlgEq_proofs2 AlgEq_proofs3 AlgEq_proofs4 AlgEq_proofs5 AlgEq_proofs6 AlgEq_proofs7.
Import ListNotations.
Local Open Scope nat_scope.

Lemma run_app nthr s sl sg : forall a b w, run nthr s sl sg (a ++ b) w = match run nthr s sl sg a w with Some w' => run nthr s sl sg b w' | None => None end.
Proof. induction a as [|o a IH]; intros b w; cbn [app run]; [reflexivity|]. destruct (step nthr s sl sg o w); [apply IH|reflexivity]. Qed.
Lemma assembleElms_app s : forall l1 l2 M, assembleElms s (l1 ++ l2) M = match assembleElms s l1 M with Some M' => assembleElms s l2 M' | None => None end.
Proof. induction l1 as [|[K meen] l1 IH]; intros l2 M; cbn [app assembleElms]; [reflexivity|]. destruct (assembleElm s K meen M) as [[k M']|]; [apply IH|reflexivity]. Qed.
Lemma matList_cons s t els k : matList s (t :: els) k = matList s [t] k ++ matList s els k.
Proof. unfold matList. cbn [flat_map]. rewrite app_nil_r. reflexivity. Qed.
Lemma fits_range s e iel meen : elmFits s e iel meen -> 1 <= iel <= nel s.
Proof.
  intros (G & _). unfold getElmEqns, elmNodes in G. destruct (1 <=? iel) eqn:E1; [|discriminate]. destruct (iel <=? nel s) eqn:E2; [|discriminate]. apply Nat.leb_le in E1, E2. lia.
Qed.
Lemma restA_upd f i h o w : restA f i (mkW h (upd i o (objs w))) = restA f i w.
Proof. unfold restA. cbn [objs]. rewrite rest_upd. reflexivity. Qed.
Lemma fr_refl rM rV rD h : fr rM rV rD h h. Proof. repeat split; apply same_refl. Qed.
Lemma fr_trans rM rV rD h h1 h2 : fr rM rV rD h h1 -> fr rM rV rD h1 h2 -> fr rM rV rD h h2.
Proof. intros (a & b & c) (d & e & f). repeat split; eapply same_trans; eauto. Qed.

(** only system [i] changes *)
Definition only (i : nat) (w w' : world) : Prop :=
  (forall k, k <> i -> nth_error (objs w') k = nth_error (objs w) k) /\ (forall f, restA f i w' = restA f i w) /\
  fr (restA aM i w) (restA aV i w) (restA aD i w) (hp w) (hp w').
Lemma only_refl i w : only i w w. Proof. split; [reflexivity|]. split; [reflexivity|apply fr_refl]. Qed.
Lemma only_trans i w w1 w2 : only i w w1 -> only i w1 w2 -> only i w w2.
Proof.
  intros (a & b & c) (d & e & f). split; [intros k Hk; rewrite d, a by exact Hk; reflexivity|]. split; [intros g; rewrite e, b; reflexivity|]. rewrite !b in f. eapply fr_trans; eauto.
Qed.
Lemma only_put i w h' o : fr (restA aM i w) (restA aV i w) (restA aD i w) (hp w) h' -> only i w (mkW h' (upd i o (objs w))).
Proof. intros F. split; [intros k Hk; apply nth_upd_other, Hk|]. split; [intros f; apply restA_upd|exact F]. Qed.
Lemma only_others i w w' nthr s sl P k : WI nthr s sl w P -> only i w w' -> k <> i -> sameContents w k w' k.
Proof.
  intros HW (Ho & Hr & Fm & Fv & _) Hk. unfold sameContents, matrixOf, vectorOf, scalarsOf, reactionsOf. rewrite Ho by exact Hk.
  destruct (nth_error (objs w) k) as [[y|]|] eqn:Ey; try (repeat split; reflexivity).
  assert (SO : strOK y). { destruct HW as (L & _ & _ & _ & _ & _ & H). destruct (nth_error P k) as [q|] eqn:Eq; [|apply nth_error_None in Eq; assert (k < length (objs w)) by (apply nth_error_Some; congruence); lia].
    specialize (H k _ q Ey Eq). destruct q; [apply H|destruct H]. }
  destruct SO as (SA & SB & _). split; [|split; [|split; reflexivity]].
  - intros n. destruct (nth_error (A y) n) as [[[p|] z]|] eqn:En; try reflexivity. rewrite (Fm p); [reflexivity|]. eapply in_restA; [exact Hk|exact Ey|].
    apply nth_error_In, (in_map fst) in En. rewrite SA in En. apply in_map_iff in En. destruct En as (u & [= ->] & Hu). exact Hu.
  - intros n. destruct (nth_error (b y) n) as [[p|]|] eqn:En; try reflexivity. rewrite (Fv p); [reflexivity|]. eapply in_restA; [exact Hk|exact Ey|].
    apply nth_error_In in En. rewrite SB in En. apply in_map_iff in En. destruct En as (u & [= ->] & Hu). exact Hu.
Qed.

Lemma assembles_ok nthr s sl sg i P sh : consistent s -> nth_error P i = Some (Some (Busy sh)) -> forall els w y, WI nthr s sl w P -> elmsFit nthr s els -> nth_error (objs w) i = Some (Some y) ->
  exists w' y', run nthr s sl sg (assembleAll i els) w = Some w' /\ WI nthr s sl w' P /\ nth_error (objs w') i = Some (Some y') /\ only i w w' /\ A y' = A y /\ b y' = b y /\
    (forall k q M, nth_error (aM y) k = Some q -> nth_error (hM (hp w)) q = Some (Some M) -> exists M', assembleElms s (matList s els k) M = Some M' /\ nth_error (hM (hp w')) q = Some (Some M')) /\
    (forall j q p, nth_error (aV y) j = Some q -> vval (hV (hp w')) q p = (vval (hV (hp w)) q p + qs (fun t => vecContrib s (snd (fst t)) (snd t) (assocKs y j) j (S p)) els)%Qc) /\
    (forall p, p < length (R y) -> nth p (R y') 0%Qc = (nth p (R y) 0 + qs (fun t => reactContrib s (snd (fst t)) (snd t) p) els)%Qc) /\
    (forall j, j < length (c y) -> sclSum (hp w') y' j = (sclSum (hp w) y j + qs (fun t => sclContrib (snd (fst t)) j) els)%Qc).
Proof.
  intros C Hi. induction els as [|[[it e] iel] els IH]; intros w y HW Fit Ey; cbn [assembleAll map run].
  - exists w, y. split; [reflexivity|]. split; [exact HW|]. split; [exact Ey|]. split; [apply only_refl|]. split; [reflexivity|]. split; [reflexivity|]. split; [|split; [|split]].
    + intros k q M _ HM. exists M. split; [reflexivity|exact HM].
    + intros. rewrite qs_nil. ring.
    + intros. rewrite qs_nil. ring.
    + intros. rewrite qs_nil. ring.
  - cbn [fst snd step]. destruct (WI_get _ _ _ _ _ _ _ HW Hi) as (y0 & Ey0 & -> & SO & PO & LO). rewrite Ey in Ey0. injection Ey0 as <-.
    destruct (Fit it e iel (or_introl eq_refl)) as (Hit & meen & Fe).
    destruct (assemble_ok nthr s sl it e iel (hp w) y _ _ _ sh C SO LO PO Hit (fun _ => fits_range s e iel meen Fe)) as (ok & h1 & y1 & -> & LO1 & SO1 & FR & PO1 & YA & YB & Ad).
    cbn [put]. destruct (Ad meen Fe) as (_ & X1 & X2 & X3 & X4). set (w1 := mkW h1 (upd i (Some y1) (objs w))).
    assert (HW1 : WI nthr s sl w1 P). { rewrite <- (upd_same P i _ Hi). eapply WI_put; eauto. }
    assert (Ey1 : nth_error (objs w1) i = Some (Some y1)) by (eapply nth_upd_same; exact Ey).
    destruct (IH w1 y1 HW1) as (w' & y' & E & HW' & Ey' & On & YA' & YB' & Z1 & Z2 & Z3 & Z4); [intros it' e' iel' Hin; apply (Fit it' e' iel'); right; exact Hin|exact Ey1|].
    assert (On1 : only i w w1) by (apply only_put; exact FR).
    assert (LR : length (R y1) = length (R y)). { destruct PO as [(_ & _ & _ & Q1) _]. destruct PO1 as [(_ & _ & _ & Q2) _]. congruence. }
    assert (LC : length (c y1) = length (c y)). { destruct PO as [(_ & _ & Q1 & _) _]. destruct PO1 as [(_ & _ & Q2 & _) _]. congruence. }
    assert (EM : aM y1 = aM y) by (unfold aM; rewrite YA; reflexivity). assert (EV : aV y1 = aV y) by (unfold aV; rewrite YB; reflexivity).
    assert (EK : forall j, assocKs y1 j = assocKs y j) by (intros j; unfold assocKs, assocB; rewrite YA, YB; reflexivity).
    exists w', y'. split; [exact E|]. split; [exact HW'|]. split; [exact Ey'|]. split; [eapply only_trans; eauto|]. split; [congruence|]. split; [congruence|]. split; [|split; [|split]].
    + intros k q M Hq HM. destruct (X1 k q M Hq HM) as (M1 & A1 & B1). rewrite <- EM in Hq. destruct (Z1 k q M1 Hq B1) as (M2 & A2 & B2). exists M2. split; [|exact B2].
      rewrite matList_cons, assembleElms_app, A1. exact A2.
    + intros j q p Hq. pose proof Hq as Hq1. rewrite <- EV in Hq1. rewrite (Z2 j q p Hq1). cbn [hp w1]. rewrite (X2 j q p Hq), qs_cons, EK. cbn [fst snd]. ring.
    + intros p Hp. rewrite Z3 by (rewrite LR; exact Hp). rewrite X3 by exact Hp. rewrite qs_cons. cbn [fst snd]. ring.
    + intros j Hj. rewrite Z4 by (rewrite LC; exact Hj). cbn [hp w1]. rewrite X4 by exact Hj. rewrite qs_cons. cbn [fst snd]. ring.
Qed.

Lemma assoc_spec y w i j k : nth_error (objs w) i = Some (Some y) -> (In k (assocKs y j) <-> assocTo w i k j).
Proof.
  intros Ey. unfold assocTo, assocKs. rewrite Ey, filter_In, in_seq. unfold assocB. split.
  - intros [Hk Hb]. destruct (nth_error (A y) k) as [a|]; [|discriminate]. destruct (nth_error (b y) j) as [p|]; [|discriminate]. exists a, p. split; [reflexivity|]. split; [reflexivity|].
    destruct (length (A y) =? 1); [apply Nat.eqb_eq; exact Hb|]. unfold optb in Hb. destruct (snd a), p; try discriminate; try reflexivity. apply Nat.eqb_eq in Hb. congruence.
  - intros (a & p & Ha & Hp & Hc). rewrite Ha, Hp. split; [assert (k < length (A y)) by (apply nth_error_Some; congruence); lia|]. destruct (length (A y) =? 1); [apply Nat.eqb_eq; exact Hc|].
    subst p. unfold optb. destruct (snd a); [apply Nat.eqb_refl|reflexivity].
Qed.
Lemma assocKs_nodup y j : NoDup (assocKs y j). Proof. apply NoDup_filter, seq_NoDup. Qed.
Lemma vecContrib_perm s e iel ks ks' j r : Permutation ks ks' -> vecContrib s e iel ks j r = vecContrib s e iel ks' j r.
Proof. intros H. unfold vecContrib. destruct (getElmEqns s iel); [|reflexivity]. rewrite (qs_perm _ _ _ H). reflexivity. Qed.
Lemma matList_model s els k : fromModel s (matList s els k).
Proof.
  intros K meen Hi. unfold matList in Hi. apply in_flat_map in Hi. destruct Hi as ([[it e] iel] & _ & Hi). destruct (nth_error (eA e) k) as [E|]; [|destruct Hi].
  destruct (getElmEqns s iel) as [m|] eqn:G; [|destruct Hi]. destruct (_ && _); [|destruct Hi]. destruct Hi as [[= _ <-]|[]]. eauto.
Qed.

Lemma round_world nthr s sl sg w P i lhs els sh : consistent s -> WI nthr s sl w P -> nth_error P i = Some (Some (Ready sh)) -> elmsFit nthr s els -> lhs = 1 \/ lhs = 2 ->
  exists w', run nthr s sl sg (Initialize i lhs :: assembleAll i els ++ [Finalize i true]) w = Some w' /\ WI nthr s sl w' P /\
    (forall k, k < nmat sh -> exists M M', matrixOf w i k = Some M /\ matrixOf w' i k = Some M' /\
       (forall r c, r <> c \/ contributes s (matList s els k) r -> val (stored M') r c = elmSum s (matList s els k) r c) /\
       (lhs = 2 -> 1 < neq s -> (exists r, contributes s (matList s els k) r) -> forall r, ~ contributes s (matList s els k) r -> writable M r r -> val (stored M') r r = sg)) /\
    (forall j, j < nvec sh -> forall ks, NoDup ks -> (forall k, In k ks <-> assocTo w i k j) -> exists v, vectorOf w' i j = Some v /\ length v = neq s /\
       forall r, nth r v 0%Qc = qs (fun t => vecContrib s (snd (fst t)) (snd t) ks j (S r)) els) /\
    length (reactionsOf w' i) = (if hasReact sh then nspdof s else 0) /\
    (forall p, p < length (reactionsOf w' i) -> nth p (reactionsOf w' i) 0%Qc = qs (fun t => reactContrib s (snd (fst t)) (snd t) p) els) /\
    length (scalarsOf w' i) = nscl sh /\
    (forall j, j < nscl sh -> nth j (scalarsOf w' i) 0%Qc = qs (fun t => sclContrib (snd (fst t)) j) els) /\
    (forall k, k <> i -> sameContents w k w' k).
Proof.
  intros C HW Hi Fit Hl. cbn [run step]. destruct (WI_get _ _ _ _ _ _ _ HW Hi) as (y & Ey & -> & SO & PO & LO).
  destruct (initialize_ok nthr s sl lhs (hp w) y _ _ _ sh SO LO PO) as (h1 & y1 & EI & LO1 & SO1 & FR1 & PO1 & YA1 & YB1). rewrite EI. cbn [put].
  destruct (initialize_val nthr s sl lhs (hp w) y _ _ _ h1 y1 SO LO (proj2 PO) EI) as (I1 & I2 & I3 & I4 & I5).
  set (P1 := upd i (Some (Busy sh)) P). set (w1 := mkW h1 (upd i (Some y1) (objs w))).
  assert (HW1 : WI nthr s sl w1 P1) by (eapply WI_put; eauto).
  assert (Hi1 : nth_error P1 i = Some (Some (Busy sh))) by (eapply nth_upd_same; exact Hi).
  assert (Ey1 : nth_error (objs w1) i = Some (Some y1)) by (eapply nth_upd_same; exact Ey).
  destruct (assembles_ok nthr s sl sg i P1 sh C Hi1 els w1 y1 HW1 Fit Ey1) as (w2 & y2 & E2 & HW2 & Ey2 & On2 & YA2 & YB2 & Z1 & Z2 & Z3 & Z4).
  rewrite run_app, E2. cbn [run step]. destruct (WI_get _ _ _ _ _ _ _ HW2 Hi1) as (y2' & Ey2' & -> & SO2 & PO2 & LO2). rewrite Ey2 in Ey2'. injection Ey2' as <-.
  destruct (finalize_ok nthr s sl sg true (hp w2) y2 _ _ _ sh SO2 LO2 PO2) as (h3 & y3 & EF & LO3 & SO3 & FR3 & PO3 & YA3 & YB3 & YR3 & HV3 & LC3 & S3 & F3 & _). rewrite EF. cbn [put].
  set (w3 := mkW h3 (upd i (Some y3) (objs w2))).
  assert (HW3 : WI nthr s sl w3 P). { replace P with (upd i (Some (Ready sh)) P1); [eapply WI_put; eauto|]. unfold P1. clear - Hi. revert i Hi. induction P as [|q P IH]; intros [|i] H; cbn in *; try discriminate; [injection H as ->; reflexivity|f_equal; apply IH, H]. }
  assert (Ey3 : nth_error (objs w3) i = Some (Some y3)) by (eapply nth_upd_same; exact Ey2).
  exists w3. split; [reflexivity|]. split; [exact HW3|].
  assert (EM1 : aM y1 = aM y) by (unfold aM; rewrite YA1; reflexivity). assert (EV1 : aV y1 = aV y) by (unfold aV; rewrite YB1; reflexivity).
  assert (EM2 : aM y2 = aM y) by (unfold aM; rewrite YA2, YA1; reflexivity). assert (EV2 : aV y2 = aV y) by (unfold aV; rewrite YB2, YB1; reflexivity).
  destruct SO as (SA & SB & _). destruct PO as [(Q1 & Q2 & Q3 & Q4) _]. destruct LO as (OM & OV & _ & VM & VV).
  assert (LR1 : length (R y1) = length (R y)) by (rewrite I3; apply repeat_length).
  assert (LR3 : length (R y3) = if hasReact sh then nspdof s else 0) by (destruct PO3 as [(_ & _ & _ & Q) _]; exact Q).
  assert (LC2 : length (c y2) = nscl sh) by (destruct PO2 as [(_ & _ & Q & _) _]; exact Q).
  split; [|split; [|split; [|split; [|split; [|split]]]]].
  - intros k Hk. assert (Hp : exists q, nth_error (aM y) k = Some q).
    { destruct (nth_error (aM y) k) as [q|] eqn:E; [eauto|]. apply nth_error_None in E. rewrite <- (map_length (@Some nat)), <- SA, map_length in E. lia. }
    destruct Hp as (q & Hq). assert (Hin : In q (aM y)) by (eapply nth_error_In; exact Hq).
    destruct (own_live _ _ _ OM (in_or_app _ _ _ (or_introl Hin))) as (M & HM). pose proof (VM _ _ HM) as RM.
    pose proof (I1 q M Hin HM) as HM1. pose proof Hq as Hq1. rewrite <- EM1 in Hq1. destruct (Z1 k q _ Hq1 HM1) as (M2 & A2 & B2).
    pose proof Hq as Hq2. rewrite <- EM2 in Hq2. destruct (F3 eq_refl k q M2 Hq2 B2) as (M3 & A3 & B3).
    assert (Rd : round s (lhs =? 2) (matList s els k) sg M = Some (true, M3)).
    { unfold round. assert (E : init1 lhs M = if lhs =? 2 then initFlags (resize (nrow M) (ncol M) false M) else resize (nrow M) (ncol M) false M) by (destruct Hl as [-> | ->]; reflexivity).
      rewrite <- E, A2. exact A3. }
    assert (Mo : forall ww yy, nth_error (objs ww) i = Some (Some yy) -> A yy = A y -> matrixOf ww i k = match nth_error (hM (hp ww)) q with Some o => o | None => None end).
    { intros ww yy E EA. unfold matrixOf. rewrite E, EA. assert (Hk' : nth_error (map fst (A y)) k = Some (Some q)) by (rewrite SA, nth_error_map, Hq; reflexivity).
      rewrite nth_error_map in Hk'. destruct (nth_error (A y) k) as [[u1 u2]|]; [|discriminate]. cbn in Hk'. injection Hk' as ->. reflexivity. }
    exists M, M3. split; [rewrite (Mo w y Ey eq_refl), HM; reflexivity|]. split; [rewrite (Mo w3 y3 Ey3) by congruence; cbn [hp w3]; rewrite B3; reflexivity|].
    destruct (round_any s sl (lhs =? 2) (matList s els k) sg M C RM (matList_model s els k)) as (M4 & E4 & V4). rewrite Rd in E4. injection E4 as <-. split; [exact V4|].
    intros -> Hn Hex r Hr Hw. destruct (round_spec s sl true (matList s els k) sg M C RM (matList_model s els k)) as (M5 & E5 & _ & _ & _ & _ & V5 & _). cbn [Nat.eqb] in Rd. rewrite Rd in E5. injection E5 as <-. apply V5; auto.
  - intros j Hj ks Nk Hk. assert (Hp : exists q, nth_error (aV y) j = Some q).
    { destruct (nth_error (aV y) j) as [q|] eqn:E; [eauto|]. apply nth_error_None in E. rewrite <- (map_length (@Some nat)), <- SB in E. lia. }
    destruct Hp as (q & Hq). assert (Hin : In q (aV y)) by (eapply nth_error_In; exact Hq).
    assert (L3 : live (hV h3) q). { destruct LO3 as (_ & OV3 & _). apply (own_live _ _ _ OV3). apply in_or_app. left. unfold aV. rewrite YB3. fold (aV y2). rewrite EV2. exact Hin. }
    destruct L3 as (v & Hv). exists v. split; [|split].
    + unfold vectorOf. rewrite Ey3. assert (Hb : nth_error (b y3) j = Some (Some q)) by (rewrite YB3, YB2, YB1, SB, nth_error_map, Hq; reflexivity). rewrite Hb. cbn [hp w3]. rewrite Hv. reflexivity.
    + destruct LO3 as (_ & _ & _ & _ & VV3). exact (VV3 _ _ Hv).
    + intros r. rewrite <- (vval_get _ _ _ r Hv), HV3. pose proof Hq as Hq1. rewrite <- EV1 in Hq1. rewrite (Z2 j q r Hq1). cbn [hp w1]. rewrite (I2 q r Hin), Qcplus_0_l. apply qs_ext. intros t _. apply vecContrib_perm.
      apply NoDup_Permutation; [apply assocKs_nodup|exact Nk|]. intros k. rewrite Hk, <- (assoc_spec y w i j k Ey). unfold assocKs, assocB. rewrite YA1, YB1. reflexivity.
  - unfold reactionsOf. rewrite Ey3. exact LR3.
  - unfold reactionsOf. rewrite Ey3. intros p Hp. rewrite YR3, Z3 by (rewrite LR1, Q4, <- LR3; exact Hp). rewrite I3, nth_repeat0. ring.
  - unfold scalarsOf. rewrite Ey3, LC3. exact LC2.
  - unfold scalarsOf. rewrite Ey3. intros j Hj. rewrite S3 by (rewrite LC2; exact Hj). rewrite Z4 by (rewrite I4, Q3; exact Hj). cbn [hp w1]. rewrite I5. ring.
  - intros k Hk. apply (only_others i w w3 nthr s sl P k HW); [|exact Hk]. eapply only_trans; [|eapply only_trans; [exact On2|apply only_put; exact FR3]]. apply only_put. exact FR1.
Qed.

(** ** copy *)
Lemma copied w i j y' z h' w' : nth_error (objs w) j = Some (Some z) -> nth_error (objs w') i = Some (Some y') -> hp w' = h' ->
  c y' = c z -> R y' = R z -> length (A y') = length (A z) -> length (b y') = length (b z) ->
  (forall k p q, nth_error (A z) k = Some (p, q) -> exists p' q', nth_error (A y') k = Some (p', q') /\ getp (hM h') p' = getp (hM (hp w)) p) ->
  (forall k p, nth_error (b z) k = Some p -> exists p', nth_error (b y') k = Some p' /\ getp (hV h') p' = getp (hV (hp w)) p) -> sameContents w j w' i.
Proof.
  intros Ez Ey Eh Cy Ry LA LB CA CB. assert (Gp : forall X (l : list (option X)) p, match p with Some k => match nth_error l k with Some o => o | None => None end | None => None end = getp l p).
  { intros X l [k|]; [|reflexivity]. cbn. destruct (nth_error l k) as [[x|]|]; reflexivity. }
  unfold sameContents, matrixOf, vectorOf, scalarsOf, reactionsOf. rewrite Ez, Ey, Eh. split; [|split; [|split; [symmetry; exact Cy|symmetry; exact Ry]]].
  - intros k. destruct (nth_error (A z) k) as [[p q]|] eqn:Ek.
    + destruct (CA k p q Ek) as (p' & q' & -> & G). pose proof (Gp _ (hM (hp w)) p). pose proof (Gp _ (hM h') p'). destruct p, p'; congruence.
    + assert (nth_error (A y') k = None) as -> by (apply nth_error_None; apply nth_error_None in Ek; lia). reflexivity.
  - intros k. destruct (nth_error (b z) k) as [p|] eqn:Ek.
    + destruct (CB k p Ek) as (p' & -> & G). pose proof (Gp _ (hV (hp w)) p). pose proof (Gp _ (hV h') p'). destruct p, p'; congruence.
    + assert (nth_error (b y') k = None) as -> by (apply nth_error_None; apply nth_error_None in Ek; lia). reflexivity.
Qed.
Lemma copy_world nthr s sl sg w P i j phi phj : WI nthr s sl w P -> i <> j -> nth_error P i = Some (Some phi) -> (forall sh, phi <> Busy sh) -> nth_error P j = Some (Some phj) ->
  exists w', step nthr s sl sg (Copy i j) w = Some w' /\ sameContents w j w' i /\ forall k, k <> i -> sameContents w k w' k.
Proof.
  intros HW Hij Hi Hb Hj. cbn [step]. destruct (WI_get _ _ _ _ _ _ _ HW Hi) as (y & Ey & -> & SO & PO & LO). destruct (WI_get _ _ _ _ _ _ _ HW Hj) as (z & Ez & -> & SOz & POz & _).
  assert (Na : noArr y). { destruct phi as [|sh|sh]; cbn [phaseOK] in PO; [subst y; discriminate|apply PO|exfalso; exact (Hb sh eq_refl)]. }
  destruct (copySys_ok s sl (hp w) y z _ _ _ SO LO Na SOz) as (h' & y' & -> & LO' & SO' & FR & Dy & Cy & Ry & LA & LB & CA & CB & _).
  { intros p Hp. eapply in_restA; eauto. } { intros p Hp. eapply in_restA; eauto. }
  cbn [put]. eexists. split; [reflexivity|]. split.
  - eapply (copied w i j y' z h'); eauto. cbn [objs]. eapply nth_upd_same. exact Ey.
  - intros k Hk. eapply only_others; [exact HW|apply only_put; exact FR|exact Hk].
Qed.
Lemma newcopy_world nthr s sl sg w P j phj : WI nthr s sl w P -> nth_error P j = Some (Some phj) ->
  exists w', step nthr s sl sg (NewCopy j) w = Some w' /\ sameContents w j w' (length P) /\ forall k, k < length P -> sameContents w k w' k.
Proof.
  intros HW Hj. cbn [step]. destruct (WI_get _ _ _ _ _ _ _ HW Hj) as (z & Ez & -> & SO & PO & _). pose proof HW as (L & OM & OV & OD & VM & VV & H).
  destruct (copySys_ok s sl (hp w) newSys z (flat_map (oa aM) (objs w)) (flat_map (oa aV) (objs w)) (flat_map (oa aD) (objs w))) as (h' & y' & -> & LO & SO' & (FM & FV & FD) & Dy & Cy & Ry & LA & LB & CA & CB & _).
  { split; [reflexivity|]. split; [reflexivity|]. intros a []. } { split; [exact OM|]. split; [exact OV|]. split; [exact OD|]. split; [exact VM|exact VV]. } { discriminate. } { exact SO. }
  { intros p Hp. apply in_flat_map. exists (Some z). split; [eapply nth_error_In; exact Ez|exact Hp]. } { intros p Hp. apply in_flat_map. exists (Some z). split; [eapply nth_error_In; exact Ez|exact Hp]. }
  eexists. split; [reflexivity|]. split.
  - eapply (copied w (length P) j y' z h'); eauto. cbn [objs]. rewrite <- L, nth_error_app2, Nat.sub_diag by lia. reflexivity.
  - intros k Hk. unfold sameContents, matrixOf, vectorOf, scalarsOf, reactionsOf. cbn [objs hp]. rewrite nth_error_app1 by lia.
    destruct (nth_error (objs w) k) as [[y|]|] eqn:Ey; try (repeat split; reflexivity).
    assert (SOy : strOK y). { destruct (nth_error P k) as [q|] eqn:Eq; [|apply nth_error_None in Eq; lia]. specialize (H k _ q Ey Eq). destruct q; [apply H|destruct H]. }
    destruct SOy as (SA & SB & _). split; [|split; [|split; reflexivity]].
    + intros n. destruct (nth_error (A y) n) as [[[p|] u]|] eqn:En; try reflexivity. rewrite (FM p); [reflexivity|]. apply in_flat_map. exists (Some y). split; [eapply nth_error_In; exact Ey|].
      apply nth_error_In, (in_map fst) in En. rewrite SA in En. apply in_map_iff in En. destruct En as (x & [= ->] & Hu). exact Hu.
    + intros n. destruct (nth_error (b y) n) as [[p|]|] eqn:En; try reflexivity. rewrite (FV p); [reflexivity|]. apply in_flat_map. exists (Some y). split; [eapply nth_error_In; exact Ey|].
      apply nth_error_In in En. rewrite SB in En. apply in_map_iff in En. destruct En as (x & [= ->] & Hu). exact Hu.
Qed.

(** ** add *)
Lemma addMats_val s sl : forall ps qs l ow, consistent s -> own l ow -> allv (ready s sl) l -> (forall p, In p ps -> In p ow) -> (forall q, In q qs -> In q ow) -> NoDup ps -> (forall p, In p ps -> ~ In p qs) ->
  forall l', addMats (map Some ps) (map Some qs) l = Some l' -> forall k p q M B, nth_error ps k = Some p -> nth_error qs k = Some q -> nth_error l p = Some (Some M) -> nth_error l q = Some (Some B) ->
  exists fl M', add B 1%Qc M = Some (fl, M') /\ nth_error l' p = Some (Some M').
Proof.
  induction ps as [|p0 ps IH]; intros [|q0 qs] l ow C Ho Hv Ip Iq Nd Dj l' E k p q M B Hp Hq HM HB; try (destruct k; discriminate). cbn [map addMats] in E.
  pose proof (own_live _ _ _ Ho (Ip p0 (or_introl eq_refl))) as Lp. pose proof (own_live _ _ _ Ho (Iq q0 (or_introl eq_refl))) as Lq.
  destruct (getp_live _ _ Lp) as (M0 & GM & EM). destruct (getp_live _ _ Lq) as (B0 & GB & EB). rewrite GM, GB in E.
  destruct (add_ready s sl B0 M0 C (Hv _ _ EM) (Hv _ _ EB)) as (fl & M1 & EA & R'). rewrite EA in E. inversion Nd as [|? ? Np Nd']; subst.
  destruct k as [|k]; cbn in Hp, Hq.
  - injection Hp as <-. injection Hq as <-. rewrite EM in HM. injection HM as <-. rewrite EB in HB. injection HB as <-. exists fl, M1. split; [exact EA|].
    destruct (addMats_ok s sl qs ps (setp l (Some p0) M1) ow C (setp_own _ _ _ _ Ho Lp) (setp_allv _ _ _ _ Lp Hv R')) as (l2 & E2 & _ & _ & S2); [intros; apply Ip; right; auto|intros; apply Iq; right; auto|].
    rewrite E in E2. injection E2 as <-. rewrite (S2 [p0]); [rewrite setp_get, Nat.eqb_refl by exact Lp; reflexivity| |left; reflexivity]. intros u [<-|[]]. exact Np.
  - assert (p <> p0) by (intros ->; apply Np; eapply nth_error_In; exact Hp).
    assert (q <> p0) by (intros ->; apply (Dj p0 (or_introl eq_refl)); right; eapply nth_error_In; exact Hq).
    eapply (IH qs (setp l (Some p0) M1) ow C (setp_own _ _ _ _ Ho Lp) (setp_allv _ _ _ _ Lp Hv R')); eauto.
    + intros; apply Ip; right; auto.
    + intros; apply Iq; right; auto.
    + intros u Hu Hi. apply (Dj u); right; auto.
    + rewrite setp_get by exact Lp. destruct (Nat.eqb_spec p p0); [contradiction|exact HM].
    + rewrite setp_get by exact Lp. destruct (Nat.eqb_spec q p0); [contradiction|exact HB].
Qed.
Lemma addVecs_val s : forall n ps qs l ow, own l ow -> allv (lenV s) l -> n <= length qs -> (forall p, In p ps -> In p ow) -> (forall q, In q qs -> In q ow) -> NoDup ps -> (forall p, In p ps -> ~ In p qs) ->
  forall l', addVecs n (map Some ps) (map Some qs) l = Some l' -> forall k p q, nth_error ps k = Some p -> nth_error qs k = Some q ->
  forall r, r < neq s -> vval l' p r = (vval l p r + if k <? n then vval l q r else 0)%Qc.
Proof.
  induction n as [|n IH]; intros ps qs l ow Ho Hv Hn Ip Iq Nd Dj l' E k p q Hp Hq r Hr.
  - cbn in E. injection E as <-. destruct k; cbn; ring.
  - destruct ps as [|p0 ps]; [destruct k; discriminate|]. destruct qs as [|q0 qs]; [destruct k; discriminate|]. cbn [map addVecs] in E.
    pose proof (own_live _ _ _ Ho (Ip p0 (or_introl eq_refl))) as Lp. pose proof (own_live _ _ _ Ho (Iq q0 (or_introl eq_refl))) as Lq.
    destruct (getp_live _ _ Lp) as (M0 & GM & EM). destruct (getp_live _ _ Lq) as (B0 & GB & EB). rewrite GM, GB in E. rewrite (Hv _ _ EM), (Hv _ _ EB), Nat.eqb_refl in E. inversion Nd as [|? ? Np Nd']; subst.
    assert (Lx : lenV s (addPre B0 M0)) by (unfold lenV; rewrite addPre_length; exact (Hv _ _ EM)).
    destruct k as [|k]; cbn in Hp, Hq.
    + injection Hp as <-. injection Hq as <-.
      destruct (addVecs_ok s n ps qs (setp l (Some p0) (addPre B0 M0)) ow (setp_own _ _ _ _ Ho Lp) (setp_allv _ _ _ _ Lp Hv Lx)) as (l2 & E2 & _ & _ & S2); [cbn in Hn; lia|intros; apply Ip; right; auto|intros; apply Iq; right; auto|].
      rewrite E in E2. injection E2 as <-. unfold vval at 1. rewrite (S2 [p0]); [|intros u [<-|[]]; exact Np|left; reflexivity]. rewrite setp_get, Nat.eqb_refl by exact Lp.
      rewrite (vval_get _ _ _ r EM), (vval_get _ _ _ r EB). cbn [Nat.ltb Nat.leb]. apply addPre_nth. rewrite (Hv _ _ EM). exact Hr.
    + assert (p <> p0) by (intros ->; apply Np; eapply nth_error_In; exact Hp).
      assert (q <> p0) by (intros ->; apply (Dj p0 (or_introl eq_refl)); right; eapply nth_error_In; exact Hq).
      rewrite (IH ps qs (setp l (Some p0) (addPre B0 M0)) ow (setp_own _ _ _ _ Ho Lp) (setp_allv _ _ _ _ Lp Hv Lx)) with (k := k) (q := q); auto.
      * rewrite !vval_setp by exact Lp. destruct (Nat.eqb_spec p p0); [contradiction|]. destruct (Nat.eqb_spec q p0); [contradiction|]. reflexivity.
      * cbn in Hn. lia.
      * intros; apply Ip; right; auto.
      * intros; apply Iq; right; auto.
      * intros u Hu Hi. apply (Dj u); right; auto.
Qed.
Lemma add_world nthr s sl sg w P i j phi phj sh : consistent s -> WI nthr s sl w P -> i <> j -> nth_error P i = Some (Some phi) -> phi = Ready sh \/ phi = Busy sh ->
  nth_error P j = Some (Some phj) -> phj = Ready sh \/ phj = Busy sh -> nmat sh <= nvec sh ->
  exists w', step nthr s sl sg (Add i j) w = Some w' /\
    (forall k M B, matrixOf w i k = Some M -> matrixOf w j k = Some B -> (exists fl M', add B 1%Qc M = Some (fl, M') /\ matrixOf w' i k = Some M') /\ ready s sl M /\ ready s sl B) /\
    (forall k v u, vectorOf w i k = Some v -> vectorOf w j k = Some u -> exists v', vectorOf w' i k = Some v' /\ length v' = neq s /\
        forall r, r < neq s -> nth r v' 0%Qc = (nth r v 0 + if k <? nmat sh then nth r u 0 else 0)%Qc) /\
    (forall k, k < nscl sh -> nth k (scalarsOf w' i) 0%Qc = (nth k (scalarsOf w i) 0 + nth k (scalarsOf w j) 0)%Qc) /\
    (forall p, p < length (reactionsOf w i) -> nth p (reactionsOf w' i) 0%Qc = (nth p (reactionsOf w i) 0 + if p <? nvec sh then nth p (reactionsOf w j) 0 else 0)%Qc) /\
    (forall k, k <> i -> sameContents w k w' k).
Proof.
  intros C HW Hij Hi Hphi Hj Hphj Hn. cbn [step]. destruct (WI_get _ _ _ _ _ _ _ HW Hi) as (y & Ey & -> & SO & PO & LO). destruct (WI_get _ _ _ _ _ _ _ HW Hj) as (z & Ez & -> & SOz & POz & LOz).
  assert (Szy : sizes s sh y) by (destruct Hphi as [-> | ->]; apply PO). assert (Szz : sizes s sh z) by (destruct Hphj as [-> | ->]; apply POz).
  assert (ZM : forall p, In p (aM z) -> In p (restA aM i w)) by (intros p Hp; eapply in_restA; [|exact Ez|exact Hp]; auto).
  assert (ZV : forall p, In p (aV z) -> In p (restA aV i w)) by (intros p Hp; eapply in_restA; [|exact Ez|exact Hp]; auto).
  destruct (addSys_ok s sl (hp w) y z _ _ _ C SO LO SOz) as (h' & y' & EA & LO' & FR & YA & YB & YD & YC & YR & HD).
  { intros p Hp. apply in_or_app. auto. } { intros p Hp. apply in_or_app. auto. } { destruct Szz as (-> & -> & _). exact Hn. } { destruct Szz as (_ & _ & _ & ->). destruct Szy as (_ & _ & _ & ->). reflexivity. }
  rewrite EA. cbn [put]. eexists. split; [reflexivity|]. set (w' := mkW h' (upd i (Some y') (objs w))).
  assert (Ey' : nth_error (objs w') i = Some (Some y')) by (eapply nth_upd_same; exact Ey).
  pose proof SO as (SA & SB & _). pose proof SOz as (ZA & ZB & _). pose proof LO as (OM & OV & OD & VM & VV).
  unfold addSys in EA. rewrite SA, ZA in EA. destruct (addMats _ _ (hM (hp w))) as [m|] eqn:E1; [|discriminate]. destruct (addVecs _ _ _ (hV (hp w))) as [v|] eqn:E2; [|discriminate].
  destruct (_ <? _) eqn:El; [discriminate|]. injection EA as <- <-. cbn [A b c R d hM hV hD] in *.
  assert (Gm : forall (yy : sys) ps, map fst (A yy) = map Some ps -> forall (ww : world) ii k, nth_error (objs ww) ii = Some (Some yy) -> forall M, matrixOf ww ii k = Some M <-> exists p, nth_error ps k = Some p /\ nth_error (hM (hp ww)) p = Some (Some M)).
  { intros yy ps EA ww ii k E M. unfold matrixOf. rewrite E. assert (H : nth_error (map fst (A yy)) k = nth_error (map Some ps) k) by (rewrite EA; reflexivity). rewrite !nth_error_map in H.
    destruct (nth_error (A yy) k) as [[u1 u2]|], (nth_error ps k) as [p|]; cbn in H; try discriminate.
    - injection H as ->. split; [intros H; exists p; split; [reflexivity|destruct (nth_error (hM (hp ww)) p); congruence]|]. intros (p' & [= <-] & ->). reflexivity.
    - split; [discriminate|intros (p' & [=] & _)]. }
  assert (Gv : forall (yy : sys) ps, b yy = map Some ps -> forall (ww : world) ii k, nth_error (objs ww) ii = Some (Some yy) -> forall M, vectorOf ww ii k = Some M <-> exists p, nth_error ps k = Some p /\ nth_error (hV (hp ww)) p = Some (Some M)).
  { intros yy ps EA ww ii k E M. unfold vectorOf. rewrite E, EA, nth_error_map. destruct (nth_error ps k) as [p|]; cbn.
    - split; [intros H; exists p; split; [reflexivity|destruct (nth_error (hV (hp ww)) p); congruence]|]. intros (p' & [= <-] & ->). reflexivity.
    - split; [discriminate|intros (p' & [=] & _)]. }
  split; [|split; [|split; [|split]]].
  - intros k M B HM HB. apply (Gm y (aM y) SA w i k Ey) in HM. destruct HM as (p & Hp & HM). apply (Gm z (aM z) ZA w j k Ez) in HB. destruct HB as (q & Hq & HB). split; [|split; [exact (VM _ _ HM)|exact (VM _ _ HB)]].
    destruct (addMats_val s sl (aM y) (aM z) (hM (hp w)) _ C OM VM) with (l' := m) (k := k) (p := p) (q := q) (M := M) (B := B) as (fl & M' & Q1 & Q2); auto.
    { intros u Hu. apply in_or_app. auto. } { intros u Hu. apply in_or_app. auto. } { eapply own_nodup_l; exact OM. } { intros u Hu Hz. eapply own_disj; [exact OM|apply ZM; exact Hz|exact Hu]. }
    exists fl, M'. split; [exact Q1|]. apply (Gm (mkY (A y) (b y) (addPre (c z) (c y)) (d y) (addPre (firstn (Nat.min (length (b y)) (length (R z))) (R z)) (R y))) (aM y) SA w' i k Ey' M'). exists p. split; [exact Hp|exact Q2].
  - intros k x u Hx Hu. apply (Gv y (aV y) SB w i k Ey) in Hx. destruct Hx as (p & Hp & Hx). apply (Gv z (aV z) ZB w j k Ez) in Hu. destruct Hu as (q & Hq & Hu).
    assert (Lv : live v p). { destruct LO' as (_ & OV' & _). apply (own_live _ _ _ OV'). apply in_or_app. left. eapply nth_error_In. exact Hp. }
    destruct Lv as (x' & Hx'). exists x'. split; [apply (Gv (mkY (A y) (b y) (addPre (c z) (c y)) (d y) (addPre (firstn (Nat.min (length (b y)) (length (R z))) (R z)) (R y))) (aV y) SB w' i k Ey' x'); eauto|]. destruct LO' as (_ & _ & _ & _ & VV'). split; [exact (VV' _ _ Hx')|]. intros r Hr.
    rewrite <- (vval_get _ _ _ r Hx'), <- (vval_get _ _ _ r Hx), <- (vval_get _ _ _ r Hu). destruct Szz as (Z1 & Z2 & _). rewrite <- Z1.
    rewrite SB, ZB in E2. apply (addVecs_val s (length (A z)) (aV y) (aV z) (hV (hp w)) _ OV VV) with (l' := v) (k := k); auto.
    { rewrite <- (map_length (@Some nat)), <- ZB. lia. } { intros a Ha. apply in_or_app. auto. } { intros a Ha. apply in_or_app. auto. } { eapply own_nodup_l; exact OV. } { intros a Ha Hz. eapply own_disj; [exact OV|apply ZV; exact Hz|exact Ha]. }
  - unfold scalarsOf. rewrite Ey, Ez, Ey'. cbn [c]. intros k Hk. apply addPre_nth. destruct Szy as (_ & _ & -> & _). exact Hk.
  - unfold reactionsOf. rewrite Ey, Ez, Ey'. cbn [R]. intros p Hp. rewrite addPre_nth by exact Hp. f_equal. destruct Szy as (_ & Y2 & _ & Y4). destruct Szz as (_ & _ & _ & Z4). rewrite Y2.
    assert (Lz : length (R z) = length (R y)) by congruence. destruct (Nat.ltb_spec p (nvec sh)) as [Hl|Hl].
    + apply nth_firstn_lt. lia.
    + apply nth_overflow. rewrite firstn_length. lia.
  - intros k Hk. apply (only_others i w w' nthr s sl P k HW); [|exact Hk]. apply only_put. exact FR.
Qed.

(** ** A call changes only the system it is made on *)
Lemma step_only nthr s sl sg P o P' w w' i : consistent s -> legal nthr s sl P o P' -> WI nthr s sl w P -> step nthr s sl sg o w = Some w' -> target o = Some i -> only i w w'.
Proof.
  intros C Lg HW E0 Ht. destruct Lg as [P|P j ph Hj|P i0 mode nm nv nc rc Hi Hm|P i0 j phi phj Hij Hi Hb Hj|P i0 j phi phj sh Hi Hphi Hj Hphj Hn|P i0 imat ivec ph Hi|P i0 v k ph Hi|P i0 lhs sh Hi|P i0 it e iel sh Hi Hit HR|P i0 nl sh Hi|P i0 ph Hi|P i0 ph Hi]; cbn [target] in Ht; try discriminate; injection Ht as ->; cbn [step] in E0;
  destruct (WI_get _ _ _ _ _ _ _ HW Hi) as (y & Ey & Eo & SO & PO & LO); rewrite Eo in E0.
  - cbn [phaseOK] in PO. subst y. destruct (init_ok nthr s sl mode nm nv nc rc (hp w) _ _ _ C Hm LO) as (h' & y' & EI & LO' & SO' & FR & PO'). rewrite EI in E0. injection E0 as <-. apply only_put, FR.
  - destruct (WI_get _ _ _ _ _ _ _ HW Hj) as (z & Ez & Eoz & SOz & POz & _). rewrite Eoz in E0.
    assert (Na : noArr y). { destruct phi as [|sh|sh]; cbn [phaseOK] in PO; [subst y; discriminate|apply PO|exfalso; exact (Hb sh eq_refl)]. }
    destruct (copySys_ok s sl (hp w) y z _ _ _ SO LO Na SOz) as (h' & y' & EI & LO' & SO' & FR & _).
    { intros p Hp. eapply in_restA; eauto. } { intros p Hp. eapply in_restA; eauto. }
    rewrite EI in E0. injection E0 as <-. apply only_put, FR.
  - destruct (WI_get _ _ _ _ _ _ _ HW Hj) as (z & Ez & Eoz & SOz & POz & _). rewrite Eoz in E0.
    assert (Szy : sizes s sh y) by (destruct Hphi as [-> | ->]; apply PO). assert (Szz : sizes s sh z) by (destruct Hphj as [-> | ->]; apply POz).
    destruct (addSys_ok s sl (hp w) y z _ _ _ C SO LO SOz) as (h' & y' & EI & LO' & FR & _).
    { intros p Hp. destruct (Nat.eq_dec j i) as [->|Hne]; [rewrite Ey in Ez; injection Ez as <-; apply in_or_app; auto|apply in_or_app; right; eapply in_restA; eauto]. }
    { intros p Hp. destruct (Nat.eq_dec j i) as [->|Hne]; [rewrite Ey in Ez; injection Ez as <-; apply in_or_app; auto|apply in_or_app; right; eapply in_restA; eauto]. }
    { destruct Szz as (-> & -> & _). exact Hn. } { destruct Szz as (_ & _ & _ & ->). destruct Szy as (_ & _ & _ & ->). reflexivity. }
    rewrite EI in E0. injection E0 as <-. apply only_put, FR.
  - cbn [put] in E0. injection E0 as <-. apply only_put, fr_refl.
  - cbn [put] in E0. injection E0 as <-. apply only_put, fr_refl.
  - destruct (initialize_ok nthr s sl lhs (hp w) y _ _ _ sh SO LO PO) as (h' & y' & EI & LO' & SO' & FR & PO' & _). rewrite EI in E0. injection E0 as <-. apply only_put, FR.
  - destruct (assemble_ok nthr s sl it e iel (hp w) y _ _ _ sh C SO LO PO Hit HR) as (ok & h' & y' & EI & LO' & SO' & FR & PO' & _). rewrite EI in E0. injection E0 as <-. apply only_put, FR.
  - destruct (finalize_ok nthr s sl sg nl (hp w) y _ _ _ sh SO LO PO) as (h' & y' & EI & LO' & SO' & FR & PO' & _). rewrite EI in E0. injection E0 as <-. apply only_put, FR.
  - destruct (clear_ok s sl (hp w) y _ _ _ SO LO) as (h' & EI & LO' & FR). rewrite EI in E0. injection E0 as <-. apply only_put, FR.
  - destruct (clear_ok s sl (hp w) y _ _ _ SO LO) as (h' & EI & LO' & FR). rewrite EI in E0. injection E0 as <-. apply only_put, FR.
Qed.
Lemma legal_len nthr s sl P o P' : legal nthr s sl P o P' -> length P <= length P'.
Proof. intros []; rewrite ?app_length, ?upd_length; lia. Qed.
Lemma same_sym w i w' i' : sameContents w i w' i' -> sameContents w' i' w i.
Proof. intros (a & e & f & g). repeat split; intros; symmetry; auto. Qed.
Lemma same_tr w i w' i' w'' i'' : sameContents w i w' i' -> sameContents w' i' w'' i'' -> sameContents w i w'' i''.
Proof. intros (a & e & f & g) (a' & e' & f' & g'). split; [intros; rewrite a; auto|]. split; [intros; rewrite e; auto|]. split; congruence. Qed.
Lemma step_frame nthr s sl sg P o P' w w' k : consistent s -> legal nthr s sl P o P' -> WI nthr s sl w P -> step nthr s sl sg o w = Some w' ->
  k < length P -> target o <> Some k -> sameContents w k w' k.
Proof.
  intros C Lg HW E0 Hk Ht. destruct (target o) as [i|] eqn:Et.
  - eapply only_others; [exact HW|eapply step_only; eauto|congruence].
  - destruct o; try discriminate Et.
    + cbn [step] in E0. injection E0 as <-. destruct HW as (L & _). unfold sameContents, matrixOf, vectorOf, scalarsOf, reactionsOf. cbn [objs hp]. rewrite nth_error_app1 by lia. repeat split; reflexivity.
    + inversion Lg as [|? ? ph Hj| | | | | | | | | |]; subst. destruct (newcopy_world nthr s sl sg w P j ph HW Hj) as (w2 & E2 & _ & F). assert (w2 = w') by congruence. subst. apply F, Hk.
Qed.
Lemma run_frame nthr s sl sg k : consistent s -> forall P os P', legalRun nthr s sl P os P' -> forall w w', WI nthr s sl w P -> run nthr s sl sg os w = Some w' ->
  k < length P -> (forall o, In o os -> target o <> Some k) -> sameContents w k w' k.
Proof.
  intros C P os P' Lr. induction Lr as [P|P o P' os P'' Lg Lr IH]; intros w w' HW E0 Hk Ht; cbn [run] in E0.
  - injection E0 as <-. repeat split; reflexivity.
  - destruct (step_ok nthr s sl sg P o P' w C Lg HW) as (w1 & E1 & HW1). rewrite E1 in E0. eapply same_tr; [eapply step_frame; eauto; apply Ht; left; reflexivity|].
    apply (IH w1 w' HW1 E0); [pose proof (legal_len _ _ _ _ _ _ Lg); lia|intros; apply Ht; right; assumption].
Qed.
