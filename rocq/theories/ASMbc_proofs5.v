(** Mutual exclusion of fixations and equations; constraining lists of nodes. *)
From Coq Require Import List Sorted Permutation Arith ZArith QArith Qcanon Bool Lia.
From Verif Require Import Base MPC_model MPC_spec MPC_proofs MPC_proofs2 ASMbc_model ASMbc_spec ASMbc_proofs ASMbc_proofs2 ASMbc_proofs3 ASMbc_proofs4.
Import ListNotations.
Local Open Scope Z_scope.

Lemma link_exclusive p p1 s d c0 code f stat live : wf p -> exclusive p -> d < 10 -> (forall m, mslave (f m) = mslave m) ->
  addMPC p (newMPC s d c0) code false = Some (p1, stat, live) -> exclusive (linkEq p1 live s d f).
Proof.
  intros W X T Hf E. destruct (link_spec p s d c0 code f W T Hf) as (p1' & st & lv & E' & A & B & A1 & B1 & C).
  rewrite E in E'. injection E' as <- <- <-. intros n e F S. apply (fixed_same _ _ n e B) in F. apply slave_in in S. destruct S as ([m c] & I & K). cbn [fst] in K.
  destruct C as [(_ & Q & _)|[(Fr & _ & _ & C)|(_ & SL & _ & _ & _ & C)]].
  - rewrite Q in I. apply (X n e F). apply slave_in. exists (m, c). auto.
  - apply C in I. destruct I as [I|[-> _]]; [apply (X n e F); apply slave_in; exists (m, c); auto|]. rewrite Hf in K. cbn in K. injection K as <- <-. destruct Fr; auto.
  - apply C in I. destruct I as [(I & _)|(m0 & I & K0 & ->)]; [apply (X n e F); apply slave_in; exists (m, c); auto|].
    rewrite Hf, K0 in K. injection K as <- <-. apply (X s d F). exact SL.
Qed.
Lemma prescribeLoop_exclusive g code : forall ds p ign q r, inv p -> exclusive p -> Forall (fun d => d < 10) ds ->
  prescribeLoop p g ds code false ign = Some (q, r) -> exclusive q.
Proof.
  induction ds as [|d ds IH]; intros p ign q r I X R; cbn [prescribeLoop].
  - intros [= <- <-]. exact X.
  - inversion R as [|? ? R1 R2]; subst. destruct (d <=? pnf p) eqn:L; [|intros E; eapply IH; eauto].
    destruct (addMPC p (newMPC g d 1) code false) as [[[p1 stat] live]|] eqn:E; [|intros H; discriminate H]. intros H.
    destruct (link_inv p p1 g d 1 code (fun m => m) stat live I R1 (fun m => eq_refl) (fun m _ H => H) E) as (J & _).
    pose proof (link_exclusive p p1 g d 1 code (fun m => m) stat live (proj1 I) X R1 (fun m => eq_refl) E) as X1.
    assert (Q : linkEq p1 live g d (fun m => m) = p1).
    { unfold linkEq. destruct live; [|reflexivity]. assert (Ed : forall l, editEq g d (fun m => m) l = l).
      { induction l as [|x l IHl]; cbn [editEq]; [reflexivity|]. destruct (isSlaveEq g d x); [destruct x; reflexivity|]. rewrite IHl. reflexivity. }
      rewrite Ed. destruct p1; reflexivity. }
    rewrite Q in *. eapply IH; [exact J|exact X1|exact R2|exact H].
Qed.
Lemma add2PC_exclusive p s d m c q st : inv p -> exclusive p -> add2PC p s d m c = Some (q, st) -> exclusive q.
Proof.
  intros (W & _ & R) X. unfold add2PC. destruct (Z.ltb_spec d 1); [intros [= <- _]; exact X|]. destruct (Z.ltb_spec (pnf p) d); [intros [= <- _]; exact X|]. cbn [orb].
  destruct (s =? m); [intros [= <- _]; exact X|]. destruct (addMPC p (newMPC s d 0) c false) as [[[p1 stat] live]|] eqn:E; [|intros Q; discriminate Q].
  intros [= <- _]. apply (link_exclusive p p1 s d 0 c (addM m d 1) stat live W X); [lia|apply addM_slave|exact E].
Qed.
Lemma apply_exclusive p o q : inv p -> exclusive p -> nonFixing o -> apply p o = Some q -> exclusive q.
Proof.
  intros I X NF. destruct o as [i d|i d c|s d m c|s d m1 m2 c]; cbn [apply nonFixing] in *.
  - destruct NF.
  - unfold prescribe. destruct (Z.eqb_spec c 0); [contradiction|]. destruct ((getNodeID p i <? 1) || (d <? 1)) eqn:G; [cbn; intros [= <-]; exact X|].
    apply orb_false_iff in G. destruct G as (_ & G). apply Z.ltb_ge in G.
    destruct (prescribeLoop p (getNodeID p i) (getDigits d) c false 0) as [[q' r]|] eqn:E; cbn; [|intros Q; discriminate Q]. intros [= <-].
    eapply prescribeLoop_exclusive; [exact I|exact X| |exact E]. eapply Forall_impl; [|apply getDigits_range; lia]. cbn. lia.
  - destruct (add2PC p s d m c) as [[q' st]|] eqn:E; cbn; [|intros Q; discriminate Q]. intros [= <-]. eapply add2PC_exclusive; eauto.
  - destruct (add3PC p s d m1 m2 c) as [[q' st]|] eqn:E; cbn; [|intros Q; discriminate Q]. intros [= <-]. unfold add3PC in E.
    destruct (m1 =? m2); [eapply add2PC_exclusive; eauto|]. destruct I as (W & _ & R).
    destruct (Z.ltb_spec d 1); [injection E as <- _; exact X|]. destruct (Z.ltb_spec (pnf p) d); [injection E as <- _; exact X|]. cbn [orb] in E.
    destruct (addMPC p (newMPC s d 0) c false) as [[[p1 stat] live]|] eqn:E1; [|discriminate E].
    injection E as <- _. apply (link_exclusive p p1 s d 0 c (both s d m1 m2) stat live W X); [lia|apply both_slave|exact E1].
Qed.
Lemma run_exclusive os : forall p q, inv p -> exclusive p -> Forall nonFixing os -> run p os = Some q -> exclusive q.
Proof.
  induction os as [|o os IH]; intros p q I X F; cbn [run]; [intros [= <-]; exact X|].
  inversion F as [|? ? F1 F2]; subst. destruct (apply p o) as [p1|] eqn:E; [|intros Q; discriminate Q].
  destruct (apply_inv p o I) as (p1' & E' & J & _). rewrite E in E'. injection E' as <-. intros H.
  exact (IH p1 q J (apply_exclusive p o p1 I X F1 E) F2 H).
Qed.
Lemma run_app os : forall os' p, run p (os ++ os') = match run p os with None => None | Some q => run q os' end.
Proof. induction os as [|o os IH]; intros os' p; cbn [app run]; [reflexivity|]. destruct (apply p o); auto. Qed.
(** all fixations first *)
Lemma run_fixes_exclusive fs os p q : inv p -> pEQ p = [] -> Forall nonFixing os ->
  run p (map (fun x => OFix (fst x) (snd x)) fs ++ os) = Some q -> exclusive q.
Proof.
  intros I E F H. rewrite run_app in H. destruct (run_inv (map (fun x => OFix (fst x) (snd x)) fs) p I) as (p1 & E1 & J & _). rewrite E1 in H.
  destruct (run_fixes fs p p1 I E1) as (Q & _). eapply run_exclusive; [exact J| |exact F|exact H].
  intros n d _ S. apply slave_in in S. rewrite Q, E in S. destruct S as (x & [] & _).
Qed.

(** ** Lists of nodes, homogeneous conditions *)
Lemma constrainLoop_run dof : forall nodes p ovr q, inv p -> constrainNodesLoop p nodes dof 0 ovr = Some q ->
  run p (map (fun x => OFix (fst x) (snd x)) (map (fun n => (Z.to_nat n, dof)) (filter (fun n => (0 <? n) && (n <=? Z.of_nat (pnnod p))) nodes))) = Some q.
Proof.
  induction nodes as [|n nodes IH]; intros p ovr q I; cbn [constrainNodesLoop filter map run]; [auto|].
  destruct ((0 <? n) && (n <=? Z.of_nat (pnnod p))); [|apply IH; exact I].
  unfold prescribe. cbn [Z.eqb]. destruct (fixNode p (Z.to_nat n) dof) as [p1 r] eqn:E. cbn [map run apply fst snd]. rewrite E. cbn [fst]. intros H.
  destruct (fixNode_wf p (Z.to_nat n) dof (proj1 I)) as (_ & S1 & S2 & S3 & _). rewrite E in *. cbn [fst] in *. rewrite <- S3. eapply IH; [|exact H].
  destruct (apply_inv p (OFix (Z.to_nat n) dof) I) as (p1' & E' & J & _). cbn [apply] in E'. rewrite E in E'. injection E' as <-. exact J.
Qed.
Lemma constrainLoop_total dof ovr : forall nodes p, exists q, constrainNodesLoop p nodes dof 0 ovr = Some q.
Proof.
  induction nodes as [|n nodes IH]; intros p; cbn [constrainNodesLoop]; [eauto|]. destruct (_ && _); [|apply IH].
  unfold prescribe. cbn [Z.eqb]. destruct (fixNode p (Z.to_nat n) dof) as [p1 r]. apply IH.
Qed.
Lemma constrainNodes_fixed p nodes dof ovr : inv p ->
  exists q, constrainNodes p nodes dof 0 ovr = Some q /\ pEQ q = pEQ p /\
  forall n d, Fixed q n d <-> Fixed p n d \/
    (1 <= dof /\ IsDigit dof d /\ 1 <= d <= 6 /\ d <= pnf p /\ exists i, In (Z.of_nat i) nodes /\ (i <= pnnod p)%nat /\ nodeAt p i n /\ 1 <= n).
Proof.
  intros I. unfold constrainNodes. cbn [Z.abs]. destruct (constrainLoop_total dof ovr nodes p) as (q & E). exists q. split; [exact E|].
  apply constrainLoop_run in E; [|exact I]. destruct (run_fixes _ _ _ I E) as (A & B). split; [exact A|]. intros n d. rewrite B. split; (intros [H|H]; [left; exact H|right]).
  - destruct H as (i & dirs & H & H1 & H2 & H3 & H4 & H5 & H6). apply in_map_iff in H. destruct H as (z & [= <- <-] & H). apply filter_In in H.
    destruct H as (H & Q). apply andb_true_iff in Q. rewrite Z.ltb_lt, Z.leb_le in Q. do 4 (split; [assumption|]). exists (Z.to_nat z). rewrite Z2Nat.id by lia. split; [exact H|]. split; [lia|auto].
  - destruct H as (H3 & H4 & H5 & H6 & i & H & Li & H1 & H2). exists i, dof. split; [|auto 10]. apply in_map_iff. exists (Z.of_nat i). rewrite Nat2Z.id. split; [reflexivity|].
    apply filter_In. split; [exact H|]. apply andb_true_iff. rewrite Z.ltb_lt, Z.leb_le. destruct H1 as (H1 & _). lia.
Qed.
Lemma constrainPatch_fixed p dof : inv p ->
  exists q, constrainPatch p dof 0 = Some q /\ pEQ q = pEQ p /\
  forall n d, Fixed q n d <-> Fixed p n d \/
    (1 <= dof /\ IsDigit dof d /\ 1 <= d <= 6 /\ d <= pnf p /\ exists i, (1 <= i <= pnnod p)%nat /\ nodeAt p i n /\ 1 <= n).
Proof.
  intros I. destruct (constrainNodes_fixed p (map Z.of_nat (seq 1 (pnnod p))) dof false I) as (q & E & A & B). exists q. split; [exact E|]. split; [exact A|].
  intros n d. rewrite B. split; (intros [H|(H1 & H2 & H3 & H4 & i & H5)]; [left; exact H|right]); (do 4 (split; [assumption|])); exists i.
  - destruct H5 as (_ & H5 & H6). split; [|exact H6]. destruct H6 as ((H6 & _) & _). lia.
  - destruct H5 as (H5 & H6). split; [|split; [lia|exact H6]]. apply in_map. apply in_seq. lia.
Qed.
