(** C60-C62: property theorems about the algebraic equation system. *)
From Coq Require Import List Arith ZArith QArith Qcanon Bool Lia.
From Verif Require Import Base SAM_model SAM_spec SAM_proofs SAM_proofs3 Sparse_model Sparse_spec Sparse_proofs Sparse_proofs2
  Sparse_proofs3 Sparse_proofs4 Sparse_proofs5 Sparse_proofs6 Sparse_proofs7 Sparse_proofs8
  AlgEq_model AlgEq_spec AlgEq_proofs AlgEq_proofs2 AlgEq_proofs3 AlgEq_proofs4 AlgEq_proofs5 AlgEq_proofs6 AlgEq_proofs7 AlgEq_proofs8.
Import ListNotations.
Local Open Scope nat_scope.

Lemma outcome_WI nthr s sl sg w P : consistent s -> legalOutcome nthr s sl sg w P -> WI nthr s sl w P.
Proof. intros C (os & L & E0). destruct (run_ok nthr s sl sg C _ _ _ L w0 (WI_0 nthr s sl)) as (w' & E' & H). congruence. Qed.

(** ** C60 *)
(** An assembly round in an initialised system, after any legal history: every call is
    defined; each matrix is the sum of its element contributions, the diagonal of
    equations without contributions is the given regularisation if asked for; each vector,
    reaction force and scalar is the sum of its element contributions, for any number of
    threads and any distribution of the elements on them; the other systems are unchanged. *)
Theorem C60_round : forall nthr s0 s sl sg w P i lhs els sh, initEqs s0 = Some (true, s) -> legalOutcome nthr s sl sg w P ->
  nth_error P i = Some (Some (Ready sh)) -> elmsFit nthr s els -> lhs = 1 \/ lhs = 2 ->
  exists w', run nthr s sl sg (Initialize i lhs :: assembleAll i els ++ [Finalize i true]) w = Some w' /\
    (forall k, k < nmat sh -> exists M M', matrixOf w i k = Some M /\ matrixOf w' i k = Some M' /\ nrow M' = neq s /\ ncol M' = neq s /\
       (forall r c, r <> c \/ contributes s (matList s els k) r -> get M' r c = Some (elmSum s (matList s els k) r c)) /\
       (lhs = 2 -> 1 < neq s -> (exists r, contributes s (matList s els k) r) ->
          forall r, ~ contributes s (matList s els k) r -> writable M r r -> get M' r r = Some sg)) /\
    (forall j, j < nvec sh -> forall ks, NoDup ks -> (forall k, In k ks <-> assocTo w i k j) ->
       exists v, vectorOf w' i j = Some v /\ length v = neq s /\
         forall r, nth r v 0%Qc = qs (fun t => vecContrib s (snd (fst t)) (snd t) ks j (S r)) els) /\
    length (reactionsOf w' i) = (if hasReact sh then nspdof s else 0) /\
    (forall p, p < length (reactionsOf w' i) -> nth p (reactionsOf w' i) 0%Qc = qs (fun t => reactContrib s (snd (fst t)) (snd t) p) els) /\
    length (scalarsOf w' i) = nscl sh /\
    (forall j, j < nscl sh -> nth j (scalarsOf w' i) 0%Qc = qs (fun t => sclContrib (snd (fst t)) j) els) /\
    (forall k, k <> i -> sameContents w k w' k).
Proof.
  intros nthr s0 s sl sg w P i lhs els sh H0 HL Hi Fit Hl. pose proof (initEqs_consistent _ _ H0) as C.
  destruct (round_world nthr s sl sg w P i lhs els sh C (outcome_WI _ _ _ _ _ _ C HL) Hi Fit Hl) as (w' & E1 & W' & H1 & H2).
  exists w'. split; [exact E1|]. split; [|exact H2]. intros k Hk. destruct (H1 k Hk) as (M & M' & G & G' & V1 & V2). exists M, M'.
  assert (R : ready s sl M').
  { destruct W' as (_ & _ & _ & _ & VM & _). unfold matrixOf in G'. destruct (nth_error (objs w') i) as [[y|]|]; try discriminate.
    destruct (nth_error (AlgEq_model.A y) k) as [[[p|] u]|]; try discriminate. destruct (nth_error (hM (hp w')) p) as [o|] eqn:Ep; [|discriminate]. subst o. exact (VM _ _ Ep). }
  destruct R as (Wf & _ & Nr & Nc & _). split; [exact G|]. split; [exact G'|]. split; [exact Nr|]. split; [exact Nc|]. split.
  - intros r c Hc. rewrite get_val by exact Wf. rewrite V1 by exact Hc. reflexivity.
  - intros A1 A2 A3 r A4 A5. rewrite get_val by exact Wf. rewrite V2; auto.
Qed.
Print Assumptions C60_round.
(** elements that fit are accepted *)
Theorem C60_accepted : forall nthr s0 s sl sg w P i y sh it e iel meen, initEqs s0 = Some (true, s) -> legalOutcome nthr s sl sg w P ->
  nth_error P i = Some (Some (Busy sh)) -> nth_error (objs w) i = Some (Some y) -> it < nthr -> elmFits s e iel meen ->
  exists h' y', assemble s it e iel (hp w) y = Some (true, h', y').
Proof.
  intros nthr s0 s sl sg w P i y sh it e iel meen H0 HL Hi Hy Hit Fit. pose proof (initEqs_consistent _ _ H0) as C.
  destruct (WI_get _ _ _ _ _ _ _ (outcome_WI _ _ _ _ _ _ C HL) Hi) as (y' & Ey & _ & SO & PO & LO). assert (y' = y) by congruence. subst y'.
  destruct (assemble_ok nthr s sl it e iel (hp w) y _ _ _ sh C SO LO PO Hit (fun _ => fits_range s e iel meen Fit)) as (ok & h' & y' & E0 & _ & _ & _ & _ & _ & _ & K).
  destruct (K meen Fit) as [-> _]. eauto.
Qed.
Print Assumptions C60_accepted.

(** ** C61 *)
(** In legal programs every call is defined; at each point every allocated object belongs
    to exactly one system, no system has a dangling pointer, matrices are associated with
    vectors of their own system. *)
Theorem C61_legal_defined : forall nthr s0 s sl sg os P, initEqs s0 = Some (true, s) -> legalRun nthr s sl [] os P ->
  exists w, run nthr s sl sg os w0 = Some w /\ noLeaks w /\ assocOwn w /\ length (objs w) = length P.
Proof.
  intros nthr s0 s sl sg os P H0 L. destruct (run_ok nthr s sl sg (initEqs_consistent _ _ H0) _ _ _ L w0 (WI_0 nthr s sl)) as (w & E1 & W).
  exists w. split; [exact E1|]. destruct (WI_noLeaks _ _ _ _ _ W) as [N1 N2]. split; [exact N1|]. split; [exact N2|apply W].
Qed.
Print Assumptions C61_legal_defined.
(** when all systems are cleared or destroyed, all memory was released *)
Theorem C61_all_freed : forall nthr s0 s sl sg w P, initEqs s0 = Some (true, s) -> legalOutcome nthr s sl sg w P ->
  (forall q, In q P -> q = None \/ q = Some Clean) ->
  forall p, ~ live (hM (hp w)) p /\ ~ live (hV (hp w)) p /\ ~ live (hD (hp w)) p.
Proof.
  intros nthr s0 s sl sg w P H0 HL Hq p. pose proof (initEqs_consistent _ _ H0) as C.
  destruct (freed_all _ _ _ _ _ (outcome_WI _ _ _ _ _ _ C HL) Hq) as (F1 & F2 & F3).
  split; [|split]; intros (x & Hx); [exact (F1 p x Hx)|exact (F2 p x Hx)|exact (F3 p x Hx)].
Qed.
Print Assumptions C61_all_freed.

(** ** C62 *)
(** assignment and copy construction give a system with equal contents; no other system changes *)
Theorem C62_assign : forall nthr s0 s sl sg w P i j phi phj, initEqs s0 = Some (true, s) -> legalOutcome nthr s sl sg w P ->
  i <> j -> nth_error P i = Some (Some phi) -> (forall sh, phi <> Busy sh) -> nth_error P j = Some (Some phj) ->
  exists w', step nthr s sl sg (Copy i j) w = Some w' /\ sameContents w j w' i /\ forall k, k <> i -> sameContents w k w' k.
Proof. intros nthr s0 s sl sg w P i j phi phj H0 HL. exact (copy_world nthr s sl sg w P i j phi phj (outcome_WI _ _ _ _ _ _ (initEqs_consistent _ _ H0) HL)). Qed.
Print Assumptions C62_assign.
Theorem C62_copy_construct : forall nthr s0 s sl sg w P j phj, initEqs s0 = Some (true, s) -> legalOutcome nthr s sl sg w P ->
  nth_error P j = Some (Some phj) ->
  exists w', step nthr s sl sg (NewCopy j) w = Some w' /\ sameContents w j w' (length P) /\ forall k, k < length P -> sameContents w k w' k.
Proof. intros nthr s0 s sl sg w P j phj H0 HL. exact (newcopy_world nthr s sl sg w P j phj (outcome_WI _ _ _ _ _ _ (initEqs_consistent _ _ H0) HL)). Qed.
Print Assumptions C62_copy_construct.
(** add(): matrices under the conditions of C34; vectors with a number below the number of
    matrices and reaction forces with a number below the number of vectors only *)
Theorem C62_add_partial : forall nthr s0 s sl sg w P i j phi phj sh, initEqs s0 = Some (true, s) -> legalOutcome nthr s sl sg w P ->
  i <> j -> nth_error P i = Some (Some phi) -> phi = Ready sh \/ phi = Busy sh ->
  nth_error P j = Some (Some phj) -> phj = Ready sh \/ phj = Busy sh -> nmat sh <= nvec sh ->
  exists w', step nthr s sl sg (Add i j) w = Some w' /\
    (forall k M B, matrixOf w i k = Some M -> matrixOf w j k = Some B -> isZero B = false ->
       st M = EdP \/ (st M = Compr /\ st B = Compr /\ IA M = IA B /\ JA M = JA B) ->
       exists M', matrixOf w' i k = Some M' /\ forall r c, get M' r c = Some (val (stored M) r c + val (stored B) r c)%Qc) /\
    (forall k v u, vectorOf w i k = Some v -> vectorOf w j k = Some u -> exists v', vectorOf w' i k = Some v' /\ length v' = neq s /\
       forall r, r < neq s -> nth r v' 0%Qc = (nth r v 0 + if k <? nmat sh then nth r u 0 else 0)%Qc) /\
    (forall k, k < nscl sh -> nth k (scalarsOf w' i) 0%Qc = (nth k (scalarsOf w i) 0 + nth k (scalarsOf w j) 0)%Qc) /\
    (forall p, p < length (reactionsOf w i) ->
       nth p (reactionsOf w' i) 0%Qc = (nth p (reactionsOf w i) 0 + if p <? nvec sh then nth p (reactionsOf w j) 0 else 0)%Qc) /\
    (forall k, k <> i -> sameContents w k w' k).
Proof.
  intros nthr s0 s sl sg w P i j phi phj sh H0 HL Hij Hi Hphi Hj Hphj Hn. pose proof (initEqs_consistent _ _ H0) as C.
  destruct (add_world nthr s sl sg w P i j phi phj sh C (outcome_WI _ _ _ _ _ _ C HL) Hij Hi Hphi Hj Hphj Hn) as (w' & E1 & H1 & H2).
  exists w'. split; [exact E1|]. split; [|exact H2]. intros k M B HM HB Hz Hst. destruct (H1 k M B HM HB) as ((fl & M' & EA & HM') & (W1 & S1 & R1 & C1 & _) & (W2 & S2 & R2 & C2 & _)).
  exists M'. split; [exact HM'|]. destruct (add_spec B 1%Qc M W1 W2) as (M'' & EA' & W' & _ & _ & _ & _ & _ & V); try congruence; [lia|lia| |].
  - destruct Hst as [Hst|(A1 & A2 & A3 & A4)]; [left; exact Hst|right]. repeat split; congruence.
  - assert (M'' = M') by congruence. subst M''. intros r c. rewrite get_val by exact W'. rewrite V. f_equal. ring.
Qed.
Print Assumptions C62_add_partial.
(** a program that makes no call on system [k] does not change its contents: copies are independent *)
Theorem C62_independent : forall nthr s0 s sl sg w P os P' w' k, initEqs s0 = Some (true, s) -> legalOutcome nthr s sl sg w P ->
  legalRun nthr s sl P os P' -> run nthr s sl sg os w = Some w' -> k < length P -> (forall o, In o os -> target o <> Some k) -> sameContents w k w' k.
Proof.
  intros nthr s0 s sl sg w P os P' w' k H0 HL L. pose proof (initEqs_consistent _ _ H0) as C.
  exact (run_frame nthr s sl sg k C P os P' L w w' (outcome_WI _ _ _ _ _ _ C HL)).
Qed.
Print Assumptions C62_independent.

(** ** Concrete cases *)
Definition q (a : Z) : Qc := Q2Qc (inject_Z a).
(** three nodes, two elements, a constraint equation with prescribed value *)
Definition ex0 : tables := mkS [1;3;5;7] [1;2;0;0;1;1]%Z [1;3;5] [1;2;2;3]%Z [1;4] [3;1;5]%Z [q 5; q 2; q (-1)] [] 0 0.
Definition ex : tables := match initEqs ex0 with Some (_, s) => s | None => ex0 end.
Definition e1 : elm := mkE [(4, fun i j => q (Z.of_nat (i*4+j+1)))] [[q 1; q 2; q 3; q 4]] [q 7] true false.
Definition e2 : elm := mkE [(4, fun i j => q (Z.of_nat (i*4+j+2)))] [[q 5; q 6; q 7; q 8]] [q 9] true false.
(** an element that only has a scalar *)
Definition e3 : elm := mkE [] [] [q 11] true false.
Definition runEx (n : nat) (os : list op) : option world := run n ex SuperLU 1%Qc os w0.

(** two threads, two systems *)
Definition prog : list op := [New; Init 0 (Some false) 1 1 1 true; New; Init 1 (Some false) 1 1 1 true].
Definition progW : world := match runEx 2 prog with Some w => w | None => w0 end.
Definition shEx : shape := mkShape 1 1 1 true.
Lemma prog_legal : legalOutcome 2 ex SuperLU 1%Qc progW [Some (Ready shEx); Some (Ready shEx)].
Proof.
  exists prog. split; [|vm_compute; reflexivity]. unfold prog.
  eapply LR_cons; [apply L_new|]. eapply LR_cons; [eapply L_init; [reflexivity|right; reflexivity]|].
  eapply LR_cons; [apply L_new|]. eapply LR_cons; [eapply L_init; [reflexivity|right; reflexivity]|]. apply LR_nil.
Qed.
Definition elsEx : list (nat * elm * nat) := [(1, e2, 2); (0, e1, 1)].
Lemma elsEx_fit : elmsFit 2 ex elsEx.
Proof.
  intros it e iel [[= <- <- <-]|[[= <- <- <-]|[]]]; (split; [lia|]); eexists; (split; [vm_compute; reflexivity|]);
  (split; [intros K [<-|[]]; right; reflexivity|intros v [<-|[]]; right; reflexivity]).
Qed.
Example C60_case : initEqs ex0 = Some (true, ex) /\ legalOutcome 2 ex SuperLU 1%Qc progW [Some (Ready shEx); Some (Ready shEx)] /\ elmsFit 2 ex elsEx /\
  exists w, runEx 2 (prog ++ Initialize 0 2 :: assembleAll 0 elsEx ++ [Finalize 0 true]) = Some w /\
    scalarsOf w 0 = [q 16] /\ (exists M, matrixOf w 0 0 = Some M /\ get M 1 4 = Some (q 22)) /\ length (reactionsOf w 0) = 2 /\
    nth 0 (reactionsOf w 0) 0%Qc <> 0%Qc /\ scalarsOf w 1 = [q 0].
Proof.
  split; [vm_compute; reflexivity|]. split; [exact prog_legal|]. split; [exact elsEx_fit|]. eexists. split; [vm_compute; reflexivity|].
  split; [vm_compute; reflexivity|]. split; [eexists; split; vm_compute; reflexivity|]. split; [vm_compute; reflexivity|]. split; [vm_compute; intros H; discriminate H|vm_compute; reflexivity].
Qed.
(** an element with neither matrices nor vectors is skipped completely: its scalars are lost *)
Theorem C60_scalars_of_empty_element_refuted : exists w, runEx 2 (prog ++ [Initialize 0 2; Assemble 0 0 e1 1; Assemble 0 0 e3 2; Finalize 0 true]) = Some w /\
  elmFits ex e3 2 (match getElmEqns ex 2 with Some l => l | None => [] end) /\ nth 0 (scalarsOf w 0) 0%Qc <> (nth 0 (eC e1) 0 + nth 0 (eC e3) 0)%Qc.
Proof.
  eexists. split; [vm_compute; reflexivity|]. split; [|vm_compute; intros H; discriminate H]. split; [vm_compute; reflexivity|]. split; intros x [].
Qed.
Print Assumptions C60_scalars_of_empty_element_refuted.

Example C61_case : exists w, runEx 2 (prog ++ [Initialize 0 1; NewCopy 0; Finalize 0 true; Delete 0; Clear 1; Copy 1 2; Delete 1; Delete 2]) = Some w /\
  length (hM (hp w)) = 4 /\ length (hD (hp w)) = 1 /\ forall p, ~ live (hM (hp w)) p.
Proof.
  eexists. split; [vm_compute; reflexivity|]. split; [reflexivity|]. split; [reflexivity|]. intros p (x & Hx). do 5 (destruct p as [|p]; [discriminate Hx|]). destruct p; discriminate Hx.
Qed.
Example C61_case_legal : legalRun 2 ex SuperLU [] (prog ++ [Initialize 0 1; NewCopy 0; Finalize 0 true; Delete 0; Clear 1; Copy 1 2; Delete 1; Delete 2]) [None; None; None].
Proof.
  unfold prog. cbn [app]. eapply LR_cons; [apply L_new|]. eapply LR_cons; [eapply L_init; [reflexivity|right; reflexivity]|].
  eapply LR_cons; [apply L_new|]. eapply LR_cons; [eapply L_init; [reflexivity|right; reflexivity]|].
  eapply LR_cons; [eapply L_initialize; reflexivity|]. eapply LR_cons; [eapply L_newcopy; reflexivity|]. eapply LR_cons; [eapply L_finalize; reflexivity|].
  eapply LR_cons; [eapply L_delete; reflexivity|]. eapply LR_cons; [eapply L_clear; reflexivity|].
  eapply LR_cons; [eapply L_copy; [discriminate|reflexivity|intros; discriminate|reflexivity]|]. eapply LR_cons; [eapply L_delete; reflexivity|]. eapply LR_cons; [eapply L_delete; reflexivity|]. apply LR_nil.
Qed.
(** outside of the legal programs *)
(** init() of an initialised system leaks its matrices *)
Theorem C61_reinit_leaks_refuted : exists w, runEx 2 [New; Init 0 None 1 1 1 true; Init 0 None 1 1 1 true] = Some w /\ ~ noLeaks w.
Proof.
  eexists. split; [vm_compute; reflexivity|]. intros ((_ & _ & H) & _). assert (L : live [Some (create 4 4 SuperLU); Some (create 4 4 SuperLU)] 0) by (eexists; reflexivity).
  specialize (proj2 (H 0)). cbn. intros H'. destruct H' as [H'|[]]; [eexists; reflexivity|discriminate H'].
Qed.
Print Assumptions C61_reinit_leaks_refuted.
(** a second initialize() before finalize() leaks the thread buffers *)
Theorem C61_double_initialize_leaks_refuted : exists w, runEx 2 [New; Init 0 None 1 1 1 true; Initialize 0 2; Initialize 0 2; Finalize 0 true; Delete 0] = Some w /\ live (hD (hp w)) 0.
Proof. eexists. split; [vm_compute; reflexivity|]. eexists. reflexivity. Qed.
Print Assumptions C61_double_initialize_leaks_refuted.
(** self-assignment uses deleted memory; finalize() without initialize() uses the null pointer;
    an element number out of range is used to index the element table if there are reactions *)
Theorem C61_undefined_refuted :
  runEx 2 [New; Init 0 None 1 1 1 true] <> None /\
  runEx 2 [New; Init 0 None 1 1 1 true; Copy 0 0] = None /\
  runEx 2 [New; Init 0 None 1 1 1 true; Finalize 0 true] = None /\
  runEx 2 [New; Init 0 None 1 1 1 true; Initialize 0 2; Assemble 0 0 e1 3] = None /\
  runEx 2 [New; Init 0 None 1 1 1 false; Initialize 0 2; Assemble 0 0 e1 3] <> None.
Proof. repeat split; vm_compute; try reflexivity; intros H; discriminate H. Qed.
Print Assumptions C61_undefined_refuted.

(** the vectors associated with the matrices are lost in a copy of a system with two matrices *)
Theorem C62_copy_association_refuted : exists w, runEx 1 [New; Init 0 None 2 2 0 false; Assoc 0 1 0; NewCopy 0] = Some w /\
  assocTo w 0 1 0 /\ forall k j, ~ assocTo w 1 k j.
Proof.
  eexists. split; [vm_compute; reflexivity|]. split; [do 2 eexists; repeat split|]. cbn. intros k j (a & p & H1 & H2 & H3).
  destruct k as [|[|k]]; [injection H1 as <-|injection H1 as <-|destruct k; discriminate H1]; cbn in H3; subst p; destruct j as [|[|[|j]]]; discriminate H2.
Qed.
Print Assumptions C62_copy_association_refuted.
(** add() of systems with one matrix and two vectors ignores the second vector, and all but the two first reactions *)
Definition e4 : elm := mkE [(4, fun i j => q 1)] [[q 1; q 2; q 3; q 4]; [q 1; q 2; q 3; q 4]] [q 7] true false.
Theorem C62_add_vectors_refuted : exists w w', runEx 1 [New; Init 0 None 1 2 0 false; NewCopy 0; Initialize 1 2; Assemble 1 0 e4 1; Finalize 1 true] = Some w /\
  step 1 ex SuperLU 1%Qc (Add 0 1) w = Some w' /\ (exists u r, vectorOf w 1 1 = Some u /\ nth r u 0%Qc <> 0%Qc) /\ vectorOf w' 0 1 = vectorOf w 0 1 /\ vectorOf w 0 1 = Some [q 0; q 0; q 0; q 0].
Proof.
  eexists. eexists. split; [vm_compute; reflexivity|]. split; [vm_compute; reflexivity|]. split; [|split; vm_compute; reflexivity]. eexists. exists 0. split; [vm_compute; reflexivity|]. vm_compute. intros H. discriminate H.
Qed.
Print Assumptions C62_add_vectors_refuted.
Theorem C62_add_reactions_refuted : exists w w', runEx 1 [New; Init 0 None 1 1 0 true; NewCopy 0; Initialize 1 2; Assemble 1 0 e1 1; Finalize 1 true] = Some w /\
  step 1 ex SuperLU 1%Qc (Add 0 1) w = Some w' /\ nth 1 (reactionsOf w 1) 0%Qc <> 0%Qc /\ reactionsOf w 0 = [q 0; q 0] /\ nth 1 (reactionsOf w' 0) 0%Qc = 0%Qc.
Proof.
  eexists. eexists. split; [vm_compute; reflexivity|]. split; [vm_compute; reflexivity|]. split; [vm_compute; intros H; discriminate H|]. split; vm_compute; reflexivity.
Qed.
Print Assumptions C62_add_reactions_refuted.
(** add() of systems with more matrices than vectors reads outside of the vector table *)
Theorem C62_add_more_matrices_refuted : runEx 1 [New; Init 0 None 2 1 0 false; NewCopy 0] <> None /\ runEx 1 [New; Init 0 None 2 2 0 false; New; Init 1 None 2 1 0 false; Add 0 1] = None.
Proof. split; vm_compute; [intros H; discriminate H|reflexivity]. Qed.
Print Assumptions C62_add_more_matrices_refuted.
(** a copy taken after the assembly *)
Example C62_case : exists w w' M, runEx 2 (prog ++ Initialize 0 2 :: assembleAll 0 elsEx ++ [Finalize 0 true]) = Some w /\
  step 2 ex SuperLU 1%Qc (Copy 1 0) w = Some w' /\ matrixOf w' 1 0 = Some M /\ get M 1 4 = Some (q 22) /\
  exists w2 M2, run 2 ex SuperLU 1%Qc [Initialize 0 2; Finalize 0 true; Add 0 1] w' = Some w2 /\ matrixOf w2 0 0 = Some M2 /\ get M2 1 4 = Some (q 22) /\ scalarsOf w2 0 = [q 16].
Proof.
  do 3 eexists. split; [vm_compute; reflexivity|]. split; [vm_compute; reflexivity|]. split; [vm_compute; reflexivity|]. split; [vm_compute; reflexivity|].
  do 2 eexists. split; [vm_compute; reflexivity|]. split; [vm_compute; reflexivity|]. split; vm_compute; reflexivity.
Qed.
