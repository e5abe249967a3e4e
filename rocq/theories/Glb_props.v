(** Properties C67-C68: nodal forces and norms. *)
From Coq Require Import List Arith ZArith QArith Qcanon Bool Permutation Lia.
From Verif Require Import Base QcLra SAM_model Glb_model Glb_spec Glb_proofs Glb_proofs2.
Import ListNotations.
Local Open Scope nat_scope.

(** ** C67: nodal forces *)
(** the boundary nodes are those of the properties, each once if no property covers a whole patch *)
Theorem boundaryNodes_exact : forall ps n, In n (boundaryNodes ps) <-> exists ns, (In (Whole ns) ps \/ In (Part ns) ps) /\ In n ns.
Proof.
  intros ps n. unfold boundaryNodes. rewrite bn_in. cbn [In]. split.
  - intros [[]|([ns|ns] & Hp & H)]; exists ns; tauto.
  - intros (ns & [H|H] & Hn); right; [exists (Whole ns)|exists (Part ns)]; split; assumption.
Qed.
Print Assumptions boundaryNodes_exact.
Theorem boundaryNodes_unique_partial : forall ps, (forall p, In p ps -> exists ns, p = Part ns) -> NoDup (boundaryNodes ps).
Proof. intros ps H. apply bn_nodup; [exact H|constructor]. Qed.
Print Assumptions boundaryNodes_unique_partial.

(** initNodeMap reports illegal node numbers *)
Theorem initNodeMap_reports : forall s ns nf, fst (initNodeMap s ns nf) = true <-> forall n, In n ns -> (1 <= n <= Z.of_nat (nnod s))%Z.
Proof.
  intros s ns nf. unfold initNodeMap. set (N := Z.of_nat (nnod s)).
  assert (G : forall ns i m bad, bad <= snd (mapNodes N ns i m bad) /\ (snd (mapNodes N ns i m bad) = bad <-> forall n, In n ns -> (1 <= n <= N)%Z)).
  { clear. induction ns as [|g ns IH]; intros i m bad; [cbn; split; [lia|split; [intros _ n []|reflexivity]]|]. cbn [mapNodes]. destruct ((0 <? g) && (g <=? N))%Z eqn:Eg.
    - destruct (IH (S i) (assign g (S i) m) bad) as [A B]. split; [exact A|]. rewrite B. apply andb_prop in Eg. destruct Eg as [E1 E2]. apply Z.ltb_lt in E1. apply Z.leb_le in E2. split; [intros H n [<-|Hn]; [lia|apply H, Hn]|intros H n Hn; apply H; right; exact Hn].
    - destruct (IH (S i) m (S bad)) as [A B]. split; [lia|]. split; [lia|]. intros H. specialize (H g (or_introl eq_refl)). apply andb_false_iff in Eg. destruct Eg as [Eg|Eg]; [apply Z.ltb_ge in Eg|apply Z.leb_gt in Eg]; lia. }
  destruct (mapNodes N ns 0 [] 0) as [m bad] eqn:Em. cbn [fst]. specialize (G ns 0 [] 0). rewrite Em in G. cbn [snd] in G. rewrite Nat.eqb_eq. apply G.
Qed.
Print Assumptions initNodeMap_reports.

(** the force at a node is minus the sum of all the element contributions to this node, the total
    force is the sum over the nodes, and an assembly call is successful if and only if the element has
    a node of the boundary *)
Theorem nodal_forces_partial : forall s ns nf cs, topologyOK s -> NoDup ns -> (forall n, In n ns -> (1 <= n <= Z.of_nat (nnod s))%Z) -> Forall (callOK s ns nf) cs ->
  exists f bs f', initNodeMap s ns nf = (true, f) /\ assembleAll s (initialize f) cs = Some (bs, f') /\ length bs = length cs /\
    (forall i, i < length cs -> (nth i bs false = true <-> exists n, In n (enodes s (snd (nth i cs ([], 0%Z)))) /\ In n ns)) /\
    (forall n, In n ns -> getForce f' n = Some (force3 nf (fun j => (- qs (fun c => contribution s c n j) cs)%Qc))) /\
    (forall n, ~ In n ns -> getForce f' n = Some [0%Qc; 0%Qc; 0%Qc]) /\
    (forall p, p < length ns -> exists v, getForceAt f' p = Some (nth p ns 0%Z, Some v) /\ getForce f' (nth p ns 0%Z) = Some v) /\
    (forall p, length ns <= p -> getForceAt f' p = Some (0%Z, None)) /\
    getTotalForce f' = Some (force3 nf (fun j => qs (fun n => (- qs (fun c => contribution s c n j) cs)%Qc) ns)).
Proof.
  intros s ns nf cs T ND R HC. destruct (init_ok s ns nf ND R) as (f & E0 & I0). destruct (assembleAll_ok s ns nf T ND cs [] (initialize f) I0 HC) as (bs & f' & E1 & I1 & L1 & B1). cbn [app] in I1. exists f, bs, f'. split; [exact E0|]. split; [exact E1|]. split; [exact L1|]. split; [exact B1|].
  split; [intros n; apply (getForce_in s ns nf cs f' n I1)|]. split; [intros n; apply (getForce_out s ns nf cs f' n I1)|]. split; [intros p; apply (getForceAt_ok s ns nf cs f' p I1)|]. split; [intros p; apply (getForceAt_out s ns nf cs f' p I1)|]. apply (getTotal_ok s ns nf cs f' I1).
Qed.
Print Assumptions nodal_forces_partial.
(** a call for an unknown element, or without an element vector, fails and changes nothing *)
Theorem nodal_forces_refused : forall s f ES iel, ((iel < 1) \/ (Z.of_nat (nel s) < iel))%Z -> assembleF s f (Some ES) iel = Some (false, f) /\ assembleF s f None iel = Some (false, f).
Proof.
  intros s f ES iel H. split; [|reflexivity]. unfold assembleF, elmNodes. replace ((iel <? 1) || (Z.of_nat (nel s) <? iel))%Z with true; [reflexivity|]. symmetry. apply orb_true_iff. destruct H; [left|right]; apply Z.ltb_lt; assumption.
Qed.
Print Assumptions nodal_forces_refused.

(** two elements on three nodes with two DOFs each *)
Definition sEx : tables := mkS [1; 3; 5; 7] [1; 1; 1; 1; 1; 1]%Z [1; 3; 5] [1; 2; 2; 3]%Z [1] [] [] [1; 2; 3; 4; 5; 6]%Z 6 0.
Definition q (z : Z) : Qc := Q2Qc (inject_Z z).
Example sEx_ok : topologyOK sEx /\ Forall (callOK sEx [2; 1]%Z 2) [([q 1; q 2; q 3; q 4], 1%Z); ([q 5; q 6; q 7; q 8], 2%Z)] /\ NoDup [2; 1]%Z.
Proof.
  split; [|split].
  - intros iel H. cbn in H. assert (iel = 1 \/ iel = 2)%Z as [-> | ->] by lia; (split; [vm_compute; lia|split; [vm_compute; lia|intros n Hn; vm_compute in Hn; destruct Hn as [<-|[<-|[]]]; vm_compute; split; discriminate]]).
  - apply Forall_cons; [|apply Forall_cons; [|apply Forall_nil]]; (split; [cbn; lia|]); intros i Hi _; change (i < 2) in Hi; (destruct i as [|[|i]]; [vm_compute; lia|vm_compute; lia|lia]).
  - repeat constructor; cbn; lia.
Qed.
Example sEx_forces : exists f bs f', initNodeMap sEx [2; 1]%Z 2 = (true, f) /\ assembleAll sEx (initialize f) [([q 1; q 2; q 3; q 4], 1%Z); ([q 5; q 6; q 7; q 8], 2%Z)] = Some (bs, f') /\ bs = [true; true] /\
  getForce f' 2 = Some [q (-8); q (-10); 0%Qc] /\ getForce f' 3 = Some [0%Qc; 0%Qc; 0%Qc] /\ getTotalForce f' = Some [q (-9); q (-12); 0%Qc].
Proof. eexists. eexists. eexists. split; [vm_compute; reflexivity|]. split; [vm_compute; reflexivity|]. repeat split; vm_compute; reflexivity. Qed.

(** two properties covering whole patches with a common node give this node twice; the node map is
    accepted, and the assembly writes outside of the force matrix *)
Theorem nodal_forces_duplicates_refuted : exists s ps f ES iel, topologyOK s /\ initNodeMap s (boundaryNodes ps) 2 = (true, f) /\
  (1 <= iel <= Z.of_nat (nel s))%Z /\ length ES = 4 /\ assembleF s (initialize f) (Some ES) iel = None.
Proof.
  exists sEx, [Whole [1; 2]%Z; Whole [2; 3]%Z]. eexists. exists [q 1; q 2; q 3; q 4], 2%Z. split; [apply sEx_ok|]. split; [vm_compute; reflexivity|]. split; [cbn; lia|]. split; [reflexivity|]. vm_compute. reflexivity.
Qed.
Print Assumptions nodal_forces_duplicates_refuted.
(** an element vector shorter than the force components of its nodes is read past its end *)
Theorem nodal_forces_short_refuted : exists s ns f ES iel, topologyOK s /\ NoDup ns /\ initNodeMap s ns 2 = (true, f) /\ (1 <= iel <= Z.of_nat (nel s))%Z /\ assembleF s (initialize f) (Some ES) iel = None.
Proof.
  exists sEx, [2; 1]%Z. eexists. exists [q 1; q 2; q 3], 1%Z. split; [apply sEx_ok|]. split; [apply sEx_ok|]. split; [vm_compute; reflexivity|]. split; [cbn; lia|]. vm_compute. reflexivity.
Qed.
Print Assumptions nodal_forces_short_refuted.
(** the assembly after a refused node map writes outside of the force matrix *)
Theorem nodal_forces_illegal_refuted : exists s ns f ES iel, topologyOK s /\ NoDup ns /\ initNodeMap s ns 2 = (false, f) /\ (1 <= iel <= Z.of_nat (nel s))%Z /\ length ES = 4 /\ assembleF s (initialize f) (Some ES) iel = None.
Proof.
  exists sEx, [7; 1]%Z. eexists. exists [q 1; q 2; q 3; q 4], 1%Z. split; [apply sEx_ok|]. split; [repeat constructor; cbn; lia|]. split; [vm_compute; reflexivity|]. split; [cbn; lia|]. split; [reflexivity|]. vm_compute. reflexivity.
Qed.
Print Assumptions nodal_forces_illegal_refuted.

(** ** C68: norms *)
(** the final operation: the absolute value; or the root r with the sign of the value, r|r| = v *)
Theorem final_operation : forall sqroot v, (forall x, (0 <= x)%Qc -> (0 <= sqroot x)%Qc /\ (sqroot x * sqroot x)%Qc = x) ->
  applyOp sqroot ONone v = v /\
  ((0 <= v)%Qc -> applyOp sqroot OAbs v = v /\ (0 <= applyOp sqroot OSqrt v)%Qc /\ (applyOp sqroot OSqrt v * applyOp sqroot OSqrt v)%Qc = v) /\
  ((v < 0)%Qc -> applyOp sqroot OAbs v = (- v)%Qc /\ (applyOp sqroot OSqrt v <= 0)%Qc /\ (applyOp sqroot OSqrt v * applyOp sqroot OSqrt v)%Qc = (- v)%Qc).
Proof.
  intros sqroot v H. split; [reflexivity|]. unfold applyOp, qltb. destruct (Qclt_le_dec v 0) as [L|L]; split; intros G.
  - exfalso. apply (Qclt_not_le _ _ L G).
  - assert (P : (0 <= - v)%Qc) by (clear - L; qclra). destruct (H _ P) as [A B]. split; [reflexivity|]. split; [clear - A; revert A; generalize (sqroot (- v)); intros z A; qclra|]. transitivity (sqroot (- v) * sqroot (- v))%Qc; [ring|exact B].
  - destruct (H _ L). split; [reflexivity|]. split; assumption.
  - exfalso. apply (Qclt_not_le _ _ G L).
Qed.
Print Assumptions final_operation.
(** with or without element norms, for any number and order of integration loops: each global norm is
    the final operation applied once to the sum of all the terms, and each element norm is the final
    operation applied once to the sum of the terms of the element *)
Theorem norms_partial : forall sqroot op sizes nelm evs, emptyLast sizes -> (forall ev, In ev evs -> fst ev < nelm /\ length (snd ev) = list_sum sizes) ->
  exists g en, normsInt sqroot op sizes evs = Some (true, g) /\ normsExt sqroot op sizes nelm evs = Some (true, g, en) /\ map (@length Qc) g = sizes /\
    concat g = map (applyOp sqroot op) (sumVec (list_sum sizes) (map snd evs)) /\ length en = nelm /\
    forall e, e < nelm -> nth e en [] = map (applyOp sqroot op) (sumVec (list_sum sizes) (map snd (filter (fun ev => fst ev =? e) evs))).
Proof. intros sqroot op sizes nelm evs EL. exact (norms_ok sqroot op sizes EL nelm evs). Qed.
Print Assumptions norms_partial.
(** so the order of the integration does not matter for the global norms *)
Theorem norms_order_partial : forall sqroot op sizes nelm evs evs', emptyLast sizes -> (forall ev, In ev evs -> fst ev < nelm /\ length (snd ev) = list_sum sizes) -> Permutation evs evs' ->
  normsInt sqroot op sizes evs = normsInt sqroot op sizes evs' /\ option_map fst (normsExt sqroot op sizes nelm evs) = option_map fst (normsExt sqroot op sizes nelm evs').
Proof.
  intros sqroot op sizes nelm evs evs' EL H P. destruct (norms_ok sqroot op sizes EL nelm evs H) as (g & en & A & B & C & D & _).
  assert (H' : forall ev, In ev evs' -> fst ev < nelm /\ length (snd ev) = list_sum sizes) by (intros ev Hev; apply H, (Permutation_in _ (Permutation_sym P) Hev)).
  destruct (norms_ok sqroot op sizes EL nelm evs' H') as (g' & en' & A' & B' & C' & D' & _). assert (g = g').
  { apply concat_inj; [congruence|]. rewrite D, D'. f_equal. apply sumVec_perm, Permutation_map, P. }
  subst g'. rewrite A, A', B, B'. split; reflexivity.
Qed.
Print Assumptions norms_order_partial.
(** the force resultant of a boundary is the sum of the element forces *)
Theorem resultant : forall n ef, (forall el, In el ef -> length el = n) -> forceResultant n ef = sumVec n ef.
Proof. exact resultant_ok. Qed.
Print Assumptions resultant.

Example norms_ex : normsExt (fun x => x) OAbs [2; 1] 2 [(0, [q (-3); q 1; q 2]); (1, [q 1; q 1; q 1]); (0, [q 1; q 0; q 1])] = Some (true, [[q 1; q 2]; [q 4]], [[q 2; q 1; q 3]; [q 1; q 1; q 1]]).
Proof. vm_compute. reflexivity. Qed.
Example norms_ex_ok : emptyLast [2; 1] /\ emptyLast [2; 1; 0; 0].
Proof. split; intros k k' H L; destruct k as [|[|[|[|k]]]]; cbn in H; try discriminate H; destruct k' as [|[|[|[|k']]]]; try lia; try reflexivity; destruct k'; reflexivity. Qed.
(** an empty norm group between two others: the value that should come first in the next group is lost *)
Theorem norms_empty_group_refuted : exists sizes evs g en, (forall ev, In ev evs -> fst ev < 1 /\ length (snd ev) = list_sum sizes) /\
  normsExt (fun x => x) ONone sizes 1 evs = Some (true, g, en) /\ concat g <> sumVec (list_sum sizes) (map snd evs).
Proof.
  exists [1; 0; 2], [(0, [q 1; q 2; q 3])]. eexists. eexists. split; [intros ev [<-|[]]; cbn; lia|]. split; [vm_compute; reflexivity|]. vm_compute. discriminate.
Qed.
Print Assumptions norms_empty_group_refuted.
Example norms_empty_group_values : normsExt (fun x => x) ONone [1; 0; 2] 1 [(0, [q 1; q 2; q 3])] = Some (true, [[q 1]; []; [q 3; q 0]], [[q 1; q 2; q 3]]).
Proof. vm_compute. reflexivity. Qed.
(** more element values than norms: read past the last group *)
Theorem norms_too_many_refuted : exists sizes el, length el = 1 + list_sum sizes /\ (1 < list_sum sizes)%nat /\ addVals (map (repeat 0%Qc) sizes) 0 0 (el ++ [q 1]) = None.
Proof. exists [1; 1], [q 1; q 2; q 3]. vm_compute. repeat split; auto. Qed.
Print Assumptions norms_too_many_refuted.
