(** Properties C30 (boundary condition codes), C35 (constraint equations of a patch) and
    C40 (couplings).  The reader needs [ASMbc_spec] (what it means that a DOF is fixed, a
    slave, or that a field is admissible). *)
From Coq Require Import List Sorted Arith ZArith QArith Qcanon Bool Lia.
From Verif Require Import Base MPC_model MPC_spec ASMbc_model ASMbc_spec ASMbc_proofs ASMbc_proofs2 ASMbc_proofs3 ASMbc_proofs4 ASMbc_proofs5.
Import ListNotations.
Local Open Scope Z_scope.

(** a patch with 4 nodes and 3 fields, without any conditions *)
Definition exP : patch := mkP 3 [11; 12; 13; 14] 4 [] [].
Example exP_inv : inv exP.
Proof. split; [split; [constructor|constructor]|]. split; [intros m t []|cbn; lia]. Qed.

(** ** C30 *)

(** the digits of a direction code, in increasing order and each once *)
Theorem C30_digits : forall num, 1 <= num -> StronglySorted Z.lt (getDigits num) /\ forall d, In d (getDigits num) <-> IsDigit num d.
Proof. intros num H. split; [apply getDigits_sorted|]. intros d. apply getDigits_in. lia. Qed.
Print Assumptions C30_digits.
Example C30_digits_ex : getDigits 3213 = [1; 2; 3] /\ IsDigit 3213 1 /\ ~ IsDigit 3213 4.
Proof.
  split; [reflexivity|]. split; [exists 1%nat; cbn; lia|]. intros H. apply getDigits_in in H; [|lia]. change (getDigits 3213) with [1; 2; 3] in H. cbn in H. intuition lia.
Qed.

(** fixing a node: exactly the requested DOFs (up to 6 and within the number of fields)
    become fixed, everything else stays; the invalid ones are returned *)
Theorem C30_fix : forall p i dirs p' r g, fixNode p i dirs = (p', r) -> nodeAt p i g -> 1 <= g -> 1 <= dirs -> 0 <= pnf p ->
  sameButBC p p' /\
  (forall n d, Fixed p' n d <-> Fixed p n d \/ (n = g /\ IsDigit dirs d /\ 1 <= d <= 6 /\ d <= pnf p)) /\
  (r = 0 <-> forall d, IsDigit dirs d -> d <= pnf p) /\
  (forall d, IsDigit r d <-> IsDigit dirs d /\ pnf p < d).
Proof. exact fixNode_spec. Qed.
Print Assumptions C30_fix.
Theorem C30_fix_invalid : forall p i dirs, (forall g, nodeAt p i g -> g < 1) \/ dirs < 1 -> fixNode p i dirs = (p, dirs).
Proof. exact fixNode_invalid. Qed.
Print Assumptions C30_fix_invalid.
Example C30_fix_ex : exists p', fixNode exP 2 314 = (p', 4) /\ nodeAt exP 2 12 /\ Fixed p' 12 3 /\ ~ Fixed p' 12 2.
Proof.
  eexists. split; [reflexivity|]. split; [split; [lia|reflexivity]|]. split.
  - eexists. split; [left; reflexivity|]. split; [reflexivity|]. unfold fixedIn. cbn. intuition.
  - intros (b & [<-|[]] & _ & H). unfold fixedIn in H. vm_compute in H. intuition congruence.
Qed.

(** any sequence of fixations fixes exactly the union of what the calls ask for, so that
    neither order nor repetition matters *)
Theorem C30_fix_history : forall fs p q, inv p -> run p (map (fun x => OFix (fst x) (snd x)) fs) = Some q ->
  pEQ q = pEQ p /\
  forall n d, Fixed q n d <-> Fixed p n d \/ exists i dirs, In (i, dirs) fs /\ nodeAt p i n /\ 1 <= n /\ 1 <= dirs /\ IsDigit dirs d /\ 1 <= d <= 6 /\ d <= pnf p.
Proof. exact run_fixes. Qed.
Print Assumptions C30_fix_history.
(** homogeneous conditions on a list of nodes, and on all nodes of the patch *)
Theorem C30_nodes : forall p nodes dof ovr, inv p ->
  exists q, constrainNodes p nodes dof 0 ovr = Some q /\ pEQ q = pEQ p /\
  forall n d, Fixed q n d <-> Fixed p n d \/
    (1 <= dof /\ IsDigit dof d /\ 1 <= d <= 6 /\ d <= pnf p /\ exists i, In (Z.of_nat i) nodes /\ (i <= pnnod p)%nat /\ nodeAt p i n /\ 1 <= n).
Proof. exact constrainNodes_fixed. Qed.
Print Assumptions C30_nodes.
Theorem C30_patch : forall p dof, inv p ->
  exists q, constrainPatch p dof 0 = Some q /\ pEQ q = pEQ p /\
  forall n d, Fixed q n d <-> Fixed p n d \/
    (1 <= dof /\ IsDigit dof d /\ 1 <= d <= 6 /\ d <= pnf p /\ exists i, (1 <= i <= pnnod p)%nat /\ nodeAt p i n /\ 1 <= n).
Proof. exact constrainPatch_fixed. Qed.
Print Assumptions C30_patch.
Example C30_nodes_ex : exists q, constrainNodes exP [3; 9; 1; 3] 12 0 false = Some q /\ map bnode (pBC q) = [13; 11].
Proof. eexists. split; vm_compute; reflexivity. Qed.

(** asking for a single DOF *)
Theorem C30_isFixed : forall p n d all, 0 <= d <= 9 -> (isFixed p n d all = true <-> Fixed p n d).
Proof. exact isFixed_single. Qed.
Print Assumptions C30_isFixed.
(** asking for several DOFs at once, "all of them": only the leading digits are checked
    (those k-digit prefixes of the code not exceeding the number of fields), so a node
    fixed in direction 1 only is reported fixed in directions 1 and 2 *)
Theorem C30_isFixed_all_refuted : exists p n, inv p /\ isFixed p n 12 true = true /\ IsDigit 12 2 /\ ~ Fixed p n 2.
Proof.
  exists (fst (fixNode exP 1 1)), 11. split; [|split; [reflexivity|split; [exists 0%nat; cbn; lia|]]].
  - destruct (apply_inv exP (OFix 1 1) exP_inv) as (q & E & I & _). cbn [apply] in E. injection E as <-. exact I.
  - intros (b & [<-|[]] & _ & H). unfold fixedIn in H. vm_compute in H. intuition congruence.
Qed.
Print Assumptions C30_isFixed_all_refuted.
Theorem C30_isFixed_all_partial : forall p n num, 10 <= num ->
  (isFixed p n num true = true <-> pBC p <> [] /\ forall k, 10 ^ Z.of_nat k <= num -> num / 10 ^ Z.of_nat k <= pnf p -> Fixed p n ((num / 10 ^ Z.of_nat k) mod 10)).
Proof. exact isFixed_all_spec. Qed.
Print Assumptions C30_isFixed_all_partial.
(** what remains true: nodes with all the DOFs fixed are found *)
Theorem C30_isFixed_all_complete : forall p n num, 1 <= num -> (forall d, IsDigit num d -> Fixed p n d) -> isFixed p n num true = true.
Proof.
  intros p n num H A. assert (B : IsDigit num (num mod 10)) by (apply isDigit_step; [lia|left; reflexivity]).
  destruct (Z_lt_ge_dec num 10) as [L|L].
  - apply isFixed_single; [lia|]. apply A. rewrite Z.mod_small in B by lia. exact B.
  - apply isFixed_all_spec; [lia|]. split; [destruct (A _ B) as (b & I & _); intros Q; rewrite Q in I; destruct I|]. intros k K _. apply A. exists k. auto.
Qed.
Print Assumptions C30_isFixed_all_complete.
(** "any of them": only the first digit (from the right) in 1..6 is checked *)
Theorem C30_isFixed_any_refuted : exists p n, inv p /\ isFixed p n 12 false = false /\ IsDigit 12 1 /\ Fixed p n 1.
Proof.
  exists (fst (fixNode exP 1 1)), 11. split; [|split; [reflexivity|split; [exists 1%nat; cbn; lia|]]].
  - destruct (apply_inv exP (OFix 1 1) exP_inv) as (q & E & I & _). cbn [apply] in E. injection E as <-. exact I.
  - eexists. split; [left; reflexivity|]. split; [reflexivity|]. left. cbn. auto.
Qed.
Print Assumptions C30_isFixed_any_refuted.
Theorem C30_isFixed_any_partial : forall p n num, 0 <= num -> isFixed p n num false = true -> exists d, IsDigit num d /\ Fixed p n d.
Proof. exact isFixed_any_sound. Qed.
Print Assumptions C30_isFixed_any_partial.

Theorem C30_allDofs : forall p dirs, 1 <= dirs -> 0 <= pnf p ->
  (allDofs p dirs = true <-> forall d, IsDigit dirs d <-> 1 <= d <= pnf p).
Proof. exact allDofs_spec. Qed.
Print Assumptions C30_allDofs.
Example C30_allDofs_ex : allDofs exP 3121 = true /\ allDofs exP 1230 = false.
Proof. split; reflexivity. Qed.

(** ** C35 *)

(** a two-point constraint on a DOF without any condition adds the equation slave = master *)
Theorem C35_add2PC : forall p s d m code q stat, wf p -> 1 <= d <= pnf p -> d < 10 -> s <> m -> Fresh p s d -> add2PC p s d m code = Some (q, stat) ->
  stat = true /\ wf q /\ forall u, admissible u q <-> admissible u p /\ u (s, d) = u (m, d).
Proof. exact add2PC_adm. Qed.
Print Assumptions C35_add2PC.
Theorem C35_add3PC : forall p s d m1 m2 code q stat, wf p -> 1 <= d <= pnf p -> d < 10 -> m1 <> m2 -> m1 <> s -> m2 <> s -> Fresh p s d ->
  add3PC p s d m1 m2 code = Some (q, stat) ->
  stat = true /\ wf q /\ forall u, admissible u q <-> admissible u p /\ u (s, d) = (u (m1, d) + u (m2, d))%Qc.
Proof. exact add3PC_adm. Qed.
Print Assumptions C35_add3PC.
(** fixations win: a constraint on a fixed DOF is silently ignored *)
Theorem C35_add2PC_fixed : forall p s d m code, wf p -> 1 <= d <= pnf p -> d < 10 -> Fixed p s d -> add2PC p s d m code = Some (p, true).
Proof.
  intros p s d m code W R T F. destruct (Z.eq_dec s m) as [E|E]; [apply add2PC_noop; auto|].
  destruct (add2PC_spec p s d m code W R T E) as (q & st & H & _ & _ & [(_ & -> & ->)|[((N & _) & _)|(N & _)]]); [exact H|contradiction|contradiction].
Qed.
Print Assumptions C35_add2PC_fixed.
Example C35_add2PC_ex : exists q, add2PC exP 11 2 13 7 = Some (q, true) /\ Fresh exP 11 2 /\ DefinedBy q 11 2 (mkMPC (mkD 11 2 0 None) [mkD 13 2 1 None]) (Some 7).
Proof.
  eexists. split; [vm_compute; reflexivity|]. split; [|split; [|reflexivity]].
  - split; [intros (b & [] & _)|intros []].
  - left. reflexivity.
Qed.
(** adding a constraint to a DOF that already has one reports failure but changes the
    existing equation: making the same call twice gives slave = 2*master *)
Theorem C35_add2PC_twice_refuted : forall p s d m code q stat q' stat', wf p -> 1 <= d <= pnf p -> d < 10 -> s <> m -> Fresh p s d ->
  add2PC p s d m code = Some (q, stat) -> add2PC q s d m code = Some (q', stat') ->
  stat' = false /\ forall u, admissible u q' -> u (s, d) = (u (m, d) + u (m, d))%Qc.
Proof.
  intros p s d m code q stat q' stat' W R T N F E E'.
  destruct (add2PC_spec p s d m code W R T N) as (q0 & st & H & Wq & S & C). rewrite E in H. injection H as <- <-.
  destruct C as [(C & _)|[(_ & _ & C)|(_ & C & _)]]; [destruct F; contradiction| |destruct F; contradiction].
  assert (I : In (mkMPC (mkD s d 0 None) [mkD m d 1 None], codeOpt code) (pEQ q)) by (apply C; right; auto).
  assert (R' : 1 <= d <= pnf q) by (destruct S as (-> & _); exact R).
  destruct (add2PC_spec q s d m code Wq R' T N) as (q1 & st' & H & Wq' & S' & C'). rewrite E' in H. injection H as <- <-.
  assert (SL : Slave q s d) by (apply slave_in; eexists; split; [exact I|reflexivity]).
  destruct C' as [(C' & _)|[((_ & C') & _)|(_ & _ & -> & C')]]; [exfalso; apply (fixed_same _ _ s d S) in C'; destruct F; contradiction|contradiction|].
  split; [reflexivity|]. intros u (_ & A). unfold eqns in A. rewrite satisfies_in in A.
  assert (J : In (addM m d 1 (mkMPC (mkD s d 0 None) [mkD m d 1 None]), codeOpt code) (pEQ q')) by (apply C'; right; eexists; split; [exact I|split; reflexivity]).
  apply A in J. unfold holds in J. rewrite addM_rhs, addM_slave in J. rewrite cut_one in J.
  unfold rhs, dkey, qs in J. cbn [mslave mmast fold_right dcoef dnode dldof] in J. rewrite J. ring.
Qed.
Print Assumptions C35_add2PC_twice_refuted.

(** periodicity of two nodes, the first without conditions *)
Theorem C35_periodicity : forall p mi si d gm gs q stat, wf p -> nodeAt p mi gm -> nodeAt p si gs -> 1 <= gm -> 1 <= gs -> gm <> gs ->
  1 <= d <= pnf p -> d < 10 -> Fresh p gm d -> addPeriodicity p mi si d = Some (q, stat) ->
  stat = true /\ wf q /\ forall u, admissible u q <-> admissible u p /\ u (gm, d) = u (gs, d).
Proof. exact addPeriodicity_fresh. Qed.
Print Assumptions C35_periodicity.
(** in a row of periodic nodes (the corners of a doubly periodic patch) the second call
    reports success, but forces the value of the third node to zero *)
Theorem C35_periodicity_chain_refuted : exists p1 p2, inv exP /\
  addPeriodicity exP 1 2 1 = Some (p1, true) /\ addPeriodicity p1 1 3 1 = Some (p2, true) /\
  (forall u, admissible u p2 -> u (12, 1) = 0%Qc) /\
  (exists u, admissible u p1 /\ u (11, 1) = u (13, 1) /\ ~ admissible u p2).
Proof.
  eexists _, _. split; [exact exP_inv|]. split; [vm_compute; reflexivity|]. split; [vm_compute; reflexivity|].
  assert (Z1 : forall u : field, admissible u (mkP 3 [11; 12; 13; 14] 4 []
     [(mkMPC (mkD 11 1 0 None) [mkD 12 1 1 None; mkD 13 1 1 None], None); (mkMPC (mkD 13 1 0 None) [mkD 11 1 1 None], None)]) -> u (12, 1) = 0%Qc).
  { intros u (_ & A). unfold eqns, satisfies in A. cbn [pEQ map fst] in A. inversion A as [|? ? A1 A2]; subst. inversion A2 as [|? ? A3 _]; subst.
    unfold holds, rhs, dkey, qs in A1, A3. cbn [mslave mmast fold_right dcoef dnode dldof] in A1, A3.
    revert A1 A3. generalize (u (11, 1)) (u (12, 1)) (u (13, 1)). intros a b c A1 A3.
    assert (Q : a = (b + c)%Qc) by (rewrite A1; ring). assert (Q3 : c = a) by (rewrite A3; ring). rewrite Q3 in Q.
    replace b with (b + a - a)%Qc by ring. rewrite <- Q. ring. }
  split.
  - intros u A. apply Z1. exact A.
  - exists (fun _ => 1%Qc). split; [|split; [reflexivity|]].
    + split; [intros n d (b & [] & _)|]. constructor; [|constructor]. unfold holds, rhs, qs. cbn. apply Qc_is_canon. reflexivity.
    + intros A. apply Z1 in A. discriminate A.
Qed.
Print Assumptions C35_periodicity_chain_refuted.

(** prescribing values: equations are added for exactly the requested DOFs that are valid
    and have no condition yet; the returned digits are those invalid or already slaves *)
Theorem C35_prescribe : forall p i g dirs code, wf p -> nodeAt p i g -> 1 <= g -> 1 <= dirs -> 0 <= pnf p -> code <> 0 -> ~ IsDigit dirs 0 ->
  exists q r, prescribe p i dirs code false = Some (q, r) /\ wf q /\ sameButEQ p q /\
  (forall e c, In (e, c) (pEQ q) <-> In (e, c) (pEQ p) \/ (exists d, IsDigit dirs d /\ d <= pnf p /\ Fresh p g d /\ e = mkMPC (mkD g d 1 None) [] /\ c = codeOpt code)) /\
  (forall d, IsDigit r d <-> IsDigit dirs d /\ (pnf p < d \/ (Slave p g d /\ ~ Fixed p g d))).
Proof. exact prescribe_spec. Qed.
Print Assumptions C35_prescribe.
Example C35_prescribe_ex : exists q q', prescribe exP 2 15 8 false = Some (q, 5) /\ prescribe q 2 12 9 false = Some (q', 1) /\
  map snd (pEQ q') = [Some 8; Some 9].
Proof. do 2 eexists. split; [vm_compute; reflexivity|]. split; vm_compute; reflexivity. Qed.
(** ... although documented, DOFs that are already fixed are not returned *)
Theorem C35_prescribe_fixed_refuted : exists p q r, inv p /\ Fixed p 11 1 /\ prescribe p 1 1 5 false = Some (q, r) /\ r = 0 /\ q = p.
Proof.
  exists (fst (fixNode exP 1 1)). eexists _, _. split; [|split; [|split; [vm_compute; reflexivity|split; reflexivity]]].
  - destruct (apply_inv exP (OFix 1 1) exP_inv) as (q & E & I & _). cbn [apply] in E. injection E as <-. exact I.
  - eexists. split; [left; reflexivity|]. split; [reflexivity|]. left. cbn. auto.
Qed.
Print Assumptions C35_prescribe_fixed_refuted.
(** ... and a zero digit creates an equation for the non-existing local DOF 0 *)
Theorem C35_prescribe_zero_refuted : exists q, prescribe exP 1 102 5 false = Some (q, 0) /\ Slave q 11 0.
Proof. eexists. split; [vm_compute; reflexivity|]. cbn. auto. Qed.
Print Assumptions C35_prescribe_zero_refuted.

(** overriding: the fixation of the DOF is removed and the equation added ... *)
Theorem C35_override : forall p m code, wf p -> 0 <= dldof (mslave m) <= 9 -> ~ Slave p (dnode (mslave m)) (dldof (mslave m)) ->
  exists q, addMPC p m code true = Some (q, true, true) /\ wf q /\
      (forall k e, Fixed q k e <-> Fixed p k e /\ ~ (k = dnode (mslave m) /\ e = dldof (mslave m))) /\
      (forall x, In x (pEQ q) <-> x = (m, codeOpt code) \/ In x (pEQ p)) /\ pnf q = pnf p /\ pMLGN q = pMLGN p /\ pnnod q = pnnod p.
Proof. intros p m code W R. exact (proj2 (addMPC_override p m code W R)). Qed.
Print Assumptions C35_override.
Example C35_override_ex : exists q, addMPC (fst (fixNode exP 1 12)) (newMPC 11 1 1) 5 true = Some (q, true, true) /\ isFixed q 11 1 false = false /\ isFixed q 11 2 false = true.
Proof. eexists. split; [vm_compute; reflexivity|]. split; reflexivity. Qed.
(** ... but overriding a value already prescribed for the DOF always ends in undefined
    behaviour (the erased iterator is dereferenced), whatever the patch *)
Theorem C35_override_prescribed_refuted : forall p m code, wf p -> 0 <= dldof (mslave m) <= 9 ->
  Slave p (dnode (mslave m)) (dldof (mslave m)) ->
  ((exists e c, In (e, c) (pEQ p) /\ dkey (mslave e) = (dnode (mslave m), dldof (mslave m)) /\ mmast e = []) <-> addMPC p m code true = None).
Proof. intros p m code W R. exact (proj1 (addMPC_override p m code W R)). Qed.
Print Assumptions C35_override_prescribed_refuted.
Example C35_override_prescribed_ex : exists q, prescribe exP 1 1 5 false = Some (q, 0) /\ prescribe q 1 1 6 true = None.
Proof. eexists. split; vm_compute; reflexivity. Qed.

(** any history of edits: always defined, at most one fixation record per node and one
    equation per DOF, the equations in order, and no equation refers to its own slave *)
Theorem C35_history : forall os p, inv p -> exists q, run p os = Some q /\ inv q /\ pMLGN q = pMLGN p /\ pnf q = pnf p.
Proof. exact run_inv. Qed.
Print Assumptions C35_history.
Example C35_history_ex : exists q, run exP [O3PC 11 1 12 13 0; OFix 2 13; OPrescribe 3 2 4; O2PC 12 1 11 0; O2PC 13 3 14 9] = Some q /\ length (pEQ q) = 3%nat.
Proof. eexists. split; vm_compute; reflexivity. Qed.
(** a DOF is not both fixed and a slave, if the fixations come first *)
Theorem C35_exclusive_partial : forall fs os p q, inv p -> pEQ p = [] -> Forall nonFixing os ->
  run p (map (fun x => OFix (fst x) (snd x)) fs ++ os) = Some q -> exclusive q.
Proof. exact run_fixes_exclusive. Qed.
Print Assumptions C35_exclusive_partial.
(** ... but fixing a DOF that already is a slave leaves it both *)
Theorem C35_exclusive_refuted : exists q, run exP [OPrescribe 1 1 5; OFix 1 1] = Some q /\ Fixed q 11 1 /\ Slave q 11 1.
Proof.
  eexists. split; [vm_compute; reflexivity|]. split; [|cbn; auto]. eexists. split; [left; reflexivity|]. split; [reflexivity|]. left. cbn. auto.
Qed.
Print Assumptions C35_exclusive_refuted.

(** ** C40 *)

(** a rigid coupling: the free slave DOFs follow the rigid body motion of the master node
    (offsets of magnitude up to 1.0e-8 are taken as zero); all other conditions stay *)
Theorem C40_rigid : forall p s g dx dy dz, wf p -> 0 <= pnf p <= 9 ->
  exists q, addRigidMPC p s g dx dy dz = Some q /\ wf q /\ sameButEQ p q /\
  forall u, admissible u q <-> admissible u p /\
    forall d, 1 <= d <= pnf p -> ~ Fixed p s d -> ~ Slave p s d -> u (s, d) = (u (g, d) + rotPart u g (cut8 dx) (cut8 dy) (cut8 dz) d)%Qc.
Proof. exact rigid_spec. Qed.
Print Assumptions C40_rigid.
Example C40_rigid_ex : exists q, addRigidMPC (fst (fixNode exP 2 2)) 12 99 1 0 (1 + 1) = Some q /\ map (fun e => (dldof (mslave (fst e)), map dldof (mmast (fst e)))) (pEQ q) = [(1, [1; 5]); (3, [3; 5])].
Proof. eexists. split; vm_compute; reflexivity. Qed.
(** a weighted coupling of a node to others *)
Theorem C40_nodal : forall p si s ms ws gs, wf p -> 0 <= pnf p <= 9 -> nodeAt p si s -> length ms = length ws -> Forall2 (nodeAt p) ms gs ->
  exists q, addNodalCouplings p si ms ws = Some q /\ wf q /\ sameButEQ p q /\
  forall u, admissible u q <-> admissible u p /\
    forall d, 1 <= d <= pnf p -> ~ Fixed p s d -> ~ Slave p s d -> u (s, d) = qs (fun gw => cut8 (snd gw) * u (fst gw, d))%Qc (combine gs ws).
Proof. exact nodal_spec. Qed.
Print Assumptions C40_nodal.
Example C40_nodal_ex : exists q, addNodalCouplings exP 1 [2; 4]%nat [Q2Qc (1#2); Q2Qc (1#2)] = Some q /\ Forall2 (nodeAt exP) [2; 4]%nat [12; 14] /\ length (pEQ q) = 3%nat.
Proof. eexists. split; [vm_compute; reflexivity|]. split; [|reflexivity]. repeat constructor. Qed.
