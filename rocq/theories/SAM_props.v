(** C05-C12, C31, C32: property theorems about the equation tables (SAM). *)
From Coq Require Import List Arith ZArith QArith Qcanon Bool Permutation Lia.
From Verif Require Import Base SAM_model SAM_spec SAM_proofs SAM_proofs2 SAM_proofs3 SAM_proofs4.
Import ListNotations.
Local Open Scope Z_scope.

(** A model used for the examples: 3 nodes with 2 DOFs; DOF 3 = 5 + 2*DOF 1 - DOF 5,
    DOF 4 fixed, DOF 2 has status 2; two 2-node elements. *)
Definition q (a : Z) : Qc := Q2Qc (inject_Z a).
Definition ex0 : tables := mkS [1;3;5;7]%nat [1;2;0;0;1;1] [1;3;5]%nat [1;2;2;3] [1;4]%nat [3;1;5] [q 5; q 2; q (-1)] [] 0 0.
Definition ex : tables := match initEqs ex0 with Some (_, s) => s | None => ex0 end.
Example ex_init : initEqs ex0 = Some (true, ex) /\ meqn ex = [1;4;-1;0;2;3] /\ neq ex = 4%nat /\ msc ex = [1;2;-1;-2;1;1].
Proof. vm_compute. auto. Qed.

(** ** C05 *)
Theorem C05_equation_numbers : forall s s', initEqs s = Some (true, s') ->
  length (meqn s') = ndof s /\
  (forall d, (d < ndof s)%nat -> status s d = 0 \/ status s d = 1 \/ status s d = 2) /\
  neq s' = (count 1 (msc s) + count 2 (msc s))%nat /\
  (forall d, (d < ndof s)%nat ->
     (status s d = 1 -> nth d (meqn s') 0 = Z.of_nat (1 + rank 1 (msc s) d)) /\
     (status s d = 2 -> nth d (meqn s') 0 = Z.of_nat (count 1 (msc s) + 1 + rank 2 (msc s) d)) /\
     (status s d = 0 -> (exists i, lastSlave s i d /\ nth d (meqn s') 0 = - Z.of_nat i) \/
        ((forall i, (1 <= i <= nceq s)%nat -> slaveDof s i <> Z.of_nat (S d)) /\ nth d (meqn s') 0 = 0))) /\
  (forall e, 1 <= e <= Z.of_nat (neq s') ->
     exists d, (d < ndof s)%nat /\ nth d (meqn s') 0 = e /\
       forall d', (d' < ndof s)%nat -> nth d' (meqn s') 0 = e -> d' = d).
Proof.
  intros s s' H. pose proof (initEqs_consistent _ _ H) as (_&_&_&U). apply initEqs_spec in H.
  destruct H as (_&_&_&_&_&_&En&L&St&Ne&_&D&_). rewrite En in U.
  repeat match goal with |- _ /\ _ => split end; auto. intros d Hd. destruct (D d Hd) as (A&B&C&_). auto.
Qed.
Print Assumptions C05_equation_numbers.

(** every invalid master or status code is reported: after success the tables are consistent *)
Theorem C05_success_consistent : forall s s', initEqs s = Some (true, s') -> consistent s'.
Proof. exact initEqs_consistent. Qed.
Print Assumptions C05_success_consistent.

(** and valid input is always accepted (the error branch is taken for invalid input only) *)
Theorem C05_valid_accepted : forall s, validInput s -> exists s', initEqs s = Some (true, s').
Proof. exact initEqs_complete. Qed.
Print Assumptions C05_valid_accepted.
Theorem C05_accepted_valid : forall s s', initEqs s = Some (true, s') -> validInput s.
Proof. exact initEqs_valid. Qed.
Print Assumptions C05_accepted_valid.

(** limit: two constraints with the same slave are not rejected, the last one is used *)
Theorem C05_duplicate_slave_refuted : exists s s' i j, initEqs s = Some (true, s') /\ i <> j /\
  (1 <= i <= nceq s)%nat /\ (1 <= j <= nceq s)%nat /\ slaveDof s i = slaveDof s j.
Proof.
  exists (mkS [1;3]%nat [1;0] [1;2]%nat [1] [1;3;5]%nat [2;1;2;1] [q 0; q 1; q 0; q 2] [] 0 0).
  eexists. exists 1%nat, 2%nat. split; [vm_compute; reflexivity|]. repeat split; try (vm_compute; lia).
Qed.
Print Assumptions C05_duplicate_slave_refuted.

(** ** C06 *)
Theorem C06_expand : forall s0 s scale x v, initEqs s0 = Some (true, s) -> length x = neq s ->
  expandVector s scale x = Some v ->
  length v = ndof s /\
  forall d, (d < ndof s)%nat ->
    (0 < nth d (meqn s) 0 -> nth d v 0%Qc = nth (Z.to_nat (nth d (meqn s) 0 - 1)) x 0%Qc) /\
    (nth d (meqn s) 0 = 0 -> nth d v 0%Qc = 0%Qc) /\
    (forall i, nth d (meqn s) 0 = - Z.of_nat i -> (0 < i)%nat ->
       nth d v 0%Qc = (scale * offset s i +
         qs (fun p : Z * Qc => snd p * nth (Z.to_nat (fst p - 1)) v 0) (masterTerms s i))%Qc).
Proof. exact (fun s0 s scale x v H => expand_spec s scale x v (initEqs_consistent s0 s H)). Qed.
Print Assumptions C06_expand.

Theorem C06_restrict_expand : forall s0 s scale x v old, initEqs s0 = Some (true, s) -> length x = neq s ->
  expandVector s scale x = Some v -> getSolVec s old v = x.
Proof. exact (fun s0 s scale x v old H => solve_expand s scale x v old (initEqs_consistent s0 s H)). Qed.
Print Assumptions C06_restrict_expand.
Example C06_case : expandVector ex 1 [q 10; q 20; q 30; q 40] = Some [q 10; q 40; q 5; q 0; q 20; q 30].
Proof. vm_compute. reflexivity. Qed.

(** ** C07 *)
Theorem C07_matrix : forall s K meen r c,
  entry r c (fst (assemSparse s K meen)) =
  qs2 (length meen) (fun i j => Tcoef s (nth i meen 0%Z) r * K i j * Tcoef s (nth j meen 0%Z) c)%Qc.
Proof. exact assemSparse_entry. Qed.
Print Assumptions C07_matrix.
Theorem C07_rhs : forall s K meen r,
  entryV r (snd (assemSparse s K meen)) =
  (- qs2 (length meen) (fun i j => Tcoef s (nth i meen 0%Z) r * K i j * c0 s (nth j meen 0%Z)))%Qc.
Proof. exact assemSparse_rhs. Qed.
Print Assumptions C07_rhs.
(** the two parts together, tied to C06: the residual of the assembled system, tested
    with any y, is the virtual work of the element on the expanded vectors *)
Theorem C07_virtual_work : forall s0 s iel meen K x y, initEqs s0 = Some (true, s) ->
  getElmEqns s iel = Some meen -> length x = neq s -> length y = neq s ->
  (bilin (neq s) y (fst (assemSparse s K meen)) x - linform (neq s) y (snd (assemSparse s K meen)))%Qc =
  qs2 (length meen) (fun i j => expandDof s 0 y (nth i meen 0%Z) * K i j * expandDof s 1 x (nth j meen 0%Z))%Qc.
Proof.
  exact (fun s0 s iel meen K x y H G => assembly_virtual_work s K meen x y (initEqs_consistent s0 s H)
           (getElmEqns_range s iel meen (initEqs_consistent s0 s H) G)).
Qed.
Print Assumptions C07_virtual_work.
Theorem C07_order_independent : forall s els els', Permutation els els' ->
  (forall r c, entry r c (fst (assemAll s els)) = entry r c (fst (assemAll s els'))) /\
  (forall r, entryV r (snd (assemAll s els)) = entryV r (snd (assemAll s els'))).
Proof. exact assemAll_perm. Qed.
Print Assumptions C07_order_independent.
(** element numbers are resolved to the equations of the element's nodes, in order *)
Theorem C07_element_equations : forall s iel, madofOK s -> length (meqn s) = ndof s -> ptrOK s iel ->
  connOK s (nodeList s iel) ->
  getElmEqns s iel = if (1 <=? iel)%nat && (iel <=? nel s)%nat
    then Some (map (fun o => match o with Some d => eqnOf s d | None => 0 end) (elmDofs s (nodeList s iel))) else None.
Proof. exact elmEqns_spec. Qed.
Print Assumptions C07_element_equations.
Example C07_elm_case : ptrOK ex 2 /\ connOK ex (nodeList ex 2) /\ getElmEqns ex 2 = Some [-1;0;2;3].
Proof.
  unfold ptrOK, connOK. change (nodeList ex 2) with [2;3]. change (nnod ex) with 3%nat.
  split; [vm_compute; lia|]. split; [|reflexivity]. intros nd [<-|[<-|[]]]; lia.
Qed.
(** the load-only entry point adds the same right-hand side *)
Theorem C07_rhs_only : forall s0 s K iel meen rhs p, initEqs s0 = Some (true, s) ->
  getElmEqns s iel = Some meen -> length rhs = neq s ->
  nth p (assembleKRHS s K meen rhs) 0%Qc = (nth p rhs 0 + entryV (Z.of_nat (S p)) (snd (assemSparse s K meen)))%Qc.
Proof.
  exact (fun s0 s K iel meen rhs p H G => assembleKRHS_spec s K meen rhs p (initEqs_consistent s0 s H)
           (getElmEqns_range s iel meen (initEqs_consistent s0 s H) G)).
Qed.
Print Assumptions C07_rhs_only.
Example C07_case : getElmEqns ex 1 = Some [1;4;-1;0] /\
  entry 1 1 (fst (assemSparse ex (fun i j => q (Z.of_nat (10*i+j))) [1;4;-1;0])) = q (0 + 2*2 + 2*20 + 4*22).
Proof. vm_compute. auto. Qed.

(** ** C08 *)
Theorem C08_adjoint : forall s0 s rhs S x, initEqs s0 = Some (true, s) -> length rhs = neq s -> length x = neq s ->
  dot x (addToRHS s rhs S) = (dot x rhs + dot (map (expandDof s 0 x) (meqn s)) S)%Qc.
Proof. exact (fun s0 s rhs S x H => addToRHS_adjoint s rhs S x (initEqs_consistent s0 s H)). Qed.
Print Assumptions C08_adjoint.
Theorem C08_element_vector : forall s0 s eS iel rhs, initEqs s0 = Some (true, s) -> length rhs = neq s ->
  (eS = [] /\ assembleElmVec s eS iel rhs = (true, rhs)) \/
  (eS <> [] /\ getElmEqnsN s iel (length eS) = None /\ assembleElmVec s eS iel rhs = (false, rhs)) \/
  (eS <> [] /\ exists meen rhs', getElmEqnsN s iel (length eS) = Some meen /\
     assembleElmVec s eS iel rhs = (true, rhs') /\
     forall p, nth p rhs' 0%Qc = (nth p rhs 0 + qs (fun i => nth i eS 0 * Tcoef s (nth i meen 0%Z) (Z.of_nat (S p))) (seq 0 (length meen)))%Qc).
Proof. exact (fun s0 s eS iel rhs H => assembleElmVec_spec s eS iel rhs (initEqs_consistent s0 s H)). Qed.
Print Assumptions C08_element_vector.
Example C08_case : addToRHS ex [q 0; q 0; q 0; q 0] [q 1; q 2; q 3; q 4; q 5; q 6] = [q 7; q 2; q 6; q 2] /\
  fst (assembleElmVec ex [q 1; q 2; q 3; q 4] 1 [q 0; q 0; q 0; q 0]) = true /\
  fst (assembleElmVec ex [q 1; q 2; q 3] 1 [q 0; q 0; q 0; q 0]) = false.
Proof. vm_compute. auto. Qed.

(** ** C09 *)
Theorem C09_cover : forall s iel meen K r c v, getElmEqns s iel = Some meen ->
  In (r, c, v) (fst (assemSparse s K meen)) -> In (r, c) (dofCouplings s).
Proof. exact couplings_cover. Qed.
Print Assumptions C09_cover.
Theorem C09_symmetric : forall s r c, In (r, c) (dofCouplings s) -> In (c, r) (dofCouplings s).
Proof. exact couplings_sym. Qed.
Print Assumptions C09_symmetric.
Theorem C09_range : forall s0 s r c, initEqs s0 = Some (true, s) -> In (r, c) (dofCouplings s) ->
  1 <= r <= Z.of_nat (neq s) /\ 1 <= c <= Z.of_nat (neq s).
Proof. exact (fun s0 s r c H => couplings_range s r c (initEqs_consistent s0 s H)). Qed.
Print Assumptions C09_range.
(** exactly the pairs of equations coupled by an element, no more *)
Theorem C09_exact : forall s r c, In (r, c) (dofCouplings s) <->
  exists iel meen, getElmEqns s iel = Some meen /\ eqInElm s meen r /\ eqInElm s meen c.
Proof. exact couplings_exact. Qed.
Print Assumptions C09_exact.
Theorem C09_unique_equations : forall s meen r, In r (uniqueEqns s meen) <-> eqInElm s meen r.
Proof. exact uniqueEqns_iff. Qed.
Print Assumptions C09_unique_equations.
Example C09_case : In (2, 4) (dofCouplings ex) /\ ~ In (4, 3) (dofCouplings ex).
Proof. vm_compute. intuition congruence. Qed.

(** ** C10 *)
(** what the code does: only the last constrained element DOF contributes *)
Theorem C10_last_wins : forall s K meen i, (i < length meen)%nat ->
  eSval (reactVec s K meen) i =
    match lastCon meen (seq 0 (length meen)) with
    | Some j => if nth i meen 0 <? 1 then (- (offset s (Z.to_nat (- nth j meen 0%Z)) * K i j))%Qc else 0%Qc
    | None => 0%Qc end.
Proof. exact reactVec_last. Qed.
Print Assumptions C10_last_wins.
Theorem C10_reaction_sum_partial : forall s K meen i, (i < length meen)%nat ->
  (forall j k, (j < k < length meen)%nat -> nth j meen 0 < 0 -> nth k meen 0 < 0 ->
     (offset s (Z.to_nat (- nth j meen 0%Z)) * K i j = 0)%Qc) ->
  eSval (reactVec s K meen) i = reactSum s K meen i.
Proof. exact reactVec_sum_partial. Qed.
Print Assumptions C10_reaction_sum_partial.
(** two prescribed DOFs (3 = 7 and 4 = 1) in the element: the first one is lost *)
Definition ex2 : tables := mkS [1;3;5]%nat [1;1;-1;-2] [1;3]%nat [1;2] [1;2;3]%nat [3;4] [q 7; q 1] [1;2;-1;-2] 2 2.
Example ex2_reachable : initEqs (mkS [1;3;5]%nat [1;1;0;0] [1;3]%nat [1;2] [1;2;3]%nat [3;4] [q 7; q 1] [] 0 0) = Some (true, ex2).
Proof. vm_compute. reflexivity. Qed.
Theorem C10_reaction_sum_refuted : exists s0 s iel meen K i, initEqs s0 = Some (true, s) /\
  getElmEqns s iel = Some meen /\ (i < length meen)%nat /\
  eSval (reactVec s K meen) i <> reactSum s K meen i.
Proof.
  eexists. exists ex2, 1%nat, [1;2;-1;-2], (fun _ _ => q 1), 2%nat.
  split; [exact ex2_reachable|]. split; [reflexivity|]. split; [simpl; lia|]. vm_compute. intros H. discriminate H.
Qed.
Print Assumptions C10_reaction_sum_refuted.
(** the element reactions reach exactly the reaction slots of the suppressed DOFs *)
Theorem C10_reactions_placed : forall s rf eS nodes p, (p < length rf)%nat ->
  length (assembleReactions s rf eS nodes) = length rf /\
  nth p (assembleReactions s rf eS nodes) 0%Qc =
  (nth p rf 0 + qs (fun z : option nat * Qc => if (reactPos s (fst z) =? Z.of_nat (S p))%Z then snd z else 0%Qc)
                  (combine (flat_map (dofsOf s) nodes) eS))%Qc.
Proof. exact assembleReactions_val. Qed.
Print Assumptions C10_reactions_placed.
Example C10_case : eSval (reactVec ex (fun i j => q (Z.of_nat (10*i+j))) [1;4;-1;0]) 3 = q (-160) /\
  assembleReactions ex [q 0; q 0] [q 1; q 2; q 3; q 4] [1;2] = [q 3; q 4].
Proof. vm_compute. auto. Qed.

(** ** C11 *)
Theorem C11_dof_value_partial : forall s v n l idof, madofOK s -> length v = ndof s ->
  isDof s n l idof -> idof < Z.of_nat (ndof s) ->
  getDofVal s v n l = nth (Z.to_nat (idof-1)) v 0%Qc.
Proof.
  intros s v n l idof M L D H. rewrite (getDofVal_spec s v n l idof M L D).
  apply Z.ltb_lt in H. rewrite H. reflexivity.
Qed.
Print Assumptions C11_dof_value_partial.
(** for every model, the last DOF always reads as zero *)
Theorem C11_last_dof_refuted : forall s v n l, madofOK s -> length v = ndof s ->
  isDof s n l (Z.of_nat (ndof s)) -> getDofVal s v n l = 0%Qc.
Proof. intros s v n l M L D. rewrite (getDofVal_spec s v n l _ M L D), Z.ltb_irrefl. reflexivity. Qed.
Print Assumptions C11_last_dof_refuted.
Theorem C11_outside : forall s v n l, (n < 1 \/ Z.of_nat (nnod s) < n \/ l < 1 \/
    (1 <= n <= Z.of_nat (nnod s) /\ 1 <= l /\ Z.of_nat (nth (Z.to_nat n) (madof s) 0%nat) <= Z.of_nat (nth (Z.to_nat (n-1)) (madof s) 0%nat) + l - 1)) ->
  getDofVal s v n l = 0%Qc.
Proof. exact getDofVal_outside. Qed.
Print Assumptions C11_outside.
Example C11_case : madofOK ex /\ isDof ex 3 1 5 /\ isDof ex 3 2 6 /\
  getDofVal ex [q 1; q 2; q 3; q 4; q 5; q 6] 3 1 = q 5 /\ getDofVal ex [q 1; q 2; q 3; q 4; q 5; q 6] 3 2 = q 0.
Proof.
  unfold madofOK, isDof. repeat match goal with |- _ /\ _ => split end; try (vm_compute; congruence); try (vm_compute; reflexivity).
  intros n Hn. change (nnod ex) with 3%nat in Hn. do 3 (destruct n as [|n]; [vm_compute; lia|]). lia.
Qed.

(** ** C12 *)
Theorem C12_node_of_dof : forall s idof n l, madofOK s -> 1 <= idof <= Z.of_nat (ndof s) ->
  (getNodeAndLocalDof s idof false = (n, l) <-> isDof s n l idof).
Proof. exact node_of_dof. Qed.
Print Assumptions C12_node_of_dof.
Theorem C12_out_of_range : forall s idof, madofOK s -> Z.of_nat (ndof s) < idof -> getNodeAndLocalDof s idof false = (0, 0).
Proof. exact node_of_dof_high. Qed.
Print Assumptions C12_out_of_range.
(** the equation variant reports the DOF before the one that has the equation (0-based
    position used as a 1-based DOF number) *)
Theorem C12_equation_shifted : forall s0 s e d, initEqs s0 = Some (true, s) -> 1 <= e <= Z.of_nat (neq s) ->
  (d < ndof s)%nat -> nth d (meqn s) 0 = e ->
  getNodeAndLocalDof s e true = getNodeAndLocalDof s (Z.of_nat d) false.
Proof. exact (fun s0 s e d H => node_of_eqn s e d (initEqs_consistent s0 s H)). Qed.
Print Assumptions C12_equation_shifted.
Theorem C12_equation_refuted : exists s0 s e n l, initEqs s0 = Some (true, s) /\ 1 <= e <= Z.of_nat (neq s) /\
  getNodeAndLocalDof s e true = (n, l) /\ getEquation s n l <> e.
Proof. exists ex0, ex, 2, 2, 2. split; [vm_compute; reflexivity|]. vm_compute. intuition congruence. Qed.
Print Assumptions C12_equation_refuted.
Theorem C12_equation_of_dof : forall s n l idof, isDof s n l idof -> getEquation s n l = Z.max 0 (eqnOf s idof).
Proof. exact getEquation_spec. Qed.
Print Assumptions C12_equation_of_dof.
Example C12_case : getNodeAndLocalDof ex 4 false = (2, 2) /\ getNodeAndLocalDof ex 2 true = (2, 2) /\ eqn ex 5 = 2 /\ getEquation ex 3 1 = 2.
Proof. vm_compute. auto. Qed.

(** ** C31: diagonal system matrices *)
Theorem C31_diagonal_partial : forall s0 s iel K meen r, initEqs s0 = Some (true, s) ->
  getElmEqns s iel = Some meen -> 1 <= r ->
  (forall i j, (i < length meen)%nat -> (j < length meen)%nat -> nth i meen 0 = nth j meen 0 -> 0 < nth i meen 0 -> i = j) ->
  entryV r (diagUpd s K meen) = entry r r (fst (assemSparse s K meen)).
Proof.
  exact (fun s0 s iel K meen r H G => diag_is_diagonal_partial s K meen r (initEqs_consistent s0 s H)
           (getElmEqns_range s iel meen (initEqs_consistent s0 s H) G)).
Qed.
Print Assumptions C31_diagonal_partial.
(** an element that uses the same node twice *)
Theorem C31_diagonal_refuted : exists s0 s iel K meen r, initEqs s0 = Some (true, s) /\
  getElmEqns s iel = Some meen /\ 1 <= r /\
  entryV r (diagUpd s K meen) <> entry r r (fst (assemSparse s K meen)).
Proof.
  exists (mkS [1;2;3]%nat [1;1] [1;4]%nat [1;2;1] [1]%nat [] [] [] 0 0). eexists. exists 1%nat, (fun _ _ => q 1), [1;2;1], 1.
  split; [vm_compute; reflexivity|]. split; [vm_compute; reflexivity|]. split; [lia|]. vm_compute. intros H. discriminate H.
Qed.
Print Assumptions C31_diagonal_refuted.
Example C31_case : entryV 1 (diagUpd ex (fun i j => q (Z.of_nat (10*i+j))) [1;4;-1;0]) = q (0 + 2*2 + 2*20 + 4*22).
Proof. vm_compute. reflexivity. Qed.

(** ** C32: nodal vectors assembled into matrix columns *)
Theorem C32_column_partial : forall s V mnen col l r i, colUpd s V col 0 mnen = Some l ->
  (forall m p, In m mnen -> m < 0 -> In p (masterTerms s (Z.to_nat (- m))) -> snd p = 1%Qc) ->
  (i < length mnen)%nat ->
  entry r (col + Z.of_nat i) l = (colVal V i * Tcoef s (nth i mnen 0%Z) r)%Qc.
Proof. exact (fun s V mnen col l r i => colUpd_unit_partial s V mnen 0 col l r i). Qed.
Print Assumptions C32_column_partial.
Theorem C32_column_refuted : exists s0 s V mnen col l r i, initEqs s0 = Some (true, s) /\
  colUpd s V col 0 mnen = Some l /\ mnen = nodeEqs s 2 /\ (i < length mnen)%nat /\
  entry r (col + Z.of_nat i) l <> (colVal V i * Tcoef s (nth i mnen 0%Z) r)%Qc.
Proof.
  exists ex0, ex, [q 3; q 4], [-1; 0], 1. eexists. exists 1, 0%nat.
  split; [vm_compute; reflexivity|]. split; [vm_compute; reflexivity|]. split; [vm_compute; reflexivity|].
  split; [simpl; lia|]. vm_compute. intros H. discriminate H.
Qed.
Print Assumptions C32_column_refuted.
Example C32_case : colUpd ex [q 3; q 4] 1 0 (nodeEqs ex 3) = Some [(2, 1, q 3); (3, 2, q 4)].
Proof. vm_compute. reflexivity. Qed.
