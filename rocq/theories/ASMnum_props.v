(** Properties C20 (renumbering), C41 (connecting patches) and C42 (periodic patches).
    The reader needs [ASMnum_spec]. *)
From Coq Require Import List Sorted Arith ZArith QArith Qcanon Bool Lia.
From Verif Require Import Base MPC_model MPC_spec ASMbc_model ASMbc_spec ASMnum_model ASMnum_spec ASMnum_proofs ASMnum_proofs2 ASMnum_proofs3 ASMnum_proofs4 ASMnum_proofs5 ASMnum_proofs6 ASMnum_proofs7.
Import ListNotations.
Local Open Scope Z_scope.

(** ** C20: renumbering *)
Definition fixX (n : Z) : bc := mkBC n false true true true true true.
Definition tie (s m : Z) : mpc := mkMPC (mkD s 1 0 None) [mkD m 1 1 None].
(** two patches that share the node 20 *)
Definition exA : npatch := mkN (mkP 1 [30; 20; 7] 3 [fixX 20] [(tie 7 30, None)]) [] [].
Definition exB : npatch := mkN (mkP 1 [12; 20] 2 [] [(tie 12 20, Some 3)]) [] [].

(** first come first served: numbers become 1..N in order of first appearance, nodes share
    a number after iff they did before, only the numbers are changed, the number of distinct
    nodes and of changed entries are returned *)
Theorem C20_first_come : forall ps ps' c N m, renumModel ps 0 [] = (ps', c, N, m) ->
  exists s, tableOf m (allNodes ps) s /\ Forall2 (renamed s) ps ps' /\ bijective s (allNodes ps) N /\
    N = distinct (allNodes ps) /\ c = changes s (allNodes ps) /\
    (forall l1 n l2, allNodes ps = l1 ++ n :: l2 -> ~ In n l1 -> s n = distinct l1 + 1).
Proof. exact firstCome_ok. Qed.
Print Assumptions C20_first_come.
Example C20_first_come_ex : exists ps' m, renumModel [exA; exB] 0 [] = (ps', 5%nat, 4, m) /\ map nums ps' = [[1; 2; 3]; [4; 2]].
Proof. eexists. eexists. split; reflexivity. Qed.

(** order-preserving: each node gets its rank among the nodes in use *)
Theorem C20_ordered : forall ps ps' c m, (forall n, In n (allNodes ps) -> 1 <= n) -> renumOrdered ps [] = (ps', c, m) ->
  tableOf m (allNodes ps) (rank (allNodes ps)) /\ Forall2 (renamed (rank (allNodes ps))) ps ps' /\
  bijective (rank (allNodes ps)) (allNodes ps) (distinct (allNodes ps)) /\
  (forall a b, In a (allNodes ps) -> In b (allNodes ps) -> a < b -> rank (allNodes ps) a < rank (allNodes ps) b) /\
  c = changes (rank (allNodes ps)) (nodup Z.eq_dec (allNodes ps)).
Proof.
  intros ps ps' c m P H. destruct (ordered_ok ps ps' c m P H) as (_ & T & F & _ & _ & C). destruct (rank_bij (allNodes ps) P) as [B Mo]. auto.
Qed.
Print Assumptions C20_ordered.
Example C20_ordered_ex : exists ps' m, renumOrdered [exA; exB] [] = (ps', 4%nat, m) /\ map nums ps' = [[4; 3; 1]; [2; 3]] /\ (forall n, In n (allNodes [exA; exB]) -> 1 <= n).
Proof. eexists. eexists. split; [reflexivity|]. split; [reflexivity|]. intros n H. vm_compute in H. lia. Qed.
(** the documentation (ASMbase.h:450) says the number of unique nodes is returned *)
Theorem C20_ordered_result_refuted : exists ps ps' c m, (forall n, In n (allNodes ps) -> 1 <= n) /\
  renumOrdered ps [] = (ps', c, m) /\ Z.of_nat c <> distinct (allNodes ps).
Proof.
  exists [mkN (mkP 1 [1; 2; 3] 3 [] []) [] []]. eexists. eexists. eexists. split; [intros n H; vm_compute in H; lia|]. split; [reflexivity|]. vm_compute. intros H. discriminate H.
Qed.
Print Assumptions C20_ordered_result_refuted.

(** the complete renumbering of a model, including fixations and constraint equations and
    the inverse table; a negative number signals references to nodes that do not exist *)
Theorem C20_model : forall preserve ps r ps' m inv, (preserve = true -> forall n, In n (allNodes ps) -> 1 <= n) ->
  simRenumber preserve ps = (r, ps', m, inv) ->
  exists s, tableOf m (allNodes ps) s /\ bijective s (allNodes ps) (distinct (allNodes ps)) /\
    (preserve = true -> forall a b, In a (allNodes ps) -> In b (allNodes ps) -> a < b -> s a < s b) /\
    (preserve = false -> forall l1 n l2, allNodes ps = l1 ++ n :: l2 -> ~ In n l1 -> s n = distinct l1 + 1) /\
    Forall2 (renamedAll (total s (allNodes ps)) (1 <? distinct (allNodes ps)) (allNodes ps)) ps ps' /\
    Z.of_nat (length inv) = distinct (allNodes ps) /\
    (forall a, In a (allNodes ps) -> nth_error inv (Z.to_nat (s a) - 1) = Some a) /\
    Z.abs r = distinct (allNodes ps) /\
    (r <= 0 <-> distinct (allNodes ps) = 0 \/ (1 < distinct (allNodes ps) /\ ~ (forall p n, In p ps -> Refers p n -> In n (allNodes ps)))).
Proof. exact simRenumber_ok. Qed.
Print Assumptions C20_model.
(** in a model without dangling references the conditions mean the same as before *)
Theorem C20_conditions : forall preserve ps r ps' m inv, (preserve = true -> forall n, In n (allNodes ps) -> 1 <= n) ->
  (forall p n, In p ps -> Refers p n -> In n (allNodes ps)) -> simRenumber preserve ps = (r, ps', m, inv) ->
  exists s, bijective s (allNodes ps) (distinct (allNodes ps)) /\ r = distinct (allNodes ps) /\
    Forall2 (fun p p' => nums p' = map s (nums p) /\
                         (forall u, admissible u (nb p') <-> admissible (fun k => u (s (fst k), snd k)) (nb p)) /\
                         (preserve = true -> wf (nb p) -> wf (nb p'))) ps ps'.
Proof.
  intros preserve ps r ps' m inv P R H. destruct (simRenumber_ok preserve ps r ps' m inv P H) as (s & T & B & Mo & _ & F & _ & _ & A & S).
  exists (total s (allNodes ps)). split; [|split].
  - destruct B as (B1 & B2 & B3). unfold total. split; [|split].
    + intros a b Ha Hb. destruct (in_dec _ a _), (in_dec _ b _); try contradiction. apply B1; auto.
    + intros a Ha. destruct (in_dec _ a _); [auto|contradiction].
    + intros k Hk. destruct (B3 k Hk) as (a & Ha & E). exists a. split; [auto|]. destruct (in_dec _ a _); [auto|contradiction].
  - pose proof (distinct_nonneg (allNodes ps)). destruct (Z.le_gt_cases r 0) as [L|L]; [|lia]. apply S in L. destruct L as [L|[_ L]]; [lia|contradiction].
  - assert (G : forall p p', In p ps -> renamedAll (total s (allNodes ps)) (1 <? distinct (allNodes ps)) (allNodes ps) p p' ->
       nums p' = map (total s (allNodes ps)) (nums p) /\ (forall u, admissible u (nb p') <-> admissible (fun k => u (total s (allNodes ps) (fst k), snd k)) (nb p)) /\ (preserve = true -> wf (nb p) -> wf (nb p'))).
    { intros p p' Hp Q. apply renamedAll_nodrop in Q; [|intros n; apply R; auto]. split; [apply Q|]. split; [intros u; eapply admissible_move; eauto|].
      intros Pr. eapply wf_move; [exact Q|intros n; apply R; auto|]. intros a b Ha Hb L. unfold total. destruct (in_dec _ a _), (in_dec _ b _); try contradiction. apply Mo; auto. }
    clear - F G. revert F G. generalize (total s (allNodes ps)), (1 <? distinct (allNodes ps)), (allNodes ps). intros t dr al. induction 1 as [|p p' l l' Q F IH]; intros G; constructor; [apply G; [left; auto|exact Q]|].
    apply IH. intros x y Hx. apply G. right; auto.
Qed.
Print Assumptions C20_conditions.
Example C20_conditions_ex : (forall p n, In p [exA; exB] -> Refers p n -> In n (allNodes [exA; exB])) /\
  exists ps' m, simRenumber true [exA; exB] = (4, ps', m, [7; 12; 20; 30]) /\ map nums ps' = [[4; 3; 1]; [2; 3]] /\ map (fun p => map bnode (pBC (nb p))) ps' = [[3]; []].
Proof.
  split; [|eexists; eexists; split; [reflexivity|split; reflexivity]].
  intros p n [<-|[<-|[]]] [(b & Hb & <-)|(x & Hx & Q)]; vm_compute in *.
  - destruct Hb as [<-|[]]; auto.
  - destruct Hx as [<-|[]]. cbn [dnode mslave mmast] in Q. destruct Q as [<-|(d & [<-|[]] & <-)]; cbn; intuition.
  - destruct Hb.
  - destruct Hx as [<-|[]]. cbn [dnode mslave mmast] in Q. destruct Q as [<-|(d & [<-|[]] & <-)]; cbn; intuition.
Qed.
(** fixations of nodes that do not exist are removed, and reported *)
Example C20_dangling_ex : exists ps' m inv, simRenumber false [mkN (mkP 1 [5; 9] 2 [fixX 9; fixX 8] []) [] []] = (-2, ps', m, inv) /\
  map (fun p => map bnode (pBC (nb p))) ps' = [[2]].
Proof. do 3 eexists. split; reflexivity. Qed.
(** the equations of a patch are kept in a std::set ordered by slave node; first come first
    served renumbering modifies the elements in place and breaks this order *)
Theorem C20_set_order_refuted : exists ps r ps' m inv, (forall p n, In p ps -> Refers p n -> In n (allNodes ps)) /\
  simRenumber false ps = (r, ps', m, inv) /\ 0 < r /\ (forall p, In p ps -> wf (nb p)) /\ ~ (forall p, In p ps' -> wf (nb p)).
Proof.
  exists [mkN (mkP 1 [30; 20; 7] 3 [] [(tie 7 20, None); (tie 30 20, None)]) [] []]. do 4 eexists. split; [|split; [vm_compute; reflexivity|split; [lia|split]]].
  - intros p n [<-|[]] [(b & Hb & <-)|(x & Hx & Q)]; vm_compute in *; [destruct Hb|].
    destruct Hx as [<-|[<-|[]]]; cbn [dnode mslave mmast] in Q; destruct Q as [<-|(d & [<-|[]] & <-)]; cbn; intuition.
  - intros p [<-|[]]. split; [constructor|]. repeat constructor.
  - intros K. specialize (K _ (or_introl eq_refl)). destruct K as [_ K]. vm_compute in K. inversion K as [|? ? _ F]. inversion F as [|? ? Q]. vm_compute in Q. discriminate Q.
Qed.
Print Assumptions C20_set_order_refuted.

(** merging the connectivities of duplicated nodes: elements refer to the first local node
    with the same number; triangles whose nodes coincide get element number zero *)
Theorem C20_duplicates : forall mlgn elms, (forall e k, In e elms -> In k (fst e) -> (k < length mlgn)%nat) ->
  Forall2 (mergedElm mlgn) elms (mergeDuplicates mlgn elms).
Proof. exact mergeDuplicates_ok. Qed.
Print Assumptions C20_duplicates.
Example C20_duplicates_ex : mergeDuplicates [4; 2; 4; 7; 2] [([0; 1; 3]%nat, 11); ([2; 4; 3]%nat, 12); ([0; 2; 3]%nat, 13); ([2; 3; 1; 4]%nat, 14)]
  = [([0; 1; 3]%nat, 11); ([0; 1; 3]%nat, 12); ([0; 0; 3]%nat, 0); ([0; 3; 1; 1]%nat, 14)].
Proof. reflexivity. Qed.

(** ** C41: connecting patches *)

(** collapsing two nodes: both get the smaller of their numbers; in the patch with the higher
    number only that node changes, in its neighbors all nodes with that number do, other
    patches are untouched; the conditions of the changed patches follow *)
Theorem C41_collapse : forall M k1 n1 k2 n2 g1 g2, modelOK M -> numAt M k1 n1 g1 -> numAt M k2 n2 g2 ->
  let r := collapseNodes M k1 n1 k2 n2 in
  (fst r = true <-> g1 <> g2) /\
  (g1 = g2 -> snd r = M) /\
  (g2 < g1 -> collapsedAt M (snd r) k1 n1 g1 g2) /\
  (g1 < g2 -> collapsedAt M (snd r) k2 n2 g2 g1).
Proof. exact collapse_ok. Qed.
Print Assumptions C41_collapse.
(** a consistent renaming of the whole model, provided that all other nodes with the higher
    number are in neighbors of the patch *)
Theorem C41_collapse_consistent_partial : forall M k n hi lo k' n', modelOK M -> lo < hi -> numAt M k n hi -> numAt M k' n' lo ->
  (forall j m, numAt M j m hi -> (j = k /\ m = n) \/ neighborOf M k j) ->
  (forall j p, patchAt M j p -> Refers p hi -> j = k \/ neighborOf M k j) ->
  forall j p, patchAt M j p -> exists q, patchAt (snd (collapseNodes M k n k' n')) j q /\ substituted hi lo p q.
Proof.
  intros M k n hi lo k' n' OK L N N' H1 H2. destruct (collapse_ok M k n k' n' hi lo OK N N') as (_ & _ & R & _). eapply collapsed_whole; eauto. lia.
Qed.
Print Assumptions C41_collapse_consistent_partial.
(** connecting two patches without common numbers: the matched nodes get common numbers (the
    smaller one), the other nodes of the two patches keep theirs, the patches are neighbors *)
Theorem C41_connect_partial : forall M j k pairs, modelOK M -> j <> k ->
  (forall m s, In (m, s) pairs -> (exists a, numAt M j m a) /\ (exists b, numAt M k s b)) ->
  NoDup (map fst pairs) -> NoDup (map snd pairs) ->
  (forall m m' a, numAt M j m a -> numAt M j m' a -> m = m') -> (forall s s' b, numAt M k s b -> numAt M k s' b -> s = s') ->
  (forall m s a, numAt M j m a -> numAt M k s a -> False) ->
  let M' := connect M k j pairs in
  (forall m s a b, In (m, s) pairs -> numAt M j m a -> numAt M k s b -> numAt M' j m (Z.min a b) /\ numAt M' k s (Z.min a b)) /\
  (forall m a, numAt M j m a -> (forall s, ~ In (m, s) pairs) -> numAt M' j m a) /\
  (forall s b, numAt M k s b -> (forall m, ~ In (m, s) pairs) -> numAt M' k s b).
Proof. intros M j k pairs H1 H2 H3 H4 H5 H6 H7 H8. apply connect_ok; auto. Qed.
Print Assumptions C41_connect_partial.
(** neighborhood is symmetric and never refers to the patch itself *)
Theorem C41_neighbors : forall M k j, modelOK M -> j <> k -> (j < length (fst M))%nat -> (k < length (fst M))%nat ->
  modelOK (addNeighbor M k j) /\ neighborOf (addNeighbor M k j) k j.
Proof. exact addNeighbor_ok. Qed.
Print Assumptions C41_neighbors.
Definition pt (l : list Z) : npatch := mkN (mkP 1 l (length l) [] []) [] [].
Definition two : model := ([pt [1; 2; 3; 4]; pt [5; 6; 7; 8]], [[]; []]).
Example C41_connect_ex : modelOK two /\ fst (connect two 1 0 [(2, 1); (4, 3)]%nat) = [pt [1; 2; 3; 4]; pt [2; 6; 4; 8]] /\ snd (connect two 1 0 [(2, 1); (4, 3)]%nat) = [[1]; [0]]%nat.
Proof.
  split; [|split; reflexivity]. split; [reflexivity|]. intros k j (l & H1 & H2). destruct k as [|[|k]]; cbn in H1; inversion H1; subst; try destruct H2. destruct k; discriminate H1.
Qed.
(** in general, nodes that are connected through other patches do not get the same number:
    six patches around a common point, connected one after another in this order *)
Definition star : model := (map (fun g => pt [g]) [1; 2; 3; 4; 5; 6], repeat [] 6).
Theorem C41_connect_refuted :
  let M := fold_left (fun M ab => connect M (snd ab) (fst ab) [(1, 1)%nat]) [(4, 5); (3, 4); (2, 3); (1, 2); (0, 1); (5, 0)]%nat star in
  (forall a b, In (a, b) [(4, 5); (3, 4); (2, 3); (1, 2); (0, 1); (5, 0)]%nat -> neighborOf M b a) /\
  numAt M 2 1 1 /\ numAt M 3 1 2 /\ numAt M 4 1 3 /\ numAt M 5 1 1.
Proof.
  cbn zeta. split.
  - intros a b H. cbn [In] in H. destruct H as [H|[H|[H|[H|[H|[H|[]]]]]]]; inversion H; subst; eexists; (split; [vm_compute; reflexivity|cbn; auto]).
  - split; [|split; [|split]]; eexists; (split; [vm_compute; reflexivity|split; [lia|reflexivity]]).
Qed.
Print Assumptions C41_connect_refuted.
(** collapsing a node whose number is used twice in its patch leaves the other node behind,
    and takes its fixation away *)
Theorem C41_collapse_duplicate_refuted : exists M k1 n1 k2 n2 M', modelOK M /\ collapseNodes M k1 n1 k2 n2 = (true, M') /\
  numAt M 1 1 4 /\ numAt M 1 2 4 /\ numAt M' 1 1 1 /\ numAt M' 1 2 4 /\
  (exists p, patchAt M 1 p /\ Fixed (nb p) 4 1) /\ ~ (exists p, patchAt M' 1 p /\ Fixed (nb p) 4 1).
Proof.
  exists ([pt [1]; mkN (mkP 1 [4; 4] 2 [fixX 4] []) [] []], [[]; []]), 1%nat, 1%nat, 0%nat, 1%nat. eexists. split; [|split; [reflexivity|]].
  - split; [reflexivity|]. intros k j (l & H1 & H2). destruct k as [|[|k]]; cbn in H1; inversion H1; subst; try destruct H2. destruct k; discriminate H1.
  - split; [eexists; split; [reflexivity|split; [lia|reflexivity]]|]. split; [eexists; split; [reflexivity|split; [lia|reflexivity]]|].
    split; [eexists; split; [vm_compute; reflexivity|split; [lia|reflexivity]]|]. split; [eexists; split; [vm_compute; reflexivity|split; [lia|reflexivity]]|]. split.
    + eexists. split; [reflexivity|]. exists (fixX 4). split; [left; reflexivity|]. split; [reflexivity|]. left. auto.
    + intros (p & P & b & Hb & E & _). vm_compute in P. inversion P. subst p. destruct Hb as [<-|[]]. vm_compute in E. discriminate E.
Qed.
Print Assumptions C41_collapse_duplicate_refuted.

(** ** C42: closing (making periodic) structured patches *)

(** any sequence of directions, for all fields of the patch *)
Theorem C42_close3D : forall n1 n2 n3 off nfb ds p, (1 <= n1 /\ 1 <= n2 /\ 1 <= n3)%nat -> (1 <= nfb <= 9)%nat -> pnf (nb p) = Z.of_nat nfb ->
  (off + n1 * n2 * n3 <= length (nums p))%nat ->
  (forall s t, (off <= s < t)%nat -> (t < off + n1 * n2 * n3)%nat -> nth s (nums p) 0 < nth t (nums p) 0) ->
  (forall d, In d ds -> d = 1 \/ d = 2 \/ d = 3)%nat ->
  exists q, closeSeq (fun d => close3D n1 n2 n3 nfb d (S off)) ds p = Some q /\ closedAs n1 n2 n3 off ds p q.
Proof. exact close3D_seq. Qed.
Print Assumptions C42_close3D.
Theorem C42_close2D : forall n1 n2 off nfb ds p, (1 <= n1 /\ 1 <= n2)%nat -> (1 <= nfb <= 9)%nat -> pnf (nb p) = Z.of_nat nfb ->
  (off + n1 * n2 * 1 <= length (nums p))%nat ->
  (forall s t, (off <= s < t)%nat -> (t < off + n1 * n2 * 1)%nat -> nth s (nums p) 0 < nth t (nums p) 0) ->
  (forall d, In d ds -> d = 1 \/ d = 2)%nat ->
  exists q, closeSeq (fun d => close2D n1 n2 nfb d (S off)) ds p = Some q /\ closedAs n1 n2 1 off ds p q.
Proof. exact close2D_seq. Qed.
Print Assumptions C42_close2D.
Definition p9 (nf : Z) : npatch := mkN (mkP nf [1; 2; 3; 4; 5; 6; 7; 8; 9] 9 [fixX 9] []) [] [].
Example C42_close2D_ex : option_map nums (closeSeq (fun d => close2D 3 3 2 d 1) [2; 1]%nat (p9 2)) = Some [1; 2; 1; 4; 5; 4; 1; 2; 1]
  /\ option_map (fun q => map bnode (pBC (nb q))) (closeSeq (fun d => close2D 3 3 2 d 1) [2; 1]%nat (p9 2)) = Some [1].
Proof. split; reflexivity. Qed.
(** closing for some of the fields only (a basis of a mixed patch) couples the nodes by
    equations; in two directions the equations are inconsistent with a constant field *)
Theorem C42_close_basis_refuted : exists p q, pnf (nb p) = 2 /\ pBC (nb p) = [] /\ pEQ (nb p) = [] /\
  closeSeq (fun d => close2D 3 3 1 d 1) [1; 2]%nat p = Some q /\ nums q = nums p /\
  ~ admissible (fun _ => 1%Qc) (nb q).
Proof.
  exists (mkN (mkP 2 [1; 2; 3; 4; 5; 6; 7; 8; 9] 9 [] []) [] []). eexists. split; [reflexivity|]. split; [reflexivity|]. split; [reflexivity|]. split; [vm_compute; reflexivity|]. split; [reflexivity|].
  intros [_ S]. unfold satisfies, eqns in S. cbn [nb pEQ map fst] in S. inversion S as [|? ? H _]. unfold holds, rhs in H. cbn [mslave mmast dcoef] in H. unfold qs in H. cbn [fold_right dcoef] in H.
  apply (f_equal this) in H. vm_compute in H. discriminate H.
Qed.
Print Assumptions C42_close_basis_refuted.
(** the test for "all DOFs" counts digits: the code 20 with two fields merges the nodes, so
    that DOF 1 is coupled as well *)
Theorem C42_alldofs_refuted : exists p q, pnf (nb p) = 2 /\ ~ IsDigit 20 1 /\ makePeriodic p 1 3 20 = Some q /\ nums p = [5; 6; 7] /\ nums q = [5; 6; 5].
Proof.
  exists (mkN (mkP 2 [5; 6; 7] 3 [] []) [] []). eexists. split; [reflexivity|]. split; [|split; [reflexivity|split; reflexivity]].
  intros (k & H1 & H2). destruct k as [|[|k]]; [vm_compute in H2; discriminate H2|vm_compute in H2; discriminate H2|].
  assert (10 ^ 2 <= 10 ^ Z.of_nat (S (S k))) by (apply Z.pow_le_mono_r; lia). lia.
Qed.
Print Assumptions C42_alldofs_refuted.
(** for codes without the digit 0: the two nodes are merged exactly when the code lists all
    the DOFs of a node and nothing else; otherwise no node number changes *)
Theorem C42_periodic_dofs : forall p m s dirs q, 0 < dirs -> ~ IsDigit dirs 0 -> 1 <= pnf (nb p) ->
  (1 <= m <= length (nums p))%nat -> (1 <= s <= length (nums p))%nat -> makePeriodic p m s dirs = Some q ->
  (forall d, IsDigit dirs d <-> 1 <= d <= pnf (nb p)) /\ nth (m - 1) (nums q) 0 = nth (s - 1) (nums q) 0
    /\ nth (m - 1) (nums q) 0 = Z.min (nth (m - 1) (nums p) 0) (nth (s - 1) (nums p) 0) \/
  ~ (forall d, IsDigit dirs d <-> 1 <= d <= pnf (nb p)) /\ nums q = nums p.
Proof. exact makePeriodic_spec. Qed.
Print Assumptions C42_periodic_dofs.
Example C42_periodic_dofs_ex : option_map nums (makePeriodic (p9 2) 1 3 21) = Some [1; 2; 1; 4; 5; 6; 7; 8; 9]
  /\ option_map nums (makePeriodic (p9 2) 1 3 31) = Some (nums (p9 2)) /\ option_map (fun q => length (pEQ (nb q))) (makePeriodic (p9 2) 1 3 31) = Some 1%nat.
Proof. repeat split; reflexivity. Qed.
