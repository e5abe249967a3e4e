(** C93: global numbers of nodes and equations over the processes. *)
From Coq Require Import ZArith List Bool Lia Relations.
From Verif Require Import Ddp_model Ddg_model Ddg_spec Ddg_proofs Ddg_proofs2 Ddg_proofs3.
Import ListNotations.
Local Open Scope Z_scope.

(** Well-formed interfaces give a numbering: consecutive ranges, the numbers in the
    range of a process are those of the equations it is nobody's slave of, each one
    once; two equations with the same number are the same unknown. *)
Theorem ghost_numbering : forall procs, wf procs -> procs <> [] ->
  exists res, eqNumbers procs = Ok res /\ length res = length procs /\
    lo res 0 = 1 /\
    (forall p, (S p < length procs)%nat -> lo res (S p) = hi res p + 1) /\
    (forall p, (p < length procs)%nat -> lo res p <= hi res p + 1) /\
    (forall x, is_eq procs x -> 1 <= num res x <= hi res (fst x)) /\
    (forall x, is_eq procs x -> (lo res (fst x) <= num res x <= hi res (fst x) <-> owned procs x)) /\
    (forall p n, (p < length procs)%nat -> lo res p <= n <= hi res p ->
       exists e, owned procs (p, e) /\ num res (p, e) = n) /\
    (forall x y, is_eq procs x -> is_eq procs y -> num res x = num res y -> same procs x y) /\
    (forall x, is_eq procs x -> ~ owned procs x -> exists y, link procs x y /\ num res x = num res y).
Proof.
  intros procs HW HN. destruct (eqNumbers_inv procs HW HN) as (res & E & L & I).
  exists res. split; [exact E|]. split; [exact L|].
  split; [apply (i_lo0 _ _ I)|]. rewrite <- L.
  split; [apply (i_loS _ _ I)|]. split; [apply (i_le _ _ I)|].
  split; [intros x Hx; apply (num_range procs res HW I); [destruct Hx; lia | exact Hx]|].
  split.
  { intros x Hx. assert (HL : (fst x < length res)%nat) by (destruct Hx; lia).
    destruct (rep procs res HW I (S (fst x)) x ltac:(lia) HL Hx) as (y & O & LE & SM & EQ).
    split; [|apply (i_own _ _ I); exact HL].
    intros B. assert (By := i_own _ _ I y ltac:(lia) O).
    destruct (Nat.eq_dec (fst y) (fst x)) as [F | F].
    - (* same process: then x = y or x has a link to a lower one *)
      assert (D : owned procs x \/ exists z, link procs x z /\ num res x = num res z).
      { destruct (rep procs res HW I (S (fst x)) x ltac:(lia) HL Hx) as (y2 & O2 & LE2 & _ & E2).
        destruct (existsb (fun it => existsb (fun pr => fst pr =? snd x) (pairsOf it)) (slave_ifs procs (fst x))) eqn:X.
        - right. apply (i_link _ _ I x HL Hx). intros [_ NO].
          apply existsb_exists in X. destruct X as (it & HI & X).
          apply existsb_exists in X. destruct X as ((e & (q & f)) & HP & X). apply Z.eqb_eq in X. cbn in X.
          destruct (HW (fst x) it ltac:(lia) HI) as (W1 & W2 & W3 & W4 & W5 & W6 & W7).
          apply pairsOf_in in HP; [|assumption|assumption]. destruct HP as (i & o & A1 & A2 & A3 & P & Q).
          apply (NO (q, f)). exists it, i, o. cbn [fst snd]. subst e. repeat split; assumption.
        - left. split; [exact Hx|]. intros [q f] (it & i & o & HI & A1 & A2 & A3 & P & Q). cbn [fst snd] in *.
          destruct (HW (fst x) it ltac:(lia) HI) as (W1 & W2 & W3 & W4 & W5 & W6 & W7).
          assert (T : existsb (fun it => existsb (fun pr => fst pr =? snd x) (pairsOf it)) (slave_ifs procs (fst x)) = true); [|congruence].
          apply existsb_exists. exists it. split; [exact HI|]. apply existsb_exists.
          exists (snd x, (q, f)). split; [|apply Z.eqb_refl]. apply pairsOf_in; [assumption|assumption|].
          exists i, o. repeat split; assumption. }
      destruct D as [D | (z & LZ & EZ)]; [exact D|].
      destruct (link_is_eq procs x z HW ltac:(lia) LZ) as (_ & Iz & LT).
      assert (Bz := num_range procs res HW I z ltac:(lia) Iz).
      destruct (fst x) as [|k] eqn:FX; [lia|].
      assert (M := hi_mono _ _ I (fst z) k ltac:(lia) ltac:(lia)).
      assert (S := i_loS _ _ I k ltac:(lia)). lia.
    - exfalso. destruct (fst x) as [|k] eqn:FX; [lia|].
      assert (M := hi_mono _ _ I (fst y) k ltac:(lia) ltac:(lia)).
      assert (S := i_loS _ _ I k ltac:(lia)). lia. }
  split; [apply (i_sur _ _ I)|].
  split.
  { intros x y Hx Hy EQ.
    assert (HLx : (fst x < length res)%nat) by (destruct Hx; lia).
    assert (HLy : (fst y < length res)%nat) by (destruct Hy; lia).
    destruct (rep procs res HW I (S (fst x)) x ltac:(lia) HLx Hx) as (x' & Ox & LEx & Sx & Ex).
    destruct (rep procs res HW I (S (fst y)) y ltac:(lia) HLy Hy) as (y' & Oy & LEy & Sy & Ey).
    assert (Bx := i_own _ _ I x' ltac:(lia) Ox). assert (By := i_own _ _ I y' ltac:(lia) Oy).
    assert (F : fst x' = fst y').
    { destruct (lt_eq_lt_dec (fst x') (fst y')) as [[LT | LT] | LT]; [|exact LT|].
      - destruct (fst y') as [|k] eqn:FY; [lia|].
        assert (M := hi_mono _ _ I (fst x') k ltac:(lia) ltac:(lia)).
        assert (S := i_loS _ _ I k ltac:(lia)). lia.
      - destruct (fst x') as [|k] eqn:FX; [lia|].
        assert (M := hi_mono _ _ I (fst y') k ltac:(lia) ltac:(lia)).
        assert (S := i_loS _ _ I k ltac:(lia)). lia. }
    assert (EE : x' = y') by (apply (i_inj _ _ I); try assumption; try lia).
    subst y'. eapply rst_trans; [exact Sx | apply rst_sym; exact Sy]. }
  intros x Hx NO. apply (i_link _ _ I); [destruct Hx; lia | exact Hx | exact NO].
Qed.

(** If two masters of the same slave equation are joined among themselves, equal
    numbers are exactly the same unknowns. *)
Theorem ghost_same_iff : forall procs res, wf procs -> consistent procs -> eqNumbers procs = Ok res ->
  forall x y, is_eq procs x -> is_eq procs y -> (num res x = num res y <-> same procs x y).
Proof.
  intros procs res HW HC E x y Hx Hy.
  assert (HN : procs <> []) by (intros ->; destruct Hx as [A _]; simpl in A; lia).
  destruct (eqNumbers_inv procs HW HN) as (res' & E' & L & I). rewrite E in E'. inversion E'; subst res'. clear E'.
  split.
  { destruct (ghost_numbering procs HW HN) as (res' & E' & _ & _ & _ & _ & _ & _ & _ & S & _).
    rewrite E in E'. inversion E'; subst res'. apply S; assumption. }
  assert (LK : forall n a b, (fst a < n)%nat -> (fst a < length procs)%nat -> link procs a b -> num res a = num res b).
  { induction n; intros a b Ha HL LNK; [lia|].
    destruct (link_is_eq procs a b HW HL LNK) as (Ia & _ & _).
    assert (NO : ~ owned procs a) by (intros [_ NO]; apply (NO b LNK)).
    destruct (i_link _ _ I a ltac:(lia) Ia NO) as (c & LC & EC). rewrite EC.
    assert (SB := HC a c b LC LNK).
    assert (G : forall u v, same_before procs (fst a) u v -> num res u = num res v).
    { intros u v H. induction H as [u v [H1 H2] | u | u v H IH | u v w H1 IH1 H2 IH2]; [|reflexivity | auto | congruence].
      apply IHn; [lia | lia | exact H1]. }
    apply G. exact SB. }
  assert (DOM : forall a b, link procs a b -> (fst a < length procs)%nat).
  { intros a b (it & i & o & HI & _). unfold slave_ifs in HI. destruct (fst a) eqn:F; [destruct HI|].
    destruct (Nat.lt_ge_cases (S n) (length procs)) as [? | GE]; [assumption|].
    rewrite nth_overflow in HI by lia. destruct HI. }
  intros H. induction H as [u v H | u | u v H IH | u v w H1 IH1 H2 IH2].
  - apply (LK (S (fst u))); [lia | eapply DOM; exact H | exact H].
  - reflexivity.
  - symmetry. apply IH; assumption.
  - assert (Hv : is_eq procs v).
    { (* every element joined with an equation is one *)
      assert (P : forall a b, same procs a b -> (is_eq procs a <-> is_eq procs b)).
      { intros a b S. induction S as [a b S | a | a b S IHS | a b c S1 IHS1 S2 IHS2]; [|tauto | tauto | tauto].
        destruct (link_is_eq procs a b HW (DOM a b S) S) as (A & B & _). tauto. }
      apply (P u v H1). exact Hx. }
    rewrite IH1 by assumption. apply IH2; assumption.
Qed.

(** The node numbers are the same numbers, computed node by node. *)
Theorem ghost_nodes_like_equations : forall procs, wf procs -> node_wf procs ->
  nodeNumbers procs = eqNumbers procs.
Proof.
  intros [|[neq its] rest] HW HD; [reflexivity|].
  unfold nodeNumbers, eqNumbers. change (Z.of_nat neq) with (hi [eqProc0 neq] (length [eqProc0 neq] - 1)).
  apply (nodesRest_eq ((neq, its) :: rest)); [exact HW | apply inv0; exact HW | exact HD | | reflexivity].
  intros j Hj. reflexivity.
Qed.

(** A process that ends without error had interfaces of matching sizes and matching
    constraints. *)
Theorem ghost_mismatch_detected : forall mls nEqs neq its r, 0 <= nEqs ->
  (forall v g, In v mls -> In g v -> 0 < g) -> eqProc mls nEqs neq its = Ok r ->
  forall it, In it its -> length (mlist it) = length (slist it) /\
  (forall i o e f, nth_error (ord it) i = Some o -> nth_error (slist it) i = Some e ->
     nth_error (mlist it) o = Some f -> (0 < e <-> 0 < f)).
Proof.
  intros mls nEqs neq its r HN HP H it Hit. unfold eqProc in H.
  destruct (linkAll mls nEqs (iotaZ (nEqs + 1) neq) its ([], repeat false neq)) as [[m fl]| |] eqn:E; try discriminate.
  eapply linkAll_conv; eassumption.
Qed.

(** Three processes; equation 3 of process 0 is constrained; the corner is shared. *)
Definition ex_if1 := {| mproc := 0; mlist := [2; -1; 3]; slist := [3; 0; 1]; ord := [2; 1; 0]%nat |}.
Definition ex_if2 := {| mproc := 1; mlist := [3; 4]; slist := [1; 2]; ord := [0; 1]%nat |}.
Definition ex_if3 := {| mproc := 0; mlist := [3]; slist := [1]; ord := [0]%nat |}.
Definition ex_procs := [(3%nat, []); (4%nat, [ex_if1]); (3%nat, [ex_if2; ex_if3])].
Example ghost_ex_wf : wf ex_procs.
Proof.
  intros p it Hp HI.
  assert (K : forall (s m : list Z) (os : list nat),
    (forall i, (i < length os)%nat -> (0 < nth i s 0 <-> 0 < nth (nth i os O) m 0)) ->
    forall i o e f, nth_error os i = Some o -> nth_error s i = Some e -> nth_error m o = Some f -> (0 < e <-> 0 < f)).
  { intros s m os H i o e f H1 H2 H3.
    assert (LI : (i < length os)%nat) by (apply nth_error_Some; congruence).
    specialize (H i LI). rewrite (nth_error_nth _ _ 0 H2), (nth_error_nth _ _ O H1), (nth_error_nth _ _ 0 H3) in H. exact H. }
  destruct p as [|[|[|p]]]; [destruct HI | | | simpl in Hp; lia]; simpl in HI;
    [destruct HI as [<- | []] | destruct HI as [<- | [<- | []]]];
    (split; [simpl; lia|]; split; [reflexivity|]; split; [reflexivity|];
     split; [intros e He; simpl in He; unfold size_of; simpl; intuition lia|];
     split; [intros f Hf; simpl in Hf; unfold size_of; simpl; intuition lia|];
     split; [intros i o Ho; apply nth_error_In in Ho; simpl in *; intuition lia|];
     apply K; intros j Hj; simpl in Hj).
  - destruct j as [|[|[|j]]]; [simpl; lia | simpl; lia | simpl; lia | lia].
  - destruct j as [|[|j]]; [simpl; lia | simpl; lia | lia].
  - destruct j as [|j]; [simpl; lia | lia].
Qed.
Example ghost_ex : exists res, eqNumbers ex_procs = Ok res /\
  map ml res = [[1; 2; 3]; [2; 4; 3; 5]; [3; 5; 6]] /\ map (fun r => (mn r, mx r)) res = [(1, 3); (4, 5); (6, 6)].
Proof. eexists. split; [vm_compute; reflexivity | split; vm_compute; reflexivity]. Qed.

(** The corner of process 2 has two masters, which are joined. *)
Example ghost_ex_consistent : consistent ex_procs.
Proof.
  assert (A : forall x y, link ex_procs x y ->
    In (x, y) [((1%nat, 3), (0%nat, 3)); ((1%nat, 1), (0%nat, 2)); ((2%nat, 1), (1%nat, 3)); ((2%nat, 2), (1%nat, 4)); ((2%nat, 1), (0%nat, 3))]).
  { intros [p e] [q f] (it & i & o & HI & H1 & H2 & H3 & P & Q). cbn [fst snd] in *.
    destruct p as [|[|[|p]]]; simpl in HI; [destruct HI | | | destruct p; destruct HI].
    - destruct HI as [<- | []]. destruct i as [|[|[|i]]]; cbn in H1, H2; try (destruct i; discriminate);
        injection H1 as <-; injection H2 as <-; cbn in H3, Q; injection H3 as <-; subst q; simpl; try lia; tauto.
    - destruct HI as [<- | [<- | []]].
      + destruct i as [|[|i]]; cbn in H1, H2; try (destruct i; discriminate);
          injection H1 as <-; injection H2 as <-; cbn in H3, Q; injection H3 as <-; subst q; simpl; tauto.
      + destruct i as [|i]; cbn in H1, H2; try (destruct i; discriminate);
          injection H1 as <-; injection H2 as <-; cbn in H3, Q; injection H3 as <-; subst q; simpl; tauto. }
  assert (J : same_before ex_procs 2 (1%nat, 3) (0%nat, 3)).
  { apply rst_step. split; [|simpl; lia]. exists ex_if1, 0%nat, 2%nat. repeat split; simpl; auto; lia. }
  intros x y z H1 H2. apply A in H1, H2. simpl in H1, H2.
  repeat match goal with H : _ \/ _ |- _ => destruct H end; try contradiction;
    repeat match goal with H : (_, _) = (_, _) |- _ => inversion H; clear H; subst end;
    try discriminate; try apply rst_refl; try exact J; apply rst_sym; exact J.
Qed.

(** Refuted: without the extra condition, joined equations can have different numbers
    (the last interface wins). *)
Theorem ghost_inconsistent_refuted :
  ~ (forall procs res x y, wf procs -> eqNumbers procs = Ok res -> is_eq procs x -> is_eq procs y ->
     same procs x y -> num res x = num res y).
Proof.
  intros H.
  set (a := {| mproc := 0; mlist := [1]; slist := [1]; ord := [0]%nat |}).
  set (b := {| mproc := 1; mlist := [1]; slist := [1]; ord := [0]%nat |}).
  set (pr := [(1%nat, []); (1%nat, []); (1%nat, [a; b])]).
  assert (W : wf pr).
  { intros p it Hp HI. destruct p as [|[|[|p]]]; [destruct HI | destruct HI | | simpl in Hp; lia]. simpl in HI.
    destruct HI as [<- | [<- | []]];
      (split; [simpl; lia|]; split; [reflexivity|]; split; [reflexivity|];
       split; [intros e He; simpl in He; unfold size_of; simpl; intuition lia|];
       split; [intros f Hf; simpl in Hf; unfold size_of; simpl; intuition lia|];
       split; [intros i o Ho; apply nth_error_In in Ho; simpl in *; intuition lia|];
       intros i o e f H1 H2 H3; apply nth_error_In in H2; apply nth_error_In in H3; simpl in *; intuition lia). }
  specialize (H pr [{| ml := [1]; mn := 1; mx := 1 |}; {| ml := [2]; mn := 2; mx := 2 |}; {| ml := [2]; mn := 3; mx := 2 |}]
    (0%nat, 1) (1%nat, 1) W ltac:(vm_compute; reflexivity)
    ltac:(split; [simpl; lia | unfold size_of; simpl; lia]) ltac:(split; [simpl; lia | unfold size_of; simpl; lia])).
  assert (S : same pr (0%nat, 1) (1%nat, 1)).
  { apply rst_trans with (2%nat, 1).
    - apply rst_sym, rst_step. exists a, 0%nat, 0%nat. repeat split; simpl; auto; lia.
    - apply rst_step. exists b, 0%nat, 0%nat. repeat split; simpl; auto; lia. }
  specialize (H S). vm_compute in H. discriminate.
Qed.

(** Refuted: an interface whose two sides differ in size is an error for the nodes
    (the test is an assignment): the slave's node gets the number 0. *)
Theorem ghost_node_mismatch_refuted :
  ~ (forall mls nPrev nn its r, 0 <= nPrev -> (forall v g, In v mls -> In g v -> 0 < g) ->
     nodeProc mls nPrev nn its = Ok r ->
     (forall it, In it its -> length (mlist it) = length (slist it)) \/ (forall v, In v (ml r) -> 0 < v)).
Proof.
  intros H.
  destruct (H [[1]] 1 2%nat [{| mproc := 0; mlist := [1]; slist := [1; 2]; ord := [0; 1]%nat |}]
    {| ml := [1; 0]; mn := 2; mx := 1 |} ltac:(lia)) as [A | A].
  - intros v g [<- | []] [<- | []]. lia.
  - vm_compute. reflexivity.
  - specialize (A _ (or_introl eq_refl)). simpl in A. discriminate.
  - specialize (A 0 ltac:(simpl; tauto)). lia.
Qed.

(** Refuted: maxDof counts the DOFs of the nodes that the process owns (the nodes are
    asked for with an index from 0, so the first one counts as one DOF). *)
Theorem ghost_max_dof_refuted :
  ~ (forall madof nn own maxDof, length madof = S nn ->
     dofLoop madof nn own 0 nn maxDof =
     maxDof + fold_right Z.add 0 (map (fun i => if own i then nth (S i) madof 0 - nth i madof 0 else 0) (seq 0 nn))).
Proof.
  intros H. specialize (H [1; 3; 6] 2%nat (fun i => (1 <=? i)%nat) 0 eq_refl). vm_compute in H. discriminate.
Qed.

(** It is the number of DOFs if all nodes have the same number of them and the first
    node is not one of its own (or there is one DOF per node). *)
Theorem ghost_max_dof_partial : forall madof nn own maxDof nd, length madof = S nn ->
  (forall i, (i < nn)%nat -> nth (S i) madof 0 = nth i madof 0 + nd) ->
  own O = false \/ nd = 1 ->
  dofLoop madof nn own 0 nn maxDof =
  maxDof + fold_right Z.add 0 (map (fun i => if own i then nd else 0) (seq 0 nn)).
Proof.
  intros madof nn own maxDof nd HL HD HO.
  assert (G : forall todo i M, (i + todo <= nn)%nat ->
    dofLoop madof nn own i todo M = M + fold_right Z.add 0 (map (fun i => if own i then nd else 0) (seq i todo))).
  { induction todo; intros i M Hi; cbn [dofLoop seq map fold_right]; [lia|].
    rewrite IHtodo by lia. destruct (own i) eqn:O; [|lia].
    enough (snd (nodeDOFs madof nn (Z.of_nat i)) - fst (nodeDOFs madof nn (Z.of_nat i)) + 1 = nd) by lia.
    unfold nodeDOFs. destruct i as [|j].
    - simpl. destruct HO as [HO | ->]; [congruence | reflexivity].
    - replace (Z.of_nat (S j) <? 1) with false by (symmetry; apply Z.ltb_ge; lia).
      replace (Z.of_nat nn <? Z.of_nat (S j)) with false by (symmetry; apply Z.ltb_ge; lia).
      cbn [orb fst snd]. rewrite Nat2Z.id. replace (Z.to_nat (Z.of_nat (S j) - 1)) with j by lia.
      rewrite HD by lia. lia. }
  apply G. lia.
Qed.
Example ghost_max_dof_ex : dofLoop [1; 4; 7; 10] 3 (fun i => (1 <=? i)%nat) 0 3 5 = 11.
Proof. reflexivity. Qed.

(** The ghost connections: the order is a strict order, and a connection is kept if
    no other one has the same owners, slave, dimension, basis and master index. *)
Theorem ghost_order : forall own a b c,
  slaveOrder own a a = false /\
  (slaveOrder own a b = true -> slaveOrder own b c = true -> slaveOrder own a c = true) /\
  (slaveOrder own a b = false /\ slaveOrder own b a = false <-> conn_key own a = conn_key own b).
Proof.
  intros own a b c. rewrite !order_key. split; [apply lex_irrefl|]. split; [apply lex_trans|].
  split.
  - intros [H1 H2]. assert (E := lex_total (key own a) (key own b) eq_refl H1 H2). unfold key in E. inversion E. unfold conn_key. congruence.
  - intros E. assert (K : key own a = key own b) by (unfold conn_key in E; unfold key; inversion E; congruence).
    rewrite K. split; apply lex_irrefl.
Qed.
Theorem ghost_set_keeps : forall own cs, NoDup (map (conn_key own) cs) ->
  forall c, In c (ghostSet own cs) <-> In c cs.
Proof.
  intros own cs ND.
  assert (KE : forall a b, conn_key own a = conn_key own b <-> key own a = key own b).
  { intros a b. unfold conn_key, key. split; intros E; inversion E; congruence. }
  assert (G : forall l s, NoDup (map (conn_key own) l) ->
    (forall a b, In a l -> In b s -> conn_key own a <> conn_key own b) ->
    forall c, In c (fold_left (fun s c => insertConn own c s) l s) <-> In c s \/ In c l).
  { induction l as [|x l IH]; intros s N D c; simpl; [tauto|].
    inversion N as [|? ? NI N']; subst.
    rewrite IH; [|exact N'|].
    - split.
      + intros [H | H]; [|tauto]. apply insert_in in H. destruct H as [-> | H]; tauto.
      + intros [H | [<- | H]]; [left; apply insert_old; exact H | left | right; exact H].
        apply insert_new. intros d Hd K. apply (D x d (or_introl eq_refl) Hd). apply KE. symmetry. exact K.
    - intros a b Ha Hb. apply insert_in in Hb. destruct Hb as [-> | Hb].
      + intros E. apply NI. rewrite <- E. apply in_map. exact Ha.
      + apply D; [right; exact Ha | exact Hb]. }
  intros c. unfold ghostSet. rewrite G; [simpl; tauto | exact ND | intros a b _ []].
Qed.
(** Refuted in general: patches 1 and 2 on one process, both with their second side
    towards patch 3 on another one; the second connection is lost. *)
Theorem ghost_set_refuted :
  ~ (forall own cs, NoDup cs -> forall c, In c cs -> In c (ghostSet own cs)).
Proof.
  intros H.
  set (a := {| master := 1; slave := 3; midx := 2; sidx := 1; orient := 0; dim := 1; basis := 0; thick := 1 |}).
  set (b := {| master := 2; slave := 3; midx := 2; sidx := 3; orient := 0; dim := 1; basis := 0; thick := 1 |}).
  specialize (H (fun p => if p <=? 2 then 0 else 1) [a; b]).
  assert (ND : NoDup [a; b]).
  { constructor; [intros [E | []]; discriminate | constructor; [intros [] | constructor]]. }
  specialize (H ND b (or_intror (or_introl eq_refl))).
  vm_compute in H. destruct H as [E | []]. discriminate.
Qed.

Print Assumptions ghost_numbering.
Print Assumptions ghost_same_iff.
Print Assumptions ghost_nodes_like_equations.
Print Assumptions ghost_mismatch_detected.
Print Assumptions ghost_inconsistent_refuted.
Print Assumptions ghost_node_mismatch_refuted.
Print Assumptions ghost_max_dof_refuted.
Print Assumptions ghost_max_dof_partial.
Print Assumptions ghost_order.
Print Assumptions ghost_set_keeps.
Print Assumptions ghost_set_refuted.
