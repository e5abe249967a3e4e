(** Proofs about extracting and injecting nodal vectors. *)
From Coq Require Import List Sorted Arith ZArith QArith Qcanon Bool Lia.
From Verif Require Import Base QcLra Mat_model Mat_spec Mat_proofs Vec_model Vec_spec.
Import ListNotations.
Local Open Scope Z_scope.

Lemma skipn_skipn {A} n m (l : list A) : skipn n (skipn m l) = skipn (n + m) l.
Proof. revert l. induction m as [|m IH]; intros l; [rewrite Nat.add_0_r; reflexivity|]. rewrite Nat.add_succ_r. destruct l; [rewrite !skipn_nil; reflexivity|]. cbn [skipn]. apply IH. Qed.
Lemma slice_map (l : list Qc) o n : (o + n <= length l)%nat -> firstn n (skipn o l) = map (fun k => nth (o + k) l 0%Qc) (seq 0 n).
Proof.
  intros H. apply nth_ext with (d := 0%Qc) (d' := 0%Qc).
  - rewrite firstn_length, skipn_length, map_length, seq_length. lia.
  - intros k Hk. rewrite firstn_length, skipn_length in Hk. rewrite nth_firstn_lt by lia. rewrite nth_skipn.
    rewrite nth_map' with (d := O) by (rewrite seq_length; lia). rewrite seq_nth by lia. reflexivity.
Qed.
Lemma rdZ_dof madof n : 1 <= n < Z.of_nat (length madof) -> rdZ madof (n - 1) = Some (firstDof madof n) /\ rdZ madof n = Some (firstDof madof (n + 1)).
Proof.
  intros H. unfold rdZ, firstDof. destruct (Z.ltb_spec (n - 1) 0); [lia|]. destruct (Z.ltb_spec n 0); [lia|].
  split; [apply nth_error_nth'; lia|]. replace (n + 1 - 1) with n by lia. apply nth_error_nth'. lia.
Qed.
Lemma dof_bounds madof nd n : okMADOF madof nd -> 1 <= n < Z.of_nat (length madof) ->
  1 <= firstDof madof n <= firstDof madof (n + 1) /\ firstDof madof (n + 1) <= Z.of_nat nd + 1.
Proof.
  intros [A B] H. rewrite Forall_forall in A. specialize (B n H).
  assert (I1 : In (firstDof madof n) madof) by (apply nth_In; lia). assert (I2 : In (firstDof madof (n + 1)) madof) by (apply nth_In; lia).
  apply A in I1. apply A in I2. lia.
Qed.
Lemma dof_mono madof nd n m : okMADOF madof nd -> 1 <= n <= m -> m <= Z.of_nat (length madof) -> firstDof madof n <= firstDof madof m.
Proof.
  intros [_ B] H H2. remember (Z.to_nat (m - n)) as k eqn:K. revert m H H2 K. induction k as [|k IH]; intros m H H2 K.
  - replace m with n by lia. lia.
  - specialize (IH (m - 1) ltac:(lia) ltac:(lia) ltac:(lia)). specialize (B (m - 1) ltac:(lia)). replace (m - 1 + 1) with m in B by lia. lia.
Qed.
Lemma ofNode_inj madof nd n m p : okMADOF madof nd -> 1 <= n < Z.of_nat (length madof) -> 1 <= m < Z.of_nat (length madof) ->
  ofNode madof n p -> ofNode madof m p -> n = m.
Proof.
  intros K Hn Hm A B. unfold ofNode in *. destruct (Z.lt_total n m) as [Q|[Q|Q]]; [exfalso|exact Q|exfalso].
  - pose proof (dof_mono madof nd (n + 1) m K ltac:(lia) ltac:(lia)). lia.
  - pose proof (dof_mono madof nd (m + 1) n K ltac:(lia) ltac:(lia)). lia.
Qed.

Lemma extractLoop_ok chk madof ngnod glob nodes : okMADOF madof (length glob) -> nodesIn madof nodes ->
  (0 < ngnod -> Forall (fun n => n <= ngnod) nodes) ->
  forall out, extractLoop chk madof ngnod glob nodes out = Some (true, out ++ flat_map (nodeVals madof glob) nodes).
Proof.
  intros K N G. induction nodes as [|n nodes IH]; intros out; cbn [extractLoop flat_map]; [rewrite app_nil_r; reflexivity|].
  inversion N as [|? ? Hn N']; subst. specialize (IH N' ltac:(intros Q; specialize (G Q); inversion G; auto)).
  assert (C : (n <? 1) || ((ngnod <? n) && (0 <? ngnod)) = false).
  { destruct (Z.ltb_spec n 1); [lia|]. cbn [orb]. destruct (Z.ltb_spec 0 ngnod) as [Q|Q]; [|apply andb_false_r]. specialize (G Q). inversion G; subst. destruct (Z.ltb_spec ngnod n); [lia|]. reflexivity. }
  rewrite C, andb_false_r. destruct (rdZ_dof _ _ Hn) as [-> ->]. cbn [bind]. pose proof (dof_bounds _ _ _ K Hn) as Bd. unfold nodeVals at 1. cbv zeta.
  destruct (Z.eqb_spec (firstDof madof n - 1) (firstDof madof (n + 1) - 1)) as [Q|Q].
  - replace (firstDof madof (n + 1) - firstDof madof n) with 0 by lia. cbn. apply IH.
  - destruct (Z.ltb_spec (firstDof madof n - 1) 0); [lia|]. destruct (Z.ltb_spec (firstDof madof (n + 1) - 1) (firstDof madof n - 1)); [lia|].
    destruct (Z.ltb_spec (Z.of_nat (length glob)) (firstDof madof (n + 1) - 1)); [lia|]. cbn [orb]. rewrite andb_false_r.
    destruct (Z.leb_spec 0 (firstDof madof n - 1)); [|lia]. destruct (Z.leb_spec (firstDof madof n - 1) (firstDof madof (n + 1) - 1)); [|lia].
    destruct (Z.leb_spec (firstDof madof (n + 1) - 1) (Z.of_nat (length glob))); [|lia]. cbn [andb].
    rewrite IH. rewrite slice_map by lia. replace (firstDof madof (n + 1) - 1 - (firstDof madof n - 1)) with (firstDof madof (n + 1) - firstDof madof n) by lia.
    rewrite <- app_assoc. reflexivity.
Qed.
(** with INDEX_CHECK and the number of nodes given, no table can make the loop read out of bounds *)
Lemma extractLoop_safe madof ngnod glob nodes : 0 < ngnod -> ngnod + 1 <= Z.of_nat (length madof) ->
  forall out, exists r, extractLoop true madof ngnod glob nodes out = Some r.
Proof.
  intros G L. induction nodes as [|n nodes IH]; intros out; cbn [extractLoop]; [eauto|]. cbn [andb].
  destruct (Z.ltb_spec n 1); cbn [orb]; [eauto|]. destruct (Z.ltb_spec ngnod n); cbn [andb]; [destruct (Z.ltb_spec 0 ngnod); [eauto|lia]|].
  destruct (rdZ_dof madof n ltac:(lia)) as [-> ->]. cbn [bind]. cbv zeta. set (i := firstDof madof n - 1). set (j := firstDof madof (n + 1) - 1).
  destruct (Z.eqb_spec i j); [apply IH|]. destruct (Z.ltb_spec i 0); cbn [orb]; [eauto|]. destruct (Z.ltb_spec j i); cbn [orb]; [eauto|].
  destruct (Z.ltb_spec (Z.of_nat (length glob)) j); [eauto|]. destruct (Z.leb_spec 0 i); [|lia]. destruct (Z.leb_spec i j); [|lia].
  destruct (Z.leb_spec j (Z.of_nat (length glob))); [|lia]. cbn [andb]. apply IH.
Qed.

Definition ndofOf (madof : list Z) (n : Z) : nat := Z.to_nat (firstDof madof (n + 1) - firstDof madof n).
Lemma nodeVals_length madof glob n : length (nodeVals madof glob n) = ndofOf madof n.
Proof. unfold nodeVals. rewrite map_length, seq_length. reflexivity. Qed.
Definition totalDofs (madof : list Z) (ns : list Z) : nat := fold_right (fun n t => (ndofOf madof n + t)%nat) O ns.
Lemma flat_length madof glob ns : length (flat_map (nodeVals madof glob) ns) = totalDofs madof ns.
Proof. induction ns as [|n ns IH]; [reflexivity|]. cbn [flat_map totalDofs fold_right]. rewrite app_length, nodeVals_length, IH. reflexivity. Qed.
Lemma nodeVals_ext madof g h n : (forall p, ofNode madof n p -> 1 <= firstDof madof n -> nth p g 0%Qc = nth p h 0%Qc) -> 1 <= firstDof madof n -> nodeVals madof g n = nodeVals madof h n.
Proof.
  intros H L. unfold nodeVals. apply map_ext_in. intros k Hk. apply in_seq in Hk. apply H; [|exact L]. unfold ofNode. lia.
Qed.
Definition onNodes (sel : list (Z * bool)) : list Z := map fst (filter snd sel).

Lemma injectLoop_step chk madof nodeVec n rest ldof glob : okMADOF madof (length glob) -> 1 <= n < Z.of_nat (length madof) ->
  (ldof + ndofOf madof n <= length nodeVec)%nat ->
  exists g, length g = length glob /\ injectLoop chk madof nodeVec ((n, true) :: rest) ldof glob = injectLoop chk madof nodeVec rest (ldof + ndofOf madof n) g /\
    (forall p, ~ ofNode madof n p -> nth p g 0%Qc = nth p glob 0%Qc) /\
    nodeVals madof g n = firstn (ndofOf madof n) (skipn ldof nodeVec).
Proof.
  intros K Hn L. cbn [injectLoop negb]. unfold ndofOf in *. set (a := firstDof madof n) in *. set (b := firstDof madof (n + 1)) in *.
  assert (C : (n <? 1) || (Z.of_nat (length madof) <? n) = false) by (destruct (Z.ltb_spec n 1); [lia|]; destruct (Z.ltb_spec (Z.of_nat (length madof)) n); [lia|reflexivity]).
  rewrite C, andb_false_r. destruct (rdZ_dof _ _ Hn) as [-> ->]. cbn [bind]. pose proof (dof_bounds _ _ _ K Hn) as Bd. fold a b in Bd |- *. cbv zeta.
  replace (b - 1 - (a - 1)) with (b - a) by lia.
  destruct (Z.eqb_spec (b - a) 0) as [Q|Q].
  - exists glob. rewrite Q. cbn [Z.to_nat]. rewrite Nat.add_0_r. split; [auto|]. split; [auto|]. split; [auto|]. unfold nodeVals. fold a b. rewrite Q. reflexivity.
  - destruct (Z.ltb_spec (b - a) 0); [lia|]. destruct (Z.ltb_spec (Z.of_nat (length nodeVec)) (Z.of_nat ldof + (b - a))); [lia|]. cbn [orb]. rewrite andb_false_r.
    destruct (Z.ltb_spec (Z.of_nat (length glob)) (a - 1 + (b - a))); [lia|]. rewrite andb_false_r.
    destruct (Z.ltb_spec (a - 1) 0); [lia|].
    destruct (memcpy_ok 0%Qc (Z.to_nat (b - a)) ldof nodeVec (Z.to_nat (a - 1)) glob ltac:(lia) ltac:(lia)) as (g & E & Lg & G1 & G2).
    rewrite E. cbn [bind]. exists g. split; [exact Lg|]. split; [reflexivity|]. split.
    + intros p Hp. apply G2. unfold ofNode in Hp. fold a b in Hp. lia.
    + rewrite slice_map by lia. unfold nodeVals. fold a b. apply map_ext_in. intros k Hk. apply in_seq in Hk. apply G1. lia.
Qed.
Lemma injectLoop_ok chk madof nodeVec sel : nodesIn madof (onNodes sel) ->
  forall ldof glob, okMADOF madof (length glob) -> (ldof + totalDofs madof (onNodes sel) <= length nodeVec)%nat ->
  exists g, injectLoop chk madof nodeVec sel ldof glob = Some (true, g) /\ length g = length glob /\
    (forall p, (forall n, In n (onNodes sel) -> ~ ofNode madof n p) -> nth p g 0%Qc = nth p glob 0%Qc) /\
    (NoDup (onNodes sel) -> flat_map (nodeVals madof g) (onNodes sel) = firstn (totalDofs madof (onNodes sel)) (skipn ldof nodeVec)) /\
    (firstn (totalDofs madof (onNodes sel)) (skipn ldof nodeVec) = flat_map (nodeVals madof glob) (onNodes sel) -> g = glob).
Proof.
  induction sel as [|[n s] sel IH]; intros N ldof glob K T.
  - exists glob. cbn. auto.
  - destruct s.
    + unfold onNodes in *. cbn [filter snd map fst] in *. fold (onNodes sel) in *. inversion N as [|? ? Hn N']; subst. cbn [totalDofs fold_right] in T. fold (totalDofs madof (onNodes sel)) in T.
      destruct (injectLoop_step chk madof nodeVec n sel ldof glob K Hn ltac:(lia)) as (g1 & L1 & E1 & U1 & V1).
      destruct (IH N' (ldof + ndofOf madof n)%nat g1 ltac:(rewrite L1; exact K) ltac:(lia)) as (g & E & L & U & V & I).
      exists g. split; [rewrite E1; exact E|]. split; [congruence|]. split; [|split].
      * intros p Hp. rewrite U, U1; auto; [apply Hp; left; reflexivity|]. intros m Hm. apply Hp. right. exact Hm.
      * intros D. inversion D as [|? ? D1 D2]; subst. cbn [flat_map totalDofs fold_right]. fold (totalDofs madof (onNodes sel)). rewrite (V D2).
        assert (Q : nodeVals madof g n = nodeVals madof g1 n).
        { apply nodeVals_ext; [|apply (dof_bounds madof (length glob) n K Hn)]. intros p Hp _. apply U. intros m Hm Q. apply D1.
          assert (m = n); [|congruence]. unfold nodesIn in N'. rewrite Forall_forall in N'. eapply ofNode_inj; [exact K|apply N', Hm|exact Hn|exact Q|exact Hp]. }
        rewrite Q, V1. rewrite <- (firstn_skipn (ndofOf madof n) (firstn (ndofOf madof n + totalDofs madof (onNodes sel)) (skipn ldof nodeVec))).
        rewrite firstn_firstn. replace (Nat.min (ndofOf madof n) (ndofOf madof n + totalDofs madof (onNodes sel))) with (ndofOf madof n) by lia. f_equal.
        rewrite <- firstn_skipn_comm. rewrite skipn_skipn. replace (ndofOf madof n + ldof)%nat with (ldof + ndofOf madof n)%nat by lia. reflexivity.
      * intros S0. cbn [totalDofs fold_right flat_map] in S0. fold (totalDofs madof (onNodes sel)) in S0.
        assert (S1 : firstn (ndofOf madof n) (skipn ldof nodeVec) = nodeVals madof glob n).
        { apply (f_equal (firstn (ndofOf madof n))) in S0. rewrite firstn_firstn in S0. rewrite Nat.min_l in S0 by lia. rewrite S0. rewrite firstn_app, nodeVals_length, Nat.sub_diag. cbn [firstn]. rewrite app_nil_r. rewrite <- (nodeVals_length madof glob n). apply firstn_all. }
        assert (S2 : firstn (totalDofs madof (onNodes sel)) (skipn (ldof + ndofOf madof n) nodeVec) = flat_map (nodeVals madof glob) (onNodes sel)).
        { apply (f_equal (skipn (ndofOf madof n))) in S0. rewrite <- firstn_skipn_comm in S0. rewrite skipn_skipn in S0.
          replace (ndofOf madof n + ldof)%nat with (ldof + ndofOf madof n)%nat in S0 by lia. rewrite S0. rewrite skipn_app, nodeVals_length, Nat.sub_diag. cbn [skipn].
          rewrite skipn_all2 by (rewrite nodeVals_length; lia). reflexivity. }
        assert (G1 : g1 = glob).
        { apply nth_ext with (d := 0%Qc) (d' := 0%Qc); [exact L1|]. intros p _. destruct (Z.le_gt_cases (firstDof madof n) (Z.of_nat p + 1)) as [A|A]; [|apply U1; unfold ofNode; lia].
          destruct (Z.lt_ge_cases (Z.of_nat p + 1) (firstDof madof (n + 1))) as [B|B]; [|apply U1; unfold ofNode; lia].
          pose proof (dof_bounds madof (length glob) n K Hn) as Bd.
          assert (VV : nodeVals madof g1 n = nodeVals madof glob n) by congruence. unfold nodeVals in VV.
          apply (f_equal (fun l => nth (Z.to_nat (Z.of_nat p + 1 - firstDof madof n)) l 0%Qc)) in VV.
          rewrite !(nth_map' _ _ O) in VV by (rewrite seq_length; lia). rewrite seq_nth in VV by lia.
          replace (Z.to_nat (firstDof madof n - 1) + (0 + Z.to_nat (Z.of_nat p + 1 - firstDof madof n)))%nat with p in VV by lia. exact VV. }
        subst g1. apply I. exact S2.
    + unfold onNodes in *. cbn [filter snd injectLoop negb] in *. apply IH; auto.
Qed.
(** the check against the table size lets the node number [length madof] through *)
Lemma inject_off_by_one madof nodeVec glob rest ldof :
  injectLoop true madof nodeVec ((Z.of_nat (length madof), true) :: rest) ldof glob = None \/ madof = [].
Proof.
  destruct madof as [|a madof]; [right; reflexivity|left]. cbn [injectLoop negb andb]. set (l := a :: madof).
  assert (L : (1 <= length l)%nat) by (cbn; lia).
  destruct (Z.ltb_spec (Z.of_nat (length l)) 1); [lia|]. destruct (Z.ltb_spec (Z.of_nat (length l)) (Z.of_nat (length l))); [lia|]. cbn [orb].
  unfold rdZ at 2. destruct (Z.ltb_spec (Z.of_nat (length l)) 0); [lia|]. rewrite Nat2Z.id. rewrite (proj2 (nth_error_None l (length l))) by lia.
  destruct (rdZ l (Z.of_nat (length l) - 1)); reflexivity.
Qed.
