(** C83 (continued): errors per function of several patches.
    C84: the adaptive loop stops by its criteria. *)
From Coq Require Import ZArith QArith Qround Qabs Qminmax List Bool Lia Lqa Permutation Sorted.
From Verif Require Import Adap_model Adap_spec Adap_proofs Adap_proofs2.
Import ListNotations.
Local Open Scope Z_scope.

Lemma scatter_spec (p : rpatch) (loc : list Q) acc g :
  length (rp_mlgn p) = length loc -> Forall (fun i => (i < length acc)%nat) (rp_mlgn p) ->
  forall k, (k <= length loc)%nat ->
  let r := fold_left (fun err il => addAt err (nth (fst il) (rp_mlgn p) O) (snd il))
                     (firstn k (combine (seq 0 (length loc)) loc)) acc in
  length r = length acc /\
  (nth g r 0 == nth g acc 0 +
     (fix sum n := match n with
        | O => 0
        | S i => (if Nat.eqb (nth i (rp_mlgn p) O) g then nth i loc 0 else 0) + sum i end) k)%Q.
Proof.
  intros HL HF k. induction k as [|k IH]; intros Hk.
  - cbn [firstn fold_left]. split; auto. lra.
  - assert (E : firstn (S k) (combine (seq 0 (length loc)) loc)
        = firstn k (combine (seq 0 (length loc)) loc) ++ [(k, nth k loc 0%Q)]).
    { set (c := combine (seq 0 (length loc)) loc).
      assert (LC : length c = length loc) by (unfold c; rewrite combine_length, seq_length; lia).
      assert (EN : nth_error c k = Some (k, nth k loc 0%Q)).
      { rewrite (nth_error_nth' c (O, 0%Q)) by lia. f_equal. unfold c.
        rewrite combine_nth by (rewrite seq_length; auto). rewrite seq_nth by lia. auto. }
      assert (G : forall (c : list (nat * Q)) k x, nth_error c k = Some x ->
         firstn (S k) c = firstn k c ++ [x]).
      { intros d. induction d as [|y d IHd]; intros [|k2] x E; cbn in E; try discriminate.
        - injection E as ->. reflexivity.
        - cbn [firstn app]. f_equal. apply IHd. auto. }
      apply G. exact EN. }
    rewrite E, fold_left_app. cbn [fold_left fst snd].
    destruct (IH ltac:(lia)) as [A B]. cbv zeta in A, B.
    set (r := fold_left _ _ acc) in *. split; [rewrite addAt_length; auto|].
    rewrite addAt_nth.
    + rewrite B. destruct (Nat.eqb (nth k (rp_mlgn p) O) g); lra.
    + rewrite A. rewrite Forall_forall in HF. apply HF. apply nth_In. lia.
Qed.

Theorem adap_function_errors : forall nNodes ps refIn g,
  Forall (patch_ok nNodes) ps ->
  let r := functionErrors nNodes ps refIn in
  length r = nNodes /\ (nth g r 0 == globalSum ps refIn g)%Q.
Proof.
  intros nNodes ps refIn g HP r.
  assert (G : forall acc, length acc = nNodes ->
     let r := fold_left (fun err p =>
      let locNorm := map (fun id => nth (id - 1) refIn 0%Q) (rp_elm p) in
      let locErr := remapErrors (repeat 0%Q (rp_nf p)) (rp_supp p) locNorm in
      fold_left (fun err il => addAt err (nth (fst il) (rp_mlgn p) O) (snd il))
                (combine (seq 0 (length locErr)) locErr) err) ps acc in
     length r = nNodes /\ (nth g r 0 == nth g acc 0 + globalSum ps refIn g)%Q).
  { clear r. induction HP as [|p ps Hp HP IH]; intros acc HA; cbn [fold_left globalSum].
    - split; auto. lra.
    - destruct Hp as (P1 & P2 & P3 & P4).
      set (locErr := remapErrors (repeat 0%Q (rp_nf p)) (rp_supp p)
                       (map (fun id => nth (id - 1) refIn 0%Q) (rp_elm p))).
      assert (LE : length locErr = rp_nf p /\ forall b,
          (nth b locErr 0 == supportSum (rp_supp p) (patchErrors p refIn) b)%Q).
      { split; [|intros b].
        - destruct (remap_spec (rp_supp p) (patchErrors p refIn) (repeat 0%Q (rp_nf p)) O) as [A _].
          + unfold patchErrors. rewrite map_length. auto.
          + rewrite repeat_length. auto.
          + rewrite repeat_length in A. exact A.
        - destruct (remap_spec (rp_supp p) (patchErrors p refIn) (repeat 0%Q (rp_nf p)) b) as [_ B].
          + unfold patchErrors. rewrite map_length. auto.
          + rewrite repeat_length. auto.
          + unfold locErr. fold (patchErrors p refIn). rewrite B, nth_repeat. lra. }
      destruct LE as [LE EE].
      destruct (scatter_spec p locErr acc g ltac:(lia)) with (k := length locErr) as [A B];
        [rewrite HA; auto|auto|].
      rewrite firstn_all2 in A, B by (rewrite combine_length, seq_length; lia).
      set (acc' := fold_left _ (combine _ _) acc) in *.
      destruct (IH acc' ltac:(lia)) as [C D]. split; [exact C|].
      cbv zeta in D. rewrite D, B.
      assert (SS : forall n, ((fix sum n := match n with
        | O => 0
        | S i => (if Nat.eqb (nth i (rp_mlgn p) O) g then nth i locErr 0 else 0) + sum i end) n
         == patchSum p (patchErrors p refIn) g n)%Q).
      { induction n as [|n IHn]; [reflexivity|]. cbn [patchSum]. rewrite IHn.
        destruct (Nat.eqb (nth n (rp_mlgn p) O) g); [rewrite EE|]; reflexivity. }
      rewrite (SS (length locErr)), LE. lra. }
  destruct (G (repeat 0%Q nNodes) (repeat_length _ _)) as [A B]. split; [exact A|].
  unfold r, functionErrors. cbv zeta in B. rewrite B, nth_repeat. lra.
Qed.
Print Assumptions adap_function_errors.

(** The mesh is refined only when no criterion says stop: the number of steps
    and of degrees of freedom are within their limits, the error is at least
    the tolerance (in percent of the reference norm), which is positive, and
    the condition number is below its limit. *)
Theorem adap_refine_only_if : forall s i m,
  (exists l, calcRefinement s i m = Mark l \/ exists e, calcRefinement s i m = MarkErrors e) ->
  i <= s_maxStep s /\ t_dofs m <= s_maxDOFs s /\ (0 < t_ref m)%Q /\
  (exists e, at_ (nth (s_adaptor s) (t_gNorm m) []) (Z.of_nat (s_adNorm s) - 1) = Some e /\
             (s_errTol s / 100 * t_ref m <= e)%Q) /\
  ~ (t_rCond m == 0)%Q /\ (/ t_rCond m <= s_condLimit s)%Q.
Proof.
  intros s i m H. unfold calcRefinement in H. cbv zeta in H.
  destruct (Nat.eqb (t_npatch m) 0); [destruct H as (l & [H|(e & H)]); discriminate|].
  destruct (Nat.leb _ _ || _); [destruct H as (l & [H|(e & H)]); discriminate|].
  destruct (Nat.eqb (s_adaptor s) 0 && _); [destruct H as (l & [H|(e & H)]); discriminate|].
  destruct (qlt ((1 # 100) * t_ref m) (- epsZ)); [destruct H as (l & [H|(e & H)]); discriminate|].
  destruct (qlt ((1 # 100) * t_ref m) epsZ) eqn:ER; [destruct H as (l & [H|(e & H)]); discriminate|].
  destruct (Z.ltb_spec (s_maxStep s) i); [destruct H as (l & [H|(e & H)]); discriminate|].
  destruct (Z.ltb_spec (s_maxDOFs s) (t_dofs m)); [destruct H as (l & [H|(e & H)]); discriminate|].
  destruct (at_ _ _) as [er|]; [|destruct H as (l & [H|(e & H)]); discriminate].
  destruct (qlt er _) eqn:EE; [destruct H as (l & [H|(e & H)]); discriminate|].
  destruct (condHigh _ _) eqn:EC; [destruct H as (l & [H|(e & H)]); discriminate|].
  split; [lia|]. split; [lia|]. apply qlt_false in ER, EE. unfold epsZ in ER.
  split; [lra|]. split.
  - exists er. split; auto. assert (E : (s_errTol s / 100 * t_ref m == s_errTol s * ((1 # 100) * t_ref m))%Q)
      by field. rewrite E. auto.
  - unfold condHigh in EC. destruct (Qeq_bool (t_rCond m) 0) eqn:EQ; [discriminate|].
    apply qlt_false in EC. split; auto. apply Qeq_bool_neq. auto.
Qed.
Print Assumptions adap_refine_only_if.

(** Conversely each criterion stops the refinement of a valid model. *)
Theorem adap_stop : forall s i m e,
  (0 < t_npatch m)%nat -> (s_adaptor s < length (t_gNorm m))%nat -> t_refIn m <> [] ->
  (s_adaptor s = O -> t_ana m = true) -> (1#1000 <= t_ref m)%Q ->
  at_ (nth (s_adaptor s) (t_gNorm m) []) (Z.of_nat (s_adNorm s) - 1) = Some e ->
  (s_maxStep s < i \/ s_maxDOFs s < t_dofs m \/ (e < s_errTol s / 100 * t_ref m)%Q \/
   (t_rCond m == 0)%Q \/ (s_condLimit s < / t_rCond m)%Q) ->
  calcRefinement s i m = Ret 0.
Proof.
  intros s i m e H1 H2 H3 H4 H5 H6 HC. unfold calcRefinement. cbv zeta.
  destruct (Nat.eqb_spec (t_npatch m) 0); [lia|].
  destruct (Nat.leb_spec (length (t_gNorm m)) (s_adaptor s)); [lia|].
  destruct (Nat.eqb_spec (length (t_refIn m)) 0) as [E0|];
    [destruct (t_refIn m); [tauto|discriminate]|]. cbn [orb].
  assert (E : Nat.eqb (s_adaptor s) 0 && negb (t_ana m) = false).
  { destruct (Nat.eqb_spec (s_adaptor s) 0); auto. rewrite H4 by auto. reflexivity. }
  rewrite E.
  assert (E1 : qlt ((1 # 100) * t_ref m) (- epsZ) = false) by (apply qlt_false; unfold epsZ; lra).
  assert (E2 : qlt ((1 # 100) * t_ref m) epsZ = false) by (apply qlt_false; unfold epsZ; lra).
  rewrite E1, E2, H6.
  destruct (Z.ltb_spec (s_maxStep s) i); auto.
  destruct (Z.ltb_spec (s_maxDOFs s) (t_dofs m)); auto.
  destruct (qlt e (s_errTol s * ((1 # 100) * t_ref m))) eqn:EE; auto.
  apply qlt_false in EE.
  assert (E3 : (s_errTol s / 100 * t_ref m == s_errTol s * ((1 # 100) * t_ref m))%Q) by field.
  unfold condHigh. destruct (Qeq_bool (t_rCond m) 0) eqn:EQ; auto.
  apply Qeq_bool_neq in EQ.
  destruct (qlt (s_condLimit s) (/ t_rCond m)) eqn:EL; auto. apply qlt_false in EL.
  exfalso. destruct HC as [HC|[HC|[HC|[HC|HC]]]]; try lia; try tauto; lra.
Qed.
Print Assumptions adap_stop.

(** The loop ends: whatever the model does, at most max(1,maxstep) meshes are
    solved.  Every mesh but the first is a successful refinement of its
    predecessor, and the return value tells why the loop ended: 0 when the last
    mesh was not refined, 1 when a solution failed, 2 when the output failed. *)
Theorem adap_loop : forall s env fuel rc n,
  Z.max 1 (s_maxStep s) < Z.of_nat fuel ->
  solveLoop s env fuel 1 0 = Some (rc, n) ->
  0 <= n <= Z.max 1 (s_maxStep s) /\
  (forall i, 1 <= i <= n -> c_solve (env i) = true) /\
  (forall i, 2 <= i <= n -> refines s env i) /\
  (forall i, 1 <= i < n -> c_write (env i) = true) /\
  ((rc = 0 /\ 1 <= n /\ c_write (env n) = true /\ ~ refines s env (n + 1)) \/
   (rc = 1 /\ (1 <= n -> c_write (env n) = true /\ refines s env (n + 1)) /\
    c_solve (env (n + 1)) = false) \/
   (rc = 2 /\ 1 <= n /\ c_write (env n) = false)).
Proof.
  intros s env fuel rc n Hf.
  assert (AM : forall i, 2 <= i ->
     match adaptMesh s i (c_stat (env i)) (c_refine (env i)) with
     | None => True
     | Some true => refines s env i /\ i <= s_maxStep s
     | Some false => ~ refines s env i
     end).
  { intros i Hi. unfold adaptMesh, refines. destruct (Z.ltb_spec i 2); [lia|].
    destruct (calcRefinement s i (c_stat (env i))) as [c|l|e|] eqn:E; auto.
    - destruct (c <=? 0) eqn:EC.
      + intros (_ & [(l & _ & X)|(l & _ & X)]); discriminate.
      + exfalso. apply Z.leb_gt in EC.
        revert E. unfold calcRefinement. cbv zeta.
        repeat match goal with |- context[if ?b then _ else _] => destruct b end;
          try (intros X; injection X as X; lia); try discriminate;
        destruct (at_ _ _); try discriminate;
        repeat match goal with |- context[if ?b then _ else _] => destruct b end;
          try (intros X; injection X as X; lia); try discriminate;
        destruct (s_thr s), (s_scheme s);
        repeat match goal with
          | |- context[if ?b then _ else _] => destruct b
          | |- context[match select ?a ?b ?c ?d with _ => _ end] => destruct (select a b c d)
          end; try (intros X; injection X as X; lia); discriminate.
    - destruct (adap_refine_only_if s i (c_stat (env i))) as (A & _); [exists l; auto|].
      destruct (Z.leb_spec (Z.of_nat (length l)) 0).
      + destruct l; [|cbn [length] in *; lia].
        intros (_ & [(l & L & X)|(l & _ & X)]); [injection X as <-; auto|discriminate].
      + destruct (c_refine (env i)).
        * split; auto. split; auto. left. exists l. split; auto. intros ->. cbn in *. lia.
        * intros (X & _). discriminate.
    - destruct (adap_refine_only_if s i (c_stat (env i))) as (A & _); [exists []; eauto|].
      destruct (Z.leb_spec (Z.of_nat (length e)) 0).
      + destruct e; [|cbn [length] in *; lia].
        intros (_ & [(l & _ & X)|(l & L & X)]); [discriminate|injection X as <-; auto].
      + destruct (c_refine (env i)).
        * split; auto. split; auto. right. exists e. split; auto. intros ->. cbn in *. lia.
        * intros (X & _). discriminate. }
  assert (G : forall fuel i, 1 <= i -> i <= Z.max 1 (s_maxStep s) + 1 ->
     Z.max 1 (s_maxStep s) + 2 <= Z.of_nat fuel + i ->
     (forall j, 1 <= j <= i - 1 -> c_solve (env j) = true) ->
     (forall j, 2 <= j <= i - 1 -> refines s env j) ->
     (forall j, 1 <= j <= i - 1 -> c_write (env j) = true) ->
     solveLoop s env fuel i (i - 1) = Some (rc, n) ->
     0 <= n <= Z.max 1 (s_maxStep s) /\
     (forall i, 1 <= i <= n -> c_solve (env i) = true) /\
     (forall i, 2 <= i <= n -> refines s env i) /\
     (forall i, 1 <= i < n -> c_write (env i) = true) /\
     ((rc = 0 /\ 1 <= n /\ c_write (env n) = true /\ ~ refines s env (n + 1)) \/
      (rc = 1 /\ (1 <= n -> c_write (env n) = true /\ refines s env (n + 1)) /\
       c_solve (env (n + 1)) = false) \/
      (rc = 2 /\ 1 <= n /\ c_write (env n) = false))).
  { clear fuel Hf. induction fuel as [|fuel IH]; intros i Hi HU HF H1 H2 H3; [cbn in HF; lia|].
    cbn [solveLoop]. specialize (AM i).
    assert (A1 : i = 1 -> adaptMesh s i (c_stat (env i)) (c_refine (env i)) = Some true)
      by (intros ->; reflexivity).
    destruct (adaptMesh s i (c_stat (env i)) (c_refine (env i))) as [[]|]; [| |discriminate].
    - assert (R : 2 <= i -> refines s env i) by (intros X; apply AM; auto).
      assert (M : i <= Z.max 1 (s_maxStep s)).
      { destruct (Z.eq_dec i 1); [lia|]. destruct AM as [_ M]; lia. }
      destruct (c_solve (env i)) eqn:ES; cbn [negb].
      + assert (S1 : forall j, 1 <= j <= i -> c_solve (env j) = true).
        { intros j Hj. destruct (Z.eq_dec j i) as [-> |]; auto. apply H1. lia. }
        assert (S2 : forall j, 2 <= j <= i -> refines s env j).
        { intros j Hj. destruct (Z.eq_dec j i) as [-> |]; [apply R; lia|]. apply H2. lia. }
        destruct (c_write (env i)) eqn:EW; cbn [negb]; intros E.
        * apply (IH (i + 1)); try lia; auto.
          -- intros j Hj. apply S1. lia.
          -- intros j Hj. apply S2. lia.
          -- intros j Hj. destruct (Z.eq_dec j i) as [-> |]; auto. apply H3. lia.
          -- replace (i + 1 - 1) with (i - 1 + 1) by lia. exact E.
        * assert (EN : n = i) by (injection E as _ <-; lia).
          assert (ER : rc = 2) by congruence. clear E. subst n rc.
          repeat split; try lia; auto; intros; try (apply H3; lia); try (apply S2; lia).
      + intros E. assert (EN : n = i - 1) by congruence.
        assert (ER : rc = 1) by congruence. clear E. subst n rc.
        repeat split; try lia; auto; intros; try (apply H3; lia); try (apply H2; lia).
        right. left. replace (i - 1 + 1) with i by lia. split; auto. split; auto.
        intros HN. split; [apply H3; lia|apply R; lia].
    - intros E. assert (EN : n = i - 1) by congruence.
      assert (ER : rc = 0) by congruence. clear E. subst n rc.
      assert (i <> 1) by (intros X; specialize (A1 X); discriminate).
      repeat split; try lia; auto; intros; try (apply H3; lia); try (apply H2; lia).
      left. replace (i - 1 + 1) with i by lia. repeat split; try lia; [apply H3; lia|].
      apply AM. lia. }
  apply (G fuel 1); try lia; intros j Hj; lia.
Qed.
Print Assumptions adap_loop.

(* ---- what does not hold ---- *)
Definition set0 : setup := mkSetup 0 1 10 None 1 1000000 10 1000 NONE FULLSPAN (1#1000000).
Definition stat0 : status := mkStatus 1 true [[5%Q]] [3%Q; 4%Q] 5 100 1 0 [].
Definition env0 (st : status) : Z -> cycle := fun _ => mkCycle st true true true.

(** Modelling errors (negative reference norm, several patches with element
    based refinement) and failing refinements end the loop with the return
    value of success. *)
Theorem adap_error_reported_refuted :
  (exists m, calcRefinement set0 2 m = Ret (-1) /\
     solveLoop set0 (env0 m) 5 1 0 = Some (0, 1)) /\
  (exists m, calcRefinement set0 2 m = Ret (-4) /\
     solveLoop set0 (env0 m) 5 1 0 = Some (0, 1)) /\
  (exists env, c_refine (env 2) = false /\ solveLoop set0 env 5 1 0 = Some (0, 1)).
Proof.
  split; [|split].
  - exists (mkStatus 1 true [[5%Q]] [3%Q; 4%Q] (-5) 100 1 0 []). split; vm_compute; reflexivity.
  - exists (mkStatus 2 true [[5%Q]] [3%Q; 4%Q] 5 100 1 0 []). split; vm_compute; reflexivity.
  - exists (fun _ => mkCycle stat0 false true true). split; vm_compute; reflexivity.
Qed.
Print Assumptions adap_error_reported_refuted.

(* ---- examples ---- *)
Example ex_loop : solveLoop set0 (env0 stat0) 20 1 0 = Some (0, 10) /\
  calcRefinement set0 2 stat0 = Mark [1].
Proof. split; vm_compute; reflexivity. Qed.
Example ex_func : functionErrors 3 [mkRP [1%nat] [[0%nat; 1%nat]] 2 [0%nat; 1%nat];
                                    mkRP [2%nat] [[0%nat; 1%nat]] 2 [1%nat; 2%nat]] [1%Q; 2%Q]
  = [1%Q; 3%Q; 2%Q].
Proof. vm_compute. reflexivity. Qed.
Example ex_stop_tol : calcRefinement set0 2 (mkStatus 1 true [[1#100]%Q] [3%Q; 4%Q] 5 100 1 0 []) = Ret 0.
Proof. vm_compute. reflexivity. Qed.
