(** The same invariant without the consistency of the interfaces: functions with
    the same number are connected, and the numbers are consecutive. *)
From Coq Require Import List Arith ZArith Bool Lia Relations Sorted.
From Verif Require Import Gno_model Gno_spec Gno_proofs Gno_proofs2.
Import ListNotations.

Section Inv.
Variable nf : list nat.
Variable bnd : boundary.
Variable ifs : list iface.
Hypothesis OK : ifs_ok nf bnd ifs.
Hypothesis OWN : own nf bnd ifs.

Notation J := (joined bnd ifs).
Notation C := (connectedBy bnd ifs).
Notation later := (later nf).

(** After the first k patches. *)
Record inv0 (k : nat) (r : list (list nat)) (M : nat) : Prop := {
  w_shape : map (@length nat) r = nf;
  w_eq : forall x y, valid nf x -> valid nf y -> num r x = num r y -> C k x y;
  w_lt : forall x, valid nf x -> fst x < k -> num r x < M;
  w_all : forall v, v < M -> exists x, valid nf x /\ fst x < k /\ num r x = v;
  w_seq : exists n, filter (ge M) (map (num r) (later k)) = seq M n }.

Lemma remap0 k r M : k < length nf -> inv0 k r M ->
  exists m, mapIfs r bnd k (ifset ifs) [] = Some m /\
    let r1 := firstn k r ++ map (map (renumber m)) (skipn k r) in
    map (@length nat) r1 = nf /\
    (forall x, valid nf x -> fst x < k -> num r1 x = num r x) /\
    (forall x, valid nf x -> num r1 x = num r x \/
       exists w y, J w y /\ fst w = k /\ num r y = num r x /\ num r1 x = num r w).
Proof.
  intros Hk [HS HE HL HA HQ].
  destruct (mapIfs_spec nf r bnd k HS Hk (ifset ifs) [] (ifset_ok nf bnd ifs OK)) as (m & EM & A & _ & D).
  exists m. split; auto. intros r1.
  assert (LR : length r = length nf) by (rewrite <- HS, map_length; auto).
  assert (L1 : map (@length nat) r1 = nf).
  { unfold r1. rewrite map_app, map_map.
    rewrite (map_ext (fun l => length (map (renumber m) l)) (@length nat))
      by (intros; apply map_length).
    rewrite <- map_app, firstn_skipn. auto. }
  assert (LOW : forall x, valid nf x -> fst x < k -> num r1 x = num r x).
  { intros x Hx Hf. unfold r1. rewrite num_app_low by (rewrite firstn_length; lia).
    rewrite <- (firstn_skipn k r) at 2. rewrite num_app_low; [reflexivity|].
    rewrite firstn_length; lia. }
  assert (HIGH : forall x, valid nf x -> k <= fst x -> num r1 x = renumber m (num r x)).
  { intros x Hx Hf. unfold r1, num. rewrite app_nth2; rewrite firstn_length; [|lia].
    replace (Nat.min k (length r)) with k by lia.
    set (l := nth (fst x - k) (skipn k r) []).
    assert (EL : nth (fst x) r [] = l).
    { unfold l. rewrite <- (firstn_skipn k r) at 1. rewrite app_nth2; rewrite firstn_length; [|lia].
      f_equal. lia. }
    assert (EM2 : nth (fst x - k) (map (map (renumber m)) (skipn k r)) [] = map (renumber m) l).
    { change (@nil nat) with (map (renumber m) []). rewrite map_nth. reflexivity. }
    rewrite EM2, EL. destruct Hx as [V1 V2].
    rewrite <- HS in V2. change 0 with (@length nat []) in V2. rewrite map_nth, EL in V2.
    rewrite (nth_indep _ 0 (renumber m 0)) by (rewrite map_length; auto).
    rewrite map_nth. reflexivity. }
  split; auto. split; [auto|]. intros x Hx.
  destruct (Nat.lt_ge_cases (fst x) k) as [Lk|Lk]; auto.
  rewrite HIGH by auto. unfold renumber.
  destruct (find m (num r x)) as [v|] eqn:EF; auto.
  destruct (A _ _ EF) as [X|(w' & x' & X1 & X2 & X3 & X4)]; [discriminate|].
  right. exists w', x'. rewrite (joined_set nf bnd ifs OK) in X1. auto.
Qed.

Lemma step0 k r M : k < length nf -> inv0 k r M ->
  exists r' M', pass bnd (ifset ifs) r k = Some r' /\ inv0 (S k) r' M' /\
    maxOf (nth k r' []) = Some (M' - 1) /\ 1 <= M'.
Proof.
  intros Hk I. destruct (remap0 k r M Hk I) as (m & EM & R).
  set (r1 := firstn k r ++ map (map (renumber m)) (skipn k r)) in *. cbv zeta in R.
  destruct R as (L1 & KEEP & CH). destruct I as [HS HE HL HA HQ].
  pose proof (joined_valid nf bnd ifs OK) as JV.
  assert (LR1 : length r1 = length nf) by (rewrite <- L1, map_length; auto).
  unfold pass. rewrite EM. fold r1.
  rewrite (nth_error_nth' r1 []) by lia. set (ri := nth k r1 []).
  (* the numbers of patch k *)
  assert (LRI : length ri = nth k nf 0).
  { unfold ri. rewrite <- L1. change 0 with (@length nat []). rewrite map_nth. reflexivity. }
  assert (VK : forall a, a < nth k nf 0 -> valid nf (k, a)) by (intros a Ha; split; auto).
  set (P := map (num r) (map (pair k) (seq 0 (nth k nf 0)))).
  assert (PI : forall x, valid nf x -> fst x = k -> In (num r x) P).
  { intros [p a] [_ V] E. cbn in E, V. subst p. apply in_map. apply in_map. apply in_seq. lia. }
  assert (RI : forall x, valid nf x -> fst x = k -> In (num r1 x) ri).
  { intros [p a] [_ V] E. cbn in E, V. subst p. unfold num. cbn [fst snd]. fold ri.
    apply nth_In. lia. }
  assert (RII : forall v, In v ri -> exists x, valid nf x /\ fst x = k /\ num r1 x = v).
  { intros v Hv. apply (In_nth _ _ 0) in Hv. destruct Hv as (a & A1 & A2).
    exists (k, a). split; [apply VK; lia|]. split; auto. }
  destruct HQ as (n & HQ).
  assert (UQ : forall x y, valid nf x -> valid nf y -> k <= fst x -> k <= fst y ->
     M <= num r x -> num r x = num r y -> x = y).
  { intros x y Hx Hy Fx Fy L E. apply (filter_NoDup_inj (num r) M (later k)); auto.
    - rewrite HQ. apply seq_NoDup.
    - apply later_In; [lia|split; auto].
    - apply later_In; [lia|split; auto]. }
  rewrite (later_S nf k Hk), map_app in HQ. fold P in HQ. rewrite filter_app in HQ.
  destruct (app_seq_inv _ _ _ _ HQ) as [QA QB]. clear HQ n.
  set (s := length (filter (ge M) P)) in *.
  set (rest := map (num r) (later (S k))) in *.
  assert (S1 : 1 <= s).
  { destruct (OWN k Hk) as (a & A1 & A2).
    assert (G : In (num r (k, a)) (filter (ge M) P)).
    { apply filter_In. split; [apply PI; auto|].
      unfold ge. apply Nat.leb_le. destruct (Nat.lt_ge_cases (num r (k, a)) M) as [L|L]; auto.
      exfalso. destruct (HA _ L) as (y & Y1 & Y2 & Y3). symmetry in Y3.
      apply HE in Y3; auto. apply C_single in Y3; [subst y; cbn in Y2; lia|cbn; lia|].
      intros w _. apply A2. }
    unfold s. destruct (filter (ge M) P); [destruct G|cbn; lia]. }
  assert (PLT : forall v, In v P -> v < M + s).
  { intros v Hv. destruct (Nat.lt_ge_cases v M) as [L|L]; [lia|].
    assert (G : In v (filter (ge M) P)) by (apply filter_In; split; auto; apply Nat.leb_le; auto).
    rewrite QA in G. apply in_seq in G. lia. }
  set (M' := M + s) in *.
  assert (LOWM : forall x, valid nf x -> fst x <= k -> num r x < M').
  { intros x Hx Hf. destruct (Nat.eq_dec (fst x) k) as [E|E].
    - apply PLT. apply PI; auto.
    - assert (num r x < M) by (apply HL; auto; lia). unfold M'. lia. }
  assert (LOWM1 : forall x, valid nf x -> fst x <= k -> num r1 x < M').
  { intros x Hx Hf. destruct (CH x Hx) as [-> |(w & y & W1 & W2 & W3 & ->)]; [apply LOWM; auto|].
    apply LOWM; [apply (JV w y W1)|lia]. }
  assert (HIK : forall x, valid nf x -> fst x = k -> M <= num r x -> num r1 x = num r x).
  { intros x Hx Hf L. destruct (CH x Hx) as [-> |(w & y & W1 & W2 & W3 & ->)]; auto.
    exfalso. destruct (JV w y W1) as (_ & V2 & V3).
    assert (x = y) by (apply UQ; auto; lia). subst y. lia. }
  assert (HIX : forall v, M <= v < M' -> exists x, valid nf x /\ fst x = k /\ num r1 x = v).
  { intros v Hv. assert (G : In v (filter (ge M) P)) by (rewrite QA; apply in_seq; unfold M' in Hv; lia).
    apply filter_In in G. destruct G as [G _]. unfold P in G.
    apply in_map_iff in G. destruct G as (x & X1 & X2).
    apply in_map_iff in X2. destruct X2 as (a & X2 & X3). apply in_seq in X3. subst x.
    exists (k, a). split; [apply VK; lia|]. split; auto. rewrite HIK; auto; [apply VK; lia|lia]. }
  assert (PIN : In (M' - 1) ri).
  { destruct (HIX (M' - 1)) as (x & X1 & X2 & <-); [unfold M'; lia|]. apply RI; auto. }
  destruct (maxOf ri) as [mx|] eqn:EX; [|destruct ri; [destruct PIN|discriminate]].
  assert (MX : mx = M' - 1).
  { destruct (maxOf_spec _ _ EX) as [X1 X2]. rewrite Forall_forall in X2.
    specialize (X2 _ PIN). destruct (RII _ X1) as (x & V1 & V2 & <-).
    specialize (LOWM1 x V1). lia. }
  set (r' := firstn (S k) r1 ++ compress mx (skipn (S k) r1)).
  exists r', M'. split; [reflexivity|].
  assert (SH : map (@length nat) r' = nf).
  { unfold r'. rewrite map_app, compress_lengths, <- map_app, firstn_skipn. auto. }
  assert (LOW : forall x, valid nf x -> fst x <= k -> num r' x = num r1 x).
  { intros x Hx Hf. unfold r'.
    rewrite num_app_low by (rewrite firstn_length; lia).
    rewrite <- (firstn_skipn (S k) r1) at 2. rewrite num_app_low; [reflexivity|].
    rewrite firstn_length; lia. }
  (* later patches *)
  assert (FL : map (num r') (later (S k)) = snd (compress1 mx (map (num r1) (later (S k))))).
  { unfold later. rewrite <- (concat_skipn r' (S k) nf SH) by lia.
    rewrite <- (concat_skipn r1 (S k) nf L1) by lia. rewrite <- compress_flat.
    unfold r'. rewrite skipn_app, (skipn_all2 (firstn (S k) r1)) by (rewrite firstn_length; lia).
    rewrite firstn_length. replace (S k - Nat.min (S k) (length r1)) with 0 by lia. reflexivity. }
  assert (SO : StronglySorted lt (filter (ge M') rest)).
  { rewrite <- (filter_ge_ge M M') by (unfold M'; lia). rewrite QB. fold M'.
    rewrite filter_all; [apply seq_sorted|]. intros v Hv. apply in_seq in Hv.
    unfold ge. apply Nat.leb_le. lia. }
  assert (R1 : forall x, In x (later (S k)) -> num r1 x = num r x \/ num r1 x < M').
  { intros x Hx. apply later_In in Hx; [|lia]. destruct Hx as [X1 X2].
    destruct (CH x X2) as [|(w & y & W1 & W2 & W3 & ->)]; auto.
    right. apply LOWM; [apply (JV w y W1)|lia]. }
  assert (SO1 : StronglySorted lt (filter (ge M') (map (num r1) (later (S k))))).
  { apply (filter_sub_sorted (num r)); auto. }
  destruct (compress1_spec (num r1) (num r') (later (S k)) M' mx) as (G1 & G2 & G3); auto.
  { unfold M'. lia. }
  { apply Forall_forall. intros v Hv. apply filter_In in Hv. destruct Hv as [_ Hv].
    unfold ge in Hv. apply Nat.leb_le in Hv. unfold M' in Hv. lia. }
  (* equality for r1 *)
  assert (E1 : forall x y, valid nf x -> valid nf y -> num r1 x = num r1 y -> C (S k) x y).
  { intros x y Hx Hy.
    assert (REP : forall z, valid nf z -> exists z', valid nf z' /\ C (S k) z z' /\ num r1 z = num r z').
    { intros z Hz. destruct (CH z Hz) as [E|(w & y' & W1 & W2 & W3 & W4)].
      - exists z. split; auto. split; auto. apply C_refl.
      - exists w. destruct (JV w y' W1) as (V1 & V2 & V3). split; auto. split; auto.
        apply C_trans with y'.
        + apply C_le with k; [lia|]. apply HE; auto.
        + apply C_sym. apply C_step; auto. lia. }
    destruct (REP x Hx) as (x' & X1 & X2 & X3), (REP y Hy) as (y' & Y1 & Y2 & Y3).
    rewrite X3, Y3. intros E. apply HE in E; auto.
    apply C_trans with x'; auto. apply C_trans with y'; [|apply C_sym; auto].
    apply C_le with k; auto. }
  split; [|split].
  2:{ unfold r'. rewrite app_nth1 by (rewrite firstn_length; lia).
      assert (EK : nth k (firstn (S k) r1) [] = ri).
      { unfold ri. rewrite <- (firstn_skipn (S k) r1) at 2. rewrite app_nth1; [reflexivity|].
        rewrite firstn_length; lia. }
      rewrite EK, EX, MX. reflexivity. }
  2:{ unfold M'. lia. }
  constructor; auto.
  - intros x y Hx Hy E. apply E1; auto. revert E.
    assert (K : forall z, valid nf z ->
       (num r' z = num r1 z /\ num r1 z < M') \/
       (In z (later (S k)) /\ M' <= num r1 z /\ M' <= num r' z)).
    { intros z Hz. destruct (Nat.le_gt_cases (fst z) k) as [L|L].
      - left. rewrite LOW by auto. split; auto.
      - assert (Z1 : In z (later (S k))) by (apply later_In; [lia|split; auto]).
        destruct (Nat.lt_ge_cases (num r1 z) M') as [Q|Q]; [left|right]; auto. }
    destruct (K x Hx) as [(X1 & X2)|(X1 & X2 & X3)], (K y Hy) as [(Y1 & Y2)|(Y1 & Y2 & Y3)].
    + rewrite X1, Y1. tauto.
    + lia.
    + lia.
    + intros E. f_equal. apply (filter_NoDup_inj (num r') M' (later (S k))); auto.
      rewrite G1. apply seq_NoDup.
  - intros x Hx Hf. rewrite LOW by (auto; lia). apply LOWM1; auto. lia.
  - intros v Hv. destruct (Nat.lt_ge_cases v M) as [L|L].
    + destruct (HA v L) as (x & X1 & X2 & X3). exists x. split; auto. split; [lia|].
      rewrite LOW; auto; [|lia]. rewrite KEEP; auto.
    + destruct (HIX v) as (x & X1 & X2 & X3); [lia|]. exists x. split; auto. split; [lia|].
      rewrite LOW; auto. lia.
  - exists (length (filter (ge M') (map (num r1) (later (S k))))). rewrite G1. f_equal. unfold M'. lia.
Qed.

Lemma init0 : inv0 0 (initial nf 0) 0.
Proof.
  destruct (inv_init nf bnd ifs) as [A B D E F]. constructor; auto.
  intros x y Hx Hy. apply B; auto.
Qed.

Lemma loop0 : forall j, j <= length nf ->
  exists r M, fold_left (fun o i => match o with
                        | None => None
                        | Some r => pass bnd (ifset ifs) r i
                        end) (seq 0 j) (Some (initial nf 0)) = Some r /\
    inv0 j r M /\ (0 < j -> maxOf (nth (j - 1) r []) = Some (M - 1) /\ 1 <= M).
Proof.
  induction j as [|j IH]; intros Hj.
  - exists (initial nf 0), 0. split; [reflexivity|]. split; [apply init0|lia].
  - destruct (IH ltac:(lia)) as (r & M & E & I & _).
    destruct (step0 j r M ltac:(lia) I) as (r' & M' & E' & I' & X).
    exists r', M'. rewrite seq_S, fold_left_app, E. cbn [fold_left plus]. split; auto.
    split; auto. intros _. replace (S j - 1) with j by lia. exact X.
Qed.
End Inv.

