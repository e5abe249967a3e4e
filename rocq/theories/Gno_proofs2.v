(** The invariant of the loop over the patches. *)
From Coq Require Import List Arith ZArith Bool Lia Relations Sorted.
From Verif Require Import Gno_model Gno_spec Gno_proofs.
Import ListNotations.

Section Inv.
Variable nf : list nat.
Variable bnd : boundary.
Variable ifs : list iface.
Hypothesis OK : ifs_ok nf bnd ifs.
Hypothesis OWN : own nf bnd ifs.
Hypothesis CONS : consistent bnd ifs.

Notation J := (joined bnd ifs).
Notation C := (connectedBy bnd ifs).

Lemma joined_valid x y : J x y -> valid nf x /\ valid nf y /\ fst x < fst y.
Proof.
  intros (it & n & I1 & I2 & I3 & I4 & I5). destruct OK as [O _].
  destruct (O it I1) as ((M1 & M2) & M3 & M4 & M5 & M6).
  replace (i_master it - 1) with (fst x) in * by lia.
  replace (i_slave it - 1) with (fst y) in * by lia.
  rewrite Forall_forall in M5, M6.
  apply nth_error_In in I4, I5. repeat split; try lia; auto.
Qed.

Lemma C_refl k x : C k x x.
Proof. apply rst_refl. Qed.
Lemma C_sym k x y : C k x y -> C k y x.
Proof. apply rst_sym. Qed.
Lemma C_trans k x y z : C k x y -> C k y z -> C k x z.
Proof. apply rst_trans. Qed.
Lemma C_le k k' x y : k <= k' -> C k x y -> C k' x y.
Proof.
  intros L H. induction H as [x y [A B]| | |].
  - apply rst_step. split; auto. lia.
  - apply rst_refl.
  - apply rst_sym; auto.
  - eapply rst_trans; eauto.
Qed.
Lemma C_step k x y : J x y -> fst x < k -> C k x y.
Proof. intros A B. apply rst_step. auto. Qed.

(** A function that is neither master in the first k patches nor slave of them
    is connected to itself only. *)
Lemma C_single k x y : k <= fst x -> (forall w, fst w < k -> ~ J w x) -> C k x y -> x = y.
Proof.
  intros Hk Hs H.
  assert (G : forall a b, C k a b -> (a = x <-> b = x)).
  { intros a b R. induction R as [a b [A B]| | |a b c _ IH1 _ IH2].
    - split; intros ->; exfalso; [lia|]. apply (Hs a); auto.
    - tauto.
    - tauto.
    - tauto. }
  symmetry. apply (G x y H). reflexivity.
Qed.

Lemma joined_set x y : joined bnd (ifset ifs) x y <-> J x y.
Proof.
  destruct OK as [_ ND]. unfold joined.
  split; intros (it & n & A & B); exists it, n; (split; [|exact B]);
    apply (ifset_In ifs it ND); exact A.
Qed.

Lemma ifset_ok : Forall (if_ok nf bnd) (ifset ifs).
Proof.
  destruct OK as [O ND]. apply Forall_forall. intros it Hi.
  apply (ifset_In ifs it ND) in Hi. apply O. auto.
Qed.

Definition later k := nodes k (skipn k nf).

Lemma later_In k x : k <= length nf -> (In x (later k) <-> k <= fst x /\ valid nf x).
Proof.
  intros Hk. unfold later, valid. rewrite nodes_In, skipn_length.
  assert (E : forall i, nth i (skipn k nf) 0 = nth (k + i) nf 0).
  { intros i. rewrite <- (firstn_skipn k nf) at 2. rewrite app_nth2; rewrite firstn_length; [|lia].
    f_equal. lia. }
  rewrite E. split.
  - intros (A & B). replace (k + (fst x - k)) with (fst x) in B by lia. lia.
  - intros (A & B & D). replace (k + (fst x - k)) with (fst x) by lia. lia.
Qed.

Lemma later_S k : k < length nf ->
  later k = map (pair k) (seq 0 (nth k nf 0)) ++ later (S k).
Proof.
  intros Hk. unfold later.
  assert (E : skipn k nf = nth k nf 0 :: skipn (S k) nf).
  { clear OK OWN CONS. revert k Hk. induction nf as [|n l IH]; intros [|k] Hk; cbn [length] in *; try lia; [reflexivity|].
    cbn [skipn nth]. rewrite IH by lia. reflexivity. }
  rewrite E. reflexivity.
Qed.

(** After the first k patches. *)
Record inv (k : nat) (r : list (list nat)) (M : nat) : Prop := {
  v_shape : map (@length nat) r = nf;
  v_eq : forall x y, valid nf x -> valid nf y -> (num r x = num r y <-> C k x y);
  v_lt : forall x, valid nf x -> fst x < k -> num r x < M;
  v_all : forall v, v < M -> exists x, valid nf x /\ fst x < k /\ num r x = v;
  v_seq : exists n, filter (ge M) (map (num r) (later k)) = seq M n }.

Lemma initial_shape n l : map (@length nat) (initial l n) = l.
Proof. revert n. induction l as [|a l IH]; intros n; cbn; [reflexivity|]. rewrite seq_length, IH. reflexivity. Qed.

Lemma initial_concat l n : concat (initial l n) = seq n (list_sum l).
Proof.
  revert n. induction l as [|a l IH]; intros n; cbn [initial concat list_sum fold_right]; [reflexivity|].
  rewrite IH. change (fold_right Nat.add 0 l) with (list_sum l). rewrite seq_app. reflexivity.
Qed.

Lemma filter_all {A} (p : A -> bool) l : (forall x, In x l -> p x = true) -> filter p l = l.
Proof.
  induction l as [|a l IH]; intros H; cbn [filter]; [reflexivity|].
  rewrite (H a (or_introl eq_refl)). f_equal. apply IH. intros x Hx. apply H. right; auto.
Qed.

Lemma inv_init : inv 0 (initial nf 0) 0.
Proof.
  assert (E : map (num (initial nf 0)) (later 0) = seq 0 (list_sum nf)).
  { unfold later. rewrite <- (concat_skipn (initial nf 0) 0 nf); [|apply initial_shape|lia].
    cbn [skipn]. apply initial_concat. }
  assert (F : filter (ge 0) (map (num (initial nf 0)) (later 0)) = seq 0 (list_sum nf)).
  { rewrite E. apply filter_all. intros x _. reflexivity. }
  constructor.
  - apply initial_shape.
  - intros x y Hx Hy. split.
    + intros H. assert (x = y); [|subst; apply C_refl].
      apply (filter_NoDup_inj (num (initial nf 0)) 0 (later 0)); auto; try lia.
      * rewrite F. apply seq_NoDup.
      * apply later_In; [lia|split; [lia|auto]].
      * apply later_In; [lia|split; [lia|auto]].
    + intros H. f_equal. apply (C_single 0); [apply Nat.le_0_l|intros w Hw; lia|exact H].
  - intros x _ H. inversion H.
  - intros v H. lia.
  - eexists. exact F.
Qed.

Lemma num_app_low r1 r2 x : fst x < length r1 -> num (r1 ++ r2) x = num r1 x.
Proof. intros H. unfold num. rewrite app_nth1 by auto. reflexivity. Qed.

(** The renumbering of one pass. *)
Lemma remap_spec k r M : k < length nf -> inv k r M ->
  exists m, mapIfs r bnd k (ifset ifs) [] = Some m /\
    let r1 := firstn k r ++ map (map (renumber m)) (skipn k r) in
    map (@length nat) r1 = nf /\
    (forall x, valid nf x -> (forall w, ~ (J w x /\ fst w = k)) -> num r1 x = num r x) /\
    (forall w x, J w x -> fst w = k -> num r1 x = num r w).
Proof.
  intros Hk [HS HE HL HA HQ].
  destruct (mapIfs_spec nf r bnd k HS Hk (ifset ifs) [] ifset_ok) as (m & EM & A & _ & D).
  exists m. split; auto. intros r1.
  assert (LR : length r = length nf) by (rewrite <- HS, map_length; auto).
  assert (L1 : map (@length nat) r1 = nf).
  { unfold r1. rewrite map_app, map_map.
    rewrite (map_ext (fun l => length (map (renumber m) l)) (@length nat))
      by (intros; apply map_length).
    rewrite <- map_app, firstn_skipn. auto. }
  assert (LOW : forall x, valid nf x -> fst x < k -> num r1 x = num r x).
  { intros x Hx Hf. unfold r1. rewrite num_app_low by (rewrite firstn_length; lia).
    rewrite <- (firstn_skipn k r) at 2. rewrite num_app_low; [reflexivity|].
    rewrite firstn_length; lia. }
  assert (HIGH : forall x, valid nf x -> k <= fst x -> num r1 x = renumber m (num r x)).
  { intros x Hx Hf. unfold r1, num. rewrite app_nth2; rewrite firstn_length; [|lia].
    replace (Nat.min k (length r)) with k by lia.
    set (l := nth (fst x - k) (skipn k r) []).
    assert (EL : nth (fst x) r [] = l).
    { unfold l. rewrite <- (firstn_skipn k r) at 1. rewrite app_nth2; rewrite firstn_length; [|lia].
      f_equal. lia. }
    assert (EM2 : nth (fst x - k) (map (map (renumber m)) (skipn k r)) [] = map (renumber m) l).
    { change (@nil nat) with (map (renumber m) []). rewrite map_nth. reflexivity. }
    rewrite EM2, EL. destruct Hx as [V1 V2].
    rewrite <- HS in V2. change 0 with (@length nat []) in V2. rewrite map_nth, EL in V2.
    rewrite (nth_indep _ 0 (renumber m 0)) by (rewrite map_length; auto).
    rewrite map_nth. reflexivity. }
  (* the map is the identity up to the slaves of patch k *)
  assert (KEY : forall w x, J w x -> fst w = k -> forall y, valid nf y ->
     num r x = num r y -> num r x = num r w \/ x = y).
  { intros w x Hj Hw y Hy E. destruct (joined_valid w x Hj) as (V1 & V2 & V3).
    apply HE in E; auto.
    destruct (in_dec (fun a b : nat * nat => ltac:(decide equality; apply Nat.eq_dec) : {a = b} + {a <> b}) x [y])
      as [[-> |[]]|NE]; [right; auto|left].
    assert (NXY : x <> y) by (intros ->; apply NE; left; auto).
    (* x is a slave of some earlier patch *)
    assert (S : ~ (forall v, fst v < k -> ~ J v x)).
    { intros NS. apply NXY. apply (C_single k); auto. lia. }
    apply HE; auto.
    (* decide by contradiction on equality of numbers *)
    apply HE; auto.
    destruct (Nat.eq_dec (num r x) (num r w)) as [EQ|NEQ]; auto. exfalso. apply S.
    intros v Hv Jv. apply NEQ. apply HE; auto.
    apply C_trans with v.
    - apply C_sym. apply C_step; auto.
    - rewrite <- Hw. apply CONS with x; auto. lia. }
  assert (VAL : forall w x, J w x -> fst w = k -> renumber m (num r x) = num r w).
  { intros w x Hj Hw. unfold renumber.
    destruct (find m (num r x)) as [v|] eqn:EF.
    - destruct (A _ _ EF) as [X|(w' & x' & X1 & X2 & X3 & X4)]; [discriminate|].
      apply joined_set in X1. destruct (joined_valid w x Hj) as (V1 & V2 & _).
      destruct (joined_valid w' x' X1) as (V1' & V2' & _). rewrite <- X4.
      destruct (KEY w' x' X1 X2 x V2 X3) as [E1|E1].
      + destruct (KEY w x Hj Hw x' V2' (eq_sym X3)) as [E2|E2]; [congruence|].
        subst x'. apply HE; auto. rewrite <- Hw. apply CONS with x; auto. lia.
      + subst x'. apply HE; auto. rewrite <- Hw. apply CONS with x; auto. lia.
    - exfalso. apply (D w x); auto. apply joined_set; auto. }
  split; auto. split.
  - intros x Hx NS. destruct (Nat.lt_ge_cases (fst x) k) as [Lk|Lk]; auto.
    rewrite HIGH by auto. unfold renumber.
    destruct (find m (num r x)) as [v|] eqn:EF; auto.
    destruct (A _ _ EF) as [X|(w' & x' & X1 & X2 & X3 & X4)]; [discriminate|].
    apply joined_set in X1. destruct (KEY w' x' X1 X2 x Hx X3) as [E1|E1]; [congruence|].
    subst x'. exfalso. apply (NS w'). auto.
  - intros w x Hj Hw. destruct (joined_valid w x Hj) as (V1 & V2 & V3).
    rewrite HIGH by (auto; lia). apply VAL; auto.
Qed.

Lemma slave_dec k x : valid nf x -> {exists w, J w x /\ fst w = k} + {~ exists w, J w x /\ fst w = k}.
Proof.
  intros Hx.
  set (P := fun it => i_master it = k + 1 /\ i_slave it = fst x + 1 /\
                      In (snd x) (bnd (fst x) (i_dim it) (i_sidx it) (i_orient it))).
  assert (D : {Exists P ifs} + {~ Exists P ifs}).
  { apply Exists_dec. intros it. unfold P.
    destruct (Nat.eq_dec (i_master it) (k + 1)) as [A|A]; [|right; tauto].
    destruct (Nat.eq_dec (i_slave it) (fst x + 1)) as [B|B]; [|right; tauto].
    destruct (in_dec Nat.eq_dec (snd x) (bnd (fst x) (i_dim it) (i_sidx it) (i_orient it)));
      [left|right]; tauto. }
  destruct D as [D|D]; [left|right].
  - apply Exists_exists in D. destruct D as (it & I1 & I2 & I3 & I4).
    destruct OK as [O _]. destruct (O it I1) as ((M1 & M2) & M3 & M4 & _).
    replace (i_master it - 1) with k in M4 by lia.
    replace (i_slave it - 1) with (fst x) in M4 by lia.
    apply In_nth_error in I4. destruct I4 as (n & I4).
    destruct (nth_error (bnd k (i_dim it) (i_midx it) 0%Z) n) as [a|] eqn:E.
    + exists (k, a). split; auto. exists it, n. cbn [fst snd]. auto.
    + exfalso. apply nth_error_None in E.
      assert (n < length (bnd (fst x) (i_dim it) (i_sidx it) (i_orient it))); [|lia].
      apply nth_error_Some. congruence.
  - intros (w & (it & n & I1 & I2 & I3 & I4 & I5) & Hw). apply D. apply Exists_exists.
    exists it. split; auto. unfold P. repeat split; auto; [lia|].
    eapply nth_error_In; eauto.
Qed.

Lemma app_seq_inv : forall a b M n, a ++ b = seq M n ->
  a = seq M (length a) /\ b = seq (M + length a) (length b).
Proof.
  induction a as [|x a IH]; intros b M n E; cbn [app length seq] in *.
  - split; [reflexivity|]. rewrite E, seq_length. f_equal. lia.
  - destruct n as [|n]; [discriminate|]. cbn [seq] in E. injection E as -> E.
    destruct (IH b (S M) n E) as [A B]. split; [f_equal; auto|].
    rewrite Nat.add_succ_r. exact B.
Qed.

Lemma filter_ge_ge M M' l : M <= M' -> filter (ge M') (filter (ge M) l) = filter (ge M') l.
Proof.
  intros L. induction l as [|x l IH]; [reflexivity|]. cbn [filter]. unfold ge at 2.
  destruct (Nat.leb_spec M x) as [H|H]; cbn [filter]; rewrite IH; [reflexivity|].
  unfold ge at 2. destruct (Nat.leb_spec M' x); [lia|reflexivity].
Qed.

Lemma sorted_NoDup l : StronglySorted lt l -> NoDup l.
Proof.
  induction 1 as [|a l S IH F]; constructor; auto.
  intros H. rewrite Forall_forall in F. specialize (F a H). lia.
Qed.

Lemma map_nth_seq l : map (fun a => nth a l 0) (seq 0 (length l)) = l.
Proof.
  induction l as [|x l IH]; [reflexivity|]. cbn [length seq map nth]. f_equal.
  rewrite <- seq_shift, map_map. exact IH.
Qed.

Lemma step_inv k r M : k < length nf -> inv k r M ->
  exists r' M', pass bnd (ifset ifs) r k = Some r' /\ inv (S k) r' M' /\
    maxOf (nth k r' []) = Some (M' - 1) /\ 1 <= M'.
Proof.
  intros Hk I. destruct (remap_spec k r M Hk I) as (m & EM & R).
  set (r1 := firstn k r ++ map (map (renumber m)) (skipn k r)) in *. cbv zeta in R.
  destruct R as (L1 & NS & SL). destruct I as [HS HE HL HA HQ].
  assert (LR1 : length r1 = length nf) by (rewrite <- L1, map_length; auto).
  unfold pass. rewrite EM. fold r1.
  rewrite (nth_error_nth' r1 []) by lia. set (ri := nth k r1 []).
  assert (KEEP : forall x, valid nf x -> fst x <= k -> num r1 x = num r x).
  { intros x Hx Hf. apply NS; auto. intros w (Hj & Hw).
    destruct (joined_valid w x Hj) as (_ & _ & V). lia. }
  (* the numbers of patch k *)
  assert (LRI : length ri = nth k nf 0).
  { unfold ri. rewrite <- L1. change 0 with (@length nat []). rewrite map_nth. reflexivity. }
  assert (VK : forall a, a < nth k nf 0 -> valid nf (k, a)) by (intros a Ha; split; auto).
  assert (ERI : map (num r) (map (pair k) (seq 0 (nth k nf 0))) = ri).
  { rewrite <- (map_nth_seq ri), LRI, map_map. apply map_ext_in. intros a Ha. apply in_seq in Ha.
    rewrite <- KEEP; [reflexivity|apply VK; lia|cbn [fst]; lia]. }
  destruct HQ as (n & HQ). rewrite (later_S k Hk), map_app in HQ. rewrite ERI, filter_app in HQ.
  destruct (app_seq_inv _ _ _ _ HQ) as [QA QB]. clear HQ n.
  set (s := length (filter (ge M) ri)) in *.
  set (rest := map (num r) (later (S k))) in *.
  (* an own function *)
  assert (S1 : 1 <= s).
  { destruct (OWN k Hk) as (a & A1 & A2).
    assert (G : In (num r (k, a)) (filter (ge M) ri)).
    { apply filter_In. split.
      - rewrite <- ERI. apply in_map. apply in_map. apply in_seq. lia.
      - unfold ge. apply Nat.leb_le. destruct (Nat.lt_ge_cases (num r (k, a)) M) as [L|L]; auto.
        exfalso. destruct (HA _ L) as (y & Y1 & Y2 & Y3). symmetry in Y3.
        apply HE in Y3; auto. apply C_single in Y3; [subst y; cbn in Y2; lia|cbn; lia|].
        intros w _. apply A2. }
    unfold s. destruct (filter (ge M) ri); [destruct G|cbn; lia]. }
  assert (PLT : forall v, In v ri -> v < M + s).
  { intros v Hv. destruct (Nat.lt_ge_cases v M) as [L|L]; [lia|].
    assert (G : In v (filter (ge M) ri)) by (apply filter_In; split; auto; apply Nat.leb_le; auto).
    rewrite QA in G. apply in_seq in G. lia. }
  assert (PIN : In (M + s - 1) ri).
  { assert (G : In (M + s - 1) (filter (ge M) ri)) by (rewrite QA; apply in_seq; lia).
    apply filter_In in G. tauto. }
  destruct (maxOf ri) as [mx|] eqn:EX; [|destruct ri; [destruct PIN|discriminate]].
  assert (MX : mx = M + s - 1).
  { destruct (maxOf_spec _ _ EX) as [X1 X2]. rewrite Forall_forall in X2.
    specialize (X2 _ PIN). specialize (PLT _ X1). lia. }
  set (M' := M + s). set (r' := firstn (S k) r1 ++ compress mx (skipn (S k) r1)).
  exists r', M'. split; [reflexivity|].
  assert (SH : map (@length nat) r' = nf).
  { unfold r'. rewrite map_app, compress_lengths, <- map_app, firstn_skipn. auto. }
  assert (LOW : forall x, valid nf x -> fst x <= k -> num r' x = num r x).
  { intros x Hx Hf. rewrite <- KEEP by auto. unfold r'.
    rewrite num_app_low by (rewrite firstn_length; lia).
    rewrite <- (firstn_skipn (S k) r1) at 2. rewrite num_app_low; [reflexivity|].
    rewrite firstn_length; lia. }
  assert (LOWM : forall x, valid nf x -> fst x <= k -> num r x < M').
  { intros x Hx Hf. destruct (Nat.eq_dec (fst x) k) as [E|E].
    - apply PLT. rewrite <- ERI. apply in_map. destruct x as [p a]. cbn [fst] in E. subst p.
      apply in_map. apply in_seq. destruct Hx as [_ V]. cbn in V. lia.
    - assert (num r x < M) by (apply HL; auto; lia). unfold M'. lia. }
  (* later patches *)
  assert (FL : map (num r') (later (S k)) = snd (compress1 mx (map (num r1) (later (S k))))).
  { unfold later. rewrite <- (concat_skipn r' (S k) nf SH) by lia.
    rewrite <- (concat_skipn r1 (S k) nf L1) by lia. rewrite <- compress_flat.
    unfold r'. rewrite skipn_app, (skipn_all2 (firstn (S k) r1)) by (rewrite firstn_length; lia).
    rewrite firstn_length. replace (S k - Nat.min (S k) (length r1)) with 0 by lia. reflexivity. }
  assert (SO : StronglySorted lt (filter (ge M') rest)).
  { rewrite <- (filter_ge_ge M M') by (unfold M'; lia). rewrite QB. fold M'.
    rewrite filter_all; [apply seq_sorted|]. intros v Hv. apply in_seq in Hv.
    unfold ge. apply Nat.leb_le. lia. }
  assert (R1 : forall x, In x (later (S k)) -> num r1 x = num r x \/ num r1 x < M').
  { intros x Hx. apply later_In in Hx; [|lia]. destruct Hx as [X1 X2].
    destruct (slave_dec k x X2) as [(w & Hj & Hw)|N].
    - right. rewrite (SL w x Hj Hw). apply LOWM; [apply (joined_valid w x Hj)|lia].
    - left. apply NS; auto. intros w Hw. apply N. exists w. auto. }
  assert (SO1 : StronglySorted lt (filter (ge M') (map (num r1) (later (S k))))).
  { apply (filter_sub_sorted (num r)); auto. }
  destruct (compress1_spec (num r1) (num r') (later (S k)) M' mx) as (G1 & G2 & G3); auto.
  { unfold M'. lia. }
  { apply Forall_forall. intros v Hv. apply filter_In in Hv. destruct Hv as [_ Hv].
    unfold ge in Hv. apply Nat.leb_le in Hv. unfold M' in Hv. lia. }
  (* equality for r1 *)
  assert (E1 : forall x y, valid nf x -> valid nf y -> (num r1 x = num r1 y <-> C (S k) x y)).
  { intros x y Hx Hy. split.
    - assert (REP : forall z, valid nf z -> exists z', valid nf z' /\ C (S k) z z' /\ num r1 z = num r z').
      { intros z Hz. destruct (slave_dec k z Hz) as [(w & Hj & Hw)|N].
        - exists w. split; [apply (joined_valid w z Hj)|]. split; [|apply SL; auto].
          apply C_sym. apply C_step; auto. lia.
        - exists z. split; auto. split; [apply C_refl|]. apply NS; auto. intros w Hw. apply N. exists w; auto. }
      destruct (REP x Hx) as (x' & X1 & X2 & X3), (REP y Hy) as (y' & Y1 & Y2 & Y3).
      rewrite X3, Y3. intros E. apply HE in E; auto.
      apply C_trans with x'; auto. apply C_trans with y'; [|apply C_sym; auto].
      apply C_le with k; auto.
    - clear Hx Hy. intros H. induction H as [x y [Hj Hf]| |x y _ IH|x y z _ IH1 _ IH2].
      + destruct (joined_valid x y Hj) as (V1 & V2 & V3).
        rewrite (KEEP x V1) by lia. destruct (Nat.eq_dec (fst x) k) as [E|E].
        * symmetry. apply SL; auto.
        * destruct (slave_dec k y V2) as [(w & Hw & Ew)|N].
          -- rewrite (SL w y Hw Ew). apply HE; auto; [apply (joined_valid w y Hw)|].
             rewrite <- Ew. apply CONS with y; auto. lia.
          -- rewrite (NS y V2) by (intros w Hw; apply N; exists w; auto).
             apply HE; auto. apply C_step; auto. lia.
      + reflexivity.
      + auto.
      + congruence. }
  split; [|split].
  2:{ unfold r'. rewrite app_nth1 by (rewrite firstn_length; lia).
      assert (EK : nth k (firstn (S k) r1) [] = ri).
      { unfold ri. rewrite <- (firstn_skipn (S k) r1) at 2. rewrite app_nth1; [reflexivity|].
        rewrite firstn_length; lia. }
      rewrite EK, EX, MX. reflexivity. }
  2:{ unfold M'. lia. }
  constructor; auto.
  - intros x y Hx Hy. rewrite <- E1 by auto.
    assert (K : forall z, valid nf z ->
       (num r' z = num r1 z /\ num r1 z < M') \/
       (In z (later (S k)) /\ M' <= num r1 z /\ M' <= num r' z)).
    { intros z Hz. destruct (Nat.le_gt_cases (fst z) k) as [L|L].
      - left. rewrite LOW, KEEP by auto. split; auto.
      - assert (Z1 : In z (later (S k))) by (apply later_In; [lia|split; auto]).
        destruct (Nat.lt_ge_cases (num r1 z) M') as [Q|Q]; [left|right]; auto. }
    destruct (K x Hx) as [(X1 & X2)|(X1 & X2 & X3)], (K y Hy) as [(Y1 & Y2)|(Y1 & Y2 & Y3)].
    + rewrite X1, Y1. tauto.
    + split; lia.
    + split; lia.
    + split; intros E.
      * f_equal. apply (filter_NoDup_inj (num r') M' (later (S k))); auto.
        rewrite G1. apply seq_NoDup.
      * f_equal. apply (filter_NoDup_inj (num r1) M' (later (S k))); auto.
        apply sorted_NoDup. auto.
  - intros x Hx Hf. rewrite LOW by (auto; lia). apply LOWM; auto. lia.
  - intros v Hv. destruct (Nat.lt_ge_cases v M) as [L|L].
    + destruct (HA v L) as (x & X1 & X2 & X3). exists x. split; auto. split; [lia|].
      rewrite LOW; auto. lia.
    + assert (G : In v (filter (ge M) ri)) by (rewrite QA; apply in_seq; unfold M' in Hv; lia).
      apply filter_In in G. destruct G as [G _]. rewrite <- ERI in G.
      apply in_map_iff in G. destruct G as (x & X1 & X2).
      apply in_map_iff in X2. destruct X2 as (a & X2 & X3). apply in_seq in X3.
      exists x. subst x. split; [apply VK; lia|]. split; [cbn; lia|].
      rewrite LOW; auto. apply VK; lia.
  - exists (length (filter (ge M') (map (num r1) (later (S k))))). rewrite G1. f_equal. unfold M'. lia.
Qed.

Lemma loop_inv : forall j, j <= length nf ->
  exists r M, fold_left (fun o i => match o with
                        | None => None
                        | Some r => pass bnd (ifset ifs) r i
                        end) (seq 0 j) (Some (initial nf 0)) = Some r /\
    inv j r M /\ (0 < j -> maxOf (nth (j - 1) r []) = Some (M - 1) /\ 1 <= M).
Proof.
  induction j as [|j IH]; intros Hj.
  - exists (initial nf 0), 0. split; [reflexivity|]. split; [apply inv_init|lia].
  - destruct (IH ltac:(lia)) as (r & M & E & I & _).
    destruct (step_inv j r M ltac:(lia) I) as (r' & M' & E' & I' & X).
    exists r', M'. rewrite seq_S, fold_left_app, E. cbn [fold_left plus]. split; auto.
    split; auto. intros _. replace (S j - 1) with j by lia. exact X.
Qed.
End Inv.
