(** Proofs about the multistep methods. *)
From Coq Require Import QArith Reals Qreals List Bool Lia Lra FunctionalExtensionality.
From Verif Require Import Tin_model Tin_spec.
Import ListNotations.
Local Open Scope R_scope.

Lemma setL_len {A} (l : list A) i a : length (setL l i a) = length l.
Proof. revert i. induction l; intros [|i]; simpl; auto. Qed.
Lemma setL_nth {A} (l : list A) i a j d : nth j (setL l i a) d = if (Nat.eqb j i && Nat.ltb i (length l))%bool then a else nth j l d.
Proof.
  revert i j. induction l as [|x l IH]; intros i j; simpl.
  - destruct (Nat.eqb j i && Nat.ltb i 0)%bool eqn:E; [|destruct i; reflexivity].
    apply andb_prop in E. destruct E as [_ E]. apply Nat.ltb_lt in E. lia.
  - destruct i as [|i], j as [|j]; cbn [setL nth]; try reflexivity.
    + simpl. rewrite IH. reflexivity.
Qed.
Lemma removelast_nth {A} (l : list A) i d : (S i < length l)%nat -> nth i (removelast l) d = nth i l d.
Proof.
  revert i. induction l as [|x l IH]; intros i H; simpl in H; [lia|].
  destruct l as [|y l]; [simpl in H; lia|]. destruct i as [|i]; [reflexivity|].
  cbn [removelast]. simpl nth at 1. simpl nth at 2. apply (IH i). simpl in *. lia.
Qed.
Lemma removelast_len {A} (l : list A) : length (removelast l) = (length l - 1)%nat.
Proof.
  induction l as [|x l IH]; [reflexivity|]. destruct l as [|y l]; [reflexivity|].
  cbn [removelast length] in *. rewrite IH. lia.
Qed.

Lemma back_cons q r i : (S i < length r + 1)%nat -> back (q :: r) i = back r i.
Proof.
  intros H. unfold back. cbn [length].
  replace (S (length r) - 1 - i)%nat with (S (length r - 1 - i)) by lia. reflexivity.
Qed.
Lemma back_last l : back l 0 = last l 0%Q.
Proof.
  unfold back. rewrite Nat.sub_0_r. induction l as [|q l IH]; [reflexivity|].
  destruct l as [|p l]; [reflexivity|]. change (last (q :: p :: l) 0%Q) with (last (p :: l) 0%Q). rewrite <- IH. cbn [length].
  replace (S (S (length l)) - 1)%nat with (S (length l)) by lia.
  replace (S (length l) - 1)%nat with (length l) by lia. reflexivity.
Qed.

Lemma addLoads_ok dt ld F : forall coefs c acc, length coefs = S c ->
  (forall i, (1 <= i <= c)%nat -> nth i ld None = Some (F i)) ->
  addLoads dt coefs ld c acc = Ok (fun d => acc d + dt * sumR c (fun i => Q2R (back coefs (S i)) * F (S i) d)).
Proof.
  induction coefs as [|q r IH]; intros c acc Hl HF; [discriminate|].
  destruct r as [|p r].
  - simpl in Hl. injection Hl as <-. cbn [addLoads sumR]. f_equal. apply functional_extensionality. intro d. lra.
  - destruct c as [|c]; [discriminate|].
    change (addLoads dt (q :: p :: r) ld (S c) acc) with
      (match nth (S c) ld None with None => UB | Some b => addLoads dt (p :: r) ld (S c - 1) (vadd acc b (Q2R q * dt)) end).
    rewrite (HF (S c)) by lia. cbn [Nat.sub]. rewrite Nat.sub_0_r.
    rewrite (IH c) by (try (simpl in *; lia); intros; apply HF; lia).
    f_equal. apply functional_extensionality. intro d. cbn [sumR]. unfold vadd.
    assert (E : back (q :: p :: r) (S c) = q).
    { unfold back. simpl in Hl. cbn [length]. replace (S (S (length r)) - 1 - S c)%nat with O by lia. reflexivity. }
    rewrite E.
    replace (sumR c (fun i => Q2R (back (q :: p :: r) (S i)) * F (S i) d)) with (sumR c (fun i => Q2R (back (p :: r) (S i)) * F (S i) d)).
    + ring.
    + clear - Hl. assert (G : forall n, (n <= c)%nat -> sumR n (fun i => Q2R (back (p :: r) (S i)) * F (S i) d) = sumR n (fun i => Q2R (back (q :: p :: r) (S i)) * F (S i) d)).
      { induction n as [|n IHn]; intros Hn; [reflexivity|]. cbn [sumR]. rewrite IHn by lia.
        rewrite (back_cons q (p :: r)) by (simpl in *; lia). reflexivity. }
      apply G. lia.
Qed.

Lemma sumR_S n (g : nat -> R) : sumR (S n) g = g O + sumR n (fun x => g (S x)).
Proof. induction n as [|n IHn]; cbn [sumR] in *; [lra|]. rewrite IHn. lra. Qed.

Lemma hget_cons x H i : hget (x :: H) (S i) = hget H i.
Proof. reflexivity. Qed.

Section AB.
Variable rhs : R -> V -> V.
Variable msolve : V -> V.
Variable bc : R -> V -> V.
Variable m : method.
Notation k := (abOrder m).

Lemma abOrder_pos : (1 <= k <= 5)%nat.
Proof. destruct m; simpl; lia. Qed.
Lemma AB_row c : (c < 5)%nat -> length (nth c AB_coefs []) = S c.
Proof. intros H. destruct c as [|[|[|[|[|c]]]]]; try lia; reflexivity. Qed.

(** After n steps: the loads are those of the history, which starts with the second. *)
Definition abInv (n : nat) (ld : list (option V)) (ics : bool) (u : nat -> V) (H : list (R * V)) : Prop :=
  length ld = k /\ (1 <= length H)%nat /\
  (forall i, (i < length H)%nat -> u i = snd (hget H i)) /\
  (forall i, (S i < k)%nat -> (S i < length H)%nat -> nth i ld None = Some (hload rhs H (S i))) /\
  (if ics then (k <= length H)%nat else length H = S n).

Definition abCore (ld : list (option V)) (ics : bool) (u : nat -> V) : abst :=
  {| loads := None :: removelast ld; hasICs := ics;
     sols := fun j => match j with O => u O | S i => u i end |}.

Lemma abStep_ok n ld ics u H dt : abInv n ld ics u H ->
  exists s, abSolve rhs msolve bc m (fst (hget H 0) + dt) dt (S n) (abCore ld ics u) = Ok s /\
    abInv (S n) (loads s) (hasICs s) (sols s) (abNext k rhs msolve bc H dt :: H).
Proof.
  intros (I1 & I2 & I3 & I4 & I5). pose proof abOrder_pos as Hk.
  unfold abSolve. cbn [abCore sols loads hasICs setL].
  replace (fst (hget H 0) + dt - dt) with (fst (hget H 0)) by ring.
  rewrite (I3 O) by lia. fold (hload rhs H 0).
  set (c := if ics then (k - 1)%nat else Nat.min (k - 1) (S n - 1)).
  assert (Ec : c = (Nat.min k (length H) - 1)%nat) by (unfold c; destruct ics; lia).
  assert (Ec' : Nat.min k (length H) = S c) by lia.
  assert (Lp : forall i, (1 <= i <= c)%nat -> nth i (Some (hload rhs H 0) :: removelast ld) None = Some (hload rhs H i)).
  { intros i Hi. destruct i as [|i]; [lia|]. cbn [nth]. rewrite removelast_nth by (rewrite I1; lia).
    apply I4; lia. }
  rewrite (addLoads_ok dt _ (hload rhs H)) by (try exact Lp; apply AB_row; lia).
  eexists. split; [reflexivity|]. cbn [loads hasICs sols].
  split; [|split; [|split; [|split]]].
  - cbn [length]. rewrite removelast_len. lia.
  - simpl; lia.
  - intros i Hi. destruct i as [|i].
    + change (hget (abNext k rhs msolve bc H dt :: H) 0) with (abNext k rhs msolve bc H dt). unfold abNext. cbv zeta. cbn [snd]. rewrite <- Ec, Ec'. f_equal. unfold vadd. apply functional_extensionality. intro d.
      match goal with |- msolve ?a d + _ = _ + msolve ?b d => assert (E : a = b) end.
      { apply functional_extensionality. intro e. unfold vscale. rewrite sumR_S, back_last. ring. }
      rewrite E. ring.
    + rewrite hget_cons. apply I3. simpl in Hi. lia.
  - intros i Hi Hi'. cbn [length] in Hi'. unfold hload. rewrite hget_cons. fold (hload rhs H i).
    destruct i as [|i]; [reflexivity|]. cbn [nth]. rewrite removelast_nth by lia. apply I4; lia.
  - destruct ics; cbn [length]; lia.
Qed.

Lemma abAdvance_later ic t dt n s : abAdvance rhs m ic t dt (S (S n)) s = abCore (loads s) (hasICs s) (sols s).
Proof. reflexivity. Qed.

Lemma abRun_ok ic : forall dts n s H, abInv (S n) (loads s) (hasICs s) (sols s) H ->
  exists s', abRun rhs msolve bc m ic (fst (hget H 0)) (S n) dts s = Ok s' /\
    forall i, (i < length (abHist k rhs msolve bc H dts))%nat -> sols s' i = snd (hget (abHist k rhs msolve bc H dts) i).
Proof.
  induction dts as [|dt r IH]; intros n s H I; cbn [abRun abHist].
  - exists s. split; [reflexivity|]. apply I.
  - rewrite abAdvance_later. destruct (abStep_ok (S n) _ _ _ H dt I) as (s1 & E1 & I1).
    rewrite E1. destruct (IH (S n) s1 _ I1) as (s2 & E2 & I2). exists s2. split; [exact E2|exact I2].
Qed.

Lemma icLoop_all ic t dt u : forall todo j ld, (2 <= j)%nat ->
  forallb ic (seq j todo) = true ->
  exists ld', icLoop rhs ic t dt u j todo ld = (ld', true) /\ length ld' = length ld /\
   forall i, (i < length ld)%nat -> nth i ld' None =
     if (Nat.leb (j - 2) i && Nat.ltb i (j - 2 + todo))%bool then Some (rhs (t - INR (i + 2) * dt) (u (i + 1)%nat)) else nth i ld None.
Proof.
  induction todo as [|r IH]; intros j ld Hj Hic; cbn [icLoop].
  - exists ld. split; [reflexivity|]. split; [reflexivity|]. intros i Hi.
    destruct (Nat.leb (j - 2) i && Nat.ltb i (j - 2 + 0))%bool eqn:E; [|reflexivity].
    apply andb_prop in E. destruct E as [E1 E2]. apply Nat.leb_le in E1. apply Nat.ltb_lt in E2. lia.
  - cbn [seq forallb] in Hic. apply andb_prop in Hic. destruct Hic as [H1 H2]. rewrite H1.
    destruct (IH (S j) (setL ld (j - 2) (Some (rhs (t - INR j * dt) (u (j - 1)%nat)))) ltac:(lia) H2) as (ld' & E & El & En).
    exists ld'. split; [exact E|]. rewrite setL_len in *. split; [exact El|].
    intros i Hi. rewrite En by assumption. rewrite setL_nth.
    destruct (Nat.eq_dec i (j - 2)) as [->|Hne].
    + assert (X : (Nat.leb (S j - 2) (j - 2) && Nat.ltb (j - 2) (S j - 2 + r))%bool = false).
      { apply andb_false_iff. left. apply Nat.leb_gt. lia. }
      rewrite X, Nat.eqb_refl. replace (Nat.ltb (j - 2) (length ld)) with true by (symmetry; apply Nat.ltb_lt; lia).
      replace (Nat.leb (j - 2) (j - 2)) with true by (symmetry; apply Nat.leb_le; lia).
      replace (Nat.ltb (j - 2) (j - 2 + S r)) with true by (symmetry; apply Nat.ltb_lt; lia).
      cbn [andb]. replace (j - 2 + 2)%nat with j by lia. replace (j - 2 + 1)%nat with (j - 1)%nat by lia. reflexivity.
    + apply Nat.eqb_neq in Hne as Hb. rewrite Hb. cbn [andb].
      replace (Nat.leb (S j - 2) i && Nat.ltb i (S j - 2 + r))%bool with (Nat.leb (j - 2) i && Nat.ltb i (j - 2 + S r))%bool; [reflexivity|].
      apply eq_true_iff_eq. rewrite !andb_true_iff, !Nat.leb_le, !Nat.ltb_lt. lia.
Qed.
Lemma icLoop_some ic t dt u : forall todo j ld,
  forallb ic (seq j todo) = false ->
  exists ld', icLoop rhs ic t dt u j todo ld = (ld', false) /\ length ld' = length ld.
Proof.
  induction todo as [|r IH]; intros j ld Hic; cbn [icLoop]; [discriminate|].
  cbn [seq forallb] in Hic. destruct (ic j); [|exists ld; split; reflexivity].
  cbn [andb] in Hic. destruct (IH (S j) (setL ld (j - 2) (Some (rhs (t - INR j * dt) (u (j - 1)%nat)))) Hic) as (ld' & E & El).
  exists ld'. split; [exact E|]. rewrite El. apply setL_len.
Qed.

Lemma abFirst ic t0 dt0 u : exists ld ics,
  abAdvance rhs m ic (t0 + dt0) dt0 1 (abInit m u) = abCore ld ics u /\
  abInv 0 ld ics u (abStart k ic t0 dt0 u) /\ fst (hget (abStart k ic t0 dt0 u) 0) = t0.
Proof.
  pose proof abOrder_pos as Hk. unfold abAdvance, abStart. cbn [abInit loads sols Nat.eqb].
  destruct (forallb ic (seq 2 (k - 1))) eqn:E.
  - destruct (icLoop_all ic (t0 + dt0) dt0 u (k - 1) 2 (repeat None k) ltac:(lia) E) as (ld' & E1 & E2 & E3).
    rewrite E1. exists ld', true. split; [reflexivity|]. rewrite repeat_length in *.
    assert (Hg : forall i, (i < k)%nat -> hget (map (fun j => (t0 - INR j * dt0, u j)) (seq 0 k)) i = (t0 - INR i * dt0, u i)).
    { intros i Hi. unfold hget. set (g := fun j => (t0 - INR j * dt0, u j)). rewrite (nth_indep _ _ (g O)) by (rewrite map_length, seq_length; lia).
      rewrite map_nth. rewrite seq_nth by lia. reflexivity. }
    split; [split; [|split; [|split; [|split]]]|].
    + exact E2.
    + rewrite map_length, seq_length. lia.
    + rewrite map_length, seq_length. intros i Hi. rewrite Hg by lia. reflexivity.
    + rewrite map_length, seq_length. intros i Hi _. rewrite E3 by lia. rewrite andb_true_intro.
      * unfold hload. rewrite Hg by lia. cbn [fst snd]. rewrite Nat.add_1_r.
        replace (t0 + dt0 - INR (i + 2) * dt0) with (t0 - INR (S i) * dt0); [reflexivity|].
        rewrite plus_INR, S_INR. simpl. ring.
      * split; [apply Nat.leb_le; lia|apply Nat.ltb_lt; lia].
    + rewrite map_length, seq_length. lia.
    + rewrite Hg by lia. cbn [fst]. simpl. ring.
  - destruct (icLoop_some ic (t0 + dt0) dt0 u (k - 1) 2 (repeat None k) E) as (ld' & E1 & E2).
    rewrite E1. exists ld', false. split; [reflexivity|]. rewrite repeat_length in E2.
    split; [|reflexivity]. split; [exact E2|]. cbn [length]. split; [lia|]. split; [|split; [|reflexivity]].
    + intros i Hi. replace i with O by lia. reflexivity.
    + intros; lia.
Qed.
End AB.
