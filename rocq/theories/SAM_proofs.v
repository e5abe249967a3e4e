(** Proofs about SAM: equation numbering (C05). *)
From Coq Require Import List Arith ZArith QArith Qcanon Bool Lia.
Require Import ZifyBool ZifyNat.
From Verif Require Import Base SAM_model SAM_spec.
Import ListNotations.
Local Open Scope Z_scope.

(** ** Ranks *)
Lemma rank_0 c l : rank c l 0 = 0%nat. Proof. reflexivity. Qed.
Lemma rank_S c x l d : rank c (x :: l) (S d) = (Nat.b2n (Z.eqb c x) + rank c l d)%nat.
Proof. unfold rank. simpl. destruct (c =? x); reflexivity. Qed.
Lemma count_cons c x l : count c (x :: l) = (Nat.b2n (Z.eqb c x) + count c l)%nat.
Proof. unfold count. cbn [length]. apply rank_S. Qed.

Lemma rank_le c l d : (rank c l d <= count c l)%nat.
Proof.
  revert d; induction l as [|x l IH]; intros d.
  - unfold rank. rewrite firstn_nil. simpl. lia.
  - destruct d as [|d]; [rewrite rank_0; lia|]. rewrite rank_S, count_cons. specialize (IH d). lia.
Qed.
Lemma rank_lt c l d : (d < length l)%nat -> nth d l 0 = c -> (rank c l d < count c l)%nat.
Proof.
  revert d; induction l as [|x l IH]; intros d Hd Hc; cbn [length] in Hd; [lia|].
  rewrite count_cons. destruct d as [|d].
  - cbn [nth] in Hc. subst x. rewrite rank_0, Z.eqb_refl. simpl. lia.
  - rewrite rank_S. cbn [nth] in Hc. specialize (IH d ltac:(lia) Hc). lia.
Qed.
Lemma rank_inj c l d d' : (d < length l)%nat -> (d' < length l)%nat ->
  nth d l 0 = c -> nth d' l 0 = c -> rank c l d = rank c l d' -> d = d'.
Proof.
  revert d d'; induction l as [|x l IH]; intros d d' Hd Hd' Hc Hc' E; cbn [length] in *; [lia|].
  destruct d as [|d], d' as [|d']; auto; cbn [nth] in *.
  - subst x. rewrite rank_0, rank_S, Z.eqb_refl in E. simpl in E. lia.
  - subst x. rewrite rank_0, rank_S, Z.eqb_refl in E. simpl in E. lia.
  - f_equal. rewrite !rank_S in E. apply IH; auto; lia.
Qed.
Lemma rank_surj c l k : (k < count c l)%nat -> exists d, (d < length l)%nat /\ nth d l 0 = c /\ rank c l d = k.
Proof.
  revert k; induction l as [|x l IH]; intros k Hk.
  - unfold count, rank in Hk. simpl in Hk. lia.
  - rewrite count_cons in Hk. destruct (Z.eqb_spec c x) as [->|Hn]; simpl in Hk.
    + destruct k as [|k].
      * exists 0%nat. rewrite rank_0. cbn [length nth]. repeat split; lia.
      * destruct (IH k ltac:(lia)) as (d&A&B&C). exists (S d). rewrite rank_S, Z.eqb_refl. cbn [length nth].
        simpl. repeat split; auto; lia.
    + destruct (IH k ltac:(lia)) as (d&A&B&C). exists (S d). rewrite rank_S.
      destruct (Z.eqb_spec c x); [contradiction|]. cbn [length nth]. simpl. repeat split; auto; lia.
Qed.
Lemma rank_ext c l l' d : map (Z.eqb c) l = map (Z.eqb c) l' -> rank c l d = rank c l' d.
Proof.
  revert l' d; induction l as [|x l IH]; intros [|y l'] d H; try discriminate; [reflexivity|].
  injection H; intros H1 H2. destruct d as [|d]; [reflexivity|]. rewrite !rank_S, H2. f_equal. apply IH; auto.
Qed.

(** ** scanMsc *)
Definition okCode (x : Z) : Prop := x = 0 \/ x = 1 \/ x = 2.

Lemma scanMsc_spec sc : forall n1 n2 np err sc' m1 m2 mp e,
  scanMsc sc n1 n2 np err = (sc', (m1, m2, mp, e)) ->
  length sc' = length sc /\
  m1 = (n1 + count 1 sc)%nat /\ m2 = (n2 + count 2 sc)%nat /\ mp = (np + count 0 sc)%nat /\
  (err <= e)%nat /\ (e = err -> Forall okCode sc) /\ (Forall okCode sc -> e = err) /\
  (forall d, (d < length sc)%nat -> nth d sc' 0 =
     if nth d sc 0 =? 0 then - Z.of_nat (np + rank 0 sc d + 1) else nth d sc 0) /\
  (forall c, 0 < c -> map (Z.eqb c) sc' = map (Z.eqb c) sc).
Proof.
  induction sc as [|x sc IH]; intros n1 n2 np err sc' m1 m2 mp e; cbn [scanMsc].
  - intros [= <- <- <- <- <-]. unfold count, rank. simpl. repeat split; auto; try lia.
  - rewrite !count_cons.
    assert (G : forall N1 N2 NP E y, 
      (let '(r', q) := scanMsc sc N1 N2 NP E in (y :: r', q)) = (sc', (m1, m2, mp, e)) ->
      exists r', sc' = y :: r' /\ scanMsc sc N1 N2 NP E = (r', (m1,m2,mp,e))).
    { intros N1 N2 NP E y. destruct (scanMsc sc N1 N2 NP E) as [r' q]. intros [= <- <-]. eauto. }
    destruct (Z.eqb_spec x 0) as [->|H0]; [|destruct (Z.eqb_spec x 1) as [->|H1]; [|destruct (Z.eqb_spec x 2) as [->|H2]]];
    intros H; apply G in H; destruct H as (r'&->&H); apply IH in H;
    destruct H as (A1&A2&A3&A4&A5&A6&A6'&A7&A8).
    + repeat split; cbn [length]; try (simpl Nat.b2n; lia).
      * intros E. constructor; [left; reflexivity|auto].
      * intros F. inversion F; auto.
      * intros [|d] Hd; cbn [nth].
        -- rewrite rank_0. simpl (0 =? 0). cbv iota. lia.
        -- rewrite A7 by (cbn [length] in Hd; lia). rewrite rank_S. simpl Nat.b2n.
           destruct (nth d sc 0 =? 0); lia.
      * intros c Hc. cbn [map]. f_equal; auto. lia.
    + repeat split; cbn [length]; try (simpl Nat.b2n; lia).
      * intros E. constructor; [right; left; reflexivity|auto].
      * intros F. inversion F; auto.
      * intros [|d] Hd; cbn [nth]; [reflexivity|].
        rewrite A7 by (cbn [length] in Hd; lia). rewrite rank_S. simpl Nat.b2n. destruct (nth d sc 0 =? 0); lia.
      * intros c Hc. cbn [map]. f_equal; auto.
    + repeat split; cbn [length]; try (simpl Nat.b2n; lia).
      * intros E. constructor; [right; right; reflexivity|auto].
      * intros F. inversion F; auto.
      * intros [|d] Hd; cbn [nth]; [reflexivity|].
        rewrite A7 by (cbn [length] in Hd; lia). rewrite rank_S. simpl Nat.b2n. destruct (nth d sc 0 =? 0); lia.
      * intros c Hc. cbn [map]. f_equal; auto.
    + assert (B0 : (0 =? x) = false) by lia. assert (B1 : (1 =? x) = false) by lia. assert (B2 : (2 =? x) = false) by lia.
      rewrite B0, B1, B2. repeat split; cbn [length]; try (simpl Nat.b2n; lia).
      * intros F. inversion F as [|? ? [?|[?|?]] ?]; contradiction.
      * intros [|d] Hd; cbn [nth].
        -- destruct (Z.eqb_spec x 0); [contradiction|reflexivity].
        -- rewrite A7 by (cbn [length] in Hd; lia). rewrite rank_S, B0. simpl Nat.b2n. destruct (nth d sc 0 =? 0); lia.
      * intros c Hc. cbn [map]. f_equal; auto.
Qed.

(** ** number *)
Lemma number_spec sc : forall meq i j, length meq = length sc ->
  length (number sc meq i j) = length sc /\
  forall d, (d < length sc)%nat -> nth d (number sc meq i j) 0 =
    if nth d sc 0 =? 1 then Z.of_nat (i + rank 1 sc d)
    else if nth d sc 0 =? 2 then Z.of_nat (j + rank 2 sc d)
    else nth d meq 0.
Proof.
  induction sc as [|s sc IH]; intros [|m meq] i j Hl; cbn [length] in Hl; try lia; cbn [number].
  - split; [reflexivity|]. cbn [length]. intros d Hd. lia.
  - injection Hl as Hl.
    destruct (Z.eqb_spec s 1) as [->|H1]; [|destruct (Z.eqb_spec s 2) as [->|H2]].
    + destruct (IH meq (S i) j Hl) as [A B]. cbn [length]. split; [lia|]. intros [|d] Hd; cbn [nth].
      * rewrite rank_0. simpl (1 =? 1). cbv iota. lia.
      * rewrite B by lia. rewrite !rank_S. simpl Nat.b2n. destruct (_ =? 1); [lia|]. destruct (_ =? 2); [lia|reflexivity].
    + destruct (IH meq i (S j) Hl) as [A B]. cbn [length]. split; [lia|]. intros [|d] Hd; cbn [nth].
      * rewrite !rank_0, !Nat.add_0_r. reflexivity.
      * rewrite B by lia. rewrite !rank_S. simpl Nat.b2n. destruct (_ =? 1); [lia|]. destruct (_ =? 2); [lia|reflexivity].
    + destruct (IH meq i j Hl) as [A B]. cbn [length]. split; [lia|]. intros [|d] Hd; cbn [nth].
      * destruct (Z.eqb_spec s 1); [contradiction|]. destruct (Z.eqb_spec s 2); [contradiction|]. reflexivity.
      * rewrite B by lia. rewrite !rank_S.
        destruct (Z.eqb_spec 1 s); [congruence|]. destruct (Z.eqb_spec 2 s); [congruence|]. simpl Nat.b2n.
        destruct (_ =? 1); [lia|]. destruct (_ =? 2); [lia|reflexivity].
Qed.

(** ** checkCeqs *)
Lemma checkMasters_0 sc mmc ks : checkMasters sc mmc ks = Some 0%nat ->
  forall k, In k ks -> (k < length mmc)%nat /\ 1 <= nth k mmc 0 <= Z.of_nat (length sc) /\
                       1 <= nth (Z.to_nat (nth k mmc 0 - 1)) sc 0.
Proof.
  induction ks as [|k0 ks IH]; intros H k Hk; [destruct Hk|]. cbn [checkMasters] in H.
  destruct (nth_error mmc k0) as [j|] eqn:Ej; [|discriminate].
  destruct (checkMasters sc mmc ks) as [n|] eqn:En; [|discriminate].
  destruct ((j <? 1) || (Z.of_nat (length sc) <? j)) eqn:E1; [discriminate|].
  destruct (nth (Z.to_nat (j-1)) sc 0 <? 1) eqn:E2; [discriminate|].
  injection H as ->. destruct Hk as [<-|Hk]; [|apply IH; auto].
  assert (Hn : nth k0 mmc 0 = j) by (apply nth_error_nth; exact Ej). rewrite Hn.
  repeat split; try lia. apply nth_error_Some. congruence.
Qed.

Lemma checkCeqs_len sc mmc : forall ps i meq e meq',
  checkCeqs sc mmc i ps meq = Some (e, meq') -> length meq' = length meq.
Proof.
  induction ps as [|ip ps IH]; intros i meq e meq' H; cbn [checkCeqs] in H.
  - injection H as _ <-. reflexivity.
  - destruct ps as [|jp1 ps]; [injection H as _ <-; reflexivity|].
    destruct ip as [|ip0]; [discriminate|].
    destruct (nth_error mmc ip0) as [idof|]; [|discriminate].
    destruct ((idof <? 1) || (Z.of_nat (length sc) <? idof)).
    { destruct (checkCeqs sc mmc (S i) (jp1 :: ps) meq) as [[e1 m1]|] eqn:E; [|discriminate].
      injection H as _ <-. eapply IH; eauto. }
    destruct (0 <? nth (Z.to_nat (idof - 1)) sc 0).
    { destruct (checkCeqs sc mmc (S i) (jp1 :: ps) _) as [[e1 m1]|] eqn:E; [|discriminate].
      injection H as _ <-. apply IH in E. rewrite upd_length in E. exact E. }
    destruct (jp1 =? S (S ip0))%nat.
    { apply IH in H. rewrite upd_length in H. exact H. }
    destruct (S (S ip0) <? jp1)%nat.
    { destruct (checkMasters sc mmc _) as [n|]; [|discriminate].
      destruct (checkCeqs sc mmc (S i) (jp1 :: ps) _) as [[e1 m1]|] eqn:E; [|discriminate].
      injection H as _ <-. apply IH in E. rewrite upd_length in E. exact E. }
    injection H as _ <-. reflexivity.
Qed.

(** pointers of the k-th constraint of a pointer list *)
Definition pb (ps : list nat) (k : nat) := nth k ps 0%nat.
Definition pe (ps : list nat) (k : nat) := (nth (S k) ps 0 - 1)%nat.

Lemma checkCeqs_0 sc mmc : forall ps i meq meq',
  checkCeqs sc mmc i ps meq = Some (0%nat, meq') ->
  (forall k, (k < pred (length ps))%nat ->
     (1 <= pb ps k <= pe ps k)%nat /\ (pe ps k <= length mmc)%nat /\
     1 <= nth (pb ps k - 1) mmc 0 <= Z.of_nat (length sc) /\
     nth (Z.to_nat (nth (pb ps k - 1) mmc 0 - 1)) sc 0 <= 0 /\
     forall q, (pb ps k <= q < pe ps k)%nat ->
       1 <= nth q mmc 0 <= Z.of_nat (length sc) /\ 1 <= nth (Z.to_nat (nth q mmc 0 - 1)) sc 0) /\
  (length meq = length sc -> forall d, (d < length sc)%nat ->
     (exists k, (k < pred (length ps))%nat /\ nth (pb ps k - 1) mmc 0 = Z.of_nat (S d) /\
        (forall k', (k < k' < pred (length ps))%nat -> nth (pb ps k' - 1) mmc 0 <> Z.of_nat (S d)) /\
        nth d meq' 0 = - Z.of_nat (i + k)) \/
     ((forall k, (k < pred (length ps))%nat -> nth (pb ps k - 1) mmc 0 <> Z.of_nat (S d)) /\
      nth d meq' 0 = nth d meq 0)).
Proof.
  induction ps as [|ip ps IH]; intros i meq meq' H; cbn [checkCeqs] in H.
  - injection H as <-. split; [simpl; lia|]. intros _ d Hd. right. split; [simpl; lia|reflexivity].
  - destruct ps as [|jp1 ps].
    { injection H as <-. split; [simpl; lia|]. intros _ d Hd. right. split; [simpl; lia|reflexivity]. }
    destruct ip as [|ip0]; [discriminate|].
    destruct (nth_error mmc ip0) as [idof|] eqn:Ei; [|discriminate].
    assert (Hidof : nth ip0 mmc 0 = idof) by (apply nth_error_nth; exact Ei).
    assert (Hip0 : (ip0 < length mmc)%nat) by (apply nth_error_Some; congruence).
    destruct ((idof <? 1) || (Z.of_nat (length sc) <? idof)) eqn:Er.
    { destruct (checkCeqs sc mmc (S i) (jp1 :: ps) meq) as [[e1 m1]|]; discriminate. }
    destruct (0 <? nth (Z.to_nat (idof - 1)) sc 0) eqn:Es.
    { destruct (checkCeqs sc mmc (S i) (jp1 :: ps) _) as [[e1 m1]|]; discriminate. }
    set (meq1 := upd (Z.to_nat (idof-1)) (- Z.of_nat i) meq) in *.
    assert (Hrec : checkCeqs sc mmc (S i) (jp1 :: ps) meq1 = Some (0%nat, meq') /\
       (S ip0 <= jp1 - 1)%nat /\ (jp1 - 1 <= length mmc)%nat /\
       (forall q, (S ip0 <= q < jp1 - 1)%nat ->
          1 <= nth q mmc 0 <= Z.of_nat (length sc) /\ 1 <= nth (Z.to_nat (nth q mmc 0 - 1)) sc 0)).
    { destruct (jp1 =? S (S ip0))%nat eqn:E1.
      { split; [exact H|]. apply Nat.eqb_eq in E1. split; [lia|]. split; [lia|]. intros q Hq. lia. }
      destruct (S (S ip0) <? jp1)%nat eqn:E2; [|discriminate].
      destruct (checkMasters sc mmc _) as [n|] eqn:Em; [|discriminate].
      destruct (checkCeqs sc mmc (S i) (jp1 :: ps) meq1) as [[e1 m1]|] eqn:E; [|discriminate].
      injection H as H1 <-. assert (n = 0 /\ e1 = 0)%nat as [-> ->] by lia.
      apply Nat.ltb_lt in E2. split; [reflexivity|]. split; [lia|].
      pose proof (checkMasters_0 _ _ _ Em) as Hm. split.
      - assert (Hin : In (jp1 - 2)%nat (seq (S ip0) (jp1 - 1 - S ip0))) by (apply in_seq; lia).
        apply Hm in Hin. lia.
      - intros q Hq. assert (Hin : In q (seq (S ip0) (jp1 - 1 - S ip0))) by (apply in_seq; lia).
        apply Hm in Hin. tauto. }
    clear H. destruct Hrec as (H&Hp1&Hp2&Hm).
    apply IH in H. destruct H as [HA HB].
    split.
    + intros [|k] Hk.
      * unfold pb, pe. cbn [nth]. replace (S ip0 - 1)%nat with ip0 by lia. rewrite Hidof. repeat split; try lia.
        -- destruct (Hm q ltac:(lia)); lia.
        -- destruct (Hm q ltac:(lia)); lia.
        -- destruct (Hm q ltac:(lia)); lia.
      * apply (HA k). cbn [length pred] in *. lia.
    + intros Hl d Hd. destruct (HB ltac:(unfold meq1; rewrite upd_length; exact Hl) d Hd) as [(k&K1&K2&K3&K4)|[K1 K2]].
      * left. exists (S k). cbn [length pred] in *. repeat split; try lia.
        -- exact K2.
        -- intros [|k'] Hk'; [lia|]. apply K3. lia.
      * destruct (Z.eq_dec idof (Z.of_nat (S d))) as [E|E].
        -- left. exists 0%nat. cbn [length pred] in *. unfold pb at 1. cbn [nth]. replace (S ip0 - 1)%nat with ip0 by lia.
           repeat split; try lia.
           ++ intros [|k'] Hk'; [lia|]. apply K1. lia.
           ++ rewrite K2. unfold meq1. replace (Z.to_nat (idof-1)) with d by lia.
              rewrite upd_nth_same by lia. f_equal. lia.
        -- right. split.
           ++ intros [|k] Hk; [unfold pb; cbn [nth]; replace (S ip0 - 1)%nat with ip0 by lia; congruence|].
              apply K1. cbn [length pred] in *. lia.
           ++ rewrite K2. unfold meq1. apply upd_nth_other. lia.
Qed.

(** ** C05 *)
Lemma initEqs_spec s s' : initEqs s = Some (true, s') ->
  madof s' = madof s /\ mpmnpc s' = mpmnpc s /\ mmnpc s' = mmnpc s /\
  mpmceq s' = mpmceq s /\ mmceq s' = mmceq s /\ ttcc s' = ttcc s /\
  ndof s' = ndof s /\ length (meqn s') = ndof s /\
  (forall d, (d < ndof s)%nat -> status s d = 0 \/ status s d = 1 \/ status s d = 2) /\
  neq s' = (count 1 (msc s) + count 2 (msc s))%nat /\
  nspdof s' = (nspdof s + count 0 (msc s))%nat /\
  (forall d, (d < ndof s)%nat ->
     (status s d = 1 -> nth d (meqn s') 0 = Z.of_nat (1 + rank 1 (msc s) d)) /\
     (status s d = 2 -> nth d (meqn s') 0 = Z.of_nat (count 1 (msc s) + 1 + rank 2 (msc s) d)) /\
     (status s d = 0 -> (exists i, lastSlave s i d /\ nth d (meqn s') 0 = - Z.of_nat i) \/
        ((forall i, (1 <= i <= nceq s)%nat -> slaveDof s i <> Z.of_nat (S d)) /\ nth d (meqn s') 0 = 0)) /\
     nth d (msc s') 0 = if status s d =? 0 then - Z.of_nat (nspdof s + rank 0 (msc s) d + 1) else status s d) /\
  (forall i, (1 <= i <= nceq s)%nat ->
     (1 <= cbeg s i <= cend s i)%nat /\ (cend s i <= length (mmceq s))%nat /\
     1 <= slaveDof s i <= Z.of_nat (ndof s) /\ status s (Z.to_nat (slaveDof s i - 1)) = 0 /\
     forall q, (cbeg s i <= q < cend s i)%nat ->
       1 <= mm s q <= Z.of_nat (ndof s) /\
       (status s (Z.to_nat (mm s q - 1)) = 1 \/ status s (Z.to_nat (mm s q - 1)) = 2)).
Proof.
  unfold initEqs. destruct (scanMsc (msc s) 0 0 (nspdof s) 0) as [sc [[[n1 n2] np] e1]] eqn:Es.
  destruct (checkCeqs sc (mmceq s) 1 (mpmceq s) (repeat 0 (length sc))) as [[e2 meq]|] eqn:Ec; [|discriminate].
  intros [= He <-]. apply Nat.eqb_eq in He. assert (e1 = 0 /\ e2 = 0)%nat as [-> ->] by lia.
  apply scanMsc_spec in Es. destruct Es as (L&N1&N2&NP&_&OK&_&SC&MP). specialize (OK eq_refl).
  pose proof (checkCeqs_len _ _ _ _ _ _ _ Ec) as Lm. rewrite repeat_length in Lm.
  apply checkCeqs_0 in Ec. destruct Ec as [CA CB]. specialize (CB (repeat_length _ _)).
  destruct (number_spec sc meq 1 (n1+1) Lm) as [NL NN].
  cbn [madof msc mpmnpc mmnpc mpmceq mmceq ttcc meqn neq nspdof]. unfold ndof; cbn [msc].
  assert (Hst : forall d, (d < length (msc s))%nat -> okCode (status s d)).
  { intros d Hd. rewrite Forall_forall in OK. apply OK. unfold status. apply nth_In. exact Hd. }
  assert (Hpos : forall d, (d < length (msc s))%nat -> 1 <= nth d sc 0 -> status s d = 1 \/ status s d = 2).
  { intros d Hd H1. rewrite SC in H1 by auto. fold (status s d) in H1.
    destruct (Hst d Hd) as [E|[E|E]]; auto. rewrite E in H1. simpl in H1. lia. }
  assert (Hneg : forall d, (d < length (msc s))%nat -> nth d sc 0 <= 0 -> status s d = 0).
  { intros d Hd H1. rewrite SC in H1 by auto. fold (status s d) in H1.
    destruct (Hst d Hd) as [E|[E|E]]; auto; rewrite E in H1; simpl in H1; lia. }
  repeat match goal with |- _ /\ _ => split end; auto; try lia.
  - intros d Hd. rewrite L in NN.
    assert (Hsc := SC d Hd). fold (status s d) in Hsc.
    repeat match goal with |- _ /\ _ => split end.
    + intros E. rewrite NN by auto. rewrite Hsc, E. simpl (1 =? 0). simpl (1 =? 1). cbv iota.
      rewrite (rank_ext 1 sc (msc s)) by (apply MP; lia). reflexivity.
    + intros E. rewrite NN by auto. rewrite Hsc, E. simpl (2 =? 0). simpl (2 =? 1). simpl (2 =? 2). cbv iota.
      rewrite (rank_ext 2 sc (msc s)) by (apply MP; lia). change (2 =? 1) with false; change (2 =? 2) with true; cbv iota; lia.
    + intros E. rewrite NN by auto. rewrite Hsc, E. simpl (0 =? 0). cbv iota.
      destruct (Z.eqb_spec (- Z.of_nat (nspdof s + rank 0 (msc s) d + 1)) 1); [lia|].
      destruct (Z.eqb_spec (- Z.of_nat (nspdof s + rank 0 (msc s) d + 1)) 2); [lia|].
      destruct (CB d ltac:(lia)) as [(k&K1&K2&K3&K4)|[K1 K2]].
      * left. exists (S k). split; [|rewrite K4; lia]. unfold lastSlave, nceq, slaveDof, firstPos, mm, cbeg, pb in *.
        repeat split; try lia.
        -- replace (S k - 1)%nat with k by lia. exact K2.
        -- intros i' Hi'. specialize (K3 (i' - 1)%nat). apply K3. lia.
      * right. split.
        -- intros i Hi. unfold nceq, slaveDof, firstPos, mm, cbeg, pb in *. apply K1. lia.
        -- rewrite K2. apply nth_repeat.
    + exact Hsc.
  - intros i Hi. unfold nceq in Hi. destruct (CA (i-1)%nat ltac:(lia)) as (A1&A2&A3&A4&A5).
    unfold slaveDof, firstPos, mm, cbeg, cend, pb, pe in *. replace (S (i-1)) with i in * by lia.
    rewrite L in *.
    repeat split; try lia.
    + apply Hneg; [lia|exact A4].
    + destruct (A5 q ltac:(lia)); lia.
    + destruct (A5 q ltac:(lia)); lia.
    + destruct (A5 q ltac:(lia)) as [B1 B2]. apply Hpos; [lia|exact B2].
Qed.

Lemma cbeg_eq s s' : mpmceq s' = mpmceq s -> forall i, cbeg s' i = cbeg s i.
Proof. intros H i. unfold cbeg. rewrite H. reflexivity. Qed.
Lemma cend_eq s s' : mpmceq s' = mpmceq s -> forall i, cend s' i = cend s i.
Proof. intros H i. unfold cend. rewrite H. reflexivity. Qed.

Lemma initEqs_consistent s s' : initEqs s = Some (true, s') -> consistent s'.
Proof.
  intros H. apply initEqs_spec in H. destruct H as (E1&E2&E3&E4&E5&E6&E7&Lm&St&Ne&Np&D&Ceq).
  assert (Hn : nceq s' = nceq s) by (unfold nceq; rewrite E4; reflexivity).
  assert (Hfree : forall d, (d < ndof s)%nat -> status s d = 1 \/ status s d = 2 ->
             1 <= nth d (meqn s') 0 <= Z.of_nat (neq s')).
  { intros d Hd Hs. destruct (D d Hd) as (D1&D2&_&_). rewrite Ne. unfold ndof in Hd.
    destruct Hs as [Hs|Hs].
    - rewrite D1 by auto. pose proof (rank_lt 1 (msc s) d Hd Hs). lia.
    - rewrite D2 by auto. pose proof (rank_lt 2 (msc s) d Hd Hs). lia. }
  split; [rewrite E7; exact Lm|]. split; [|split].
  - intros i Hi. rewrite Hn in Hi. destruct (Ceq i Hi) as (A1&A2&A3&A4&A5).
    unfold slaveDof, masterTerms, firstPos, afterPos, cbeg, cend, mm in *. rewrite E4, E5, E7.
    repeat match goal with |- _ /\ _ => split end; try lia.
    intros j c H. apply in_map_iff in H; destruct H as (q&Hq&Hin); apply in_seq in Hin; injection Hq as Hj Hc.
    subst j. destruct (A5 q ltac:(lia)) as [B1 B2]. split; [lia|]. unfold eqnOf.
    pose proof (Hfree (Z.to_nat (nth q (mmceq s) 0 - 1)) ltac:(lia) B2); lia.
  - intros d Hd. rewrite E7 in Hd. rewrite Hn.
    destruct (St d Hd) as [Z0|[Z0|Z0]].
    + destruct (D d Hd) as (_&_&D3&_). destruct (D3 Z0) as [(i&Li&->)|[_ ->]]; [|lia].
      destruct Li as (Li&_). lia.
    + pose proof (Hfree d Hd (or_introl Z0)). lia.
    + pose proof (Hfree d Hd (or_intror Z0)). lia.
  - intros e He. rewrite E7.
    assert (Hun : forall d d', (d < ndof s)%nat -> (d' < ndof s)%nat ->
              nth d (meqn s') 0 = e -> nth d' (meqn s') 0 = e -> d = d').
    { intros d d' Hd Hd' Q Q'.
      destruct (D d Hd) as (D1&D2&D3&_). destruct (D d' Hd') as (F1&F2&F3&_).
      unfold ndof in Hd, Hd'.
      destruct (St d Hd) as [S0|[S0|S0]].
      { destruct (D3 S0) as [(i&(Li&_)&R)|[_ R]]; lia. }
      - rewrite D1 in Q by auto. pose proof (rank_lt 1 (msc s) d Hd S0).
        destruct (St d' Hd') as [S1|[S1|S1]].
        { destruct (F3 S1) as [(i&(Li&_)&R)|[_ R]]; lia. }
        + rewrite F1 in Q' by auto. apply (rank_inj 1 (msc s)); auto. lia.
        + rewrite F2 in Q' by auto. lia.
      - rewrite D2 in Q by auto.
        destruct (St d' Hd') as [S1|[S1|S1]].
        { destruct (F3 S1) as [(i&(Li&_)&R)|[_ R]]; lia. }
        + rewrite F1 in Q' by auto. pose proof (rank_lt 1 (msc s) d' Hd' S1). lia.
        + rewrite F2 in Q' by auto. apply (rank_inj 2 (msc s)); auto. lia. }
    assert (Hex : exists d, (d < ndof s)%nat /\ nth d (meqn s') 0 = e).
    { rewrite Ne in He. destruct (Z_le_gt_dec e (Z.of_nat (count 1 (msc s)))) as [Hle|Hgt].
      - destruct (rank_surj 1 (msc s) (Z.to_nat (e-1)) ltac:(lia)) as (d&A&B&C).
        exists d. split; [exact A|]. destruct (D d A) as (D1&_). rewrite D1 by exact B. lia.
      - destruct (rank_surj 2 (msc s) (Z.to_nat (e - 1 - Z.of_nat (count 1 (msc s)))) ltac:(lia)) as (d&A&B&C).
        exists d. split; [exact A|]. destruct (D d A) as (_&D2&_). rewrite D2 by exact B. lia. }
    destruct Hex as (d&Hd&Q). exists d. split; [exact Hd|]. split; [exact Q|].
    intros d' Hd' Q'. apply Hun; auto.
Qed.

(** ** Completeness: valid input is accepted *)
Lemma checkMasters_ok sc mmc ks :
  (forall k, In k ks -> (k < length mmc)%nat /\ 1 <= nth k mmc 0 <= Z.of_nat (length sc) /\
                       1 <= nth (Z.to_nat (nth k mmc 0 - 1)) sc 0) -> checkMasters sc mmc ks = Some 0%nat.
Proof.
  induction ks as [|k ks IH]; intros H; [reflexivity|]. cbn [checkMasters].
  destruct (H k (or_introl eq_refl)) as (A&B&D). rewrite (nth_error_nth' _ 0 A).
  rewrite IH by (intros k' Hk'; apply H; right; exact Hk').
  destruct ((nth k mmc 0 <? 1) || (Z.of_nat (length sc) <? nth k mmc 0)) eqn:E1; [lia|].
  destruct (nth (Z.to_nat (nth k mmc 0 - 1)) sc 0 <? 1) eqn:E2; [lia|reflexivity].
Qed.
Lemma checkCeqs_ok sc mmc : forall ps i meq,
  (forall k, (k < pred (length ps))%nat ->
     (1 <= pb ps k <= pe ps k)%nat /\ (pe ps k <= length mmc)%nat /\
     1 <= nth (pb ps k - 1) mmc 0 <= Z.of_nat (length sc) /\
     nth (Z.to_nat (nth (pb ps k - 1) mmc 0 - 1)) sc 0 <= 0 /\
     forall q, (pb ps k <= q < pe ps k)%nat ->
       1 <= nth q mmc 0 <= Z.of_nat (length sc) /\ 1 <= nth (Z.to_nat (nth q mmc 0 - 1)) sc 0) ->
  exists meq', checkCeqs sc mmc i ps meq = Some (0%nat, meq').
Proof.
  induction ps as [|ip ps IH]; intros i meq H; cbn [checkCeqs]; [eauto|].
  destruct ps as [|jp1 ps]; [eauto|].
  destruct (H 0%nat ltac:(simpl; lia)) as (A&B&D&E&G). unfold pb, pe in A, B, D, E, G. cbn [nth] in A, B, D, E, G.
  destruct ip as [|ip0]; [lia|]. replace (S ip0 - 1)%nat with ip0 in * by lia.
  rewrite (nth_error_nth' _ 0) by lia.
  destruct ((nth ip0 mmc 0 <? 1) || (Z.of_nat (length sc) <? nth ip0 mmc 0)) eqn:E1; [lia|].
  destruct (0 <? nth (Z.to_nat (nth ip0 mmc 0 - 1)) sc 0) eqn:E2; [lia|].
  destruct (IH (S i) (upd (Z.to_nat (nth ip0 mmc 0 - 1)) (- Z.of_nat i) meq)) as [m' Hm'].
  { intros k Hk. apply (H (S k)). cbn [length pred] in *. lia. }
  destruct (jp1 =? S (S ip0))%nat eqn:E3; [exists m'; exact Hm'|].
  destruct (S (S ip0) <? jp1)%nat eqn:E4; [|lia].
  rewrite checkMasters_ok.
  - rewrite Hm'. exists m'. reflexivity.
  - intros k Hk. apply in_seq in Hk. destruct (G k ltac:(lia)) as [G1 G2]. repeat split; try lia.
Qed.
Lemma initEqs_complete s : validInput s -> exists s', initEqs s = Some (true, s').
Proof.
  intros [V W]. unfold initEqs. destruct (scanMsc (msc s) 0 0 (nspdof s) 0) as [sc [[[n1 n2] np] e1]] eqn:Es.
  apply scanMsc_spec in Es. destruct Es as (L&_&_&_&_&_&E0&N&_). specialize (E0 V). subst e1.
  assert (P : forall k, (k < ndof s)%nat -> nth k sc 0 = if status s k =? 0 then - Z.of_nat (nspdof s + rank 0 (msc s) k + 1) else status s k).
  { intros k Hk. unfold status. apply N. exact Hk. }
  destruct (checkCeqs_ok sc (mmceq s) (mpmceq s) 1 (repeat 0 (length sc))) as [m' Hm'].
  - intros k Hk. destruct (W (S k)) as (A&B&D&E&G); [unfold nceq; lia|].
    unfold slaveDof, masterTerms, firstPos, afterPos in *. replace (S k - 1)%nat with k in * by lia. unfold pb, pe. unfold ndof in *.
    repeat match goal with |- _ /\ _ => split end; try lia.
    + rewrite P by lia. rewrite E. simpl. lia.
    + intros q Hq. destruct (G (nth q (mmceq s) 0) (nth q (ttcc s) 0%Qc)) as [G1 G2].
      { apply in_map_iff. exists q. split; [reflexivity|]. apply in_seq. lia. }
      split; [lia|]. rewrite P by lia.
      destruct G2 as [G2|G2]; rewrite G2; simpl; lia.
  - rewrite Hm'. eexists. reflexivity.
Qed.

Lemma initEqs_valid s s' : initEqs s = Some (true, s') -> validInput s.
Proof.
  intros H. apply initEqs_spec in H. destruct H as (_&_&_&_&_&_&_&_&St&_&_&_&C). split.
  - apply Forall_forall. intros c Hc. apply (In_nth _ _ 0) in Hc. destruct Hc as (d&Hd&<-). apply St. exact Hd.
  - intros i Hi. destruct (C i Hi) as (A&B&D&E&G). unfold cbeg, cend, firstPos, afterPos, masterTerms in *.
    repeat match goal with |- _ /\ _ => split end; try lia.
    intros j c Hj. apply in_map_iff in Hj. destruct Hj as (k&[= <- <-]&Hk). apply in_seq in Hk.
    unfold firstPos, afterPos in Hk. apply G. lia.
Qed.
