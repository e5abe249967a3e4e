(** The DOF table: initNodeDofs. *)
From Coq Require Import List Arith ZArith QArith Qcanon Bool Lia.
From Verif Require Import Base SAM_model SAM_spec MPC_model MPC_spec SAMpatch_model SAMpatch_spec.
Import ListNotations.
Local Open Scope Z_scope.

Lemma psum_length l : forall a, length (psum a l) = S (length l).
Proof. induction l as [|x l IH]; intros a; cbn; [reflexivity|]. rewrite IH. reflexivity. Qed.
Lemma psum_nth l : forall a i, (i <= length l)%nat -> nth i (psum a l) 0%nat = (a + list_sum (firstn i l))%nat.
Proof.
  induction l as [|x l IH]; intros a [|i] H; cbn [psum nth firstn length] in *; try lia; try (cbn; lia).
  rewrite IH by lia. change (list_sum (x :: firstn i l)) with (x + list_sum (firstn i l))%nat. lia.
Qed.
Lemma psum_step l : forall a i, (i < length l)%nat -> nth (S i) (psum a l) 0%nat = (nth i (psum a l) 0 + nth i l 0)%nat.
Proof.
  induction l as [|x l IH]; intros a [|i] H; cbn [psum nth length] in *; try lia.
  - destruct l; reflexivity.
  - rewrite <- IH by lia. reflexivity.
Qed.
Lemma psum_mono l a i j : (i <= j <= length l)%nat -> (nth i (psum a l) 0 <= nth j (psum a l) 0)%nat.
Proof. intros [H1 H2]. induction H1 as [|j H1 IH]; [lia|]. rewrite psum_step by lia. specialize (IH ltac:(lia)). lia. Qed.

(** ** counting the DOFs of the nodes *)
Lemma nodeStep_len nn acc x : length (fst (nodeStep nn acc x)) = length (fst acc).
Proof. unfold nodeStep. destruct (_ && _); [|reflexivity]. destruct (_ =? _)%nat; cbn; [apply upd_length|]. destruct (_ =? _)%nat; reflexivity. Qed.
Lemma nodeFold nn : forall L a e, Forall (fun x => (0 < snd x)%nat) L -> length a = S nn ->
  exists a' e', fold_left (nodeStep nn) L (a, e) = (a', e') /\ length a' = S nn /\
    (forall i, nth i a 0%nat <> 0%nat -> nth i a' 0%nat = nth i a 0%nat) /\
    (forall i, nth i a' 0%nat <> nth i a 0%nat -> exists x, In x L /\ fst x = Z.of_nat i /\ snd x = nth i a' 0%nat /\ (1 <= i <= nn)%nat) /\
    (forall x, In x L -> 1 <= fst x <= Z.of_nat nn -> nth (Z.to_nat (fst x)) a' 0%nat <> 0%nat) /\
    (e' = 0%nat <-> e = 0%nat /\ forall x, In x L -> 1 <= fst x <= Z.of_nat nn -> snd x = nth (Z.to_nat (fst x)) a' 0%nat).
Proof.
  induction L as [|x L IH]; intros a e F Ha; cbn [fold_left].
  - exists a, e. split; [reflexivity|]. split; [exact Ha|]. split; [auto|]. split; [congruence|]. split; [intros ? []|]. split; [intros; split; [auto|intros ? []]|tauto].
  - inversion F as [|? ? F1 F2]; subst. unfold nodeStep at 2. cbn [fst snd].
    destruct ((0 <? fst x) && (fst x <=? Z.of_nat nn)) eqn:R.
    + apply andb_true_iff in R. destruct R as [R1 R2]. apply Z.ltb_lt in R1. apply Z.leb_le in R2. set (i := Z.to_nat (fst x)) in *.
      assert (Hi : (1 <= i <= nn)%nat) by lia. assert (Hfx : fst x = Z.of_nat i) by lia.
      destruct (Nat.eqb_spec (nth i a 0%nat) 0) as [E0|E0].
      * destruct (IH (upd i (snd x) a) e F2) as (a' & e' & E & L' & P1 & P2 & P3 & P4); [rewrite upd_length; exact Ha|].
        assert (Hai : nth i a' 0%nat = snd x) by (rewrite P1; rewrite upd_nth_same by lia; lia).
        exists a', e'. split; [exact E|]. split; [exact L'|]. split; [|split; [|split]].
        -- intros k Hk. assert (k <> i) by congruence. rewrite P1; rewrite upd_nth_other by auto; auto.
        -- intros k Hk. destruct (Nat.eq_dec k i) as [->|N].
           ++ exists x. split; [left; reflexivity|]. split; [lia|]. split; [congruence|lia].
           ++ destruct (P2 k) as (y & Hy & Q); [rewrite upd_nth_other by auto; exact Hk|]. exists y. split; [right; exact Hy|exact Q].
        -- intros y [<-|Hy] Ry; [fold i; lia|apply P3; auto].
        -- rewrite P4. split; intros [Q1 Q2]; (split; [exact Q1|]).
           ++ intros y [<-|Hy] Ry; [fold i; congruence|apply Q2; auto].
           ++ intros y Hy Ry. apply Q2; [right; exact Hy|exact Ry].
      * destruct (Nat.eqb_spec (nth i a 0%nat) (snd x)) as [E1|E1].
        -- destruct (IH a e F2 Ha) as (a' & e' & E & L' & P1 & P2 & P3 & P4).
           assert (Hai : nth i a' 0%nat = nth i a 0%nat) by (apply P1; exact E0).
           exists a', e'. split; [exact E|]. split; [exact L'|]. split; [exact P1|]. split; [|split].
           ++ intros k Hk. destruct (P2 k Hk) as (y & Hy & Q). exists y. split; [right; exact Hy|exact Q].
           ++ intros y [<-|Hy] Ry; [fold i; lia|apply P3; auto].
           ++ rewrite P4. split; intros [Q1 Q2]; (split; [exact Q1|]).
              ** intros y [<-|Hy] Ry; [fold i; congruence|apply Q2; auto].
              ** intros y Hy Ry. apply Q2; [right; exact Hy|exact Ry].
        -- destruct (IH a (S e) F2 Ha) as (a' & e' & E & L' & P1 & P2 & P3 & P4).
           assert (Hai : nth i a' 0%nat = nth i a 0%nat) by (apply P1; exact E0).
           exists a', e'. split; [exact E|]. split; [exact L'|]. split; [exact P1|]. split; [|split].
           ++ intros k Hk. destruct (P2 k Hk) as (y & Hy & Q). exists y. split; [right; exact Hy|exact Q].
           ++ intros y [<-|Hy] Ry; [fold i; lia|apply P3; auto].
           ++ rewrite P4. split; intros [Q1 Q2]; [discriminate|]. exfalso. apply E1. rewrite <- Hai. symmetry. apply Q2; [left; reflexivity|lia].
    + destruct (IH a e F2 Ha) as (a' & e' & E & L' & P1 & P2 & P3 & P4). exists a', e'. split; [exact E|]. split; [exact L'|]. split; [exact P1|].
      assert (Rx : ~ (1 <= fst x <= Z.of_nat nn)) by lia. split; [|split].
      * intros k Hk. destruct (P2 k Hk) as (y & Hy & Q). exists y. split; [right; exact Hy|exact Q].
      * intros y [<-|Hy] Ry; [contradiction|apply P3; auto].
      * rewrite P4. split; intros [Q1 Q2]; (split; [exact Q1|]).
        -- intros y [<-|Hy] Ry; [contradiction|apply Q2; auto].
        -- intros y Hy Ry. apply Q2; [right; exact Hy|exact Ry].
Qed.
Lemma patchNodes_in p x : In x (patchNodes p) <-> exists j, nth_error (pMLGN p) j = Some (fst x) /\ nth j (pNdof p) 0%nat = snd x.
Proof.
  unfold patchNodes. rewrite in_map_iff. split.
  - intros (j & <- & Hj). apply in_seq in Hj. exists j. cbn [fst snd]. split; [|reflexivity]. unfold getNodeID.
    destruct (Z.ltb_spec (Z.of_nat (S j)) 1); [lia|]. destruct (Z.ltb_spec (Z.of_nat (length (pMLGN p))) (Z.of_nat (S j))); [lia|]. cbn [orb].
    replace (Z.to_nat (Z.of_nat (S j) - 1)) with j by lia. apply nth_error_nth'. lia.
  - intros (j & H1 & H2). assert (Hj : (j < length (pMLGN p))%nat) by (apply nth_error_Some; congruence). exists j. split; [|apply in_seq; lia].
    unfold getNodeID. destruct (Z.ltb_spec (Z.of_nat (S j)) 1); [lia|]. destruct (Z.ltb_spec (Z.of_nat (length (pMLGN p))) (Z.of_nat (S j))); [lia|]. cbn [orb].
    replace (Z.to_nat (Z.of_nat (S j) - 1)) with j by lia. rewrite (nth_error_nth _ _ 0 H1), H2. destruct x; reflexivity.
Qed.
Lemma allNodes_in ps n nd : In (n, nd) (flat_map patchNodes ps) <-> hasNode ps n nd.
Proof.
  rewrite in_flat_map. split.
  - intros (p & Hp & Hx). apply patchNodes_in in Hx. destruct Hx as (j & H1 & H2). exists p, j. auto.
  - intros (p & j & Hp & H1 & H2). exists p. split; [exact Hp|]. apply patchNodes_in. exists j. auto.
Qed.

(** ** boundary condition codes *)
Lemma codeFold b0 codes : forall n s sc, (b0 + s + n <= length sc)%nat ->
  let r := fold_left (fun m c => upd (b0 + c) (nth (b0 + c) m 0 * nth c codes 0) m) (seq s n) sc in
  length r = length sc /\
  forall p, nth p r 0 = if (b0 + s <=? p)%nat && (p <? b0 + s + n)%nat then nth p sc 0 * nth (p - b0) codes 0 else nth p sc 0.
Proof.
  induction n as [|n IH]; intros s sc H; cbn [seq fold_left].
  - split; [reflexivity|]. intros p. destruct (Nat.leb_spec (b0 + s) p); cbn [andb]; [|reflexivity]. destruct (Nat.ltb_spec p (b0 + s + 0)); [lia|reflexivity].
  - destruct (IH (S s) (upd (b0 + s) (nth (b0 + s) sc 0 * nth s codes 0) sc)) as (L & P); [rewrite upd_length; lia|].
    split; [rewrite L; apply upd_length|]. intros p. rewrite P. rewrite upd_nth.
    destruct (Nat.eqb_spec p (b0 + s)) as [->|N].
    + destruct (Nat.leb_spec (b0 + S s) (b0 + s)); [lia|]. destruct (Nat.ltb_spec (b0 + s) (length sc)); [|lia].
      destruct (Nat.leb_spec (b0 + s) (b0 + s)); [|lia]. destruct (Nat.ltb_spec (b0 + s) (b0 + s + S n)); [|lia]. cbn [andb].
      replace (b0 + s - b0)%nat with s by lia. reflexivity.
    + cbn [andb]. destruct (Nat.leb_spec (b0 + S s) p); destruct (Nat.leb_spec (b0 + s) p); try lia; cbn [andb]; try reflexivity.
      destruct (Nat.ltb_spec p (b0 + S s + n)); destruct (Nat.ltb_spec p (b0 + s + S n)); try lia; reflexivity.
Qed.
(** position [p] (0-based DOF) belongs to the first six DOFs of the node of [b] and is fixed by it *)
Definition hits (md : list nat) (b : bc) (p : nat) : Prop :=
  let i1 := nth (Z.to_nat (bnode b - 1)) md 0%nat in
  (i1 - 1 <= p < i1 - 1 + Nat.min (nth (Z.to_nat (bnode b)) md 0 - i1) 6)%nat /\ nth (p - (i1 - 1)) (bcodes b) 1 = 0.
Lemma nth_def {X} (l : list X) i a b : (i < length l)%nat -> nth i l a = nth i l b.
Proof. intros H. apply nth_indep. exact H. Qed.
Lemma bcFold md nn : (1 <= nn)%nat -> length md = S nn ->
  (forall i, (i < nn)%nat -> (1 <= nth i md 0 <= nth (S i) md 0)%nat) -> (forall i, (i <= nn)%nat -> (nth i md 0 <= nth nn md 0)%nat) ->
  forall bs sc, length sc = (nth nn md 0 - 1)%nat -> Forall (fun c => c = 0 \/ c = 1) sc ->
    Forall (fun b => 1 <= bnode b <= Z.of_nat nn /\ length (bcodes b) = 6%nat /\ Forall (fun c => c = 0 \/ c = 1) (bcodes b)) bs ->
  exists sc', foldO (bcStep md) bs sc = Some sc' /\ length sc' = length sc /\ Forall (fun c => c = 0 \/ c = 1) sc' /\
    forall p, (p < length sc)%nat -> (nth p sc' 0 = 0 <-> nth p sc 0 = 0 \/ exists b, In b bs /\ hits md b p).
Proof.
  intros Hnn Lm Hm Hx. induction bs as [|b bs IH]; intros sc Ls F1 F2; cbn [foldO].
  - exists sc. split; [reflexivity|]. split; [reflexivity|]. split; [exact F1|]. intros p Hp. split; [auto|]. intros [H|(b & [] & _)]; exact H.
  - inversion F2 as [|? ? (R & L6 & F6) F3]; subst. unfold bcStep at 1.
    destruct (Z.ltb_spec (bnode b) 1); [lia|]. destruct (Z.ltb_spec (Z.of_nat (pred (length md))) (bnode b)); [rewrite Lm in *; lia|]. cbn [orb].
    set (i1 := nth (Z.to_nat (bnode b - 1)) md 0%nat). set (n := (nth (Z.to_nat (bnode b)) md 0 - i1)%nat).
    assert (Hb : (1 <= i1 <= nth (Z.to_nat (bnode b)) md 0)%nat).
    { subst i1. replace (Z.to_nat (bnode b)) with (S (Z.to_nat (bnode b - 1))) by lia. apply Hm. lia. }
    assert (Hx2 : (nth (Z.to_nat (bnode b)) md 0 <= nth nn md 0)%nat) by (apply Hx; lia).
    destruct (codeFold (i1 - 1) (bcodes b) (Nat.min n 6) 0 sc) as (L & P); [lia|]. set (sc1 := fold_left _ _ sc) in *.
    assert (F1' : Forall (fun c => c = 0 \/ c = 1) sc1).
    { rewrite Forall_forall in *. intros c Hc. apply (In_nth _ _ 0) in Hc. destruct Hc as (p & Hp & <-). rewrite L in Hp. rewrite P.
      assert (Q1 : nth p sc 0 = 0 \/ nth p sc 0 = 1) by (apply F1, nth_In; exact Hp).
      destruct (_ && _) eqn:E; [|exact Q1]. apply andb_true_iff in E. destruct E as [E1 E2]. apply Nat.leb_le in E1. apply Nat.ltb_lt in E2.
      assert (Q2 : nth (p - (i1 - 1)) (bcodes b) 0 = 0 \/ nth (p - (i1 - 1)) (bcodes b) 0 = 1) by (apply F6, nth_In; lia).
      destruct Q1 as [-> | ->], Q2 as [-> | ->]; auto. }
    destruct (IH sc1) as (sc' & E & L' & F' & P'); [congruence|exact F1'|exact F3|].
    exists sc'. split; [exact E|]. split; [congruence|]. split; [exact F'|]. intros p Hp. rewrite P' by lia. rewrite P. rewrite Nat.add_0_r.
    assert (Hh : hits md b p <-> (i1 - 1 <= p < i1 - 1 + Nat.min n 6)%nat /\ nth (p - (i1 - 1)) (bcodes b) 1 = 0) by (unfold hits; reflexivity).
    split.
    + intros [Q|(b' & Hb' & Q)]; [|right; exists b'; split; [right; exact Hb'|exact Q]].
      destruct (_ && _) eqn:E2; [|left; exact Q]. apply andb_true_iff in E2. destruct E2 as [E2 E3]. apply Nat.leb_le in E2. apply Nat.ltb_lt in E3.
      apply Z.mul_eq_0 in Q. destruct Q as [Q|Q]; [left; exact Q|]. right. exists b. split; [left; reflexivity|]. apply Hh. split; [lia|]. rewrite <- Q. apply nth_def. lia.
    + intros [Q|(b' & [<-|Hb'] & Q)].
      * left. destruct (_ && _); [rewrite Q; reflexivity|exact Q].
      * left. apply Hh in Q. destruct Q as [Q1 Q2]. destruct (Nat.leb_spec (i1 - 1) p); [|lia]. destruct (Nat.ltb_spec p (i1 - 1 + Nat.min n 6)); [|lia]. cbn [andb].
        rewrite (nth_def (bcodes b) _ 0 1) by lia. fold i1 in Q2. rewrite Q2. lia.
      * right. exists b'. auto.
Qed.
Lemma initNodeDofs_spec nn ps : (1 <= nn)%nat -> (forall n nd, hasNode ps n nd -> (0 < nd)%nat) -> bcOK nn ps ->
  exists ok md sc c, initNodeDofs nn ps = Some (ok, md, sc) /\
    length md = S nn /\ nth 0 md 0%nat = 1%nat /\ (forall i, (i < nn)%nat -> nth (S i) md 0%nat = (nth i md 0 + c (S i))%nat) /\ nth nn md 0%nat = S (length sc) /\ Forall (fun c => c = 0 \/ c = 1) sc /\
    (forall i, (1 <= i <= nn)%nat -> (c i = 0%nat /\ ~ exists nd, hasNode ps (Z.of_nat i) nd) \/ hasNode ps (Z.of_nat i) (c i)) /\
    (ok = true <-> forall n nd, hasNode ps n nd -> 1 <= n <= Z.of_nat nn -> nd = c (Z.to_nat n)) /\
    (forall i l, (1 <= i <= nn)%nat -> (1 <= l <= c i)%nat ->
       (nth (nth (i-1) md 0 + l - 2)%nat sc 1 = 0 <-> fixedIn ps (Z.of_nat i) l) /\
       (nth (nth (i-1) md 0 + l - 2)%nat sc 0 = 1 <-> ~ fixedIn ps (Z.of_nat i) l)).
Proof.
  intros Hnn Hpos Hbc. unfold initNodeDofs. destruct (Nat.ltb_spec nn 1); [lia|].
  destruct (nodeFold nn (flat_map patchNodes ps) (repeat 0%nat (S nn)) 0) as (cnt & e & E & L & P1 & P2 & P3 & P4).
  { rewrite Forall_forall. intros [n nd] Hx. apply allNodes_in in Hx. eapply Hpos; eauto. } { apply repeat_length. }
  rewrite E. set (md := psum 1 (tl cnt)). set (c := fun i => nth i cnt 0%nat).
  assert (Lt : length (tl cnt) = nn) by (destruct cnt; cbn in *; lia).
  assert (Lmd : length md = S nn) by (unfold md; rewrite psum_length; lia).
  assert (Hs : forall i, (i < nn)%nat -> nth (S i) md 0%nat = (nth i md 0 + c (S i))%nat).
  { intros i Hi. unfold md. rewrite psum_step by lia. unfold c. destruct cnt; [discriminate|]. reflexivity. }
  assert (H0 : nth 0 md 0%nat = 1%nat) by (unfold md; destruct (tl cnt); reflexivity).
  assert (Hmono : forall i j, (i <= j <= nn)%nat -> (nth i md 0 <= nth j md 0)%nat) by (intros; apply psum_mono; lia).
  assert (Hge : forall i, (i <= nn)%nat -> (1 <= nth i md 0)%nat) by (intros i Hi; rewrite <- H0 at 1; apply Hmono; lia).
  destruct (bcFold md nn Hnn Lmd) with (bs := flat_map pBC ps) (sc := repeat 1 (nth nn md 0 - 1)%nat) as (sc & Eb & Lb & Fb & Pb).
  - intros i Hi. split; [apply Hge; lia|apply Hmono; lia].
  - intros i Hi. apply Hmono; lia.
  - apply repeat_length.
  - rewrite Forall_forall. intros x Hx. apply repeat_spec in Hx. auto.
  - rewrite Forall_forall. intros b Hb. apply in_flat_map in Hb. destruct Hb as (p & Hp & Hb). eapply Hbc; eauto.
  - rewrite Eb. rewrite repeat_length in Lb, Pb. exists (e =? 0)%nat, md, sc, c.
    split; [reflexivity|]. split; [exact Lmd|]. split; [exact H0|]. split; [exact Hs|]. split; [specialize (Hge nn); lia|]. split; [exact Fb|].
    assert (Hrep : forall i, nth i (repeat 0%nat (S nn)) 0%nat = 0%nat).
    { intros i. destruct (Nat.lt_ge_cases i (S nn)) as [Hi|Hi]; [apply nth_repeat|apply nth_overflow; rewrite repeat_length; exact Hi]. }
    assert (Hc : forall i, (1 <= i <= nn)%nat -> (c i = 0%nat /\ ~ exists nd, hasNode ps (Z.of_nat i) nd) \/ hasNode ps (Z.of_nat i) (c i)).
    { intros i Hi. destruct (Nat.eq_dec (c i) 0) as [Z0|Z0].
      - left. split; [exact Z0|]. intros (nd & Hn). apply allNodes_in in Hn. apply (P3 _ Hn); [cbn; lia|]. cbn [fst]. rewrite Nat2Z.id. exact Z0.
      - right. destruct (P2 i) as ([n nd] & Hx & Q1 & Q2 & _); [rewrite Hrep; exact Z0|]. cbn [fst snd] in *. subst n. apply allNodes_in. unfold c. rewrite <- Q2. exact Hx. }
    split; [exact Hc|]. split.
    + rewrite Nat.eqb_eq, P4. split.
      * intros [_ Q] n nd Hn R. apply allNodes_in in Hn. apply (Q (n, nd) Hn R).
      * intros Q. split; [reflexivity|]. intros [n nd] Hx R. apply allNodes_in in Hx. apply (Q n nd Hx R).
    + intros i l Hi Hl. set (p := (nth (i-1) md 0 + l - 2)%nat).
      assert (Hg1 : (1 <= nth (i-1) md 0)%nat) by (apply Hge; lia).
      assert (Hni : nth i md 0%nat = (nth (i-1) md 0 + c i)%nat).
      { pose proof (Hs (i-1)%nat ltac:(lia)) as Q. replace (S (i-1)) with i in Q by lia. exact Q. }
      assert (Hle : (nth i md 0 <= nth nn md 0)%nat) by (apply Hmono; lia).
      assert (Hp : (p < nth nn md 0 - 1)%nat) by (subst p; lia).
      assert (Hfix : nth p sc 0 = 0 <-> fixedIn ps (Z.of_nat i) l).
      { rewrite (Pb p Hp). rewrite (nth_indep _ 0 1) by (rewrite repeat_length; exact Hp). rewrite nth_repeat. split.
        - intros [Q|(b & Hb & Hh)]; [discriminate|]. apply in_flat_map in Hb. destruct Hb as (pp & Hpp & Hb). unfold hits in Hh. destruct Hh as [H1 H2].
          destruct (Hbc pp b Hpp Hb) as (R & L6 & _).
          assert (Hn : Z.to_nat (bnode b) = i).
          { destruct (Nat.lt_trichotomy (Z.to_nat (bnode b)) i) as [G|[G|G]]; [exfalso|exact G|exfalso].
            - assert (nth (Z.to_nat (bnode b)) md 0 <= nth (i-1) md 0)%nat by (apply Hmono; lia).
              assert (1 <= nth (Z.to_nat (bnode b - 1)) md 0)%nat by (apply Hge; lia). subst p. lia.
            - assert (nth i md 0 <= nth (Z.to_nat (bnode b - 1)) md 0)%nat by (apply Hmono; lia). subst p. lia. }
          replace (Z.to_nat (bnode b - 1)) with (i - 1)%nat in * by lia. exists pp, b. split; [exact Hpp|]. split; [exact Hb|]. split; [lia|]. rewrite Hn in H1. subst p.
          split; [lia|]. rewrite <- H2. f_equal. lia.
        - intros (pp & b & Hpp & Hb & Q1 & Q2 & Q3). right. exists b. split; [apply in_flat_map; eauto|]. unfold hits. rewrite Q1.
          replace (Z.to_nat (Z.of_nat i - 1)) with (i - 1)%nat by lia. rewrite Nat2Z.id. subst p. split; [lia|]. rewrite <- Q3. f_equal. lia. }
      assert (H01 : nth p sc 0 = 0 \/ nth p sc 0 = 1) by (rewrite Forall_forall in Fb; apply Fb, nth_In; lia).
      split; [rewrite (nth_indep _ 1 0) by lia; exact Hfix|]. rewrite <- Hfix. lia.
Qed.
