(** Couplings, multi-digit queries, and histories of edits. *)
From Coq Require Import List Sorted Permutation Arith ZArith QArith Qcanon Bool Lia.
From Verif Require Import Base MPC_model MPC_spec MPC_proofs MPC_proofs2 ASMbc_model ASMbc_spec ASMbc_proofs ASMbc_proofs2 ASMbc_proofs3.
Import ListNotations.
Local Open Scope Z_scope.

(** ** Couplings *)
Lemma couple_spec p s d f : wf p -> d < 10 -> (forall m, mslave (f m) = mslave m) ->
  exists q, couple p s d f = Some q /\ wf q /\ sameButEQ p q /\
  (Fresh p s d -> forall m c, In (m, c) (pEQ q) <-> In (m, c) (pEQ p) \/ (m = f (newMPC s d 0) /\ c = None)) /\
  (~ Fresh p s d -> q = p).
Proof.
  intros W T Hf. unfold couple. destruct (link_spec p s d 0 0 f W T Hf) as (p1 & stat & live & E & A & B & A1 & B1 & C).
  rewrite E. eexists. split; [reflexivity|]. destruct C as [(C1 & _ & -> & -> & ->)|[(C1 & -> & -> & C3)|(C1 & C2 & -> & -> & -> & _)]]; cbn [andb].
  - split; [exact A1|]. split; [exact B1|]. split; [intros (F & _); contradiction|reflexivity].
  - split; [exact A|]. split; [exact B|]. split; [intros _; exact C3|intros F; contradiction].
  - split; [exact A1|]. split; [exact B1|]. split; [intros (_ & F); contradiction|reflexivity].
Qed.
Lemma same_trans p q r : sameButEQ p q -> sameButEQ q r -> sameButEQ p r.
Proof. intros (A & B & C & D) (E & F & G & H). unfold sameButEQ. rewrite E, F, G, H. auto. Qed.
Lemma same_refl p : sameButEQ p p.
Proof. unfold sameButEQ. auto. Qed.
Lemma fresh_other p q s d e m c : sameButEQ p q -> mslave m = mslave (newMPC s d 0) -> e <> d ->
  (forall m' c', In (m', c') (pEQ q) <-> In (m', c') (pEQ p) \/ (m' = m /\ c' = c)) -> (Fresh q s e <-> Fresh p s e).
Proof.
  intros S Em N H. unfold Fresh. rewrite (fixed_same p q s e S).
  assert (Slave q s e <-> Slave p s e) as ->; [|reflexivity]. rewrite !slave_in. split; intros ([m' c'] & I & K).
  - apply H in I. destruct I as [I|[-> ->]]; [exists (m', c'); auto|]. cbn [fst] in K. rewrite Em in K. cbn in K. injection K as ->. contradiction.
  - exists (m', c'). split; [apply H; left; exact I|exact K].
Qed.
Lemma coupleAll_spec s f : (forall d m, mslave (f d m) = mslave m) -> forall ds p, wf p -> NoDup ds -> Forall (fun d => (d < 10)%nat) ds ->
  exists q, coupleAll p s f ds = Some q /\ wf q /\ sameButEQ p q /\
  (forall m c, In (m, c) (pEQ q) <-> In (m, c) (pEQ p) \/ exists d, In d ds /\ Fresh p s (Z.of_nat d) /\ m = f (Z.of_nat d) (newMPC s (Z.of_nat d) 0) /\ c = None).
Proof.
  intros Hf. induction ds as [|d ds IH]; intros p W N R; cbn [coupleAll].
  - exists p. split; [reflexivity|]. split; [exact W|]. split; [apply same_refl|]. intros m c. split; [auto|]. intros [H|(d & [] & _)]; exact H.
  - inversion N as [|? ? N1 N2]; subst. inversion R as [|? ? R1 R2]; subst. assert (T : Z.of_nat d < 10) by lia.
    destruct (couple_spec p s (Z.of_nat d) (f (Z.of_nat d)) W T (Hf (Z.of_nat d))) as (p1 & E & W1 & S1 & H1 & H2). rewrite E.
    destruct (IH p1 W1 N2 R2) as (q & Eq & W' & S' & H'). exists q. split; [exact Eq|]. split; [exact W'|]. split; [eapply same_trans; eauto|].
    destruct (slave_dec p s (Z.of_nat d)) as [SL|SL].
    { assert (NF : ~ Fresh p s (Z.of_nat d)) by (intros (_ & Q); contradiction). assert (p1 = p) by (apply H2; exact NF). subst p1.
      intros m c. rewrite H'. split; (intros [H|(e & Q1 & Q2 & Q3)]; [left; exact H|right; exists e]).
      - split; [right; exact Q1|auto].
      - destruct Q1 as [<-|Q1]; [contradiction|auto]. }
    destruct (existsb (fixedBC s (Z.of_nat d)) (pBC p)) eqn:X.
    { apply existsb_fixed in X; [|lia]. assert (NF : ~ Fresh p s (Z.of_nat d)) by (intros (Q & _); contradiction). assert (p1 = p) by (apply H2; exact NF). subst p1.
      intros m c. rewrite H'. split; (intros [H|(e & Q1 & Q2 & Q3)]; [left; exact H|right; exists e]).
      - split; [right; exact Q1|auto].
      - destruct Q1 as [<-|Q1]; [contradiction|auto]. }
    assert (FR : Fresh p s (Z.of_nat d)) by (split; [intros Q; apply existsb_fixed in Q; [congruence|lia]|exact SL]). specialize (H1 FR).
    assert (FO : forall e, In e ds -> (Fresh p1 s (Z.of_nat e) <-> Fresh p s (Z.of_nat e))).
    { intros e He. eapply fresh_other; [exact S1|apply Hf| |exact H1]. intros Q. apply Nat2Z.inj in Q. subst e. contradiction. }
    intros m c. rewrite H', H1. split.
    + intros [[H|[-> ->]]|(e & Q1 & Q2 & Q3)]; [left; exact H|right; exists d; split; [left; reflexivity|auto]|].
      right. exists e. split; [right; exact Q1|]. split; [apply FO; auto|exact Q3].
    + intros [H|(e & [<-|Q1] & Q2 & -> & ->)]; [left; left; exact H|left; right; auto|]. right. exists e. split; [exact Q1|]. split; [apply FO; auto|auto].
Qed.
Lemma coupleAll_adm s f ds p q u : sameButEQ p q -> (forall d m, mslave (f d m) = mslave m) ->
  (forall m c, In (m, c) (pEQ q) <-> In (m, c) (pEQ p) \/ exists d, In d ds /\ Fresh p s (Z.of_nat d) /\ m = f (Z.of_nat d) (newMPC s (Z.of_nat d) 0) /\ c = None) ->
  (admissible u q <-> admissible u p /\ forall d, In d ds -> Fresh p s (Z.of_nat d) -> u (s, Z.of_nat d) = rhs u (f (Z.of_nat d) (newMPC s (Z.of_nat d) 0))).
Proof.
  intros S Hf H. unfold admissible, eqns. rewrite !satisfies_in. split.
  - intros (A & B). split; [split|].
    + intros n d F. apply A. apply (fixed_same p q); auto.
    + intros m' c' I. apply (B m' c'). apply H. left; exact I.
    + intros d Hd Fd. assert (I : In (f (Z.of_nat d) (newMPC s (Z.of_nat d) 0), None) (pEQ q)) by (apply H; right; exists d; auto).
      apply B in I. unfold holds in I. rewrite Hf in I. exact I.
  - intros ((A & B) & C). split.
    + intros n d F. apply A. apply (fixed_same p q) in F; auto.
    + intros m' c' I. apply H in I. destruct I as [I|(d & Hd & Fd & -> & ->)]; [eapply B; exact I|]. unfold holds. rewrite Hf. apply C; auto.
Qed.
Lemma rigid_slave g dx dy dz d m : mslave (rigidMasters g dx dy dz d m) = mslave m.
Proof. unfold rigidMasters. destruct (d =? 1), (d =? 2), (d =? 3); cbn zeta; rewrite ?addM_slave; reflexivity. Qed.
Lemma seq_small n : (n < 10)%nat -> Forall (fun d => (d < 10)%nat) (seq 1 n).
Proof. intros H. apply Forall_forall. intros d Hd. apply in_seq in Hd. lia. Qed.
Lemma cut_cut8 c : cut c = cut8 c.
Proof. unfold cut, cut8. rewrite negligible_abs. change zeroTol with tol8. destruct (Qclt_le_dec tol8 (absv c)); reflexivity. Qed.
Lemma cut8_opp c : cut8 (- c) = (- cut8 c)%Qc.
Proof.
  rewrite <- !cut_cut8. unfold cut. assert (E : negligible zeroTol (- c) = negligible zeroTol c).
  { destruct (negligible zeroTol c) eqn:E.
    - apply negligible_spec in E. apply negligible_spec. destruct E as (A & B). split; [apply Qcopp_le_compat; exact B|]. apply Qcopp_le_compat in A. rewrite Qcopp_involutive in A. exact A.
    - destruct (negligible zeroTol (- c)) eqn:E'; [|reflexivity]. apply negligible_spec in E'. rewrite <- E. symmetry. apply negligible_spec. destruct E' as (A & B).
      apply Qcopp_le_compat in A, B. rewrite !Qcopp_involutive in *. auto. }
  rewrite E. destruct (negligible zeroTol c); [apply Qc_is_canon; reflexivity|reflexivity].
Qed.
Lemma rigid_rhs u s g dx dy dz d :
  rhs u (rigidMasters g dx dy dz d (newMPC s d 0)) = (u (g, d) + rotPart u g (cut8 dx) (cut8 dy) (cut8 dz) d)%Qc.
Proof.
  unfold rigidMasters, rotPart. cbn zeta. destruct (Z.eqb_spec d 1) as [->|N1]; [|destruct (Z.eqb_spec d 2) as [->|N2]; [|destruct (Z.eqb_spec d 3) as [->|N3]]];
    rewrite !addM_rhs, newMPC_rhs, !cut_one, ?cut_cut8, ?cut8_opp; ring.
Qed.
Lemma rigid_spec p s g dx dy dz : wf p -> 0 <= pnf p <= 9 ->
  exists q, addRigidMPC p s g dx dy dz = Some q /\ wf q /\ sameButEQ p q /\
  forall u, admissible u q <-> admissible u p /\
    forall d, 1 <= d <= pnf p -> ~ Fixed p s d -> ~ Slave p s d -> u (s, d) = (u (g, d) + rotPart u g (cut8 dx) (cut8 dy) (cut8 dz) d)%Qc.
Proof.
  intros W R. unfold addRigidMPC. assert (T : (Z.to_nat (pnf p) < 10)%nat) by lia.
  destruct (coupleAll_spec s (rigidMasters g dx dy dz) (fun d m => rigid_slave g dx dy dz d m) _ p W (seq_NoDup (Z.to_nat (pnf p)) 1) (seq_small _ T)) as (q & E & W' & S & H).
  exists q. split; [exact E|]. split; [exact W'|]. split; [exact S|]. intros u.
  rewrite (coupleAll_adm _ _ _ _ _ u S (fun d m => rigid_slave g dx dy dz d m) H). split; intros (A & B); (split; [exact A|]).
  - intros d Hd F N. specialize (B (Z.to_nat d)). rewrite Z2Nat.id in B by lia. rewrite rigid_rhs in B. apply B; [apply in_seq; lia|split; auto].
  - intros d Hd (F & N). rewrite rigid_rhs. apply B; auto. apply in_seq in Hd. lia.
Qed.
Lemma foldM_slave d l : forall m, mslave (fold_left (fun m (gw : Z * Qc) => addM (fst gw) d (snd gw) m) l m) = mslave m.
Proof. induction l as [|x l IH]; intros m; cbn [fold_left]; [reflexivity|]. rewrite IH. apply addM_slave. Qed.
Lemma foldM_rhs u d l : forall m, rhs u (fold_left (fun m (gw : Z * Qc) => addM (fst gw) d (snd gw) m) l m) = (rhs u m + qs (fun gw => cut8 (snd gw) * u (fst gw, d)) l)%Qc.
Proof.
  induction l as [|x l IH]; intros m; cbn [fold_left]; [rewrite qs_nil; ring|]. rewrite IH, addM_rhs, qs_cons, cut_cut8. ring.
Qed.
Lemma masterNodes_spec p : forall ms gs, masterNodes p ms = Some gs <-> Forall2 (nodeAt p) ms gs.
Proof.
  induction ms as [|i ms IH]; intros gs; cbn [masterNodes].
  - split; [intros [= <-]; constructor|]. intros H; inversion H; reflexivity.
  - destruct i as [|k].
    + split; [intros H; discriminate H|]. intros H; inversion H as [|? ? ? ? (A & _)]; subst. lia.
    + split.
      * destruct (nth_error (pMLGN p) k) as [g|] eqn:E; [|intros H; discriminate H]. destruct (masterNodes p ms) as [l|]; [|intros H; discriminate H].
        intros [= <-]. constructor; [|apply IH; reflexivity]. split; [lia|]. replace (S k - 1)%nat with k by lia. exact E.
      * intros H. inversion H as [|? ? ? ? (A & B) C]; subst. replace (S k - 1)%nat with k in B by lia. rewrite B.
        apply IH in C. rewrite C. reflexivity.
Qed.
Lemma nodal_spec p si s ms ws gs : wf p -> 0 <= pnf p <= 9 -> nodeAt p si s -> length ms = length ws -> Forall2 (nodeAt p) ms gs ->
  exists q, addNodalCouplings p si ms ws = Some q /\ wf q /\ sameButEQ p q /\
  forall u, admissible u q <-> admissible u p /\
    forall d, 1 <= d <= pnf p -> ~ Fixed p s d -> ~ Slave p s d -> u (s, d) = qs (fun gw => cut8 (snd gw) * u (fst gw, d))%Qc (combine gs ws).
Proof.
  intros W R A L F. unfold addNodalCouplings. rewrite <- L, firstn_all. rewrite (proj2 (masterNodes_spec p ms gs) F).
  destruct A as (A1 & A2). destruct si as [|k]; [lia|]. replace (S k - 1)%nat with k in A2 by lia. rewrite A2.
  assert (T : (Z.to_nat (pnf p) < 10)%nat) by lia. set (f := fun d m => fold_left (fun m (gw : Z * Qc) => addM (fst gw) d (snd gw) m) (combine gs ws) m).
  assert (Hf : forall d m, mslave (f d m) = mslave m) by (intros; apply foldM_slave).
  destruct (coupleAll_spec s f Hf _ p W (seq_NoDup (Z.to_nat (pnf p)) 1) (seq_small _ T)) as (q & E & W' & S & H).
  exists q. split; [exact E|]. split; [exact W'|]. split; [exact S|]. intros u.
  rewrite (coupleAll_adm _ _ _ _ _ u S Hf H).
  assert (RH : forall d, rhs u (f d (newMPC s d 0)) = qs (fun gw => cut8 (snd gw) * u (fst gw, d))%Qc (combine gs ws)).
  { intros d. unfold f. rewrite foldM_rhs, newMPC_rhs. ring. }
  split; intros (A & B); (split; [exact A|]).
  - intros d Hd F0 N. specialize (B (Z.to_nat d)). rewrite Z2Nat.id in B by lia. rewrite RH in B. apply B; [apply in_seq; lia|split; auto].
  - intros d Hd (F0 & N). rewrite RH. apply B; auto. apply in_seq in Hd. lia.
Qed.

(** ** Queries with several digits *)
Lemma isFixed_single p n d all : 0 <= d <= 9 -> (isFixed p n d all = true <-> Fixed p n d).
Proof. intros R. unfold isFixed. destruct (Z.ltb_spec d 10); [|lia]. cbn [orb]. apply existsb_fixed. exact R. Qed.
Lemma isFixed_any_sound p n num : 0 <= num -> isFixed p n num false = true -> exists d, IsDigit num d /\ Fixed p n d.
Proof.
  intros H E. unfold isFixed in E. rewrite orb_true_r in E. apply existsb_exists in E. destruct E as (b & I & E).
  unfold fixedBC in E. apply andb_true_iff in E. destruct E as (E1 & E2). apply Z.eqb_eq in E1. apply fixedLoop_sound in E2; [|exact H].
  destruct E2 as (d & A & B). exists d. split; [exact A|]. exists b. auto.
Qed.
Lemma isFixedLoop_spec p n : forall f num found, 0 <= num -> (0 < num -> (digitFuel num <= f)%nat) ->
  (isFixedLoop f p n num found = true <-> found = true /\ forall k, 10 ^ Z.of_nat k <= num -> num / 10 ^ Z.of_nat k <= pnf p -> Fixed p n ((num / 10 ^ Z.of_nat k) mod 10)).
Proof.
  induction f as [|f IH]; intros num found H F; cbn [isFixedLoop].
  - assert (num = 0) as -> by (destruct (Z.eq_dec num 0); [auto|]; assert (digitFuel num <= 0)%nat by (apply F; lia); unfold digitFuel in *; lia).
    split; [|tauto]. intros ->. split; [reflexivity|]. intros k L. assert (0 < 10 ^ Z.of_nat k) by (apply Z.pow_pos_nonneg; lia). lia.
  - destruct (Z.ltb_spec 0 num) as [P|P]; cbn [andb].
    + destruct found; [|split; [intros Q; discriminate Q|intros (Q & _); discriminate Q]].
      rewrite Z.quot_div_nonneg, Z.rem_mod_nonneg by lia. assert (0 <= num / 10) by (apply Z.div_pos; lia).
      rewrite IH; [|lia|intros Q; apply fuel_step; [lia|apply F; lia|lia]].
      assert (MR : 0 <= num mod 10 <= 9) by (pose proof (Z.mod_pos_bound num 10); lia).
      assert (HD : (if num <=? pnf p then existsb (fixedBC n (num mod 10)) (pBC p) else true) = true <-> (num <= pnf p -> Fixed p n (num mod 10))).
      { destruct (Z.leb_spec num (pnf p)); [rewrite existsb_fixed by exact MR; tauto|]. split; [intros _ ?; lia|reflexivity]. }
      rewrite HD. split.
      * intros (A & B). split; [reflexivity|]. intros [|k] L1 L2.
        -- rewrite Z.pow_0_r, Z.div_1_r in *. apply A. exact L2.
        -- rewrite Nat2Z.inj_succ, Z.pow_succ_r in * by lia. rewrite <- Z.div_div in * by (try apply Z.pow_pos_nonneg; lia). apply B; [|exact L2]. apply Z.div_le_lower_bound; lia.
      * intros (_ & B). split.
        -- intros L. specialize (B O). rewrite Z.pow_0_r, Z.div_1_r in B. apply B; lia.
        -- intros k L1 L2. specialize (B (S k)). rewrite Nat2Z.inj_succ, Z.pow_succ_r in B by lia. rewrite <- Z.div_div in B by (try apply Z.pow_pos_nonneg; lia). apply B; [|exact L2].
           pose proof (Z.mul_div_le num 10). nia.
    + assert (num = 0) by lia. subst. split; [|tauto]. intros ->. split; [reflexivity|]. intros k L. assert (0 < 10 ^ Z.of_nat k) by (apply Z.pow_pos_nonneg; lia). lia.
Qed.
Lemma isFixed_all_spec p n num : 10 <= num ->
  (isFixed p n num true = true <-> pBC p <> [] /\ forall k, 10 ^ Z.of_nat k <= num -> num / 10 ^ Z.of_nat k <= pnf p -> Fixed p n ((num / 10 ^ Z.of_nat k) mod 10)).
Proof.
  intros H. unfold isFixed. destruct (Z.ltb_spec num 10); [lia|]. cbn [orb negb]. rewrite isFixedLoop_spec by (auto; lia).
  destruct (pBC p); [|intuition congruence]. split; intros (A & _); [discriminate A|congruence].
Qed.

(** ** Histories *)
Lemma fixNode_wf p i dirs : wf p -> wf (fst (fixNode p i dirs)) /\ sameButBC p (fst (fixNode p i dirs)).
Proof.
  intros (A & B). unfold fixNode. destruct (_ || _); cbn [fst]; [split; [split; auto|unfold sameButBC; auto]|]. split; [|unfold sameButBC; cbn; auto].
  split; [|exact B]. cbn [pBC setBC]. apply onBC_nodup; [apply fixBC_node|exact A].
Qed.
Lemma addM_noSelf n d c m k : (n, d) <> k -> (forall t, In t (mmast m) -> dkey t <> k) -> forall t, In t (mmast (addM n d c m)) -> dkey t <> k.
Proof.
  intros N H t Ht Q. apply (in_map dkey) in Ht. apply addMaster_in in Ht. rewrite Q in Ht. destruct Ht as [Ht|Ht]; [apply N; rewrite Ht; reflexivity|].
  apply in_map_iff in Ht. destruct Ht as (t' & E & Ht). apply (H t' Ht). exact E.
Qed.
Lemma both_noSelf s d m1 m2 m : dkey (mslave m) = (s, d) -> (forall t, In t (mmast m) -> dkey t <> dkey (mslave m)) ->
  forall t, In t (mmast (both s d m1 m2 m)) -> dkey t <> dkey (mslave (both s d m1 m2 m)).
Proof.
  intros K H. rewrite both_slave, K. rewrite K in H. unfold both.
  destruct (Z.eqb_spec m1 s), (Z.eqb_spec m2 s); try exact H;
  repeat (apply addM_noSelf; [intros [= ?]; congruence|]); exact H.
Qed.
Definition noSelfE (l : list eqn) : Prop := forall m c, In (m, c) l -> forall t, In t (mmast m) -> dkey t <> dkey (mslave m).
Lemma noSelf_eq p : noSelf p <-> noSelfE (pEQ p).
Proof.
  unfold noSelf, noSelfE, eqns. split.
  - intros H m c I t Ht. apply H; [|exact Ht]. apply (in_map fst) in I. exact I.
  - intros H m t I Ht. apply in_map_iff in I. destruct I as ([m0 c] & <- & I). eapply H; eauto.
Qed.
Lemma newMPC_noSelf s d c : forall t, In t (mmast (newMPC s d c)) -> dkey t <> dkey (mslave (newMPC s d c)).
Proof. intros t []. Qed.
Lemma link_inv p p1 s d c0 code f stat live : inv p -> d < 10 -> (forall m, mslave (f m) = mslave m) ->
  (forall m, dkey (mslave m) = (s, d) -> (forall t, In t (mmast m) -> dkey t <> dkey (mslave m)) -> forall t, In t (mmast (f m)) -> dkey t <> dkey (mslave (f m))) ->
  addMPC p (newMPC s d c0) code false = Some (p1, stat, live) -> inv (linkEq p1 live s d f) /\ sameButEQ p (linkEq p1 live s d f).
Proof.
  intros (W & N & R) T Hf Hn E. destruct (link_spec p s d c0 code f W T Hf) as (p1' & st & lv & E' & A & B & A1 & B1 & C).
  rewrite E in E'. injection E' as <- <- <-. split; [|exact B]. split; [exact A|]. split; [|destruct B as (-> & _); exact R].
  apply noSelf_eq. apply noSelf_eq in N. destruct C as [(_ & -> & _)|[(_ & _ & _ & C)|(_ & _ & _ & _ & _ & C)]]; [exact N| |].
  - intros m c I. apply C in I. destruct I as [I|[-> ->]]; [eapply N; exact I|]. apply Hn; [reflexivity|apply newMPC_noSelf].
  - intros m c I. apply C in I. destruct I as [(I & _)|(m0 & I & K & ->)]; [eapply N; exact I|]. apply Hn; [exact K|]. eapply N; exact I.
Qed.
Lemma prescribeLoop_inv g code : forall ds p ign, inv p -> Forall (fun d => d < 10) ds ->
  exists q r, prescribeLoop p g ds code false ign = Some (q, r) /\ inv q /\ sameButEQ p q.
Proof.
  induction ds as [|d ds IH]; intros p ign I R; cbn [prescribeLoop].
  - exists p, ign. split; [reflexivity|]. split; [exact I|apply same_refl].
  - inversion R as [|? ? R1 R2]; subst. destruct (d <=? pnf p); [|apply IH; auto].
    pose proof I as (W & N & PN).
    destruct (addMPC_spec p (newMPC g d 1) code W R1) as (p1 & stat & live & E & C). cbn [newMPC mslave dnode dldof] in C. rewrite E.
    assert (J : inv p1 /\ sameButEQ p p1).
    { destruct C as [(_ & -> & _)|[(_ & _ & _ & _ & S & W1 & C)|(_ & _ & _ & _ & ->)]]; [split; [exact I|apply same_refl]| |split; [exact I|apply same_refl]].
      split; [|exact S]. split; [exact W1|]. split; [|destruct S as (-> & _); exact PN]. apply noSelf_eq. apply noSelf_eq in N. intros m c J. apply C in J.
      destruct J as [J|J]; [injection J as -> ->; apply newMPC_noSelf|eapply N; exact J]. }
    destruct J as (J & S). destruct (IH p1 (if stat then ign else 10 * ign + d) J R2) as (q & r & Eq & Iq & Sq). exists q, r. split; [exact Eq|]. split; [exact Iq|]. eapply same_trans; eauto.
Qed.
Lemma apply_inv p o : inv p -> exists q, apply p o = Some q /\ inv q /\ pMLGN q = pMLGN p /\ pnf q = pnf p.
Proof.
  intros I. pose proof I as (W & N & R).
  assert (FX : forall i d, inv (fst (fixNode p i d)) /\ pMLGN (fst (fixNode p i d)) = pMLGN p /\ pnf (fst (fixNode p i d)) = pnf p).
  { intros i d. destruct (fixNode_wf p i d W) as (A & (B1 & B2 & B3 & B4)). split; [|auto]. split; [exact A|]. split; [|rewrite B1; exact R]. unfold noSelf, eqns in *. rewrite B4. exact N. }
  destruct o as [i d|i d c|s d m c|s d m1 m2 c]; cbn [apply].
  - eexists. split; [reflexivity|]. apply FX.
  - unfold prescribe. destruct (c =? 0); [cbn [option_map]; eexists; split; [reflexivity|]; apply FX|].
    destruct ((getNodeID p i <? 1) || (d <? 1)) eqn:G; [cbn; eexists; split; [reflexivity|]; auto|].
    apply orb_false_iff in G. destruct G as (_ & G). apply Z.ltb_ge in G.
    destruct (prescribeLoop_inv (getNodeID p i) c (getDigits d) p 0 I) as (q & r & E & J & S).
    { eapply Forall_impl; [|apply getDigits_range; lia]. cbn. lia. }
    rewrite E. cbn [option_map fst]. exists q. split; [reflexivity|]. split; [exact J|]. destruct S as (S1 & S2 & _). auto.
  - unfold add2PC. destruct (Z.ltb_spec d 1); [cbn; eexists; split; [reflexivity|]; auto|]. destruct (Z.ltb_spec (pnf p) d); [cbn; eexists; split; [reflexivity|]; auto|]. cbn [orb].
    destruct (Z.eqb_spec s m); [cbn; eexists; split; [reflexivity|]; auto|].
    assert (T : d < 10) by lia. destruct (addMPC_spec p (newMPC s d 0) c W T) as (p1 & stat & live & E & _). rewrite E. cbn [option_map fst].
    eexists. split; [reflexivity|]. fold (linkEq p1 live s d (addM m d 1)).
    destruct (link_inv p p1 s d 0 c (addM m d 1) stat live I T (addM_slave m d 1)) as (A & (B1 & B2 & _)); [|exact E|auto].
    intros e K He. rewrite addM_slave, K. rewrite K in He. apply addM_noSelf; [|exact He]. intros [= Q]. congruence.
  - unfold add3PC. destruct (Z.eqb_spec m1 m2) as [->|].
    { unfold add2PC. destruct (Z.ltb_spec d 1); [cbn; eexists; split; [reflexivity|]; auto|]. destruct (Z.ltb_spec (pnf p) d); [cbn; eexists; split; [reflexivity|]; auto|]. cbn [orb].
      destruct (Z.eqb_spec s m2); [cbn; eexists; split; [reflexivity|]; auto|].
      assert (T : d < 10) by lia. destruct (addMPC_spec p (newMPC s d 0) c W T) as (p1 & stat & live & E & _). rewrite E. cbn [option_map fst].
      eexists. split; [reflexivity|]. fold (linkEq p1 live s d (addM m2 d 1)).
      destruct (link_inv p p1 s d 0 c (addM m2 d 1) stat live I T (addM_slave m2 d 1)) as (A & (B1 & B2 & _)); [|exact E|auto].
      intros e K He. rewrite addM_slave, K. rewrite K in He. apply addM_noSelf; [|exact He]. intros [= Q]. congruence. }
    destruct (Z.ltb_spec d 1); [cbn; eexists; split; [reflexivity|]; auto|]. destruct (Z.ltb_spec (pnf p) d); [cbn; eexists; split; [reflexivity|]; auto|]. cbn [orb].
    assert (T : d < 10) by lia. destruct (addMPC_spec p (newMPC s d 0) c W T) as (p1 & stat & live & E & _). rewrite E. cbn [option_map fst].
    eexists. split; [reflexivity|]. fold (both s d m1 m2). fold (linkEq p1 live s d (both s d m1 m2)).
    destruct (link_inv p p1 s d 0 c (both s d m1 m2) stat live I T (both_slave s d m1 m2) (both_noSelf s d m1 m2) E) as (A & (B1 & B2 & _)). auto.
Qed.
Lemma run_inv os : forall p, inv p -> exists q, run p os = Some q /\ inv q /\ pMLGN q = pMLGN p /\ pnf q = pnf p.
Proof.
  induction os as [|o os IH]; intros p I; cbn [run]; [exists p; auto|].
  destruct (apply_inv p o I) as (q & E & J & A & B). rewrite E. destruct (IH q J) as (r & F & K & C & D). exists r. split; [exact F|]. split; [exact K|]. split; congruence.
Qed.
(** fixations only *)
Lemma run_fixes fs : forall p q, inv p -> run p (map (fun x => OFix (fst x) (snd x)) fs) = Some q ->
  pEQ q = pEQ p /\
  forall n d, Fixed q n d <-> Fixed p n d \/ exists i dirs, In (i, dirs) fs /\ nodeAt p i n /\ 1 <= n /\ 1 <= dirs /\ IsDigit dirs d /\ 1 <= d <= 6 /\ d <= pnf p.
Proof.
  induction fs as [|[i dirs] fs IH]; intros p q I; cbn [map run apply fst snd].
  - intros [= <-]. split; [reflexivity|]. intros n d. split; [auto|]. intros [H|(i & dirs & [] & _)]; exact H.
  - intros E. destruct (apply_inv p (OFix i dirs) I) as (p1 & E1 & J & M & F). cbn [apply] in E1. injection E1 as <-.
    destruct (IH _ _ J E) as (A & B). destruct (fixNode_wf p i dirs) as (_ & S1 & S2 & S3 & S4); [apply I|]. split; [congruence|].
    assert (NA : forall k g, nodeAt (fst (fixNode p i dirs)) k g <-> nodeAt p k g) by (intros; unfold nodeAt; rewrite S2; reflexivity).
    assert (FX : forall n d, Fixed (fst (fixNode p i dirs)) n d <-> Fixed p n d \/ (nodeAt p i n /\ 1 <= n /\ 1 <= dirs /\ IsDigit dirs d /\ 1 <= d <= 6 /\ d <= pnf p)).
    { intros n d. destruct (Z_lt_ge_dec dirs 1) as [L|L]; [rewrite (fixNode_invalid p i dirs) by auto; cbn [fst]; intuition lia|].
      destruct (Z_lt_ge_dec (getNodeID p i) 1) as [L2|L2].
      - rewrite (fixNode_invalid p i dirs); [cbn [fst]; split; [auto|]|left; intros g Hg; apply nodeAt_getNodeID in Hg; lia].
        intros [H|(H & H2 & _)]; [exact H|]. apply nodeAt_getNodeID in H. lia.
      - assert (NG : nodeAt p i (getNodeID p i)) by (apply getNodeID_nodeAt; lia).
        destruct (fixNode p i dirs) as [p' r] eqn:E2. cbn [fst]. assert (R0 : 0 <= pnf p) by (destruct I as (_ & _ & ?); lia).
        destruct (fixNode_spec p i dirs p' r (getNodeID p i) E2 NG) as (_ & H & _); [lia|lia|exact R0|]. rewrite H. split; intros [Q|Q]; auto; right.
        + destruct Q as (-> & Q). intuition lia.
        + destruct Q as (Q1 & Q). apply nodeAt_getNodeID in Q1. intuition. }
    intros n d. rewrite B, FX. rewrite S1. split.
    + intros [[H|H]|(i' & dirs' & H1 & H2 & H3)]; [left; exact H|right; exists i, dirs; split; [left; reflexivity|exact H]|].
      right. exists i', dirs'. split; [right; exact H1|]. split; [apply NA; exact H2|exact H3].
    + intros [H|(i' & dirs' & [[= <- <-]|H1] & H2 & H3)]; [left; left; exact H|left; right; auto|]. right. exists i', dirs'. split; [exact H1|]. split; [apply NA; exact H2|exact H3].
Qed.
