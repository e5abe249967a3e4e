(** Proofs about connecting patches. *)
From Coq Require Import List Sorted Arith ZArith QArith Qcanon Bool Lia Permutation.
From Verif Require Import Base MPC_model MPC_spec ASMbc_model ASMbc_spec ASMnum_model ASMnum_spec ASMnum_proofs ASMnum_proofs2 ASMnum_proofs4.
Import ListNotations.
Local Open Scope Z_scope.

Lemma nth_error_ext' {A} : forall (l l' : list A), (forall i, nth_error l i = nth_error l' i) -> l = l'.
Proof.
  induction l as [|x l IH]; intros [|y l'] H; [reflexivity|specialize (H 0%nat); discriminate H|specialize (H 0%nat); discriminate H|].
  pose proof (H 0%nat) as H0. cbn in H0. injection H0 as ->. f_equal. apply IH. intros i. apply (H (S i)).
Qed.
Lemma subst1_idem a b n : a <> b -> subst1 a b (subst1 a b n) = subst1 a b n.
Proof. intros H. unfold subst1. destruct (Z.eqb_spec n a); [destruct (Z.eqb_spec b a); congruence|]. destruct (Z.eqb_spec n a); congruence. Qed.
Lemma substituted_twice a b p q r : a <> b -> substituted a b p q -> substituted a b q r -> substituted a b p r.
Proof.
  intros H [N1 C1] [N2 C2]. split.
  - rewrite N2, N1, map_map. apply map_ext. intros n. apply subst1_idem; auto.
  - eapply condsMoved_ext; [|eapply condsMoved_comp; eauto]. intros n. apply subst1_idem; auto.
Qed.
Lemma renumConds_subst p a b : substituted a b p (snd (renumConds p [(a, b)] 1)).
Proof. destruct (renumConds1 p a b 1 (or_intror eq_refl)) as (_ & C & N). split; [exact N|exact C]. Qed.
Lemma fold_neighbors a b l : a <> b -> forall ps, (forall j, In j l -> (j < length ps)%nat) ->
  let ps' := fold_left (fun ps j => upd j (snd (renumConds (nth j ps dummyN) [(a, b)] 1)) ps) l ps in
  length ps' = length ps /\
  forall j, (j < length ps)%nat -> (In j l -> substituted a b (nth j ps dummyN) (nth j ps' dummyN)) /\ (~ In j l -> nth j ps' dummyN = nth j ps dummyN).
Proof.
  intros D. induction l as [|i l IH]; intros ps B; cbn [fold_left].
  - split; [reflexivity|]. intros j Hj. split; [intros []|reflexivity].
  - set (ps1 := upd i (snd (renumConds (nth i ps dummyN) [(a, b)] 1)) ps).
    assert (L1 : length ps1 = length ps) by apply upd_length.
    destruct (IH ps1) as [IH1 IH2]; [intros j Hj; rewrite L1; apply B; right; auto|]. split; [congruence|].
    intros j Hj. destruct (IH2 j ltac:(lia)) as [I1 I2]. destruct (Nat.eq_dec j i) as [->|E].
    + assert (S1 : substituted a b (nth i ps dummyN) (nth i ps1 dummyN)).
      { unfold ps1. rewrite upd_nth_same by auto. apply renumConds_subst. }
      split; [intros _|intros K; exfalso; apply K; left; auto]. destruct (in_dec Nat.eq_dec i l) as [K|K]; [eapply substituted_twice; eauto|rewrite I2 by auto; exact S1].
    + assert (S1 : nth j ps1 dummyN = nth j ps dummyN) by (apply upd_nth_other; auto). rewrite <- S1. split.
      * intros [K|K]; [congruence|auto].
      * intros K. apply I2. intros K2. apply K. right; auto.
Qed.
Lemma mergeNodes_ok M k inod g : modelOK M -> (k < length (fst M))%nat ->
  let p := nth k (fst M) dummyN in let old := nth (inod - 1) (nums p) 0 in
  (1 <= inod <= length (nums p))%nat -> old <> g ->
  let M' := snd (mergeNodes M k inod g) in
  fst (mergeNodes M k inod g) = true /\ snd M' = snd M /\ length (fst M') = length (fst M) /\
  nums (nth k (fst M') dummyN) = upd (inod - 1) g (nums p) /\ condsMoved (subst1 old g) p (nth k (fst M') dummyN) /\
  forall j, (j < length (fst M))%nat -> j <> k ->
    (In j (nth k (snd M) []) -> substituted old g (nth j (fst M) dummyN) (nth j (fst M') dummyN)) /\
    (~ In j (nth k (snd M) []) -> nth j (fst M') dummyN = nth j (fst M) dummyN).
Proof.
  intros (OK1 & OK2) Hk p old Hi Ho. unfold mergeNodes. fold p. change (nMLGN p) with (nums p).
  destruct (Nat.ltb_spec inod 1); [lia|]. destruct (Nat.ltb_spec (length (nums p)) inod); [lia|]. cbn [orb]. fold old.
  destruct (Z.eqb_spec old g); [contradiction|].
  set (ps1 := upd k (setMLGN p (upd (inod - 1) g (nums p))) (fst M)). assert (L1 : length ps1 = length (fst M)) by apply upd_length.
  assert (NB : forall j, In j (nth k (snd M) []) -> (j < length (fst M))%nat /\ j <> k).
  { intros j Hj. assert (Q : neighborOf M k j). { exists (nth k (snd M) []). split; [apply nth_error_nth'; lia|auto]. } apply OK2 in Q. tauto. }
  destruct (fold_neighbors old g (nth k (snd M) []) ltac:(auto) ps1) as [F1 F2]; [intros j Hj; rewrite L1; apply NB; auto|].
  set (ps2 := fold_left _ _ ps1) in *.
  assert (P2 : nth k ps2 dummyN = setMLGN p (upd (inod - 1) g (nums p))).
  { destruct (F2 k ltac:(lia)) as [_ F3]. rewrite F3; [apply upd_nth_same; auto|]. intros K. apply NB in K. tauto. }
  destruct (renumConds1 (nth k ps2 dummyN) old g 0 (or_introl eq_refl)) as (R1 & R2 & R3). destruct (renumConds (nth k ps2 dummyN) [(old, g)] 0) as [ok p3]. cbn [fst snd] in *.
  assert (L2 : (k < length ps2)%nat) by lia.
  split; [exact R1|]. split; [reflexivity|]. split; [rewrite upd_length; lia|]. rewrite upd_nth_same by exact L2. rewrite P2 in R2, R3. split; [exact R3|]. split; [exact R2|].
  intros j Hj Hjk. rewrite upd_nth_other by auto. assert (E : nth j ps1 dummyN = nth j (fst M) dummyN) by (apply upd_nth_other; auto). rewrite <- E. apply F2. lia.
Qed.

(** ** collapsing two nodes *)
(** the patch owning the higher number, and its node *)
Lemma numAt_nth M k n g : numAt M k n g -> (k < length (fst M))%nat /\ (1 <= n <= length (nums (nth k (fst M) dummyN)))%nat /\ nth (n - 1) (nums (nth k (fst M) dummyN)) 0 = g.
Proof.
  intros (p & P1 & P2 & P3). unfold patchAt in P1. assert (k < length (fst M))%nat by (apply nth_error_Some; congruence).
  rewrite (nth_error_nth _ _ dummyN P1). assert (n - 1 < length (nums p))%nat by (apply nth_error_Some; congruence). split; [auto|]. split; [lia|]. apply nth_error_nth. auto.
Qed.
Lemma nth_numAt M k n : (k < length (fst M))%nat -> (1 <= n <= length (nums (nth k (fst M) dummyN)))%nat -> numAt M k n (nth (n - 1) (nums (nth k (fst M) dummyN)) 0).
Proof.
  intros Hk Hn. exists (nth k (fst M) dummyN). split; [apply nth_error_nth'; auto|]. split; [lia|]. apply nth_error_nth'. lia.
Qed.
Lemma merge_collapsed M k n g hi : modelOK M -> numAt M k n hi -> hi <> g -> collapsedAt M (snd (mergeNodes M k n g)) k n hi g.
Proof.
  intros OK N D. destruct (numAt_nth _ _ _ _ N) as (Hk & Hn & Eh). destruct (mergeNodes_ok M k n g OK Hk Hn) as (A1 & A2 & A3 & A4 & A5 & A6); [congruence|]. rewrite Eh in *.
  split; [auto|]. split; [auto|]. intros j p P. unfold patchAt in *. assert (Hj : (j < length (fst M))%nat) by (apply nth_error_Some; congruence).
  pose proof (nth_error_nth _ _ dummyN P) as Ep. exists (nth j (fst (snd (mergeNodes M k n g))) dummyN). split; [apply nth_error_nth'; lia|].
  destruct OK as [OK1 OK2].
  assert (NBk : neighborOf M k j <-> In j (nth k (snd M) [])).
  { split; [intros (l & Q1 & Q2); rewrite (nth_error_nth _ _ [] Q1); auto|]. intros Q. exists (nth k (snd M) []). split; [apply nth_error_nth'; lia|auto]. }
  split; [|split].
  - intros ->. rewrite Ep in *. auto.
  - intros Q. pose proof (OK2 _ _ Q) as (_ & Hne & _). destruct (A6 j Hj Hne) as [A7 _]. rewrite Ep in A7. apply A7, NBk, Q.
  - intros Hne Q. destruct (A6 j Hj Hne) as [_ A7]. rewrite Ep in A7. apply A7. rewrite <- NBk. auto.
Qed.
Lemma collapse_ok M k1 n1 k2 n2 g1 g2 : modelOK M -> numAt M k1 n1 g1 -> numAt M k2 n2 g2 ->
  let r := collapseNodes M k1 n1 k2 n2 in
  (fst r = true <-> g1 <> g2) /\
  (g1 = g2 -> snd r = M) /\
  (g2 < g1 -> collapsedAt M (snd r) k1 n1 g1 g2) /\
  (g1 < g2 -> collapsedAt M (snd r) k2 n2 g2 g1).
Proof.
  intros OK N1 N2. destruct (numAt_nth _ _ _ _ N1) as (K1 & L1 & E1). destruct (numAt_nth _ _ _ _ N2) as (K2 & L2 & E2).
  unfold collapseNodes. change (nMLGN (nth k1 (fst M) dummyN)) with (nums (nth k1 (fst M) dummyN)). change (nMLGN (nth k2 (fst M) dummyN)) with (nums (nth k2 (fst M) dummyN)).
  destruct (Nat.ltb_spec n1 1); [lia|]. destruct (Nat.ltb_spec (length (nums (nth k1 (fst M) dummyN))) n1); [lia|].
  destruct (Nat.ltb_spec n2 1); [lia|]. destruct (Nat.ltb_spec (length (nums (nth k2 (fst M) dummyN))) n2); [lia|]. cbn [orb]. rewrite E1, E2.
  destruct (Z.ltb_spec g2 g1) as [A|A]; [|destruct (Z.ltb_spec g1 g2) as [B|B]]; cbn [fst snd]; (split; [|split; [|split]]); intros; try (split; intros; auto; lia); try lia; try reflexivity.
  - apply merge_collapsed; auto; lia.
  - apply merge_collapsed; auto; lia.
Qed.
(** both nodes have the smaller number afterwards *)
Lemma nth_error_upd_some (l : list Z) i j x y : nth_error (upd i x l) j = Some y -> (j = i /\ y = x) \/ (j <> i /\ nth_error l j = Some y).
Proof.
  intros H. destruct (Nat.eq_dec j i) as [->|D]; [|right; split; [auto|rewrite nth_error_upd_ne in H; auto]].
  left. split; [auto|]. assert (L : (i < length l)%nat). { rewrite <- (upd_length i x l). apply nth_error_Some. congruence. }
  rewrite nth_error_upd_eq in H by auto. congruence.
Qed.
Lemma collapsed_nums M M' k n hi lo : modelOK M -> hi <> lo -> numAt M k n hi -> collapsedAt M M' k n hi lo ->
  forall j m g, numAt M j m g -> numAt M' j m (if (j =? k)%nat && (m =? n)%nat then lo else if existsb (Nat.eqb j) (nth k (snd M) []) then subst1 hi lo g else g).
Proof.
  intros [OK1 OK2] D Nh (C1 & C2 & C3) j m g (p & P1 & P2 & P3). destruct (C3 j p P1) as (q & Q1 & Q2 & Q3 & Q4). exists q. split; [auto|]. split; [auto|].
  assert (Hk : (k < length (fst M))%nat) by (destruct Nh as (pk & A & _); apply nth_error_Some; unfold patchAt in A; congruence).
  assert (NBk : existsb (Nat.eqb j) (nth k (snd M) []) = true <-> neighborOf M k j).
  { rewrite existsb_exists. split.
    - intros (x & X1 & X2). apply Nat.eqb_eq in X2. subst x. exists (nth k (snd M) []). split; [apply nth_error_nth'; lia|auto].
    - intros (l & X1 & X2). rewrite (nth_error_nth _ _ [] X1). exists j. split; [auto|apply Nat.eqb_refl]. }
  destruct (Nat.eqb_spec j k) as [->|Hne].
  - destruct (Q2 eq_refl) as [Q5 _]. rewrite Q5. assert (NN : existsb (Nat.eqb k) (nth k (snd M) []) = false).
    { destruct (existsb _ _) eqn:E; [|reflexivity]. pose proof (proj1 NBk eq_refl) as E'. apply OK2 in E'. exfalso. destruct E' as (_ & E' & _). congruence. }
    rewrite NN. destruct Nh as (pk & A1 & A2 & A3). destruct (Nat.eqb_spec m n) as [->|Hm]; cbn [andb].
    + apply nth_error_upd_eq. apply nth_error_Some. congruence.
    + rewrite nth_error_upd_ne by lia. auto.
  - cbn [andb]. destruct (existsb (Nat.eqb j) (nth k (snd M) [])) eqn:E.
    + destruct (Q3 (proj1 NBk eq_refl)) as [Q5 _]. rewrite Q5. rewrite nth_error_map, P3. reflexivity.
    + rewrite Q4; auto. intros K. pose proof (proj2 NBk K) as K'. discriminate K'.
Qed.
(** a whole-model substitution, when the higher number occurs nowhere else *)
Lemma collapsed_whole M M' k n hi lo : modelOK M -> hi <> lo -> numAt M k n hi -> collapsedAt M M' k n hi lo ->
  (forall j m, numAt M j m hi -> (j = k /\ m = n) \/ neighborOf M k j) ->
  (forall j p, patchAt M j p -> Refers p hi -> j = k \/ neighborOf M k j) ->
  forall j p, patchAt M j p -> exists q, patchAt M' j q /\ substituted hi lo p q.
Proof.
  intros OK D Nh C H1 H2 j p P. pose proof C as (C1 & C2 & C3). destruct (C3 j p P) as (q & Q1 & Q2 & Q3 & Q4). exists q. split; [auto|].
  assert (Only : forall m, nth_error (nums p) m = Some hi -> (j = k /\ S m = n) \/ neighborOf M k j).
  { intros m Hm. apply H1. exists p. split; [auto|]. split; [lia|]. replace (S m - 1)%nat with m by lia. auto. }
  assert (Dec : neighborOf M k j \/ ~ neighborOf M k j).
  { unfold neighborOf. destruct (nth_error (snd M) k) as [l|] eqn:E; [|right; intros (l & Q & _); discriminate Q]. destruct (in_dec Nat.eq_dec j l) as [I|I]; [left; eauto|right; intros (l' & Q & I'); inversion Q; subst; contradiction]. }
  destruct Dec as [Nb|Nb]; [auto|]. destruct (Nat.eq_dec j k) as [->|Hne].
  - destruct (Q2 eq_refl) as [Q5 Q6]. split; [|auto]. rewrite Q5. apply nth_error_ext'.
    intros i. rewrite nth_error_map. destruct (Nat.eq_dec i (n - 1)) as [->|Di].
    + destruct Nh as (pk & A1 & A2 & A3). assert (pk = p) by (unfold patchAt in *; congruence). subst pk. rewrite nth_error_upd_eq by (apply nth_error_Some; congruence). rewrite A3. cbn. unfold subst1. rewrite Z.eqb_refl. reflexivity.
    + rewrite nth_error_upd_ne by auto. destruct (nth_error (nums p) i) as [g|] eqn:E; [|reflexivity]. cbn [option_map]. f_equal. unfold subst1. destruct (Z.eqb_spec g hi) as [->|]; [|reflexivity]. destruct (Only i E) as [[_ K]|K]; [lia|contradiction].
  - rewrite Q4 by auto. split.
    + rewrite <- (map_id (nums p)) at 1. apply map_ext_in. intros g Hg. unfold subst1. destruct (Z.eqb_spec g hi) as [->|]; [|reflexivity]. apply In_nth_error in Hg. destruct Hg as [m Hm]. destruct (Only m Hm) as [[K _]|K]; contradiction.
    + assert (NR : ~ Refers p hi) by (intros K; destruct (H2 j p P K); contradiction).
      unfold condsMoved. split; [|split; [|auto]].
      * rewrite <- (map_id (pBC (nb p))) at 1. apply map_ext_in. intros b Hb. symmetry. apply moveBC_id. unfold subst1. destruct (Z.eqb_spec (bnode b) hi) as [E|]; [|reflexivity]. exfalso. apply NR. left. exists b. auto.
      * rewrite <- (map_id (pEQ (nb p))) at 1. apply map_ext_in. intros [m c] Hx. cbn [fst snd]. f_equal. destruct m as [sl ms]. unfold moveMPC. cbn [mslave mmast].
        assert (Dof : forall d, (d = sl \/ In d ms) -> moveDof (subst1 hi lo) d = d).
        { intros d Hd. unfold moveDof, subst1. destruct (Z.eqb_spec (dnode d) hi) as [E|]; [|destruct d; reflexivity]. exfalso. apply NR. right. exists (mkMPC sl ms). split; [apply in_map_iff; exists (mkMPC sl ms, c); auto|].
          cbn [mslave mmast]. destruct Hd as [->|Hd]; [left; auto|right; exists d; auto]. }
        rewrite Dof by auto. f_equal. rewrite <- (map_id ms) at 1. apply map_ext_in. intros d Hd. symmetry. apply Dof. auto.
Qed.

(** ** connecting two patches with different numbers *)
Lemma numAt_fun M k n g g' : numAt M k n g -> numAt M k n g' -> g = g'.
Proof. intros (p & P1 & _ & P3) (p' & P1' & _ & P3'). unfold patchAt in *. congruence. Qed.
Lemma modelOK_same M M' : length (fst M') = length (fst M) -> snd M' = snd M -> modelOK M -> modelOK M'.
Proof. intros E1 E2 [A B]. unfold modelOK, neighborOf in *. rewrite E1, E2. auto. Qed.
Lemma collapsed_back M M' k n hi lo j m g : collapsedAt M M' k n hi lo -> modelOK M -> numAt M' j m g -> exists g', numAt M j m g'.
Proof.
  intros (C1 & C2 & C3) [OK1 OK2] (q & Q1 & Q2 & Q3). unfold patchAt in *.
  assert (Hj : (j < length (fst M))%nat) by (rewrite <- C1; apply nth_error_Some; congruence).
  pose proof (nth_error_nth' (fst M) dummyN Hj) as P. destruct (C3 j _ P) as (q' & Q1' & A & B & C). unfold patchAt in *. assert (q' = q) by congruence. subst q'.
  assert (L : length (nums q) = length (nums (nth j (fst M) dummyN))).
  { destruct (Nat.eq_dec j k) as [E|E]; [destruct (A E) as [-> _]; apply upd_length|].
    assert (Dec : neighborOf M k j \/ ~ neighborOf M k j).
    { unfold neighborOf. destruct (nth_error (snd M) k) as [l|] eqn:El; [|right; intros (l & Q & _); discriminate Q]. destruct (in_dec Nat.eq_dec j l) as [I|I]; [left; eauto|right; intros (l' & Q & I'); inversion Q; subst; contradiction]. }
    destruct Dec as [Nb|Nb]; [destruct (B Nb) as [-> _]; apply map_length|rewrite C by auto; reflexivity]. }
  assert (Hm : (m - 1 < length (nums q))%nat) by (apply nth_error_Some; congruence).
  exists (nth (m - 1) (nums (nth j (fst M) dummyN)) 0). exists (nth j (fst M) dummyN). split; [exact P|]. split; [auto|]. apply nth_error_nth'. lia.
Qed.
Lemma not_own M k : modelOK M -> existsb (Nat.eqb k) (nth k (snd M) []) = false.
Proof.
  intros [_ OKi]. destruct (existsb _ _) eqn:E; [|reflexivity]. exfalso. apply existsb_exists in E. destruct E as (x & X1 & X2). apply Nat.eqb_eq in X2. subst x.
  assert (K : neighborOf M k k). { exists (nth k (snd M) []). split; [|auto]. apply nth_error_nth'. destruct (Nat.lt_ge_cases k (length (snd M))) as [Z1|Z1]; [auto|]. rewrite nth_overflow in X1 by auto. destruct X1. }
  apply OKi in K. tauto.
Qed.
Section Connect.
Variables (M : model) (j k : nat) (pairs : list (nat * nat)).
Hypothesis OK : modelOK M.
Hypothesis Hjk : j <> k.
Hypothesis Hv : forall m s, In (m, s) pairs -> (exists a, numAt M j m a) /\ (exists b, numAt M k s b).
Hypothesis Hnm : NoDup (map fst pairs).
Hypothesis Hns : NoDup (map snd pairs).
Hypothesis Dj : forall m m' a, numAt M j m a -> numAt M j m' a -> m = m'.
Hypothesis Dk : forall s s' b, numAt M k s b -> numAt M k s' b -> s = s'.
Hypothesis Djk : forall m s a, numAt M j m a -> numAt M k s a -> False.
Definition cinv (dn : list (nat * nat)) (Mi : model) : Prop :=
  length (fst Mi) = length (fst M) /\ snd Mi = snd M /\ (forall i m g, numAt Mi i m g -> exists g', numAt M i m g') /\
  (forall m a, numAt M j m a -> (forall s b, In (m, s) dn -> numAt M k s b -> numAt Mi j m (Z.min a b)) /\ ((forall s, ~ In (m, s) dn) -> numAt Mi j m a)) /\
  (forall s b, numAt M k s b -> (forall m a, In (m, s) dn -> numAt M j m a -> numAt Mi k s (Z.min a b)) /\ ((forall m, ~ In (m, s) dn) -> numAt Mi k s b)).
Lemma cinv_j dn Mi m a : (forall ms, In ms dn -> In ms pairs) -> cinv dn Mi -> numAt M j m a ->
  exists g, numAt Mi j m g /\ (g = a \/ exists s, In (m, s) dn /\ numAt M k s g).
Proof.
  intros Sub (_ & _ & _ & C & _) N. destruct (C m a N) as [C1 C2]. destruct (in_dec Nat.eq_dec m (map fst dn)) as [I|I].
  - apply in_map_iff in I. destruct I as ([m' s] & E & I). cbn in E. subst m'. destruct (Hv m s (Sub _ I)) as [_ [b Nb]]. specialize (C1 s b I Nb). exists (Z.min a b). split; [auto|].
    destruct (Z.min_spec a b) as [[_ ->]|[_ ->]]; [left; auto|right; exists s; auto].
  - exists a. split; [|auto]. apply C2. intros s K. apply I. apply in_map_iff. exists (m, s). auto.
Qed.
Lemma cinv_k dn Mi s b : (forall ms, In ms dn -> In ms pairs) -> cinv dn Mi -> numAt M k s b ->
  exists g, numAt Mi k s g /\ (g = b \/ exists m, In (m, s) dn /\ numAt M j m g).
Proof.
  intros Sub (_ & _ & _ & _ & C) N. destruct (C s b N) as [C1 C2]. destruct (in_dec Nat.eq_dec s (map snd dn)) as [I|I].
  - apply in_map_iff in I. destruct I as ([m s'] & E & I). cbn in E. subst s'. destruct (Hv m s (Sub _ I)) as [[a Na] _]. specialize (C1 m a I Na). exists (Z.min a b). split; [auto|].
    destruct (Z.min_spec a b) as [[_ ->]|[_ ->]]; [right; exists m; auto|left; auto].
  - exists b. split; [|auto]. apply C2. intros m K. apply I. apply in_map_iff. exists (m, s). auto.
Qed.
Lemma cinv_step dn Mi m s : (forall ms, In ms dn -> In ms pairs) -> In (m, s) pairs -> ~ In m (map fst dn) -> ~ In s (map snd dn) ->
  cinv dn Mi -> cinv (dn ++ [(m, s)]) (snd (collapseNodes Mi j m k s)).
Proof.
  intros Sub Hp Nm Ns C. pose proof C as (C1 & C2 & Cb & C3 & C4).
  destruct (Hv m s Hp) as [[a Na] [b Nb]].
  assert (Nai : numAt Mi j m a). { apply (proj2 (C3 m a Na)). intros s' K. apply Nm. apply in_map_iff. exists (m, s'). auto. }
  assert (Nbi : numAt Mi k s b). { apply (proj2 (C4 s b Nb)). intros m' K. apply Ns. apply in_map_iff. exists (m', s). auto. }
  assert (Dab : a <> b).
  { intros E. subst b. exact (Djk m s a Na Nb). } assert (Dba : b <> a) by auto.
  assert (OKi : modelOK Mi) by (eapply modelOK_same; eauto).
  destruct (collapse_ok Mi j m k s a b OKi Nai Nbi) as (_ & _ & R1 & R2). set (M' := snd (collapseNodes Mi j m k s)) in *.
  (* all numbers after the step *)
  assert (Ej : forall m' g, numAt Mi j m' g -> subst1 b a g = g).
  { intros m' g N. unfold subst1. destruct (Z.eqb_spec g b) as [->|]; [|reflexivity]. exfalso.
    destruct (Cb j m' b N) as [a' Na']. destruct (cinv_j dn Mi m' a' Sub C Na') as (g' & G1 & G2). assert (g' = b) by (eapply numAt_fun; eauto). subst g'. destruct G2 as [<-|(s' & S1 & S2)].
    - eapply Djk; eauto.
    - assert (s' = s) by (eapply Dk; eauto). subst. apply Ns. apply in_map_iff. exists (m', s). auto. }
  assert (Ek : forall s' g, numAt Mi k s' g -> subst1 a b g = g).
  { intros s' g N. unfold subst1. destruct (Z.eqb_spec g a) as [->|]; [|reflexivity]. exfalso.
    destruct (Cb k s' a N) as [b' Nb']. destruct (cinv_k dn Mi s' b' Sub C Nb') as (g' & G1 & G2). assert (g' = a) by (eapply numAt_fun; eauto). subst g'. destruct G2 as [<-|(m' & S1 & S2)].
    - eapply Djk; eauto.
    - assert (m' = m) by (eapply Dj; eauto). subst. apply Nm. apply in_map_iff. exists (m, s'). auto. }
  assert (STj : forall m' g, numAt Mi j m' g -> (m' <> m -> numAt M' j m' g) /\ (m' = m -> numAt M' j m' (Z.min a b))).
  { intros m' g N. destruct (Z.lt_ge_cases b a) as [L|L].
    - specialize (R1 L). pose proof (collapsed_nums Mi M' j m a b OKi Dab Nai R1 j m' g N) as Q. rewrite Nat.eqb_refl, not_own in Q by auto. cbn [andb] in Q.
      destruct (Nat.eqb_spec m' m) as [E|E]; split; intros K; try contradiction; [|exact Q]. rewrite Z.min_r by lia. exact Q.
    - assert (L' : a < b) by lia. specialize (R2 L'). pose proof (collapsed_nums Mi M' k s b a OKi Dba Nbi R2 j m' g N) as Q.
      destruct (Nat.eqb_spec j k); [contradiction|]. cbn [andb] in Q. rewrite (Ej m' g N) in Q.
      assert (Q' : numAt M' j m' g) by (destruct (existsb _ _); exact Q). split; [auto|]. intros ->. pose proof (numAt_fun _ _ _ _ _ N Nai) as Eg. subst g. rewrite Z.min_l by lia. auto. }
  assert (STk : forall s' g, numAt Mi k s' g -> (s' <> s -> numAt M' k s' g) /\ (s' = s -> numAt M' k s' (Z.min a b))).
  { intros s' g N. destruct (Z.lt_ge_cases b a) as [L|L].
    - specialize (R1 L). pose proof (collapsed_nums Mi M' j m a b OKi Dab Nai R1 k s' g N) as Q.
      destruct (Nat.eqb_spec k j); [congruence|]. cbn [andb] in Q. rewrite (Ek s' g N) in Q.
      assert (Q' : numAt M' k s' g) by (destruct (existsb _ _); exact Q). split; [auto|]. intros ->. pose proof (numAt_fun _ _ _ _ _ N Nbi) as Eg. subst g. rewrite Z.min_r by lia. auto.
    - assert (L' : a < b) by lia. specialize (R2 L'). pose proof (collapsed_nums Mi M' k s b a OKi Dba Nbi R2 k s' g N) as Q. rewrite Nat.eqb_refl, not_own in Q by auto. cbn [andb] in Q.
      destruct (Nat.eqb_spec s' s) as [E|E]; split; intros K; try contradiction; [|exact Q]. rewrite Z.min_l by lia. exact Q. }
  assert (CA : length (fst M') = length (fst Mi) /\ snd M' = snd Mi /\ forall i m g, numAt M' i m g -> exists g', numAt Mi i m g').
  { destruct (Z.lt_ge_cases b a) as [L|L].
    - specialize (R1 L). split; [apply R1|]. split; [apply R1|]. intros i m0 g0 H. eapply collapsed_back; eauto.
    - assert (L' : a < b) by lia. specialize (R2 L'). split; [apply R2|]. split; [apply R2|]. intros i m0 g0 H. eapply collapsed_back; eauto. }
  destruct CA as (CA1 & CA2 & CA3). split; [congruence|]. split; [congruence|]. split; [|split].
  - intros i m0 g0 H. destruct (CA3 i m0 g0 H) as [g' H']. eapply Cb; eauto.
  - intros m' a' N. destruct (C3 m' a' N) as [K1 K2]. split.
    + intros s' b' I Nb'. apply in_app_iff in I. destruct I as [I|[I|[]]].
      * refine (proj1 (STj m' _ (K1 s' b' I Nb')) _). intros ->. apply Nm. apply in_map_iff. exists (m, s'). auto.
      * inversion I. subst m' s'. rewrite (numAt_fun _ _ _ _ _ N Na), (numAt_fun _ _ _ _ _ Nb' Nb). exact (proj2 (STj m a Nai) eq_refl).
    + intros K. assert (K3 : numAt Mi j m' a') by (apply K2; intros s' I; apply (K s'); apply in_app_iff; auto). refine (proj1 (STj m' a' K3) _). intros ->. apply (K s). apply in_app_iff. right; left; auto.
  - intros s' b' N. destruct (C4 s' b' N) as [K1 K2]. split.
    + intros m' a' I Na'. apply in_app_iff in I. destruct I as [I|[I|[]]].
      * refine (proj1 (STk s' _ (K1 m' a' I Na')) _). intros ->. apply Ns. apply in_map_iff. exists (m', s). auto.
      * inversion I. subst m' s'. rewrite (numAt_fun _ _ _ _ _ N Nb), (numAt_fun _ _ _ _ _ Na' Na). exact (proj2 (STk s b Nbi) eq_refl).
    + intros K. assert (K3 : numAt Mi k s' b') by (apply K2; intros m' I; apply (K m'); apply in_app_iff; auto). refine (proj1 (STk s' b' K3) _). intros ->. apply (K m). apply in_app_iff. right; left; auto.
Qed.
Lemma cinv_all : forall todo dn Mi, dn ++ todo = pairs -> cinv dn Mi -> cinv pairs (fold_left (fun M ms => snd (collapseNodes M j (fst ms) k (snd ms))) todo Mi).
Proof.
  induction todo as [|[m s] todo IH]; intros dn Mi E C; cbn [fold_left].
  - rewrite app_nil_r in E. subst dn. exact C.
  - apply (IH (dn ++ [(m, s)])); [rewrite <- app_assoc; exact E|]. cbn [fst snd]. apply cinv_step; [| | | |exact C].
    + intros ms H. rewrite <- E. apply in_app_iff. auto.
    + rewrite <- E. apply in_app_iff. right; left; auto.
    + pose proof Hnm as Q. rewrite <- E, map_app in Q. cbn [map fst] in Q. apply NoDup_remove_2 in Q. intros K. apply Q. apply in_app_iff. auto.
    + pose proof Hns as Q. rewrite <- E, map_app in Q. cbn [map snd] in Q. apply NoDup_remove_2 in Q. intros K. apply Q. apply in_app_iff. auto.
Qed.
Lemma connect_ok : let M' := connect M k j pairs in
  (forall m s a b, In (m, s) pairs -> numAt M j m a -> numAt M k s b -> numAt M' j m (Z.min a b) /\ numAt M' k s (Z.min a b)) /\
  (forall m a, numAt M j m a -> (forall s, ~ In (m, s) pairs) -> numAt M' j m a) /\
  (forall s b, numAt M k s b -> (forall m, ~ In (m, s) pairs) -> numAt M' k s b).
Proof.
  assert (C0 : cinv [] M).
  { split; [reflexivity|]. split; [reflexivity|]. split; [eauto|]. split; intros ? ? N; (split; [intros ? ? []|auto]). }
  pose proof (cinv_all pairs [] M eq_refl C0) as (_ & _ & _ & C3 & C4).
  assert (AN : forall X i m g, numAt X i m g -> numAt (addNeighbor X k j) i m g).
  { intros X i m g (p & P). exists p. unfold addNeighbor, patchAt in *. destruct (existsb _ _); exact P. }
  unfold connect. split; [|split].
  - intros m s a b I Na Nb. split; apply AN; [exact (proj1 (C3 m a Na) s b I Nb)|exact (proj1 (C4 s b Nb) m a I Na)].
  - intros m a Na H. apply AN. exact (proj2 (C3 m a Na) H).
  - intros s b Nb H. apply AN. exact (proj2 (C4 s b Nb) H).
Qed.
End Connect.
Lemma nth_error_upd_iff {A} (i x : nat) (v : A) l y : nth_error (upd i v l) x = Some y <-> (x = i /\ (i < length l)%nat /\ y = v) \/ (x <> i /\ nth_error l x = Some y).
Proof.
  destruct (Nat.eq_dec x i) as [->|D].
  - destruct (Nat.lt_ge_cases i (length l)) as [L|L].
    + rewrite nth_error_upd_eq by auto. split; [intros H; inversion H; left; auto|intros [(_ & _ & ->)|[K _]]; [reflexivity|contradiction]].
    + split; [intros H; assert (i < length (upd i v l))%nat by (apply nth_error_Some; congruence); rewrite upd_length in *; lia|intros [(_ & K & _)|[K _]]; [lia|contradiction]].
  - rewrite nth_error_upd_ne by auto. split; [auto|intros [(K & _)|[_ K]]; [contradiction|auto]].
Qed.
Lemma addNeighbor_ok M k j : modelOK M -> j <> k -> (j < length (fst M))%nat -> (k < length (fst M))%nat -> modelOK (addNeighbor M k j) /\ neighborOf (addNeighbor M k j) k j.
Proof.
  intros [OK1 OK2] D Hj Hk. unfold addNeighbor. destruct (existsb (Nat.eqb j) (nth k (snd M) [])) eqn:E.
  - split; [split; auto|]. apply existsb_exists in E. destruct E as (x & X1 & X2). apply Nat.eqb_eq in X2. subst x. exists (nth k (snd M) []). split; [apply nth_error_nth'; lia|auto].
  - assert (NB : forall a b, neighborOf (fst M, upd j (nth j (upd k (nth k (snd M) [] ++ [j]) (snd M)) [] ++ [k]) (upd k (nth k (snd M) [] ++ [j]) (snd M))) a b
       <-> neighborOf M a b \/ (a = k /\ b = j) \/ (a = j /\ b = k)).
    { intros a b. unfold neighborOf. cbn [snd].
      assert (Gk : nth_error (snd M) k = Some (nth k (snd M) [])) by (apply nth_error_nth'; lia).
      assert (Gj : nth_error (snd M) j = Some (nth j (snd M) [])) by (apply nth_error_nth'; lia).
      rewrite (upd_nth_other k j) by auto. split.
      - intros (l & L1 & L2). apply nth_error_upd_iff in L1. destruct L1 as [(-> & _ & ->)|[Ha L1]].
        + apply in_app_iff in L2. destruct L2 as [L2|[<-|[]]]; [left; eauto|auto].
        + apply nth_error_upd_iff in L1. destruct L1 as [(-> & _ & ->)|[Ha' L1]]; [|left; eauto]. apply in_app_iff in L2. destruct L2 as [L2|[<-|[]]]; [left; eauto|auto].
      - intros [(l & L1 & L2)|[[-> ->]|[-> ->]]].
        + destruct (Nat.eq_dec a j) as [->|Dj]; [|destruct (Nat.eq_dec a k) as [->|Dk]].
          * exists (nth j (snd M) [] ++ [k]). split; [apply nth_error_upd_eq; rewrite upd_length; lia|]. apply in_app_iff. left. congruence.
          * exists (nth k (snd M) [] ++ [j]). rewrite nth_error_upd_ne by auto. split; [apply nth_error_upd_eq; lia|]. apply in_app_iff. left. congruence.
          * exists l. rewrite !nth_error_upd_ne by auto. auto.
        + exists (nth k (snd M) [] ++ [j]). rewrite nth_error_upd_ne by auto. split; [apply nth_error_upd_eq; lia|]. apply in_app_iff. right; left; auto.
        + exists (nth j (snd M) [] ++ [k]). split; [apply nth_error_upd_eq; rewrite upd_length; lia|]. apply in_app_iff. right; left; auto. }
    split; [|apply NB; auto]. split; [cbn [fst snd]; rewrite !upd_length; auto|].
    intros a b H. apply NB in H. cbn [fst]. destruct H as [H|[[-> ->]|[-> ->]]].
    + destruct (OK2 a b H) as (A1 & A2 & A3). split; [auto|]. split; [auto|]. apply NB. auto.
    + split; [auto|]. split; [auto|]. apply NB. auto.
    + split; [auto|]. split; [auto|]. apply NB. auto.
Qed.
