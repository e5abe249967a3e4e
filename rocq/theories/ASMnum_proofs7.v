(** When makePeriodic merges nodes and when it adds equations. *)
From Coq Require Import List Sorted Arith ZArith QArith Qcanon Bool Lia Permutation.
From Verif Require Import Base MPC_model MPC_spec ASMbc_model ASMbc_spec ASMbc_proofs ASMnum_model ASMnum_spec ASMnum_proofs ASMnum_proofs2 ASMnum_proofs4.
Import ListNotations.
Local Open Scope Z_scope.

Lemma sorted_snoc (l : list Z) a : StronglySorted Z.lt (l ++ [a]) -> StronglySorted Z.lt l /\ Forall (fun x => x < a) l.
Proof.
  induction l as [|b l IH]; cbn [app]; intros H; [split; constructor|].
  inversion H as [|? ? H1 H2]; subst. destruct (IH H1) as [A B]. apply Forall_app in H2. destruct H2 as [H2 H3]. inversion H3; subst.
  split; [constructor; assumption|constructor; assumption].
Qed.
Lemma sorted_last (l : list Z) : StronglySorted Z.lt l -> Forall (fun x => 1 <= x) l ->
  Z.of_nat (length l) <= last l 0 /\ Forall (fun x => x <= last l 0) l /\
  (last l 0 = Z.of_nat (length l) -> forall d, 1 <= d <= Z.of_nat (length l) -> In d l).
Proof.
  induction l as [|a l IH] using rev_ind; intros H P; [cbn; split; [lia|split; [constructor|lia]]|].
  rewrite last_last, app_length. cbn [length]. destruct (sorted_snoc _ _ H) as [H1 H2]. apply Forall_app in P. destruct P as [P1 P2]. inversion P2; subst.
  destruct (IH H1 P1) as (A & B & C).
  assert (L : last l 0 < a). { destruct l as [|b l'] using rev_ind; [cbn; lia|]. rewrite last_last. apply Forall_app in H2. destruct H2 as [_ H2]. inversion H2; subst; assumption. }
  split; [lia|]. split.
  - apply Forall_app. split; [eapply Forall_impl; [|exact H2]; cbn; intros; lia|constructor; [lia|constructor]].
  - intros E d D. apply in_or_app. destruct (Z.eq_dec d a) as [->|N]; [right; left; reflexivity|]. left. apply C; lia.
Qed.
Lemma allPeriodic_spec p dirs : 0 < dirs -> ~ IsDigit dirs 0 -> 1 <= pnf (nb p) ->
  (allPeriodic p dirs = true <-> forall d, IsDigit dirs d <-> 1 <= d <= pnf (nb p)).
Proof.
  intros H Z0 N. unfold allPeriodic. rewrite andb_true_iff, !Z.eqb_eq.
  assert (P : Forall (fun x => 1 <= x) (getDigits dirs)).
  { apply Forall_forall. intros x Hx. apply getDigits_in in Hx; [|exact H]. assert (x <> 0) by (intros ->; contradiction). apply isDigit_range in Hx; lia. }
  destruct (sorted_last _ (getDigits_sorted dirs) P) as (A & B & C). rewrite Forall_forall in B, P. split.
  - intros [E1 E2] d. rewrite <- getDigits_in by exact H. split.
    + intros I. split; [apply P, I|]. specialize (B _ I). lia.
    + intros I. apply C; lia.
  - intros E. assert (D : forall d, In d (getDigits dirs) <-> 1 <= d <= pnf (nb p)) by (intros d; rewrite getDigits_in by exact H; apply E).
    assert (Lp : length (getDigits dirs) = Z.to_nat (pnf (nb p))).
    { transitivity (length (map Z.of_nat (seq 1 (Z.to_nat (pnf (nb p)))))); [|rewrite map_length, seq_length; reflexivity].
      apply Permutation_length. apply NoDup_Permutation.
      - clear -H. pose proof (getDigits_sorted dirs) as Q. induction Q as [|a l Q IH F]; constructor; [|exact IH]. intros I. rewrite Forall_forall in F. specialize (F _ I). lia.
      - apply FinFun.Injective_map_NoDup; [intros x y; lia|apply seq_NoDup].
      - intros x. rewrite D, in_map_iff. split.
        + intros R. exists (Z.to_nat x). split; [lia|]. apply in_seq. lia.
        + intros (k & <- & K). apply in_seq in K. lia. }
    split; [lia|].
    assert (I : In (pnf (nb p)) (getDigits dirs)) by (apply D; lia). apply B in I.
    destruct (getDigits dirs) as [|z l] eqn:Q using rev_ind; [cbn in *; lia|]. clear IHl. rewrite last_last in *.
    assert (J : In z (l ++ [z])) by (apply in_or_app; right; left; reflexivity). apply D in J. lia.
Qed.
Lemma add2PC_MLGN p s d m c q t : add2PC p s d m c = Some (q, t) -> pMLGN q = pMLGN p /\ pnf q = pnf p.
Proof.
  unfold add2PC, addMPC. intros H.
  repeat match type of H with context [if ?b then _ else _] => destruct b end; try (injection H as <- _; split; reflexivity);
  destruct (insertEq _ _ _) as [new l]; destruct new; try (injection H as <- _; split; reflexivity);
  destruct (findMPC _ _ _) as [x|]; try discriminate H; cbn [andb] in H;
  repeat match type of H with context [if ?b then _ else _] => destruct b end; try discriminate H; injection H as <- _; split; reflexivity.
Qed.
Lemma addPeriodicity_MLGN p m s d q t : addPeriodicity p m s d = Some (q, t) -> pMLGN q = pMLGN p /\ pnf q = pnf p.
Proof.
  unfold addPeriodicity. destruct (_ || _); [intros [= <- _]; split; reflexivity|].
  destruct (add2PC p _ _ _ _) as [[p1 b]|] eqn:E; [|discriminate]. apply add2PC_MLGN in E. destruct b; [intros [= <- _]; exact E|].
  intros H. apply add2PC_MLGN in H. destruct E, H. split; congruence.
Qed.
Lemma perLoop_MLGN ds m s : forall p q,
  fold_left (fun o dof => match o with None => None | Some p => option_map (fun r => setNB p (fst r)) (addPeriodicity (nb p) m s dof) end) ds (Some p) = Some q ->
  nums q = nums p.
Proof.
  induction ds as [|d ds IH]; cbn [fold_left]; intros p q H; [injection H as <-; reflexivity|].
  destruct (addPeriodicity (nb p) m s d) as [[p1 b]|] eqn:E; cbn [option_map fst] in H.
  - rewrite (IH _ _ H). apply addPeriodicity_MLGN in E. apply E.
  - exfalso. clear -H. induction ds; cbn in H; [discriminate|auto].
Qed.
Lemma makePeriodic_spec p m s dirs q : 0 < dirs -> ~ IsDigit dirs 0 -> 1 <= pnf (nb p) ->
  (1 <= m <= length (nums p))%nat -> (1 <= s <= length (nums p))%nat -> makePeriodic p m s dirs = Some q ->
  (forall d, IsDigit dirs d <-> 1 <= d <= pnf (nb p)) /\ nth (m - 1) (nums q) 0 = nth (s - 1) (nums q) 0
    /\ nth (m - 1) (nums q) 0 = Z.min (nth (m - 1) (nums p) 0) (nth (s - 1) (nums p) 0) \/
  ~ (forall d, IsDigit dirs d <-> 1 <= d <= pnf (nb p)) /\ nums q = nums p.
Proof.
  intros H Z0 N Hm Hs. unfold makePeriodic. pose proof (allPeriodic_spec p dirs H Z0 N) as A. destruct (allPeriodic p dirs).
  - intros [= <-]. left. split; [apply A; reflexivity|]. destruct (collapseOwn_ok p m s Hm Hs) as [C _]. cbn zeta in C. rewrite C.
    rewrite upd_nth_same by (rewrite upd_length; lia).
    destruct (Nat.eq_dec (m - 1) (s - 1)) as [e|n]; [rewrite <- e, upd_nth_same by (rewrite upd_length; lia); auto|].
    rewrite upd_nth_other by (first [exact n|auto]). rewrite upd_nth_same by lia. auto.
  - intros E. right. split; [intros Q; apply A in Q; discriminate Q|]. eapply perLoop_MLGN, E.
Qed.
