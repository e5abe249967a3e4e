(** Proofs about Legendre::GLL and Legendre::basisDerivatives. *)
From Coq Require Import List Arith Lia ZArith Bool Reals Lra FinFun Permutation.
From Verif Require Import RPoly Lagr_model Lagr_spec Lagr_proofs Cheb_proofs Lege_model Lege_spec Lege_proofs Lege_proofs2 Lege_proofs3.
Import ListNotations.
Open Scope R_scope.

Lemma gll_step_eq n p : (2 <= n)%nat -> -1 <= p <= 1 ->
  gll_step n p = Some (fadd (Some p) (fdiv (Some ((1 - p * p) * dleg (n - 1) p)) (Some (INR (n - 1) * INR n * leg (n - 1) p)))).
Proof.
  intros Hn Hp. unfold gll_step. rewrite leg_eval_in, leg_derEval_in by (lia || assumption).
  replace (Z.to_nat (Z.of_nat n - 1)) with (n - 1)%nat by lia. reflexivity.
Qed.

Lemma gll_step_fixed n p : (2 <= n)%nat -> -1 < p < 1 -> leg (n - 1) p <> 0 ->
  (gll_step n p = Some (Some p) <-> dleg (n - 1) p = 0).
Proof.
  intros Hn Hp Hnz. rewrite gll_step_eq by (lia || lra).
  assert (INR (n - 1) <> 0) by (apply not_0_INR; lia). assert (INR n <> 0) by (apply not_0_INR; lia).
  rewrite fdiv_nz by (repeat apply Rmult_integral_contrapositive_currified; assumption). unfold fadd.
  split.
  - intros E. injection E as E. assert (Z : (1 - p * p) * dleg (n - 1) p / (INR (n - 1) * INR n * leg (n - 1) p) = 0) by lra.
    assert (Z' : (1 - p * p) * dleg (n - 1) p = 0).
    { apply (Rmult_eq_reg_r (/ (INR (n - 1) * INR n * leg (n - 1) p))); [unfold Rdiv in Z; lra|].
      apply Rinv_neq_0_compat. repeat apply Rmult_integral_contrapositive_currified; assumption. }
    apply Rmult_integral in Z'. destruct Z' as [Z'|Z']; [|assumption]. exfalso.
    assert ((1 - p) * (1 + p) = 0) by lra. apply Rmult_integral in H1. lra.
  - intros ->. f_equal. f_equal. field. repeat split; assumption.
Qed.

(** a point returned by the iteration is one step away, of length at most the tolerance, from its predecessor *)
Lemma gll_newton_residual fuel n : forall p q, gll_newton fuel n p = NOk (Some q) ->
  exists p0, gll_step n p0 = Some (Some q) /\ Rabs (q - p0) <= / 100000000.
Proof.
  induction fuel as [|f IH]; intros p q; simpl; [discriminate|].
  destruct (gll_step n p) as [[p'|]|] eqn:E; try discriminate.
  destruct (rltb (/ 100000000) (Rabs (p' - p))) eqn:C.
  - apply IH.
  - intros H. assert (p' = q) by congruence. subst. exists p. split; [assumption|]. now apply rltb_f.
Qed.

Lemma gll_interior_in fuel n : forall ss l, gll_interior fuel n ss = Some l ->
  length l = length ss /\ forall q, In q l -> exists s, In s ss /\ gll_newton fuel n s = NOk (Some q).
Proof.
  induction ss as [|s ss IH]; intros l; simpl.
  - intros H. assert (l = []) by congruence. subst. split; [reflexivity | intros q []].
  - destruct (gll_newton fuel n s) as [| |[p|]] eqn:E; try discriminate.
    destruct (gll_interior fuel n ss) as [l'|] eqn:E'; [|discriminate].
    intros H. assert (l = p :: l') by congruence. subst. destruct (IH l' eq_refl) as [Hl Hq]. split; [simpl; lia|].
    intros q [<-|Hin]; [exists s; split; [now left | assumption]|]. destruct (Hq q Hin) as (s' & ? & ?). exists s'. split; [now right | assumption].
Qed.

Lemma gll_newton_fixed fuel n p : gll_step n p = Some (Some p) -> gll_newton (S fuel) n p = NOk (Some p).
Proof.
  intros E. simpl. rewrite E. replace (p - p) with 0 by ring. rewrite Rabs_R0.
  assert (C : rltb (/ 100000000) 0 = false) by (apply rltb_f; lra). rewrite C. reflexivity.
Qed.

Lemma gll_weights_in n xs : (2 <= n)%nat -> (forall a, In a xs -> -1 <= a <= 1) ->
  gll_weights n xs = Some (map (fun a => fdiv (Some 2) (Some (INR (n - 1) * INR n * leg (n - 1) a * leg (n - 1) a))) xs).
Proof.
  intros Hn. induction xs as [|a xs IH]; intros H; simpl; [reflexivity|].
  rewrite leg_eval_in by (try lia; apply H; now left). replace (Z.to_nat (Z.of_nat n - 1)) with (n - 1)%nat by lia.
  rewrite IH by (intros; apply H; now right). reflexivity.
Qed.

Lemma IsGLL_facts n xs : (2 <= n)%nat -> IsGLL n xs ->
  (forall i, (0 < i < n - 1)%nat -> dleg (n - 1) (nth i xs 0) = 0) /\ forall a, In a xs -> -1 <= a <= 1.
Proof.
  intros Hn (Hl & Hnd & H0 & H1 & Hin). split.
  - intros i Hi. destruct (Hin (leg (n - 1)) i (leg_is _) Hi) as [_ D].
    exact (uniqueness_limite _ _ _ _ (leg_deriv _ _) D).
  - intros a Ha. destruct (In_nth xs a 0 Ha) as (i & Hi & <-). rewrite Hl in Hi.
    destruct (Nat.eq_dec i 0) as [-> | E0]; [lra|]. destruct (Nat.eq_dec i (n - 1)) as [-> | E1]; [lra|].
    destruct (Hin (leg (n - 1)) i (leg_is _) ltac:(lia)) as [? _]. lra.
Qed.

Lemma INR_pred n : (1 <= n)%nat -> INR (n - 1) + 1 = INR n.
Proof. intro H. rewrite <- S_INR. f_equal. lia. Qed.

Lemma gll_weights_exact n xs : (2 <= n)%nat -> IsGLL n xs ->
  exists ws, gll_weights n xs = Some (map Some ws) /\ ExactRule (2 * n - 2) ws xs.
Proof.
  intros Hn HG. destruct (IsGLL_facts n xs Hn HG) as [Hd Hin]. destruct HG as (Hl & Hnd & H0 & H1 & _).
  set (N := (n - 1)%nat) in *. assert (En : n = S N) by lia.
  destruct (gll_exact_weights N xs ltac:(lia) ltac:(lia) Hnd H0 H1 Hd) as [Hnz Hex].
  set (F := fun a : R => 2 / (INR N * INR n * leg N a * leg N a)).
  assert (EI : INR N + 1 = INR n) by (unfold N; apply INR_pred; lia).
  exists (map F xs). split; [|split].
  - rewrite gll_weights_in by assumption. fold N. f_equal. rewrite map_map. apply map_ext_in. intros a Ha.
    apply fdiv_nz. destruct (In_nth xs a 0 Ha) as (i & Hi & <-). specialize (Hnz i ltac:(lia)).
    rewrite EI in Hnz. exact Hnz.
  - apply map_length.
  - intros q Hq. rewrite Hl, En. eapply Integ_val; [|apply Hex; replace (2 * N)%nat with (2 * n - 2)%nat by lia; exact Hq].
    apply rsum_ext. intros i Hi. apply in_seq in Hi. f_equal. symmetry.
    rewrite (nth_indep (map F xs) 0 (F 0)) by (rewrite map_length; lia). rewrite map_nth. unfold F. rewrite EI. reflexivity.
Qed.

Lemma isgll_two : IsGLL 2 [-1; 1].
Proof.
  split; [reflexivity|]. split; [constructor; [simpl; lra|constructor; [simpl; tauto|constructor]]|].
  split; [reflexivity|]. split; [reflexivity|]. intros f i _ Hi. lia.
Qed.

Lemma isgll_three : IsGLL 3 [-1; 0; 1].
Proof.
  split; [reflexivity|]. split; [repeat constructor; simpl; lra|].
  split; [reflexivity|]. split; [reflexivity|]. intros f i Hf Hi. assert (i = 1%nat) by lia. subst. simpl nth.
  split; [lra|]. apply (dpl_ext (leg 2)). { intro y. apply (legendre_unique 2); [apply leg_is | assumption]. }
  eapply dpl_val; [|apply leg_deriv]. simpl. field.
Qed.

Lemma gll_rule_two eig fuel : gll_rule eig fuel 2 = Some ([Some 1; Some 1], [-1; 1]).
Proof.
  unfold gll_rule. rewrite gll_weights_in by (try lia; intros a [<-|[<-|[]]]; lra). cbn [map].
  rewrite !fdiv_nz by (simpl; lra). do 3 f_equal; [|f_equal]; f_equal; simpl; field; lra.
Qed.

Lemma gll_rule_three eig fuel ev : eig 2%nat (gl_matrix 2) = Some ev -> length ev = 2%nat ->
  (forall l, In l ev -> IsEigenvalue 2 (gl_matrix 2) l) ->
  gll_rule eig (S fuel) 3 = Some ([Some (1 / 3); Some (4 / 3); Some (1 / 3)], [-1; 0; 1]).
Proof.
  intros He Hl H. unfold gll_rule. change (3 - 1)%nat with 2%nat. rewrite (gl_rule_two eig ev He Hl H). cbn [midpoints].
  replace ((0 + 0) / 2) with 0 by field. cbn [gll_interior].
  rewrite gll_newton_fixed.
  2:{ apply gll_step_fixed; [lia|lra| |]; simpl; [|field]. intro Z. lra. }
  cbn [app]. rewrite gll_weights_in by (try lia; intros a [<-|[<-|[<-|[]]]]; lra). cbn [map].
  assert (E1 : INR (3 - 1) * INR 3 * leg (3 - 1) (-1) * leg (3 - 1) (-1) = 6) by (simpl; field).
  assert (E2 : INR (3 - 1) * INR 3 * leg (3 - 1) 0 * leg (3 - 1) 0 = 3 / 2) by (simpl; field).
  assert (E3 : INR (3 - 1) * INR 3 * leg (3 - 1) 1 * leg (3 - 1) 1 = 6) by (simpl; field).
  rewrite E1, E2, E3, !fdiv_nz by lra.
  replace (2 / 6) with (1 / 3) by field. replace (2 / (3 / 2)) with (4 / 3) by field. reflexivity.
Qed.

Lemma gll_rule_unfold eig fuel n wg xg : (3 <= n)%nat -> gl_rule eig (n - 1) = Some (wg, xg) ->
  gll_rule eig fuel n = match gll_interior fuel n (midpoints xg) with
           | None => None
           | Some l => match gll_weights n (-1 :: l ++ [1]) with Some w => Some (w, -1 :: l ++ [1]) | None => None end
           end.
Proof. intros Hn H. destruct n as [|[|[|n]]]; try lia. unfold gll_rule. now rewrite H. Qed.

Lemma gll_rule_inv eig fuel n ws xs : (3 <= n)%nat -> gll_rule eig fuel n = Some (ws, xs) ->
  exists wg xg l, gl_rule eig (n - 1) = Some (wg, xg) /\ gll_interior fuel n (midpoints xg) = Some l /\
    xs = -1 :: l ++ [1] /\ gll_weights n xs = Some ws.
Proof.
  intros Hn H. destruct (gl_rule eig (n - 1)) as [[wg xg]|] eqn:E.
  - rewrite (gll_rule_unfold eig fuel n wg xg Hn E) in H.
    destruct (gll_interior fuel n (midpoints xg)) as [l|] eqn:E1; [|discriminate].
    destruct (gll_weights n (-1 :: l ++ [1])) as [w|] eqn:E2; [|discriminate].
    exists wg, xg, l. assert (w = ws) by congruence. assert (xs = -1 :: l ++ [1]) by congruence. subst. repeat split; assumption.
  - destruct n as [|[|[|n]]]; try lia. unfold gll_rule in H. rewrite E in H. discriminate.
Qed.

Lemma gll_rule_ends eig fuel n ws xs : (3 <= n)%nat -> gll_rule eig fuel n = Some (ws, xs) ->
  nth 0 xs 0 = -1 /\ last xs 0 = 1 /\
  forall i, (0 < i < length xs - 1)%nat -> exists p0, gll_step n p0 = Some (Some (nth i xs 0)) /\ Rabs (nth i xs 0 - p0) <= / 100000000.
Proof.
  intros Hn H. destruct (gll_rule_inv eig fuel n ws xs Hn H) as (wg & xg & l & _ & Hl & -> & _).
  split; [reflexivity|]. split; [change (-1 :: l ++ [1]) with ((-1 :: l) ++ [1]); apply last_last|].
  intros i Hi. simpl in Hi. rewrite app_length in Hi. simpl in Hi. destruct i as [|i]; [lia|]. simpl nth.
  rewrite app_nth1 by lia. destruct (gll_interior_in fuel n _ _ Hl) as [_ Hq].
  destruct (Hq (nth i l 0)) as (s & _ & Hs); [apply nth_In; lia|]. eapply gll_newton_residual; exact Hs.
Qed.

Lemma gll_rule_exact eig fuel n ws xs : (2 <= n)%nat -> gll_rule eig fuel n = Some (ws, xs) -> IsGLL n xs ->
  exists w, ws = map Some w /\ ExactRule (2 * n - 2) w xs.
Proof.
  intros Hn H HG. destruct (gll_weights_exact n xs Hn HG) as (w & Ew & He). exists w. split; [|assumption].
  destruct (Nat.eq_dec n 2) as [-> | H2].
  - pose proof H as H'. rewrite gll_rule_two in H'. assert (xs = [-1; 1]) by congruence. subst.
    unfold gll_rule in H. rewrite Ew in H. congruence.
  - destruct (gll_rule_inv eig fuel n ws xs ltac:(lia) H) as (_ & _ & _ & _ & _ & _ & E). congruence.
Qed.

(** ** basisDerivatives *)
Lemma bd_entry_deriv n p i j f : (2 <= n)%nat -> IsGLL n p -> (1 <= i <= n)%nat -> (1 <= j <= n)%nat ->
  IsLagrange p (j - 1) f -> exists d, bd_entry n p i j = Some (Some d) /\ derivable_pt_lim f (nth (i - 1) p 0) d.
Proof.
  intros Hn HG Hi Hj Hf. destruct (IsGLL_facts n p Hn HG) as [Hd Hin]. destruct HG as (Hl & Hnd & H0 & H1 & _).
  set (N := (n - 1)%nat) in *. assert (En : n = S N) by lia.
  pose proof (gll_basis_deriv N p ltac:(lia) ltac:(lia) Hnd H0 H1 Hd f (j - 1) (i - 1) Hf ltac:(lia) ltac:(lia)) as D.
  assert (EI : INR N + 1 = INR n) by (unfold N; apply INR_pred; lia).
  unfold bd_entry. destruct (Nat.eqb_spec i j) as [<- | Hij].
  - rewrite Nat.eqb_refl in D. destruct (Nat.eqb_spec i n) as [Ei|Ei]; [|destruct (Nat.eqb_spec i 1) as [Ei'|Ei']]; cbn [andb]; eexists; (split; [reflexivity|]).
    + eapply dpl_val; [|exact D]. rewrite Ei. fold N. rewrite H1, dleg_one, leg_one, EI. field.
    + eapply dpl_val; [|exact D]. rewrite Ei'. change (1 - 1)%nat with 0%nat. rewrite H0, dleg_mone, leg_mone, EI.
      fold N. simpl pow. pose proof (pow_m1_sq N) as S. set (s := (-1) ^ N) in *. assert (s <> 0) by (intro Z; rewrite Z in S; lra).
      field. assumption.
    + eapply dpl_val; [|exact D]. rewrite Hd by lia. unfold Rdiv. ring.
  - assert (Hne : (i - 1 =? j - 1)%nat = false) by (apply Nat.eqb_neq; lia). rewrite Hne in D.
    assert (H11 : (((i =? n) && (j =? n)) = false)%nat) by (apply andb_false_iff; rewrite !Nat.eqb_neq; lia).
    assert (H12 : (((i =? 1) && (j =? 1)) = false)%nat) by (apply andb_false_iff; rewrite !Nat.eqb_neq; lia).
    rewrite H11, H12. rewrite !leg_eval_in by (try lia; apply Hin, nth_In; lia).
    replace (Z.to_nat (Z.of_nat n - 1)) with N by lia.
    rewrite fdiv_nz.
    + eexists. split; [reflexivity | exact D].
    + apply Rmult_integral_contrapositive_currified.
      * apply (gll_leg_nz N p ltac:(lia) ltac:(lia) Hnd H0 H1 Hd). lia.
      * apply nodup_diff; [assumption|lia|lia|lia].
Qed.

Lemma dpl_rsum {A} (c : A -> R) (f : A -> R -> R) (d : A -> R) x l :
  (forall a, In a l -> derivable_pt_lim (f a) x (d a)) ->
  derivable_pt_lim (fun y => rsum (map (fun a => c a * f a y) l)) x (rsum (map (fun a => c a * d a) l)).
Proof.
  induction l as [|a l IH]; intros H; simpl; [apply derivable_pt_lim_const|].
  apply (derivable_pt_lim_plus (fun y => c a * f a y) (fun y => rsum (map (fun b => c b * f b y) l))).
  - apply (derivable_pt_lim_scal (f a)). apply H. now left.
  - apply IH. intros; apply H; now right.
Qed.

(** the rows of the matrix differentiate every polynomial of degree less than n *)
Lemma bd_differentiates n p i q : (2 <= n)%nat -> IsGLL n p -> (1 <= i <= n)%nat -> PolyFn n q ->
  exists D : nat -> R, (forall j, (1 <= j <= n)%nat -> bd_entry n p i j = Some (Some (D j))) /\
    derivable_pt_lim q (nth (i - 1) p 0) (rsum (map (fun j => D j * q (nth (j - 1) p 0)) (seq 1 n))).
Proof.
  intros Hn HG Hi Hq. pose proof HG as (Hl & Hnd & _).
  destruct (finite_choice (fun j d => bd_entry n p i (S j) = Some (Some d) /\ derivable_pt_lim (lagp p j) (nth (i - 1) p 0) d) n) as [D HD].
  { intros j Hj. destruct (bd_entry_deriv n p i (S j) (lagp p j) Hn HG Hi ltac:(lia)) as (d & E & Dd).
    - replace (S j - 1)%nat with j by lia. apply lagp_is; [assumption|lia].
    - now exists d. }
  exists (fun j => D (j - 1)%nat). split.
  - intros j Hj. destruct (HD (j - 1)%nat ltac:(lia)) as [E _]. replace (S (j - 1)) with j in E by lia. exact E.
  - rewrite <- seq_shift, map_map.
    apply (dpl_ext (fun y => rsum (map (fun k => q (nth k p 0) * lagp p k y) (seq 0 n)))).
    { intro y. rewrite <- Hl. apply lagp_interp; [assumption|]. now rewrite Hl. }
    eapply dpl_val; [|apply (dpl_rsum (fun k => q (nth k p 0)) (lagp p) D)].
    + apply rsum_ext. intros k Hk. replace (S k - 1)%nat with k by lia. ring.
    + intros k Hk. apply in_seq in Hk. now apply HD.
Qed.
