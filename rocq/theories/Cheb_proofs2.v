(** Proofs about ChebyshevFunc. *)
From Coq Require Import List Arith Lia Bool Reals Lra.
From Verif Require Import RPoly Lagr_model Lagr_proofs Cheb_model Cheb_spec Cheb_proofs.
Import ListNotations.
Open Scope R_scope.

(** ** sums over index ranges *)
Lemma rsum_blocks h a : forall b, rsum (map h (seq 0 (a * b)))
  = rsum (map (fun j => rsum (map (fun i => h (i + a * j)%nat) (seq 0 a))) (seq 0 b)).
Proof.
  induction b as [|b IH]; [rewrite Nat.mul_0_r; reflexivity|].
  rewrite rsum_seq_S, <- IH. replace (a * S b)%nat with (a * b + a)%nat by lia.
  rewrite seq_app, map_app, rsum_app. f_equal. rewrite Nat.add_0_l.
  assert (G : forall s, rsum (map h (seq s a)) = rsum (map (fun i => h (i + s)%nat) (seq 0 a))).
  { intro s. clear. induction a as [|a IHa]; [reflexivity|].
    rewrite seq_S, map_app, rsum_app, IHa, rsum_seq_S. simpl. rewrite (Nat.add_comm s a). lra. }
  apply G.
Qed.

Lemma rsum_csum3 n1 n2 n3 (cs : nat -> R) (a b c : nat -> R) (v : nat -> R) :
  (forall i j k, (i < n1)%nat -> (j < n2)%nat -> (k < n3)%nat -> v (cpos n1 n2 i j k) = a i * b j * c k) ->
  rsum (map (fun p => cs p * v p) (seq 0 (n1 * n2 * n3)))
  = csum3 n1 n2 n3 (fun i j k => cs (cpos n1 n2 i j k) * (a i * b j * c k)).
Proof.
  intro H. rewrite rsum_blocks. unfold csum3. apply rsum_ext. intros k Hk. apply in_seq in Hk.
  rewrite (rsum_blocks (fun i => cs (i + n1 * n2 * k)%nat * v (i + n1 * n2 * k)%nat)).
  apply rsum_ext. intros j Hj. apply in_seq in Hj. apply rsum_ext. intros i Hi. apply in_seq in Hi.
  rewrite <- H by lia. unfold cpos. replace (i + n1 * (j + n2 * k))%nat with (i + n1 * j + n1 * n2 * k)%nat by lia.
  reflexivity.
Qed.

Lemma inner_some cs T v : (forall i, (i < length cs)%nat -> nth i T None = Some (v i)) ->
  inner cs T = Some (rsum (map (fun i => nth i cs 0 * v i) (seq 0 (length cs)))).
Proof.
  intro H. unfold inner.
  rewrite (fold_add (fun _ => false) (fun i => fmul (Some (nth i cs 0)) (nth i T None)) (fun i => nth i cs 0 * v i)).
  - cbv beta iota. f_equal. lra.
  - intros j Hj _. apply in_seq in Hj. rewrite H by lia. reflexivity.
Qed.

Lemma outer_length (X Y : list fl) : length (outer X Y) = (length X * length Y)%nat.
Proof.
  unfold outer. induction Y as [|y Y IH]; simpl; [lia|]. rewrite app_length, map_length, IH. lia.
Qed.

Lemma outer_nth (X Y : list fl) i j x y : (i < length X)%nat -> (j < length Y)%nat ->
  nth i X None = Some x -> nth j Y None = Some y -> nth (i + length X * j) (outer X Y) None = Some (x * y).
Proof.
  intros Hi Hj Hx Hy. unfold outer. revert j Hj Hy. induction Y as [|z Y IH]; intros j Hj Hy; [simpl in Hj; lia|].
  simpl. destruct j as [|j].
  - rewrite app_nth1 by (rewrite map_length; lia). replace (i + length X * 0)%nat with i by lia.
    rewrite (nth_indep _ None (fmul None z)) by (rewrite map_length; lia). rewrite (map_nth (fun x => fmul x z)).
    simpl in Hy. now rewrite Hx, Hy.
  - rewrite app_nth2 by (rewrite map_length; lia). rewrite map_length.
    replace (i + length X * S j - length X)%nat with (i + length X * j)%nat by lia.
    apply IH; [simpl in Hj; lia | assumption].
Qed.

Lemma tp_length F X fs c : length (tp_vals F X fs c) = cn F c.
Proof. unfold tp_vals. now rewrite map_length, seq_length. Qed.

(** ** the tensor product *)
Definition FR (F : chebF) (h : nat -> nat -> R -> R) (X : nat -> R) : R :=
  csum3 (cn F 0) (cn F 1) (cn F 2)
    (fun i j k => nth (cpos (cn F 0) (cn F 1) i j k) (ccoef F) 0 * (h 0%nat i (X 0%nat) * h 1%nat j (X 1%nat) * h 2%nat k (X 2%nat))).

Definition realises (F : chebF) (X : nat -> R) (fs : nat -> func) (h : nat -> nat -> R -> R) : Prop :=
  forall c i, (c < 3)%nat -> (i < cn F c)%nat -> nth i (tp_vals F X fs c) None = Some (h c i (X c)).

Lemma evaluateTP_some F X fs h : cheb_valid F -> realises F X fs h ->
  (forall c, (c < 3)%nat -> cn F c = 1%nat -> h c 0%nat (X c) = 1) ->
  evaluateTP F X fs = Some (FR F h X).
Proof.
  intros (V1 & V2 & V3) Hr H1. unfold evaluateTP.
  pose proof (Hr 0%nat) as R0. pose proof (Hr 1%nat) as R1. pose proof (Hr 2%nat) as R2.
  set (a := fun i => h 0%nat i (X 0%nat)). set (b := fun i => h 1%nat i (X 1%nat)). set (c := fun i => h 2%nat i (X 2%nat)).
  assert (P0 : (1 <= cn F 0)%nat) by (apply V1; lia).
  assert (P1 : (1 <= cn F 1)%nat) by (apply V1; lia).
  assert (P2 : (1 <= cn F 2)%nat) by (apply V1; lia).
  unfold FR. fold (a) (b) (c).
  (* a decoder for positions *)
  set (n0 := cn F 0) in *. set (n1 := cn F 1) in *. set (n2 := cn F 2) in *.
  set (v := fun p => a (p mod n0)%nat * b ((p / n0) mod n1)%nat * c (p / n0 / n1)%nat).
  assert (DV : forall i j k, (i < n0)%nat -> (j < n1)%nat -> (k < n2)%nat -> v (cpos n0 n1 i j k) = a i * b j * c k).
  { intros i j k Hi Hj Hk. unfold v, cpos.
    assert (D1 : ((i + n0 * (j + n1 * k)) mod n0 = i)%nat).
    { rewrite (Nat.mul_comm n0), Nat.mod_add by lia. now apply Nat.mod_small. }
    assert (D2 : ((i + n0 * (j + n1 * k)) / n0 = j + n1 * k)%nat).
    { rewrite (Nat.mul_comm n0), Nat.div_add by lia. rewrite Nat.div_small by lia. lia. }
    assert (D3 : ((j + n1 * k) mod n1 = j)%nat).
    { rewrite (Nat.mul_comm n1), Nat.mod_add by lia. now apply Nat.mod_small. }
    assert (D4 : ((j + n1 * k) / n1 = k)%nat).
    { rewrite (Nat.mul_comm n1), Nat.div_add by lia. rewrite Nat.div_small by lia. lia. }
    now rewrite D1, D2, D3, D4. }
  assert (ENC : forall p, (p < n0 * n1 * n2)%nat ->
     exists i j k, (i < n0)%nat /\ (j < n1)%nat /\ (k < n2)%nat /\ p = cpos n0 n1 i j k).
  { intros p Hp. exists (p mod n0)%nat, ((p / n0) mod n1)%nat, (p / n0 / n1)%nat.
    assert (n0 <> 0)%nat by lia. assert (n1 <> 0)%nat by lia.
    split; [now apply Nat.mod_upper_bound | split; [now apply Nat.mod_upper_bound | split]].
    - apply Nat.div_lt_upper_bound; [assumption|]. apply Nat.div_lt_upper_bound; [assumption | nia].
    - unfold cpos. rewrite (Nat.div_mod p n0) at 1 by assumption.
      rewrite (Nat.div_mod (p / n0) n1) at 1 by assumption. lia. }
  assert (FIN : forall T, (forall i j k, (i < n0)%nat -> (j < n1)%nat -> (k < n2)%nat ->
      nth (cpos n0 n1 i j k) T None = Some (a i * b j * c k)) -> 
      inner (ccoef F) T = Some (csum3 n0 n1 n2 (fun i j k => nth (cpos n0 n1 i j k) (ccoef F) 0 * (a i * b j * c k)))).
  { intros T HT. rewrite (inner_some _ T v).
    - rewrite V2. rewrite (rsum_csum3 n0 n1 n2 (fun p => nth p (ccoef F) 0) a b c v DV). reflexivity.
    - intros p Hp. rewrite V2 in Hp. destruct (ENC p Hp) as (i & j & k & Hi & Hj & Hk & ->).
      rewrite HT, DV by assumption. reflexivity. }
  destruct (Nat.eqb_spec n1 1) as [E1|E1], (Nat.eqb_spec n2 1) as [E2|E2]; cbn [andb]; apply FIN; intros i j k Hi Hj Hk.
  - assert (j = 0%nat) by lia. assert (k = 0%nat) by lia. subst j k. unfold cpos.
    replace (i + n0 * (0 + n1 * 0))%nat with i by lia. rewrite R0 by (assumption || lia).
    unfold a, b, c. rewrite (H1 1%nat) by (assumption || lia). rewrite (H1 2%nat) by (assumption || lia). f_equal. ring.
  - unfold cpos. set (T := outer (tp_vals F X fs 0) (tp_vals F X fs 1)).
    assert (LT : length T = (n0 * n1)%nat) by (unfold T; rewrite outer_length, !tp_length; reflexivity).
    replace (i + n0 * (j + n1 * k))%nat with ((i + n0 * j) + length T * k)%nat by (rewrite LT; lia).
    assert (i + n0 * j < n0 * n1)%nat by nia.
    apply outer_nth; [rewrite LT; assumption | rewrite tp_length; assumption | | apply R2; assumption || lia].
    unfold T. replace (i + n0 * j)%nat with (i + length (tp_vals F X fs 0) * j)%nat by (rewrite tp_length; reflexivity).
    apply outer_nth; try (rewrite tp_length; assumption); [apply R0 | apply R1]; assumption || lia.
  - assert (k = 0%nat) by lia. subst k. unfold cpos.
    replace (i + n0 * (j + n1 * 0))%nat with (i + length (tp_vals F X fs 0) * j)%nat by (rewrite tp_length; fold n0; lia).
    unfold c. rewrite (H1 2%nat) by (assumption || lia). rewrite Rmult_1_r.
    apply outer_nth; try (rewrite tp_length; assumption); [apply R0 | apply R1]; assumption || lia.
  - unfold cpos. set (T := outer (tp_vals F X fs 0) (tp_vals F X fs 1)).
    assert (LT : length T = (n0 * n1)%nat) by (unfold T; rewrite outer_length, !tp_length; reflexivity).
    replace (i + n0 * (j + n1 * k))%nat with ((i + n0 * j) + length T * k)%nat by (rewrite LT; lia).
    assert (i + n0 * j < n0 * n1)%nat by nia.
    apply outer_nth; [rewrite LT; assumption | rewrite tp_length; assumption | | apply R2; assumption || lia].
    unfold T. replace (i + n0 * j)%nat with (i + length (tp_vals F X fs 0) * j)%nat by (rewrite tp_length; reflexivity).
    apply outer_nth; try (rewrite tp_length; assumption); [apply R0 | apply R1]; assumption || lia.
Qed.

(** the factors of one direction *)
Definition hE (F : chebF) (c i : nat) (x : R) : R := tR i (toref (cdom F c) x).
Definition hD (F : chebF) (c i : nat) (x : R) : R := dtR i (toref (cdom F c) x) * (2 / (snd (cdom F c) - fst (cdom F c))).
Definition hDD (F : chebF) (c i : nat) (x : R) : R := ddtR i (toref (cdom F c) x) * (4 / (snd (cdom F c) - fst (cdom F c)) ^ 2).

Lemma tp_nth F X fs c i : (i < cn F c)%nat ->
  nth i (tp_vals F X fs c) None = fmul (ff (fs c) i (fadd (Some (-1)) (fdiv (fmul (Some 2) (fsub (Some (X c)) (Some (fst (cdom F c)))))
                                      (fsub (Some (snd (cdom F c))) (Some (fst (cdom F c))))))) (fw (fs c)).
Proof.
  intro H. unfold tp_vals. set (co := fadd _ _). cbv zeta.
  rewrite (nth_indep _ None (fmul (ff (fs c) 0 co) (fw (fs c)))) by now rewrite map_length, seq_length.
  rewrite (map_nth (fun i => fmul (ff (fs c) i co) (fw (fs c)))). now rewrite seq_nth.
Qed.

Lemma coord_some ab x : fst ab <> snd ab ->
  fadd (Some (-1)) (fdiv (fmul (Some 2) (fsub (Some x) (Some (fst ab)))) (fsub (Some (snd ab)) (Some (fst ab)))) = Some (toref ab x).
Proof. intro H. cbn [fmul fsub]. rewrite fdiv_some by lra. reflexivity. Qed.

Lemma tp_eval F X fs c i : cheb_valid F -> (c < 3)%nat -> (i < cn F c)%nat -> fs c = f_eval ->
  nth i (tp_vals F X fs c) None = Some (hE F c i (X c)).
Proof.
  intros (V1 & V2 & V3) Hc Hi Hf. rewrite tp_nth by assumption. rewrite Hf. cbn [ff fw f_eval].
  destruct (V3 c Hc) as [E1 | E1].
  - replace i with 0%nat by lia. unfold hE. simpl. f_equal. ring.
  - rewrite coord_some by assumption. rewrite evalPol1_some. unfold hE. simpl. f_equal. ring.
Qed.

Lemma tp_der1 F X fs c i : cheb_valid F -> (c < 3)%nat -> (i < cn F c)%nat -> cn F c <> 1%nat -> fs c = f_der1 F c ->
  nth i (tp_vals F X fs c) None = Some (hD F c i (X c)).
Proof.
  intros (V1 & V2 & V3) Hc Hi Hn Hf. rewrite tp_nth by assumption. rewrite Hf. cbn [ff fw f_der1].
  destruct (V3 c Hc) as [E1 | E1]; [congruence|].
  rewrite coord_some by assumption. rewrite evalDer1_some. cbn [fsub]. rewrite fdiv_some by lra. reflexivity.
Qed.

Lemma tp_der2 F X fs c i : cheb_valid F -> (c < 3)%nat -> (i < cn F c)%nat -> cn F c <> 1%nat -> fs c = f_der2 F c ->
  off_ends (toref (cdom F c) (X c)) ->
  nth i (tp_vals F X fs c) None = Some (hDD F c i (X c)).
Proof.
  intros (V1 & V2 & V3) Hc Hi Hn Hf Ho. rewrite tp_nth by assumption. rewrite Hf. cbn [ff fw f_der2].
  destruct (V3 c Hc) as [E1 | E1]; [congruence|].
  rewrite coord_some by assumption. rewrite eval2Der1_some by assumption.
  rewrite fdiv_some; [reflexivity|]. apply pow_nonzero. lra.
Qed.

Lemma cheb_evaluate_some F X : cheb_valid F -> cheb_evaluate F X = Some (FR F (hE F) X).
Proof.
  intro V. unfold cheb_evaluate. apply evaluateTP_some; [assumption | |].
  - intros c i Hc Hi. now apply tp_eval.
  - intros c Hc Hn. reflexivity.
Qed.

(** ** differentiation under the sum *)
Lemma dpl_rsum {A} (f : A -> R -> R) (f' : A -> R) x l :
  (forall a, In a l -> derivable_pt_lim (f a) x (f' a)) ->
  derivable_pt_lim (fun t => rsum (map (fun a => f a t) l)) x (rsum (map f' l)).
Proof.
  induction l as [|a l IH]; intro H; simpl.
  - apply derivable_pt_lim_const.
  - apply (derivable_pt_lim_plus (f a) (fun t => rsum (map (fun a => f a t) l))).
    + apply H; now left.
    + apply IH. intros; apply H; now right.
Qed.

Lemma dpl_csum3 n1 n2 n3 (f : nat -> nat -> nat -> R -> R) f' x :
  (forall i j k, (i < n1)%nat -> (j < n2)%nat -> (k < n3)%nat -> derivable_pt_lim (f i j k) x (f' i j k)) ->
  derivable_pt_lim (fun t => csum3 n1 n2 n3 (fun i j k => f i j k t)) x (csum3 n1 n2 n3 f').
Proof.
  intro H. unfold csum3.
  apply (dpl_rsum (fun k t => rsum (map (fun j => rsum (map (fun i => f i j k t) (seq 0 n1))) (seq 0 n2)))).
  intros k Hk. apply in_seq in Hk.
  apply (dpl_rsum (fun j t => rsum (map (fun i => f i j k t) (seq 0 n1)))).
  intros j Hj. apply in_seq in Hj.
  apply (dpl_rsum (fun i t => f i j k t)). intros i Hi. apply in_seq in Hi. apply H; lia.
Qed.

Definition hrep (h : nat -> nat -> R -> R) (c : nat) (g : nat -> R -> R) : nat -> nat -> R -> R :=
  fun d i x => if (d =? c)%nat then g i x else h d i x.

Lemma FR_deriv F h c g X : (c < 3)%nat ->
  (forall i, (i < cn F c)%nat -> derivable_pt_lim (h c i) (X c) (g i (X c))) ->
  derivable_pt_lim (fun t => FR F h (upd X c t)) (X c) (FR F (hrep h c g) X).
Proof.
  intros Hc H. unfold FR. apply (dpl_csum3 _ _ _ (fun i j k t => nth (cpos (cn F 0) (cn F 1) i j k) (ccoef F) 0 *
    (h 0%nat i (upd X c t 0%nat) * h 1%nat j (upd X c t 1%nat) * h 2%nat k (upd X c t 2%nat)))).
  intros i j k Hi Hj Hk. set (q := nth _ (ccoef F) 0).
  destruct c as [|[|[|c]]]; [| | |lia]; unfold upd, hrep; cbn [Nat.eqb].
  - apply (dpl_ext (fun t => (q * (h 1%nat j (X 1%nat) * h 2%nat k (X 2%nat))) * h 0%nat i t)); [intro; ring|].
    apply (dpl_val _ _ ((q * (h 1%nat j (X 1%nat) * h 2%nat k (X 2%nat))) * g i (X 0%nat))); [ring|].
    apply (derivable_pt_lim_scal (h 0%nat i)). now apply H.
  - apply (dpl_ext (fun t => (q * (h 0%nat i (X 0%nat) * h 2%nat k (X 2%nat))) * h 1%nat j t)); [intro; ring|].
    apply (dpl_val _ _ ((q * (h 0%nat i (X 0%nat) * h 2%nat k (X 2%nat))) * g j (X 1%nat))); [ring|].
    apply (derivable_pt_lim_scal (h 1%nat j)). now apply H.
  - apply (dpl_ext (fun t => (q * (h 0%nat i (X 0%nat) * h 1%nat j (X 1%nat))) * h 2%nat k t)); [intro; ring|].
    apply (dpl_val _ _ ((q * (h 0%nat i (X 0%nat) * h 1%nat j (X 1%nat))) * g k (X 2%nat))); [ring|].
    apply (derivable_pt_lim_scal (h 2%nat k)). now apply H.
Qed.

Lemma FR_ext F h g X : (forall c i, (c < 3)%nat -> (i < cn F c)%nat -> h c i (X c) = g c i (X c)) -> FR F h X = FR F g X.
Proof.
  intro H. unfold FR, csum3. apply rsum_ext. intros k Hk. apply rsum_ext. intros j Hj. apply rsum_ext. intros i Hi.
  apply in_seq in Hk, Hj, Hi. rewrite !H by lia. reflexivity.
Qed.

Lemma FR_zero F h c X : (c < 3)%nat -> (forall i, (i < cn F c)%nat -> h c i (X c) = 0) -> FR F h X = 0.
Proof.
  intros Hc H. unfold FR, csum3. apply rsum_zero. intros k Hk. apply rsum_zero. intros j Hj. apply rsum_zero. intros i Hi.
  apply in_seq in Hk, Hj, Hi. destruct c as [|[|[|c]]]; [| | |lia].
  - rewrite (H i) by lia. ring.
  - rewrite (H j) by lia. ring.
  - rewrite (H k) by lia. ring.
Qed.

Lemma toref_deriv ab x : derivable_pt_lim (toref ab) x (2 / (snd ab - fst ab)).
Proof.
  unfold toref. set (w := snd ab - fst ab).
  apply (dpl_ext (fun t => (-1 - 2 * fst ab / w) + (2 / w) * t)); [intro; unfold Rdiv; ring|].
  apply (dpl_val _ _ (0 + 2 / w * 1)); [ring|].
  apply (derivable_pt_lim_plus (fct_cte _) (mult_real_fct (2 / w) id)); [apply derivable_pt_lim_const|].
  apply derivable_pt_lim_scal, derivable_pt_lim_id.
Qed.

Lemma hE_deriv F c i x : derivable_pt_lim (hE F c i) x (hD F c i x).
Proof. apply (derivable_pt_lim_comp (toref (cdom F c)) (tR i)); [apply toref_deriv | apply tR_deriv]. Qed.

Lemma hD_deriv F c i x : fst (cdom F c) <> snd (cdom F c) -> derivable_pt_lim (hD F c i) x (hDD F c i x).
Proof.
  intro Hd. set (w := 2 / (snd (cdom F c) - fst (cdom F c))).
  apply (dpl_ext (fun t => w * dtR i (toref (cdom F c) t))); [intro; unfold hD, w; ring|].
  apply (dpl_val _ _ (w * (ddtR i (toref (cdom F c) x) * w))).
  - unfold hDD, w. field. lra.
  - apply (derivable_pt_lim_scal (fun t => dtR i (toref (cdom F c) t))).
    apply (derivable_pt_lim_comp (toref (cdom F c)) (dtR i)); [apply toref_deriv | apply dtR_deriv].
Qed.

Lemma cheb_deriv_some F X c : cheb_valid F -> (1 <= c <= 3)%nat ->
  cheb_deriv F X c = Some (FR F (hrep (hE F) (c - 1) (hD F (c - 1))) X).
Proof.
  intros V Hc. unfold cheb_deriv. destruct (Nat.eqb_spec (cn F (c - 1)) 1) as [E1 | E1].
  - f_equal. symmetry. apply (FR_zero F _ (c - 1)); [lia|]. intros i Hi. unfold hrep. rewrite Nat.eqb_refl.
    replace i with 0%nat by lia. unfold hD. simpl. ring.
  - apply evaluateTP_some; [assumption | |].
    + intros d i Hd Hi. unfold hrep. destruct (Nat.eqb_spec d (c - 1)) as [-> | Hne].
      * apply tp_der1; try assumption. destruct (Nat.eqb_spec c (c - 1 + 1)); [reflexivity | lia].
      * apply tp_eval; try assumption. destruct (Nat.eqb_spec c (d + 1)); [lia | reflexivity].
    + intros d Hd Hn. unfold hrep. destruct (Nat.eqb_spec d (c - 1)) as [-> | Hne]; [congruence | reflexivity].
Qed.

Lemma cheb_deriv_correct F X c : cheb_valid F -> (1 <= c <= 3)%nat ->
  derivable_pt_lim (fun t => FR F (hE F) (upd X (c - 1) t)) (X (c - 1)%nat) (FR F (hrep (hE F) (c - 1) (hD F (c - 1))) X).
Proof. intros V Hc. apply FR_deriv; [lia|]. intros i Hi. apply hE_deriv. Qed.

Definition hd2 (F : chebF) (c1 c2 : nat) : nat -> nat -> R -> R :=
  if (c1 =? c2)%nat then hrep (hE F) (c1 - 1) (hDD F (c1 - 1))
  else hrep (hrep (hE F) (c1 - 1) (hD F (c1 - 1))) (c2 - 1) (hD F (c2 - 1)).

Lemma cheb_dderiv_some F X c1 c2 : cheb_valid F -> (1 <= c1 <= 3)%nat -> (1 <= c2 <= 3)%nat ->
  (c1 = c2 -> off_ends (toref (cdom F (c1 - 1)) (X (c1 - 1)%nat))) ->
  cheb_dderiv F X c1 c2 = Some (FR F (hd2 F c1 c2) X).
Proof.
  intros V Hc1 Hc2 Ho. unfold cheb_dderiv, hd2.
  destruct (Nat.eqb_spec (cn F (c1 - 1)) 1) as [E1 | E1]; cbn [orb].
  { f_equal. symmetry. destruct (Nat.eqb_spec c1 c2) as [-> | Hne].
    - apply (FR_zero F _ (c2 - 1)); [lia|]. intros i Hi. unfold hrep. rewrite Nat.eqb_refl.
      replace i with 0%nat by lia. unfold hDD. simpl. ring.
    - apply (FR_zero F _ (c1 - 1)); [lia|]. intros i Hi. unfold hrep.
      destruct (Nat.eqb_spec (c1 - 1) (c2 - 1)); [lia|]. rewrite Nat.eqb_refl.
      replace i with 0%nat by lia. unfold hD. simpl. ring. }
  destruct (Nat.eqb_spec (cn F (c2 - 1)) 1) as [E2 | E2].
  { f_equal. symmetry. destruct (Nat.eqb_spec c1 c2) as [-> | Hne]; [congruence|].
    apply (FR_zero F _ (c2 - 1)); [lia|]. intros i Hi. unfold hrep. rewrite Nat.eqb_refl.
    replace i with 0%nat by lia. unfold hD. simpl. ring. }
  destruct (Nat.eqb_spec c1 c2) as [-> | Hne].
  - apply evaluateTP_some; [assumption | |].
    + intros d i Hd Hi. unfold hrep. destruct (Nat.eqb_spec d (c2 - 1)) as [-> | Hne].
      * apply tp_der2; try assumption; [|now apply Ho]. destruct (Nat.eqb_spec c2 (c2 - 1 + 1)); [reflexivity | lia].
      * apply tp_eval; try assumption. destruct (Nat.eqb_spec c2 (d + 1)); [lia | reflexivity].
    + intros d Hd Hn. unfold hrep. destruct (Nat.eqb_spec d (c2 - 1)) as [-> | Hne]; [congruence | reflexivity].
  - apply evaluateTP_some; [assumption | |].
    + intros d i Hd Hi. unfold hrep. destruct (Nat.eqb_spec d (c2 - 1)) as [-> | H2].
      * apply tp_der1; try assumption. destruct (Nat.eqb_spec c1 (c2 - 1 + 1)); [lia|].
        destruct (Nat.eqb_spec c2 (c2 - 1 + 1)); [reflexivity | lia].
      * destruct (Nat.eqb_spec d (c1 - 1)) as [-> | H1].
        -- apply tp_der1; try assumption. destruct (Nat.eqb_spec c1 (c1 - 1 + 1)); [reflexivity | lia].
        -- apply tp_eval; try assumption. destruct (Nat.eqb_spec c1 (d + 1)); [lia|].
           destruct (Nat.eqb_spec c2 (d + 1)); [lia | reflexivity].
    + intros d Hd Hn. unfold hrep. destruct (Nat.eqb_spec d (c2 - 1)) as [-> | H2]; [congruence|].
      destruct (Nat.eqb_spec d (c1 - 1)) as [-> | H1]; [congruence | reflexivity].
Qed.

Lemma dpl_zero_fun f x : (forall t, f t = 0) -> derivable_pt_lim f x 0.
Proof. intro H. apply (dpl_ext (fct_cte 0)); [intro; now rewrite H | apply derivable_pt_lim_const]. Qed.

Lemma cheb_dderiv_correct F X c1 c2 : cheb_valid F -> (1 <= c1 <= 3)%nat -> (1 <= c2 <= 3)%nat ->
  derivable_pt_lim (fun t => FR F (hrep (hE F) (c1 - 1) (hD F (c1 - 1))) (upd X (c2 - 1) t)) (X (c2 - 1)%nat)
    (FR F (hd2 F c1 c2) X).
Proof.
  intros V Hc1 Hc2. pose proof V as (V1 & V2 & V3). unfold hd2. destruct (Nat.eqb_spec c1 c2) as [-> | Hne].
  - destruct (V3 (c2 - 1)%nat ltac:(lia)) as [E1 | E1].
    + rewrite (FR_zero F _ (c2 - 1)).
      * apply dpl_zero_fun. intro t. apply (FR_zero F _ (c2 - 1)); [lia|]. intros i Hi. unfold hrep. rewrite Nat.eqb_refl.
        replace i with 0%nat by lia. unfold hD. simpl. ring.
      * lia.
      * intros i Hi. unfold hrep. rewrite Nat.eqb_refl. replace i with 0%nat by lia. unfold hDD. simpl. ring.
    + rewrite (FR_ext F _ (hrep (hrep (hE F) (c2 - 1) (hD F (c2 - 1))) (c2 - 1) (hDD F (c2 - 1))) X).
      * apply FR_deriv; [lia|]. intros i Hi. unfold hrep. rewrite Nat.eqb_refl. now apply hD_deriv.
      * intros c i _ _. unfold hrep. now destruct (c =? c2 - 1)%nat.
  - apply FR_deriv; [lia|]. intros i Hi. unfold hrep. destruct (Nat.eqb_spec (c2 - 1) (c1 - 1)); [lia | apply hE_deriv].
Qed.

(** ** vector functions *)
Lemma flat_seq_nth {A} (g : nat -> list A) n m s d : (forall a, length (g a) = n) ->
  forall i j, (i < n)%nat -> (j < m)%nat -> nth (i + n * j) (flat_map g (seq s m)) d = nth i (g (s + j)%nat) d.
Proof. intros Hg i j Hi Hj. now apply (nth_blocks g n d Hg m i j). Qed.

Lemma flat_seq_length {A} (g : nat -> list A) n m s : (forall a, length (g a) = n) -> length (flat_map g (seq s m)) = (n * m)%nat.
Proof.
  intro Hg. revert s. induction m as [|m IH]; intro s; simpl; [lia|]. rewrite app_length, Hg, IH. lia.
Qed.

Lemma map_seq_nth {A} (f : nat -> A) n i d : (i < n)%nat -> nth i (map f (seq 0 n)) d = f i.
Proof.
  intro H. rewrite (nth_indep _ d (f 0%nat)) by now rewrite map_length, seq_length.
  rewrite map_nth. now rewrite seq_nth.
Qed.

Lemma nth_error_firstn {A} (l : list A) n c : (c < n)%nat -> nth_error (firstn n l) c = nth_error l c.
Proof.
  revert n c. induction l as [|a l IH]; intros [|n] [|c] H; simpl; try reflexivity; try lia. apply IH. lia.
Qed.

Lemma vecf_comp fs v c : vecf_make fs = Some v -> (c < snd v)%nat -> (snd v <= length (fst v))%nat ->
  exists f, nth_error (fst v) c = Some f /\ nth_error fs c = Some f.
Proof.
  intros H Hc Hl. destruct fs as [|f0 fs]; [discriminate|]. unfold vecf_make in H.
  assert (Ev : v = (firstn 3 (f0 :: fs), if (cn f0 2 =? 1)%nat then 2%nat else length (f0 :: fs))) by congruence. subst v. clear H.
  set (l3 := firstn 3 (f0 :: fs)) in *. cbn [fst snd] in *.
  assert (Hc' : (c < length l3)%nat) by (eapply Nat.lt_le_trans; eassumption).
  assert (H3 : (c < 3)%nat) by (unfold l3 in Hc'; rewrite firstn_length in Hc'; lia).
  apply nth_error_Some in Hc'. destruct (nth_error l3 c) as [f|] eqn:EE; [|congruence].
  exists f. split; [reflexivity|]. unfold l3 in EE. rewrite nth_error_firstn in EE by assumption. assumption.
Qed.

Lemma vecf_gradient_some fs v X : vecf_make fs = Some v -> (snd v <= length (fst v))%nat ->
  exists g, vecf_gradient v X = Some g /\ length g = (snd v * snd v)%nat /\
  forall c d, (c < snd v)%nat -> (1 <= d <= snd v)%nat ->
    exists f, nth_error fs c = Some f /\ nth (c + snd v * (d - 1)) g None = cheb_deriv f X d.
Proof.
  intros H Hl. unfold vecf_gradient. destruct (Nat.ltb_spec (length (fst v)) (snd v)); [lia|].
  eexists. split; [reflexivity|]. split.
  - apply flat_seq_length. intro. now rewrite map_length, seq_length.
  - intros c d Hc Hd. destruct (vecf_comp fs v c H Hc Hl) as (f & E1 & E2). exists f. split; [assumption|].
    rewrite (flat_seq_nth _ (snd v)); [|intro; now rewrite map_length, seq_length | lia | lia].
    rewrite map_seq_nth by assumption. rewrite E1. f_equal. lia.
Qed.

Lemma vecf_hessian_some fs v X : vecf_make fs = Some v -> (snd v <= length (fst v))%nat ->
  exists g, vecf_hessian v X = Some g /\ length g = (snd v * snd v * snd v)%nat /\
  forall c d1 d2, (c < snd v)%nat -> (1 <= d1 <= snd v)%nat -> (1 <= d2 <= snd v)%nat ->
    exists f, nth_error fs c = Some f /\ nth (c + snd v * ((d1 - 1) + snd v * (d2 - 1))) g None = cheb_dderiv f X d1 d2.
Proof.
  intros H Hl. unfold vecf_hessian. destruct (Nat.ltb_spec (length (fst v)) (snd v)); [lia|].
  eexists. split; [reflexivity|]. split.
  - apply flat_seq_length. intro. apply flat_seq_length. intro. now rewrite map_length, seq_length.
  - intros c d1 d2 Hc H1 H2. destruct (vecf_comp fs v c H Hc Hl) as (f & E1 & E2). exists f. split; [assumption|].
    replace (c + snd v * ((d1 - 1) + snd v * (d2 - 1)))%nat with ((c + snd v * (d1 - 1)) + (snd v * snd v) * (d2 - 1))%nat by lia.
    rewrite (flat_seq_nth _ (snd v * snd v)%nat);
      [|intro; apply flat_seq_length; intro; now rewrite map_length, seq_length | nia | lia].
    rewrite (flat_seq_nth _ (snd v)); [|intro; now rewrite map_length, seq_length | lia | lia].
    rewrite map_seq_nth by assumption. rewrite E1. f_equal; lia.
Qed.
