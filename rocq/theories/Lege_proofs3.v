(** Proofs about the points and the weights computed by Legendre::GL and Legendre::GLL. *)
From Coq Require Import List Arith Lia ZArith Bool Reals Lra FinFun Permutation.
From Verif Require Import RPoly Lagr_model Lagr_spec Lagr_proofs Cheb_proofs Lege_model Lege_spec Lege_proofs Lege_proofs2.
Import ListNotations.
Open Scope R_scope.

Lemma rltb_t x y : rltb x y = true <-> x < y.
Proof. unfold rltb. destruct (Rlt_dec x y); intuition congruence. Qed.
Lemma rltb_f x y : rltb x y = false <-> y <= x.
Proof. unfold rltb. destruct (Rlt_dec x y); intuition (try congruence; lra). Qed.
Lemma reqb_t x y : reqb x y = true <-> x = y.
Proof. unfold reqb. destruct (Req_EM_T x y); intuition congruence. Qed.
Lemma reqb_f x y : reqb x y = false <-> x <> y.
Proof. unfold reqb. destruct (Req_EM_T x y); intuition congruence. Qed.

Lemma out_f x : -1 <= x <= 1 -> rltb x (-1) || rltb 1 x = false.
Proof. intros [? ?]. apply orb_false_iff. rewrite !rltb_f. lra. Qed.

Lemma leg_eval_in n x : (1 <= n)%Z -> -1 <= x <= 1 -> leg_eval n x = Some (leg (Z.to_nat n) x).
Proof. intros Hn Hx. unfold leg_eval. destruct (Z.ltb_spec n 1); [lia|]. now rewrite out_f. Qed.

Lemma leg_eval_none n x : leg_eval n x = None <-> (n < 1)%Z \/ x < -1 \/ 1 < x.
Proof.
  unfold leg_eval. destruct (Z.ltb_spec n 1); [intuition|].
  destruct (rltb x (-1) || rltb 1 x) eqn:E.
  - apply orb_true_iff in E. rewrite !rltb_t in E. intuition.
  - apply orb_false_iff in E. rewrite !rltb_f in E. split; [discriminate | intros [?|[?|?]]; [lia|lra|lra]].
Qed.

Lemma leg_derEval_in n x : (1 <= n)%Z -> -1 <= x <= 1 -> leg_derEval n x = Some (dleg (Z.to_nat n) x).
Proof.
  intros Hn Hx. unfold leg_derEval. destruct (Z.ltb_spec n 1); [lia|]. rewrite out_f by assumption.
  destruct (Z.to_nat n) as [|m] eqn:Em; [lia|]. replace (S m - 1)%nat with m by lia.
  destruct (reqb x 1 || reqb x (-1)) eqn:E.
  - f_equal. replace (S m + 1)%nat with (S (S m)) by lia. apply orb_true_iff in E. rewrite !reqb_t in E. destruct E as [-> | ->].
    + rewrite dleg_one, pow1, !S_INR. field.
    + rewrite dleg_mone. rewrite !S_INR. replace ((-1) ^ S (S m)) with ((-1) ^ m) by (simpl; ring). field.
  - f_equal. apply orb_false_iff in E. rewrite !reqb_f in E. destruct E as [E1 E2].
    assert (1 - x * x <> 0) by (intro Z; assert ((1 - x) * (1 + x) = 0) by lra; apply Rmult_integral in H0; lra).
    destruct (leg_ids m x) as (A & _). rewrite S_INR.
    apply (Rmult_eq_reg_l (1 - x * x)); [|assumption]. rewrite A. field. assumption.
Qed.

Lemma leg_derEval_none n x : leg_derEval n x = None <-> (n < 1)%Z \/ x < -1 \/ 1 < x.
Proof.
  rewrite <- leg_eval_none. unfold leg_eval, leg_derEval. destruct (n <? 1)%Z; [tauto|].
  destruct (rltb x (-1) || rltb 1 x); [tauto|]. destruct (reqb x 1 || reqb x (-1)); split; discriminate.
Qed.

(** ** sorting *)
Lemma rinsert_perm x l : Permutation (rinsert x l) (x :: l).
Proof.
  induction l as [|y l IH]; simpl; [reflexivity|]. destruct (Rle_dec x y); [reflexivity|].
  rewrite IH. apply perm_swap.
Qed.
Lemma rsort_perm l : Permutation (rsort l) l.
Proof. induction l as [|x l IH]; simpl; [reflexivity|]. rewrite rinsert_perm. now constructor. Qed.

Inductive rsorted : list R -> Prop :=
| rs_nil : rsorted []
| rs_cons x l : (forall y, In y l -> x <= y) -> rsorted l -> rsorted (x :: l).

Lemma rinsert_sorted x l : rsorted l -> rsorted (rinsert x l).
Proof.
  induction 1 as [|y l Hy Hl IH]; simpl.
  - constructor; [intros y []|constructor].
  - destruct (Rle_dec x y) as [Hxy|Hxy].
    + constructor; [|now constructor]. intros z [<-|Hz]; [assumption|]. specialize (Hy z Hz). lra.
    + constructor; [|assumption]. intros z Hz. apply (Permutation_in z (rinsert_perm x l)) in Hz.
      destruct Hz as [<-|Hz]; [lra | now apply Hy].
Qed.
Lemma rsort_sorted l : rsorted (rsort l).
Proof. induction l; simpl; [constructor | now apply rinsert_sorted]. Qed.

Lemma rsorted_nth l : rsorted l -> NoDup l -> forall i j, (i < j < length l)%nat -> nth i l 0 < nth j l 0.
Proof.
  induction 1 as [|x l Hx Hl IH]; intros Hn i j Hij; simpl in Hij; [lia|]. inversion Hn as [|? ? Hni Hn']; subst.
  destruct j as [|j]; [lia|]. destruct i as [|i]; simpl.
  - assert (In (nth j l 0) l) by (apply nth_In; lia). specialize (Hx _ H). destruct Hx as [?|E]; [assumption|].
    exfalso. apply Hni. now rewrite E.
  - apply IH; [assumption | lia].
Qed.

(** ** eigenvalues of the matrix of GL *)
Lemma rsum_two {A} (f : A -> R) l a b : NoDup l -> In a l -> In b l -> a <> b ->
  (forall c, In c l -> c <> a -> c <> b -> f c = 0) -> rsum (map f l) = f a + f b.
Proof.
  induction l as [|c l IH]; [intros _ []|]. intros Hn Ha Hb Hab Hz. inversion Hn as [|? ? Hni Hn']; subst. simpl.
  destruct Ha as [-> | Ha]; destruct Hb as [-> | Hb]; try congruence.
  - f_equal. apply rsum_single; [assumption|assumption|]. intros d Hd Hd'. apply Hz; [now right | | assumption].
    intros ->. contradiction.
  - rewrite Rplus_comm. f_equal. apply rsum_single; [assumption|assumption|]. intros d Hd Hd'. apply Hz; [now right | assumption |].
    intros ->. contradiction.
  - rewrite IH; try assumption.
    + rewrite Hz; [ring | now left | intros ->; contradiction | intros ->; contradiction].
    + intros d Hd. apply Hz. now right.
Qed.

Ltac eqbs := repeat match goal with
  | |- context [(?a =? ?b)%nat] => destruct (Nat.eqb_spec a b); try lia
  | |- context [(?a <? ?b)%nat] => destruct (Nat.ltb_spec a b); try lia
  | |- context [(?a <=? ?b)%nat] => destruct (Nat.leb_spec a b); try lia
  end; cbn [andb orb].

Lemma gl_row1 n v : (2 <= n)%nat -> rsum (map (fun j => gl_matrix n 1 j * v j) (seq 1 n)) = v 2%nat.
Proof.
  intros Hn. rewrite (rsum_single _ (seq 1 n) 2%nat); [|apply seq_NoDup | apply in_seq; lia |].
  - unfold gl_matrix. simpl. ring.
  - intros j Hj Hne. apply in_seq in Hj. unfold gl_matrix. eqbs; ring.
Qed.

Lemma gl_row n v i : (3 <= n)%nat -> (2 <= i < n)%nat ->
  rsum (map (fun j => gl_matrix n i j * v j) (seq 1 n)) = INR (i - 1) / INR (2 * i - 1) * v (i - 1)%nat + INR i / INR (2 * i - 1) * v (i + 1)%nat.
Proof.
  intros Hn Hi. rewrite (rsum_two _ (seq 1 n) (i - 1)%nat (i + 1)%nat); [|apply seq_NoDup | apply in_seq; lia | apply in_seq; lia | lia |].
  - f_equal; f_equal; unfold gl_matrix; eqbs; reflexivity.
  - intros j Hj H1 H2. apply in_seq in Hj. unfold gl_matrix. eqbs; ring.
Qed.

Lemma gl_rown n v : (3 <= n)%nat ->
  rsum (map (fun j => gl_matrix n n j * v j) (seq 1 n)) = INR (n - 1) / INR (2 * n - 1) * v (n - 1)%nat.
Proof.
  intros Hn. rewrite (rsum_single _ (seq 1 n) (n - 1)%nat); [|apply seq_NoDup | apply in_seq; lia |].
  - unfold gl_matrix. eqbs; reflexivity.
  - intros j Hj H1. apply in_seq in Hj. unfold gl_matrix. eqbs; ring.
Qed.

Lemma INR_odd i : INR (2 * S i - 1) = 2 * INR i + 1.
Proof. replace (2 * S i - 1)%nat with (2 * i + 1)%nat by lia. rewrite plus_INR, mult_INR. simpl. ring. Qed.

Lemma gl_eigen_root n l : (3 <= n)%nat -> IsEigenvalue n (gl_matrix n) l <-> leg n l = 0.
Proof.
  intros Hn. split.
  - intros (v & (k & Hk & Hvk) & Hev).
    assert (V : forall i, (S i <= n)%nat -> v (S i) = leg i l * v 1%nat).
    { intro i. induction i as [i IH] using (well_founded_induction lt_wf). intros Hi.
      destruct i as [|[|i]].
      - simpl. ring.
      - pose proof (Hev 1%nat ltac:(lia)) as E. rewrite gl_row1 in E by lia. simpl. exact E.
      - pose proof (Hev (S (S i)) ltac:(lia)) as E. rewrite gl_row in E by lia.
        replace (S (S i) - 1)%nat with (S i) in E by lia. replace (S (S i) + 1)%nat with (S (S (S i))) in E by lia.
        rewrite INR_odd, (IH i), (IH (S i)) in E by lia. rewrite !S_INR in E.
        pose proof (pos_INR i) as Pi. pose proof (leg_SS i l) as L.
        apply (Rmult_eq_reg_l (INR i + 2)); [|lra]. rewrite <- Rmult_assoc, L.
        assert (E' : (INR i + 1) * (leg i l * v 1%nat) + (INR i + 2) * v (S (S (S i))) = (2 * INR i + 3) * (l * (leg (S i) l * v 1%nat))).
        { rewrite <- E. field. lra. }
        lra. }
    assert (V1 : v 1%nat <> 0).
    { intro Z. apply Hvk. destruct k as [|k]; [lia|]. rewrite V by lia. rewrite Z. ring. }
    pose proof (Hev n ltac:(lia)) as E. rewrite gl_rown in E by assumption.
    destruct n as [|[|m]]; [lia|lia|]. replace (S (S m) - 1)%nat with (S m) in E by lia.
    rewrite (V m), (V (S m)), INR_odd, !S_INR in E by lia.
    pose proof (pos_INR m) as Pm. pose proof (leg_SS m l) as L.
    assert (E' : (INR m + 1) * (leg m l * v 1%nat) = (2 * INR m + 3) * (l * (leg (S m) l * v 1%nat))).
    { rewrite <- E. field. lra. }
    assert (Z : ((INR m + 2) * leg (S (S m)) l) * v 1%nat = 0) by (rewrite L; lra).
    apply Rmult_integral in Z. destruct Z as [Z|Z]; [|contradiction]. apply Rmult_integral in Z. destruct Z as [Z|Z]; [lra|exact Z].
  - intros HR. exists (fun i => leg (i - 1) l). split.
    + exists 1%nat. split; [lia|]. simpl. lra.
    + intros i Hi. destruct (Nat.eq_dec i 1) as [-> | H1]; [rewrite gl_row1 by lia; simpl; ring|].
      destruct i as [|[|i]]; [lia|lia|]. pose proof (pos_INR i) as Pi. pose proof (leg_SS i l) as L.
      destruct (Nat.eq_dec (S (S i)) n) as [<- | H2].
      * rewrite gl_rown by assumption. replace (S (S i) - 1)%nat with (S i) by lia. replace (S i - 1)%nat with i by lia.
        rewrite INR_odd, !S_INR. rewrite HR in L.
        apply (Rmult_eq_reg_l (2 * INR i + 3)); [|lra]. transitivity ((INR i + 1) * leg i l); [field; lra | lra].
      * rewrite gl_row by lia. replace (S (S i) - 1)%nat with (S i) by lia. replace (S i - 1)%nat with i by lia.
        replace (S (S i) + 1 - 1)%nat with (S (S i)) by lia.
        rewrite INR_odd, !S_INR. apply (Rmult_eq_reg_l (2 * INR i + 3)); [|lra].
        transitivity ((INR i + 1) * leg i l + (INR i + 2) * leg (S (S i)) l); [field; lra | lra].
Qed.

(** ** GL *)
Lemma gl_weights_in n xs : (1 <= n)%nat -> (forall a, In a xs -> -1 <= a <= 1) ->
  gl_weights n xs = Some (map (fun a => fdiv (Some 2) (Some ((1 - a * a) * dleg n a * dleg n a))) xs).
Proof.
  intros Hn. induction xs as [|a xs IH]; intros H; simpl; [reflexivity|].
  rewrite leg_derEval_in by (try lia; apply H; now left). rewrite Nat2Z.id, IH by (intros; apply H; now right). reflexivity.
Qed.

Lemma fdiv_nz a b : b <> 0 -> fdiv (Some a) (Some b) = Some (a / b).
Proof. intros H. unfold fdiv. destruct (Req_EM_T b 0); [contradiction|reflexivity]. Qed.

Lemma gl_rule_exact eig n ev : (3 <= n)%nat -> eig n (gl_matrix n) = Some ev -> length ev = n -> NoDup ev ->
  (forall l, In l ev -> IsEigenvalue n (gl_matrix n) l) ->
  exists ws xs, gl_rule eig n = Some (map Some ws, xs) /\ length xs = n /\ Permutation xs ev /\
    (forall i j, (i < j < n)%nat -> nth i xs 0 < nth j xs 0) /\
    (forall a, In a xs -> -1 < a < 1 /\ leg n a = 0) /\ ExactRule (2 * n) ws xs.
Proof.
  intros Hn Hev Hl Hnd He. set (xs := rsort ev).
  assert (P : Permutation xs ev) by apply rsort_perm.
  assert (Hlx : length xs = n) by (rewrite (Permutation_length P); assumption).
  assert (Hndx : NoDup xs) by (eapply Permutation_NoDup; [symmetry; exact P | assumption]).
  assert (Hroot : forall a, In a xs -> leg n a = 0).
  { intros a Ha. apply gl_eigen_root; [assumption|]. apply He. now apply (Permutation_in a P). }
  destruct (gauss_exact n xs ltac:(lia) Hlx Hndx Hroot) as [Hnz Hex].
  exists (map (fun a => 2 / ((1 - a * a) * dleg n a * dleg n a)) xs), xs.
  split; [|split; [assumption|split; [assumption|split; [|split; [|split]]]]].
  - unfold gl_rule. destruct (Nat.ltb_spec n 2); [lia|]. rewrite Hev. fold xs.
    rewrite gl_weights_in by (try lia; intros a Ha; pose proof (leg_root_inside n a (Hroot a Ha)); lra).
    f_equal. f_equal. rewrite map_map. apply map_ext_in. intros a Ha. apply fdiv_nz. now apply Hnz.
  - intros i j Hij. apply rsorted_nth; [apply rsort_sorted | assumption | lia].
  - intros a Ha. split; [now apply (leg_root_inside n), Hroot | now apply Hroot].
  - apply map_length.
  - intros q Hq. rewrite Hlx. eapply Integ_val; [|apply Hex; exact Hq].
    apply rsum_ext. intros i Hi. apply in_seq in Hi.
    symmetry. f_equal. set (F := fun a : R => 2 / ((1 - a * a) * dleg n a * dleg n a)).
    rewrite (nth_indep (map F xs) 0 (F 0)) by (rewrite map_length; lia). rewrite map_nth. reflexivity.
Qed.

(** the matrix of order 2 has only the eigenvalue 0 *)
Lemma gl_eigen_two l : IsEigenvalue 2 (gl_matrix 2) l <-> l = 0.
Proof.
  split.
  - intros (v & (k & Hk & Hvk) & Hev). pose proof (Hev 1%nat ltac:(lia)) as E1. pose proof (Hev 2%nat ltac:(lia)) as E2.
    unfold gl_matrix in E1, E2. simpl in E1, E2.
    destruct (Req_dec l 0) as [|Hl]; [assumption|]. exfalso.
    assert (v 2%nat = 0) by (apply (Rmult_eq_reg_l l); [lra|assumption]).
    assert (v 1%nat = 0) by (apply (Rmult_eq_reg_l l); [lra|assumption]).
    apply Hvk. destruct k as [|[|[|k]]]; [lia|assumption|assumption|lia].
  - intros ->. exists (fun i => if (i =? 1)%nat then 1 else 0). split.
    + exists 1%nat. simpl. split; [lia|lra].
    + intros i Hi. unfold gl_matrix. destruct i as [|[|[|i]]]; [lia| | |lia]; simpl; ring.
Qed.

Lemma gl_rule_two eig ev : eig 2%nat (gl_matrix 2) = Some ev -> length ev = 2%nat ->
  (forall l, In l ev -> IsEigenvalue 2 (gl_matrix 2) l) -> gl_rule eig 2 = Some ([None; None], [0; 0]).
Proof.
  intros He Hl H. destruct ev as [|a [|b [|c ev]]]; try discriminate.
  assert (a = 0) by (apply gl_eigen_two, H; simpl; tauto). assert (b = 0) by (apply gl_eigen_two, H; simpl; tauto). subst.
  unfold gl_rule. change (2 <? 2)%nat with false. cbv iota. rewrite He. simpl rsort. destruct (Rle_dec 0 0); [|lra].
  rewrite gl_weights_in by (try lia; intros a [<-|[<-|[]]]; lra). cbn [map].
  replace ((1 - 0 * 0) * dleg 2 0 * dleg 2 0) with 0 by (simpl; field).
  unfold fdiv. destruct (Req_EM_T 0 0); [reflexivity|contradiction].
Qed.
