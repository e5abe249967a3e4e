(** Proofs about the coordinate mapping: sums, the Jacobian and its inverse. *)
From Coq Require Import Reals List Arith Bool Lia Lra.
From Verif Require Import Map_model Map_spec.
Local Open Scope R_scope.

Lemma sum_ext : forall n f g, (forall i, within n i -> f i = g i) -> sum n f = sum n g.
Proof.
  induction n as [|n IH]; intros f g E; cbn [sum]; [reflexivity|].
  rewrite (IH f g), (E (S n)); [reflexivity | unfold within; lia |].
  intros i [A B]. apply E. unfold within. lia.
Qed.

Lemma Sig_sum : forall n f, Sig n f = sum n f.
Proof.
  unfold Sig. induction n as [|n IH]; intro f; [reflexivity|].
  cbn [sum]. rewrite <- IH, seq_S, map_app, fold_right_app.
  replace (1 + n)%nat with (S n) by lia. cbn [map fold_right].
  generalize (map f (seq 1 n)). intro l. induction l as [|x l IHl]; cbn; [ring|].
  rewrite IHl. ring.
Qed.

Lemma Sig_ext : forall n f g, (forall i, within n i -> f i = g i) -> Sig n f = Sig n g.
Proof. intros. rewrite !Sig_sum. apply sum_ext; assumption. Qed.

Lemma sum_zero : forall n, sum n (fun _ => 0) = 0.
Proof. induction n; cbn [sum]; lra. Qed.
Lemma sum_plus : forall n f g, sum n (fun i => f i + g i) = sum n f + sum n g.
Proof. induction n; intros; cbn [sum]; [ring|]. rewrite IHn. ring. Qed.
Lemma sum_minus : forall n f g, sum n (fun i => f i - g i) = sum n f - sum n g.
Proof. induction n; intros; cbn [sum]; [ring|]. rewrite IHn. ring. Qed.
Lemma sum_scal : forall n c f, sum n (fun i => c * f i) = c * sum n f.
Proof. induction n; intros; cbn [sum]; [ring|]. rewrite IHn. ring. Qed.
Lemma sum_scalr : forall n c f, sum n (fun i => f i * c) = sum n f * c.
Proof. induction n; intros; cbn [sum]; [ring|]. rewrite IHn. ring. Qed.
Lemma sum_swap : forall n m f, sum n (fun i => sum m (fun j => f i j)) = sum m (fun j => sum n (fun i => f i j)).
Proof.
  induction n as [|n IH]; intros; cbn [sum]; [rewrite sum_zero; reflexivity|].
  rewrite IH, <- sum_plus. reflexivity.
Qed.
Lemma delta_sym : forall i j, delta i j = delta j i.
Proof. intros. unfold delta. rewrite Nat.eqb_sym. reflexivity. Qed.
Lemma delta_refl : forall i, delta i i = 1.
Proof. intros. unfold delta. rewrite Nat.eqb_refl. reflexivity. Qed.

Lemma sum_delta : forall n f j, within n j -> sum n (fun i => f i * delta i j) = f j.
Proof.
  induction n as [|n IH]; intros f j [A B]; [lia|]. cbn [sum].
  destruct (Nat.eq_dec j (S n)) as [-> | D].
  - rewrite delta_refl, (sum_ext n _ (fun _ => 0)), sum_zero; [ring|].
    intros i [C D]. unfold delta. destruct (Nat.eqb_spec i (S n)); [lia | ring].
  - rewrite IH by (unfold within; lia). unfold delta at 1.
    destruct (Nat.eqb_spec (S n) j); [lia | ring].
Qed.
Lemma sum_delta_r : forall n f j, within n j -> sum n (fun i => f i * delta j i) = f j.
Proof.
  intros. rewrite <- (sum_delta n f j H). apply sum_ext. intros. rewrite delta_sym. reflexivity.
Qed.
Lemma sum_delta_l : forall n f j, within n j -> sum n (fun i => delta i j * f i) = f j.
Proof.
  intros. rewrite <- (sum_delta n f j H). apply sum_ext. intros. ring.
Qed.
Lemma sum_delta_lr : forall n f j, within n j -> sum n (fun i => delta j i * f i) = f j.
Proof.
  intros. rewrite <- (sum_delta n f j H). apply sum_ext. intros. rewrite (delta_sym j). ring.
Qed.

(** The Jacobian matrix is the derivative of the geometry. *)
Lemma mmul_dxdu : forall nen X dNdu i a, mmul nen X dNdu i a = dxdu nen X dNdu i a.
Proof. intros. unfold mmul, dxdu. rewrite Sig_sum. reflexivity. Qed.
Lemma mmul3_d2 : forall nen X D i a b, mmul3 nen X D i a b = d2xdu2 nen X D i a b.
Proof. intros. unfold mmul3, d2xdu2. rewrite Sig_sum. reflexivity. Qed.

Lemma det_determinant : forall d J, dim123 d -> det d d J = determinant d J.
Proof.
  intros d J [-> |[-> | ->]]; unfold det; cbn [Nat.eqb Nat.leb andb determinant]; ring.
Qed.

Lemma inverse_regular : forall d J, dim123 d -> regular d J ->
  inverse d d epsZ J = (determinant d J, invEntries d J (determinant d J)).
Proof.
  intros d J D [A B]. unfold inverse. rewrite det_determinant by assumption.
  destruct (Req_EM_T _ _); [contradiction|].
  destruct (Rle_dec _ _) as [E|]; [|reflexivity].
  destruct (Rle_dec _ _) as [F|]; [|reflexivity].
  exfalso. unfold epsZ in *. revert A. unfold Rabs. destruct (Rcase_abs _); lra.
Qed.

Lemma inverse_singular : forall d J, dim123 d -> Rabs (determinant d J) <= / 1000000000000 ->
  inverse d d epsZ J = (0, J).
Proof.
  intros d J D A. unfold inverse, epsZ. rewrite det_determinant by assumption.
  assert (B : - / 1000000000000 <= determinant d J <= / 1000000000000).
  { revert A. unfold Rabs. destruct (Rcase_abs _); lra. }
  destruct (Req_EM_T _ _) as [E|]; [rewrite E in B; lra|].
  destruct (Rle_dec _ _); [|lra]. destruct (Rle_dec _ _); [reflexivity|lra].
Qed.

Lemma regular_nz : forall d J, regular d J -> determinant d J <> 0.
Proof. intros d J [A _] E. rewrite E, Rabs_R0 in A. lra. Qed.

Lemma within1 : forall i, within 1 i -> i = 1%nat.
Proof. unfold within. lia. Qed.
Lemma within2 : forall i, within 2 i -> i = 1%nat \/ i = 2%nat.
Proof. unfold within. lia. Qed.
Lemma within3 : forall i, within 3 i -> i = 1%nat \/ i = 2%nat \/ i = 3%nat.
Proof. unfold within. lia. Qed.

Lemma invEntries_inverse : forall d J, dim123 d -> determinant d J <> 0 ->
  is_inverse d J (invEntries d J (determinant d J)).
Proof.
  intros d J D N i j Hi Hj. rewrite !Sig_sum.
  destruct D as [-> |[-> | ->]].
  - apply within1 in Hi, Hj. subst. cbn in N |- *. unfold delta. cbn. split; field; assumption.
  - apply within2 in Hi, Hj. cbn in N.
    destruct Hi as [-> | ->], Hj as [-> | ->]; cbn; split; field; intro E; apply N; lra.
  - apply within3 in Hi, Hj. cbn in N.
    destruct Hi as [-> | [-> | ->]], Hj as [-> | [-> | ->]]; cbn; split; field; intro E; apply N; lra.
Qed.

Lemma inv_sum1 : forall d A B i j, is_inverse d A B -> within d i -> within d j ->
  sum d (fun k => A i k * B k j) = delta i j.
Proof. intros d A B i j H Hi Hj. rewrite <- Sig_sum. apply (H i j Hi Hj). Qed.
Lemma inv_sum2 : forall d A B i j, is_inverse d A B -> within d i -> within d j ->
  sum d (fun k => B i k * A k j) = delta i j.
Proof. intros d A B i j H Hi Hj. rewrite <- Sig_sum. apply (H i j Hi Hj). Qed.

(** The inverse only looks at the entries. *)
Lemma determinant_ext : forall d A B, dim123 d ->
  (forall i j, A i j = B i j) -> determinant d A = determinant d B.
Proof.
  intros d A B [-> |[-> | ->]] E; cbn; rewrite ?E; reflexivity.
Qed.

(** dNdX = dNdu * J^-1. *)
Lemma chain1_mul : forall d nen J Ji dNdu, is_inverse d J Ji ->
  chain1 d nen J dNdu (mmul d dNdu Ji).
Proof.
  intros d nen J Ji dNdu I n a Hn Ha. rewrite Sig_sum. unfold mmul.
  rewrite (sum_ext d _ (fun i => sum d (fun k => dNdu n k * Ji k i * J i a)))
    by (intros; rewrite <- sum_scalr; reflexivity).
  rewrite sum_swap.
  rewrite (sum_ext d _ (fun k => dNdu n k * delta k a)).
  - symmetry. apply sum_delta. assumption.
  - intros k Hk. rewrite <- (inv_sum2 d J Ji k a I Hk Ha), <- sum_scal.
    apply sum_ext. intros. ring.
Qed.

Lemma chain1_unique : forall d nen J Ji dNdu G, is_inverse d J Ji -> chain1 d nen J dNdu G ->
  forall n j, within nen n -> within d j -> G n j = mmul d dNdu Ji n j.
Proof.
  intros d nen J Ji dNdu G I C n j Hn Hj. unfold mmul.
  rewrite (sum_ext d _ (fun k => sum d (fun i => G n i * (J i k * Ji k j)))).
  - rewrite sum_swap. rewrite (sum_ext d _ (fun i => G n i * delta i j)).
    + symmetry. apply sum_delta. assumption.
    + intros i Hi. rewrite <- (inv_sum1 d J Ji i j I Hi Hj), <- sum_scal. reflexivity.
  - intros k Hk. rewrite (C n k Hn Hk), Sig_sum, <- sum_scalr. apply sum_ext. intros. ring.
Qed.

Lemma linear1 : forall d nen X dNdu Ji, is_inverse d (dxdu nen X dNdu) Ji ->
  forall i j, within d i -> within d j ->
  sum nen (fun n => X i n * mmul d dNdu Ji n j) = delta i j.
Proof.
  intros d nen X dNdu Ji I i j Hi Hj. unfold mmul.
  rewrite (sum_ext nen _ (fun n => sum d (fun k => X i n * dNdu n k * Ji k j)))
    by (intros; rewrite <- sum_scal; apply sum_ext; intros; ring).
  rewrite sum_swap, <- (inv_sum1 d _ Ji i j I Hi Hj). apply sum_ext. intros k _.
  rewrite <- mmul_dxdu. unfold mmul. rewrite <- sum_scalr. reflexivity.
Qed.

Lemma dim_square : forall d, dim123 d ->
  ((d =? 1)%nat && (1 <? d)%nat = false) /\ ((d =? 2)%nat && (2 <? d)%nat = false).
Proof. intros d [-> |[-> | ->]]; split; reflexivity. Qed.

Lemma Jacobian_square : forall d nen X dNdu g old, dim123 d ->
  Jacobian d d nen X dNdu g old
  = let (detJ, Ji) := inverse d d epsZ (mmul nen X dNdu) in
    mkJ detJ Ji (if g then if Req_EM_T detJ 0 then None else Some (mmul d dNdu Ji) else old).
Proof.
  intros. unfold Jacobian. destruct (dim_square d H) as [-> ->]. reflexivity.
Qed.

Lemma regular_ext : forall d A B, dim123 d -> (forall i j, A i j = B i j) ->
  regular d A -> regular d B.
Proof.
  intros d A B D E [P Q]. unfold regular. rewrite <- (determinant_ext d A B D E). split; assumption.
Qed.

Lemma is_inverse_ext : forall d A A' B, (forall i j, A i j = A' i j) ->
  is_inverse d A B -> is_inverse d A' B.
Proof.
  intros d A A' B E I i j Hi Hj. destruct (I i j Hi Hj) as [P Q].
  split.
  - rewrite <- P. apply Sig_ext. intros. rewrite E. reflexivity.
  - rewrite <- Q. apply Sig_ext. intros. rewrite E. reflexivity.
Qed.

(** The outcome of a regular point. *)
Lemma Jacobian_regular : forall d nen X dNdu old, dim123 d -> regular d (dxdu nen X dNdu) ->
  exists Ji, is_inverse d (dxdu nen X dNdu) Ji /\
    Jacobian d d nen X dNdu true old
    = mkJ (determinant d (dxdu nen X dNdu)) Ji (Some (mmul d dNdu Ji)).
Proof.
  intros d nen X dNdu old D R.
  assert (R' : regular d (mmul nen X dNdu)).
  { apply (regular_ext d (dxdu nen X dNdu)); [assumption | | assumption].
    intros. symmetry. apply mmul_dxdu. }
  exists (invEntries d (mmul nen X dNdu) (determinant d (mmul nen X dNdu))). split.
  - apply (is_inverse_ext d (mmul nen X dNdu)); [apply mmul_dxdu |].
    apply invEntries_inverse; [assumption | apply regular_nz; assumption].
  - rewrite Jacobian_square, inverse_regular by assumption.
    rewrite (determinant_ext d (dxdu nen X dNdu) (mmul nen X dNdu)) by
      (try assumption; intros; symmetry; apply mmul_dxdu).
    destruct (Req_EM_T _ _) as [E|]; [|reflexivity].
    destruct (regular_nz _ _ R' E).
Qed.

Lemma Jacobian_singular : forall d nen X dNdu old, dim123 d ->
  Rabs (determinant d (dxdu nen X dNdu)) <= / 1000000000000 ->
  exists J, Jacobian d d nen X dNdu true old = mkJ 0 J None.
Proof.
  intros d nen X dNdu old D A.
  rewrite (determinant_ext d _ (mmul nen X dNdu)) in A by
    (try assumption; intros; symmetry; apply mmul_dxdu).
  exists (mmul nen X dNdu). rewrite Jacobian_square, inverse_singular by assumption.
  destruct (Req_EM_T 0 0); [reflexivity|lra].
Qed.

(** Second derivatives. *)
Section Second.
Variables (d nen : nat) (J Ji : mat).
Hypothesis I : is_inverse d J Ji.

Definition pull (T : mat) : mat := fun i j =>
  sum d (fun a => sum d (fun b => T a b * (Ji a i * Ji b j))).

Lemma pull_sym : forall T, (forall a b, within d a -> within d b -> T a b = T b a) ->
  forall i j, pull T i j = pull T j i.
Proof.
  intros T S i j. unfold pull. rewrite sum_swap. apply sum_ext. intros b Hb.
  apply sum_ext. intros a Ha. rewrite (S a b Ha Hb). ring.
Qed.

Lemma push_pull : forall T a b, within d a -> within d b ->
  sum d (fun i => sum d (fun j => pull T i j * (J i a * J j b))) = T a b.
Proof.
  intros T a b Ha Hb. unfold pull.
  transitivity (sum d (fun c => sum d (fun e => T c e *
     (sum d (fun i => Ji c i * J i a) * sum d (fun j => Ji e j * J j b))))).
  - transitivity (sum d (fun i => sum d (fun j => sum d (fun c => sum d (fun e =>
      T c e * (Ji c i * J i a) * (Ji e j * J j b)))))).
    + apply sum_ext; intros i _. apply sum_ext; intros j _.
      rewrite <- sum_scalr. apply sum_ext; intros c _. rewrite <- sum_scalr.
      apply sum_ext; intros e _. ring.
    + transitivity (sum d (fun c => sum d (fun i => sum d (fun e => sum d (fun j =>
        T c e * (Ji c i * J i a) * (Ji e j * J j b)))))).
      * rewrite (sum_swap d d (fun c i => sum d (fun e => sum d (fun j =>
          T c e * (Ji c i * J i a) * (Ji e j * J j b))))).
        apply sum_ext; intros i _.
        rewrite (sum_swap d d (fun j c => sum d (fun e =>
          T c e * (Ji c i * J i a) * (Ji e j * J j b)))).
        apply sum_ext; intros c _. apply sum_swap.
      * apply sum_ext; intros c _.
        rewrite sum_swap. apply sum_ext; intros e _.
        transitivity (sum d (fun i => T c e * (Ji c i * J i a) * sum d (fun j => Ji e j * J j b))).
        { apply sum_ext; intros i _. rewrite <- sum_scal. apply sum_ext; intros j _. ring. }
        rewrite sum_scalr, sum_scal. ring.
  - transitivity (sum d (fun c => sum d (fun e => T c e * (delta c a * delta e b)))).
    + apply sum_ext; intros c Hc. apply sum_ext; intros e He.
      rewrite (inv_sum2 d J Ji c a I Hc Ha), (inv_sum2 d J Ji e b I He Hb). reflexivity.
    + transitivity (sum d (fun c => T c b * delta c a)).
      * apply sum_ext; intros c Hc.
        rewrite (sum_ext d _ (fun e => (T c e * delta c a) * delta e b)) by (intros; ring).
        apply (sum_delta d (fun e => T c e * delta c a)). assumption.
      * apply (sum_delta d (fun c => T c b)). assumption.
Qed.

Lemma pull_zero : forall T, (forall a b, within d a -> within d b -> T a b = 0) ->
  forall i j, pull T i j = 0.
Proof.
  intros T Z i j. unfold pull. rewrite (sum_ext d _ (fun _ => 0)); [apply sum_zero|].
  intros a Ha. rewrite (sum_ext d _ (fun _ => 0)); [apply sum_zero|].
  intros b Hb. rewrite (Z a b Ha Hb). ring.
Qed.

Lemma pull_ext : forall T U, (forall a b, within d a -> within d b -> T a b = U a b) ->
  forall i j, pull T i j = pull U i j.
Proof.
  intros T U E i j. unfold pull. apply sum_ext; intros a Ha. apply sum_ext; intros b Hb.
  rewrite (E a b Ha Hb). reflexivity.
Qed.
End Second.

(** The inverse of the transposed problem. *)
Lemma is_inverse_sym : forall d A B, is_inverse d A B -> is_inverse d B A.
Proof. intros d A B I i j Hi Hj. destruct (I i j Hi Hj). split; assumption. Qed.

Definition rest2 (d : nat) (H : mat3) (D : mat3) (G : mat) (n : nat) : mat :=
  fun a b => D n a b - sum d (fun k => G n k * H k a b).

Lemma hess_pull : forall d nen H Ji D G, symmetric2 d nen D ->
  (forall k a b, within d a -> within d b -> H k a b = H k b a) ->
  forall n i j, within nen n ->
  hess d H Ji D G n i j = pull d Ji (rest2 d H D G n) i j.
Proof.
  intros d nen H Ji D G SD SH n i j Hn.
  assert (E : forall p q, sum d (fun i3 => sum d (fun i4 =>
      D n i3 i4 * (Ji i3 p * Ji i4 q)
      - sum d (fun i6 => G n i6 * H i6 i3 i4 * (Ji i3 p * Ji i4 q))))
      = pull d Ji (rest2 d H D G n) p q).
  { intros. unfold pull, rest2. apply sum_ext; intros a _. apply sum_ext; intros b _.
    rewrite sum_scalr. ring. }
  unfold hess. rewrite E.
  destruct (Nat.le_ge_cases i j) as [L|L].
  - rewrite Nat.max_r, Nat.min_l by assumption. apply pull_sym.
    intros a b Ha Hb. unfold rest2. rewrite (SD n a b Hn Ha Hb). f_equal.
    apply sum_ext. intros. rewrite (SH i0 a b Ha Hb). reflexivity.
  - rewrite Nat.max_l, Nat.min_r by assumption. reflexivity.
Qed.

Lemma H_symmetric : forall d nen X D, symmetric2 d nen D ->
  forall k a b, within d a -> within d b -> mmul3 nen X D k a b = mmul3 nen X D k b a.
Proof.
  intros d nen X D S k a b Ha Hb. unfold mmul3. apply sum_ext. intros n Hn.
  rewrite (S n a b Hn Ha Hb). reflexivity.
Qed.

Lemma chain2_hess : forall d nen X J Ji D G, is_inverse d J Ji -> symmetric2 d nen D ->
  chain2 d nen J (d2xdu2 nen X D) D G (hess d (mmul3 nen X D) Ji D G).
Proof.
  intros d nen X J Ji D G I S n a b Hn Ha Hb. rewrite !Sig_sum.
  rewrite (sum_ext d _ (fun i => sum d (fun j =>
    pull d Ji (rest2 d (mmul3 nen X D) D G n) i j * (J i a * J j b)))).
  - rewrite (push_pull d J Ji I _ a b Ha Hb). unfold rest2.
    rewrite (sum_ext d (fun i => G n i * d2xdu2 nen X D i a b)
       (fun k => G n k * mmul3 nen X D k a b)) by (intros; rewrite mmul3_d2; reflexivity).
    ring.
  - intros i _. rewrite Sig_sum. apply sum_ext. intros j _.
    rewrite (hess_pull d nen) by (try assumption; apply H_symmetric; assumption). reflexivity.
Qed.

Lemma chain2_unique : forall d nen J Ji H D G A B, is_inverse d J Ji ->
  chain2 d nen J H D G A -> chain2 d nen J H D G B ->
  forall n i j, within nen n -> within d i -> within d j -> A n i j = B n i j.
Proof.
  intros d nen J Ji H D G A B I CA CB n i j Hn Hi Hj.
  set (T := fun p q => A n p q - B n p q).
  assert (Z : forall a b, within d a -> within d b ->
    sum d (fun p => sum d (fun q => T p q * (J p a * J q b))) = 0).
  { intros a b Ha Hb. pose proof (CA n a b Hn Ha Hb) as P. pose proof (CB n a b Hn Ha Hb) as Q.
    rewrite Sig_sum in P, Q. rewrite !Sig_sum in *. rewrite P in Q.
    transitivity (sum d (fun p => sum d (fun q => A n p q * (J p a * J q b)))
                - sum d (fun p => sum d (fun q => B n p q * (J p a * J q b)))).
    - rewrite <- sum_minus. apply sum_ext; intros p _. rewrite <- sum_minus.
      apply sum_ext; intros q _. unfold T. ring.
    - assert (EA : sum d (fun p => sum d (fun q => A n p q * (J p a * J q b)))
        = sum d (fun p => Sig d (fun q => A n p q * (J p a * J q b))))
        by (apply sum_ext; intros; rewrite Sig_sum; reflexivity).
      assert (EB : sum d (fun p => sum d (fun q => B n p q * (J p a * J q b)))
        = sum d (fun p => Sig d (fun q => B n p q * (J p a * J q b))))
        by (apply sum_ext; intros; rewrite Sig_sum; reflexivity).
      rewrite EA, EB. lra. }
  pose proof (push_pull d Ji J (is_inverse_sym d J Ji I) T i j Hi Hj) as P.
  rewrite (sum_ext d _ (fun _ => 0)) in P.
  - rewrite sum_zero in P. unfold T in P. lra.
  - intros a Ha. rewrite (sum_ext d _ (fun _ => 0)); [apply sum_zero|].
    intros b Hb. unfold pull. rewrite (Z a b Ha Hb). ring.
Qed.

(** Linear functions have no second derivatives. *)
Lemma linear2 : forall d nen X D Ji G, symmetric2 d nen D ->
  (forall i j, within d i -> within d j -> sum nen (fun n => X i n * G n j) = delta i j) ->
  forall k i j, within d k ->
  sum nen (fun n => X k n * hess d (mmul3 nen X D) Ji D G n i j) = 0.
Proof.
  intros d nen X D Ji G S L k i j Hk.
  rewrite (sum_ext nen _ (fun n => X k n * pull d Ji (rest2 d (mmul3 nen X D) D G n) i j)).
  2:{ intros n Hn. rewrite (hess_pull d nen) by (try assumption; apply H_symmetric; assumption). reflexivity. }
  unfold pull.
  rewrite (sum_ext nen _ (fun n => sum d (fun a => sum d (fun b =>
    X k n * rest2 d (mmul3 nen X D) D G n a b * (Ji a i * Ji b j))))).
  2:{ intros n _. rewrite <- sum_scal. apply sum_ext; intros a _. rewrite <- sum_scal.
      apply sum_ext; intros b _. ring. }
  rewrite sum_swap. rewrite (sum_ext d _ (fun _ => 0)); [apply sum_zero|].
  intros a Ha. rewrite sum_swap. rewrite (sum_ext d _ (fun _ => 0)); [apply sum_zero|].
  intros b Hb. rewrite sum_scalr.
  assert (Z : sum nen (fun n => X k n * rest2 d (mmul3 nen X D) D G n a b) = 0).
  { unfold rest2.
    rewrite (sum_ext nen _ (fun n => X k n * D n a b -
      sum d (fun m => X k n * G n m * mmul3 nen X D m a b))).
    2:{ intros n _. rewrite Rmult_minus_distr_l, <- sum_scal. f_equal.
        apply sum_ext; intros; ring. }
    rewrite sum_minus, (sum_swap nen d).
    rewrite (sum_ext d _ (fun m => mmul3 nen X D m a b * delta k m)).
    - rewrite sum_delta_r by assumption. unfold mmul3. ring.
    - intros m Hm. rewrite <- (L k m Hk Hm), sum_scalr. ring. }
  rewrite Z. ring.
Qed.
