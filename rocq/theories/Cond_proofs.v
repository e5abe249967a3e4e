(** Proofs for the static condensation: linear algebra and index sets. *)
From Coq Require Import List Arith ZArith QArith Qcanon Bool Lia Permutation Sorted.
From Verif Require Import Base SAM_model SAM_spec Sparse_model Sparse_spec Sparse_proofs Sparse_proofs7 Mat_model Mat_spec Cond_model Cond_spec.
Import ListNotations.
Local Open Scope nat_scope.

Lemma sumTo_ext n f g : (forall i, i < n -> f i = g i) -> sumTo n f = sumTo n g.
Proof. intros H. apply qs_ext. intros x Hx. apply in_seq in Hx. apply H. lia. Qed.
Lemma sumTo_plus n f g : sumTo n (fun i => f i + g i)%Qc = (sumTo n f + sumTo n g)%Qc.
Proof. apply qs_plus. Qed.
Lemma sumTo_scal n c f : sumTo n (fun i => c * f i)%Qc = (c * sumTo n f)%Qc.
Proof. apply qs_scal. Qed.
Lemma sumTo_scal_r n c f : sumTo n (fun i => f i * c)%Qc = (sumTo n f * c)%Qc.
Proof. apply qs_scal_r. Qed.
Lemma sumTo_swap n m f : sumTo n (fun i => sumTo m (f i)) = sumTo m (fun j => sumTo n (fun i => f i j)).
Proof. apply qs_swap. Qed.
Lemma sumTo_S n f : sumTo (S n) f = (f 0%nat + sumTo n (fun i => f (S i)))%Qc.
Proof. unfold sumTo. cbn [seq]. rewrite qs_cons. rewrite <- seq_shift, qs_map. reflexivity. Qed.

(** ** Schur complement *)
Section Schur.
Variables (n1 n2 : nat) (A11 A12 A21 A22 Y : nat -> nat -> Qc) (R1 R2 y : nat -> Qc).
Hypothesis Hy : forall i, i < n1 -> sumTo n1 (fun k => A11 i k * y k)%Qc = R1 i.
Hypothesis HY : forall j, j < n2 -> forall i, i < n1 -> sumTo n1 (fun k => A11 i k * Y k j)%Qc = A12 i j.
Hypothesis Uy : forall z, (forall i, i < n1 -> sumTo n1 (fun k => A11 i k * z k)%Qc = R1 i) -> forall k, k < n1 -> z k = y k.

Lemma A11_Y i (x2 : nat -> Qc) : i < n1 -> sumTo n1 (fun k => A11 i k * sumTo n2 (fun j => Y k j * x2 j))%Qc = sumTo n2 (fun j => A12 i j * x2 j)%Qc.
Proof.
  intros Hi. transitivity (sumTo n2 (fun j => sumTo n1 (fun k => A11 i k * Y k j * x2 j)%Qc)).
  - rewrite <- sumTo_swap. apply sumTo_ext. intros k _. rewrite <- sumTo_scal. apply sumTo_ext. intros j _. ring.
  - apply sumTo_ext. intros j Hj. rewrite sumTo_scal_r, HY by assumption. reflexivity.
Qed.
Lemma A21_Y i (x2 : nat -> Qc) : sumTo n1 (fun k => A21 i k * sumTo n2 (fun j => Y k j * x2 j))%Qc = sumTo n2 (fun j => sumTo n1 (fun k => A21 i k * Y k j)%Qc * x2 j)%Qc.
Proof.
  transitivity (sumTo n2 (fun j => sumTo n1 (fun k => A21 i k * Y k j * x2 j)%Qc)).
  - rewrite <- sumTo_swap. apply sumTo_ext. intros k _. rewrite <- sumTo_scal. apply sumTo_ext. intros j _. ring.
  - apply sumTo_ext. intros j Hj. rewrite sumTo_scal_r. reflexivity.
Qed.
Lemma schur (x1 x2 : nat -> Qc) :
  ((forall i, i < n1 -> (sumTo n1 (fun k => A11 i k * x1 k) + sumTo n2 (fun j => A12 i j * x2 j))%Qc = R1 i) /\
   (forall i, i < n2 -> (sumTo n1 (fun k => A21 i k * x1 k) + sumTo n2 (fun j => A22 i j * x2 j))%Qc = R2 i)) <->
  ((forall i, i < n2 -> sumTo n2 (fun j => (A22 i j - sumTo n1 (fun k => A21 i k * Y k j)) * x2 j)%Qc = (R2 i - sumTo n1 (fun k => A21 i k * y k))%Qc) /\
   (forall k, k < n1 -> x1 k = (y k - sumTo n2 (fun j => Y k j * x2 j))%Qc)).
Proof.
  assert (Red : forall i, sumTo n2 (fun j => (A22 i j - sumTo n1 (fun k => A21 i k * Y k j)) * x2 j)%Qc =
                (sumTo n2 (fun j => A22 i j * x2 j) - sumTo n1 (fun k => A21 i k * sumTo n2 (fun j => Y k j * x2 j)))%Qc).
  { intros i. rewrite A21_Y. rewrite (sumTo_ext n2 _ (fun j => A22 i j * x2 j + (- (1)) * (sumTo n1 (fun k => A21 i k * Y k j) * x2 j))%Qc) by (intros; ring).
    rewrite sumTo_plus, sumTo_scal. ring. }
  assert (Sub : (forall k, k < n1 -> x1 k = (y k - sumTo n2 (fun j => Y k j * x2 j))%Qc) -> forall (B : nat -> nat -> Qc) (i : nat),
     sumTo n1 (fun k => B i k * x1 k)%Qc = (sumTo n1 (fun k => B i k * y k) - sumTo n1 (fun k => B i k * sumTo n2 (fun j => Y k j * x2 j)))%Qc).
  { intros H B i. rewrite (sumTo_ext n1 _ (fun k => B i k * y k + (- (1)) * (B i k * sumTo n2 (fun j => Y k j * x2 j)))%Qc) by (intros k Hk; rewrite H by exact Hk; ring).
    rewrite sumTo_plus, sumTo_scal. ring. }
  split.
  - intros [H1 H2]. assert (X1 : forall k, k < n1 -> x1 k = (y k - sumTo n2 (fun j => Y k j * x2 j))%Qc).
    { intros k Hk. rewrite <- (Uy (fun k => x1 k + sumTo n2 (fun j => Y k j * x2 j))%Qc); [ring| |exact Hk].
      intros i Hi. rewrite <- H1 by exact Hi. rewrite <- (A11_Y i x2 Hi), <- sumTo_plus. apply sumTo_ext. intros; ring. }
    split; [|exact X1]. intros i Hi. rewrite Red. rewrite <- H2 by exact Hi. rewrite (Sub X1 A21). ring.
  - intros [H2 X1]. split.
    + intros i Hi. rewrite (Sub X1 A11), Hy, (A11_Y i x2 Hi) by exact Hi. ring.
    + intros i Hi. specialize (H2 i Hi). rewrite Red in H2. rewrite (Sub X1 A21).
      assert (Z : forall a b c d : Qc, (a - b)%Qc = (c - d)%Qc -> (d - b + a)%Qc = c) by (intros a b c d H; rewrite <- (Qcplus_0_r c), <- (Qcplus_opp_r d); transitivity (c - d + d)%Qc; [rewrite <- H|]; ring).
      apply Z. exact H2.
Qed.
End Schur.

(** ** The two index sets *)
Definition E1 (l : list Z) (n : nat) : list nat := filter (fun e => negb (existsb (Z.eqb (Z.of_nat e)) l)) (seq 1 n).
Definition E2 (l : list Z) (n : nat) : list nat := filter (isB2 l) (seq 1 n).
Lemma cntLe_filter n l e : increasing n l -> cntLe l e = length (filter (isB2 l) (seq 1 e)).
Proof.
  intros Hi. induction e as [|e IH]; [apply (cntLe_0 n l Hi)|]. rewrite seq_S, filter_app, app_length, <- IH, cntLe_S by apply Hi. cbn. destruct (isB2 l (S e)); reflexivity.
Qed.
Lemma filter_compl {X} (p : X -> bool) l : length (filter p l) + length (filter (fun x => negb (p x)) l) = length l.
Proof. induction l as [|x l IH]; [reflexivity|]. cbn. destruct (p x); cbn; lia. Qed.
Lemma filter_pos (p : nat -> bool) n e : 1 <= e <= n -> p e = true -> nth (length (filter p (seq 1 e)) - 1) (filter p (seq 1 n)) 0 = e /\ 1 <= length (filter p (seq 1 e)) <= length (filter p (seq 1 n)).
Proof.
  intros He Hp. replace n with (e + (n - e)) by lia. rewrite seq_app, filter_app.
  assert (Hs : filter p (seq 1 e) = filter p (seq 1 (e - 1)) ++ [e]). { replace e with (S (e - 1)) at 1 by lia. rewrite seq_S, filter_app. cbn. replace (S (e - 1)) with e by lia. rewrite Hp. reflexivity. }
  rewrite Hs, !app_length. cbn [length]. split; [|lia]. rewrite <- app_assoc. rewrite app_nth2 by lia. replace (_ - _) with 0 by lia. reflexivity.
Qed.
Lemma filter_idx (p : nat -> bool) n i : i < length (filter p (seq 1 n)) -> let e := nth i (filter p (seq 1 n)) 0 in 1 <= e <= n /\ p e = true /\ length (filter p (seq 1 e)) = S i.
Proof.
  intros Hi e. assert (Hin : In e (filter p (seq 1 n))) by (apply nth_In; exact Hi). apply filter_In in Hin. destruct Hin as [H1 H2]. apply in_seq in H1.
  assert (H3 : 1 <= e <= n) by lia. split; [exact H3|]. split; [exact H2|]. destruct (filter_pos p n e H3 H2) as [Q1 Q2].
  assert (length (filter p (seq 1 e)) - 1 = i); [|lia]. apply (proj1 (NoDup_nth (filter p (seq 1 n)) 0) (NoDup_filter p (seq_NoDup n 1))); [lia|exact Hi|rewrite Q1; reflexivity].
Qed.
Lemma E2_len n l : increasing n l -> length (E2 l n) = length l.
Proof. intros H. unfold E2. rewrite <- (cntLe_filter n l n H). apply cntLe_n, H. Qed.
Lemma E1_len n l : increasing n l -> length (E1 l n) = n - length l.
Proof. intros H. pose proof (filter_compl (isB2 l) (seq 1 n)) as F. rewrite seq_length in F. pose proof (E2_len n l H). unfold E1, E2, isB2 in *. lia. Qed.
Lemma E2_idx n l j : increasing n l -> j < length l -> let e := nth j (E2 l n) 0 in 1 <= e <= n /\ isB2 l e = true /\ idx l e = S j.
Proof.
  intros H Hj e. rewrite <- (E2_len n l H) in Hj. destruct (filter_idx (isB2 l) n j Hj) as (Q1 & Q2 & Q3). fold (E2 l n) in Q1, Q2, Q3. fold e in Q1, Q2, Q3.
  split; [exact Q1|]. split; [exact Q2|]. unfold idx. rewrite Q2. change (cntLe l e = S j). rewrite (cntLe_filter n l e H). exact Q3.
Qed.
Lemma E1_idx n l i : increasing n l -> i < n - length l -> let e := nth i (E1 l n) 0 in 1 <= e <= n /\ isB2 l e = false /\ idx l e = S i.
Proof.
  intros H Hi e. rewrite <- (E1_len n l H) in Hi. destruct (filter_idx _ n i Hi) as (Q1 & Q2 & Q3). fold (E1 l n) in Q1, Q2, Q3. fold e in Q1, Q2, Q3.
  apply negb_true_iff in Q2. split; [exact Q1|]. split; [exact Q2|]. unfold idx. unfold isB2 at 1. rewrite Q2. unfold pos1. change (pos2 l e) with (cntLe l e). rewrite (cntLe_filter n l e H).
  pose proof (filter_compl (isB2 l) (seq 1 e)) as F. rewrite seq_length in F. unfold isB2 in *. lia.
Qed.
Lemma qs_nth (f : nat -> Qc) (l : list nat) : qs f l = sumTo (length l) (fun i => f (nth i l 0)).
Proof. induction l as [|x l IH]; [reflexivity|]. rewrite qs_cons. cbn [length]. rewrite sumTo_S. cbn [nth]. rewrite IH. reflexivity. Qed.
Lemma qs_parts (f : nat -> Qc) l n : qs f (seq 1 n) = (sumTo (length (E1 l n)) (fun i => f (nth i (E1 l n) 0%nat)) + sumTo (length (E2 l n)) (fun j => f (nth j (E2 l n) 0%nat)))%Qc.
Proof.
  rewrite <- !qs_nth. unfold E1, E2. generalize (seq 1 n). intros s. induction s as [|x s IH]; [cbn; ring|]. cbn [filter]. change (existsb (Z.eqb (Z.of_nat x)) l) with (isB2 l x). rewrite qs_cons, IH.
  destruct (isB2 l x); cbn [negb]; rewrite qs_cons; ring.
Qed.
(** the retained equations in order *)
Lemma E2_list n l : increasing n l -> E2 l n = map Z.to_nat l.
Proof.
  intros [Hs Hf]. assert (H : forall b l, StronglySorted Z.lt l -> Forall (fun m => Z.of_nat b < m <= Z.of_nat (b + n))%Z l -> filter (isB2 l) (seq (S b) n) = map Z.to_nat l).
  { clear. induction n as [|n IH]; intros b l Hs Hf.
    - destruct l as [|m l]; [reflexivity|]. inversion Hf; subst. lia.
    - cbn [seq filter]. destruct l as [|m l].
      + exact (IH (S b) [] (SSorted_nil _) (Forall_nil _)).
      + inversion Hs as [|? ? Hs' Hm]; subst. inversion Hf as [|? ? H1 H2]; subst. destruct (isB2 (m :: l) (S b)) eqn:Eb.
        * assert (m = Z.of_nat (S b)). { unfold isB2 in Eb. cbn [existsb] in Eb. apply orb_true_iff in Eb. destruct Eb as [Eb|Eb]; [apply Z.eqb_eq in Eb; lia|]. apply existsb_exists in Eb. destruct Eb as (k & Hk & Ek). apply Z.eqb_eq in Ek. subst k. rewrite Forall_forall in Hm. specialize (Hm _ Hk). lia. }
          subst m. cbn [map]. rewrite Nat2Z.id. f_equal. rewrite <- (IH (S b) l); [|exact Hs'|].
          -- apply filter_ext_in. intros a Ha. apply in_seq in Ha. unfold isB2. cbn [existsb]. destruct (Z.eqb_spec (Z.of_nat a) (Z.of_nat (S b))); [lia|reflexivity].
          -- rewrite Forall_forall in *. intros x Hx. specialize (Hm x Hx). specialize (H2 x Hx). lia.
        * apply IH; [exact Hs|]. assert (m <> Z.of_nat (S b)). { intros ->. unfold isB2 in Eb. cbn [existsb] in Eb. rewrite (proj2 (Z.eqb_eq _ _) eq_refl) in Eb. discriminate. }
          constructor; [lia|]. rewrite Forall_forall in *. intros x Hx. specialize (Hm x Hx). specialize (H2 x Hx). lia. }
  apply (H 0); [exact Hs|]. eapply Forall_impl; [|exact Hf]. intros a Ha. cbn beta in *. replace (0 + n) with n by reflexivity. lia.
Qed.
