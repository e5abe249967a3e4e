(** Proofs for the static condensation: retained equations, vector parts. *)
From Coq Require Import List Arith ZArith QArith Qcanon Bool Lia Permutation Sorted.
From Verif Require Import Base SAM_model SAM_spec Sparse_model Sparse_spec Sparse_proofs Sparse_proofs7 Mat_model Mat_spec Cond_model Cond_spec Cond_proofs.
Import ListNotations.
Local Open Scope nat_scope.

(** ** Sorting *)
Lemma insertZ_perm x l : Permutation (x :: l) (insertZ x l).
Proof. induction l as [|y l IH]; cbn; [reflexivity|]. destruct (x <=? y)%Z; [reflexivity|]. rewrite perm_swap. constructor. exact IH. Qed.
Lemma sortZ_perm l : Permutation l (sortZ l).
Proof. induction l as [|x l IH]; cbn; [reflexivity|]. rewrite <- insertZ_perm. constructor. exact IH. Qed.
Lemma insertZ_sorted x l : StronglySorted Z.le l -> StronglySorted Z.le (insertZ x l).
Proof.
  induction l as [|y l IH]; intros H; cbn; [repeat constructor|]. inversion H as [|? ? H1 H2]; subst. destruct (Z.leb_spec x y).
  - constructor; [exact H|]. constructor; [assumption|]. eapply Forall_impl; [|exact H2]. intros; lia.
  - constructor; [apply IH, H1|]. rewrite <- insertZ_perm. constructor; [lia|exact H2].
Qed.
Lemma sortZ_sorted l : StronglySorted Z.le (sortZ l).
Proof. induction l as [|x l IH]; cbn; [constructor|]. apply insertZ_sorted, IH. Qed.
Lemma sorted_unique l : forall l', StronglySorted Z.le l -> StronglySorted Z.le l' -> Permutation l l' -> l = l'.
Proof.
  induction l as [|x l IH]; intros l' H H' P.
  - apply Permutation_nil in P. congruence.
  - destruct l' as [|y l']; [apply Permutation_sym, Permutation_nil in P; discriminate|]. inversion H as [|? ? H1 H2]; subst. inversion H' as [|? ? H1' H2']; subst.
    assert (x = y).
    { assert (Iy : In y (x :: l)) by (apply (Permutation_in _ (Permutation_sym P)); left; reflexivity). assert (Ix : In x (y :: l')) by (apply (Permutation_in _ P); left; reflexivity).
      rewrite Forall_forall in H2, H2'. destruct Iy as [->|Iy]; [reflexivity|]. destruct Ix as [->|Ix]; [reflexivity|]. specialize (H2 _ Iy). specialize (H2' _ Ix). lia. }
    subst y. f_equal. apply IH; [exact H1|exact H1'|]. eapply Permutation_cons_inv. exact P.
Qed.
Lemma sortZ_lt l l0 : StronglySorted Z.lt l -> Permutation l l0 -> sortZ l0 = l.
Proof.
  intros H P. apply sorted_unique; [apply sortZ_sorted| |rewrite <- sortZ_perm; symmetry; exact P].
  clear P. induction H as [|x l H1 IH H2]; constructor; [exact IH|]. eapply Forall_impl; [|exact H2]. intros; lia.
Qed.

Lemma firstn_skipn_map {X} (d : X) (l : list X) : forall a n, a + n <= length l -> firstn n (skipn a l) = map (fun k => nth k l d) (seq a n).
Proof.
  induction l as [|x l IH]; intros a n H; cbn in H.
  - destruct n; [|lia]. destruct a; reflexivity.
  - destruct a as [|a].
    + destruct n as [|n]; [reflexivity|]. cbn. f_equal. rewrite <- (seq_shift n 0), map_map. specialize (IH 0 n). cbn [skipn] in IH. rewrite IH by lia. reflexivity.
    + cbn. rewrite IH by lia. rewrite <- (seq_shift n a), map_map. reflexivity.
Qed.
Lemma nodesEqns_ok s ext : length (meqn s) = ndof s -> nodesOK s ext -> nodesEqns s ext = Some (flat_map (fun i => dofEqs s (Z.to_nat i)) ext).
Proof.
  intros L. induction ext as [|i ext IH]; intros H; [reflexivity|]. cbn [nodesEqns flat_map]. destruct (H i (or_introl eq_refl)) as (Hi & H1 & H2).
  unfold getNodeEqns. replace ((i <? 1)%Z || (Z.of_nat (nnod s) <? i)%Z) with false by lia. rewrite IH by (intros j Hj; apply H; right; exact Hj). f_equal. f_equal.
  rewrite (firstn_skipn_map 0%Z) by lia. unfold dofEqs. replace (nth (Z.to_nat i - 1) (madof s) 0) with (S (nth (Z.to_nat i - 1) (madof s) 0 - 1)) at 3 by lia.
  rewrite <- seq_shift, map_map. apply map_ext. intros a. f_equal. lia.
Qed.
Lemma retained_eqs s ext l : length (meqn s) = ndof s -> nodesOK s ext -> retained s ext l ->
  exists l0, nodesEqns s ext = Some l0 /\ sortZ l0 = l /\ existsb (fun e => (e <=? 0)%Z) l0 = false /\ length l0 = length l.
Proof.
  intros L N [[Hs Hf] P]. eexists. split; [apply nodesEqns_ok; assumption|]. split; [apply sortZ_lt; assumption|]. split; [|symmetry; apply Permutation_length, P].
  apply not_true_is_false. intros Hex. apply existsb_exists in Hex. destruct Hex as (e & He & Hl). apply (Permutation_in _ (Permutation_sym P)) in He. rewrite Forall_forall in Hf. specialize (Hf e He). lia.
Qed.

(** ** Parts of the vectors *)
Definition win (b k : nat) (l : list Z) : Prop := StronglySorted Z.lt l /\ Forall (fun m => Z.of_nat b < m <= Z.of_nat (b + k))%Z l.
Lemma win_step b k m l : win b (S k) (m :: l) -> isB2 (m :: l) (S b) = (m =? Z.of_nat (S b))%Z /\ (m <> Z.of_nat (S b) -> win (S b) k (m :: l)) /\ win (S b) k l /\
  (forall a, S b < a -> m = Z.of_nat (S b) -> isB2 (m :: l) a = isB2 l a).
Proof.
  intros [Hs Hf]. inversion Hs as [|? ? Hs' Hm]; subst. inversion Hf as [|? ? H1 H2]; subst. rewrite Forall_forall in Hm, H2. split; [|split; [|split]].
  - unfold isB2. cbn [existsb]. rewrite (Z.eqb_sym (Z.of_nat (S b))). destruct (m =? Z.of_nat (S b))%Z eqn:E; [reflexivity|]. apply not_true_is_false. intros Hex. apply existsb_exists in Hex. destruct Hex as (k' & Hk & Ek).
    apply Z.eqb_eq in Ek. subst k'. specialize (Hm _ Hk). apply Z.eqb_neq in E. lia.
  - intros Hne. split; [exact Hs|]. constructor; [lia|]. apply Forall_forall. intros x Hx. specialize (Hm x Hx). specialize (H2 x Hx). lia.
  - split; [exact Hs'|]. apply Forall_forall. intros x Hx. specialize (Hm x Hx). specialize (H2 x Hx). lia.
  - intros a Ha ->. unfold isB2. cbn [existsb]. destruct (Z.eqb_spec (Z.of_nat a) (Z.of_nat (S b))); [lia|reflexivity].
Qed.
Lemma partVec_ok R : forall k b l, win b k l -> b + k <= length R -> (k = 0 \/ In (Z.of_nat (b + k)) l) ->
  partVec (seq b k) l R = Some (map (fun e => nth (e - 1) R 0%Qc) (filter (fun e => negb (isB2 l e)) (seq (S b) k)), map (fun e => nth (e - 1) R 0%Qc) (filter (isB2 l) (seq (S b) k))).
Proof.
  induction k as [|k IH]; intros b l W HR HL; [reflexivity|]. destruct HL as [HL|HL]; [discriminate|]. cbn [seq partVec filter].
  destruct l as [|m l]; [destruct HL|]. destruct (win_step b k m l W) as (B & W1 & W2 & Q). rewrite (nth_error_nth' R 0%Qc) by lia.
  pose proof W as [_ Hf]. inversion Hf as [|? ? H1 H2]; subst. rewrite B. destruct (Z.eqb_spec m (Z.of_nat (S b))) as [Em|Em].
  - destruct (Z.ltb_spec (Z.of_nat b + 1) m) as [Hlt|Hlt]; [lia|]. cbn [negb]. rewrite IH; [|exact W2|lia|].
    + cbn [map]. replace (S b - 1) with b by lia. f_equal. f_equal; [|f_equal]; (f_equal; apply filter_ext_in; intros a Ha; apply in_seq in Ha; rewrite Q by (try exact Em; lia); reflexivity).
    + destruct k; [left; reflexivity|right]. replace (S b + S k) with (b + S (S k)) by lia. destruct HL as [HL|HL]; [lia|exact HL].
  - destruct (Z.ltb_spec (Z.of_nat b + 1) m) as [Hlt|Hlt]; [|lia]. cbn [negb]. rewrite IH; [|exact (W1 Em)|lia|].
    + cbn [map]. replace (S b - 1) with b by lia. reflexivity.
    + right. replace (S b + k) with (b + S k) by lia. exact HL.
Qed.
Lemma partVec_undef R : forall k b l, win b k l -> 0 < k -> ~ In (Z.of_nat (b + k)) l -> partVec (seq b k) l R = None.
Proof.
  induction k as [|k IH]; intros b l W Hk HL; [lia|]. cbn [seq partVec]. destruct l as [|m l]; [reflexivity|]. destruct (nth_error R b); [|reflexivity].
  destruct (win_step b k m l W) as (B & W1 & W2 & Q). destruct k as [|k].
  - exfalso. apply HL. left. pose proof W as [_ Hf]. inversion Hf; subst. lia.
  - pose proof W as [_ Hf]. inversion Hf as [|? ? H1 H2]; subst. destruct (Z.ltb_spec (Z.of_nat b + 1) m) as [Hlt|Hlt].
    + rewrite IH; [reflexivity|apply W1; lia|lia|]. replace (S b + S k) with (b + S (S k)) by lia. exact HL.
    + rewrite IH; [reflexivity|exact W2|lia|]. replace (S b + S k) with (b + S (S k)) by lia. intros H. apply HL. right. exact H.
Qed.
Lemma win_inc n l : increasing n l -> win 0 n l.
Proof. intros [Hs Hf]. split; [exact Hs|]. eapply Forall_impl; [|exact Hf]. intros a Ha. cbn beta in *. replace (0 + n) with n by reflexivity. lia. Qed.
Lemma parts_ok n l R : increasing n l -> In (Z.of_nat n) l -> length R = n ->
  partVec (seq 0 n) l R = Some (map (fun e => nth (e - 1) R 0%Qc) (E1 l n), map (fun e => nth (e - 1) R 0%Qc) (E2 l n)).
Proof. intros H HL HR. apply (partVec_ok R n 0 l (win_inc n l H)); [lia|]. right. exact HL. Qed.

(** the other way *)
Lemma joinVec_ok : forall k b l x1 x2, win b k l -> (k = 0 \/ In (Z.of_nat (b + k)) l) -> length x1 = length (filter (fun e => negb (isB2 l e)) (seq (S b) k)) -> length x2 = length (filter (isB2 l) (seq (S b) k)) ->
  exists x, joinVec (seq b k) l x1 x2 = Some x /\ length x = k /\ map (fun e => nth (e - S b) x 0%Qc) (filter (fun e => negb (isB2 l e)) (seq (S b) k)) = x1 /\
     map (fun e => nth (e - S b) x 0%Qc) (filter (isB2 l) (seq (S b) k)) = x2.
Proof.
  induction k as [|k IH]; intros b l x1 x2 W HL L1 L2.
  - exists []. cbn in L1, L2. destruct x1, x2; try discriminate. repeat split.
  - destruct HL as [HL|HL]; [discriminate|]. cbn [seq joinVec filter] in *. destruct l as [|m l]; [destruct HL|]. destruct (win_step b k m l W) as (B & W1 & W2 & Q).
    assert (Sh : forall (p : nat -> bool) v x, map (fun e => nth (e - S b) (v :: x) 0%Qc) (filter p (seq (S (S b)) k)) = map (fun e => nth (e - S (S b)) x 0%Qc) (filter p (seq (S (S b)) k))).
    { intros p v x. apply map_ext_in. intros e He. apply filter_In in He. destruct He as [He _]. apply in_seq in He. replace (e - S b) with (S (e - S (S b))) by lia. reflexivity. }
    pose proof W as [_ Hf]. inversion Hf as [|? ? H1 H2]; subst. rewrite B in *. destruct (Z.eqb_spec m (Z.of_nat (S b))) as [Em|Em].
    + destruct (Z.ltb_spec (Z.of_nat b + 1) m) as [Hlt|Hlt]; [lia|]. cbn [negb length] in *.
      assert (F1 : filter (fun e => negb (isB2 (m :: l) e)) (seq (S (S b)) k) = filter (fun e => negb (isB2 l e)) (seq (S (S b)) k)) by (apply filter_ext_in; intros a Ha; apply in_seq in Ha; rewrite Q by (try exact Em; lia); reflexivity).
      assert (F2 : filter (isB2 (m :: l)) (seq (S (S b)) k) = filter (isB2 l) (seq (S (S b)) k)) by (apply filter_ext_in; intros a Ha; apply in_seq in Ha; rewrite Q by (try exact Em; lia); reflexivity).
      rewrite F1, F2 in *. destruct x2 as [|v x2]; [discriminate|]. injection L2 as L2. destruct (IH (S b) l x1 x2 W2) as (x & Ex & Lx & M1 & M2); [|exact L1|exact L2|].
      * destruct k; [left; reflexivity|right]. replace (S b + S k) with (b + S (S k)) by lia. destruct HL as [HL|HL]; [lia|exact HL].
      * rewrite Ex. exists (v :: x). split; [reflexivity|]. split; [cbn; lia|]. split; [rewrite Sh; exact M1|]. cbn [map]. rewrite Sh, Nat.sub_diag. cbn [nth]. f_equal. exact M2.
    + destruct (Z.ltb_spec (Z.of_nat b + 1) m) as [Hlt|Hlt]; [|lia]. cbn [negb length] in *. destruct x1 as [|v x1]; [discriminate|]. injection L1 as L1.
      destruct (IH (S b) (m :: l) x1 x2 (W1 Em)) as (x & Ex & Lx & M1 & M2); [|exact L1|exact L2|].
      * right. replace (S b + k) with (b + S k) by lia. exact HL.
      * rewrite Ex. exists (v :: x). split; [reflexivity|]. split; [cbn; lia|]. split; [cbn [map]; rewrite Sh, Nat.sub_diag; cbn [nth]; f_equal; exact M1|rewrite Sh; exact M2].
Qed.
