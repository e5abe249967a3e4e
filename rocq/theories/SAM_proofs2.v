(** Proofs about SAM: expansion, assembly (C06-C09, diagonal matrix). *)
From Coq Require Import List Arith ZArith QArith Qcanon Bool Lia.
Require Import ZifyBool ZifyNat.
From Verif Require Import Base SAM_model SAM_spec SAM_proofs.
Import ListNotations.
Local Open Scope Z_scope.

Lemma c0_eq s m : c0 s m = if m <? 0 then coff s (ceqno m) else 0%Qc.
Proof. reflexivity. Qed.
Lemma masterTerms_eq s i : masterTerms s i = map (fun k => (mm s k, cc s k)) (seq (cbeg s i) (cend s i - cbeg s i)).
Proof. reflexivity. Qed.
Lemma Tcoef_eq s m r : Tcoef s m r = if 0 <? m then b2q (m =? r)
  else if m <? 0 then
    qs (fun p : Z * Qc => if (0 <? fst p) && (eqnOf s (fst p) =? r) then snd p else 0)%Qc (masterTerms s (ceqno m))
  else 0%Qc.
Proof. reflexivity. Qed.
Lemma coff_eq s i : coff s i = offset s i.
Proof. reflexivity. Qed.
Lemma qs_masters s i (f : Z -> Qc -> Qc) :
  qs (fun p => f (fst p) (snd p)) (masters s i) =
  qs (fun p => if 0 <? fst p then f (eqnOf s (fst p)) (snd p) else 0%Qc) (masterTerms s i).
Proof.
  rewrite masterTerms_eq. unfold masters. change (eqn s) with (eqnOf s).
  rewrite qs_flat_map, qs_map. apply qs_ext. intros k _. cbn [fst snd].
  destruct (0 <? mm s k); [|reflexivity]. unfold qs; simpl. ring.
Qed.
Lemma in_masters s i q c : In (q, c) (masters s i) <->
  exists j, In (j, c) (masterTerms s i) /\ 0 < j /\ q = eqnOf s j.
Proof.
  rewrite masterTerms_eq. unfold masters. change (eqn s) with (eqnOf s).
  rewrite in_flat_map. split.
  - intros (k&Hk&H). destruct (0 <? mm s k) eqn:E; [|destruct H]. destruct H as [[= <- <-]|[]].
    exists (mm s k). split; [apply in_map_iff; eauto|]. split; [lia|reflexivity].
  - intros (j&H&Hj&->). apply in_map_iff in H. destruct H as (k&[= <- <-]&Hk). exists k. split; [exact Hk|].
    destruct (0 <? mm s k) eqn:E; [left; reflexivity|lia].
Qed.

Lemma masters_range s i q c : consistent s -> (1 <= i <= nceq s)%nat -> In (q, c) (masters s i) ->
  1 <= q <= Z.of_nat (neq s).
Proof.
  intros (_&C&_) Hi H. apply in_masters in H. destruct H as (j&H&_&->). destruct (C i Hi) as (_&_&_&M).
  apply (M j c H).
Qed.

(** the expansion of one DOF as an affine form *)
Lemma expandDof_neg s scale x m : consistent s -> - Z.of_nat (nceq s) <= m < 0 ->
  expandDof s scale x m =
  (scale * coff s (ceqno m) + qs (fun p => snd p * nth (Z.to_nat (fst p - 1)) x 0) (masters s (ceqno m)))%Qc.
Proof.
  intros C Hm. unfold expandDof. destruct (0 <? m) eqn:E; [lia|]. destruct (m <? 0) eqn:E'; [|lia].
  rewrite <- fold_left_plus.
  assert (G : forall l a, (forall p, In p l -> 1 <= fst p <= Z.of_nat (neq s)) ->
     fold_left (fun v p => if (0 <? fst p) && (fst p <=? Z.of_nat (neq s))
                          then (v + snd p * nth (Z.to_nat (fst p - 1)) x 0)%Qc else v) l a =
     fold_left (fun s0 p => (s0 + snd p * nth (Z.to_nat (fst p - 1)) x 0)%Qc) l a).
  { induction l as [|p l IH]; intros a H; cbn [fold_left]; [reflexivity|].
    pose proof (H p (or_introl eq_refl)).
    destruct ((0 <? fst p) && (fst p <=? Z.of_nat (neq s))) eqn:E1; [|lia].
    apply IH. intros q Hq. apply H. right; exact Hq. }
  apply G. intros [q c] Hq. cbn [fst]. eapply masters_range; eauto. unfold ceqno. lia.
Qed.

Lemma nth_map_Qc {A} (f : A -> Qc) l d k : (k < length l)%nat -> nth k (map f l) 0%Qc = f (nth k l d).
Proof. intros H. rewrite (nth_indep _ 0%Qc (f d)) by (rewrite map_length; exact H). apply map_nth. Qed.

Lemma expand_spec s scale x v : consistent s -> length x = neq s ->
  expandVector s scale x = Some v ->
  length v = ndof s /\
  forall d, (d < ndof s)%nat ->
    (0 < nth d (meqn s) 0 -> nth d v 0%Qc = nth (Z.to_nat (nth d (meqn s) 0 - 1)) x 0%Qc) /\
    (nth d (meqn s) 0 = 0 -> nth d v 0%Qc = 0%Qc) /\
    (forall i, nth d (meqn s) 0 = - Z.of_nat i -> (0 < i)%nat ->
       nth d v 0%Qc = (scale * coff s i +
         qs (fun p : Z * Qc => snd p * nth (Z.to_nat (fst p - 1)) v 0) (masterTerms s i))%Qc).
Proof.
  intros C Hx H. unfold expandVector in H. destruct (length x <? neq s)%nat; [discriminate|].
  injection H as <-. pose proof C as (L&CM&CR&_). split; [rewrite map_length; exact L|].
  intros d Hd. rewrite (nth_map_Qc _ _ 0) by lia. repeat split.
  - intros H. unfold expandDof. destruct (0 <? nth d (meqn s) 0) eqn:E; [reflexivity|lia].
  - intros H. unfold expandDof. rewrite H. reflexivity.
  - intros i Hi Hpos. specialize (CR d Hd). rewrite expandDof_neg by (auto; lia).
    assert (Ec : ceqno (nth d (meqn s) 0) = i) by (unfold ceqno; lia). rewrite Ec. f_equal.
    rewrite (qs_masters s i (fun q c => c * nth (Z.to_nat (q - 1)) x 0)%Qc).
    apply qs_ext. intros [j c] Hj. cbn [fst snd].
    destruct (CM i ltac:(lia)) as (_&_&_&M). destruct (M j c Hj) as [R1 R2].
    destruct (0 <? j) eqn:E; [|lia]. f_equal. unfold eqnOf in *.
    rewrite (nth_map_Qc _ _ 0) by lia. unfold expandDof.
    destruct (0 <? nth (Z.to_nat (j - 1)) (meqn s) 0) eqn:E2; [reflexivity|lia].
Qed.

(** ** getSolVec *)
Lemma solLoop_len meq : forall v x, length (solLoop meq v x) = length x.
Proof. induction meq as [|m q IH]; intros [|a v] x; simpl; auto. rewrite IH. destruct (0 <? m); [apply upd_length|reflexivity]. Qed.
Lemma vresizeQ_len n l : length (vresizeQ n l) = n.
Proof. unfold vresizeQ. rewrite app_length, firstn_length, repeat_length. lia. Qed.

Lemma solLoop_nth meq : forall v x k, length v = length meq -> (k < length x)%nat ->
  (exists d, (d < length meq)%nat /\ nth d meq 0 = Z.of_nat (S k) /\
     nth k (solLoop meq v x) 0%Qc = nth d v 0%Qc) \/
  ((forall d, (d < length meq)%nat -> nth d meq 0 <> Z.of_nat (S k)) /\
   nth k (solLoop meq v x) 0%Qc = nth k x 0%Qc).
Proof.
  induction meq as [|m q IH]; intros [|a v] x k Hl Hk; cbn [length] in Hl; try lia; cbn [solLoop].
  - right. split; [cbn [length]; lia|reflexivity].
  - assert (Hk' : (k < length (if (0 <? m)%Z then upd (Z.to_nat (m-1)%Z) a x else x))%nat)
      by (destruct (0 <? m); rewrite ?upd_length; exact Hk).
    destruct (IH v _ k ltac:(lia) Hk') as [(d&D1&D2&D3)|[D1 D2]].
    + left. exists (S d). cbn [length nth]. repeat split; auto; lia.
    + destruct (Z.eq_dec m (Z.of_nat (S k))) as [E|E].
      * left. exists 0%nat. cbn [length nth]. repeat split; try lia. rewrite D2.
        destruct (0 <? m) eqn:Em; [|lia]. replace (Z.to_nat (m-1)) with k by lia. apply upd_nth_same. exact Hk.
      * right. split.
        -- intros [|d] Hd; cbn [nth]; [exact E|]. apply D1. cbn [length] in Hd. lia.
        -- rewrite D2. destruct (0 <? m) eqn:Em; [|reflexivity]. apply upd_nth_other. lia.
Qed.

Lemma getSolVec_spec s old v : consistent s -> length v = ndof s ->
  length (getSolVec s old v) = neq s /\
  forall d, (d < ndof s)%nat -> 0 < nth d (meqn s) 0 ->
    nth (Z.to_nat (nth d (meqn s) 0 - 1)) (getSolVec s old v) 0%Qc = nth d v 0%Qc.
Proof.
  intros (L&_&CR&CB) Hv. unfold getSolVec. split; [rewrite solLoop_len; apply vresizeQ_len|].
  intros d Hd Hp. specialize (CR d Hd).
  destruct (solLoop_nth (meqn s) v (vresizeQ (neq s) old) (Z.to_nat (nth d (meqn s) 0 - 1)))
    as [(d'&D1&D2&D3)|[D1 D2]].
  - lia.
  - rewrite vresizeQ_len. lia.
  - rewrite D3. f_equal. destruct (CB (nth d (meqn s) 0) ltac:(lia)) as (d0&_&_&U).
    rewrite (U d Hd eq_refl). apply U; [lia|]. lia.
  - exfalso. apply (D1 d); lia.
Qed.

Lemma solve_expand s scale x v old : consistent s -> length x = neq s ->
  expandVector s scale x = Some v -> getSolVec s old v = x.
Proof.
  intros C Hx E. destruct (expand_spec s scale x v C Hx E) as [Lv Ev].
  destruct (getSolVec_spec s old v C Lv) as [Lg Hg].
  apply nth_ext with (d := 0%Qc) (d' := 0%Qc); [lia|]. intros k Hk.
  destruct C as (L&_&_&CB). destruct (CB (Z.of_nat (S k)) ltac:(lia)) as (d&D1&D2&_).
  specialize (Hg d D1 ltac:(lia)). rewrite D2 in Hg. replace (Z.to_nat (Z.of_nat (S k) - 1)) with k in Hg by lia.
  rewrite Hg. destruct (Ev d D1) as (P&_&_). rewrite P by lia. rewrite D2. f_equal. lia.
Qed.

(** ** Right-hand side: adjointness *)
Lemma dot_cons a b x y : dot (a :: x) (b :: y) = (a * b + dot x y)%Qc. Proof. reflexivity. Qed.
Lemma dot_nil_r x : dot x [] = 0%Qc. Proof. unfold dot. destruct x; reflexivity. Qed.
Lemma dot_upd k v : forall x l, (k < length l)%nat -> (k < length x)%nat ->
  dot x (upd k v l) = (dot x l + nth k x 0 * (v - nth k l 0))%Qc.
Proof.
  induction k as [|k IH]; intros [|a x] [|b l] H1 H2; cbn [length] in *; try lia; cbn [upd nth]; rewrite !dot_cons.
  - ring.
  - rewrite IH by lia. ring.
Qed.
Lemma dot_addAt k v x l : (k < length l)%nat -> length x = length l ->
  dot x (addAt k v l) = (dot x l + v * nth k x 0)%Qc.
Proof. intros H1 H2. unfold addAt. rewrite dot_upd by lia. ring. Qed.
Lemma addAt_length k v l : length (addAt k v l) = length l. Proof. apply upd_length. Qed.

Lemma assembleRHS_len s rhs v m : length (assembleRHS s rhs v m) = length rhs.
Proof.
  unfold assembleRHS. destruct (0 <? m); [apply addAt_length|]. destruct (m <? 0); [|reflexivity].
  generalize (masters s (ceqno m)) as l. intros l. revert rhs.
  induction l as [|p l IH]; intros rhs; cbn [fold_left]; [reflexivity|]. rewrite IH. apply addAt_length.
Qed.
Lemma assembleRHS_dot s rhs v m x : consistent s -> length rhs = neq s -> length x = neq s ->
  - Z.of_nat (nceq s) <= m <= Z.of_nat (neq s) ->
  dot x (assembleRHS s rhs v m) = (dot x rhs + v * expandDof s 0 x m)%Qc.
Proof.
  intros C Hr Hx Hm. destruct (Z_lt_le_dec m 0) as [Hneg|Hnn].
  - rewrite expandDof_neg by (auto; lia). unfold assembleRHS.
    destruct (0 <? m) eqn:E; [lia|]. destruct (m <? 0) eqn:E'; [|lia].
    assert (R : forall p, In p (masters s (ceqno m)) -> 1 <= fst p <= Z.of_nat (neq s)).
    { intros [q c] Hq. eapply masters_range; eauto. unfold ceqno; lia. }
    revert R. generalize (masters s (ceqno m)) as l. intros l.
    assert (G : (forall p, In p l -> 1 <= fst p <= Z.of_nat (neq s)) -> forall r, length r = neq s ->
       dot x (fold_left (fun r p => addAt (Z.to_nat (fst p - 1)) (snd p * v)%Qc r) l r) =
       (dot x r + v * qs (fun p => snd p * nth (Z.to_nat (fst p - 1)) x 0) l)%Qc).
    { induction l as [|p l IH]; intros R r Lr; cbn [fold_left]; [rewrite qs_nil; ring|].
      pose proof (R p (or_introl eq_refl)).
      rewrite IH; [|intros q Hq; apply R; right; exact Hq|rewrite addAt_length; exact Lr].
      rewrite dot_addAt by lia. rewrite qs_cons. ring. }
    intros R. rewrite (G R rhs Hr). ring.
  - unfold assembleRHS, expandDof. destruct (0 <? m) eqn:E.
    + rewrite dot_addAt by lia. ring.
    + destruct (m <? 0) eqn:E'; [lia|]. ring.
Qed.

Lemma addToRHS_len s rhs S : length (addToRHS s rhs S) = length rhs.
Proof.
  unfold addToRHS. generalize (meqn s) as meq. intros meq. revert rhs S.
  induction meq as [|m q IH]; intros rhs [|a S]; cbn [addToRHSloop]; auto.
  rewrite IH. apply assembleRHS_len.
Qed.

Lemma addToRHS_adjoint s rhs S x : consistent s -> length rhs = neq s -> length x = neq s ->
  dot x (addToRHS s rhs S) = (dot x rhs + dot (map (expandDof s 0 x) (meqn s)) S)%Qc.
Proof.
  intros C Hr Hx. unfold addToRHS.
  assert (R : forall m, In m (meqn s) -> - Z.of_nat (nceq s) <= m <= Z.of_nat (neq s)).
  { intros m Hm. apply (In_nth _ _ 0) in Hm. destruct Hm as (d&Hd&<-). destruct C as (L&_&CR&_). apply CR. lia. }
  revert R S rhs Hr. generalize (meqn s) as meq.
  induction meq as [|m q IH]; intros R [|a S] rhs Hr; cbn [addToRHSloop map]; rewrite ?dot_nil_r; try (unfold dot; simpl; ring).
  rewrite IH; [|intros m' Hm'; apply R; right; exact Hm'|rewrite assembleRHS_len; exact Hr].
  rewrite assembleRHS_dot by (auto; apply R; left; reflexivity). rewrite dot_cons. ring.
Qed.

(** ** T *)
Lemma Tcoef_expand s m x : consistent s -> length x = neq s ->
  - Z.of_nat (nceq s) <= m <= Z.of_nat (neq s) ->
  expandDof s 0 x m = qs (fun r => Tcoef s m (Z.of_nat (S r)) * nth r x 0)%Qc (seq 0 (neq s)).
Proof.
  intros C Hx Hm.
  assert (Pick : forall q, 1 <= q <= Z.of_nat (neq s) ->
     qs (fun r => b2q (q =? Z.of_nat (S r)) * nth r x 0)%Qc (seq 0 (neq s)) = nth (Z.to_nat (q-1)) x 0%Qc).
  { intros q Hq. rewrite (qs_single _ _ (Z.to_nat (q-1))).
    - destruct (q =? Z.of_nat (S (Z.to_nat (q-1)))) eqn:E; [unfold b2q; ring|lia].
    - apply seq_NoDup.
    - apply in_seq. lia.
    - intros r Hr Hn. destruct (q =? Z.of_nat (S r)) eqn:E; [lia|unfold b2q; ring]. }
  destruct (Z_lt_le_dec m 0) as [Hneg|Hnn].
  - rewrite expandDof_neg by (auto; lia).
    rewrite (qs_masters s (ceqno m) (fun q c => c * nth (Z.to_nat (q - 1)) x 0)%Qc).
    transitivity (qs (fun r => qs (fun p : Z * Qc => (if (0 <? fst p) && (eqnOf s (fst p) =? Z.of_nat (S r)) then snd p else 0) * nth r x 0)%Qc
              (masterTerms s (ceqno m))) (seq 0 (neq s))).
    + rewrite qs_swap.
      transitivity (qs (fun p => if 0 <? fst p then (snd p * nth (Z.to_nat (eqnOf s (fst p) - 1)) x 0)%Qc else 0%Qc) (masterTerms s (ceqno m))); [rewrite Qcmult_0_l, Qcplus_0_l; reflexivity|].
      apply qs_ext. intros [j c] Hj. cbn [fst snd].
      destruct C as (_&CM&_). destruct (CM (ceqno m) ltac:(unfold ceqno; lia)) as (_&_&_&M). destruct (M j c Hj) as [R1 R2].
      destruct (0 <? j) eqn:E; [|lia]. rewrite <- (Pick (eqnOf s j) R2), <- qs_scal. apply qs_ext. intros r _.
      rewrite andb_true_l. destruct (eqnOf s j =? Z.of_nat (S r)); unfold b2q; ring.
    + apply qs_ext. intros r _. rewrite qs_scal_r. f_equal. unfold Tcoef.
      destruct (0 <? m) eqn:E; [lia|]. destruct (m <? 0) eqn:E'; [|lia]. reflexivity.
  - unfold expandDof. destruct (0 <? m) eqn:E.
    + rewrite <- Pick by lia. apply qs_ext. intros r _. unfold Tcoef. rewrite E. reflexivity.
    + destruct (m <? 0) eqn:E'; [lia|]. symmetry. apply qs_zero. intros r _. unfold Tcoef. rewrite E, E'. ring.
Qed.

(** ** assemSparse *)
Definition F (m r : Z) : Qc := if 0 <? m then b2q (m =? r) else 0%Qc.
Definition Cc (s : tables) (m r : Z) : Qc :=
  if m <? 0 then qs (fun p => if fst p =? r then snd p else 0%Qc) (masters s (ceqno m)) else 0%Qc.
Lemma T_split s m r : Tcoef s m r = (F m r + Cc s m r)%Qc.
Proof.
  unfold Tcoef, F, Cc. destruct (0 <? m) eqn:E.
  - destruct (m <? 0) eqn:E'; [lia|]. ring.
  - destruct (m <? 0); [|ring]. rewrite (qs_masters s (ceqno m) (fun q c => if q =? r then c else 0%Qc)).
    rewrite Qcplus_0_l. apply qs_ext. intros [j c] _. cbn [fst snd]. destruct (0 <? j); reflexivity.
Qed.

Lemma entry_app r c a b : entry r c (a ++ b) = (entry r c a + entry r c b)%Qc. Proof. apply qs_app. Qed.
Lemma entry_cons r c u l : entry r c (u :: l) =
  ((if (fst (fst u) =? r) && (snd (fst u) =? c) then snd u else 0) + entry r c l)%Qc.
Proof. reflexivity. Qed.
Lemma entry_nil r c : entry r c [] = 0%Qc. Proof. reflexivity. Qed.
Lemma entry_flat_map {A} r c (g : A -> list (Z*Z*Qc)) l : entry r c (flat_map g l) = qs (fun x => entry r c (g x)) l.
Proof. apply qs_flat_map. Qed.
Lemma and_b2q (a b : bool) v : (if a && b then v else 0)%Qc = (b2q a * b2q b * v)%Qc.
Proof. destruct a, b; unfold b2q; simpl; ring. Qed.

(** triangular sum *)
Lemma tri_sum (a : nat -> nat -> Qc) n :
  qs (fun j => a j j + qs (fun i => a i j + a j i) (seq 0 j))%Qc (seq 0 n) = qs2 n a.
Proof.
  unfold qs2. induction n as [|n IH]; [reflexivity|].
  rewrite seq_S. cbn [Nat.add]. rewrite !qs_app, IH. rewrite !qs_cons, !qs_nil.
  rewrite (qs_ext (fun i => qs (a i) (seq 0 n ++ [n])) (fun i => qs (a i) (seq 0 n) + a i n)%Qc).
  2:{ intros i _. rewrite qs_app, qs_cons, qs_nil. ring. }
  rewrite !qs_plus, qs_app, qs_cons, qs_nil. ring.
Qed.

Lemma entry_free K meen r c :
  entry r c (freeUpd K meen) = qs2 (length meen) (fun i j => F (me meen i) r * K i j * F (me meen j) c)%Qc.
Proof.
  rewrite <- tri_sum. unfold freeUpd. rewrite entry_flat_map. apply qs_ext. intros j _.
  destruct (me meen j <? 1) eqn:Ej.
  - rewrite entry_nil. unfold F at 1 2. destruct (0 <? me meen j) eqn:E; [lia|].
    rewrite (qs_zero _ (seq 0 j)); [ring|]. intros i _. unfold F at 2 3. rewrite E. ring.
  - assert (E : (0 <? me meen j) = true) by lia.
    rewrite entry_cons. cbn [fst snd]. rewrite and_b2q. f_equal.
    + unfold F. rewrite E. ring.
    + rewrite entry_flat_map. apply qs_ext. intros i _.
      destruct (me meen i <? 1) eqn:Ei.
      * rewrite entry_nil. unfold F. destruct (0 <? me meen i) eqn:E2; [lia|]. ring.
      * assert (E2 : (0 <? me meen i) = true) by lia.
        rewrite !entry_cons, entry_nil. cbn [fst snd]. rewrite !and_b2q. unfold F. rewrite E, E2. ring.
Qed.

Lemma entry_cons_upd s K meen r c :
  entry r c (consUpd s K meen) = qs2 (length meen) (fun j i =>
     F (me meen i) r * K i j * Cc s (me meen j) c + Cc s (me meen j) r * K j i * F (me meen i) c
     + Cc s (me meen i) r * K i j * Cc s (me meen j) c)%Qc.
Proof.
  unfold consUpd, qs2. rewrite entry_flat_map. apply qs_ext. intros j _.
  destruct (- me meen j <? 1) eqn:Ej.
  - rewrite entry_nil. symmetry. apply qs_zero. intros i _. unfold Cc.
    destruct (me meen j <? 0) eqn:E; [lia|]. ring.
  - assert (E : (me meen j <? 0) = true) by lia.
    rewrite entry_flat_map.
    rewrite (qs_ext _ (fun jp => qs (fun i =>
        F (me meen i) r * K i j * (if fst jp =? c then snd jp else 0)
      + (if fst jp =? r then snd jp else 0) * K j i * F (me meen i) c
      + Cc s (me meen i) r * K i j * (if fst jp =? c then snd jp else 0))%Qc (seq 0 (length meen)))).
    + rewrite qs_swap. apply qs_ext. intros i _. rewrite !qs_plus.
      unfold Cc at 2 3 5. rewrite E.
      rewrite !qs_scal. f_equal. f_equal.
      rewrite (qs_ext _ (fun x => (if fst x =? r then snd x else 0) * (K j i * F (me meen i) c))%Qc) by (intros; ring).
      rewrite qs_scal_r. ring.
    + intros [q t] _. cbn [fst snd]. rewrite entry_flat_map. apply qs_ext. intros i _.
      destruct (0 <? me meen i) eqn:Ei.
      * rewrite !entry_cons, entry_nil. cbn [fst snd]. rewrite !and_b2q. unfold F, Cc. rewrite Ei.
        destruct (me meen i <? 0) eqn:E2; [lia|].
        destruct (q =? c), (q =? r); unfold b2q; ring.
      * unfold F. rewrite Ei. destruct (me meen i <? 0) eqn:E2.
        -- unfold Cc. rewrite E2. unfold entry. rewrite qs_map. cbn [fst snd].
           rewrite (qs_ext _ (fun x => (if fst x =? r then snd x else 0) * (K i j * (if q =? c then t else 0)))%Qc).
           ++ rewrite qs_scal_r. ring.
           ++ intros [q' t'] _. cbn [fst snd]. rewrite and_b2q. destruct (q' =? r), (q =? c); unfold b2q; ring.
        -- rewrite entry_nil. unfold Cc. rewrite E2. ring.
Qed.

Lemma qs2_plus n f g : qs2 n (fun i j => f i j + g i j)%Qc = (qs2 n f + qs2 n g)%Qc.
Proof.
  unfold qs2. rewrite <- qs_plus. apply qs_ext. intros i _. apply qs_plus.
Qed.
Lemma qs2_swap n f : qs2 n (fun i j => f j i) = qs2 n f.
Proof. unfold qs2. rewrite qs_swap. reflexivity. Qed.
Lemma qs2_ext n f g : (forall i j, (i < n)%nat -> (j < n)%nat -> f i j = g i j) -> qs2 n f = qs2 n g.
Proof.
  intros H. unfold qs2. apply qs_ext. intros i Hi. apply qs_ext. intros j Hj.
  apply in_seq in Hi. apply in_seq in Hj. apply H; lia.
Qed.

Lemma assemSparse_entry s K meen r c :
  entry r c (fst (assemSparse s K meen)) =
  qs2 (length meen) (fun i j => Tcoef s (me meen i) r * K i j * Tcoef s (me meen j) c)%Qc.
Proof.
  unfold assemSparse; cbn [fst]. rewrite entry_app, entry_free, entry_cons_upd.
  rewrite !qs2_plus.
  rewrite <- (qs2_swap _ (fun j i => F (me meen i) r * K i j * Cc s (me meen j) c)%Qc).
  rewrite <- (qs2_swap _ (fun j i => Cc s (me meen i) r * K i j * Cc s (me meen j) c)%Qc).
  cbv beta. rewrite <- !qs2_plus. apply qs2_ext. intros i j _ _. rewrite !T_split. ring.
Qed.

Lemma assemSparse_rhs s K meen r :
  entryV r (snd (assemSparse s K meen)) =
  (- qs2 (length meen) (fun i j => Tcoef s (me meen i) r * K i j * c0 s (me meen j)))%Qc.
Proof.
  rewrite <- qs2_swap. unfold assemSparse, consRHS, qs2, entryV; cbn [snd].
  rewrite <- qs_opp, qs_flat_map. apply qs_ext. intros j _.
  destruct (- me meen j <? 1) eqn:Ej.
  - rewrite qs_nil. symmetry. rewrite (qs_zero _ (seq 0 (length meen))); [ring|].
    intros i _. rewrite !c0_eq. destruct (me meen j <? 0) eqn:E; [lia|]. ring.
  - assert (E : (me meen j <? 0) = true) by lia. rewrite qs_flat_map, <- qs_opp. apply qs_ext. intros i _.
    rewrite !c0_eq. rewrite E. rewrite T_split. unfold F, Cc.
    destruct (0 <? me meen i) eqn:Ei.
    + rewrite qs_cons, qs_nil. cbn [fst snd]. destruct (me meen i <? 0) eqn:E2; [lia|].
      destruct (me meen i =? r); unfold b2q; ring.
    + destruct (me meen i <? 0) eqn:E2; [|rewrite qs_nil; ring].
      rewrite qs_map. cbn [fst snd].
      rewrite (qs_ext _ (fun x => (if fst x =? r then snd x else 0) * (- (coff s (ceqno (me meen j)) * K i j)))%Qc).
      * rewrite qs_scal_r. ring.
      * intros [q t] _. cbn [fst snd]. destruct (q =? r); ring.
Qed.
