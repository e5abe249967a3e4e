(** Proofs about the array utilities and parsing. *)
From Coq Require Import List Sorted Arith ZArith QArith Qcanon Bool Lia Ascii.
From Verif Require Import Base QcLra Mat_model Mat_proofs Vec_model Vec_spec Vec_proofs.
Import ListNotations.
Local Open Scope Z_scope.

(** ** find_closest *)
Lemma lowerBound_ok a v : (forall i j, (i <= j < length a)%nat -> (nth i a 0 <= nth j a 0)%Qc) -> forall fuel first len,
  (len <= fuel)%nat -> (first + len <= length a)%nat ->
  (forall j, (j < first)%nat -> (nth j a 0 < v)%Qc) -> (forall j, (first + len <= j < length a)%nat -> (v <= nth j a 0)%Qc) ->
  let r := lowerBound fuel a v first len in (r <= length a)%nat /\ (forall j, (j < r)%nat -> (nth j a 0 < v)%Qc) /\ (forall j, (r <= j < length a)%nat -> (v <= nth j a 0)%Qc).
Proof.
  intros S. induction fuel as [|f IH]; intros first len HF HL A B; cbn [lowerBound].
  - cbv zeta. split; [lia|]. split; [exact A|]. intros j Hj. apply B. lia.
  - destruct (Nat.eqb_spec len 0) as [->|N]; [cbv zeta; split; [lia|]; split; [exact A|]; intros j Hj; apply B; lia|].
    pose proof (Nat.div_lt len 2 ltac:(lia) ltac:(lia)) as HD. set (h := (len / 2)%nat) in *.
    pose proof (qltb_spec (nth (first + h) a 0%Qc) v) as Q. destruct (qltb (nth (first + h) a 0%Qc) v).
    + apply IH; [lia|lia| |].
      * intros j Hj. eapply Qcle_lt_trans; [apply (S j (first + h)%nat); lia|exact Q].
      * intros j Hj. apply B. lia.
    + apply IH; [lia|lia|exact A|]. intros j Hj. eapply Qcle_trans; [exact Q|apply S; lia].
Qed.
Lemma qabs_cases (x : Qc) : (0 <= x /\ qabs x = x \/ x <= 0 /\ qabs x = - x)%Qc.
Proof. unfold qabs. pose proof (qltb_spec x 0) as Q. destruct (qltb x 0); [right; split; [apply Qclt_le_weak, Q|reflexivity]|left; auto]. Qed.
Lemma find_closest_ok a v : a <> [] -> (forall i j, (i <= j < length a)%nat -> (nth i a 0 <= nth j a 0)%Qc) ->
  (find_closest a v < length a)%nat /\ forall j, (j < length a)%nat -> (qabs (nth (find_closest a v) a 0 - v) <= qabs (nth j a 0 - v))%Qc.
Proof.
  intros NE S. assert (L0 : (1 <= length a)%nat) by (destruct a; [contradiction|cbn; lia]).
  destruct (lowerBound_ok a v S (length a) 0 (length a) ltac:(lia) ltac:(lia)) as (R & A & B); [intros; lia|intros; lia|]. cbv zeta in *.
  unfold find_closest. set (i := lowerBound (length a) a v 0 (length a)) in *. cbv zeta.
  assert (K : forall k, (k < length a)%nat -> ((k < i)%nat -> (i = k + 1)%nat /\ ((i < length a)%nat -> (v - nth k a 0 <= nth i a 0 - v)%Qc)) ->
             ((i <= k)%nat -> k = i /\ ((0 < i)%nat -> (nth i a 0 - v <= v - nth (i - 1) a 0)%Qc)) ->
             (k < length a)%nat /\ forall j, (j < length a)%nat -> (qabs (nth k a 0 - v) <= qabs (nth j a 0 - v))%Qc).
  { intros k Hk K1 K2. split; [exact Hk|]. intros j Hj. pose proof (qabs_cases (nth k a 0%Qc - v)) as QK. pose proof (qabs_cases (nth j a 0%Qc - v)) as QJ.
    destruct (Nat.lt_ge_cases k i) as [H|H].
    - destruct (K1 H) as [E1 E2]. pose proof (A k H) as A1. destruct (Nat.lt_ge_cases j i) as [HJ|HJ].
      + pose proof (S j k ltac:(lia)) as A2. pose proof (A j HJ) as A3. destruct QK as [[? ->]|[? ->]], QJ as [[? ->]|[? ->]]; qclra.
      + specialize (E2 ltac:(lia)). pose proof (S i j ltac:(lia)) as A2. pose proof (B j ltac:(lia)) as A3. destruct QK as [[? ->]|[? ->]], QJ as [[? ->]|[? ->]]; qclra.
    - destruct (K2 H) as [-> E2]. pose proof (B i ltac:(lia)) as A1. destruct (Nat.lt_ge_cases j i) as [HJ|HJ].
      + specialize (E2 ltac:(lia)). pose proof (S j (i - 1)%nat ltac:(lia)) as A2. pose proof (A j HJ) as A3. pose proof (A (i - 1)%nat ltac:(lia)) as A4. destruct QK as [[? ->]|[? ->]], QJ as [[? ->]|[? ->]]; qclra.
      + pose proof (S i j ltac:(lia)) as A2. destruct QK as [[? ->]|[? ->]], QJ as [[? ->]|[? ->]]; qclra. }
  destruct (Nat.ltb_spec 0 i) as [H0|H0]; cbn [andb].
  - destruct (Nat.ltb_spec i (length a)) as [H1|H1].
    + pose proof (qltb_spec (nth i a 0 - v)%Qc (v - nth (i - 1) a 0)%Qc) as Q. destruct (qltb (nth i a 0 - v)%Qc (v - nth (i - 1) a 0)%Qc); apply K; try lia.
      * intros _. split; [reflexivity|]. intros _. apply Qclt_le_weak, Q.
      * intros _. split; [lia|]. intros _. exact Q.
    + destruct (Nat.eqb_spec i 0); [lia|]. apply K; [lia| |lia]. intros _. split; [lia|lia].
  - destruct (Nat.eqb_spec i 0); [|lia]. apply K; [lia|lia|]. intros _. split; [lia|lia].
Qed.

(** ** findKey, findIndex *)
Lemma findKey_ok m v : ((forall k, ~ In (k, v) m) -> findKey m v = v) /\
  ((exists k, In (k, v) m) -> StronglySorted (fun x y => fst x < fst y) m -> In (findKey m v, v) m /\ forall k, In (k, v) m -> findKey m v <= k).
Proof.
  unfold findKey. induction m as [|[k w] m [IH1 IH2]]; cbn [find snd].
  - split; [auto|intros [k []]].
  - destruct (Z.eqb_spec w v) as [->|N].
    + split; [intros H; exfalso; apply (H k); left; reflexivity|]. intros _ S. inversion S as [|? ? S1 S2]; subst. split; [left; reflexivity|]. intros k' [[= ->]|I]; [lia|].
      rewrite Forall_forall in S2. specialize (S2 _ I). cbn in S2. lia.
    + split.
      * intros H. apply IH1. intros k' I. apply (H k'). right. exact I.
      * intros (k' & [[= -> ->]|I]) S; [contradiction|]. inversion S as [|? ? S1 S2]; subst. destruct (IH2 (ex_intro _ k' I) S1) as [A B]. split; [right; exact A|].
        intros k2 [[= -> ->]|I2]; [contradiction|auto].
Qed.
Lemma findIndexFrom_ok a v : forall k, (~ In v a -> findIndexFrom k a v = -1) /\
  (In v a -> exists i, findIndexFrom k a v = k + Z.of_nat i /\ (i < length a)%nat /\ nth i a 0 = v /\ forall j, (j < i)%nat -> nth j a 0 <> v).
Proof.
  induction a as [|x a IH]; intros k; cbn [findIndexFrom]; [split; [auto|intros []]|]. destruct (Z.eqb_spec x v) as [->|N].
  - split; [intros H; exfalso; apply H; left; reflexivity|]. intros _. exists O. cbn. repeat split; try lia.
  - destruct (IH (k + 1)) as [A B]. split; [intros H; apply A; intros I; apply H; right; exact I|]. intros [->|I]; [contradiction|].
    destruct (B I) as (i & E & L & F & G). exists (S i). rewrite E. cbn [length nth]. repeat split; [lia|lia|exact F|]. intros [|j] Hj; [exact N|apply G; lia].
Qed.

(** ** merge *)
Lemma existsb_In x l : existsb (Z.eqb x) l = true <-> In x l.
Proof. rewrite existsb_exists. split; [intros (y & I & E); apply Z.eqb_eq in E; congruence|intros I; exists x; split; [exact I|apply Z.eqb_refl]]. Qed.
Lemma mergeInts_ok a2 : forall a1, exists t, mergeInts a1 a2 = a1 ++ t /\ NoDup t /\ forall x, In x t <-> In x a2 /\ ~ In x a1.
Proof.
  unfold mergeInts. induction a2 as [|y a2 IH]; intros a1; cbn [fold_left].
  - exists []. rewrite app_nil_r. split; [reflexivity|]. split; [constructor|]. cbn. tauto.
  - destruct (existsb (Z.eqb y) a1) eqn:Q.
    + apply existsb_In in Q. destruct (IH a1) as (t & E & N & I). exists t. split; [exact E|]. split; [exact N|]. intros x. rewrite I. cbn [In]. split; [tauto|]. intros [[<-|H] H2]; [contradiction|tauto].
    + assert (NI : ~ In y a1) by (rewrite <- existsb_In; congruence). destruct (IH (a1 ++ [y])) as (t & E & N & I). exists (y :: t). rewrite E, <- app_assoc. split; [reflexivity|]. split.
      * constructor; [|exact N]. intros H. apply I in H. apply (proj2 H). apply in_or_app. right. left. reflexivity.
      * intros x. cbn [In]. rewrite I, in_app_iff. cbn [In]. destruct (Z.eq_dec y x) as [->|NE]; [tauto|]. intuition.
Qed.
(** the values in the order of the merged keys *)
Lemma mergeVals_ok k1 a1 a2 k2 : length a2 = length k2 ->
  mergeVals a1 a2 k1 k2 = Some (a1 ++ map snd (filter (fun kv => negb (existsb (Z.eqb (fst kv)) k1)) (combine k2 a2))).
Proof.
  intros L. unfold mergeVals. set (f := fun (i : nat) (a : list Qc) => _).
  assert (G : forall n, (n <= length k2)%nat -> forN n f a1 = Some (a1 ++ map snd (filter (fun kv => negb (existsb (Z.eqb (fst kv)) k1)) (combine (firstn n k2) (firstn n a2))))).
  { induction n as [|n IH]; intros H; [cbn; rewrite app_nil_r; reflexivity|]. cbn [forN]. rewrite IH by lia. cbn [bind]. unfold f.
    rewrite (firstn_snoc 0 k2) by lia. rewrite (firstn_snoc 0%Qc a2) by lia.
    assert (C : combine (firstn n k2 ++ [nth n k2 0]) (firstn n a2 ++ [nth n a2 0%Qc]) = combine (firstn n k2) (firstn n a2) ++ [(nth n k2 0, nth n a2 0%Qc)]).
    { assert (LL : length (firstn n k2) = length (firstn n a2)) by (rewrite !firstn_length; lia). revert LL. generalize (firstn n k2) (firstn n a2). induction l as [|x l IHl]; intros [|y l'] LL; cbn in *; try lia; [reflexivity|]. f_equal. apply IHl. lia. }
    rewrite C, filter_app, map_app. cbn [filter fst]. destruct (existsb (Z.eqb (nth n k2 0)) k1); cbn [negb].
    - cbn. rewrite app_nil_r. reflexivity.
    - rewrite rd_ok by lia. cbn [bind map snd]. rewrite <- app_assoc. reflexivity. }
  rewrite (G (length k2)) by lia. rewrite firstn_all. rewrite <- L, firstn_all. reflexivity.
Qed.
Lemma mergeInts_filter k2 : forall k1, NoDup k2 -> mergeInts k1 k2 = k1 ++ filter (fun x => negb (existsb (Z.eqb x) k1)) k2.
Proof.
  unfold mergeInts. induction k2 as [|y k2 IH]; intros k1 N; cbn [fold_left filter]; [rewrite app_nil_r; reflexivity|]. inversion N as [|? ? N1 N2]; subst.
  destruct (existsb (Z.eqb y) k1) eqn:Q; cbn [negb]; [apply IH; exact N2|]. rewrite IH by exact N2. rewrite <- app_assoc. cbn [app]. do 2 f_equal. apply filter_ext_in. intros x Hx.
  rewrite existsb_app. cbn [existsb]. destruct (Z.eqb_spec x y) as [->|NE]; [contradiction|]. rewrite !orb_false_r. reflexivity.
Qed.
Lemma merge_keys k1 k2 a1 a2 : NoDup k2 -> length a1 = length k1 -> length a2 = length k2 ->
  exists v, mergeVals a1 a2 k1 k2 = Some v /\ length v = length (mergeInts k1 k2) /\
  forall x y, In (x, y) (combine (mergeInts k1 k2) v) <-> In (x, y) (combine k1 a1) \/ (In (x, y) (combine k2 a2) /\ ~ In x k1).
Proof.
  intros N L1 L2. rewrite mergeVals_ok by exact L2. rewrite mergeInts_filter by exact N. eexists. split; [reflexivity|].
  set (p := fun x => negb (existsb (Z.eqb x) k1)). change (fun kv : Z * Qc => negb (existsb (Z.eqb (fst kv)) k1)) with (fun kv : Z * Qc => p (fst kv)).
  assert (F : forall k (a : list Qc), length a = length k -> map fst (filter (fun kv => p (fst kv)) (combine k a)) = filter p k).
  { induction k as [|x k IH]; intros [|y a] L; cbn in *; try lia; [reflexivity|]. destruct (p x); cbn; rewrite IH by lia; reflexivity. }
  split; [rewrite !app_length, map_length, <- (F k2 a2 L2), map_length; lia|].
  assert (C : combine (k1 ++ filter p k2) (a1 ++ map snd (filter (fun kv => p (fst kv)) (combine k2 a2))) = combine k1 a1 ++ filter (fun kv => p (fst kv)) (combine k2 a2)).
  { rewrite <- (F k2 a2 L2). revert a1 L1. generalize (filter (fun kv => p (fst kv)) (combine k2 a2)). intros l. clear. induction k1 as [|x k1 IH]; intros [|y a1] L; cbn in *; try lia.
    - induction l as [|[u w] l IHl]; cbn; [reflexivity|]. f_equal. exact IHl.
    - f_equal. apply IH. lia. }
  intros x y. rewrite C, in_app_iff, filter_In. cbn [fst]. unfold p. rewrite negb_true_iff. rewrite <- not_true_iff_false, existsb_In. reflexivity.
Qed.

(** ** interleave *)
Lemma interleaveLoop_ok v1 v2 n1 n2 k : length v1 = (k * n1)%nat -> length v2 = (k * n2)%nat -> (1 <= n1 + n2)%nat -> forall m t fuel out,
  (t + m = k)%nat -> (m < fuel)%nat -> length out = (k * (n1 + n2))%nat ->
  exists o, interleaveLoop fuel v1 v2 n1 n2 (t * (n1 + n2)) (t * n1) (t * n2) out = Some o /\ length o = length out /\
    (forall p, (p < t * (n1 + n2))%nat -> nth p o 0%Qc = nth p out 0%Qc) /\
    (forall i r, (t <= i < k)%nat -> ((r < n1)%nat -> nth (i * (n1 + n2) + r) o 0%Qc = nth (i * n1 + r) v1 0%Qc) /\
                                    ((r < n2)%nat -> nth (i * (n1 + n2) + n1 + r) o 0%Qc = nth (i * n2 + r) v2 0%Qc)).
Proof.
  intros L1 L2 P. induction m as [|m IH]; intros t fuel out T F LO; (destruct fuel as [|fuel]; [lia|]); cbn [interleaveLoop].
  - destruct (Nat.eqb_spec (t * (n1 + n2)) (length out)) as [Q|Q]; [|exfalso; apply Q; rewrite LO; f_equal; lia]. exists out. split; [reflexivity|]. split; [reflexivity|]. split; [auto|intros; lia].
  - destruct (Nat.eqb_spec (t * (n1 + n2)) (length out)) as [Q|Q]; [exfalso; rewrite LO in Q; nia|].
    assert (TB1 : (t * n1 + n1 <= k * n1)%nat) by (replace (t * n1 + n1)%nat with (S t * n1)%nat by (cbn; lia); apply Nat.mul_le_mono_r; lia).
    assert (TB2 : (t * n2 + n2 <= k * n2)%nat) by (replace (t * n2 + n2)%nat with (S t * n2)%nat by (cbn; lia); apply Nat.mul_le_mono_r; lia).
    assert (TB : (t * (n1 + n2) + (n1 + n2) <= k * (n1 + n2))%nat) by (replace (t * (n1 + n2) + (n1 + n2))%nat with (S t * (n1 + n2))%nat by (cbn; lia); apply Nat.mul_le_mono_r; lia).
    destruct (memcpy_ok 0%Qc n1 (t * n1) v1 (t * (n1 + n2)) out ltac:(lia) ltac:(lia)) as (o1 & E1 & M1 & A1 & B1). rewrite E1. cbn [bind].
    destruct (memcpy_ok 0%Qc n2 (t * n2) v2 (t * (n1 + n2) + n1) o1 ltac:(lia) ltac:(lia)) as (o2 & E2 & M2 & A2 & B2). rewrite E2. cbn [bind].
    replace (t * (n1 + n2) + n1 + n2)%nat with (S t * (n1 + n2))%nat by (cbn; lia). replace (t * n1 + n1)%nat with (S t * n1)%nat by (cbn; lia). replace (t * n2 + n2)%nat with (S t * n2)%nat by (cbn; lia).
    destruct (IH (S t) fuel o2 ltac:(lia) ltac:(lia) ltac:(lia)) as (o & E & M & A & B). exists o. split; [exact E|]. split; [lia|]. split.
    + intros p Hp. rewrite A by (cbn; lia). rewrite B2 by lia. apply B1. lia.
    + intros i r Hi. destruct (Nat.eq_dec i t) as [->|NE]; [|apply B; lia]. split; intros Hr.
      * rewrite A by (cbn; lia). rewrite B2 by lia. apply A1. exact Hr.
      * rewrite A by (cbn; lia). apply A2. exact Hr.
Qed.
Lemma interleave_ok v1 v2 n1 n2 k out : length v1 = (k * n1)%nat -> length v2 = (k * n2)%nat -> (1 <= n1 + n2)%nat ->
  exists o, interleave v1 v2 n1 n2 out = Some o /\ length o = (k * (n1 + n2))%nat /\
    (forall i r, (i < k)%nat -> ((r < n1)%nat -> nth (i * (n1 + n2) + r) o 0%Qc = nth (i * n1 + r) v1 0%Qc) /\
                               ((r < n2)%nat -> nth (i * (n1 + n2) + n1 + r) o 0%Qc = nth (i * n2 + r) v2 0%Qc)).
Proof.
  intros L1 L2 P. unfold interleave. cbv zeta. rewrite L1, L2.
  destruct (interleaveLoop_ok v1 v2 n1 n2 k L1 L2 P k 0 (S (k * n1 + k * n2)) (stdResize (k * n1 + k * n2) out)) as (o & E & L & _ & F); [lia|nia|rewrite stdResize_length; lia|].
  exists o. split; [exact E|]. split; [rewrite L, stdResize_length; lia|]. intros i r Hi. apply F. lia.
Qed.

(** ** parsing *)
Definition noDigit (s : list ascii) : Prop := match s with [] => True | c :: _ => digitOf c = None end.
Lemma digitOf_yes c : (48 <= nat_of_ascii c <= 57)%nat -> digitOf c = Some (Z.of_nat (nat_of_ascii c - 48)) /\ isSpace c = false.
Proof.
  intros [A B]. unfold digitOf, isSpace. cbv zeta. rewrite (proj2 (Nat.leb_le _ _) A), (proj2 (Nat.leb_le _ _) B). split; [reflexivity|].
  destruct (Nat.eqb_spec (nat_of_ascii c) 32); [lia|]. destruct (Nat.leb_spec 9 (nat_of_ascii c)); destruct (Nat.leb_spec (nat_of_ascii c) 13); try reflexivity; lia.
Qed.
Lemma takeDigits_ok s a v : Digits s a v -> forall rest, noDigit rest -> takeDigits a (s ++ rest) = (v, rest).
Proof.
  induction 1 as [c a R|c a s v R D IH]; intros rest N; cbn [app takeDigits]; rewrite (proj1 (digitOf_yes c R)).
  - destruct rest as [|d rest]; cbn [takeDigits]; [reflexivity|]. cbn in N. rewrite N. reflexivity.
  - apply IH. exact N.
Qed.
Lemma Digits_head s a v : Digits s a v -> exists c t, s = c :: t /\ (48 <= nat_of_ascii c <= 57)%nat.
Proof. intros H. inversion H; subst; eauto. Qed.
Lemma Digits_last s a v : Digits s a v -> forall d, (48 <= nat_of_ascii (last s d) <= 57)%nat.
Proof. induction 1 as [c a R|c a s v R D IH]; intros d; [exact R|]. destruct (Digits_head _ _ _ D) as (e & t & -> & _). change (last (c :: e :: t) d) with (last (e :: t) d). apply IH. Qed.
Lemma sign_digit c t : (48 <= nat_of_ascii c <= 57)%nat -> sign (c :: t) = (false, c :: t).
Proof.
  intros R. unfold sign. destruct (Ascii.eqb_spec c "-") as [->|]; [cbn in R; lia|]. destruct (Ascii.eqb_spec c "+") as [->|]; [cbn in R; lia|]. reflexivity.
Qed.
Lemma strtol_num w v : Number w v -> forall rest, noDigit rest -> strtol (w ++ rest) = (v, rest).
Proof.
  induction 1 as [s v D|s v D|s v N IH]; intros rest R.
  - unfold strtol. destruct (Digits_head _ _ _ D) as (c & t & -> & Rc). destruct (digitOf_yes c Rc) as [D1 D2].
    change ((c :: t) ++ rest) with (c :: t ++ rest). cbn [skipSpace]. rewrite D2. rewrite (sign_digit c _ Rc). rewrite D1. change (c :: t ++ rest) with ((c :: t) ++ rest). rewrite (takeDigits_ok _ _ _ D rest R). reflexivity.
  - unfold strtol. destruct (Digits_head _ _ _ D) as (c & t & -> & Rc). destruct (digitOf_yes c Rc) as [D1 D2].
    cbn [app skipSpace]. change (isSpace "-") with false. cbv iota. unfold sign. change (Ascii.eqb "-" "-") with true. cbv iota. rewrite D1.
    change (c :: t ++ rest) with ((c :: t) ++ rest). rewrite (takeDigits_ok _ _ _ D rest R). reflexivity.
  - specialize (IH rest R). unfold strtol in *. cbn [app skipSpace]. change (isSpace " ") with true. cbv iota.
    destruct (sign (skipSpace (s ++ rest))) as [neg t]. destruct t as [|c t].
    + injection IH as E1 E2. exfalso. destruct N as [s v D|s v D|s v N]; [destruct (Digits_head _ _ _ D) as (c & t & -> & _)| |];
      apply (f_equal (@length ascii)) in E2; cbn [app length] in E2; rewrite app_length in E2; lia.
    + destruct (digitOf c) as [d|]; [exact IH|]. injection IH as E1 E2. exfalso. destruct N as [s v D|s v D|s v N]; [destruct (Digits_head _ _ _ D) as (c' & t' & -> & _)| |];
      apply (f_equal (@length ascii)) in E2; cbn [app length] in E2; rewrite app_length in E2; lia.
Qed.
Lemma Number_nonempty w v : Number w v -> (1 <= length w)%nat.
Proof. intros H. inversion H as [? ? D|? ? D|? ? N]; subst; [destruct (Digits_head _ _ _ D) as (c & t & -> & _)| |]; cbn; lia. Qed.
Lemma Number_last w v : Number w v -> forall d, (48 <= nat_of_ascii (last w d) <= 57)%nat.
Proof.
  induction 1 as [s v D|s v D|s v N IH]; intros d; [eapply Digits_last; eauto| |].
  - destruct (Digits_head _ _ _ D) as (c & t & -> & _). change (last ("-"%char :: c :: t) d) with (last (c :: t) d). eapply Digits_last; eauto.
  - pose proof (Number_nonempty _ _ N) as L. destruct s as [|e t]; [cbn in L; lia|]. change (last (" "%char :: e :: t) d) with (last (e :: t) d). apply IH.
Qed.
Lemma upTo_range v e : v :: upTo v e = rangeOf v e.
Proof. unfold upTo, rangeOf. f_equal. rewrite <- seq_shift, map_map. apply map_ext. intros k. lia. Qed.
Lemma last_app_cons {A} (w : list A) c s d : s <> [] -> last (w ++ c :: s) d = last s d.
Proof. intros N. induction w as [|x w IH]; cbn [app]; [destruct s; [contradiction|reflexivity]|]. destruct (w ++ c :: s) eqn:E; [destruct w; discriminate E|]. exact IH. Qed.
Lemma IntList_nonempty s vs : IntList s vs -> s <> [].
Proof. intros H. inversion H as [w v N| | | | | | |]; subst; try (intros Q; apply (f_equal (@length ascii)) in Q; rewrite ?app_length in Q; cbn in Q; lia). intros ->. apply Number_nonempty in N. cbn in N. lia. Qed.
Definition tail0 (s : list ascii) : list Z := if Ascii.eqb (last s " "%char) ","%char then [0] else [].
Lemma tail0_num w v : Number w v -> tail0 w = [].
Proof. intros N. unfold tail0. pose proof (Number_last _ _ N " "%char) as L. destruct (Ascii.eqb_spec (last w " "%char) ",") as [Q|]; [rewrite Q in L; cbn in L; lia|reflexivity]. Qed.
Lemma parseLoop_S f s vals : s <> [] -> parseLoop (S f) s vals =
  let '(v, r) := strtol s in let vals := vals ++ [v] in
  match r with
  | [] => parseLoop f [] vals
  | c :: r' => if Ascii.eqb c ","%char then parseLoop f r' vals
               else if Ascii.eqb c ":"%char then let '(e, r2) := strtol r' in parseLoop f r2 (vals ++ upTo v e)
               else if (length r =? length s)%nat then Some (false, vals) else parseLoop f r vals
  end.
Proof. intros N. destruct s; [contradiction|reflexivity]. Qed.
Lemma parseLoop_nil f vals : parseLoop f [] vals = Some (true, vals).
Proof. destruct f; reflexivity. Qed.
Lemma parseLoop_ok s vs : IntList s vs -> forall fuel vals, (length s <= fuel)%nat ->
  exists ws, parseLoop fuel s vals = Some (true, vals ++ ws) /\ vs = ws ++ tail0 s.
Proof.
  induction 1 as [w v N|w v w2 v2 N N2|w v s vs N I IH|w v w2 v2 s vs N N2 I IH|w v s vs N I IH|s vs I IH|w v N|]; intros fuel vals HF.
  - exists [v]. pose proof (Number_nonempty _ _ N). destruct fuel as [|fuel]; [lia|]. rewrite parseLoop_S by (intros ->; cbn in *; lia).
    pose proof (strtol_num w v N [] I) as E. rewrite app_nil_r in E. rewrite E. cbv zeta. rewrite parseLoop_nil. rewrite (tail0_num _ _ N). auto.
  - pose proof (Number_nonempty _ _ N) as L. pose proof (Number_nonempty _ _ N2) as L2. destruct fuel as [|fuel]; [rewrite app_length in HF; cbn in HF; lia|]. rewrite parseLoop_S by (destruct w; discriminate).
    rewrite (strtol_num w v N) by reflexivity. cbv zeta. change (Ascii.eqb ":" ",") with false. change (Ascii.eqb ":" ":") with true. cbv iota.
    pose proof (strtol_num w2 v2 N2 [] I) as E. rewrite app_nil_r in E. rewrite E. rewrite parseLoop_nil. exists (rangeOf v v2). split.
    + rewrite <- app_assoc. change ([v] ++ upTo v v2) with (v :: upTo v v2). rewrite upTo_range. reflexivity.
    + unfold tail0. rewrite last_app_cons by (intros ->; cbn in L2; lia). fold (tail0 w2). rewrite (tail0_num _ _ N2), app_nil_r. reflexivity.
  - pose proof (Number_nonempty _ _ N) as L. rewrite app_length in HF. cbn [length] in HF. destruct fuel as [|fuel]; [lia|]. rewrite parseLoop_S by (destruct w; discriminate).
    rewrite (strtol_num w v N) by reflexivity. cbv zeta. change (Ascii.eqb " " ",") with false. change (Ascii.eqb " " ":") with false. cbv iota.
    destruct (Nat.eqb_spec (length (" "%char :: s)) (length (w ++ " "%char :: s))) as [Q|_]; [rewrite app_length in Q; cbn in Q; lia|].
    destruct (IH fuel (vals ++ [v])) as (ws & E & V); [cbn; lia|]. exists (v :: ws). rewrite E, <- app_assoc. split; [reflexivity|]. rewrite V. cbn [app]. f_equal. f_equal.
    unfold tail0. f_equal. replace (w ++ " "%char :: s) with (removelast w ++ last w " "%char :: " "%char :: s); [rewrite last_app_cons by discriminate; reflexivity|].
    transitivity ((removelast w ++ [last w " "%char]) ++ " "%char :: s); [rewrite <- app_assoc; reflexivity|]. rewrite <- app_removelast_last by (intros ->; cbn in L; lia). reflexivity.
  - pose proof (Number_nonempty _ _ N) as L. pose proof (Number_nonempty _ _ N2) as L2. rewrite app_length in HF. cbn [length] in HF. rewrite app_length in HF. cbn [length] in HF. destruct fuel as [|fuel]; [lia|].
    rewrite parseLoop_S by (destruct w; discriminate). rewrite (strtol_num w v N) by reflexivity. cbv zeta. change (Ascii.eqb ":" ",") with false. change (Ascii.eqb ":" ":") with true. cbv iota.
    rewrite (strtol_num w2 v2 N2) by reflexivity. destruct (IH fuel ((vals ++ [v]) ++ upTo v v2)) as (ws & E & V); [cbn; lia|]. exists (rangeOf v v2 ++ ws). rewrite E. split.
    + rewrite <- !app_assoc. change ([v] ++ upTo v v2 ++ ws) with ((v :: upTo v v2) ++ ws). rewrite upTo_range. reflexivity.
    + rewrite V, <- app_assoc. do 2 f_equal. unfold tail0. rewrite (last_app_cons w) by (destruct w2; discriminate).
      replace (w2 ++ " "%char :: s) with (removelast w2 ++ last w2 " "%char :: " "%char :: s); [rewrite last_app_cons by discriminate; reflexivity|].
      transitivity ((removelast w2 ++ [last w2 " "%char]) ++ " "%char :: s); [rewrite <- app_assoc; reflexivity|]. rewrite <- app_removelast_last by (intros ->; cbn in L2; lia). reflexivity.
  - pose proof (Number_nonempty _ _ N) as L. rewrite app_length in HF. cbn [length] in HF. destruct fuel as [|fuel]; [lia|]. rewrite parseLoop_S by (destruct w; discriminate).
    rewrite (strtol_num w v N) by reflexivity. cbv zeta. change (Ascii.eqb "," ",") with true. cbv iota. destruct (IH fuel (vals ++ [v])) as (ws & E & V); [lia|]. exists (v :: ws). rewrite E, <- app_assoc. split; [reflexivity|].
    rewrite V. unfold tail0. rewrite last_app_cons by (apply (IntList_nonempty _ _ I)). reflexivity.
  - cbn [length] in HF. destruct fuel as [|fuel]; [lia|]. rewrite parseLoop_S by discriminate. change (strtol (","%char :: s)) with (0, ","%char :: s). cbv zeta. change (Ascii.eqb "," ",") with true. cbv iota.
    destruct (IH fuel (vals ++ [0])) as (ws & E & V); [lia|]. exists (0 :: ws). rewrite E, <- app_assoc. split; [reflexivity|]. rewrite V. unfold tail0. change (","%char :: s) with ([] ++ ","%char :: s). rewrite last_app_cons by (apply (IntList_nonempty _ _ I)). reflexivity.
  - rewrite app_length in HF. cbn [length] in HF. destruct fuel as [|fuel]; [lia|]. rewrite parseLoop_S by (destruct w; discriminate). rewrite (strtol_num w v N) by reflexivity. cbv zeta. change (Ascii.eqb "," ",") with true. cbv iota. rewrite parseLoop_nil.
    exists [v]. split; [reflexivity|]. unfold tail0. rewrite last_last. reflexivity.
  - destruct fuel as [|fuel]; [cbn in HF; lia|]. exists [0]. cbn [parseLoop]. change (strtol [","%char]) with (0, [","%char]). cbv zeta. change (Ascii.eqb "," ",") with true. cbv iota. rewrite parseLoop_nil. split; reflexivity.
Qed.
Lemma parseIntegers_ok vals s vs : IntList s vs -> parseIntegers vals s = Some (true, vals ++ vs).
Proof.
  intros I. unfold parseIntegers. destruct (parseLoop_ok s vs I (S (length s)) vals ltac:(lia)) as (ws & E & V). rewrite E. cbn [bind fst snd].
  assert (L : (1 <= length vs)%nat) by (inversion I; subst; cbn; rewrite ?app_length; cbn; lia).
  destruct (Nat.eqb_spec (length s) 0) as [Q|_]; [exfalso; apply (IntList_nonempty _ _ I); destruct s; [reflexivity|discriminate Q]|]. cbn [negb andb].
  assert (W : (if Ascii.eqb (last s " "%char) ","%char then (vals ++ ws) ++ [0] else vals ++ ws) = vals ++ vs).
  { rewrite V. unfold tail0. destruct (Ascii.eqb (last s " "%char) ","%char); [rewrite <- app_assoc; reflexivity|rewrite app_nil_r; reflexivity]. }
  rewrite W. rewrite app_length. destruct (Nat.ltb_spec (length vals) (length vals + length vs)); [reflexivity|lia].
Qed.
(** parsing always ends, and never removes values *)
Lemma takeDigits_len s : forall a v r, takeDigits a s = (v, r) -> (length r <= length s)%nat.
Proof. induction s as [|c s IH]; intros a v r H; cbn in H; [injection H as _ <-; lia|]. destruct (digitOf c); [apply IH in H; cbn; lia|injection H as _ <-; lia]. Qed.
Lemma skipSpace_len s : (length (skipSpace s) <= length s)%nat.
Proof. induction s as [|c s IH]; cbn; [lia|]. destruct (isSpace c); cbn; lia. Qed.
Lemma strtol_len s v r : strtol s = (v, r) -> (length r <= length s)%nat.
Proof.
  unfold strtol. pose proof (skipSpace_len s) as L. destruct (sign (skipSpace s)) as [neg t] eqn:Q.
  assert (LT : (length t <= length (skipSpace s))%nat).
  { unfold sign in Q. destruct (skipSpace s) as [|c u]; [injection Q as _ <-; lia|]. destruct (Ascii.eqb c "-"); [injection Q as _ <-; cbn; lia|]. destruct (Ascii.eqb c "+"); injection Q as _ <-; cbn; lia. }
  destruct t as [|c t]; [intros [= _ <-]; lia|]. destruct (digitOf c); [|intros [= _ <-]; lia]. destruct (takeDigits 0 (c :: t)) as [w u] eqn:T. apply takeDigits_len in T. intros [= _ <-]. lia.
Qed.
Lemma parseLoop_total : forall fuel s vals, (length s <= fuel)%nat -> exists b ws, parseLoop fuel s vals = Some (b, vals ++ ws).
Proof.
  induction fuel as [|f IH]; intros s vals L.
  - destruct s; [|cbn in L; lia]. exists true, []. rewrite app_nil_r. reflexivity.
  - destruct s as [|c0 s0]; [exists true, []; rewrite app_nil_r; reflexivity|]. set (s := c0 :: s0) in *. rewrite parseLoop_S by discriminate. destruct (strtol s) as [v r] eqn:Q. pose proof (strtol_len _ _ _ Q) as LR. cbv zeta.
    assert (K : forall t ws0, (length t <= f)%nat -> exists b ws, parseLoop f t (vals ++ ws0) = Some (b, vals ++ ws)).
    { intros t ws0 Lt. destruct (IH t (vals ++ ws0) Lt) as (b & ws & E). exists b, (ws0 ++ ws). rewrite E, <- app_assoc. reflexivity. }
    destruct r as [|c r']; [apply K; cbn; lia|]. cbn [length] in LR. destruct (Ascii.eqb c ","); [apply K; lia|]. destruct (Ascii.eqb c ":").
    + destruct (strtol r') as [e r2] eqn:Q2. apply strtol_len in Q2. rewrite <- app_assoc. apply K. lia.
    + destruct (Nat.eqb_spec (length (c :: r')) (length s)); [exists false, [v]; reflexivity|]. apply K. cbn [length] in *. lia.
Qed.
Lemma parseIntegers_total vals s : exists b ws, parseIntegers vals s = Some (b, vals ++ ws).
Proof.
  unfold parseIntegers. destruct (parseLoop_total (S (length s)) s vals ltac:(lia)) as (b & ws & E). rewrite E. cbn [bind fst snd]. destruct b; [|eauto].
  destruct (negb (length s =? 0)%nat && Ascii.eqb (last s " "%char) ","%char); [|eauto]. rewrite <- app_assoc. eauto.
Qed.
