(** Proofs about merging nodes, and about closing patches. *)
From Coq Require Import List Sorted Arith ZArith QArith Qcanon Bool Lia Permutation.
From Verif Require Import Base MPC_model MPC_spec ASMbc_model ASMbc_spec ASMnum_model ASMnum_spec ASMnum_proofs ASMnum_proofs2.
Import ListNotations.
Local Open Scope Z_scope.

Lemma sig1 a b n : sig [(a, b)] n = subst1 a b n.
Proof. unfold sig, subst1. cbn [zfind]. destruct (n =? a); reflexivity. Qed.
Lemma moveBC_ext s t b : (forall n, s n = t n) -> moveBC s b = moveBC t b.
Proof. intros H. unfold moveBC. rewrite H. reflexivity. Qed.
Lemma moveMPC_ext s t m : (forall n, s n = t n) -> moveMPC s m = moveMPC t m.
Proof. intros H. unfold moveMPC, moveDof. rewrite H. f_equal. apply map_ext. intros d. rewrite H. reflexivity. Qed.
Lemma moveBC_comp s t b : moveBC s (moveBC t b) = moveBC (fun n => s (t n)) b. Proof. reflexivity. Qed.
Lemma moveMPC_comp s t m : moveMPC s (moveMPC t m) = moveMPC (fun n => s (t n)) m.
Proof. unfold moveMPC. cbn. f_equal. rewrite map_map. reflexivity. Qed.
Lemma condsMoved_comp s t p q r : condsMoved s p q -> condsMoved t q r -> condsMoved (fun n => t (s n)) p r.
Proof.
  intros (A1 & A2 & A3 & A4 & A5 & A6) (B1 & B2 & B3 & B4 & B5 & B6). unfold condsMoved. rewrite B1, B2, B3, B4, B5, B6, A1, A2, A3, A4, A5, A6, !map_map. repeat split; auto.
  apply map_ext. intros x. cbn [fst snd]. rewrite moveMPC_comp. reflexivity.
Qed.
Lemma condsMoved_ext s t p q : (forall n, s n = t n) -> condsMoved s p q -> condsMoved t p q.
Proof.
  intros E (A1 & A2 & A). unfold condsMoved. rewrite A1, A2. split; [apply map_ext; intros; apply moveBC_ext; auto|]. split; [|exact A].
  apply map_ext. intros x. f_equal. apply moveMPC_ext. auto.
Qed.
Lemma moveDof_id d : moveDof (fun n => n) d = d. Proof. destruct d; reflexivity. Qed.
Lemma condsMoved_refl p : condsMoved (fun n => n) p p.
Proof.
  unfold condsMoved. split; [|split; [|auto]].
  - rewrite <- (map_id (pBC (nb p))) at 1. apply map_ext. intros b. symmetry. apply moveBC_id. reflexivity.
  - rewrite <- (map_id (pEQ (nb p))) at 1. apply map_ext. intros [m c]. cbn [fst snd]. f_equal. destruct m as [sl ms]. unfold moveMPC. cbn [mslave mmast]. rewrite moveDof_id.
    f_equal. rewrite <- (map_id ms) at 1. apply map_ext. intros d. symmetry. apply moveDof_id.
Qed.
Lemma renumConds1 p a b gn : (gn = 0 \/ gn = 1) ->
  fst (renumConds p [(a, b)] gn) = true /\ condsMoved (subst1 a b) p (snd (renumConds p [(a, b)] gn)) /\
  nums (snd (renumConds p [(a, b)] gn)) = if gn =? 0 then nums p else map (subst1 a b) (nums p).
Proof.
  intros G. unfold renumConds. cbn [length Nat.ltb Nat.leb andb]. rewrite renumBCs_eq. cbn [fst snd negb orb]. rewrite !andb_false_r. cbn [negb].
  split; [reflexivity|]. split.
  - unfold condsMoved. cbn [nb pBC pEQ pnf pnnod nMNPC nMLGE]. rewrite filter_all_true by reflexivity. split; [apply map_ext; intros x; apply moveBC_ext, sig1|]. split; [|auto].
    apply map_ext. intros x. rewrite renumMPC_move. f_equal. apply moveMPC_ext, sig1.
  - unfold nums. cbn [nb pMLGN]. destruct G as [-> | ->]; cbn [Z.ltb Z.compare Z.eqb]; [reflexivity|]. apply map_ext. intros n. unfold renumMap, subst1. cbn [zfind]. destruct (n =? a); reflexivity.
Qed.

(** ** one patch *)
Lemma collapseOwn_ok p m s : (1 <= m <= length (nums p))%nat -> (1 <= s <= length (nums p))%nat ->
  let a := nth (m - 1) (nums p) 0 in let b := nth (s - 1) (nums p) 0 in
  nums (collapseOwn p m s) = upd (m - 1) (Z.min a b) (upd (s - 1) (Z.min a b) (nums p)) /\
  condsMoved (subst1 (Z.max a b) (Z.min a b)) p (collapseOwn p m s).
Proof.
  intros Hm Hs a b.
  assert (upd_same : forall k (l : list Z), upd k (nth k l 0) l = l).
  { clear. induction k as [|k IH]; intros [|x l]; cbn; try reflexivity. rewrite IH. reflexivity. }
  unfold collapseOwn, collapseNodes. cbn [fst snd nth].
  change (nMLGN p) with (nums p).
  destruct (Nat.ltb_spec m 1); [lia|]. destruct (Nat.ltb_spec (length (nums p)) m); [lia|]. cbn [orb].
  destruct (Nat.ltb_spec s 1); [lia|]. destruct (Nat.ltb_spec (length (nums p)) s); [lia|]. cbn [orb]. fold a b.
  assert (MN : forall i g, (1 <= i <= length (nums p))%nat -> nth (i - 1) (nums p) 0 <> g ->
     nums (nth 0 (fst (snd (mergeNodes ([p], [[]]) 0 i g))) dummyN) = upd (i - 1) g (nums p) /\ condsMoved (subst1 (nth (i - 1) (nums p) 0) g) p (nth 0 (fst (snd (mergeNodes ([p], [[]]) 0 i g))) dummyN)).
  { intros i g Hi Hg. unfold mergeNodes. cbn [fst snd nth]. change (nMLGN p) with (nums p). destruct (Nat.ltb_spec i 1); [lia|]. destruct (Nat.ltb_spec (length (nums p)) i); [lia|]. cbn [orb].
    destruct (Z.eqb_spec (nth (i - 1) (nums p) 0) g); [contradiction|]. cbn [upd fold_left nth].
    destruct (renumConds1 (setMLGN p (upd (i - 1) g (nums p))) (nth (i - 1) (nums p) 0) g 0 (or_introl eq_refl)) as (R1 & R2 & R3).
    destruct (renumConds _ _ _) as [ok q]. cbn [fst snd upd nth] in *. split; [exact R3|]. exact R2. }
  destruct (Z.ltb_spec b a) as [L|L]; cbn [snd].
  - rewrite Z.min_r, Z.max_l by lia. destruct (MN m b Hm) as [M1 M2]; [unfold a in L; lia|]. split; [|exact M2].
    rewrite M1. f_equal. unfold b. symmetry. apply upd_same.
  - destruct (Z.ltb_spec a b) as [L'|L']; cbn [snd].
    + rewrite Z.min_l, Z.max_r by lia. destruct (MN s a Hs) as [M1 M2]; [unfold b in L'; lia|]. split; [|exact M2].
      rewrite M1. destruct (Nat.eq_dec m s) as [->|D]; [exfalso; unfold a, b in L'; lia|].
      pose proof (upd_same (m - 1)%nat (upd (s - 1) a (nums p))) as U. rewrite upd_nth_other in U by lia. fold a in U. symmetry. exact U.
    + cbn [fst nth]. assert (E : a = b) by lia. rewrite E, Z.min_id, Z.max_id. split.
      * unfold b at 2. rewrite upd_same. rewrite <- E. unfold a. rewrite upd_same. reflexivity.
      * apply condsMoved_ext with (s := fun n => n); [|apply condsMoved_refl]. intros n. unfold subst1. destruct (Z.eqb_spec n b); congruence.
Qed.

(** ** a sequence of disjoint pairs *)
Definition foldPairs (p : npatch) (prs : list (nat * nat)) : npatch := fold_left (fun p ms => collapseOwn p (fst ms) (snd ms)) prs p.
Definition touches (x : nat) (ms : nat * nat) : Prop := x = fst ms \/ x = snd ms.
Fixpoint disjointPairs (prs : list (nat * nat)) : Prop :=
  match prs with [] => True | a :: r => (forall b x, In b r -> touches x a -> touches x b -> False) /\ disjointPairs r end.
Definition inRange (n : nat) (ms : nat * nat) : Prop := (1 <= fst ms <= n)%nat /\ (1 <= snd ms <= n)%nat.
Definition low (v : list Z) (ms : nat * nat) : Z := Z.min (nth (fst ms - 1) v 0) (nth (snd ms - 1) v 0).
Definition high (v : list Z) (ms : nat * nat) : Z := Z.max (nth (fst ms - 1) v 0) (nth (snd ms - 1) v 0).
Definition chain (v : list Z) (prs : list (nat * nat)) (n : Z) : Z := fold_left (fun n ms => subst1 (high v ms) (low v ms) n) prs n.
Lemma foldPairs_ok prs : forall p, disjointPairs prs -> Forall (inRange (length (nums p))) prs ->
  length (nums (foldPairs p prs)) = length (nums p) /\
  (forall ms x, In ms prs -> touches x ms -> nth (x - 1) (nums (foldPairs p prs)) 0 = low (nums p) ms) /\
  (forall x, (1 <= x)%nat -> (forall ms, In ms prs -> ~ touches x ms) -> nth (x - 1) (nums (foldPairs p prs)) 0 = nth (x - 1) (nums p) 0) /\
  condsMoved (chain (nums p) prs) p (foldPairs p prs).
Proof.
  induction prs as [|a prs IH]; intros p D R; cbn [foldPairs fold_left].
  - split; [reflexivity|]. split; [intros ms x []|]. split; [reflexivity|]. apply condsMoved_refl.
  - cbn [disjointPairs] in D. destruct D as [D1 D2]. inversion R as [|? ? [Ra1 Ra2] R2]; subst.
    destruct (collapseOwn_ok p (fst a) (snd a) Ra1 Ra2) as [C1 C2]. set (q := collapseOwn p (fst a) (snd a)) in *.
    assert (Lq : length (nums q) = length (nums p)) by (rewrite C1, !upd_length; reflexivity).
    destruct (IH q D2) as (I1 & I2 & I3 & I4); [rewrite Lq; exact R2|]. change (fold_left (fun p ms => collapseOwn p (fst ms) (snd ms)) prs q) with (foldPairs q prs).
    assert (Qo : forall x, (1 <= x)%nat -> ~ touches x a -> nth (x - 1) (nums q) 0 = nth (x - 1) (nums p) 0).
    { intros x Hx T. rewrite C1. rewrite !upd_nth_other; [reflexivity| |]; intros E; apply T; [right|left]; lia. }
    assert (Qt : forall x, touches x a -> nth (x - 1) (nums q) 0 = low (nums p) a).
    { intros x [-> | ->]; rewrite C1.
      - rewrite upd_nth_same by (rewrite upd_length; lia). reflexivity.
      - destruct (Nat.eq_dec (fst a) (snd a)) as [E|E]; [unfold low; rewrite <- E, upd_nth_same by (rewrite upd_length; lia); reflexivity|].
        rewrite upd_nth_other by lia. rewrite upd_nth_same by lia. reflexivity. }
    rewrite Forall_forall in R2.
    assert (Lo : forall ms, In ms prs -> low (nums q) ms = low (nums p) ms /\ high (nums q) ms = high (nums p) ms).
    { intros ms Hms. destruct (R2 ms Hms) as [[S1 _] [S2 _]]. unfold low, high. rewrite !Qo; auto; intros T; (eapply D1; [exact Hms|exact T|]); first [left; reflexivity|right; reflexivity]. }
    split; [congruence|]. split; [|split].
    + intros ms x [<-|Hms] T.
      * rewrite I3; [apply Qt; auto| |].
        -- destruct T as [-> | ->]; lia.
        -- intros ms Hms T'. eapply D1; eauto.
      * rewrite (I2 ms x Hms T). apply Lo; auto.
    + intros x Hx T. rewrite I3; [apply Qo; [auto|apply T; left; auto]|auto|]. intros ms Hms. apply T. right; auto.
    + eapply condsMoved_ext; [|eapply condsMoved_comp; [exact C2|exact I4]]. intros n. cbn beta. unfold chain. cbn [fold_left].
      change (subst1 (Z.max (nth (fst a - 1) (nums p) 0) (nth (snd a - 1) (nums p) 0)) (Z.min (nth (fst a - 1) (nums p) 0) (nth (snd a - 1) (nums p) 0)) n) with (subst1 (high (nums p) a) (low (nums p) a) n).
      generalize (subst1 (high (nums p) a) (low (nums p) a) n). clear - Lo. intros n0.
      assert (G : forall l n, (forall ms, In ms l -> In ms prs) -> fold_left (fun n ms => subst1 (high (nums q) ms) (low (nums q) ms) n) l n = fold_left (fun n ms => subst1 (high (nums p) ms) (low (nums p) ms) n) l n).
      { induction l as [|b l IHl]; intros n Hl; cbn [fold_left]; [reflexivity|]. destruct (Lo b (Hl b (or_introl eq_refl))) as [-> ->]. apply IHl. intros; apply Hl; right; auto. }
      apply G. auto.
Qed.
(** substitutions whose targets are not substituted *)
Lemma chain_ok v prs n : (forall a b, In a prs -> In b prs -> high v a = low v b -> low v a = high v a) ->
  (forall a b, In a prs -> In b prs -> high v a = high v b -> low v a = low v b) ->
  (forall a, In a prs -> n = high v a -> chain v prs n = low v a) /\ ((forall a, In a prs -> n <> high v a) -> chain v prs n = n).
Proof.
  unfold chain. revert n. induction prs as [|c prs IH]; intros n H1 H2; cbn [fold_left]; [split; [intros a []|auto]|].
  assert (K1 : forall a b, In a prs -> In b prs -> high v a = low v b -> low v a = high v a) by (intros; eapply H1; [right|right|]; eauto).
  assert (K2 : forall a b, In a prs -> In b prs -> high v a = high v b -> low v a = low v b) by (intros; apply H2; auto; right; auto).
  (* a number that is fixed by all remaining substitutions *)
  assert (Fix : forall m, (forall a, In a prs -> m = high v a -> low v a = m) -> fold_left (fun n ms => subst1 (high v ms) (low v ms) n) prs m = m).
  { clear - prs. intros m. induction prs as [|a prs IH]; intros F; cbn [fold_left]; [reflexivity|]. unfold subst1 at 2. destruct (Z.eqb_spec m (high v a)) as [E|E].
    - rewrite (F a (or_introl eq_refl) E). apply IH. intros; apply F; auto; right; auto.
    - apply IH. intros; apply F; auto; right; auto. }
  split.
  - intros a [<-|Ha] E.
    + subst n. unfold subst1 at 2. rewrite Z.eqb_refl. apply Fix. intros b Hb Eb. rewrite <- (H1 b c (or_intror Hb) (or_introl eq_refl)) in Eb by auto.  auto.
    + unfold subst1 at 2. destruct (Z.eqb_spec n (high v c)) as [E2|E2].
      * rewrite (H2 a c (or_intror Ha) (or_introl eq_refl)) by congruence. apply Fix. intros b Hb Eb. rewrite <- (H1 b c (or_intror Hb) (or_introl eq_refl)) in Eb by auto. auto.
      * apply (IH n K1 K2); auto.
  - intros N. unfold subst1 at 2. destruct (Z.eqb_spec n (high v c)) as [E2|E2]; [exfalso; eapply N; [left; reflexivity|auto]|]. apply (IH n K1 K2). intros a Ha. apply N. right; auto.
Qed.
