(** Lemmas on bulk (Dorfler) marking, ties, and errors per function. *)
From Coq Require Import ZArith QArith Qround Qabs Qminmax List Bool Lia Lqa Permutation Sorted.
From Verif Require Import Adap_model Adap_spec Adap_proofs.
Import ListNotations.
Local Open Scope Z_scope.

Lemma sumErr_acc (l : list dblIdx) s :
  (fold_left (fun s e => (s + fst e)%Q) l s == s + total (map fst l))%Q.
Proof.
  revert s. induction l as [|e l IH]; intros s; cbn [fold_left map total]; [lra|].
  rewrite IH. lra.
Qed.
Lemma total_perm a b : Permutation a b -> (total a == total b)%Q.
Proof.
  induction 1; cbn [total]; [reflexivity| | |].
  - rewrite IHPermutation. reflexivity.
  - lra.
  - lra.
Qed.
Lemma sumErr_total errs : (sumErr (sortP (indexed errs)) == total errs)%Q.
Proof.
  unfold sumErr. rewrite sumErr_acc.
  rewrite (total_perm (map fst (sortP (indexed errs))) errs); [lra|].
  rewrite <- (indexed_fst errs) at 2. apply Permutation_map, sortP_perm.
Qed.

Lemma last_In {A} (l : list A) d : l <> [] -> In (last l d) l.
Proof.
  induction l as [|x l IH]; [tauto|]. intros _. cbn [last].
  destruct l as [|y l']; [left; auto|right]. apply IH. discriminate.
Qed.
Lemma last_min l d x : StronglySorted gt_ l -> In x l -> x = last l d \/ gt_ x (last l d).
Proof.
  induction l as [|y l IH]; intros HS [].
  - subst y. destruct l as [|z l']; [left; reflexivity|right].
    inversion HS as [|? ? HS' HF]; subst. rewrite Forall_forall in HF. apply HF.
    change (last (x :: z :: l') d) with (last (z :: l') d). apply last_In. discriminate.
  - inversion HS as [|? ? HS' HF]; subst. destruct l as [|z l']; [destruct H|].
    change (last (y :: z :: l') d) with (last (z :: l') d). auto.
Qed.

(* ---- bulk marking ---- *)
Definition fs (l : list dblIdx) : Q := total (map fst l).
Lemma total_app a b : (total (a ++ b) == total a + total b)%Q.
Proof. induction a; cbn [app total]; lra. Qed.
Lemma fs_app a b : (fs (a ++ b) == fs a + fs b)%Q.
Proof. unfold fs. rewrite map_app. apply total_app. Qed.
Lemma fs_nonneg l : Forall (fun x => 0 <= fst x)%Q l -> (0 <= fs l)%Q.
Proof. unfold fs. induction 1; cbn [map total]; lra. Qed.
Lemma fs_perm a b : Permutation a b -> (fs a == fs b)%Q.
Proof. intros H. apply total_perm, Permutation_map, H. Qed.

Lemma dorfel_split S T cur lim : exists A B, S = A ++ B /\
  (A = [] \/ exists A' a, A = A' ++ [a] /\ (cur + fs A' < T)%Q) /\
  match B with
  | [] => dorfelLimit S T cur lim = lim
  | e :: _ => dorfelLimit S T cur lim = fst e /\ (T <= cur + fs A)%Q
  end.
Proof.
  revert cur. induction S as [|e S IH]; intros cur; cbn [dorfelLimit].
  - exists [], []. auto.
  - destruct (qlt cur T) eqn:E.
    + apply qlt_iff in E. destruct (IH (cur + fst e)%Q) as (A & B & -> & HA & HB).
      exists (e :: A), B. split; auto. split.
      * right. destruct HA as [-> |(A' & a & -> & H)].
        -- exists [], e. split; auto. unfold fs. cbn [map total]. lra.
        -- exists (e :: A'), a. split; auto. unfold fs in *. cbn [map total]. lra.
      * destruct B as [|b B]; auto. destruct HB as [H1 H2]. split; auto.
        unfold fs in *. cbn [map total]. lra.
    + apply qlt_false in E. exists [], (e :: S). split; auto. split; auto.
      split; auto. unfold fs. cbn [map total]. lra.
Qed.

Lemma upper_bound_app A B v : (forall x, In x A -> gt_ x v) ->
  upper_bound (A ++ B) v = (length A + upper_bound B v)%nat.
Proof.
  induction A as [|a A IH]; intros H; cbn [app upper_bound length]; auto.
  unfold geP. assert (G : gtP a v = true) by (apply gtP_iff, H; left; auto).
  rewrite G. cbn [negb]. rewrite IH; [auto|]. intros x Hx. apply H. right; auto.
Qed.

(** The first m entries have the largest sum. *)
Lemma greedy S : StronglySorted gt_ S -> Forall (fun x => 0 <= fst x)%Q S ->
  forall m U, NoDup U -> incl U S -> (length U <= m)%nat -> (fs U <= fs (firstn m S))%Q.
Proof.
  induction S as [|x S IH]; intros HS HP m U HN HI HL.
  - destruct U as [|u U]; [destruct m; cbn; unfold fs; cbn; lra|].
    destruct (HI u); left; auto.
  - inversion HS as [|? ? HS' HF]; subst. inversion HP as [|? ? P1 P2]; subst.
    destruct m as [|m]; [destruct U; [cbn; lra|cbn in HL; lia]|].
    cbn [firstn]. unfold fs at 2. cbn [map total]. fold (fs (firstn m S)).
    assert (DEC : {In x U} + {~ In x U}).
    { apply in_dec. intros [[a b] c] [[a' b'] c'].
      destruct (Z.eq_dec c c'), (Z.eq_dec a a'), (Pos.eq_dec b b'); subst; auto;
        right; congruence. }
    destruct DEC as [Hin|Hnin].
    + apply in_split in Hin. destruct Hin as (U1 & U2 & ->).
      rewrite (fs_perm (U1 ++ x :: U2) (x :: U1 ++ U2))
        by (symmetry; apply Permutation_middle).
      unfold fs at 1. cbn [map total]. fold (fs (U1 ++ U2)).
      assert (H : (fs (U1 ++ U2) <= fs (firstn m S))%Q).
      { apply IH; auto.
        - eapply NoDup_remove_1; eauto.
        - intros y Hy. assert (Hy' : In y (U1 ++ x :: U2))
            by (rewrite in_app_iff in *; cbn; tauto).
          destruct (HI y Hy') as [<-|]; auto.
          exfalso. eapply NoDup_remove_2; eauto.
        - rewrite app_length in *. cbn in HL. lia. }
      lra.
    + destruct U as [|u U].
      * unfold fs at 1. cbn [map total].
        assert (0 <= fs (firstn m S))%Q.
        { apply fs_nonneg. apply Forall_forall. intros y Hy. rewrite Forall_forall in P2.
          apply P2. eapply in_firstn; eauto. }
        lra.
      * assert (Hu : In u S).
        { destruct (HI u) as [<-|]; [left; auto| |auto]. exfalso. apply Hnin. left; auto. }
        assert (HU : (fst u <= fst x)%Q).
        { rewrite Forall_forall in HF. destruct (HF u Hu) as [G|[G _]]; lra. }
        unfold fs at 1. cbn [map total]. fold (fs U).
        assert (H : (fs U <= fs (firstn m S))%Q).
        { apply IH; auto.
          - inversion HN; auto.
          - intros y Hy. destruct (HI y) as [<-|]; [right; auto| |auto].
            exfalso. apply Hnin. right; auto.
          - cbn in HL. lia. }
        lra.
Qed.

Definition withErr (errs : list Q) (l : list Z) : list dblIdx := map (fun i => (err errs i, i)) l.
Lemma fs_withErr errs l : fs (withErr errs l) = sumOf errs l.
Proof. unfold fs, withErr. induction l; cbn; congruence. Qed.

Lemma firstn_withErr errs k :
  firstn k (sortP (indexed errs)) = withErr errs (map snd (firstn k (sortP (indexed errs)))).
Proof.
  assert (H : forall x, In x (firstn k (sortP (indexed errs))) -> x = (err errs (snd x), snd x)).
  { intros [e i] Hx. apply in_firstn in Hx. apply In_sorted in Hx.
    destruct Hx as [_ ->]. reflexivity. }
  revert H. generalize (firstn k (sortP (indexed errs))) as l.
  induction l as [|x l IH]; intros H; auto. cbn. f_equal.
  - apply H. left; auto.
  - apply IH. intros y Hy. apply H. right; auto.
Qed.

Lemma filter_perm_length {A} (f : A -> bool) a b : Permutation a b ->
  length (filter f a) = length (filter f b).
Proof.
  induction 1; cbn; auto.
  - destruct (f x); cbn; congruence.
  - destruct (f x), (f y); auto.
  - congruence.
Qed.

Lemma above_sorted errs v :
  above errs v = length (filter (fun x : dblIdx => qlt v (fst x)) (sortP (indexed errs))).
Proof.
  rewrite (filter_perm_length _ _ _ (sortP_perm (indexed errs))). unfold above.
  rewrite <- (indexed_fst errs) at 1.
  induction (indexed errs) as [|x l IH]; auto. cbn [map filter]. unfold qlt at 1.
  destruct (negb (Qle_bool (fst x) v)); cbn [length]; congruence.
Qed.

Lemma filter_none {A} (f : A -> bool) l : (forall x, In x l -> f x = false) -> filter f l = [].
Proof.
  induction l as [|x l IH]; intros H; auto. cbn. rewrite H by (left; auto).
  apply IH. intros; apply H; right; auto.
Qed.
Lemma filter_length_le' {A} (f : A -> bool) l : (length (filter f l) <= length l)%nat.
Proof. induction l as [|x l IH]; cbn; auto. destruct (f x); cbn; lia. Qed.

(* ---- extension by ties ---- *)
Lemma symm_extend_le r f e : (symm_extend r f e <= length r)%nat.
Proof. induction r; cbn; auto. destruct (qlt _ _); lia. Qed.

Lemma symm_extend_in r f e : StronglySorted gt_ r ->
  (forall x, In x r -> (fst x <= f)%Q) ->
  forall x, In x (firstn (symm_extend r f e) r) <-> In x r /\ (Qabs (fst x - f) < e)%Q.
Proof.
  induction r as [|y r IH]; intros HS HB x; [cbn; tauto|].
  inversion HS as [|? ? HS' HF]; subst. cbn [symm_extend].
  destruct (qlt (Qabs (fst y - f)) e) eqn:E.
  - apply qlt_iff in E. cbn [firstn In]. rewrite IH; auto.
    + split; [intros [<-|[H H1]]; auto|intros [[<-|H] H1]; auto].
    + intros z Hz. apply HB. right; auto.
  - apply qlt_false in E. cbn [firstn In]. split; [tauto|]. intros [H G].
    destruct H as [<-|H]; [lra|]. rewrite Forall_forall in HF.
    assert (L : (fst x <= fst y)%Q) by (destruct (HF x H) as [K|[K _]]; lra).
    assert (B : (fst y <= f)%Q) by (apply HB; left; auto).
    rewrite (Qabs_neg (fst x - f)) in G by lra.
    rewrite (Qabs_neg (fst y - f)) in E by lra. lra.
Qed.

(* ---- errors per function ---- *)
Lemma addAt_length l i v : length (addAt l i v) = length l.
Proof. revert i. induction l; intros [|i]; cbn; auto. Qed.
Lemma addAt_nth l i v b : (i < length l)%nat ->
  (nth b (addAt l i v) 0 == nth b l 0 + (if Nat.eqb i b then v else 0))%Q.
Proof.
  revert i b. induction l as [|x l IH]; intros i b H; [cbn in H; lia|].
  destruct i as [|i]; destruct b as [|b]; cbn [addAt nth Nat.eqb]; try lra.
  apply IH. cbn in H. lia.
Qed.

Lemma inner_fold s e acc b : Forall (fun i => (i < length acc)%nat) s ->
  let r := fold_left (fun err b => addAt err b e) s acc in
  length r = length acc /\
  (nth b r 0 == nth b acc 0 + inject_Z (Z.of_nat (count_occ Nat.eq_dec s b)) * e)%Q.
Proof.
  revert acc. induction s as [|i s IH]; intros acc H; cbn [fold_left].
  - split; auto. cbn [count_occ]. change (inject_Z (Z.of_nat 0)) with 0%Q. lra.
  - inversion H; subst. destruct (IH (addAt acc i e)) as [A B].
    { rewrite addAt_length. auto. }
    split; [rewrite A; apply addAt_length|].
    rewrite B, addAt_nth by auto. cbn [count_occ].
    destruct (Nat.eq_dec i b) as [->|Hne].
    + rewrite Nat.eqb_refl, Nat2Z.inj_succ, <- Z.add_1_r, inject_Z_plus.
      change (inject_Z 1) with 1%Q. ring.
    + apply Nat.eqb_neq in Hne. rewrite Hne. ring.
Qed.

Lemma remap_spec supp orig acc b : length supp = length orig ->
  Forall (Forall (fun i => (i < length acc)%nat)) supp ->
  let r := remapErrors acc supp orig in
  length r = length acc /\ (nth b r 0 == nth b acc 0 + supportSum supp orig b)%Q.
Proof.
  unfold remapErrors. revert orig acc.
  induction supp as [|s supp IH]; intros [|e orig] acc HL HF; cbn in HL; try discriminate.
  - split; auto. cbn [combine fold_left supportSum]. lra.
  - inversion HF; subst. cbn [combine fold_left fst snd].
    destruct (inner_fold s e acc b H1) as [A B].
    destruct (IH orig (fold_left (fun err b => addAt err b e) s acc)) as [C D]; [lia| |].
    { eapply Forall_impl; [|exact H2]. intros l Hl. rewrite A. auto. }
    split; [congruence|]. rewrite D, B. cbn [supportSum]. lra.
Qed.
