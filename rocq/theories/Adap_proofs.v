(** Lemmas on sorting and selection. *)
From Coq Require Import ZArith QArith Qround Qabs Qminmax List Bool Lia Lqa Permutation Sorted.
From Verif Require Import Adap_model Adap_spec.
Import ListNotations.
Local Open Scope Z_scope.

Lemma qlt_iff a b : qlt a b = true <-> (a < b)%Q.
Proof.
  unfold qlt. rewrite negb_true_iff. split; intros H.
  - apply Qnot_le_lt. intros H1. apply Qle_bool_iff in H1. congruence.
  - apply not_true_iff_false. intros H1. apply Qle_bool_iff in H1. lra.
Qed.
Lemma qlt_false a b : qlt a b = false <-> (b <= a)%Q.
Proof.
  rewrite <- not_true_iff_false, qlt_iff. split; intros; lra.
Qed.

(** a comes before b in the sorted vector. *)
Definition gt_ (a b : dblIdx) : Prop :=
  (fst b < fst a)%Q \/ ((fst a == fst b)%Q /\ snd b < snd a).

Lemma gtP_iff a b : gtP a b = true <-> gt_ a b.
Proof.
  unfold gtP, gt_. rewrite orb_true_iff, andb_true_iff, negb_true_iff, qlt_iff, qlt_false, Z.ltb_lt.
  split.
  - intros [H|[H H1]]; [left; auto|].
    destruct (Qlt_le_dec (fst b) (fst a)); [left; auto|right; split; auto]. lra.
  - intros [H|[H H1]]; [left; auto|right; split; auto]. lra.
Qed.

Lemma gt_trans a b c : gt_ a b -> gt_ b c -> gt_ a c.
Proof.
  unfold gt_. intros [H|[H H1]] [H2|[H2 H3]].
  - left. lra.
  - left. lra.
  - left. lra.
  - right. split; [lra|lia].
Qed.
Lemma gt_irrefl a : ~ gt_ a a.
Proof. unfold gt_. intros [H|[H H1]]; [lra|lia]. Qed.
Lemma gt_total a b : snd a <> snd b -> gt_ a b \/ gt_ b a.
Proof.
  unfold gt_. intros H.
  destruct (Q_dec (fst a) (fst b)) as [[H1|H1]|H1]; auto.
  assert (C : snd a < snd b \/ snd b < snd a) by lia. destruct C; [right|left]; right; split; auto.
  lra.
Qed.

Lemma insertP_perm x l : Permutation (insertP x l) (x :: l).
Proof.
  induction l as [|y l IH]; cbn; auto. destruct (gtP y x); auto.
  rewrite IH. apply perm_swap.
Qed.
Lemma sortP_perm l : Permutation (sortP l) l.
Proof.
  induction l as [|x l IH]; cbn; auto. rewrite insertP_perm. constructor. exact IH.
Qed.

Lemma insertP_sorted x l :
  StronglySorted gt_ l -> ~ In (snd x) (map snd l) -> StronglySorted gt_ (insertP x l).
Proof.
  induction l as [|y l IH]; intros HS HN; cbn.
  - repeat constructor.
  - inversion HS as [|? ? HS' HF]; subst. cbn in HN. destruct (gtP y x) eqn:E.
    + apply gtP_iff in E. constructor.
      * apply IH; auto.
      * rewrite (insertP_perm x l). constructor; auto.
    + assert (G : gt_ x y).
      { destruct (gt_total x y) as [G|G]; auto.
        apply gtP_iff in G. congruence. }
      constructor; auto. constructor; auto.
      eapply Forall_impl; [|exact HF]. cbn. intros a Ha. eapply gt_trans; eauto.
Qed.

Lemma sortP_sorted l : NoDup (map snd l) -> StronglySorted gt_ (sortP l).
Proof.
  induction l as [|x l IH]; intros HN; cbn; [constructor|].
  inversion HN; subst. apply insertP_sorted; auto.
  intros Hin. apply H1.
  eapply Permutation_in; [|exact Hin]. apply Permutation_map. apply sortP_perm.
Qed.

(* ---- the indexed vector ---- *)
Lemma indexed_length errs : length (indexed errs) = length errs.
Proof. unfold indexed. rewrite combine_length, map_length, seq_length. lia. Qed.

Lemma combine_snd {A B} (a : list A) (b : list B) : length b = length a ->
  map snd (combine a b) = b.
Proof.
  revert b. induction a; intros [|y b] Hl; cbn in *; try discriminate; auto.
  f_equal. apply IHa. lia.
Qed.
Lemma combine_fst {A B} (a : list A) (b : list B) : length b = length a ->
  map fst (combine a b) = a.
Proof.
  revert b. induction a; intros [|y b] Hl; cbn in *; try discriminate; auto.
  f_equal. apply IHa. lia.
Qed.

Lemma indexed_snd errs : map snd (indexed errs) = map Z.of_nat (seq 0 (length errs)).
Proof. unfold indexed. apply combine_snd. rewrite map_length, seq_length. auto. Qed.
Lemma indexed_fst errs : map fst (indexed errs) = errs.
Proof. unfold indexed. apply combine_fst. rewrite map_length, seq_length. auto. Qed.

Lemma indexed_nodup errs : NoDup (map snd (indexed errs)).
Proof.
  rewrite indexed_snd. apply FinFun.Injective_map_NoDup; [|apply seq_NoDup].
  intros x y. lia.
Qed.

Lemma In_indexed errs e i : In (e, i) (indexed errs) <-> valid errs i /\ e = err errs i.
Proof.
  unfold indexed, valid, err. split.
  - intros H. apply (In_nth _ _ (0%Q, 0)) in H. destruct H as (k & Hk & E).
    rewrite combine_length, map_length, seq_length in Hk.
    rewrite combine_nth in E by (rewrite map_length, seq_length; auto).
    injection E as E1 E2.
    rewrite (nth_indep _ 0 (Z.of_nat 0)) in E2 by (rewrite map_length, seq_length; lia).
    rewrite map_nth, seq_nth in E2 by lia. subst i e.
    split; [lia|]. rewrite Nat2Z.id. auto.
  - intros [H ->]. set (k := Z.to_nat i).
    assert (Hk : (k < length errs)%nat) by lia.
    replace i with (Z.of_nat k) at 1 by lia.
    assert (E : nth k (combine errs (map Z.of_nat (seq 0 (length errs)))) (0%Q, 0)
                = (nth k errs 0%Q, Z.of_nat k)).
    { rewrite combine_nth by (rewrite map_length, seq_length; auto). f_equal.
      rewrite (nth_indep _ 0 (Z.of_nat 0)) by (rewrite map_length, seq_length; lia).
      rewrite map_nth, seq_nth by lia. auto. }
    rewrite <- E. apply nth_In. rewrite combine_length, map_length, seq_length. lia.
Qed.

Lemma In_sorted errs e i : In (e, i) (sortP (indexed errs)) <-> valid errs i /\ e = err errs i.
Proof.
  rewrite <- In_indexed. split; apply Permutation_in; [|symmetry]; apply sortP_perm.
Qed.

Lemma sorted_length errs : length (sortP (indexed errs)) = length errs.
Proof. rewrite (Permutation_length (sortP_perm _)). apply indexed_length. Qed.
Lemma sorted_sorted errs : StronglySorted gt_ (sortP (indexed errs)).
Proof. apply sortP_sorted, indexed_nodup. Qed.
Lemma sorted_nodup errs : NoDup (map snd (sortP (indexed errs))).
Proof.
  eapply Permutation_NoDup; [|apply (indexed_nodup errs)].
  apply Permutation_map. symmetry. apply sortP_perm.
Qed.

(* ---- sorted lists ---- *)
Lemma ss_app_inv a b : StronglySorted gt_ (a ++ b) ->
  StronglySorted gt_ a /\ StronglySorted gt_ b /\ forall x y, In x a -> In y b -> gt_ x y.
Proof.
  induction a as [|z a IH]; cbn; intros H.
  - repeat split; auto; [constructor|tauto].
  - inversion H as [|? ? H1 H2]; subst. destruct (IH H1) as (A & B & C).
    apply Forall_app in H2. destruct H2 as [F1 F2].
    split; [constructor; auto|]. split; auto.
    intros x y [<-|Hx] Hy; auto. rewrite Forall_forall in F2. auto.
Qed.

Lemma firstn_prefix k (l : list dblIdx) x y : StronglySorted gt_ l ->
  In x (firstn k l) -> In y l -> ~ In y (firstn k l) -> gt_ x y.
Proof.
  intros HS Hx Hy HN. rewrite <- (firstn_skipn k l) in HS, Hy.
  apply ss_app_inv in HS. destruct HS as (_ & _ & HS). apply HS; auto.
  apply in_app_or in Hy. tauto.
Qed.

Lemma in_firstn {A} k (l : list A) x : In x (firstn k l) -> In x l.
Proof. intros H. rewrite <- (firstn_skipn k l). apply in_or_app. auto. Qed.

Lemma firstn_nodup {A} k (l : list A) : NoDup l -> NoDup (firstn k l).
Proof.
  intros H. rewrite <- (firstn_skipn k l) in H. revert H.
  generalize (skipn k l) as r. induction (firstn k l); cbn; intros r H; [constructor|].
  inversion H; subst. constructor; [|eapply IHl0; eauto].
  intros Hin. apply H2. apply in_or_app. auto.
Qed.

(** The indices of the first k entries. *)
Lemma marked_iff errs k i :
  In i (map snd (firstn k (sortP (indexed errs)))) <->
  In (err errs i, i) (firstn k (sortP (indexed errs))).
Proof.
  rewrite in_map_iff. split.
  - intros ([e j] & <- & H). cbn. pose proof (in_firstn _ _ _ H) as H1.
    apply In_sorted in H1. destruct H1 as [_ ->]. auto.
  - intros H. exists (err errs i, i). auto.
Qed.

Lemma marked_facts errs k :
  let l := map snd (firstn k (sortP (indexed errs))) in
  NoDup l /\ (forall i, In i l -> valid errs i) /\ worst_first errs l /\
  length l = Nat.min k (length errs).
Proof.
  intros l. unfold l. split; [|split; [|split]].
  - rewrite <- firstn_map. apply firstn_nodup, sorted_nodup.
  - intros i H. apply marked_iff in H. apply in_firstn in H.
    apply In_sorted in H. tauto.
  - intros i j Hi Hj HN. apply marked_iff in Hi. rewrite marked_iff in HN.
    assert (G : gt_ (err errs i, i) (err errs j, j)).
    { apply (firstn_prefix k _ _ _ (sorted_sorted errs)); auto. apply In_sorted. auto. }
    destruct G as [G|[G _]]; cbn in G; lra.
  - rewrite map_length, firstn_length, sorted_length. auto.
Qed.

(* ---- upper_bound ---- *)
Lemma upper_bound_spec l v : StronglySorted gt_ l ->
  forall x, In x (firstn (upper_bound l v) l) <-> In x l /\ gt_ x v.
Proof.
  induction l as [|e l IH]; intros HS x; [cbn; tauto|].
  inversion HS as [|? ? HS' HF]; subst. cbn [upper_bound]. unfold geP.
  destruct (gtP e v) eqn:E; cbn [negb].
  - apply gtP_iff in E. cbn [firstn In]. rewrite IH by auto. split.
    + intros [<-|[H H1]]; auto.
    + intros [[<-|H] H1]; auto.
  - cbn [firstn In]. split; [tauto|]. intros [H G].
    assert (NE : ~ gt_ e v) by (rewrite <- gtP_iff; congruence).
    destruct H as [<-|H]; [tauto|]. rewrite Forall_forall in HF.
    apply NE. eapply gt_trans; eauto.
Qed.
Lemma upper_bound_le l v : (upper_bound l v <= length l)%nat.
Proof. induction l; cbn; [lia|]. destruct (geP v a); lia. Qed.

(* ---- accesses ---- *)
Lemma at_some {A} (l : list A) i : 0 <= i < Z.of_nat (length l) -> exists x, at_ l i = Some x.
Proof.
  intros H. unfold at_. destruct (Z.ltb_spec i 0); [lia|].
  destruct (nth_error l (Z.to_nat i)) eqn:E; eauto.
  apply nth_error_None in E. lia.
Qed.
Lemma at_none {A} (l : list A) i : i < 0 \/ Z.of_nat (length l) <= i -> at_ l i = None.
Proof.
  intros H. unfold at_. destruct (Z.ltb_spec i 0); auto.
  apply nth_error_None. lia.
Qed.

(** The number of marked entries at a percentage. *)
Lemma ceil_bounds n beta : (0 < n)%nat -> (0 < beta)%Q -> (beta <= 100)%Q ->
  1 <= Qceiling (inject_Z (Z.of_nat n) * beta / 100) <= Z.of_nat n.
Proof.
  intros Hn Hb1 Hb2. set (N := inject_Z (Z.of_nat n)).
  assert (HN : (0 < N)%Q).
  { unfold N. replace 0%Q with (inject_Z 0) by reflexivity. rewrite <- Zlt_Qlt. lia. }
  assert (P : (0 < N * beta)%Q) by (apply Qmult_lt_0_compat; auto).
  assert (U : (N * beta <= N * 100)%Q).
  { rewrite (Qmult_comm N beta), (Qmult_comm N 100). apply Qmult_le_compat_r; lra. }
  assert (E : (N * beta / 100 == N * beta * (1#100))%Q) by (unfold Qdiv; reflexivity).
  split.
  - assert (H : (0 < inject_Z (Qceiling (N * beta / 100)))%Q).
    { eapply Qlt_le_trans; [|apply Qle_ceiling]. rewrite E. lra. }
    replace 0%Q with (inject_Z 0) in H by reflexivity. rewrite <- Zlt_Qlt in H. lia.
  - assert (H : (N * beta / 100 <= N)%Q) by (rewrite E; lra).
    apply Qceiling_resp_le in H. unfold N in H at 2. rewrite Qceiling_Z in H. auto.
Qed.
