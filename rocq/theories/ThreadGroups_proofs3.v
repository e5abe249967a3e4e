(** Proofs about the thread group model, part 3: races, filtering, mapping. *)
From Coq Require Import List Arith Bool Lia Permutation ZArith QArith Qcanon.
Require Import ZifyBool ZifyNat.
From Verif Require Import ThreadGroups_model ThreadGroups_spec ThreadGroups_proofs ThreadGroups_proofs2
  Race_model Race_proofs.
Import ListNotations.
Ltac Zify.zify_post_hook ::= Z.div_mod_to_equations.
Local Open Scope nat_scope.

Lemma total_perm (l1 l2 : list ((nat*nat)*Qc)) c : Permutation l1 l2 ->
  total cell_eq c l1 = total cell_eq c l2.
Proof.
  induction 1; simpl; try congruence.
  - rewrite IHPermutation. reflexivity.
  - destruct (cell_eq _ _), (cell_eq _ _); ring.
Qed.

Lemma concat_flat_map (upd : nat -> list ((nat*nat)*Qc)) (grp : imat) :
  concat (map (flat_map upd) grp) = flat_map upd (concat grp).
Proof. induction grp as [|a l IH]; simpl; [reflexivity|]. rewrite flat_map_app, IH. reflexivity. Qed.

Lemma Permutation_flat_map_elm (upd : nat -> list ((nat*nat)*Qc)) l1 l2 : Permutation l1 l2 ->
  Permutation (flat_map upd l1) (flat_map upd l2).
Proof. apply Permutation_flat_map. Qed.

(** Two elements in different threads of a group have no common cell. *)
Definition conflict_free (upd : nat -> list ((nat*nat)*Qc)) (grp : imat) : Prop :=
  forall t1 t2 e1 e2 c, t1 <> t2 -> In e1 (nth t1 grp []) -> In e2 (nth t2 grp []) ->
    In c (map fst (upd e1)) -> In c (map fst (upd e2)) -> False.

Lemma group_run upd grp m0 m1 ts : conflict_free upd grp ->
  run cell_eq (m0, start (map (flat_map upd) grp)) (m1, ts) -> done ts ->
  forall c, m1 c = (m0 c + total cell_eq c (flat_map upd (concat grp)))%Qc.
Proof.
  intros C R D c. rewrite <- concat_flat_map. eapply race_free; eauto.
  intros i j c' Hne Hi Hj.
  change (@nil ((nat*nat)*Qc)) with (flat_map upd []) in Hi, Hj. rewrite map_nth in Hi, Hj.
  rewrite flat_map_concat_map in Hi, Hj. rewrite concat_map, map_map in Hi, Hj.
  apply in_concat in Hi. destruct Hi as (x&Hx&Hc). apply in_map_iff in Hx. destruct Hx as (e1&<-&He1).
  apply in_concat in Hj. destruct Hj as (y&Hy&Hc'). apply in_map_iff in Hy. destruct Hy as (e2&<-&He2).
  eapply C; eauto.
Qed.

Lemma par_total upd g m0 m2 : conflict_free upd (tg0 g) -> conflict_free upd (tg1 g) ->
  par_assembly upd g m0 m2 ->
  forall c, m2 c = (m0 c + total cell_eq c (flat_map upd (allElms g)))%Qc.
Proof.
  intros C0 C1 (m1&ts1&ts2&R0&D0&R1&D1) c.
  rewrite (group_run _ _ _ _ _ C1 R1 D1 c), (group_run _ _ _ _ _ C0 R0 D0 c).
  unfold allElms. rewrite flat_map_app, total_app. ring.
Qed.

Lemma spline_disjoint n1 n2 p1 p2 p3 d e1 e2 f : d = U \/ d = V \/ d = W ->
  (coord d n1 n2 e1 < coord d n1 n2 e2 -> pdir p1 p2 p3 d < coord d n1 n2 e2 - coord d n1 n2 e1) ->
  (coord d n1 n2 e2 < coord d n1 n2 e1 -> pdir p1 p2 p3 d < coord d n1 n2 e1 - coord d n1 n2 e2) ->
  coord d n1 n2 e1 <> coord d n1 n2 e2 ->
  supp_spline n1 n2 p1 p2 p3 e1 f -> supp_spline n1 n2 p1 p2 p3 e2 f -> False.
Proof. intros Hd A B C S1 S2. specialize (S1 d Hd). specialize (S2 d Hd). lia. Qed.

Lemma lag_disjoint n1 n2 p1 p2 p3 d e1 e2 f : d = U \/ d = V \/ d = W -> 0 < pdir p1 p2 p3 d ->
  (coord d n1 n2 e1 < coord d n1 n2 e2 -> 1 < coord d n1 n2 e2 - coord d n1 n2 e1) ->
  (coord d n1 n2 e2 < coord d n1 n2 e1 -> 1 < coord d n1 n2 e1 - coord d n1 n2 e2) ->
  coord d n1 n2 e1 <> coord d n1 n2 e2 ->
  supp_lag n1 n2 p1 p2 p3 e1 f -> supp_lag n1 n2 p1 p2 p3 e2 f -> False.
Proof. intros Hd P A B C S1 S2. specialize (S1 d Hd). specialize (S2 d Hd). nia. Qed.

Lemma striped_lag g maxthr n1 n2 n3 m p1 p2 p3 upd : striped g maxthr n1 n2 n3 m ->
  1 <= m -> 0 < p1 -> 0 < p2 -> 0 < p3 ->
  (forall e f h v, In ((f,h),v) (upd e) -> supp_lag n1 n2 p1 p2 p3 e f) ->
  forall grp, grp = tg0 g \/ grp = tg1 g -> conflict_free upd grp.
Proof.
  intros S Hm P1 P2 P3 Hu grp Hg t1 t2 e1 e2 [f h] Hne H1 H2 C1 C2.
  destruct (striped_sep _ _ _ _ _ _ S _ Hg _ _ _ _ Hne H1 H2) as (A&B&C).
  apply in_map_iff in C1. destruct C1 as ([c1 v1]&E1&I1). simpl in E1. subst c1.
  apply in_map_iff in C2. destruct C2 as ([c2 v2]&E2&I2). simpl in E2. subst c2.
  apply (lag_disjoint n1 n2 p1 p2 p3 (stripDir g) e1 e2 f); eauto; try lia.
  - apply (proj1 S).
  - unfold pdir. destruct (stripDir g); auto.
Qed.

Lemma par_lag3 d maxthr n1 n2 n3 m p1 p2 p3 upd m0 m2 : d <> NONE ->
  1 <= m -> 0 < p1 -> 0 < p2 -> 0 < p3 ->
  (forall e f h v, In ((f,h),v) (upd e) -> supp_lag n1 n2 p1 p2 p3 e f) ->
  par_assembly upd (calcGroups3 (fresh d) maxthr n1 n2 n3 m) m0 m2 ->
  forall c, m2 c = (m0 c + total cell_eq c (flat_map upd (seq 0 (n1*n2*n3))))%Qc.
Proof.
  intros Hd Hm P1 P2 P3 Hu R c. pose proof (calcGroups3_striped d maxthr n1 n2 n3 m Hd) as S.
  rewrite (par_total upd _ m0 m2 (striped_lag _ _ _ _ _ _ _ _ _ _ S Hm P1 P2 P3 Hu _ (or_introl eq_refl))
             (striped_lag _ _ _ _ _ _ _ _ _ _ S Hm P1 P2 P3 Hu _ (or_intror eq_refl)) R c).
  f_equal. apply total_perm, Permutation_flat_map. eapply striped_partition; eauto.
Qed.

Lemma par_lag2 d maxthr n1 n2 m p1 p2 upd m0 m2 : d = ANY \/ d = U \/ d = V ->
  1 <= m -> 0 < p1 -> 0 < p2 ->
  (forall e f h v, In ((f,h),v) (upd e) -> supp_lag n1 n2 p1 p2 1 e f) ->
  par_assembly upd (calcGroups2 (fresh d) maxthr n1 n2 m) m0 m2 ->
  forall c, m2 c = (m0 c + total cell_eq c (flat_map upd (seq 0 (n1*n2))))%Qc.
Proof.
  intros Hd Hm P1 P2 Hu R c. destruct (calcGroups2_striped d maxthr n1 n2 m Hd) as [S _].
  assert (P3 : 0 < 1) by lia.
  rewrite (par_total upd _ m0 m2 (striped_lag _ _ _ _ _ _ _ _ _ _ S Hm P1 P2 P3 Hu _ (or_introl eq_refl))
             (striped_lag _ _ _ _ _ _ _ _ _ _ S Hm P1 P2 P3 Hu _ (or_intror eq_refl)) R c).
  f_equal. apply total_perm, Permutation_flat_map.
  replace (n1*n2) with (n1*n2*1) by lia. eapply striped_partition; eauto.
Qed.

(** ** With knot-span flags *)
Lemma nonzero_between_le M c1 c2 : nonzero_between M c1 c2 <= c2 - S c1.
Proof. unfold nonzero_between. eapply Nat.le_trans; [apply countTrue_le|]. rewrite firstn_length. lia. Qed.

Lemma stripedB_spline g el1 el2 el3 m p1 p2 p3 upd : stripedB g el1 el2 el3 m ->
  pdir p1 p2 p3 (stripDir g) <= m ->
  (forall e f h v, In ((f,h),v) (upd e) -> supp_spline (length el1) (length el2) p1 p2 p3 e f) ->
  forall grp, grp = tg0 g \/ grp = tg1 g -> conflict_free upd grp.
Proof.
  intros S Hm Hu grp Hg t1 t2 e1 e2 [f h] Hne H1 H2 C1 C2.
  destruct (stripedB_sep _ _ _ _ _ S _ Hg _ _ _ _ Hne H1 H2) as (A&B).
  apply in_map_iff in C1. destruct C1 as ([c1 v1]&E1&I1). simpl in E1. subst c1.
  apply in_map_iff in C2. destruct C2 as ([c2 v2]&E2&I2). simpl in E2. subst c2.
  pose proof (nonzero_between_le (mask_in (stripDir g) el1 el2 el3)
     (Nat.min (coord (stripDir g) (length el1) (length el2) e1) (coord (stripDir g) (length el1) (length el2) e2))
     (Nat.max (coord (stripDir g) (length el1) (length el2) e1) (coord (stripDir g) (length el1) (length el2) e2))) as L.
  apply (spline_disjoint (length el1) (length el2) p1 p2 p3 (stripDir g) e1 e2 f); eauto; try lia.
  apply (proj1 S).
Qed.

Lemma count_occ_le1_NoDup (l : list nat) : (forall e, count_occ Nat.eq_dec l e <= 1) -> NoDup l.
Proof. intros H. apply (NoDup_count_occ Nat.eq_dec). exact H. Qed.

Lemma flat_map_skip (upd : nat -> list ((nat*nat)*Qc)) (keep : nat -> bool) l :
  (forall e, In e l -> keep e = false -> upd e = []) -> flat_map upd l = flat_map upd (filter keep l).
Proof.
  induction l as [|a l IH]; intros H; simpl; [reflexivity|].
  rewrite IH by (intros e He; apply H; right; exact He).
  destruct (keep a) eqn:E; simpl; [reflexivity|]. rewrite (H a (or_introl eq_refl) E). reflexivity.
Qed.

Lemma stripedB_total g el1 el2 el3 m upd c : stripedB g el1 el2 el3 m ->
  (forall e, e < length el1 * length el2 * length el3 -> ~ real_elm el1 el2 el3 e -> upd e = []) ->
  total cell_eq c (flat_map upd (allElms g)) =
  total cell_eq c (flat_map upd (seq 0 (length el1 * length el2 * length el3))).
Proof.
  intros S Hz. destruct (stripedB_count _ _ _ _ _ S) as (H1&H2&H3).
  set (keep := fun e => nth (coord (stripDir g) (length el1) (length el2) e) (mask_in (stripDir g) el1 el2 el3) false).
  assert (Hk : forall e, e < length el1 * length el2 * length el3 -> keep e = false -> upd e = []).
  { intros e He K. apply Hz; auto. intros [_ R]. unfold keep in K. rewrite R in K; [discriminate|]. apply (proj1 S). }
  rewrite (flat_map_skip upd keep (allElms g)) by (intros; apply Hk; auto).
  rewrite (flat_map_skip upd keep (seq 0 _)) by (intros e He; apply in_seq in He; apply Hk; lia).
  apply total_perm, Permutation_flat_map. apply NoDup_Permutation.
  - apply NoDup_filter, count_occ_le1_NoDup, H1.
  - apply NoDup_filter, seq_NoDup.
  - intros e. rewrite !filter_In, in_seq. split; intros [A B]; split; auto.
    + apply H2 in A. lia.
    + apply (count_occ_In Nat.eq_dec). rewrite H3; [lia|lia|exact B].
Qed.

Lemma par_spline3 d maxthr el1 el2 el3 p1 p2 p3 upd m0 m2 : d <> NONE ->
  (forall e f h v, In ((f,h),v) (upd e) -> supp_spline (length el1) (length el2) p1 p2 p3 e f) ->
  (forall e, e < length el1 * length el2 * length el3 -> ~ real_elm el1 el2 el3 e -> upd e = []) ->
  exists g, calcGroupsB3 (fresh d) maxthr el1 el2 el3 p1 p2 p3 = Some g /\
  (par_assembly upd g m0 m2 ->
   forall c, m2 c = (m0 c + total cell_eq c (flat_map upd (seq 0 (length el1 * length el2 * length el3))))%Qc).
Proof.
  intros Hd Hu Hz. destruct (calcGroupsB3_striped d maxthr el1 el2 el3 p1 p2 p3 Hd) as (g&E&S).
  exists g. split; [exact E|]. intros R c.
  assert (Hm : pdir p1 p2 p3 (stripDir g) <= match stripDir g with U => p1 | V => p2 | _ => p3 end)
    by (unfold pdir; destruct (stripDir g); lia).
  rewrite (par_total upd _ m0 m2 (stripedB_spline _ _ _ _ _ _ _ _ _ S Hm Hu _ (or_introl eq_refl))
             (stripedB_spline _ _ _ _ _ _ _ _ _ S Hm Hu _ (or_intror eq_refl)) R c).
  f_equal. eapply stripedB_total; eauto.
Qed.

Lemma par_spline2 d maxthr el1 el2 p1 p2 upd m0 m2 : d = ANY \/ d = U \/ d = V ->
  (forall e f h v, In ((f,h),v) (upd e) -> supp_spline (length el1) (length el2) p1 p2 0 e f) ->
  (forall e, e < length el1 * length el2 -> ~ real_elm el1 el2 [true] e -> upd e = []) ->
  exists g, calcGroupsB2 (fresh d) maxthr el1 el2 p1 p2 = Some g /\
  (par_assembly upd g m0 m2 ->
   forall c, m2 c = (m0 c + total cell_eq c (flat_map upd (seq 0 (length el1 * length el2))))%Qc).
Proof.
  intros Hd Hu Hz. destruct (calcGroupsB2_striped d maxthr el1 el2 p1 p2 Hd) as (g&E&S&Hs).
  exists g. split; [exact E|]. intros R c.
  assert (Hm : pdir p1 p2 0 (stripDir g) <= match stripDir g with U => p1 | _ => p2 end)
    by (unfold pdir; destruct (stripDir g); lia).
  rewrite (par_total upd _ m0 m2 (stripedB_spline _ _ _ _ _ _ _ _ _ S Hm Hu _ (or_introl eq_refl))
             (stripedB_spline _ _ _ _ _ _ _ _ _ S Hm Hu _ (or_intror eq_refl)) R c).
  f_equal. replace (length el1 * length el2) with (length el1 * length el2 * length [true]) by (simpl; lia).
  eapply stripedB_total; eauto. intros e He. apply Hz. simpl in He. lia.
Qed.

(** C03: every real element exactly once, nothing twice, nothing foreign *)
Lemma B3_cover d maxthr el1 el2 el3 p1 p2 p3 : d <> NONE ->
  exists g, calcGroupsB3 (fresh d) maxthr el1 el2 el3 p1 p2 p3 = Some g /\
  NoDup (allElms g) /\ (forall e, In e (allElms g) -> e < length el1 * length el2 * length el3) /\
  (forall e, real_elm el1 el2 el3 e -> In e (allElms g)) /\
  (forall grp t1 t2 e1 e2, grp = tg0 g \/ grp = tg1 g -> t1 <> t2 ->
     In e1 (nth t1 grp []) -> In e2 (nth t2 grp []) ->
     let c1 := coord (stripDir g) (length el1) (length el2) e1 in
     let c2 := coord (stripDir g) (length el1) (length el2) e2 in
     c1 <> c2 /\ pdir p1 p2 p3 (stripDir g) <=
       nonzero_between (mask_in (stripDir g) el1 el2 el3) (Nat.min c1 c2) (Nat.max c1 c2)).
Proof.
  intros Hd. destruct (calcGroupsB3_striped d maxthr el1 el2 el3 p1 p2 p3 Hd) as (g&E&S).
  exists g. destruct (stripedB_count _ _ _ _ _ S) as (H1&H2&H3).
  repeat split; auto using count_occ_le1_NoDup.
  - intros e [He Hr]. apply (count_occ_In Nat.eq_dec). rewrite H3; [lia|auto|apply Hr, (proj1 S)].
  - eapply stripedB_sep; eauto.
  - apply (stripedB_sep _ _ _ _ _ S grp H t1 t2 e1 e2 H0 H4 H5).
Qed.

Lemma B2_cover d maxthr el1 el2 p1 p2 : d = ANY \/ d = U \/ d = V ->
  exists g, calcGroupsB2 (fresh d) maxthr el1 el2 p1 p2 = Some g /\
  NoDup (allElms g) /\ (forall e, In e (allElms g) -> e < length el1 * length el2) /\
  (forall e, real_elm el1 el2 [true] e -> In e (allElms g)) /\
  (forall grp t1 t2 e1 e2, grp = tg0 g \/ grp = tg1 g -> t1 <> t2 ->
     In e1 (nth t1 grp []) -> In e2 (nth t2 grp []) ->
     let c1 := coord (stripDir g) (length el1) (length el2) e1 in
     let c2 := coord (stripDir g) (length el1) (length el2) e2 in
     c1 <> c2 /\ pdir p1 p2 0 (stripDir g) <=
       nonzero_between (mask_in (stripDir g) el1 el2 [true]) (Nat.min c1 c2) (Nat.max c1 c2)).
Proof.
  intros Hd. destruct (calcGroupsB2_striped d maxthr el1 el2 p1 p2 Hd) as (g&E&S&Hs).
  exists g. destruct (stripedB_count _ _ _ _ _ S) as (H1&H2&H3).
  repeat split; auto using count_occ_le1_NoDup.
  - intros e He. apply H2 in He. simpl in He. lia.
  - intros e [He Hr]. apply (count_occ_In Nat.eq_dec). rewrite H3; [lia|auto|apply Hr, (proj1 S)].
  - eapply stripedB_sep; eauto.
  - eapply Nat.le_trans; [|apply (stripedB_sep _ _ _ _ _ S grp H t1 t2 e1 e2 H0 H4 H5)].
    unfold pdir. destruct Hs as [-> | ->]; lia.
Qed.

(** ** Filtering and mapping *)
Lemma memb_In l e : memb l e = true <-> In e l.
Proof. unfold memb. rewrite existsb_exists. split; [intros (x&H&E); apply Nat.eqb_eq in E; subst; auto|]. exists e. rewrite Nat.eqb_refl. auto. Qed.

Definition sameShape (a b : imat) : Prop := length a = length b.

Lemma filter_group (grp : imat) elms t :
  nth t (map (filter (memb elms)) grp) [] = filter (memb elms) (nth t grp []).
Proof. change (@nil nat) with (filter (memb elms) []) at 1. apply map_nth. Qed.

Lemma sequence_spec {A} (l : list (option A)) r : sequence l = Some r <-> l = map Some r.
Proof.
  revert r; induction l as [|[x|] l IH]; intros r; simpl.
  - split; [intros [= <-]; reflexivity|destruct r; [reflexivity|discriminate]].
  - destruct (sequence l) as [r'|] eqn:E.
    + split; [intros [= <-]; simpl; f_equal; apply IH; reflexivity|].
      destruct r as [|y r]; simpl; [discriminate|]. intros [= -> H]. apply IH in H. congruence.
    + split; [discriminate|]. destruct r as [|y r]; simpl; [discriminate|]. intros [= -> H].
      apply IH in H. discriminate.
  - split; [discriminate|destruct r; discriminate].
Qed.

Lemma mapList_spec mp l r : mapList mp l = Some r <->
  length r = length l /\ forall k e, nth_error l k = Some e -> nth_error mp e = nth_error r k /\ e < length mp.
Proof.
  unfold mapList. rewrite sequence_spec. split.
  - intros H. assert (L : length r = length l).
    { apply (f_equal (@length _)) in H. rewrite !map_length in H. auto. }
    split; [auto|]. intros k e Hk.
    assert (Q : nth_error (map (fun e => nth_error mp e) l) k = nth_error (map Some r) k) by congruence.
    rewrite !nth_error_map, Hk in Q. simpl in Q.
    destruct (nth_error r k) eqn:E; simpl in Q; [|discriminate].
    injection Q; intros ->. split; [auto|]. apply nth_error_Some. congruence.
  - intros [L H]. revert r L H. induction l as [|e l IH]; intros [|x r] L H; simpl in L; try lia; simpl; [reflexivity|].
    destruct (H 0 e eq_refl) as [H0 _]. simpl in H0. rewrite H0. f_equal.
    apply IH; [lia|]. intros k e' Hk. apply (H (S k) e'). exact Hk.
Qed.

(** Filtering keeps groups conflict free and the assembled sum is that of the
    listed elements. *)
Lemma conflict_free_filter upd grp l : conflict_free upd grp ->
  conflict_free upd (map (filter (memb l)) grp).
Proof.
  intros C t1 t2 e1 e2 c Hne H1 H2. rewrite filter_group in H1, H2.
  apply filter_In in H1. apply filter_In in H2. apply (C t1 t2 e1 e2 c Hne (proj1 H1) (proj1 H2)).
Qed.
Lemma allElms_filter g l : allElms (filterGroups g l) = filter (memb l) (allElms g).
Proof.
  unfold allElms, filterGroups. cbn [tg0 tg1]. rewrite filter_app. f_equal;
  rewrite <- !concat_filter_map; reflexivity.
Qed.
Lemma Permutation_filter_nat (f : nat -> bool) l1 l2 : Permutation l1 l2 ->
  Permutation (filter f l1) (filter f l2).
Proof.
  induction 1; simpl; auto.
  - destruct (f x); auto.
  - destruct (f x), (f y); auto. constructor.
  - econstructor; eauto.
Qed.
Lemma filter_partition d maxthr n1 n2 n3 m l : d <> NONE ->
  Permutation (allElms (filterGroups (calcGroups3 (fresh d) maxthr n1 n2 n3 m) l))
              (filter (memb l) (seq 0 (n1*n2*n3))).
Proof.
  intros Hd. rewrite allElms_filter. apply Permutation_filter_nat.
  eapply striped_partition, calcGroups3_striped; auto.
Qed.
Lemma par_lag3_filter d maxthr n1 n2 n3 m p1 p2 p3 upd l m0 m2 : d <> NONE ->
  1 <= m -> 0 < p1 -> 0 < p2 -> 0 < p3 ->
  (forall e f h v, In ((f,h),v) (upd e) -> supp_lag n1 n2 p1 p2 p3 e f) ->
  par_assembly upd (filterGroups (calcGroups3 (fresh d) maxthr n1 n2 n3 m) l) m0 m2 ->
  forall c, m2 c = (m0 c + total cell_eq c (flat_map upd (filter (memb l) (seq 0 (n1*n2*n3)))))%Qc.
Proof.
  intros Hd Hm P1 P2 P3 Hu R c. pose proof (calcGroups3_striped d maxthr n1 n2 n3 m Hd) as S.
  rewrite (par_total upd (filterGroups (calcGroups3 (fresh d) maxthr n1 n2 n3 m) l) m0 m2
     (conflict_free_filter _ _ l (striped_lag _ _ _ _ _ _ _ _ _ _ S Hm P1 P2 P3 Hu _ (or_introl eq_refl)))
     (conflict_free_filter _ _ l (striped_lag _ _ _ _ _ _ _ _ _ _ S Hm P1 P2 P3 Hu _ (or_intror eq_refl))) R c).
  f_equal. apply total_perm, Permutation_flat_map. apply filter_partition. exact Hd.
Qed.

Lemma filter_shape g l : length (tg0 (filterGroups g l)) = length (tg0 g) /\
  length (tg1 (filterGroups g l)) = length (tg1 g) /\
  forall t,
    nth t (tg0 (filterGroups g l)) [] =
      filter (fun e => if in_dec Nat.eq_dec e l then true else false) (nth t (tg0 g) []) /\
    nth t (tg1 (filterGroups g l)) [] =
      filter (fun e => if in_dec Nat.eq_dec e l then true else false) (nth t (tg1 g) []).
Proof.
  unfold filterGroups; cbn [tg0 tg1]. rewrite !map_length. repeat split; rewrite filter_group;
  apply filter_ext; intros e; destruct (in_dec _ _ _) as [I|I];
  try (apply memb_In; exact I); destruct (memb l e) eqn:E; auto; apply memb_In in E; contradiction.
Qed.

Lemma sequence_none {A} (l : list (option A)) : sequence l = None <-> In None l.
Proof.
  induction l as [|[x|] l IH]; simpl.
  - split; [discriminate|intros []].
  - destruct (sequence l); split.
    + discriminate.
    + intros [H|H]; [discriminate|]. apply IH in H. discriminate.
    + intros _. right. apply IH. reflexivity.
    + reflexivity.
  - split; auto.
Qed.
Lemma mapList_none mp l : mapList mp l = None <-> exists e, In e l /\ length mp <= e.
Proof.
  unfold mapList. rewrite sequence_none, in_map_iff. split; intros (e&A&B); exists e.
  - split; [auto|]. apply nth_error_None. exact A.
  - split; [apply nth_error_None; exact B|exact A].
Qed.

Lemma sequence_groups mp grp r : sequence (map (mapList mp) grp) = Some r ->
  length r = length grp /\ forall t, t < length grp -> mapList mp (nth t grp []) = Some (nth t r []).
Proof.
  rewrite sequence_spec. intros H.
  assert (L : length r = length grp). { apply (f_equal (@length _)) in H. rewrite !map_length in H. auto. }
  split; [auto|]. intros t Ht.
  assert (Q : nth_error (map (mapList mp) grp) t = nth_error (map Some r) t) by congruence.
  rewrite !nth_error_map in Q.
  assert (Ht' : t < length r) by lia.
  rewrite (nth_error_nth' grp [] Ht), (nth_error_nth' r [] Ht') in Q. simpl in Q. congruence.
Qed.

Lemma mapList_map mp l r : mapList mp l = Some r -> r = map (fun e => nth e mp 0) l.
Proof.
  unfold mapList. rewrite sequence_spec. revert r; induction l as [|e l IH]; intros [|x r]; simpl; intros H; try discriminate; auto.
  injection H; intros H' H0. f_equal; [|apply IH; exact H'].
  symmetry. apply nth_error_nth. exact H0.
Qed.

Lemma applyMap_none g mp : applyMap g mp = None <-> exists e, In e (allElms g) /\ length mp <= e.
Proof.
  unfold applyMap, allElms.
  assert (Q : forall grp, sequence (map (mapList mp) grp) = None <-> exists e, In e (concat grp) /\ length mp <= e).
  { intros grp. rewrite sequence_none, in_map_iff. split.
    - intros (l&A&B). apply mapList_none in A. destruct A as (e&A1&A2). exists e. split; [|exact A2].
      apply in_concat. eauto.
    - intros (e&A&B). apply in_concat in A. destruct A as (l&A1&A2). exists l. split; [|exact A1].
      apply mapList_none. eauto. }
  split.
  - intros H. destruct (sequence (map (mapList mp) (tg0 g))) eqn:E0.
    + destruct (sequence (map (mapList mp) (tg1 g))) eqn:E1; [discriminate|].
      apply Q in E1. destruct E1 as (e&A&B). exists e. rewrite in_app_iff. auto.
    + apply Q in E0. destruct E0 as (e&A&B). exists e. rewrite in_app_iff. auto.
  - intros (e&A&B). rewrite in_app_iff in A. destruct A as [A|A].
    + assert (E0 : sequence (map (mapList mp) (tg0 g)) = None) by (apply Q; eauto). rewrite E0. reflexivity.
    + assert (E1 : sequence (map (mapList mp) (tg1 g)) = None) by (apply Q; eauto). rewrite E1.
      destruct (sequence (map (mapList mp) (tg0 g))); reflexivity.
Qed.

Lemma applyMap_some g mp : (forall e, In e (allElms g) -> e < length mp) ->
  exists g', applyMap g mp = Some g' /\ stripDir g' = stripDir g /\
    tg0 g' = map (map (fun e => nth e mp 0)) (tg0 g) /\
    tg1 g' = map (map (fun e => nth e mp 0)) (tg1 g).
Proof.
  intros H. destruct (applyMap g mp) as [g'|] eqn:E.
  2:{ apply applyMap_none in E. destruct E as (e&A&B). apply H in A. lia. }
  exists g'. split; [reflexivity|]. unfold applyMap in E.
  destruct (sequence (map (mapList mp) (tg0 g))) as [a|] eqn:E0; [|discriminate].
  destruct (sequence (map (mapList mp) (tg1 g))) as [b|] eqn:E1; [|discriminate].
  injection E; intros <-. cbn [stripDir tg0 tg1]. split; [reflexivity|].
  assert (Q : forall grp r, sequence (map (mapList mp) grp) = Some r -> r = map (map (fun e => nth e mp 0)) grp).
  { intros grp r Hq. apply sequence_groups in Hq. destruct Hq as [L Hq].
    apply nth_ext with (d := []) (d' := []); [rewrite map_length; lia|]. intros t Ht.
    rewrite L in Ht. specialize (Hq t Ht). apply mapList_map in Hq. rewrite Hq.
    change (@nil nat) with (map (fun e => nth e mp 0) []) at 2. rewrite map_nth. reflexivity. }
  split; apply Q; assumption.
Qed.

Lemma threads_bound3 d maxthr n1 n2 n3 m : d <> NONE ->
  let g := calcGroups3 (fresh d) maxthr n1 n2 n3 m in
  length (tg0 g) <= Nat.max 1 maxthr /\ length (tg1 g) <= Nat.max 1 maxthr.
Proof.
  intros Hd. cbv zeta. destruct (calcGroups3_striped d maxthr n1 n2 n3 m Hd) as [_ [[-> ->]|(w0&w1&o0&o1&H1&H2&H3&H4&H5&H6&E0&E1)]].
  - cbn [length]; lia.
  - 
    pose proof (offsets_length 0 w0 w1 H2) as [P0 P1]. rewrite H3 in P0, P1. cbn [fst snd] in P0, P1.
    rewrite E0, E1, !map_length, !combine_length. lia.
Qed.
