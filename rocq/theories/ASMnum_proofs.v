(** Proofs about node renumbering. *)
From Coq Require Import List Sorted Arith ZArith QArith Qcanon Bool Lia Permutation.
From Verif Require Import Base MPC_model MPC_spec ASMbc_model ASMbc_spec ASMnum_model ASMnum_spec.
Import ListNotations.
Local Open Scope Z_scope.

(** ** sorted association lists *)
Definition msorted (m : list (Z * Z)) : Prop := StronglySorted Z.lt (map fst m).
Lemma zfind_mset k v m n : zfind n (mset k v m) = if n =? k then Some v else zfind n m.
Proof.
  induction m as [|[a b] m IH]; cbn [mset zfind]; [reflexivity|].
  destruct (Z.ltb_spec a k) as [L|L].
  - cbn [zfind]. rewrite IH. destruct (Z.eqb_spec n a), (Z.eqb_spec n k); subst; try reflexivity; lia.
  - destruct (Z.ltb_spec k a) as [L2|L2].
    + cbn [zfind]. reflexivity.
    + assert (a = k) by lia. subst. cbn [zfind]. destruct (n =? k); reflexivity.
Qed.
Lemma mset_keys k v m x : In x (map fst (mset k v m)) <-> x = k \/ In x (map fst m).
Proof.
  induction m as [|[a b] m IH]; cbn [mset map In fst]; [intuition|].
  destruct (Z.ltb_spec a k) as [L|L]; [cbn [map In fst]; rewrite IH; intuition|].
  destruct (Z.ltb_spec k a) as [L2|L2]; cbn [map In fst]; intuition; subst; try lia.
Qed.
Lemma mset_sorted k v m : msorted m -> msorted (mset k v m).
Proof.
  unfold msorted. induction m as [|[a b] m IH]; cbn [mset map fst]; intros H; [repeat constructor|].
  apply StronglySorted_inv in H. destruct H as [H1 H2]. rewrite Forall_forall in H2.
  destruct (Z.ltb_spec a k) as [L|L].
  - cbn [map fst]. constructor; [auto|]. apply Forall_forall. intros x Hx. apply mset_keys in Hx. destruct Hx as [->|Hx]; auto.
  - destruct (Z.ltb_spec k a) as [L2|L2]; cbn [map fst].
    + constructor; [constructor; [auto|apply Forall_forall; auto]|]. constructor; [auto|]. apply Forall_forall. intros x Hx. specialize (H2 x Hx). lia.
    + assert (a = k) by lia. subst. constructor; [auto|apply Forall_forall; auto].
Qed.
Lemma zfind_In m a b : zfind a m = Some b -> In (a, b) m.
Proof.
  induction m as [|[x y] m IH]; cbn [zfind]; intros H; [discriminate H|].
  destruct (Z.eqb_spec a x) as [E|E]; [inversion H; subst; left; reflexivity|right; auto].
Qed.
Lemma zfind_None m a : zfind a m = None <-> ~ In a (map fst m).
Proof.
  induction m as [|[x y] m IH]; cbn [zfind map In fst]; [intuition|].
  destruct (Z.eqb_spec a x) as [E|E].
  - split; [intros H; discriminate H|]. intros H. exfalso. apply H. left. auto.
  - rewrite IH. split; [intros H [K|K]; auto|intros H K; apply H; right; auto].
Qed.
Lemma In_zfind m a b : msorted m -> In (a, b) m -> zfind a m = Some b.
Proof.
  unfold msorted. induction m as [|[x y] m IH]; cbn [map fst]; intros S H; [destruct H|].
  apply StronglySorted_inv in S. destruct S as [S1 S2]. rewrite Forall_forall in S2.
  cbn [zfind]. destruct H as [H|H]; [inversion H; subst; rewrite Z.eqb_refl; reflexivity|].
  destruct (Z.eqb_spec a x) as [E|E]; [|auto]. subst. exfalso.
  assert (x < x) by (apply S2; apply in_map_iff; exists (x, b); auto). lia.
Qed.

(** ** first come first served *)
(** position among the distinct nodes in order of first appearance *)
Lemma distinct_snoc l n : distinct (l ++ [n]) = if in_dec Z.eq_dec n l then distinct l else distinct l + 1.
Proof.
  unfold distinct.
  assert (P : Permutation (nodup Z.eq_dec (l ++ [n])) (if in_dec Z.eq_dec n l then nodup Z.eq_dec l else n :: nodup Z.eq_dec l)).
  { destruct (in_dec Z.eq_dec n l) as [I|I]; apply NoDup_Permutation.
    - apply NoDup_nodup.
    - apply NoDup_nodup.
    - intros x. rewrite !nodup_In, in_app_iff. cbn [In]. intuition; subst; auto.
    - apply NoDup_nodup.
    - constructor; [rewrite nodup_In; exact I|apply NoDup_nodup].
    - intros x. cbn [In]. rewrite !nodup_In, in_app_iff. cbn [In]. intuition. }
  apply Permutation_length in P. rewrite P. destruct (in_dec Z.eq_dec n l); cbn [length]; lia.
Qed.
(** state of the renumbering after the nodes [l] have been visited *)
Definition fcInv (l : list Z) (runner : Z) (m : list (Z * Z)) : Prop :=
  msorted m /\ runner = distinct l /\ (forall a, In a (map fst m) <-> In a l) /\
  (forall l1 n l2, l = l1 ++ n :: l2 -> ~ In n l1 -> zfind n m = Some (distinct l1 + 1)).
Lemma fcInv_nil : fcInv [] 0 [].
Proof.
  split; [constructor|]. split; [reflexivity|]. split; [intros a; cbn; tauto|].
  intros l1 n l2 H. destruct l1; discriminate H.
Qed.
Lemma first_split (n : Z) l : In n l -> exists l1 l2, l = l1 ++ n :: l2 /\ ~ In n l1.
Proof.
  induction l as [|x l IH]; intros H; [destruct H|]. destruct (Z.eq_dec x n) as [->|E].
  - exists [], l. split; [reflexivity|intros []].
  - destruct H as [H|H]; [contradiction|]. destruct (IH H) as (l1 & l2 & -> & N). exists (x :: l1), l2. split; [reflexivity|]. intros [K|K]; auto.
Qed.
Lemma fcInv_step l runner m n : fcInv l runner m ->
  let '(ch, v, runner', m') := renumFC n runner m in
  fcInv (l ++ [n]) runner' m' /\ zfind n m' = Some v /\ ch = negb (n =? v) /\
  (forall a b, zfind a m = Some b -> zfind a m' = Some b).
Proof.
  intros (S & R & K & V). unfold renumFC. destruct (zfind n m) as [v|] eqn:F.
  - assert (I : In n l). { apply K. apply zfind_In in F. apply in_map_iff. exists (n, v). auto. }
    split; [|split; [auto|split; [auto|auto]]].
    split; [auto|]. split; [rewrite distinct_snoc; destruct (in_dec _ _ _); [auto|contradiction]|]. split.
    + intros a. rewrite K, in_app_iff. cbn [In]. intuition. subst. auto.
    + intros l1 x l2 E NI. destruct (list_eq_dec Z.eq_dec l2 []) as [->|NE].
      * apply app_inj_tail in E. destruct E as [<- <-]. contradiction.
      * destruct (exists_last NE) as (l2' & y & ->). rewrite app_comm_cons, app_assoc in E. apply app_inj_tail in E. destruct E as [E _]. eapply V; eauto.
  - assert (I : ~ In n l). { rewrite <- K. apply zfind_None. auto. }
    split; [|split; [rewrite zfind_mset, Z.eqb_refl; reflexivity|split; [auto|]]].
    2:{ intros a b H. rewrite zfind_mset. destruct (Z.eqb_spec a n); [subst; congruence|auto]. }
    split; [apply mset_sorted; auto|]. split; [rewrite distinct_snoc; destruct (in_dec _ _ _); [contradiction|lia]|]. split.
    + intros a. rewrite mset_keys, K, in_app_iff. cbn [In]. intuition.
    + intros l1 x l2 E NI. destruct (list_eq_dec Z.eq_dec l2 []) as [->|NE].
      * apply app_inj_tail in E. destruct E as [<- <-]. rewrite zfind_mset, Z.eqb_refl, <- R. reflexivity.
      * destruct (exists_last NE) as (l2' & y & ->). rewrite app_comm_cons, app_assoc in E. apply app_inj_tail in E. destruct E as [E E2].
        rewrite zfind_mset. destruct (Z.eqb_spec x n) as [->|D]; [exfalso; apply I; rewrite E; apply in_app_iff; right; left; reflexivity|]. eapply V; eauto.
Qed.
Definition sig (m : list (Z * Z)) (n : Z) : Z := match zfind n m with Some v => v | None => n end.
Definition extends (m m' : list (Z * Z)) : Prop := forall a b, zfind a m = Some b -> zfind a m' = Some b.
Lemma renumTable_inv l : forall l0 runner m, fcInv l0 runner m ->
  let '(l', c, runner', m') := renumTable l runner m in
  fcInv (l0 ++ l) runner' m' /\ extends m m' /\ l' = map (sig m') l /\ c = changes (sig m') l.
Proof.
  induction l as [|n l IH]; intros l0 runner m I; cbn [renumTable].
  - rewrite app_nil_r. split; [auto|]. split; [intros a b; auto|]. split; reflexivity.
  - pose proof (fcInv_step l0 runner m n I) as St. destruct (renumFC n runner m) as [[[ch v] r'] m'].
    destruct St as (I' & Fv & Ech & X). specialize (IH (l0 ++ [n]) r' m' I').
    destruct (renumTable l r' m') as [[[l' c] r''] m'']. destruct IH as (I'' & X' & -> & ->).
    rewrite <- app_assoc in I''. split; [exact I''|]. split; [intros a b H; auto|].
    assert (E : sig m'' n = v) by (unfold sig; rewrite (X' _ _ Fv); reflexivity).
    split; [cbn [map]; rewrite E; reflexivity|]. unfold changes. cbn [filter]. rewrite E, <- Ech. destruct ch; reflexivity.
Qed.
Lemma distinct_nonneg l : 0 <= distinct l. Proof. unfold distinct. lia. Qed.
Lemma distinct_incl a b : incl a b -> distinct a <= distinct b.
Proof.
  intros H. unfold distinct. apply inj_le. apply NoDup_incl_length; [apply NoDup_nodup|].
  intros x Hx. rewrite nodup_In in *. auto.
Qed.
Lemma fcInv_bound l runner m a b : fcInv l runner m -> zfind a m = Some b -> 1 <= b <= runner.
Proof.
  intros (S & R & K & V) F. assert (I : In a l). { apply K. apply zfind_In in F. apply in_map_iff. exists (a, b). auto. }
  destruct (first_split _ _ I) as (l1 & l2 & E & NI). rewrite (V l1 a l2 E NI) in F. inversion F. subst b.
  pose proof (distinct_nonneg l1). split; [lia|].
  assert (D : distinct (l1 ++ [a]) <= distinct l). { apply distinct_incl. rewrite E. intros x Hx. apply in_app_iff in Hx. apply in_app_iff. cbn [In] in *. intuition. }
  rewrite distinct_snoc in D. destruct (in_dec _ _ _); [contradiction|]. lia.
Qed.
Lemma fcInv_found l runner m a : fcInv l runner m -> In a l -> exists b, zfind a m = Some b.
Proof.
  intros (S & R & K & V) I. destruct (zfind a m) eqn:F; [eauto|]. apply zfind_None in F. rewrite K in F. contradiction.
Qed.
Lemma fold_max_le l : forall x B, x <= B -> (forall y, In y l -> y <= B) -> fold_left Z.max l x <= B.
Proof. induction l as [|y l IH]; intros x B Hx H; cbn [fold_left]; [auto|]. apply IH; [|intros; apply H; right; auto]. assert (y <= B) by (apply H; left; auto). lia. Qed.
Lemma maxOf_le l B : 0 <= B -> (forall y, In y l -> y <= B) -> maxOf l <= B.
Proof. intros H0 H. destruct l as [|x l]; cbn [maxOf]; [auto|]. apply fold_max_le; [apply H; left; auto|intros; apply H; right; auto]. Qed.
Lemma renamed_set s p : renamed s p (setMLGN p (map s (nMLGN p))).
Proof. repeat split. Qed.
Lemma renumPatch_inv p : forall l0 runner m, fcInv l0 runner m ->
  let '(p', c, runner', m') := renumPatch p runner m in
  fcInv (l0 ++ nums p) runner' m' /\ extends m m' /\ p' = setMLGN p (map (sig m') (nMLGN p)) /\ c = changes (sig m') (nums p).
Proof.
  intros l0 runner m I. unfold renumPatch. pose proof (renumTable_inv (nMLGN p) l0 runner m I) as T.
  destruct (renumTable (nMLGN p) runner m) as [[[l' c] r'] m']. destruct T as (I' & X & -> & ->).
  assert (E : Z.max r' (maxOf (map (sig m') (nMLGN p))) = r').
  { apply Z.max_l. apply maxOf_le; [destruct I' as (_ & -> & _); apply distinct_nonneg|]. intros y Hy. apply in_map_iff in Hy. destruct Hy as (a & <- & Ha).
    destruct (fcInv_found _ _ _ a I') as [b Fb]; [apply in_app_iff; right; exact Ha|]. unfold sig. rewrite Fb. apply (fcInv_bound _ _ _ _ _ I' Fb). }
  rewrite E. destruct (_ && _); split; auto.
Qed.
Lemma sig_stable m m' l runner l0 : fcInv l0 runner m -> extends m m' -> incl l l0 -> map (sig m) l = map (sig m') l /\ changes (sig m) l = changes (sig m') l.
Proof.
  intros I X H. assert (E : forall a, In a l -> sig m a = sig m' a).
  { intros a Ha. destruct (fcInv_found _ _ _ a I (H a Ha)) as [b Fb]. unfold sig. rewrite Fb, (X _ _ Fb). reflexivity. }
  split; [apply map_ext_in; auto|]. unfold changes. f_equal. apply filter_ext_in. intros a Ha. rewrite E; auto.
Qed.
Lemma renumModel_inv ps : forall l0 runner m, fcInv l0 runner m ->
  let '(ps', c, runner', m') := renumModel ps runner m in
  fcInv (l0 ++ allNodes ps) runner' m' /\ extends m m' /\ ps' = map (fun p => setMLGN p (map (sig m') (nMLGN p))) ps /\
  c = changes (sig m') (allNodes ps).
Proof.
  induction ps as [|p ps IH]; intros l0 runner m I; cbn [renumModel].
  - unfold allNodes. cbn [map concat]. rewrite app_nil_r. split; [auto|]. split; [intros a b; auto|]. split; reflexivity.
  - pose proof (renumPatch_inv p l0 runner m I) as P. destruct (renumPatch p runner m) as [[[p' c] r'] m']. destruct P as (I' & X & -> & ->).
    specialize (IH _ _ _ I'). destruct (renumModel ps r' m') as [[[ps' c'] r''] m'']. destruct IH as (I'' & X' & -> & ->).
    destruct (sig_stable m' m'' (nums p) r' _ I' X') as [E1 E2]; [intros a Ha; apply in_app_iff; right; auto|].
    unfold allNodes in *. cbn [map concat]. rewrite app_assoc. split; [exact I''|]. split; [intros a b H; auto|].
    split; [change (nMLGN p) with (nums p); rewrite E1; reflexivity|]. rewrite E2. unfold changes. rewrite filter_app, app_length. reflexivity.
Qed.
Lemma fcInv_table l runner m : fcInv l runner m -> tableOf m l (sig m).
Proof.
  intros I a b. destruct I as (S & R & K & V). split.
  - intros H. split; [apply K; apply in_map_iff; exists (a, b); auto|]. unfold sig. rewrite (In_zfind _ _ _ S H). reflexivity.
  - intros [H ->]. unfold sig. destruct (zfind a m) eqn:F; [apply zfind_In; auto|]. apply zfind_None in F. rewrite K in F. contradiction.
Qed.
Lemma distinct_step l1 n l2 : ~ In n l1 -> distinct l1 + 1 <= distinct (l1 ++ n :: l2).
Proof.
  intros NI. assert (D : distinct (l1 ++ [n]) <= distinct (l1 ++ n :: l2)). { apply distinct_incl. intros x Hx. apply in_app_iff in Hx. apply in_app_iff. cbn [In] in *. intuition. }
  rewrite distinct_snoc in D. destruct (in_dec _ _ _); [contradiction|lia].
Qed.
(** the k-th distinct node *)
Lemma distinct_onto l : forall k, 1 <= k <= distinct l -> exists l1 n l2, l = l1 ++ n :: l2 /\ ~ In n l1 /\ distinct l1 + 1 = k.
Proof.
  induction l as [|x l IH] using rev_ind; intros k H.
  - unfold distinct in H. cbn in H. lia.
  - rewrite distinct_snoc in H. destruct (in_dec Z.eq_dec x l) as [I|I].
    + destruct (IH k H) as (l1 & n & l2 & -> & NI & E). exists l1, n, (l2 ++ [x]). split; [rewrite <- app_assoc; reflexivity|auto].
    + destruct (Z.eq_dec k (distinct l + 1)) as [->|D].
      * exists l, x, []. auto.
      * destruct (IH k ltac:(lia)) as (l1 & n & l2 & -> & NI & E). exists l1, n, (l2 ++ [x]). split; [rewrite <- app_assoc; reflexivity|auto].
Qed.
Lemma split_order (n1 n2 : Z) l a1 a2 b1 b2 : l = a1 ++ n1 :: a2 -> l = b1 ++ n2 :: b2 -> ~ In n1 a1 -> ~ In n2 b1 ->
  n1 = n2 \/ (exists c, b1 = a1 ++ n1 :: c) \/ (exists c, a1 = b1 ++ n2 :: c).
Proof.
  revert l b1. induction a1 as [|x a1 IH]; intros l b1 E1 E2 N1 N2; subst l; destruct b1 as [|y b1]; cbn [app] in E2; inversion E2; subst.
  - auto.
  - right; left. exists b1. reflexivity.
  - right; right. exists a1. reflexivity.
  - destruct (IH _ b1 eq_refl H1) as [H|[[c H]|[c H]]].
    + intros K. apply N1. right; auto.
    + intros K. apply N2. right; auto.
    + auto.
    + right; left. exists c. rewrite H. reflexivity.
    + right; right. exists c. rewrite H. reflexivity.
Qed.
Lemma fcInv_bij l runner m : fcInv l runner m -> bijective (sig m) l runner.
Proof.
  intros I. pose proof I as (S & R & K & V). split; [|split].
  - intros a b Ha Hb E. destruct (first_split _ _ Ha) as (a1 & a2 & Ea & Na). destruct (first_split _ _ Hb) as (b1 & b2 & Eb & Nb).
    unfold sig in E. rewrite (V _ _ _ Ea Na), (V _ _ _ Eb Nb) in E.
    destruct (split_order a b l a1 a2 b1 b2 Ea Eb Na Nb) as [H|[[c H]|[c H]]]; [auto| |]; exfalso; subst.
    + pose proof (distinct_step a1 a c Na). lia.
    + pose proof (distinct_step b1 b c Nb). lia.
  - intros a Ha. destruct (fcInv_found _ _ _ a I Ha) as [b Fb]. unfold sig. rewrite Fb. eapply fcInv_bound; eauto.
  - intros k Hk. rewrite R in Hk. destruct (distinct_onto _ _ Hk) as (l1 & n & l2 & E & NI & D). exists n. split; [rewrite E; apply in_app_iff; right; left; auto|].
    unfold sig. rewrite (V _ _ _ E NI). auto.
Qed.
Lemma renamed_all s ps : Forall2 (renamed s) ps (map (fun p => setMLGN p (map s (nMLGN p))) ps).
Proof. induction ps; cbn [map]; constructor; [apply renamed_set|auto]. Qed.

Lemma firstCome_ok ps ps' c N m : renumModel ps 0 [] = (ps', c, N, m) ->
  exists s, tableOf m (allNodes ps) s /\ Forall2 (renamed s) ps ps' /\ bijective s (allNodes ps) N /\
    N = distinct (allNodes ps) /\ c = changes s (allNodes ps) /\
    (forall l1 n l2, allNodes ps = l1 ++ n :: l2 -> ~ In n l1 -> s n = distinct l1 + 1).
Proof.
  intros H. pose proof (renumModel_inv ps [] 0 [] fcInv_nil) as R. rewrite H in R. destruct R as (I & X & -> & ->). cbn [app] in I.
  exists (sig m). split; [eapply fcInv_table; eauto|]. split; [apply renamed_all|]. split; [apply fcInv_bij; auto|]. split; [apply I|]. split; [reflexivity|].
  intros l1 n l2 E NI. unfold sig. destruct I as (_ & _ & _ & V). rewrite (V _ _ _ E NI). reflexivity.
Qed.

(** ** order-preserving *)
Lemma collect_inner l : forall m, (msorted m -> msorted (fold_left (fun m n => mset n n m) l m)) /\
  forall a, zfind a (fold_left (fun m n => mset n n m) l m) = if in_dec Z.eq_dec a l then Some a else zfind a m.
Proof.
  induction l as [|n l IH]; intros m; cbn [fold_left]; [split; auto|]. destruct (IH (mset n n m)) as [S F]. split.
  - intros H. apply S, mset_sorted, H.
  - intros a. rewrite F, zfind_mset. destruct (in_dec Z.eq_dec a l) as [I|I], (in_dec Z.eq_dec a (n :: l)) as [J|J]; auto.
    + exfalso. apply J. right; auto.
    + destruct J as [->|J]; [rewrite Z.eqb_refl; reflexivity|contradiction].
    + destruct (Z.eqb_spec a n) as [->|D]; [exfalso; apply J; left; auto|auto].
Qed.
Lemma collect_ok ps : forall m, (msorted m -> msorted (collectNodes ps m)) /\
  forall a, zfind a (collectNodes ps m) = if in_dec Z.eq_dec a (allNodes ps) then Some a else zfind a m.
Proof.
  induction ps as [|p ps IH]; intros m; unfold collectNodes, allNodes in *; cbn [fold_left map concat]; [split; auto|].
  destruct (collect_inner (nMLGN p) m) as [S1 F1]. destruct (IH (fold_left (fun m n => mset n n m) (nMLGN p) m)) as [S F]. split.
  - intros H. apply S, S1, H.
  - intros a. rewrite F, F1. change (nMLGN p) with (nums p).
    destruct (in_dec Z.eq_dec a (concat (map nums ps))) as [I|I], (in_dec Z.eq_dec a (nums p)) as [J|J], (in_dec Z.eq_dec a (nums p ++ concat (map nums ps))) as [L|L]; auto; exfalso; rewrite in_app_iff in L; tauto.
Qed.
(** identity table *)
Definition idTable (m : list (Z * Z)) : Prop := forall a b, In (a, b) m -> b = a.
Definition upTo (ks : list Z) (a : Z) : Z := Z.of_nat (length (filter (fun k => k <=? a) ks)).
Lemma upTo_none ks a : (forall k, In k ks -> a < k) -> upTo ks a = 0.
Proof.
  unfold upTo. induction ks as [|k ks IH]; intros H; [reflexivity|]. cbn [filter].
  assert (a < k) by (apply H; left; auto). destruct (Z.leb_spec k a); [lia|]. apply IH. intros x Hx. apply H. right; auto.
Qed.
Lemma upTo_cons k ks a : upTo (k :: ks) a = (if k <=? a then 1 else 0) + upTo ks a.
Proof. unfold upTo. cbn [filter]. destruct (k <=? a); cbn [length]; lia. Qed.
Lemma compress_ok m : forall n, idTable m -> msorted m -> (forall a, In a (map fst m) -> n < a) ->
  fst (compress m n) = map (fun kv => (fst kv, n + upTo (map fst m) (fst kv))) m /\
  snd (compress m n) = length (filter (fun k => negb (k =? n + upTo (map fst m) k)) (map fst m)).
Proof.
  induction m as [|[a b] m IH]; intros n ID S B; cbn [compress length map fst]; [auto|].
  assert (b = a) by (apply (ID a b); left; auto). subst b.
  apply StronglySorted_inv in S. destruct S as [S1 S2]. cbn [fst] in S2. fold (map fst m) in S2. rewrite Forall_forall in S2.
  assert (Hna : n < a) by (apply B; left; reflexivity).
  destruct (IH (n + 1)) as [E1 E2].
  { intros x y H'. apply ID. right; auto. } { exact S1. } { intros x Hx. specialize (S2 x Hx). lia. }
  assert (T : forall k, In k (map fst m) -> n + upTo (a :: map fst m) k = n + 1 + upTo (map fst m) k).
  { intros k Hk. rewrite upTo_cons. specialize (S2 k Hk). destruct (Z.leb_spec a k); lia. }
  assert (T0 : n + upTo (a :: map fst m) a = n + 1).
  { rewrite upTo_cons, Z.leb_refl, upTo_none; [lia|auto]. }
  assert (T1 : map (fun kv => (fst kv, n + upTo (a :: map fst m) (fst kv))) m = map (fun kv => (fst kv, n + 1 + upTo (map fst m) (fst kv))) m).
  { apply map_ext_in. intros kv Hkv. rewrite T; [reflexivity|apply in_map; auto]. }
  assert (T2 : filter (fun k => negb (k =? n + upTo (a :: map fst m) k)) (map fst m) = filter (fun k => negb (k =? n + 1 + upTo (map fst m) k)) (map fst m)).
  { apply filter_ext_in. intros k Hk. rewrite T; auto. }
  cbn [filter]. rewrite T0, T1, T2. rewrite <- E1. destruct (compress m (n + 1)) as [r' c]. cbn [fst snd] in *. subst c.
  destruct (Z.ltb_spec (n + 1) a) as [L|L]; cbn [fst snd].
  - destruct (Z.eqb_spec a (n + 1)); [lia|]. cbn [negb length]. split; reflexivity.
  - assert (a = n + 1) as -> by lia. rewrite Z.eqb_refl. cbn [negb]. split; reflexivity.
Qed.
Lemma sorted_lt_NoDup ks : StronglySorted Z.lt ks -> NoDup ks.
Proof.
  induction 1 as [|a l S IH F]; constructor; auto. intros K. rewrite Forall_forall in F. specialize (F a K). lia.
Qed.
Lemma NoDup_filter_Z f (l : list Z) : NoDup l -> NoDup (filter f l).
Proof. induction 1; cbn [filter]; [constructor|]. destruct (f x); [constructor; [rewrite filter_In; tauto|auto]|auto]. Qed.
Lemma distinct_eq l ks : NoDup ks -> (forall a, In a ks <-> In a l) -> distinct l = Z.of_nat (length ks).
Proof.
  intros N E. unfold distinct. f_equal. apply Permutation_length. apply NoDup_Permutation; [apply NoDup_nodup|auto|]. intros x. rewrite nodup_In, E. tauto.
Qed.
Lemma upTo_rank l ks a : NoDup ks -> (forall a, In a ks <-> In a l) -> upTo ks a = rank l a.
Proof.
  intros N E. unfold rank, upTo. symmetry. apply distinct_eq; [apply NoDup_filter_Z; auto|]. intros x. rewrite !filter_In, E. tauto.
Qed.
(** a table with a function *)
Lemma zfind_mapped (f : Z -> Z) m a : zfind a (map (fun kv : Z * Z => (fst kv, f (fst kv))) m) = match zfind a m with Some _ => Some (f a) | None => None end.
Proof.
  induction m as [|[x y] m IH]; cbn [map zfind fst]; [reflexivity|]. destruct (Z.eqb_spec a x) as [->|D]; [reflexivity|auto].
Qed.
Lemma rank_bij l : (forall a, In a l -> 1 <= a) ->
  bijective (rank l) l (distinct l) /\ (forall a b, In a l -> In b l -> a < b -> rank l a < rank l b).
Proof.
  intros P. assert (Mono : forall a b, In a l -> In b l -> a < b -> rank l a < rank l b).
  { intros a b Ha Hb L. unfold rank.
    assert (D : distinct (filter (fun k => k <=? a) l ++ [b]) <= distinct (filter (fun k => k <=? b) l)).
    { apply distinct_incl. intros x Hx. apply in_app_iff in Hx. apply filter_In. destruct Hx as [Hx|[<-|[]]].
      - apply filter_In in Hx. destruct Hx as [Hx Q]. apply Z.leb_le in Q. split; [auto|apply Z.leb_le; lia].
      - split; [auto|apply Z.leb_refl]. }
    rewrite distinct_snoc in D. destruct (in_dec _ _ _) as [K|K]; [|lia]. exfalso. apply filter_In in K. destruct K as [_ K]. apply Z.leb_le in K. lia. }
  split; [|exact Mono]. split; [|split].
  - intros a b Ha Hb E. destruct (Z.lt_trichotomy a b) as [L|[L|L]]; [|auto|]; exfalso.
    + specialize (Mono a b Ha Hb L). lia.
    + specialize (Mono b a Hb Ha L). lia.
  - intros a Ha. split.
    + unfold rank. replace (distinct (filter (fun k => k <=? a) l)) with (distinct (filter (fun k => k <=? a) l)) by reflexivity.
      assert (D : distinct ([] ++ [a]) <= distinct (filter (fun k => k <=? a) l)).
      { apply distinct_incl. intros x [<-|[]]. apply filter_In. split; [auto|apply Z.leb_refl]. }
      rewrite distinct_snoc in D. destruct (in_dec _ _ _) as [[]|_]. unfold distinct in D at 1. cbn in D. lia.
    + unfold rank. apply distinct_incl. intros x Hx. apply filter_In in Hx. tauto.
  - (* onto: an injection into 1..N of a set of size N is onto *)
    intros k Hk.
    assert (Inj : forall a b, In a l -> In b l -> rank l a = rank l b -> a = b).
    { intros a b Ha Hb E. destruct (Z.lt_trichotomy a b) as [L|[L|L]]; [|auto|]; exfalso.
      - specialize (Mono a b Ha Hb L). lia.
      - specialize (Mono b a Hb Ha L). lia. }
    assert (Up : forall a, In a l -> 1 <= rank l a <= distinct l).
    { intros a Ha. split.
      - unfold rank. assert (D : distinct ([] ++ [a]) <= distinct (filter (fun k => k <=? a) l)).
        { apply distinct_incl. intros x [<-|[]]. apply filter_In. split; [auto|apply Z.leb_refl]. }
        rewrite distinct_snoc in D. destruct (in_dec _ _ _) as [[]|_]. unfold distinct in D at 1. cbn in D. lia.
      - unfold rank. apply distinct_incl. intros x Hx. apply filter_In in Hx. tauto. }
    set (u := nodup Z.eq_dec l).
    set (img := map (fun a => Z.to_nat (rank l a)) u).
    assert (NI : NoDup img).
    { unfold img. assert (NU : NoDup u) by apply NoDup_nodup. assert (SU : forall x, In x u -> In x l) by (intros x; apply nodup_In).
      clearbody u. clear img. induction NU as [|x u' NX NU IH]; cbn [map]; constructor.
      - intros K. apply in_map_iff in K. destruct K as (y & Ey & Hy). assert (Hx : In x l) by (apply SU; left; auto). assert (Hy' : In y l) by (apply SU; right; auto).
        pose proof (Up x Hx). pose proof (Up y Hy'). assert (rank l y = rank l x) by lia. assert (y = x) by (apply Inj; auto). subst. contradiction.
      - apply IH. intros y Hy. apply SU. right; auto. }
    assert (Sub : incl img (seq 1 (length u))).
    { intros x Hx. apply in_map_iff in Hx. destruct Hx as (a & <- & Ha). apply nodup_In in Ha. pose proof (Up a Ha) as U. apply in_seq. unfold distinct in U. fold u in U. lia. }
    assert (Onto : incl (seq 1 (length u)) img).
    { apply NoDup_length_incl; auto. rewrite seq_length. unfold img. rewrite map_length. lia. }
    assert (In (Z.to_nat k) img) as K.
    { apply Onto. apply in_seq. unfold distinct in Hk. fold u in Hk. lia. }
    apply in_map_iff in K. destruct K as (a & Ea & Ha). apply nodup_In in Ha. exists a. split; [auto|]. pose proof (Up a Ha). lia.
Qed.
Lemma renamed_by s f ps : (forall p n, In p ps -> In n (nums p) -> f n = s n) ->
  Forall2 (renamed s) ps (map (fun p => setMLGN p (map f (nMLGN p))) ps).
Proof.
  induction ps as [|p ps IH]; intros H; cbn [map]; constructor.
  - assert (E : map f (nMLGN p) = map s (nMLGN p)) by (apply map_ext_in; intros n Hn; apply (H p); [left; auto|exact Hn]). rewrite E. apply renamed_set.
  - apply IH. intros q n Hq Hn. apply (H q); [right; auto|auto].
Qed.
Lemma renamed_id s ps : (forall p n, In p ps -> In n (nums p) -> s n = n) -> Forall2 (renamed s) ps ps.
Proof.
  induction ps as [|p ps IH]; intros H; constructor.
  - repeat split. rewrite <- (map_id (nums p)) at 1. apply map_ext_in. intros n Hn. symmetry. apply (H p); [left; auto|auto].
  - apply IH. intros q n Hq Hn. apply (H q); [right; auto|auto].
Qed.
Lemma filter_len0 {A} (f : A -> bool) l : length (filter f l) = 0%nat -> forall x, In x l -> f x = false.
Proof.
  intros H x Hx. destruct (f x) eqn:E; [|reflexivity]. exfalso. assert (K : In x (filter f l)) by (apply filter_In; auto). destruct (filter f l); [destruct K|discriminate H].
Qed.
Lemma in_allNodes ps p n : In p ps -> In n (nums p) -> In n (allNodes ps).
Proof. intros Hp Hn. apply in_concat. exists (nums p). split; [apply in_map; auto|auto]. Qed.
Lemma ordered_ok ps ps' c m : (forall n, In n (allNodes ps) -> 1 <= n) -> renumOrdered ps [] = (ps', c, m) ->
  msorted m /\ tableOf m (allNodes ps) (rank (allNodes ps)) /\ Forall2 (renamed (rank (allNodes ps))) ps ps' /\
  Z.of_nat (length m) = distinct (allNodes ps) /\ (forall n, sig m n = if in_dec Z.eq_dec n (allNodes ps) then rank (allNodes ps) n else n) /\
  c = changes (rank (allNodes ps)) (nodup Z.eq_dec (allNodes ps)).
Proof.
  intros Pos H. unfold renumOrdered in H. destruct (collect_ok ps []) as [S F]. specialize (S ltac:(constructor)).
  set (m0 := collectNodes ps []) in *.
  assert (ID : idTable m0). { intros a b K. apply (In_zfind _ _ _ S) in K. rewrite F in K. destruct (in_dec _ _ _); [inversion K; auto|discriminate K]. }
  assert (Keys : forall a, In a (map fst m0) <-> In a (allNodes ps)).
  { intros a. split; intros K.
    - destruct (in_dec Z.eq_dec a (allNodes ps)) as [I|I]; [auto|]. exfalso.
      assert (zfind a m0 = None) as Q. { rewrite F. destruct (in_dec _ _ _); [contradiction|reflexivity]. }
      apply zfind_None in Q. contradiction.
    - destruct (zfind a m0) as [b|] eqn:Q; [apply zfind_In in Q; apply in_map_iff; exists (a, b); auto|].
      rewrite F in Q. destruct (in_dec _ _ _); [discriminate Q|contradiction]. }
  assert (ND : NoDup (map fst m0)) by (apply sorted_lt_NoDup; exact S).
  destruct (compress_ok m0 0 ID S) as [E1 E2]. { intros a Ha. apply Keys, Pos in Ha. lia. }
  assert (R : forall a, 0 + upTo (map fst m0) a = rank (allNodes ps) a) by (intros a; rewrite (upTo_rank (allNodes ps)); auto).
  assert (Em : fst (compress m0 0) = map (fun kv => (fst kv, rank (allNodes ps) (fst kv))) m0).
  { rewrite E1. apply map_ext. intros kv. rewrite R. reflexivity. }
  assert (Ec : snd (compress m0 0) = changes (rank (allNodes ps)) (nodup Z.eq_dec (allNodes ps))).
  { rewrite E2. unfold changes. apply Permutation_length. 
    rewrite (filter_ext _ (fun n => negb (n =? rank (allNodes ps) n))) by (intros k; rewrite R; reflexivity).
    apply NoDup_Permutation; [apply NoDup_filter_Z; auto|apply NoDup_filter_Z, NoDup_nodup|]. intros x. rewrite !filter_In, nodup_In, Keys. tauto. }
  destruct (compress m0 0) as [m1 c1]. cbn [fst snd] in Em, Ec. inversion H. subst m1 c1 m c.
  assert (Sig : forall n, sig (map (fun kv : Z * Z => (fst kv, rank (allNodes ps) (fst kv))) m0) n = if in_dec Z.eq_dec n (allNodes ps) then rank (allNodes ps) n else n).
  { intros n. unfold sig. rewrite zfind_mapped, F. destruct (in_dec _ _ _); reflexivity. }
  split; [|split; [|split; [|split; [|split; [exact Sig|reflexivity]]]]].
  - unfold msorted. rewrite map_map. cbn [fst]. exact S.
  - intros a b. rewrite in_map_iff. split.
    + intros ([x y] & E & K). cbn [fst] in E. inversion E. subst. split; [apply Keys, in_map_iff; exists (a, y); auto|reflexivity].
    + intros [K ->]. apply Keys, in_map_iff in K. destruct K as ([x y] & E & K). cbn [fst] in E. subst. exists (a, y). auto.
  - destruct (Nat.ltb_spec 0 (changes (rank (allNodes ps)) (nodup Z.eq_dec (allNodes ps)))) as [L|L].
    + apply renamed_by. intros p n Hp Hn. pose proof (Sig n) as Q. unfold renumMap. unfold sig in Q. destruct (zfind n _) eqn:E; cbn [snd].
      * rewrite Q. destruct (in_dec _ _ _) as [I|I]; [reflexivity|]. exfalso. apply I. eapply in_allNodes; eauto.
      * rewrite Q at 1. destruct (in_dec _ _ _) as [I|I]; [reflexivity|]. exfalso. apply I. eapply in_allNodes; eauto.
    + apply renamed_id. intros p n Hp Hn. unfold changes in L. assert (L0 : length (filter (fun n => negb (n =? rank (allNodes ps) n)) (nodup Z.eq_dec (allNodes ps))) = 0%nat) by lia.
      pose proof (filter_len0 _ _ L0 n) as Q. cbn beta in Q. specialize (Q ltac:(apply nodup_In; eapply in_allNodes; eauto)).
      apply negb_false_iff, Z.eqb_eq in Q. auto.
  - rewrite map_length, (distinct_eq (allNodes ps) (map fst m0)); auto. rewrite map_length. reflexivity.
Qed.
