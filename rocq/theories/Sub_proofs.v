(** Proofs about the subdomains (C90) and the orientation iterator (C91). *)
From Coq Require Import ZArith List Bool Lia Permutation Sorted.
From Verif Require Import Sub_model Sub_spec Str_spec.
Import ListNotations.
Local Open Scope Z_scope.

Lemma iota_len : forall n a, length (iota a n) = n.
Proof. induction n; simpl; intros; [reflexivity | rewrite IHn; reflexivity]. Qed.

Lemma iota_in : forall n a x, In x (iota a n) <-> a <= x < a + Z.of_nat n.
Proof.
  induction n; intros a x.
  - simpl. lia.
  - cbn [iota]. rewrite Nat2Z.inj_succ. simpl In. rewrite IHn. lia.
Qed.

Lemma iota_nth : forall n a i d, (i < n)%nat -> nth i (iota a n) d = a + Z.of_nat i.
Proof.
  induction n; intros a i d H; [lia|].
  destruct i; cbn [iota nth]; [lia|].
  rewrite IHn by lia. lia.
Qed.

Lemma iota_sorted : forall n a, StronglySorted Z.lt (iota a n).
Proof.
  induction n; intros a; simpl; constructor; [apply IHn|].
  rewrite Forall_forall. intros x Hx. apply iota_in in Hx. lia.
Qed.

Lemma sorted_nodup : forall l, StronglySorted Z.lt l -> NoDup l.
Proof.
  induction 1; constructor; [|assumption].
  intros HI. rewrite Forall_forall in H0. specialize (H0 _ HI). lia.
Qed.

Lemma wrap_id : forall z, 0 <= z < 2 ^ 64 -> wrap z = z.
Proof. intros. apply Z.mod_small. lia. Qed.

Lemma posLoop_iota : forall fuel i sub ofs nel, 0 <= i -> 0 <= ofs -> nel < 2 ^ 60 -> ofs <= nel ->
  i <= sub -> ofs + i <= nel -> Z.of_nat fuel >= nel - ofs - i ->
  posLoop fuel i sub ofs nel = iota (ofs + i) (Z.to_nat (Z.min (sub - i) (nel - ofs - i))).
Proof.
  induction fuel; intros i sub ofs nel Hi Ho Hn Hon His Hoi Hf.
  - replace (Z.to_nat _) with 0%nat by lia. reflexivity.
  - cbn [posLoop]. rewrite wrap_id by lia.
    destruct (i <? sub) eqn:E1; destruct (ofs + i <? nel) eqn:E2;
      rewrite ?Z.ltb_lt, ?Z.ltb_ge in E1, E2; cbn [andb].
    + rewrite IHfuel by lia.
      replace (Z.to_nat (Z.min (sub - i) (nel - ofs - i)))
        with (S (Z.to_nat (Z.min (sub - (i + 1)) (nel - ofs - (i + 1))))) by lia.
      cbn [iota]. f_equal. f_equal. lia.
    + replace (Z.to_nat _) with 0%nat by lia. reflexivity.
    + replace (Z.to_nat _) with 0%nat by lia. reflexivity.
    + replace (Z.to_nat _) with 0%nat by lia. reflexivity.
Qed.

Lemma positions_iota : forall sub ofs nel, 0 <= sub -> 0 <= ofs <= nel -> nel < 2 ^ 60 ->
  positions sub ofs nel = iota ofs (Z.to_nat (Z.min sub (nel - ofs))).
Proof.
  intros. unfold positions. rewrite posLoop_iota by lia.
  replace (ofs + 0) with ofs by lia. f_equal. f_equal. lia.
Qed.

(** The size with which a piece is traversed. *)
Definition size_of (nel g ov k : Z) : Z :=
  if k =? g - 1 then nel - first_of nel g ov (g - 1) else subSize nel g.

Lemma first_mono : forall nel g ov k, ov <= subSize nel g -> 0 <= k <= g - 1 ->
  0 <= first_of nel g ov k <= first_of nel g ov (g - 1).
Proof. intros. unfold first_of. nia. Qed.

Lemma subSize_le : forall nel g, 1 <= g -> 0 <= nel -> 1 <= subSize nel g <= nel + 1.
Proof.
  intros. unfold subSize.
  assert (0 <= nel / g) by (apply Z.div_pos; lia).
  assert (nel / g <= nel) by (apply Z.div_le_upper_bound; nia). lia.
Qed.

Lemma piecesFrom_eq : forall gl k nel g ov, fits nel g ov -> Z.of_nat gl + k = g -> 0 <= k ->
  piecesFrom gl (subSize nel g) (first_of nel g ov k) nel ov =
  map (fun j => (size_of nel g ov j, first_of nel g ov j)) (iota k gl).
Proof.
  induction gl; intros k nel g ov HF Hk H0; [reflexivity|].
  destruct HF as (Hg & Hn & Hov & Hl).
  cbn [piecesFrom iota map].
  assert (HS := subSize_le nel g ltac:(lia) ltac:(lia)).
  destruct gl as [|gl'].
  - assert (k = g - 1) by lia. subst k.
    assert (F := first_mono nel g ov (g - 1) ltac:(lia) ltac:(lia)).
    cbn [piecesFrom iota map]. f_equal. unfold size_of. rewrite Z.eqb_refl.
    rewrite wrap_id by lia. reflexivity.
  - assert (F := first_mono nel g ov k ltac:(lia) ltac:(lia)).
    assert (E : size_of nel g ov k = subSize nel g).
    { unfold size_of. destruct (k =? g - 1) eqn:E; [apply Z.eqb_eq in E; lia | reflexivity]. }
    rewrite E. f_equal.
    rewrite <- (IHgl (k + 1) nel g ov); [| repeat split; lia | lia | lia].
    f_equal. rewrite wrap_id by lia. unfold first_of. ring.
Qed.

Lemma pieces_eq : forall nel g ov, fits nel g ov ->
  pieces nel g ov = map (fun j => (size_of nel g ov j, first_of nel g ov j)) (iota 0 (Z.to_nat g)).
Proof.
  intros nel g ov HF. unfold pieces.
  change (nel / g + 1) with (subSize nel g).
  replace 0 with (first_of nel g ov 0) at 1 by (unfold first_of; ring).
  apply piecesFrom_eq; [assumption | destruct HF; lia | lia].
Qed.

Lemma size_bounds : forall nel g ov k, fits nel g ov -> 0 <= k < g ->
  0 <= size_of nel g ov k <= nel + 1 /\ 0 <= first_of nel g ov k <= nel.
Proof.
  intros nel g ov k (Hg & Hn & Hov & Hl) Hk.
  assert (F := first_mono nel g ov k ltac:(lia) ltac:(lia)).
  assert (F2 := first_mono nel g ov (g - 1) ltac:(lia) ltac:(lia)).
  assert (HS := subSize_le nel g ltac:(lia) ltac:(lia)).
  unfold size_of. destruct (k =? g - 1); lia.
Qed.

Definition posK (nel g ov k : Z) : list Z := positions (size_of nel g ov k) (first_of nel g ov k) nel.

Lemma posK_in : forall nel g ov k x, fits nel g ov -> 0 <= k < g ->
  In x (posK nel g ov k) <-> inside nel g ov k x.
Proof.
  intros nel g ov k x HF Hk. unfold posK.
  destruct (size_bounds nel g ov k HF Hk) as [B1 B2].
  assert (HF' := HF). destruct HF' as (Hg & Hn & Hov & Hl).
  rewrite positions_iota by lia. rewrite iota_in. unfold inside, size_of in *.
  destruct (k =? g - 1) eqn:E.
  - apply Z.eqb_eq in E. subst k. lia.
  - apply Z.eqb_neq in E. lia.
Qed.

Lemma posK_sorted : forall nel g ov k, fits nel g ov -> 0 <= k < g ->
  StronglySorted Z.lt (posK nel g ov k).
Proof.
  intros nel g ov k HF Hk. unfold posK.
  destruct (size_bounds nel g ov k HF Hk) as [B1 B2].
  destruct HF as (Hg & Hn & Hov & Hl).
  rewrite positions_iota by lia. apply iota_sorted.
Qed.

Lemma mapM_ok {A B} : forall (f : A -> option B) (h : A -> B) l,
  (forall a, In a l -> f a = Some (h a)) -> mapM f l = Some (map h l).
Proof.
  induction l; intros H; [reflexivity|].
  cbn [mapM map]. rewrite (H a (or_introl eq_refl)).
  rewrite IHl by (intros; apply H; right; assumption). reflexivity.
Qed.

Lemma reserve_ok {A} : forall n (k : option A), n <= maxSize -> reserve n k = k.
Proof. intros. unfold reserve. destruct (maxSize <? n) eqn:E; [apply Z.ltb_lt in E; lia | reflexivity]. Qed.

Lemma ss_app : forall l1 l2, StronglySorted Z.lt l1 -> StronglySorted Z.lt l2 ->
  (forall a b, In a l1 -> In b l2 -> a < b) -> StronglySorted Z.lt (l1 ++ l2).
Proof.
  induction l1; intros l2 H1 H2 H; [assumption|].
  inversion H1; subst. simpl. constructor.
  - apply IHl1; [assumption|assumption|]. intros; apply H; [right|]; assumption.
  - apply Forall_app. split; [assumption|].
    rewrite Forall_forall. intros; apply H; [left; reflexivity | assumption].
Qed.

Lemma ss_flat : forall (f : Z -> list Z) l, StronglySorted Z.lt l ->
  (forall a, In a l -> StronglySorted Z.lt (f a)) ->
  (forall a b x y, In a l -> In b l -> a < b -> In x (f a) -> In y (f b) -> x < y) ->
  StronglySorted Z.lt (flat_map f l).
Proof.
  induction l; intros HS HF HM; [constructor|].
  inversion HS; subst. simpl. apply ss_app.
  - apply HF. left; reflexivity.
  - apply IHl; [assumption | intros; apply HF; right; assumption |].
    intros a0 b x y Ha Hb. apply HM; right; assumption.
  - intros x y Hx Hy. apply in_flat_map in Hy. destruct Hy as (b & Hb & Hy).
    rewrite Forall_forall in H2.
    apply (HM a b x y); [left; reflexivity | right; assumption | apply H2; assumption | assumption | assumption].
Qed.

Lemma ss_map : forall (f : Z -> Z) l, StronglySorted Z.lt l -> (forall a b, a < b -> f a < f b) ->
  StronglySorted Z.lt (map f l).
Proof.
  intros f l H HM. induction H; simpl; constructor; [assumption|].
  rewrite Forall_forall in *. intros y Hy. apply in_map_iff in Hy. destruct Hy as (x & <- & Hx).
  apply HM. apply H0. assumption.
Qed.

Lemma nth_map_iota : forall {A} (f : Z -> A) n k d, (k < n)%nat ->
  nth k (map f (iota 0 n)) d = f (Z.of_nat k).
Proof.
  intros A f n k d H. rewrite (nth_indep _ d (f 0)) by (rewrite map_length, iota_len; assumption).
  rewrite map_nth, iota_nth by assumption. f_equal.
Qed.

(* ---- one direction ---- *)
Lemma calc1 : forall nel g ov, fits nel g ov ->
  calcSubdomains1D nel g ov = Some (map (posK nel g ov) (iota 0 (Z.to_nat g))).
Proof.
  intros nel g ov HF. unfold calcSubdomains1D.
  destruct (g =? 1) eqn:E.
  - apply Z.eqb_eq in E. subst g. f_equal. simpl. f_equal.
    unfold posK. destruct HF as (Hg & Hn & Hov & Hl).
    unfold size_of. simpl. unfold first_of. simpl.
    rewrite positions_iota by lia. f_equal. lia.
  - rewrite pieces_eq by assumption. rewrite (mapM_ok _ (fun p => positions (fst p) (snd p) nel)).
    + rewrite map_map. reflexivity.
    + intros p Hp. apply in_map_iff in Hp. destruct Hp as (k & <- & Hk).
      apply iota_in in Hk. destruct HF as (Hg & Hn & Hov & Hl).
      destruct (size_bounds nel g ov k (conj Hg (conj Hn (conj Hov Hl))) ltac:(lia)) as [B1 B2].
      cbn [fst snd]. apply reserve_ok. unfold maxSize. lia.
Qed.

(* ---- two and three directions ---- *)
Definition row2 (nel1 : Z) (ys xs : list Z) : list Z :=
  flat_map (fun y => map (fun x => y * nel1 + x) xs) ys.
Definition row3 (nel1 nel2 : Z) (zs ys xs : list Z) : list Z :=
  flat_map (fun z => flat_map (fun y => map (fun x => z * nel1 * nel2 + y * nel1 + x) xs) ys) zs.

Lemma row2_full : forall n1 n2, 0 <= n1 ->
  row2 n1 (iota 0 n2) (iota 0 (Z.to_nat n1)) = iota 0 (Z.to_nat n1 * n2)%nat.
Proof.
  intros n1 n2 H.
  assert (G : forall n k a, map (fun x => a + x) (iota k n) = iota (a + k) n).
  { induction n; intros; simpl; [reflexivity|]. rewrite IHn. f_equal. f_equal. lia. }
  assert (A : forall n m a, iota a (n + m)%nat = iota a n ++ iota (a + Z.of_nat n) m).
  { induction n; intros m a; cbn [iota plus app].
    - f_equal. lia.
    - rewrite IHn. f_equal. f_equal. f_equal. lia. }
  assert (R : forall n2 k, row2 n1 (iota k n2) (iota 0 (Z.to_nat n1)) = iota (k * n1) (Z.to_nat n1 * n2)%nat).
  { induction n0; intros k.
    - rewrite Nat.mul_0_r. reflexivity.
    - unfold row2 in *. cbn [iota flat_map]. rewrite IHn0, G.
      rewrite Nat.mul_succ_r, Nat.add_comm, A. f_equal; f_equal; lia. }
  rewrite R. f_equal.
Qed.

Lemma row3_full : forall n1 n2 n3, 0 <= n1 -> 0 <= n2 ->
  row3 n1 n2 (iota 0 n3) (iota 0 (Z.to_nat n2)) (iota 0 (Z.to_nat n1)) =
  iota 0 (Z.to_nat n1 * Z.to_nat n2 * n3)%nat.
Proof.
  intros n1 n2 n3 H1 H2.
  replace (Z.to_nat n1 * Z.to_nat n2)%nat with (Z.to_nat (n1 * n2)) by (rewrite Z2Nat.inj_mul; lia).
  rewrite <- row2_full by nia. unfold row3, row2.
  replace (Z.to_nat (n1 * n2)) with (Z.to_nat n1 * Z.to_nat n2)%nat by (rewrite Z2Nat.inj_mul; lia).
  rewrite <- row2_full by assumption. unfold row2.
  apply flat_map_ext. intros z.
  rewrite flat_map_concat_map, flat_map_concat_map, concat_map, map_map.
  f_equal. apply map_ext. intros y. rewrite map_map. apply map_ext. intros. ring.
Qed.

Lemma row2_in : forall n1 ys xs e, 0 < n1 -> (forall x, In x xs -> 0 <= x < n1) ->
  In e (row2 n1 ys xs) <-> In (e mod n1) xs /\ In (e / n1) ys.
Proof.
  intros n1 ys xs e H1 HX. unfold row2. rewrite in_flat_map. split.
  - intros (y & Hy & He). apply in_map_iff in He. destruct He as (x & <- & Hx).
    specialize (HX x Hx).
    rewrite Z.add_comm, Z.mod_add, Z.mod_small by lia.
    rewrite Z.div_add, Z.div_small by lia. rewrite Z.add_0_l. tauto.
  - intros [Hx Hy]. exists (e / n1). split; [assumption|]. apply in_map_iff.
    exists (e mod n1). split; [|assumption]. rewrite (Z.div_mod e n1) at 3 by lia. ring.
Qed.

Lemma row3_as2 : forall n1 n2 zs ys xs,
  row3 n1 n2 zs ys xs = row2 (n1 * n2) zs (row2 n1 ys xs).
Proof.
  intros. unfold row3, row2. apply flat_map_ext. intros z.
  rewrite !flat_map_concat_map, concat_map, map_map.
  f_equal. apply map_ext. intros y. rewrite map_map. apply map_ext. intros. ring.
Qed.

Lemma row2_sorted : forall n1 ys xs, 0 < n1 -> (forall x, In x xs -> 0 <= x < n1) ->
  StronglySorted Z.lt ys -> StronglySorted Z.lt xs -> StronglySorted Z.lt (row2 n1 ys xs).
Proof.
  intros n1 ys xs H1 HX HY HS. unfold row2. apply ss_flat; [assumption| |].
  - intros. apply ss_map; [assumption|]. intros; lia.
  - intros a b x y _ _ Hab Hx Hy. apply in_map_iff in Hx, Hy.
    destruct Hx as (x' & <- & Hx). destruct Hy as (y' & <- & Hy).
    apply HX in Hx. apply HX in Hy. nia.
Qed.

Lemma posK_range : forall nel g ov k x, fits nel g ov -> 0 <= k < g -> In x (posK nel g ov k) -> 0 <= x < nel.
Proof.
  intros nel g ov k x HF Hk Hx. apply posK_in in Hx; [|assumption|assumption].
  destruct (size_bounds nel g ov k HF Hk). destruct Hx. lia.
Qed.

Lemma prod_nth {A B} : forall (l1 : list A) (l2 : list B) i j d1 d2,
  (i < length l1)%nat -> (j < length l2)%nat ->
  nth (i * length l2 + j) (list_prod l1 l2) (d1, d2) = (nth i l1 d1, nth j l2 d2).
Proof.
  induction l1; intros l2 i j d1 d2 Hi Hj; [simpl in Hi; lia|].
  cbn [list_prod]. destruct i.
  - simpl. rewrite app_nth1 by (rewrite map_length; assumption).
    rewrite (nth_indep _ (d1, d2) (a, d2)) by (rewrite map_length; assumption).
    rewrite (map_nth (fun y => (a, y))). reflexivity.
  - rewrite app_nth2 by (rewrite map_length; nia). rewrite map_length.
    replace (S i * length l2 + j - length l2)%nat with (i * length l2 + j)%nat by nia.
    simpl in Hi. rewrite IHl1 by lia. reflexivity.
Qed.

Lemma prod_map {A B C D} : forall (f : A -> C) (h : B -> D) l1 l2,
  list_prod (map f l1) (map h l2) = map (fun p => (f (fst p), h (snd p))) (list_prod l1 l2).
Proof.
  induction l1; intros; simpl; [reflexivity|].
  rewrite map_app, !map_map. f_equal. apply IHl1.
Qed.

Lemma calc2 : forall n1 n2 g1 g2 ov, fits n1 g1 ov -> fits n2 g2 ov ->
  calcSubdomains2D n1 n2 g1 g2 ov =
  Some (map (fun p => row2 n1 (posK n2 g2 ov (fst p)) (posK n1 g1 ov (snd p)))
            (list_prod (iota 0 (Z.to_nat g2)) (iota 0 (Z.to_nat g1)))).
Proof.
  intros n1 n2 g1 g2 ov F1 F2. unfold calcSubdomains2D.
  assert (F1' := F1). assert (F2' := F2).
  destruct F1' as (Hg1 & Hn1 & Hov1 & Hl1). destruct F2' as (Hg2 & Hn2 & Hov2 & Hl2).
  destruct (g1 * g2 =? 1) eqn:E.
  - apply Z.eqb_eq in E. assert (g1 = 1) by nia. assert (g2 = 1) by nia. subst g1 g2.
    f_equal. simpl. f_equal. unfold posK, size_of, first_of. simpl.
    rewrite !positions_iota by lia.
    replace (Z.to_nat (Z.min (n2 - 0) (n2 - 0))) with (Z.to_nat n2) by lia.
    replace (Z.to_nat (Z.min (n1 - 0) (n1 - 0))) with (Z.to_nat n1) by lia.
    rewrite row2_full by lia. f_equal. rewrite Z2Nat.inj_mul; lia.
  - rewrite !pieces_eq by assumption. rewrite prod_map.
    rewrite (mapM_ok _ (fun pq => row2 n1 (positions (fst (fst pq)) (snd (fst pq)) n2)
                                       (positions (fst (snd pq)) (snd (snd pq)) n1))).
    + rewrite map_map. reflexivity.
    + intros pq Hp. apply in_map_iff in Hp. destruct Hp as ((k2 & k1) & <- & Hk).
      apply in_prod_iff in Hk. destruct Hk as [Hk2 Hk1]. apply iota_in in Hk2, Hk1.
      destruct (size_bounds n1 g1 ov k1 F1 ltac:(lia)) as [B1 _].
      destruct (size_bounds n2 g2 ov k2 F2 ltac:(lia)) as [B2 _].
      cbn [fst snd]. rewrite reserve_ok; [reflexivity|].
      rewrite wrap_id by nia. unfold maxSize. nia.
Qed.

Lemma calc3 : forall n1 n2 n3 g1 g2 g3 ov, fits n1 g1 ov -> fits n2 g2 ov -> fits n3 g3 ov ->
  calcSubdomains3D n1 n2 n3 g1 g2 g3 ov =
  Some (map (fun p => row3 n1 n2 (posK n3 g3 ov (fst p)) (posK n2 g2 ov (fst (snd p))) (posK n1 g1 ov (snd (snd p))))
            (list_prod (iota 0 (Z.to_nat g3)) (list_prod (iota 0 (Z.to_nat g2)) (iota 0 (Z.to_nat g1))))).
Proof.
  intros n1 n2 n3 g1 g2 g3 ov F1 F2 F3. unfold calcSubdomains3D.
  assert (F1' := F1). assert (F2' := F2). assert (F3' := F3).
  destruct F1' as (Hg1 & Hn1 & Hov1 & Hl1). destruct F2' as (Hg2 & Hn2 & Hov2 & Hl2).
  destruct F3' as (Hg3 & Hn3 & Hov3 & Hl3).
  destruct (g1 * g2 * g3 =? 1) eqn:E.
  - apply Z.eqb_eq in E.
    assert (1 <= g1 * g2) by nia. assert (g3 = 1) by nia. subst g3. rewrite Z.mul_1_r in E.
    assert (g1 = 1) by nia. assert (g2 = 1) by nia. subst g1 g2.
    f_equal. simpl. f_equal. unfold posK, size_of, first_of. simpl.
    rewrite !positions_iota by lia.
    replace (Z.to_nat (Z.min (n3 - 0) (n3 - 0))) with (Z.to_nat n3) by lia.
    replace (Z.to_nat (Z.min (n2 - 0) (n2 - 0))) with (Z.to_nat n2) by lia.
    replace (Z.to_nat (Z.min (n1 - 0) (n1 - 0))) with (Z.to_nat n1) by lia.
    rewrite row3_full by lia. f_equal. rewrite !Z2Nat.inj_mul; nia.
  - rewrite !pieces_eq by assumption. rewrite !prod_map.
    rewrite (mapM_ok _ (fun pq => row3 n1 n2 (positions (fst (fst pq)) (snd (fst pq)) n3)
                                       (positions (fst (fst (snd pq))) (snd (fst (snd pq))) n2)
                                       (positions (fst (snd (snd pq))) (snd (snd (snd pq))) n1))).
    + rewrite map_map. reflexivity.
    + intros pq Hp. apply in_map_iff in Hp. destruct Hp as ((k3 & (k2 & k1)) & <- & Hk).
      apply in_prod_iff in Hk. destruct Hk as [Hk3 Hk]. apply in_prod_iff in Hk.
      destruct Hk as [Hk2 Hk1]. apply iota_in in Hk3, Hk2, Hk1.
      destruct (size_bounds n1 g1 ov k1 F1 ltac:(lia)) as [B1 _].
      destruct (size_bounds n2 g2 ov k2 F2 ltac:(lia)) as [B2 _].
      destruct (size_bounds n3 g3 ov k3 F3 ltac:(lia)) as [B3 _].
      cbn [fst snd]. rewrite reserve_ok; [reflexivity|].
      set (a := size_of n1 g1 ov k1) in *. set (b := size_of n2 g2 ov k2) in *. set (c := size_of n3 g3 ov k3) in *.
      assert (P1 : 0 <= a * b <= 2 ^ 20 * 2 ^ 20) by (split; [nia | apply Z.mul_le_mono_nonneg; lia]).
      assert (P2 : 0 <= a * b * c <= 2 ^ 40 * 2 ^ 20) by (split; [nia | apply Z.mul_le_mono_nonneg; lia]).
      rewrite wrap_id by lia. unfold maxSize. lia.
Qed.

Lemma list_prod_len {A B} : forall (a : list A) (b : list B), length (list_prod a b) = (length a * length b)%nat.
Proof. exact (fun a b => prod_length a b). Qed.

(* ---- orientation ---- *)
Lemma rowLoop_nth : forall n f s i, (i < n)%nat -> nth i (rowLoop n f s) 0 = f + Z.of_nat i * s.
Proof.
  induction n; intros f s i H; [lia|].
  destruct i; cbn [rowLoop nth]; [lia|]. rewrite IHn by lia. lia.
Qed.
Lemma rowLoop_len : forall n f s, length (rowLoop n f s) = n.
Proof. induction n; intros; simpl; [|rewrite IHn]; reflexivity. Qed.

Lemma flat_rows_nth : forall (f : Z -> list Z) w n a i j, (forall y, length (f y) = w) ->
  (j < n)%nat -> (i < w)%nat ->
  nth (j * w + i) (flat_map f (iota a n)) 0 = nth i (f (a + Z.of_nat j)) 0.
Proof.
  intros f w. induction n; intros a i j HW Hj Hi; [lia|].
  cbn [iota flat_map]. destruct j.
  - simpl. rewrite app_nth1 by (rewrite HW; assumption). f_equal. f_equal. lia.
  - rewrite app_nth2 by (rewrite HW; nia). rewrite HW.
    replace (S j * w + i - w)%nat with (j * w + i)%nat by nia.
    rewrite IHn by (assumption || lia). f_equal. f_equal. lia.
Qed.

Lemma flat_rows_len : forall (f : Z -> list Z) w n a, (forall y, length (f y) = w) ->
  length (flat_map f (iota a n)) = (n * w)%nat.
Proof.
  intros f w. induction n; intros a HW; [reflexivity|].
  cbn [iota flat_map]. rewrite app_length, HW, IHn by assumption. reflexivity.
Qed.

Lemma orientFace_len : forall o d1 d2, length (orientFace o d1 d2) = (Z.to_nat d2 * Z.to_nat d1)%nat.
Proof.
  intros. unfold orientFace. apply flat_rows_len. intros y. destruct (orders o d1 d2 y). apply rowLoop_len.
Qed.

Lemma orientFace_nth : forall o d1 d2 k l, 0 <= k < d1 -> 0 <= l < d2 ->
  nth (Z.to_nat (l * d1 + k)) (orientFace o d1 d2) 0 =
  fst (orders o d1 d2 l) + k * snd (orders o d1 d2 l).
Proof.
  intros o d1 d2 k l Hk Hl. unfold orientFace.
  replace (Z.to_nat (l * d1 + k)) with (Z.to_nat l * Z.to_nat d1 + Z.to_nat k)%nat
    by (rewrite Z2Nat.inj_add, Z2Nat.inj_mul by nia; reflexivity).
  rewrite (flat_rows_nth _ (Z.to_nat d1)).
  - rewrite Z.add_0_l, Z2Nat.id by lia. destruct (orders o d1 d2 l) as [f s].
    rewrite rowLoop_nth, Z2Nat.id by lia. reflexivity.
  - intros y. destruct (orders o d1 d2 y). apply rowLoop_len.
  - lia.
  - lia.
Qed.
