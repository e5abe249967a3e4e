(** Lemmas: compression of the map to row and column storage. *)
From Coq Require Import List Arith ZArith QArith Qcanon Bool Lia Sorted Permutation ZifyBool.
From Verif Require Import Base SAM_model SAM_spec Sparse_model Sparse_spec Sparse_proofs.
Import ListNotations.
Local Open Scope nat_scope.

(** ** counting entries by class *)
Section Count.
Context {E : Type} (g : E -> nat).
Definition cls (k : nat) (l : list E) : list E := filter (fun e => g e =? k) l.
Definition cnt (k : nat) (l : list E) : nat := length (cls k l).
Definition pre (k : nat) (l : list E) : nat := length (filter (fun e => g e <=? k) l).
Lemma pre_S k l : pre (S k) l = pre k l + cnt (S k) l.
Proof.
  unfold pre, cnt, cls. induction l as [|e l IH]; [reflexivity|]. cbn [filter].
  destruct (Nat.leb_spec (g e) (S k)), (Nat.leb_spec (g e) k), (Nat.eqb_spec (g e) (S k)); try lia; cbn [length]; lia.
Qed.
Lemma pre_mono k k' l : k <= k' -> pre k l <= pre k' l.
Proof. induction 1 as [|k' H IH]; [lia|]. rewrite pre_S. lia. Qed.
Lemma pre_0 l : Forall (fun e => 1 <= g e) l -> pre 0 l = 0.
Proof. unfold pre. induction 1 as [|e l H Hl IH]; [reflexivity|]. cbn [filter]. destruct (Nat.leb_spec (g e) 0); [lia|exact IH]. Qed.
Lemma pre_all n l : Forall (fun e => g e <= n) l -> pre n l = length l.
Proof. unfold pre. induction 1 as [|e l H Hl IH]; [reflexivity|]. cbn [filter]. destruct (Nat.leb_spec (g e) n); [cbn; lia|lia]. Qed.
Lemma cnt_app k a b : cnt k (a ++ b) = cnt k a + cnt k b.
Proof. unfold cnt, cls. rewrite filter_app, app_length. reflexivity. Qed.
Lemma cnt_cons k e l : cnt k (e :: l) = (if g e =? k then 1 else 0) + cnt k l.
Proof. unfold cnt, cls. cbn [filter]. destruct (g e =? k); reflexivity. Qed.
Lemma cls_app k a b : cls k (a ++ b) = cls k a ++ cls k b.
Proof. apply filter_app. Qed.
Lemma pre_le k l : pre k l <= length l.
Proof. unfold pre. induction l as [|e l IH]; [reflexivity|]. cbn [filter]. destruct (g e <=? k); cbn; lia. Qed.

Lemma flat_map_insert (f f' : nat -> list E) ks k0 e : NoDup ks -> In k0 ks ->
  f' k0 = e :: f k0 -> (forall k, k <> k0 -> f' k = f k) ->
  Permutation (flat_map f' ks) (e :: flat_map f ks).
Proof.
  induction ks as [|k ks IH]; intros Hn Hi H0 Ho; [destruct Hi|]. inversion Hn as [|? ? Hx Hl]; subst. cbn [flat_map].
  destruct (Nat.eq_dec k k0) as [->|Hk].
  - rewrite H0. cbn [app]. apply perm_skip. apply Permutation_app_head.
    assert (Heq : flat_map f' ks = flat_map f ks).
    { clear -Ho Hx. induction ks as [|k ks IH]; [reflexivity|]. cbn [flat_map]. rewrite IH by (intros H; apply Hx; right; auto).
      rewrite Ho; [reflexivity|]. intros ->. apply Hx. left; auto. }
    rewrite Heq. apply Permutation_refl.
  - rewrite (Ho k Hk). destruct Hi as [->|Hi]; [congruence|].
    eapply Permutation_trans; [apply Permutation_app_head, IH; auto|]. apply Permutation_sym, Permutation_middle.
Qed.
Lemma cls_perm n l : Forall (fun e => 1 <= g e <= n) l ->
  Permutation (flat_map (fun k => cls (k+1) l) (seq 0 n)) l.
Proof.
  induction 1 as [|e l H Hl IH].
  - rewrite flat_map_concat_map. replace (map (fun k => cls (k+1) []) (seq 0 n)) with (map (fun _ : nat => @nil E) (seq 0 n)) by reflexivity.
    induction (seq 0 n); [apply perm_nil|exact IHl].
  - eapply Permutation_trans; [|apply perm_skip, IH].
    apply (flat_map_insert (fun k => cls (k+1) l) (fun k => cls (k+1) (e :: l)) (seq 0 n) (g e - 1)).
    + apply seq_NoDup.
    + apply in_seq. lia.
    + unfold cls. cbn [filter]. destruct (Nat.eqb_spec (g e) (g e - 1 + 1)); [reflexivity|lia].
    + intros k Hk. unfold cls. cbn [filter]. destruct (Nat.eqb_spec (g e) (k + 1)); [lia|reflexivity].
Qed.

(** a list sorted by class: each class is one slice *)
Lemma sorted_slice k l : StronglySorted (fun a b => g a <= g b) l ->
  firstn (cnt (S k) l) (skipn (pre k l) l) = cls (S k) l.
Proof.
  unfold cnt, pre, cls. induction 1 as [|e l Hs IH Hf]; [reflexivity|]. cbn [filter].
  rewrite Forall_forall in Hf.
  destruct (Nat.leb_spec (g e) k).
  - destruct (Nat.eqb_spec (g e) (S k)); [lia|]. cbn [length skipn]. exact IH.
  - assert (Hz : filter (fun x => g x <=? k) l = []).
    { clear -Hf H. induction l as [|x l IH]; [reflexivity|]. cbn [filter].
      pose proof (Hf x (or_introl eq_refl)). destruct (Nat.leb_spec (g x) k); [lia|]. apply IH. intros y Hy. apply Hf. right; auto. }
    rewrite Hz in *. cbn [length skipn] in *.
    destruct (Nat.eqb_spec (g e) (S k)).
    + cbn [length firstn]. f_equal. exact IH.
    + assert (Hz' : filter (fun x => g x =? S k) l = []).
      { clear -Hf H n. induction l as [|x l IH]; [reflexivity|]. cbn [filter].
        pose proof (Hf x (or_introl eq_refl)). destruct (Nat.eqb_spec (g x) (S k)); [lia|]. apply IH. intros y Hy. apply Hf. right; auto. }
      rewrite Hz'. reflexivity.
Qed.
End Count.

(** ** slices *)
Lemma seg_slice {X} (F : nat -> Qc -> X) b m idx a : b + m <= length idx -> length a = length idx ->
  map (fun i => F (nth i idx 0) (nth i a 0%Qc)) (seq b m) =
  map (fun p => F (fst p) (snd p)) (combine (firstn m (skipn b idx)) (firstn m (skipn b a))).
Proof.
  revert b; induction m as [|m IH]; intros b Hb Hl; [reflexivity|].
  assert (Hs : forall (Y : Type) (d : Y) (l : list Y), b < length l -> skipn b l = nth b l d :: skipn (S b) l).
  { clear. intros Y d. induction b as [|b IH]; intros [|y l] H; cbn in *; try lia; auto. apply IH. lia. }
  rewrite (Hs _ 0 idx), (Hs _ 0%Qc a) by lia. cbn [seq map firstn combine fst snd]. f_equal. apply IH; lia.
Qed.
Lemma slice_upd_end {X} (x : X) b n l : b + n < length l ->
  firstn (S n) (skipn b (upd (b+n) x l)) = firstn n (skipn b l) ++ [x].
Proof.
  revert b l; induction b as [|b IH]; intros l H.
  - cbn [skipn plus]. revert l H; induction n as [|n IH]; intros [|y l] H; cbn in *; try lia; auto.
    f_equal. apply IH. lia.
  - destruct l as [|y l]; cbn in *; [lia|]. apply IH. lia.
Qed.
Lemma slice_upd_other {X} (x : X) b n j l : j < b \/ b + n <= j ->
  firstn n (skipn b (upd j x l)) = firstn n (skipn b l).
Proof.
  revert j l; induction b as [|b IH]; intros j l H.
  - cbn [skipn]. revert j l H; induction n as [|n IH]; intros j l H; [reflexivity|].
    destruct l as [|y l], j as [|j]; cbn; try lia; auto. f_equal. apply IH. lia.
  - destruct l as [|y l], j as [|j]; cbn; auto. apply IH. lia.
Qed.

(** ** counting sort into columns *)
Definition colOf (e : key * Qc) : nat := snd (fst e).
Definition rowOf (e : key * Qc) : nat := fst (fst e).

Lemma countCols_spec nr nc l ia : Forall (fun e => rowOf e <= nr /\ 1 <= colOf e <= nc) l -> nc <= length ia ->
  exists ia', countCols nr nc l ia = (true, ia') /\ length ia' = length ia /\
    forall j, nth j ia' 0 = nth j ia 0 + (if j <? length ia then cnt colOf (j+1) l else 0).
Proof.
  intros H; revert ia; induction H as [|[[r c] v] l Hx Hl IH]; intros ia Hlen.
  - exists ia. cbn [countCols]. repeat split. intros j. unfold cnt, cls. cbn [filter length]. destruct (j <? length ia); lia.
  - unfold rowOf, colOf in Hx. cbn [fst snd] in Hx. cbn [countCols].
    replace ((r <=? nr) && (c <=? nc)) with true by lia.
    destruct (IH (upd (c-1) (S (nth (c-1) ia 0)) ia)) as (ia' & E & E1 & E2); [rewrite upd_length; lia|].
    exists ia'. rewrite upd_length in E1, E2. repeat split; auto. intros j. rewrite E2, upd_nth, cnt_cons.
    unfold colOf at 2. cbn [fst snd].
    destruct (Nat.ltb_spec j (length ia)); destruct (Nat.eqb_spec j (c-1)); destruct (Nat.ltb_spec (c-1) (length ia));
      destruct (Nat.eqb_spec c (j+1)); cbn [andb]; subst; try lia.
Qed.
Lemma prefixCols_spec (P : nat -> nat) m j0 k jsize ia : 1 <= j0 ->
  k = P (j0 - 1) -> k + jsize = P j0 -> j0 + m <= length ia ->
  (forall j, j < j0 -> nth j ia 0 = P j) -> (forall j, j0 <= j < j0 + m -> P j + nth j ia 0 = P (j+1)) ->
  length (prefixCols (seq j0 m) k jsize ia) = length ia /\
  (forall j, j < j0 + m -> nth j (prefixCols (seq j0 m) k jsize ia) 0 = P j) /\
  (forall j, j0 + m <= j -> nth j (prefixCols (seq j0 m) k jsize ia) 0 = nth j ia 0).
Proof.
  revert j0 k jsize ia; induction m as [|m IH]; intros j0 k jsize ia H0 Hk Hj Hl Hlo Hhi.
  - cbn [seq prefixCols]. repeat split; auto. intros j Hjj. apply Hlo. lia.
  - cbn [seq prefixCols]. destruct (IH (S j0) (k+jsize) (nth j0 ia 0) (upd j0 (k+jsize) ia)) as (I1 & I2 & I3).
    + lia.
    + rewrite Hj. f_equal; lia.
    + rewrite Hj. rewrite (Hhi j0) by lia. f_equal; lia.
    + rewrite upd_length. lia.
    + intros j Hjj. rewrite upd_nth. destruct (Nat.eqb_spec j j0) as [->|Hne].
      * rewrite (proj2 (Nat.ltb_lt j0 (length ia))) by lia. exact Hj.
      * apply Hlo. lia.
    + intros j Hjj. rewrite upd_nth_other by lia. apply Hhi. lia.
    + rewrite upd_length in I1. repeat split; auto.
      * intros j Hjj. apply I2. lia.
      * intros j Hjj. rewrite I3 by lia. apply upd_nth_other. lia.
Qed.
Lemma placeCols_spec nc q : forall p ia ja a,
  let P := p ++ q in
  Forall (fun e => 1 <= colOf e <= nc) P -> length ia = nc + 1 ->
  length ja = length P -> length a = length P ->
  (forall j, j < nc -> nth j ia 0 = pre colOf j P + cnt colOf (j+1) p) ->
  (forall j, j < nc -> firstn (cnt colOf (j+1) p) (skipn (pre colOf j P) ja) = map (fun e => rowOf e - 1) (cls colOf (j+1) p)) ->
  (forall j, j < nc -> firstn (cnt colOf (j+1) p) (skipn (pre colOf j P) a) = map snd (cls colOf (j+1) p)) ->
  exists ia' ja' a', placeCols q ia ja a = (ia', ja', a') /\ length ia' = nc + 1 /\
    length ja' = length P /\ length a' = length P /\
    (forall j, j < nc -> nth j ia' 0 = pre colOf (S j) P) /\
    (forall j, j < nc -> firstn (cnt colOf (j+1) P) (skipn (pre colOf j P) ja') = map (fun e => rowOf e - 1) (cls colOf (j+1) P)) /\
    (forall j, j < nc -> firstn (cnt colOf (j+1) P) (skipn (pre colOf j P) a') = map snd (cls colOf (j+1) P)).
Proof.
  induction q as [|[[r c] v] q IH]; intros p ia ja a P HP Hia Hja Ha H1 H2 H3.
  - cbn [placeCols]. exists ia, ja, a. unfold P in *. rewrite app_nil_r in *. repeat split; auto.
    intros j Hj. rewrite H1 by exact Hj. rewrite pre_S. replace (j+1) with (S j) by lia. reflexivity.
  - cbn [placeCols]. set (e := ((r,c),v)) in *.
    assert (HPe : P = (p ++ [e]) ++ q) by (unfold P; rewrite <- app_assoc; reflexivity).
    assert (He : 1 <= c <= nc) by (rewrite Forall_forall in HP; apply (HP e); unfold P; apply in_app_iff; right; left; reflexivity).
    assert (Hc1 : c - 1 + 1 = c) by lia.
    assert (Hk : nth (c-1) ia 0 = pre colOf (c-1) P + cnt colOf c p) by (rewrite H1 by lia; rewrite Hc1; reflexivity).
    assert (Hcc : cnt colOf c P = cnt colOf c p + 1 + cnt colOf c q).
    { unfold P. rewrite cnt_app, cnt_cons. unfold colOf at 2; cbn [e fst snd]. rewrite Nat.eqb_refl. lia. }
    assert (HS : pre colOf c P = pre colOf (c-1) P + cnt colOf c P) by (replace c with (S (c-1)) at 1 3 by lia; rewrite pre_S; reflexivity).
    pose proof (pre_le colOf c P) as Hle.
    set (k := nth (c-1) ia 0) in *.
    assert (Hdis : forall j, j < nc -> j <> c-1 -> k < pre colOf j P \/ pre colOf j P + cnt colOf (j+1) P <= k).
    { intros j Hj Hn. destruct (Nat.lt_total j (c-1)) as [L|[L|L]]; [|lia|].
      - right. pose proof (pre_S colOf j P) as HSj. replace (j+1) with (S j) by lia.
        pose proof (pre_mono colOf (S j) (c-1) P ltac:(lia)). lia.
      - left. pose proof (pre_mono colOf c j P ltac:(lia)). lia. }
    assert (Hcnt : forall j, cnt colOf (j+1) (p ++ [e]) = cnt colOf (j+1) p + (if j =? c-1 then 1 else 0)).
    { intros j. rewrite cnt_app, cnt_cons. unfold colOf at 2; cbn [e fst snd]. unfold cnt at 2, cls; cbn [filter length].
      destruct (Nat.eqb_spec c (j+1)), (Nat.eqb_spec j (c-1)); lia. }
    assert (Hcls : forall j, cls colOf (j+1) (p ++ [e]) = cls colOf (j+1) p ++ (if j =? c-1 then [e] else [])).
    { intros j. rewrite cls_app. f_equal. unfold cls. cbn [filter]. unfold colOf at 1; cbn [e fst snd].
      destruct (Nat.eqb_spec c (j+1)), (Nat.eqb_spec j (c-1)); try lia; reflexivity. }
    assert (HcntP : forall j, cnt colOf (j+1) p <= cnt colOf (j+1) P) by (intros j; unfold P; rewrite cnt_app; lia).
    destruct (IH (p ++ [e]) (upd (c-1) (S k) ia) (upd k (r-1) ja) (upd k v a)) as (ia' & ja' & a' & HR).
    + rewrite <- HPe. exact HP.
    + rewrite upd_length. exact Hia.
    + rewrite upd_length, <- HPe. exact Hja.
    + rewrite upd_length, <- HPe. exact Ha.
    + intros j Hj. rewrite <- HPe, upd_nth, Hcnt. destruct (Nat.eqb_spec j (c-1)) as [->|Hn]; cbn [andb].
      * rewrite (proj2 (Nat.ltb_lt (c-1) (length ia))) by lia. rewrite Hc1. lia.
      * rewrite H1 by exact Hj. lia.
    + intros j Hj. rewrite <- HPe, Hcnt, Hcls, map_app. destruct (Nat.eqb_spec j (c-1)) as [->|Hn].
      * rewrite Hc1 in *. replace (cnt colOf c p + 1) with (S (cnt colOf c p)) by lia.
        rewrite Hk, slice_upd_end by lia. cbn [map e]. unfold rowOf at 2; cbn [fst]. f_equal.
        specialize (H2 (c-1) ltac:(lia)). rewrite Hc1 in H2. exact H2.
      * rewrite Nat.add_0_r, app_nil_r. rewrite slice_upd_other; [apply H2, Hj|].
        specialize (Hdis j Hj Hn). specialize (HcntP j). lia.
    + intros j Hj. rewrite <- HPe, Hcnt, Hcls, map_app. destruct (Nat.eqb_spec j (c-1)) as [->|Hn].
      * rewrite Hc1 in *. replace (cnt colOf c p + 1) with (S (cnt colOf c p)) by lia.
        rewrite Hk, slice_upd_end by lia. cbn [map e snd]. f_equal.
        specialize (H3 (c-1) ltac:(lia)). rewrite Hc1 in H3. exact H3.
      * rewrite Nat.add_0_r, app_nil_r. rewrite slice_upd_other; [apply H3, Hj|].
        specialize (Hdis j Hj Hn). specialize (HcntP j). lia.
    + rewrite <- HPe in HR. exists ia', ja', a'. exact HR.
Qed.
Lemma shiftCols_spec nc ia : length ia = nc + 1 ->
  length (shiftCols nc ia) = nc + 1 /\ nth 0 (shiftCols nc ia) 0 = 0 /\
  forall j, j < nc -> nth (j+1) (shiftCols nc ia) 0 = nth j ia 0.
Proof.
  intros Hl. unfold shiftCols.
  assert (H : forall n ia, n < length ia ->
     let r := fold_left (fun a j => upd j (nth (j-1) a 0) a) (rev (seq 1 n)) ia in
     length r = length ia /\ (forall j, 1 <= j <= n -> nth j r 0 = nth (j-1) ia 0) /\ (forall j, n < j -> nth j r 0 = nth j ia 0)).
  { induction n as [|n IH]; intros l Hn; cbn zeta.
    - cbn. repeat split; auto. intros j Hj; lia.
    - rewrite seq_S, rev_app_distr. cbn [rev app fold_left].
      destruct (IH (upd (1+n) (nth (1+n-1) l 0) l)) as (I1 & I2 & I3); [rewrite upd_length; lia|].
      rewrite upd_length in I1. repeat split; auto.
      + intros j Hj. destruct (Nat.eq_dec j (S n)) as [->|Hne].
        * rewrite I3 by lia. replace (1+n) with (S n) by lia. rewrite upd_nth_same by lia. reflexivity.
        * rewrite I2 by lia. apply upd_nth_other. lia.
      + intros j Hj. rewrite I3 by lia. apply upd_nth_other. lia. }
  destruct (H nc ia ltac:(lia)) as (I1 & I2 & I3). rewrite upd_length. split; [lia|]. split.
  - apply upd_nth_same. lia.
  - intros j Hj. rewrite upd_nth_other by lia. rewrite I2 by lia. f_equal. lia.
Qed.
Lemma Forall_cls {E} (g : E -> nat) (R : E -> Prop) k l : Forall R l -> Forall R (cls g k l).
Proof. intros H. apply Forall_forall. intros x Hx. apply filter_In in Hx. rewrite Forall_forall in H. apply H, Hx. Qed.

(** segments given by slices *)
Lemma segEnts_cls {E} (g : E -> nat) (x : E -> nat) (v : E -> Qc) n l ptr idx a :
  (forall k, k <= n -> ptr k = pre g k l) -> length idx = length l -> length a = length l ->
  (forall k, k < n -> firstn (cnt g (k+1) l) (skipn (pre g k l) idx) = map x (cls g (k+1) l)) ->
  (forall k, k < n -> firstn (cnt g (k+1) l) (skipn (pre g k l) a) = map v (cls g (k+1) l)) ->
  segEnts n ptr idx a = flat_map (fun k => map (fun e => (k, x e, v e)) (cls g (k+1) l)) (seq 0 n).
Proof.
  intros Hp Hi Ha H1 H2. unfold segEnts.
  assert (Hgen : forall ks, (forall k, In k ks -> k < n) ->
    flat_map (fun k => map (fun i => (k, nth i idx 0, nth i a 0%Qc)) (seq (ptr k) (ptr (k+1) - ptr k))) ks =
    flat_map (fun k => map (fun e => (k, x e, v e)) (cls g (k+1) l)) ks).
  { induction ks as [|k ks IH]; intros Hks; [reflexivity|]. cbn [flat_map]. rewrite IH by (intros; apply Hks; right; auto). f_equal.
    assert (Hk : k < n) by (apply Hks; left; auto).
    rewrite (Hp k), (Hp (k+1)) by lia. replace (k+1) with (S k) by lia. rewrite pre_S.
    replace (pre g k l + cnt g (S k) l - pre g k l) with (cnt g (S k) l) by lia.
    pose proof (pre_S g k l). pose proof (pre_le g (S k) l).
    rewrite (seg_slice (fun y z => (k, y, z))) by lia.
    specialize (H1 k Hk). specialize (H2 k Hk). replace (k+1) with (S k) in * by lia. rewrite H1, H2. clear H1 H2.
    induction (cls g (S k) l) as [|e c IHc]; [reflexivity|]. cbn [map combine fst snd]. f_equal. exact IHc. }
  apply Hgen. intros k Hk. apply in_seq in Hk. lia.
Qed.
Lemma segOK_cls {E} (g : E -> nat) (x : E -> nat) n l ptr idx a :
  (forall k, k <= n -> ptr k = pre g k l) -> length idx = length l -> length a = length l ->
  Forall (fun e => 1 <= g e <= n) l ->
  (forall k, k < n -> NoDup (map x (cls g (k+1) l))) ->
  (forall k, k < n -> firstn (cnt g (k+1) l) (skipn (pre g k l) idx) = map x (cls g (k+1) l)) ->
  segOK n ptr idx a.
Proof.
  intros Hp Hi Ha Hg Hnd H1. unfold segOK. repeat match goal with |- _ /\ _ => split end.
  - rewrite Hp by lia. apply pre_0. eapply Forall_impl; [|exact Hg]. cbv beta; lia.
  - intros k Hk. rewrite !Hp by lia. apply pre_mono. lia.
  - rewrite Hp by lia. rewrite pre_all; [auto|]. eapply Forall_impl; [|exact Hg]. cbv beta; lia.
  - lia.
  - intros k i j Hk Hi' Hj E0. rewrite !Hp in Hi', Hj by lia.
    specialize (Hnd k Hk). specialize (H1 k Hk). replace (k+1) with (S k) in * by lia. rewrite pre_S in Hi', Hj.
    rewrite <- H1 in Hnd. pose proof (pre_le g (S k) l) as Hle. rewrite pre_S in Hle.
    assert (Hlen : length (firstn (cnt g (S k) l) (skipn (pre g k l) idx)) = cnt g (S k) l) by (rewrite firstn_length, skipn_length; lia).
    assert (i - pre g k l = j - pre g k l); [|lia].
    apply (proj1 (NoDup_nth _ 0) Hnd); [lia|lia|].
    rewrite !nth_firstn_lt, !nth_skipn by lia. replace (pre g k l + (i - pre g k l)) with i by lia.
    replace (pre g k l + (j - pre g k l)) with j by lia. exact E0.
Qed.

(** column compression of any list of in-range entries without duplicate keys *)
Lemma compressCols_spec nr nc l : Forall (fun e => 1 <= rowOf e <= nr /\ 1 <= colOf e <= nc) l -> NoDup (map fst l) ->
  exists ia ja a, compressCols nr nc l [] = Some (ia, ja, a) /\ length ia = nc + 1 /\
    segOK nc (fun k => nth k ia 0) ja a /\ Forall (fun x => x < nr) ja /\
    Permutation (map (fun e => ((snd (fst e) + 1, fst (fst e) + 1), snd e)) (segEnts nc (fun k => nth k ia 0) ja a)) l.
Proof.
  intros Hf Hnd. unfold compressCols.
  assert (Hf2 : Forall (fun e => 1 <= colOf e <= nc) l) by (eapply Forall_impl; [|exact Hf]; cbv beta; tauto).
  assert (Hf3 : Forall (fun e => rowOf e <= nr /\ 1 <= colOf e <= nc) l) by (eapply Forall_impl; [|exact Hf]; cbv beta; lia).
  assert (Hlen0 : length (vresize (nc+1) 0 []) = nc + 1) by (unfold vresize; rewrite firstn_nil; cbn; rewrite repeat_length; lia).
  assert (Hz : forall j, nth j (vresize (nc+1) 0 []) 0 = 0).
  { intros j. unfold vresize. rewrite firstn_nil. cbn [app length]. rewrite nth_repeat. reflexivity. }
  destruct (countCols_spec nr nc l (vresize (nc+1) 0 []) Hf3 ltac:(lia)) as (ia1 & -> & L1 & E1). cbn [negb].
  assert (E1' : forall j, j < nc + 1 -> nth j ia1 0 = cnt colOf (j+1) l).
  { intros j Hj. rewrite E1, Hz. rewrite (proj2 (Nat.ltb_lt j _)) by lia. reflexivity. }
  assert (Hp0 : pre colOf 0 l = 0) by (apply pre_0; eapply Forall_impl; [|exact Hf2]; cbv beta; lia).
  assert (Hpn : pre colOf nc l = length l) by (apply pre_all; eapply Forall_impl; [|exact Hf2]; cbv beta; lia).
  destruct (prefixCols_spec (fun j => pre colOf j l) (nc-1) 1 0 (nth 0 ia1 0) (upd 0 0 ia1)) as (L2 & E2 & _).
  - lia.
  - cbn. lia.
  - rewrite E1' by lia. change 1 with (S 0) at 2. rewrite pre_S, Hp0. reflexivity.
  - rewrite upd_length. lia.
  - intros j Hj. replace j with 0 by lia. rewrite upd_nth_same by lia. auto.
  - intros j Hj. rewrite upd_nth_other by lia. rewrite E1' by lia. replace (j+1) with (S j) by lia. rewrite pre_S. reflexivity.
  - set (ia2 := prefixCols (seq 1 (nc-1)) 0 (nth 0 ia1 0) (upd 0 0 ia1)) in *. rewrite upd_length in L2.
    destruct (placeCols_spec nc l [] ia2 (repeat 0 (length l)) (repeat 0%Qc (length l))) as (ia3 & ja & a & -> & L3 & Lj & La & E3 & Sj & Sa).
    + exact Hf2.
    + lia.
    + apply repeat_length.
    + apply repeat_length.
    + intros j Hj. rewrite E2 by lia. unfold cnt, cls; cbn [filter length]. rewrite app_nil_l. lia.
    + intros j Hj. reflexivity.
    + intros j Hj. reflexivity.
    + cbn [app] in *. exists (shiftCols nc ia3), ja, a. split; [reflexivity|].
      destruct (shiftCols_spec nc ia3 L3) as (L4 & Z4 & E4). split; [exact L4|].
      assert (Hptr : forall k, k <= nc -> nth k (shiftCols nc ia3) 0 = pre colOf k l).
      { intros [|k] Hk; [rewrite Z4; auto|]. replace (S k) with (k+1) at 1 by lia. rewrite E4 by lia. apply E3. lia. }
      assert (Hrow : forall e, In e l -> 1 <= rowOf e <= nr /\ 1 <= colOf e <= nc) by (rewrite Forall_forall in Hf; exact Hf).
      split; [|split].
      * apply (segOK_cls colOf (fun e => rowOf e - 1) nc l); auto.
        intros k Hk. apply NoDup_map_inj.
        -- apply NoDup_filter. apply NoDup_map_inv in Hnd. exact Hnd.
        -- intros e e' He He' Heq. apply filter_In in He, He'. destruct He as [He Hc], He' as [He' Hc'].
           pose proof (Hrow e He). pose proof (Hrow e' He').
           assert (Hk' : fst e = fst e').
           { destruct e as [[r c] v], e' as [[r' c'] v']. unfold rowOf, colOf in *. cbn [fst snd] in *. f_equal; lia. }
           assert (HH := proj1 (mget_in (fst e) (snd e) l Hnd)). 
           assert (G1 : mget (fst e) l = Some (snd e)) by (apply mget_in; [exact Hnd|destruct e; exact He]).
           assert (G2 : mget (fst e') l = Some (snd e')) by (apply mget_in; [exact Hnd|destruct e'; exact He']).
           rewrite Hk' in G1. rewrite G1 in G2. injection G2 as G2. destruct e, e'; cbn [fst snd] in *. congruence.
      * apply Forall_forall. intros y Hy. apply (In_nth _ _ 0) in Hy. destruct Hy as (i & Hi & <-). rewrite Lj in Hi.
        assert (Hseg : exists k, k < nc /\ pre colOf k l <= i < pre colOf (S k) l).
        { clear -Hp0 Hpn Hi. rewrite <- Hpn in Hi. clear Hpn. induction nc as [|n IH]; [lia|].
          destruct (Nat.lt_ge_cases i (pre colOf n l)) as [L|L]; [destruct (IH L) as (k & ? & ?); exists k; lia|exists n; lia]. }
        destruct Hseg as (k & Hk & Hik). rewrite pre_S in Hik.
        specialize (Sj k Hk). replace (k+1) with (S k) in Sj by lia.
        assert (Hin : In (nth i ja 0) (map (fun e => rowOf e - 1) (cls colOf (S k) l))).
        { rewrite <- Sj. replace (nth i ja 0) with (nth (i - pre colOf k l) (firstn (cnt colOf (S k) l) (skipn (pre colOf k l) ja)) 0).
          - apply nth_In. rewrite firstn_length, skipn_length. pose proof (pre_le colOf (S k) l) as Hle. rewrite pre_S in Hle. lia.
          - rewrite nth_firstn_lt, nth_skipn by lia. f_equal. lia. }
        apply in_map_iff in Hin. destruct Hin as (e & <- & He). apply filter_In in He. pose proof (Hrow e (proj1 He)). lia.
      * rewrite (segEnts_cls colOf (fun e => rowOf e - 1) snd nc l) by auto.
        rewrite map_flat_map. eapply Permutation_trans; [|apply (cls_perm colOf nc l Hf2)].
        assert (Heq : forall ks, flat_map (fun k => map (fun e => ((snd (fst e) + 1, fst (fst e) + 1), snd e))
              (map (fun e => (k, rowOf e - 1, snd e)) (cls colOf (k+1) l))) ks = flat_map (fun k => cls colOf (k+1) l) ks).
        { induction ks as [|k ks IH]; [reflexivity|]. cbn [flat_map]. rewrite IH. f_equal. rewrite map_map.
          rewrite <- (map_id (cls colOf (k+1) l)) at 2. apply map_ext_in. intros e He. apply filter_In in He.
          destruct He as [He Hc]. apply Nat.eqb_eq in Hc. pose proof (Hrow e He). destruct e as [[r c] v].
          unfold rowOf, colOf in *. cbn [fst snd] in *. f_equal. f_equal; lia. }
        rewrite Heq. apply Permutation_refl.
Qed.

(** ** row storage *)
Lemma fold_upd_range {X} (x d : X) m : forall s ia, s + m <= length ia ->
  let r := fold_left (fun a k => upd k x a) (seq s m) ia in
  length r = length ia /\ (forall k, s <= k < s + m -> nth k r d = x) /\ (forall k, k < s \/ s + m <= k -> nth k r d = nth k ia d).
Proof.
  induction m as [|m IH]; intros s ia H; cbn zeta.
  - cbn. repeat split; auto. intros k Hk; lia.
  - cbn [seq fold_left]. destruct (IH (S s) (upd s x ia)) as (I1 & I2 & I3); [rewrite upd_length; lia|].
    rewrite upd_length in I1. repeat split; auto.
    + intros k Hk. destruct (Nat.eq_dec k s) as [->|Hn]; [rewrite I3 by lia; apply upd_nth_same; lia|apply I2; lia].
    + intros k Hk. rewrite I3 by lia. apply upd_nth_other. lia.
Qed.
Lemma rowPtr_spec nr (l : vmap) : forall q p cur ia, l = p ++ q ->
  StronglySorted (fun a b => rowOf a <= rowOf b) l -> Forall (fun e => 1 <= rowOf e <= nr) l ->
  1 <= cur <= Nat.max 1 nr -> Forall (fun e => rowOf e <= cur) p -> Forall (fun e => cur <= rowOf e) q ->
  length ia = nr + 1 ->
  (forall k, k < cur -> k <= nr -> nth k ia 0 = 1 + pre rowOf k l) ->
  (forall k, cur <= k <= nr -> nth k ia 0 = length l + 1) ->
  let r := rowPtr (map fst q) cur (length p) ia in
  length r = nr + 1 /\ forall k, k <= nr -> nth k r 0 = 1 + pre rowOf k l.
Proof.
  induction q as [|[[r c] v] q IH]; intros p cur ia Hl Hs Hr Hcur Hp Hq Hlen H1 H2; cbn zeta.
  - cbn [map rowPtr]. split; [exact Hlen|]. intros k Hk. destruct (Nat.lt_ge_cases k cur) as [L|L]; [apply H1; auto|].
    rewrite H2 by lia. rewrite pre_all; [lia|]. rewrite app_nil_r in Hl. subst p. eapply Forall_impl; [|exact Hp]. cbv beta; lia.
  - cbn [map fst rowPtr]. set (e := ((r,c),v)) in *.
    assert (He : In e l) by (subst l; apply in_app_iff; right; left; reflexivity).
    assert (Her : 1 <= r <= nr) by (rewrite Forall_forall in Hr; apply (Hr e He)).
    assert (Hqr : Forall (fun x => r <= rowOf x) q).
    { subst l. clear -Hs. induction p as [|x p IHp]; cbn [app] in Hs; inversion Hs as [|? ? Hs' Hf]; subst; [exact Hf|auto]. }
    assert (Hcr : cur <= r) by (inversion Hq; subst; auto).
    replace (S (length p)) with (length (p ++ [e])) by (rewrite app_length; cbn; lia).
    destruct (fold_upd_range (length p + 1) 0 (r - cur) cur ia) as (F1 & F2 & F3); [lia|].
    apply IH; auto.
    + rewrite <- app_assoc. exact Hl.
    + lia.
    + apply Forall_app. split.
      * eapply Forall_impl; [|exact Hp]. cbv beta; lia.
      * repeat constructor. unfold rowOf; cbn. lia.
    + rewrite Nat.max_r by lia. exact Hqr.
    + lia.
    + intros k Hk Hkn. rewrite Nat.max_r in Hk by lia. destruct (Nat.lt_ge_cases k cur) as [L|L].
      * rewrite F3 by lia. apply H1; auto.
      * rewrite F2 by lia. rewrite Nat.add_comm. f_equal. subst l. unfold pre. rewrite filter_app, app_length.
        assert (Ha : filter (fun x => rowOf x <=? k) p = p).
        { clear -Hp L. induction Hp as [|x p Hx Hp IH]; [reflexivity|]. cbn [filter].
          destruct (Nat.leb_spec (rowOf x) k); [rewrite IH; reflexivity|lia]. }
        assert (Hb : filter (fun x => rowOf x <=? k) (e :: q) = []).
        { cbn [filter]. unfold rowOf at 1; cbn [e fst]. destruct (Nat.leb_spec r k); [lia|].
          clear -Hqr Hk. induction Hqr as [|x q Hx Hq IH]; [reflexivity|]. cbn [filter].
          destruct (Nat.leb_spec (rowOf x) k); [lia|exact IH]. }
        rewrite Ha. apply (f_equal (@length _)) in Hb. cbn [length] in Hb. transitivity (length p + 0); [lia|]. f_equal. symmetry. exact Hb.
    + intros k Hk. rewrite Nat.max_r in Hk by lia. rewrite F3 by lia. apply H2. lia.
Qed.

(** swapping two entries of a segment *)
Definition tr (i j x : nat) : nat := if x =? i then j else if x =? j then i else x.
Lemma nth_swapAt {X} (d : X) i j l x : i < length l -> j < length l -> nth x (swapAt d i j l) d = nth (tr i j x) l d.
Proof.
  intros Hi Hj. unfold swapAt, tr. rewrite !upd_nth, upd_length.
  destruct (Nat.eqb_spec x j), (Nat.eqb_spec x i), (Nat.ltb_spec j (length l)), (Nat.ltb_spec i (length l)); cbn [andb]; subst; try lia; reflexivity.
Qed.
Lemma swapAt_length {X} (d : X) i j l : length (swapAt d i j l) = length l.
Proof. unfold swapAt. rewrite !upd_length. reflexivity. Qed.
Lemma tr_tr i j x : tr i j (tr i j x) = x.
Proof. unfold tr. destruct (Nat.eqb_spec x i) as [->|]; [destruct (Nat.eqb_spec j i) as [->|]; [reflexivity|]; rewrite Nat.eqb_refl; reflexivity|]. destruct (Nat.eqb_spec x j) as [->|]; [rewrite Nat.eqb_refl; reflexivity|]. destruct (Nat.eqb_spec x i), (Nat.eqb_spec x j); congruence. Qed.
Lemma seg_swap n ptr idx a k i j : segOK n ptr idx a -> k < n -> ptr k <= i < ptr (k+1) -> ptr k <= j < ptr (k+1) ->
  segOK n ptr (swapAt 0 i j idx) (swapAt 0%Qc i j a) /\
  Permutation (segEnts n ptr (swapAt 0 i j idx) (swapAt 0%Qc i j a)) (segEnts n ptr idx a).
Proof.
  intros H Hk Hi Hj. pose proof (seg_bound _ _ _ _ H (k+1) ltac:(lia)) as Hb.
  assert (HlA : length a = length idx) by apply H.
  assert (Htr : forall k' x, k' < n -> ptr k' <= x < ptr (k'+1) -> ptr k' <= tr i j x < ptr (k'+1)).
  { intros k' x Hk' Hx. unfold tr. destruct (Nat.eqb_spec x i) as [->|]; [|destruct (Nat.eqb_spec x j) as [->|]; [|exact Hx]].
    - pose proof (seg_unique _ _ _ _ H k k' i Hk Hk' Hi Hx). subst; exact Hj.
    - pose proof (seg_unique _ _ _ _ H k k' j Hk Hk' Hj Hx). subst; exact Hi. }
  split.
  - pose proof H as (H0 & Hm & Hn & _ & Hinj). unfold segOK. repeat match goal with |- _ /\ _ => split end; auto.
    + rewrite swapAt_length. exact Hn.
    + rewrite !swapAt_length. exact HlA.
    + intros k' x y Hk' Hx Hy E. rewrite !nth_swapAt in E by lia.
      assert (Ht : tr i j x = tr i j y) by (apply (Hinj k'); auto). rewrite <- (tr_tr i j x), <- (tr_tr i j y), Ht. reflexivity.
  - unfold segEnts.
    assert (Hgen : forall ks, (forall x, In x ks -> x < n) -> Permutation
       (flat_map (fun k => map (fun i0 => (k, nth i0 (swapAt 0 i j idx) 0, nth i0 (swapAt 0%Qc i j a) 0%Qc)) (seq (ptr k) (ptr (k+1) - ptr k))) ks)
       (flat_map (fun k => map (fun i => (k, nth i idx 0, nth i a 0%Qc)) (seq (ptr k) (ptr (k+1) - ptr k))) ks)).
    { induction ks as [|k' ks IH]; intros Hks; [apply perm_nil|]. cbn [flat_map].
      apply Permutation_app; [|apply IH; intros; apply Hks; right; auto].
      assert (Hk' : k' < n) by (apply Hks; left; auto).
      set (S0 := seq (ptr k') (ptr (k'+1) - ptr k')).
      replace (map (fun i0 => (k', nth i0 (swapAt 0 i j idx) 0, nth i0 (swapAt 0%Qc i j a) 0%Qc)) S0)
        with (map (fun x => (k', nth x idx 0, nth x a 0%Qc)) (map (tr i j) S0)).
      - apply Permutation_map. apply NoDup_Permutation.
        + apply NoDup_map_inj; [apply seq_NoDup|]. intros x y _ _ E. rewrite <- (tr_tr i j x), <- (tr_tr i j y), E. reflexivity.
        + apply seq_NoDup.
        + intros x. rewrite in_map_iff. unfold S0. split.
          * intros (y & <- & Hy). apply in_seq in Hy. apply in_seq. specialize (Htr k' y Hk' ltac:(lia)). lia.
          * intros Hx. apply in_seq in Hx. exists (tr i j x). split; [apply tr_tr|]. apply in_seq. specialize (Htr k' x Hk' ltac:(lia)). lia.
      - rewrite map_map. apply map_ext_in. intros x Hx. apply in_seq in Hx. rewrite !nth_swapAt by lia. reflexivity. }
    apply Hgen. intros x Hx. apply in_seq in Hx. lia.
Qed.
Lemma Forall_swapAt (R : nat -> Prop) i j l : i < length l -> j < length l -> Forall R l -> Forall R (swapAt 0 i j l).
Proof.
  intros Hi Hj H. apply Forall_forall. intros x Hx. apply (In_nth _ _ 0) in Hx. destruct Hx as (k & Hk & <-).
  rewrite swapAt_length in Hk. rewrite nth_swapAt by auto. rewrite Forall_forall in H. apply H, nth_In.
  unfold tr. destruct (k =? i), (k =? j); auto.
Qed.
Lemma diagFirst_loop (R : nat -> Prop) n ia ps ja a : (forall r, In r ps -> r < n) ->
  (forall k, k <= n -> 1 <= nth k ia 0) ->
  segOK n (fun k => nth k ia 0 - 1) ja a -> Forall R ja ->
  exists ja' a', fold_left (diagFirst ia) ps (ja, a) = (ja', a') /\
    segOK n (fun k => nth k ia 0 - 1) ja' a' /\ Forall R ja' /\
    Permutation (segEnts n (fun k => nth k ia 0 - 1) ja' a') (segEnts n (fun k => nth k ia 0 - 1) ja a).
Proof.
  intros Hps Hpos. revert ja a. induction ps as [|r ps IH]; intros ja a Hok HR; cbn [fold_left].
  - exists ja, a. auto.
  - assert (Hr : r < n) by (apply Hps; left; auto).
    assert (Hstep : exists ja1 a1, diagFirst ia (ja, a) r = (ja1, a1) /\ segOK n (fun k => nth k ia 0 - 1) ja1 a1 /\ Forall R ja1 /\
       Permutation (segEnts n (fun k => nth k ia 0 - 1) ja1 a1) (segEnts n (fun k => nth k ia 0 - 1) ja a)).
    { unfold diagFirst. destruct (findN (1+r) _) as [[|k]|] eqn:E; [exists ja, a; auto| |exists ja, a; auto].
      apply findN_some in E. destruct E as [Hk _]. rewrite firstn_length, skipn_length in Hk.
      pose proof (seg_bound _ _ _ _ Hok (r+1) ltac:(lia)) as Hb. cbv beta in Hb.
      destruct (seg_swap n (fun k => nth k ia 0 - 1) ja a r (nth r ia 0 - 1) (nth r ia 0 - 1 + S k) Hok Hr) as [S1 S2]; [lia|lia|].
      eexists _, _. split; [reflexivity|]. split; [exact S1|]. split; [|exact S2].
      apply Forall_swapAt; auto; lia. }
    destruct Hstep as (ja1 & a1 & -> & O1 & R1 & P1).
    destruct (IH ltac:(intros; apply Hps; right; auto) ja1 a1 O1 R1) as (ja' & a' & E & O2 & R2 & P2).
    exists ja', a'. repeat split; auto; try apply O2. eapply Permutation_trans; eauto.
Qed.
(** row compression of a sorted map *)
Lemma compressRows_spec nr nc l : StronglySorted keyLt l ->
  Forall (fun e => 1 <= rowOf e <= nr /\ 1 <= colOf e <= nc) l ->
  let ia := rowPtr (map fst l) 1 0 (upd 0 1 (vresize (nr+1) (length l + 1) [])) in
  exists ja a, fold_left (diagFirst ia) (seq 0 nr) (map (fun e => snd (fst e)) l, map snd l) = (ja, a) /\
    length ia = nr + 1 /\ (forall k, k <= nr -> 1 <= nth k ia 0) /\
    segOK nr (fun k => nth k ia 0 - 1) ja a /\ Forall (fun x => 1 <= x <= nc) ja /\
    Permutation (map (fun e => ((fst (fst e) + 1, snd (fst e)), snd e)) (segEnts nr (fun k => nth k ia 0 - 1) ja a)) l.
Proof.
  intros Hs Hf ia.
  assert (Hs' : StronglySorted (fun a b => rowOf a <= rowOf b) l).
  { clear -Hs. induction Hs as [|e l Hs IH Hf]; constructor; auto. eapply Forall_impl; [|exact Hf]. unfold keyLt, rowOf. intros a Ha. lia. }
  assert (Hf1 : Forall (fun e => 1 <= rowOf e <= nr) l) by (eapply Forall_impl; [|exact Hf]; cbv beta; tauto).
  assert (Hia : length ia = nr + 1 /\ forall k, k <= nr -> nth k ia 0 = 1 + pre rowOf k l).
  { unfold ia. change 0 with (@length (key*Qc) []) at 1. apply (rowPtr_spec nr l l []); auto.
    - lia.
    - eapply Forall_impl; [|exact Hf1]; cbv beta; tauto.
    - rewrite upd_length. unfold vresize. rewrite firstn_nil. cbn [app length]. rewrite repeat_length. lia.
    - intros k Hk _. replace k with 0 by lia. rewrite upd_nth_same.
      + rewrite pre_0; [reflexivity|]. eapply Forall_impl; [|exact Hf1]; cbv beta; tauto.
      + unfold vresize. rewrite firstn_nil. cbn [app length]. rewrite repeat_length. lia.
    - intros k Hk. rewrite upd_nth_other by lia. unfold vresize. rewrite firstn_nil. cbn [app length].
      assert (Hrep : forall (x : nat) n k, k < n -> nth k (repeat x n) 0 = x).
      { clear. intros x n. induction n as [|n IH]; intros [|k] H; cbn; auto; try lia. apply IH; lia. }
      apply Hrep. lia. }
  destruct Hia as [Hlen Hptr].
  assert (Hpos : forall k, k <= nr -> 1 <= nth k ia 0) by (intros k Hk; rewrite Hptr by exact Hk; lia).
  assert (Hptr' : forall k, k <= nr -> nth k ia 0 - 1 = pre rowOf k l) by (intros k Hk; rewrite Hptr by exact Hk; lia).
  assert (Hsl : forall {Y} (f : key*Qc -> Y) k, firstn (cnt rowOf (k+1) l) (skipn (pre rowOf k l) (map f l)) = map f (cls rowOf (k+1) l)).
  { intros Y f k. rewrite skipn_map, firstn_map. replace (k+1) with (S k) by lia. rewrite sorted_slice by exact Hs'. reflexivity. }
  assert (Hnd : forall k, k < nr -> NoDup (map (fun e : key * Qc => snd (fst e)) (cls rowOf (k+1) l))).
  { intros k Hk. pose proof (sorted_nodup l Hs) as Hn. apply NoDup_map_inj; [apply NoDup_filter; eapply NoDup_map_inv; exact Hn|].
    intros e e' He He' Heq. apply filter_In in He, He'. destruct He as [He Hc], He' as [He' Hc'].
    assert (Hkk : fst e = fst e').
    { destruct e as [[r c] v], e' as [[r' c'] v']. unfold rowOf, colOf in *. cbn [fst snd] in *. f_equal; lia. }
    assert (G1 : mget (fst e) l = Some (snd e)) by (apply mget_in; [exact Hn|destruct e; exact He]).
    assert (G2 : mget (fst e') l = Some (snd e')) by (apply mget_in; [exact Hn|destruct e'; exact He']).
    rewrite Hkk in G1. rewrite G1 in G2. injection G2 as G2. destruct e, e'; cbn [fst snd] in *. congruence. }
  assert (Hok : segOK nr (fun k => nth k ia 0 - 1) (map (fun e => snd (fst e)) l) (map snd l)).
  { apply (segOK_cls rowOf (fun e => snd (fst e)) nr l); auto; rewrite ?map_length; auto. }
  destruct (diagFirst_loop (fun x => 1 <= x <= nc) nr ia (seq 0 nr) _ _ ltac:(intros r Hr; apply in_seq in Hr; lia) Hpos Hok) as (ja & a & E & O & R & Pm).
  { apply Forall_map. eapply Forall_impl; [|exact Hf]. unfold colOf. cbv beta; tauto. }
  exists ja, a. split; [exact E|]. split; [exact Hlen|]. split; [exact Hpos|]. split; [exact O|]. split; [exact R|].
  eapply Permutation_trans; [apply Permutation_map, Pm|].
  rewrite (segEnts_cls rowOf (fun e => snd (fst e)) snd nr l) by (auto; rewrite map_length; auto).
  rewrite map_flat_map. eapply Permutation_trans; [|apply (cls_perm rowOf nr l Hf1)].
  assert (Heq : forall ks, flat_map (fun k => map (fun e : nat * nat * Qc => ((fst (fst e) + 1, snd (fst e)), snd e))
        (map (fun e : key * Qc => (k, snd (fst e), snd e)) (cls rowOf (k+1) l))) ks = flat_map (fun k => cls rowOf (k+1) l) ks).
  { induction ks as [|k ks IH]; [reflexivity|]. cbn [flat_map]. rewrite IH. f_equal. rewrite map_map.
    rewrite <- (map_id (cls rowOf (k+1) l)) at 2. apply map_ext_in. intros e He. apply filter_In in He.
    destruct He as [He Hc]. apply Nat.eqb_eq in Hc. destruct e as [[r c] v].
    unfold rowOf in *. cbn [fst snd] in *. f_equal. f_equal; lia. }
  rewrite Heq. apply Permutation_refl.
Qed.
