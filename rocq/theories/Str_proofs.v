(** Proofs about the structured patches: lists indexed by grid positions,
    element connectivity and numbering. *)
From Coq Require Import ZArith List Bool Lia Sorting.Sorted.
From Verif Require Import Str_model Str_spec.
Import ListNotations.
Local Open Scope Z_scope.

(* ---- integer indexed lists ---- *)

Lemma zlen_nonneg {A} (l : list A) : 0 <= zlen l.
Proof. unfold zlen; lia. Qed.

Lemma zlen_app {A} (l m : list A) : zlen (l ++ m) = zlen l + zlen m.
Proof. unfold zlen. rewrite app_length. lia. Qed.

Lemma zlen_map {A B} (f : A -> B) l : zlen (map f l) = zlen l.
Proof. unfold zlen. now rewrite map_length. Qed.

Lemma zlen_zrange lo cnt : 0 <= cnt -> zlen (zrange lo cnt) = cnt.
Proof. intros. unfold zlen, zrange. rewrite map_length, seq_length. lia. Qed.

Lemma znth_some_range {A} (l : list A) k x : znth l k = Some x -> 0 <= k < zlen l.
Proof.
  unfold znth, zlen. destruct (Z.ltb_spec k 0); [discriminate|]. intros E.
  assert (Z.to_nat k < length l)%nat by (apply nth_error_Some; congruence). lia.
Qed.

Lemma znth_ex {A} (l : list A) k : 0 <= k < zlen l -> exists x, znth l k = Some x.
Proof.
  unfold znth, zlen. intros. destruct (Z.ltb_spec k 0); [lia|].
  destruct (nth_error l (Z.to_nat k)) eqn:E; eauto.
  apply nth_error_None in E. lia.
Qed.

Lemma znth_In {A} (l : list A) k x : znth l k = Some x -> In x l.
Proof.
  unfold znth. destruct (k <? 0); [discriminate|]. apply nth_error_In.
Qed.

Lemma In_znth {A} (l : list A) x : In x l -> exists k, 0 <= k < zlen l /\ znth l k = Some x.
Proof.
  intros H. apply In_nth_error in H. destruct H as [n H].
  exists (Z.of_nat n). unfold znth, zlen.
  destruct (Z.ltb_spec (Z.of_nat n) 0); [lia|]. rewrite Nat2Z.id. split; auto.
  assert (n < length l)%nat by (apply nth_error_Some; congruence). lia.
Qed.

Lemma znth_app1 {A} (l m : list A) k : k < zlen l -> znth (l ++ m) k = znth l k.
Proof.
  unfold znth, zlen. intros. destruct (Z.ltb_spec k 0); auto.
  apply nth_error_app1. lia.
Qed.

Lemma znth_app2 {A} (l m : list A) k :
  zlen l <= k -> znth (l ++ m) k = znth m (k - zlen l).
Proof.
  intros H. pose proof (zlen_nonneg l) as Hl. unfold znth, zlen in *.
  destruct (Z.ltb_spec k 0); [lia|].
  destruct (Z.ltb_spec (k - Z.of_nat (length l)) 0); [lia|].
  rewrite nth_error_app2 by lia. f_equal. lia.
Qed.

Lemma znth_map {A B} (f : A -> B) l k : znth (map f l) k = option_map f (znth l k).
Proof.
  unfold znth. destruct (k <? 0); auto.
  revert l. induction (Z.to_nat k); destruct l; simpl; auto.
Qed.

Lemma znth_zrange lo cnt k : 0 <= k < cnt -> znth (zrange lo cnt) k = Some (lo + k).
Proof.
  intros. unfold zrange. rewrite znth_map. unfold znth.
  destruct (Z.ltb_spec k 0); [lia|].
  rewrite nth_error_nth' with (d := 0%nat) by (rewrite seq_length; lia).
  rewrite seq_nth by lia. simpl. f_equal. lia.
Qed.

Lemma In_zrange lo cnt x : In x (zrange lo cnt) <-> lo <= x < lo + cnt.
Proof.
  unfold zrange. rewrite in_map_iff. split.
  - intros (k & <- & H). apply in_seq in H. lia.
  - intros. exists (Z.to_nat (x - lo)). split; [lia|]. apply in_seq. lia.
Qed.

Lemma zrange_S lo cnt : 0 <= cnt -> zrange lo (cnt + 1) = zrange lo cnt ++ [lo + cnt].
Proof.
  intros. unfold zrange. replace (Z.to_nat (cnt + 1)) with (S (Z.to_nat cnt)) by lia.
  rewrite seq_S, map_app. simpl. do 3 f_equal. lia.
Qed.

Lemma zrange_cons lo cnt : 0 < cnt -> zrange lo cnt = lo :: zrange (lo + 1) (cnt - 1).
Proof.
  intros. unfold zrange. replace (Z.to_nat cnt) with (S (Z.to_nat (cnt - 1))) by lia.
  simpl. f_equal; [lia|]. rewrite <- seq_shift, map_map. apply map_ext. intros; lia.
Qed.

Lemma zrange_nil lo cnt : cnt <= 0 -> zrange lo cnt = [].
Proof. intros. unfold zrange. replace (Z.to_nat cnt) with 0%nat by lia. auto. Qed.

Lemma zrange_app lo a b : 0 <= a -> 0 <= b ->
  zrange lo (a + b) = zrange lo a ++ zrange (lo + a) b.
Proof.
  intros. unfold zrange. rewrite Z2Nat.inj_add, seq_app, map_app by lia.
  f_equal. rewrite Nat.add_0_l.
  replace (Z.to_nat a) with (0 + Z.to_nat a)%nat by lia.
  generalize (Z.to_nat b) as m. intros m.
  assert (E : forall s, map (fun k => lo + Z.of_nat k) (seq (s + Z.to_nat a) m)
          = map (fun k => lo + a + Z.of_nat k) (seq s m)).
  { induction m; intros; simpl; auto. f_equal; [lia|].
    specialize (IHm (S s)). simpl in IHm. exact IHm. }
  apply E.
Qed.

Lemma zrange_shift lo c cnt : zrange (lo + c) cnt = map (fun x => x + c) (zrange lo cnt).
Proof. unfold zrange. rewrite map_map. apply map_ext. intros; lia. Qed.

Lemma flat_map_zrange_shift {B} (f : Z -> list B) lo c cnt :
  flat_map f (zrange (lo + c) cnt) = flat_map (fun x => f (x + c)) (zrange lo cnt).
Proof.
  rewrite zrange_shift. induction (zrange lo cnt); simpl; auto. f_equal; auto.
Qed.

Lemma map_zrange_shift {B} (f : Z -> B) lo c cnt :
  map f (zrange (lo + c) cnt) = map (fun x => f (x + c)) (zrange lo cnt).
Proof. rewrite zrange_shift, map_map. auto. Qed.

Lemma rev_zrange_nat (m : nat) :
  rev (zrange 0 (Z.of_nat m)) = map (fun x => Z.of_nat m - 1 - x) (zrange 0 (Z.of_nat m)).
Proof.
  induction m as [|m IH]; auto.
  replace (Z.of_nat (S m)) with (Z.of_nat m + 1) by lia.
  transitivity (Z.of_nat m :: rev (zrange 0 (Z.of_nat m))).
  { rewrite zrange_S by lia. rewrite rev_app_distr. reflexivity. }
  rewrite IH. rewrite (zrange_cons 0 (Z.of_nat m + 1)) by lia.
  cbn [map]. f_equal; [lia|].
  replace (Z.of_nat m + 1 - 1) with (Z.of_nat m) by lia.
  rewrite (map_zrange_shift _ 0 1). apply map_ext. intros; lia.
Qed.

Lemma rev_zrange_0 n : rev (zrange 0 n) = map (fun x => n - 1 - x) (zrange 0 n).
Proof.
  destruct (Z.leb_spec n 0).
  - rewrite zrange_nil by lia. auto.
  - rewrite <- (Z2Nat.id n) by lia. apply rev_zrange_nat.
Qed.

Lemma map_zdown {B} (f : Z -> B) p :
  map f (zdown (p - 1)) = map (fun a => f (p - 1 - a)) (zrange 0 p).
Proof.
  unfold zdown. replace (p - 1 + 1) with p by lia. rewrite rev_zrange_0, map_map. auto.
Qed.

Lemma flat_map_map {A B C} (g : A -> B) (f : B -> list C) l :
  flat_map f (map g l) = flat_map (fun x => f (g x)) l.
Proof. induction l; simpl; auto. f_equal; auto. Qed.

Lemma flat_map_zdown {B} (f : Z -> list B) p :
  flat_map f (zdown (p - 1)) = flat_map (fun a => f (p - 1 - a)) (zrange 0 p).
Proof.
  unfold zdown. replace (p - 1 + 1) with p by lia.
  rewrite rev_zrange_0, flat_map_map. auto.
Qed.

Lemma flat_map_ext_in {A B} (f g : A -> list B) l :
  (forall x, In x l -> f x = g x) -> flat_map f l = flat_map g l.
Proof.
  intros. induction l; simpl; auto. rewrite H by (left; auto).
  f_equal. apply IHl. intros; apply H; right; auto.
Qed.

Lemma zlen_flat_map {B} (f : Z -> list B) lo cnt m : 0 <= cnt ->
  (forall x, lo <= x < lo + cnt -> zlen (f x) = m) ->
  zlen (flat_map f (zrange lo cnt)) = cnt * m.
Proof.
  intros Hc. revert lo. pattern cnt. apply natlike_ind; [| |exact Hc].
  - intros. reflexivity.
  - intros c Hc' IH lo H. unfold Z.succ. rewrite zrange_cons by lia. simpl.
    rewrite zlen_app, H by lia. replace (c + 1 - 1) with c by lia.
    rewrite IH; [lia|]. intros; apply H; lia.
Qed.

Lemma znth_flat_map {B} (f : Z -> list B) lo cnt m k t :
  (forall x, lo <= x < lo + cnt -> zlen (f x) = m) ->
  0 <= k < cnt -> 0 <= t < m ->
  znth (flat_map f (zrange lo cnt)) (k * m + t) = znth (f (lo + k)) t.
Proof.
  intros H Hk Ht.
  replace cnt with (k + (1 + (cnt - k - 1))) by lia.
  rewrite zrange_app by lia. rewrite flat_map_app.
  assert (HL : zlen (flat_map f (zrange lo k)) = k * m)
    by (apply zlen_flat_map; [lia|]; intros; apply H; lia).
  rewrite znth_app2 by nia. rewrite HL.
  rewrite (zrange_cons _ (1 + _)) by lia. simpl.
  rewrite znth_app1 by (rewrite H; lia). f_equal; lia.
Qed.

Lemma flat_map_sing {A B} (f : A -> B) l : flat_map (fun x => [f x]) l = map f l.
Proof. induction l; simpl; congruence. Qed.

Lemma loop_flat {A} (cnt : nat) node inc (body : Z -> list A) :
  loop cnt node inc body
  = flat_map (fun k => body (node + inc * k)) (zrange 0 (Z.of_nat cnt)).
Proof.
  revert node. induction cnt; intros; simpl loop; auto.
  rewrite zrange_cons by lia. cbn [flat_map]. f_equal. { replace (node + inc * 0) with node by lia. reflexivity. }
  rewrite IHcnt. replace (Z.of_nat (S cnt) - 1) with (Z.of_nat cnt) by lia.
  rewrite (flat_map_zrange_shift _ 0 1). apply flat_map_ext. intros. f_equal; lia.
Qed.

Lemma loop_flatZ {A} (cnt : Z) node inc (body : Z -> list A) : 0 <= cnt ->
  loop (Z.to_nat cnt) node inc body
  = flat_map (fun k => body (node + inc * k)) (zrange 0 cnt).
Proof. intros. rewrite loop_flat, Z2Nat.id by lia. auto. Qed.

(** StronglySorted from increasing entries. *)
Lemma sorted_znth (l : list Z) :
  (forall a b x y, a < b -> znth l a = Some x -> znth l b = Some y -> x < y) ->
  StronglySorted Z.lt l.
Proof.
  induction l as [|z l IH]; intros H; constructor.
  - apply IH. intros a b x y Hab Ha Hb.
    pose proof (znth_some_range _ _ _ Ha). pose proof (znth_some_range _ _ _ Hb).
    apply (H (a + 1) (b + 1)); [lia| |].
    + change (z :: l) with ([z] ++ l). rewrite znth_app2 by (unfold zlen; simpl; lia).
      replace (a + 1 - zlen [z]) with a by (unfold zlen; simpl; lia). auto.
    + change (z :: l) with ([z] ++ l). rewrite znth_app2 by (unfold zlen; simpl; lia).
      replace (b + 1 - zlen [z]) with b by (unfold zlen; simpl; lia). auto.
  - apply Forall_forall. intros x Hx. apply In_znth in Hx. destruct Hx as (k & Hk & E).
    apply (H 0 (k + 1)); [lia|reflexivity|].
    change (z :: l) with ([z] ++ l). rewrite znth_app2 by (unfold zlen; simpl; lia).
    replace (k + 1 - zlen [z]) with k by (unfold zlen; simpl; lia). auto.
Qed.

(* ---- grids ---- *)

(** Rows of m1 entries, m2 of them, and layers of those. *)
Definition grid2 {A} (m1 m2 : Z) (f : Z -> Z -> A) : list A :=
  flat_map (fun j => map (fun i => f i j) (zrange 0 m1)) (zrange 0 m2).
Definition grid3 {A} (m1 m2 m3 : Z) (f : Z -> Z -> Z -> A) : list A :=
  flat_map (fun k => grid2 m1 m2 (fun i j => f i j k)) (zrange 0 m3).

Lemma zlen_grid2 {A} m1 m2 (f : Z -> Z -> A) : 0 <= m1 -> 0 <= m2 ->
  zlen (grid2 m1 m2 f) = m1 * m2.
Proof.
  intros. unfold grid2. rewrite zlen_flat_map with (m := m1); [lia|lia|].
  intros. rewrite zlen_map, zlen_zrange; lia.
Qed.

Lemma zlen_grid3 {A} m1 m2 m3 (f : Z -> Z -> Z -> A) : 0 <= m1 -> 0 <= m2 -> 0 <= m3 ->
  zlen (grid3 m1 m2 m3 f) = m1 * m2 * m3.
Proof.
  intros. unfold grid3. rewrite zlen_flat_map with (m := m1 * m2); [lia|lia|].
  intros. apply zlen_grid2; lia.
Qed.

Lemma znth_grid2 {A} m1 m2 (f : Z -> Z -> A) i j : 0 <= i < m1 -> 0 <= j < m2 ->
  znth (grid2 m1 m2 f) (node2 m1 i j) = Some (f i j).
Proof.
  intros. unfold grid2, node2. replace (i + m1 * j) with (j * m1 + i) by lia.
  rewrite znth_flat_map by (try lia; intros; rewrite zlen_map, zlen_zrange; lia).
  rewrite znth_map, znth_zrange by lia. simpl. do 2 f_equal; lia.
Qed.

Lemma znth_grid3 {A} m1 m2 m3 (f : Z -> Z -> Z -> A) i j k :
  0 <= i < m1 -> 0 <= j < m2 -> 0 <= k < m3 ->
  znth (grid3 m1 m2 m3 f) (node3 m1 m2 i j k) = Some (f i j k).
Proof.
  intros. unfold grid3, node3.
  replace (i + m1 * (j + m2 * k)) with (k * (m1 * m2) + node2 m1 i j)
    by (unfold node2; lia).
  rewrite znth_flat_map with (m := m1 * m2); try lia.
  - rewrite znth_grid2 by lia. do 2 f_equal; lia.
  - intros. apply zlen_grid2; lia.
  - unfold node2. nia.
Qed.

Lemma node2_inv m1 m2 x : 0 < m1 -> 0 <= x < m1 * m2 ->
  exists i j, 0 <= i < m1 /\ 0 <= j < m2 /\ x = node2 m1 i j.
Proof.
  intros. exists (x mod m1), (x / m1).
  pose proof (Z.mod_pos_bound x m1 ltac:(lia)).
  pose proof (Z.div_mod x m1 ltac:(lia)).
  split; [lia|]. split; [|unfold node2; lia].
  split; [apply Z.div_pos; lia | apply Z.div_lt_upper_bound; lia].
Qed.

Lemma node3_inv m1 m2 m3 x : 0 < m1 -> 0 < m2 -> 0 <= x < m1 * m2 * m3 ->
  exists i j k, 0 <= i < m1 /\ 0 <= j < m2 /\ 0 <= k < m3 /\ x = node3 m1 m2 i j k.
Proof.
  intros. destruct (node2_inv m1 (m2 * m3) x) as (i & y & Hi & Hy & ->); [lia|lia|].
  destruct (node2_inv m2 m3 y) as (j & k & Hj & Hk & ->); [lia|lia|].
  exists i, j, k. unfold node2, node3. repeat split; lia.
Qed.

Lemma node2_inj m1 i j i' j' : 0 <= i < m1 -> 0 <= i' < m1 ->
  node2 m1 i j = node2 m1 i' j' -> i = i' /\ j = j'.
Proof. unfold node2. intros. assert (j = j') by nia. subst. lia. Qed.

Lemma node2_lt m1 i j i' j' : 0 <= i < m1 -> 0 <= i' < m1 ->
  node2 m1 i j < node2 m1 i' j' -> j < j' \/ (j = j' /\ i < i').
Proof. unfold node2. intros. assert (j <= j') by nia. destruct (Z.eq_dec j j'); [subst; right; lia|left; lia]. Qed.

Lemma node3_inj m1 m2 i j k i' j' k' :
  0 <= i < m1 -> 0 <= i' < m1 -> 0 <= j < m2 -> 0 <= j' < m2 ->
  node3 m1 m2 i j k = node3 m1 m2 i' j' k' -> i = i' /\ j = j' /\ k = k'.
Proof.
  intros. change (node2 m1 i (node2 m2 j k) = node2 m1 i' (node2 m2 j' k')) in H3.
  apply node2_inj in H3; auto. destruct H3 as [-> E]. apply node2_inj in E; tauto.
Qed.

Lemma In_grid2 {A} m1 m2 (f : Z -> Z -> A) x :
  In x (grid2 m1 m2 f) <-> exists i j, 0 <= i < m1 /\ 0 <= j < m2 /\ x = f i j.
Proof.
  unfold grid2. rewrite in_flat_map. split.
  - intros (j & Hj & H). apply In_zrange in Hj. apply in_map_iff in H.
    destruct H as (i & <- & Hi). apply In_zrange in Hi. exists i, j. repeat split; lia.
  - intros (i & j & Hi & Hj & ->). exists j. split; [apply In_zrange; lia|].
    apply in_map_iff. exists i. split; auto. apply In_zrange; lia.
Qed.

Lemma In_grid3 {A} m1 m2 m3 (f : Z -> Z -> Z -> A) x :
  In x (grid3 m1 m2 m3 f) <->
  exists i j k, 0 <= i < m1 /\ 0 <= j < m2 /\ 0 <= k < m3 /\ x = f i j k.
Proof.
  unfold grid3. rewrite in_flat_map. split.
  - intros (k & Hk & H). apply In_zrange in Hk. apply In_grid2 in H.
    destruct H as (i & j & ? & ? & ->). exists i, j, k. repeat split; lia.
  - intros (i & j & k & Hi & Hj & Hk & ->). exists k. split; [apply In_zrange; lia|].
    apply In_grid2. exists i, j. auto.
Qed.

Lemma grid2_ext {A} m1 m2 (f g : Z -> Z -> A) :
  (forall i j, 0 <= i < m1 -> 0 <= j < m2 -> f i j = g i j) ->
  grid2 m1 m2 f = grid2 m1 m2 g.
Proof.
  intros H. unfold grid2. apply flat_map_ext_in. intros j Hj. apply In_zrange in Hj.
  apply map_ext_in. intros i Hi. apply In_zrange in Hi. apply H; lia.
Qed.

Lemma grid3_ext {A} m1 m2 m3 (f g : Z -> Z -> Z -> A) :
  (forall i j k, 0 <= i < m1 -> 0 <= j < m2 -> 0 <= k < m3 -> f i j k = g i j k) ->
  grid3 m1 m2 m3 f = grid3 m1 m2 m3 g.
Proof.
  intros H. unfold grid3. apply flat_map_ext_in. intros j Hj. apply In_zrange in Hj.
  apply grid2_ext. intros; apply H; lia.
Qed.

(** Increasing along the rows and from row to row. *)
Lemma sorted_grid2 m1 m2 (f : Z -> Z -> Z) : 0 < m1 -> 0 <= m2 ->
  (forall i j i' j', 0 <= i < m1 -> 0 <= i' < m1 -> 0 <= j < m2 -> 0 <= j' < m2 ->
     (j < j' \/ (j = j' /\ i < i')) -> f i j < f i' j') ->
  StronglySorted Z.lt (grid2 m1 m2 f).
Proof.
  intros H1 H2 H. apply sorted_znth. intros a b x y Hab Ha Hb.
  pose proof (znth_some_range _ _ _ Ha) as Ra. pose proof (znth_some_range _ _ _ Hb) as Rb.
  rewrite zlen_grid2 in Ra, Rb by lia.
  destruct (node2_inv m1 m2 a) as (i & j & Hi & Hj & ->); auto.
  destruct (node2_inv m1 m2 b) as (i' & j' & Hi' & Hj' & ->); auto.
  rewrite znth_grid2 in Ha, Hb by lia. injection Ha as <-. injection Hb as <-.
  apply H; auto. apply node2_lt in Hab; auto.
Qed.

Lemma sorted_grid3 m1 m2 m3 (f : Z -> Z -> Z -> Z) : 0 < m1 -> 0 < m2 -> 0 <= m3 ->
  (forall i j k i' j' k', 0 <= i < m1 -> 0 <= i' < m1 -> 0 <= j < m2 -> 0 <= j' < m2 ->
     0 <= k < m3 -> 0 <= k' < m3 ->
     (k < k' \/ (k = k' /\ (j < j' \/ (j = j' /\ i < i')))) -> f i j k < f i' j' k') ->
  StronglySorted Z.lt (grid3 m1 m2 m3 f).
Proof.
  intros H1 H2 H3 H. apply sorted_znth. intros a b x y Hab Ha Hb.
  pose proof (znth_some_range _ _ _ Ha) as Ra. pose proof (znth_some_range _ _ _ Hb) as Rb.
  rewrite zlen_grid3 in Ra, Rb by lia.
  destruct (node3_inv m1 m2 m3 a) as (i & j & k & Hi & Hj & Hk & ->); auto.
  destruct (node3_inv m1 m2 m3 b) as (i' & j' & k' & Hi' & Hj' & Hk' & ->); auto.
  rewrite znth_grid3 in Ha, Hb by lia. injection Ha as <-. injection Hb as <-.
  apply H; auto.
  change (node2 m1 i (node2 m2 j k) < node2 m1 i' (node2 m2 j' k')) in Hab.
  apply node2_lt in Hab; auto. destruct Hab as [Hab|[E Hab]].
  - apply node2_lt in Hab; auto. lia.
  - apply node2_inj in E; auto. lia.
Qed.

(* ---- support of a B-spline ---- *)

Lemma covers_iff d i e : dir_ok d -> 0 <= e < nspan d -> nonzero d e ->
  (covers d i e <-> e <= i < e + ord d).
Proof.
  intros [Hp Hm] He Hn. unfold covers, nonzero, span_lo, span_hi, nspan in *. split.
  - intros (Hi & H1 & H2). split.
    + destruct (Z.leb_spec e i); auto. exfalso.
      assert (knot d (i + ord d) <= knot d (ord d - 1 + e)) by (apply Hm; lia). lia.
    + destruct (Z.ltb_spec i (e + ord d)); auto. exfalso.
      assert (knot d (ord d + e) <= knot d i) by (apply Hm; lia). lia.
  - intros. split; [lia|]. split; apply Hm; lia.
Qed.

(** Every function with a non-empty support on a clamped knot vector lives on
    some non-empty span. *)
Lemma covered_ex d i : dir_ok d -> clamped d -> 0 <= i < ncf d ->
  knot d i < knot d (i + ord d) ->
  exists e, 0 <= e < nspan d /\ nonzero d e /\ covers d i e.
Proof.
  intros Hok [C0 C1] Hi Hlt. pose proof Hok as [Hp Hm].
  assert (D : forall c, 0 <= c -> i + c <= ncf d + ord d - 1 ->
            knot d i < knot d (i + c) ->
            exists s, i <= s < i + c /\ knot d s < knot d (s + 1)).
  { intros c Hc. pattern c. apply natlike_ind; [| |exact Hc].
    - intros. replace (i + 0) with i in * by lia. lia.
    - intros x Hx IH Hb Hl. unfold Z.succ in *.
      destruct (Z.ltb_spec (knot d i) (knot d (i + x))).
      + destruct IH as (s & Hs & Hss); try lia. exists s. split; [lia|auto].
      + exists (i + x). split; [lia|]. replace (i + x + 1) with (i + (x + 1)) by lia. lia. }
  destruct (D (ord d)) as (s & Hs & Hss); [lia|lia|auto|].
  assert (ord d - 1 <= s).
  { destruct (Z.leb_spec (ord d - 1) s); auto.
    assert (knot d (s + 1) <= knot d (ord d - 1)) by (apply Hm; lia).
    assert (knot d 0 <= knot d s) by (apply Hm; lia). lia. }
  assert (s < ncf d).
  { destruct (Z.ltb_spec s (ncf d)); auto.
    assert (knot d (s + 1) <= knot d (ncf d + ord d - 1)) by (apply Hm; lia).
    assert (knot d (ncf d) <= knot d s) by (apply Hm; lia). lia. }
  exists (s - ord d + 1). unfold nspan.
  assert (N : nonzero d (s - ord d + 1)).
  { unfold nonzero, span_lo, span_hi.
    replace (ord d - 1 + (s - ord d + 1)) with s by lia.
    replace (ord d + (s - ord d + 1)) with (s + 1) by lia. auto. }
  split; [lia|]. split; auto. apply covers_iff; auto; unfold nspan; lia.
Qed.

(* ---- connectivity as grids ---- *)

Lemma createMNPC1_grid d1 : dir_ok d1 ->
  createMNPC1 d1
  = map (fun e1 => if span_lo d1 e1 <? span_hi d1 e1
                   then map (fun a => e1 + a) (zrange 0 (ord d1)) else [])
        (zrange 0 (nspan d1)).
Proof.
  intros [Hp _]. unfold createMNPC1, nspan.
  rewrite (map_zrange_shift _ 0 (ord d1)). apply map_ext. intros e.
  unfold span_lo, span_hi.
  replace (e + ord d1 - 1) with (ord d1 - 1 + e) by lia.
  replace (e + ord d1) with (ord d1 + e) by lia.
  destruct (knot d1 (ord d1 - 1 + e) <? knot d1 (ord d1 + e)); auto.
  rewrite map_zdown. apply map_ext. intros; lia.
Qed.

Lemma knotSpan_span d e : (0 <? knotSpan d (e + ord d - 1)) = (span_lo d e <? span_hi d e).
Proof.
  unfold knotSpan, span_lo, span_hi.
  replace (e + ord d - 1 + 1) with (ord d + e) by lia.
  replace (e + ord d - 1) with (ord d - 1 + e) by lia.
  destruct (Z.ltb_spec 0 (knot d (ord d + e) - knot d (ord d - 1 + e)));
  destruct (Z.ltb_spec (knot d (ord d - 1 + e)) (knot d (ord d + e))); lia.
Qed.

Lemma createMNPC2_grid d1 d2 : dir_ok d1 -> dir_ok d2 ->
  createMNPC2 d1 d2
  = grid2 (nspan d1) (nspan d2) (fun e1 e2 =>
      if (span_lo d1 e1 <? span_hi d1 e1) && (span_lo d2 e2 <? span_hi d2 e2)
      then grid2 (ord d1) (ord d2) (fun a b => node2 (ncf d1) (e1 + a) (e2 + b))
      else []).
Proof.
  intros [Hp1 _] [Hp2 _]. unfold createMNPC2, grid2 at 1. unfold nspan.
  rewrite (flat_map_zrange_shift _ 0 (ord d2)). apply flat_map_ext. intros e2.
  rewrite (map_zrange_shift _ 0 (ord d1)). apply map_ext. intros e1.
  rewrite !knotSpan_span.
  destruct (_ && _); auto. cbv zeta. rewrite flat_map_zdown. unfold grid2.
  apply flat_map_ext. intros b. rewrite map_zdown. apply map_ext. intros a.
  unfold node2. lia.
Qed.

Lemma createMNPC3_grid d1 d2 d3 : dir_ok d1 -> dir_ok d2 -> dir_ok d3 ->
  createMNPC3 d1 d2 d3
  = grid3 (nspan d1) (nspan d2) (nspan d3) (fun e1 e2 e3 =>
      if (span_lo d1 e1 <? span_hi d1 e1) && (span_lo d2 e2 <? span_hi d2 e2)
         && (span_lo d3 e3 <? span_hi d3 e3)
      then grid3 (ord d1) (ord d2) (ord d3)
             (fun a b c => node3 (ncf d1) (ncf d2) (e1 + a) (e2 + b) (e3 + c))
      else []).
Proof.
  intros [Hp1 _] [Hp2 _] [Hp3 _]. unfold createMNPC3, grid3 at 1. unfold nspan.
  rewrite (flat_map_zrange_shift _ 0 (ord d3)). apply flat_map_ext. intros e3.
  unfold grid2 at 1.
  rewrite (flat_map_zrange_shift _ 0 (ord d2)). apply flat_map_ext. intros e2.
  rewrite (map_zrange_shift _ 0 (ord d1)). apply map_ext. intros e1.
  rewrite !knotSpan_span.
  destruct (_ && _); auto. cbv zeta. rewrite flat_map_zdown. unfold grid3.
  apply flat_map_ext. intros c. rewrite flat_map_zdown. unfold grid2.
  apply flat_map_ext. intros b. rewrite map_zdown. apply map_ext. intros a.
  unfold node3. lia.
Qed.

(* ---- numbering ---- *)

Lemma fold_left_map {A B C} (g : A -> B) (f : C -> B -> C) l s :
  fold_left f (map g l) s = fold_left (fun s x => f s (g x)) l s.
Proof. revert s; induction l; simpl; auto. Qed.

Lemma fold_left_flat_map {A B C} (g : A -> list B) (f : C -> B -> C) l s :
  fold_left f (flat_map g l) s = fold_left (fun s x => fold_left f (g x) s) l s.
Proof. revert s; induction l; simpl; auto; intros. rewrite fold_left_app. auto. Qed.

Lemma fold_left_ext {A B} (f g : A -> B -> A) l s :
  (forall s x, f s x = g s x) -> fold_left f l s = fold_left g l s.
Proof. intros H. revert s; induction l; simpl; auto; intros. rewrite H; auto. Qed.

(** Consecutive numbers for the marked entries, 0 for the others. *)
Fixpoint number (g : Z) (l : list bool) : list Z * Z :=
  match l with
  | [] => ([], g)
  | true :: l' => let '(r, g') := number (g + 1) l' in (g + 1 :: r, g')
  | false :: l' => let '(r, g') := number g l' in (0 :: r, g')
  end.

Lemma number_filter g l r g' : 0 <= g -> number g l = (r, g') ->
  g <= g' /\ filter (fun x => 0 <? x) r = zrange (g + 1) (g' - g) /\
  length r = length l /\
  (forall k b, nth_error l k = Some b -> exists x, nth_error r k = Some x /\
     (if b then 0 < x else x = 0)).
Proof.
  revert g r g'. induction l as [|b l IH]; intros g r g' Hg E; simpl in E.
  - injection E as <- <-. split; [lia|]. rewrite zrange_nil by lia.
    split; auto. split; auto. intros [|]; discriminate.
  - destruct b.
    + destruct (number (g + 1) l) as [r1 g1] eqn:E1. injection E as <- <-.
      destruct (fun H => IH _ _ _ H E1) as (H1 & H2 & H3 & H4); [lia|].
      split; [lia|]. split; [|split].
      * simpl. destruct (Z.ltb_spec 0 (g + 1)); [|lia]. rewrite H2.
        rewrite (zrange_cons (g + 1)) by lia. do 2 f_equal. lia.
      * simpl. lia.
      * intros [|k] b Hb; simpl in *.
        -- injection Hb as <-. exists (g + 1). split; auto. lia.
        -- auto.
    + destruct (number g l) as [r1 g1] eqn:E1. injection E as <- <-.
      destruct (fun H => IH _ _ _ H E1) as (H1 & H2 & H3 & H4); [lia|].
      split; [lia|]. split; [|split].
      * simpl. auto.
      * simpl. lia.
      * intros [|k] b Hb; simpl in *.
        -- injection Hb as <-. exists 0. auto.
        -- auto.
Qed.

Lemma topo_fold (l : list ((Z * Z * Z) * (bool * bool))) s :
  0 <= t_gEl s ->
  let s' := fold_left (fun s c => topo_step (fst c) (fst (snd c)) (snd (snd c)) s) l s in
  let el := map (fun c => snd (snd c)) (filter (fun c => fst (snd c)) l) in
  t_ind s' = t_ind s ++ map fst l /\
  t_gNod s' = t_gNod s + zlen l /\
  t_mlgn s' = t_mlgn s ++ zrange (t_gNod s + 1) (zlen l) /\
  t_mlge s' = t_mlge s ++ fst (number (t_gEl s) el) /\
  t_gEl s' = snd (number (t_gEl s) el).
Proof.
  revert s. induction l as [|[ijk [inel pos]] l IH]; intros s Hs; cbv zeta.
  - simpl. rewrite zrange_nil by (unfold zlen; simpl; lia).
    rewrite !app_nil_r. unfold zlen; simpl. repeat split; auto; lia.
  - simpl fold_left.
    assert (L : zlen ((ijk, (inel, pos)) :: l) = zlen l + 1)
      by (unfold zlen; simpl length; lia).
    rewrite L. pose proof (zlen_nonneg l).
    assert (Z1 : zrange (t_gNod s + 1) (zlen l + 1)
              = (t_gNod s + 1) :: zrange (t_gNod s + 1 + 1) (zlen l)).
    { rewrite zrange_cons by lia. do 2 f_equal. lia. }
    assert (Hs' : 0 <= t_gEl (topo_step ijk inel pos s)).
    { unfold topo_step. destruct inel, pos; simpl; lia. }
    specialize (IH _ Hs'). cbv zeta in IH. destruct IH as (I1 & I2 & I3 & I4 & I5).
    rewrite I1, I2, I3, I4, I5, Z1. clear I1 I2 I3 I4 I5.
    unfold topo_step; destruct inel, pos;
      cbn [t_ind t_gNod t_mlgn t_mlge t_gEl fst snd map filter number];
      rewrite <- ?app_assoc; cbn [app];
      try destruct (number _ _) as [r g'];
      repeat split; auto; lia.
Qed.

Lemma filter_none {A} (P : A -> bool) l : (forall x, In x l -> P x = false) -> filter P l = [].
Proof. induction l; simpl; auto; intros. rewrite H; auto. Qed.

Lemma filter_all {A} (P : A -> bool) l : (forall x, In x l -> P x = true) -> filter P l = l.
Proof. induction l; simpl; auto; intros. rewrite H; auto. f_equal; auto. Qed.

Lemma filter_ge n p : 1 <= p <= n ->
  filter (fun i => p <=? i) (zrange 1 n) = zrange p (n - p + 1).
Proof.
  intros. replace n with ((p - 1) + (n - p + 1)) at 1 by lia.
  rewrite zrange_app by lia. rewrite filter_app.
  replace (1 + (p - 1)) with p by lia.
  rewrite filter_none, filter_all; auto.
  - intros x Hx. apply In_zrange in Hx. apply Z.leb_le. lia.
  - intros x Hx. apply In_zrange in Hx. apply Z.leb_gt. lia.
Qed.

Lemma filter_flat_map {A B} (P : B -> bool) (f : A -> list B) l :
  filter P (flat_map f l) = flat_map (fun x => filter P (f x)) l.
Proof. induction l; simpl; auto. rewrite filter_app. f_equal; auto. Qed.

Lemma filter_map_comm {A B} (P : B -> bool) (f : A -> B) l :
  filter P (map f l) = map f (filter (fun x => P (f x)) l).
Proof. induction l; simpl; auto. destruct (P (f a)); simpl; f_equal; auto. Qed.

Lemma map_flat_map {A B C} (g : B -> C) (f : A -> list B) l :
  map g (flat_map f l) = flat_map (fun x => map g (f x)) l.
Proof. induction l; simpl; auto. rewrite map_app. f_equal; auto. Qed.

Lemma flat_map_if {A B} (P : A -> bool) (f : A -> list B) l :
  flat_map (fun x => if P x then f x else []) l = flat_map f (filter P l).
Proof. induction l; simpl; auto. destruct (P a); simpl; auto. f_equal; auto. Qed.

(** A two-level loop with a conjunctive test selects the sub-loops. *)
Lemma select2 {A} n1 n2 p1 p2 (f : Z -> Z -> A) : 1 <= p1 <= n1 -> 1 <= p2 <= n2 ->
  flat_map (fun i2 => map (fun i1 => f i1 i2)
     (filter (fun i1 => (p1 <=? i1) && (p2 <=? i2)) (zrange 1 n1))) (zrange 1 n2)
  = flat_map (fun i2 => map (fun i1 => f i1 i2) (zrange p1 (n1 - p1 + 1)))
             (zrange p2 (n2 - p2 + 1)).
Proof.
  intros. rewrite <- (filter_ge n2 p2) by lia. rewrite <- flat_map_if.
  apply flat_map_ext. intros i2. destruct (p2 <=? i2).
  - f_equal. rewrite <- filter_ge by lia. apply filter_ext. intros. apply andb_true_r.
  - rewrite filter_none; auto. intros. apply andb_false_r.
Qed.

Lemma select3 {A} n1 n2 n3 p1 p2 p3 (f : Z -> Z -> Z -> A) :
  1 <= p1 <= n1 -> 1 <= p2 <= n2 -> 1 <= p3 <= n3 ->
  flat_map (fun i3 => flat_map (fun i2 => map (fun i1 => f i1 i2 i3)
     (filter (fun i1 => (p1 <=? i1) && (p2 <=? i2) && (p3 <=? i3)) (zrange 1 n1)))
     (zrange 1 n2)) (zrange 1 n3)
  = flat_map (fun i3 => flat_map (fun i2 => map (fun i1 => f i1 i2 i3)
       (zrange p1 (n1 - p1 + 1))) (zrange p2 (n2 - p2 + 1))) (zrange p3 (n3 - p3 + 1)).
Proof.
  intros. rewrite <- (filter_ge n3 p3) by lia. rewrite <- flat_map_if.
  apply flat_map_ext. intros i3. destruct (p3 <=? i3).
  - rewrite <- (select2 n1 n2 p1 p2) by lia. apply flat_map_ext. intros i2. f_equal.
    apply filter_ext. intros. apply andb_true_r.
  - induction (zrange 1 n2); simpl; auto.
    rewrite filter_none; auto. intros. apply andb_false_r.
Qed.

Definition bpos (d : sdir) (e : Z) : bool := span_lo d e <? span_hi d e.

Lemma topo2_ok d1 d2 gEl gNod t mn : 0 <= gEl -> dir_ok d1 -> dir_ok d2 ->
  generateFEMTopology2 d1 d2 gEl gNod = Some (t, mn) ->
  2 <= ncf d1 /\ 2 <= ncf d2 /\
  mn = createMNPC2 d1 d2 /\
  t_ind t = grid2 (ncf d1) (ncf d2) (fun i j => (i, j, 0)) /\
  t_gNod t = gNod + ncf d1 * ncf d2 /\
  t_mlgn t = zrange (gNod + 1) (ncf d1 * ncf d2) /\
  (t_mlge t, t_gEl t) = number gEl (grid2 (nspan d1) (nspan d2)
                          (fun e1 e2 => bpos d1 e1 && bpos d2 e2)).
Proof.
  intros Hg [Hp1 _] [Hp2 _]. unfold generateFEMTopology2.
  destruct (Z.ltb_spec (ncf d1) 2), (Z.ltb_spec (ncf d2) 2); try discriminate; cbn [orb].
  destruct (Z.ltb_spec (ord d1) 1), (Z.ltb_spec (ord d2) 1); try discriminate; cbn [orb].
  destruct (Z.ltb_spec (ncf d1) (ord d1)), (Z.ltb_spec (ncf d2) (ord d2));
    try discriminate; cbn [orb].
  intros E. injection E as Et Em.
  set (cells := flat_map (fun i2 => map (fun i1 =>
         ((i1 - 1, i2 - 1, 0),
          ((ord d1 <=? i1) && (ord d2 <=? i2),
           (0 <? knotSpan d1 (i1 - 1)) && (0 <? knotSpan d2 (i2 - 1)))))
         (zrange 1 (ncf d1))) (zrange 1 (ncf d2))).
  assert (F : t = fold_left (fun s c => topo_step (fst c) (fst (snd c)) (snd (snd c)) s)
                cells (mkTopo [] gEl [] gNod [])).
  { rewrite <- Et. unfold cells. rewrite fold_left_flat_map.
    apply fold_left_ext. intros s i2. rewrite fold_left_map. reflexivity. }
  assert (L : zlen cells = ncf d1 * ncf d2).
  { unfold cells. rewrite zlen_flat_map with (m := ncf d1); try lia.
    intros. rewrite zlen_map, zlen_zrange; lia. }
  pose proof (topo_fold cells (mkTopo [] gEl [] gNod []) Hg) as T.
  cbv zeta in T. rewrite <- F in T. cbn [t_ind t_gNod t_mlgn t_mlge t_gEl app] in T.
  destruct T as (T1 & T2 & T3 & T4 & T5). rewrite L in *.
  repeat split; auto; try lia.
  - rewrite T1. unfold cells. rewrite map_flat_map. unfold grid2.
    rewrite (flat_map_zrange_shift _ 0 1). apply flat_map_ext. intros j.
    rewrite map_map. rewrite (map_zrange_shift _ 0 1). apply map_ext. intros i.
    cbn [fst]. replace (i + 1 - 1) with i by lia. replace (j + 1 - 1) with j by lia. reflexivity.
  - rewrite T4, T5, <- surjective_pairing. f_equal. unfold cells.
    rewrite filter_flat_map, map_flat_map.
    transitivity (flat_map (fun i2 => map (fun i1 =>
        (0 <? knotSpan d1 (i1 - 1)) && (0 <? knotSpan d2 (i2 - 1)))
        (filter (fun i1 => (ord d1 <=? i1) && (ord d2 <=? i2)) (zrange 1 (ncf d1))))
        (zrange 1 (ncf d2))).
    { apply flat_map_ext. intros i2. rewrite filter_map_comm, map_map. reflexivity. }
    rewrite (select2 (ncf d1) (ncf d2) (ord d1) (ord d2)
              (fun i1 i2 => (0 <? knotSpan d1 (i1 - 1)) && (0 <? knotSpan d2 (i2 - 1)))) by lia.
    unfold grid2, nspan.
    rewrite (flat_map_zrange_shift _ 0 (ord d2)). apply flat_map_ext. intros e2.
    rewrite (map_zrange_shift _ 0 (ord d1)). apply map_ext. intros e1.
    rewrite !knotSpan_span. reflexivity.
Qed.

Lemma topo3_ok d1 d2 d3 gEl gNod t mn : 0 <= gEl -> dir_ok d1 -> dir_ok d2 -> dir_ok d3 ->
  generateFEMTopology3 d1 d2 d3 gEl gNod = Some (t, mn) ->
  2 <= ncf d1 /\ 2 <= ncf d2 /\ 2 <= ncf d3 /\
  mn = createMNPC3 d1 d2 d3 /\
  t_ind t = grid3 (ncf d1) (ncf d2) (ncf d3) (fun i j k => (i, j, k)) /\
  t_gNod t = gNod + ncf d1 * ncf d2 * ncf d3 /\
  t_mlgn t = zrange (gNod + 1) (ncf d1 * ncf d2 * ncf d3) /\
  (t_mlge t, t_gEl t) = number gEl (grid3 (nspan d1) (nspan d2) (nspan d3)
                          (fun e1 e2 e3 => bpos d1 e1 && bpos d2 e2 && bpos d3 e3)).
Proof.
  intros Hg [Hp1 _] [Hp2 _] [Hp3 _]. unfold generateFEMTopology3.
  destruct (Z.ltb_spec (ncf d1) 2), (Z.ltb_spec (ncf d2) 2), (Z.ltb_spec (ncf d3) 2);
    try discriminate; cbn [orb].
  destruct (Z.ltb_spec (ord d1) 1), (Z.ltb_spec (ord d2) 1), (Z.ltb_spec (ord d3) 1);
    try discriminate; cbn [orb].
  destruct (Z.ltb_spec (ncf d1) (ord d1)), (Z.ltb_spec (ncf d2) (ord d2)),
    (Z.ltb_spec (ncf d3) (ord d3)); try discriminate; cbn [orb].
  intros E. injection E as Et Em.
  set (cells := flat_map (fun i3 => flat_map (fun i2 => map (fun i1 =>
         ((i1 - 1, i2 - 1, i3 - 1),
          ((ord d1 <=? i1) && (ord d2 <=? i2) && (ord d3 <=? i3),
           (0 <? knotSpan d1 (i1 - 1)) && (0 <? knotSpan d2 (i2 - 1))
           && (0 <? knotSpan d3 (i3 - 1)))))
         (zrange 1 (ncf d1))) (zrange 1 (ncf d2))) (zrange 1 (ncf d3))).
  assert (F : t = fold_left (fun s c => topo_step (fst c) (fst (snd c)) (snd (snd c)) s)
                cells (mkTopo [] gEl [] gNod [])).
  { rewrite <- Et. unfold cells. rewrite fold_left_flat_map.
    apply fold_left_ext. intros s i3. rewrite fold_left_flat_map.
    apply fold_left_ext. intros s' i2. rewrite fold_left_map. reflexivity. }
  assert (L : zlen cells = ncf d1 * ncf d2 * ncf d3).
  { unfold cells. rewrite zlen_flat_map with (m := ncf d1 * ncf d2); try lia.
    intros. rewrite zlen_flat_map with (m := ncf d1); try lia.
    intros. rewrite zlen_map, zlen_zrange; lia. }
  pose proof (topo_fold cells (mkTopo [] gEl [] gNod []) Hg) as T.
  cbv zeta in T. rewrite <- F in T. cbn [t_ind t_gNod t_mlgn t_mlge t_gEl app] in T.
  destruct T as (T1 & T2 & T3 & T4 & T5). rewrite L in *.
  repeat split; auto; try lia.
  - rewrite T1. unfold cells. rewrite map_flat_map. unfold grid3.
    rewrite (flat_map_zrange_shift _ 0 1). apply flat_map_ext. intros k.
    rewrite map_flat_map. unfold grid2.
    rewrite (flat_map_zrange_shift _ 0 1). apply flat_map_ext. intros j.
    rewrite map_map. rewrite (map_zrange_shift _ 0 1). apply map_ext. intros i.
    cbn [fst]. replace (i + 1 - 1) with i by lia. replace (j + 1 - 1) with j by lia.
    replace (k + 1 - 1) with k by lia. reflexivity.
  - rewrite T4, T5, <- surjective_pairing. f_equal. unfold cells.
    rewrite filter_flat_map, map_flat_map.
    transitivity (flat_map (fun i3 => flat_map (fun i2 => map (fun i1 =>
        (0 <? knotSpan d1 (i1 - 1)) && (0 <? knotSpan d2 (i2 - 1))
         && (0 <? knotSpan d3 (i3 - 1)))
        (filter (fun i1 => (ord d1 <=? i1) && (ord d2 <=? i2) && (ord d3 <=? i3))
                (zrange 1 (ncf d1))))
        (zrange 1 (ncf d2))) (zrange 1 (ncf d3))).
    { apply flat_map_ext. intros i3. rewrite filter_flat_map, map_flat_map.
      apply flat_map_ext. intros i2. rewrite filter_map_comm, map_map. reflexivity. }
    rewrite (select3 (ncf d1) (ncf d2) (ncf d3) (ord d1) (ord d2) (ord d3)
              (fun i1 i2 i3 => (0 <? knotSpan d1 (i1 - 1)) && (0 <? knotSpan d2 (i2 - 1))
                && (0 <? knotSpan d3 (i3 - 1)))) by lia.
    unfold grid3, grid2, nspan.
    rewrite (flat_map_zrange_shift _ 0 (ord d3)). apply flat_map_ext. intros e3.
    rewrite (flat_map_zrange_shift _ 0 (ord d2)). apply flat_map_ext. intros e2.
    rewrite (map_zrange_shift _ 0 (ord d1)). apply map_ext. intros e1.
    rewrite !knotSpan_span. reflexivity.
Qed.

(* ---- Lagrange ---- *)

Lemma first_rest m x : 1 <= m ->
  x :: map (fun a => x + a) (zrange 1 (m - 1)) = map (fun a => x + a) (zrange 0 m).
Proof. intros. rewrite (zrange_cons 0 m) by lia. simpl. f_equal. lia. Qed.

Lemma createMNPC2Lag_grid nx ny p1 p2 : 2 <= p1 -> 2 <= p2 ->
  createMNPC2Lag nx ny p1 p2
  = grid2 ((nx - 1) / (p1 - 1)) ((ny - 1) / (p2 - 1)) (fun e1 e2 =>
      grid2 p1 p2 (fun a b => node2 nx ((p1 - 1) * e1 + a) ((p2 - 1) * e2 + b))).
Proof.
  intros. unfold createMNPC2Lag. cbv zeta. unfold grid2 at 1.
  apply flat_map_ext. intros e2. apply map_ext. intros e1. unfold grid2.
  apply flat_map_ext. intros b. rewrite first_rest by lia. apply map_ext. intros a.
  unfold node2. lia.
Qed.

Lemma createMNPC3Lag_grid nx ny nz p1 p2 p3 : 2 <= p1 -> 2 <= p2 -> 2 <= p3 ->
  createMNPC3Lag nx ny nz p1 p2 p3
  = grid3 ((nx - 1) / (p1 - 1)) ((ny - 1) / (p2 - 1)) ((nz - 1) / (p3 - 1))
      (fun e1 e2 e3 =>
      grid3 p1 p2 p3 (fun a b c =>
        node3 nx ny ((p1 - 1) * e1 + a) ((p2 - 1) * e2 + b) ((p3 - 1) * e3 + c))).
Proof.
  intros. unfold createMNPC3Lag. cbv zeta. unfold grid3 at 1.
  apply flat_map_ext. intros e3. unfold grid2 at 1.
  apply flat_map_ext. intros e2. apply map_ext. intros e1. unfold grid3.
  apply flat_map_ext. intros c. unfold grid2.
  rewrite (zrange_cons 0 p2) by lia. cbn [flat_map].
  rewrite first_rest by lia. f_equal.
  - apply map_ext. intros a. unfold node3. lia.
  - replace (0 + 1) with 1 by lia. apply flat_map_ext. intros b.
    rewrite first_rest by lia. apply map_ext. intros a. unfold node3. lia.
Qed.
