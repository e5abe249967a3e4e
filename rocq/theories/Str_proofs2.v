(** Proofs about boundary sets, Dirichlet boundaries and patch connection. *)
From Coq Require Import ZArith List Bool Lia.
From Verif Require Import Str_model Str_spec Str_proofs.
Import ListNotations.
Local Open Scope Z_scope.

Lemma start2_ok sz b offs node n1 n2 :
  nth_error sz (b - 1) = Some (n1, n2) ->
  start2 sz (Nat.max 1 b) offs node
  = Some (n1, n2, if offs then node + (first2 sz b - 1) else node).
Proof.
  revert b node. induction sz as [|[a1 a2] sz IH]; intros b node H.
  - destruct (b - 1)%nat; discriminate.
  - destruct b as [|[|b]].
    + cbn in *. injection H as -> ->. unfold first2. cbn. destruct offs; do 2 f_equal; lia.
    + cbn in *. injection H as -> ->. unfold first2. cbn. destruct offs; do 2 f_equal; lia.
    + assert (N : (S (S b) - 1 = S b)%nat) by lia. rewrite N in H. cbn [nth_error] in H.
      change (Nat.max 1 (S (S b))) with (S (S b)). cbn [start2].
      specialize (IH (S b) (if offs then node + a1 * a2 else node)).
      replace (S b - 1)%nat with b in IH by lia. specialize (IH H).
      change (Nat.max 1 (S b)) with (S b) in IH. rewrite IH.
      unfold first2. rewrite N. cbn [firstn map fold_right fst snd].
      replace (S b - 1)%nat with b by lia.
      destruct offs; [|auto]. do 2 f_equal; lia.
Qed.

Lemma start3_ok sz b node n1 n2 n3 :
  nth_error sz (b - 1) = Some (n1, n2, n3) ->
  start3 sz (Nat.max 1 b) node = Some (n1, n2, n3, node + (first3 sz b - 1)).
Proof.
  revert b node. induction sz as [|[[a1 a2] a3] sz IH]; intros b node H.
  - destruct (b - 1)%nat; discriminate.
  - destruct b as [|[|b]].
    + cbn in *. injection H as -> -> ->. unfold first3. cbn. do 2 f_equal; lia.
    + cbn in *. injection H as -> -> ->. unfold first3. cbn. do 2 f_equal; lia.
    + assert (N : (S (S b) - 1 = S b)%nat) by lia. rewrite N in H. cbn [nth_error] in H.
      change (Nat.max 1 (S (S b))) with (S (S b)). cbn [start3].
      specialize (IH (S b) (node + a1 * a2 * a3)).
      replace (S b - 1)%nat with b in IH by lia. specialize (IH H).
      change (Nat.max 1 (S b)) with (S b) in IH. rewrite IH.
      unfold first3. rewrite N. cbn [firstn map fold_right fst snd].
      replace (S b - 1)%nat with b by lia. do 2 f_equal; lia.
Qed.

Lemma start3_none sz b node : nth_error sz (b - 1) = None -> start3 sz (Nat.max 1 b) node = None.
Proof.
  revert b node. induction sz as [|[[a1 a2] a3] sz IH]; intros b node H.
  - destruct b as [|[|b]]; reflexivity.
  - destruct b as [|[|b]]; try discriminate.
    change (Nat.max 1 (S (S b))) with (S (S b)). cbn [start3].
    specialize (IH (S b) (node + a1 * a2 * a3)).
    replace (S (S b) - 1)%nat with (S b) in H by lia. cbn [nth_error] in H.
    replace (S b - 1)%nat with b in IH by lia. specialize (IH H). exact IH.
Qed.

(** A layer list: [m] positions along, [thick] layers at each. *)
Definition layers {A} (m thick : Z) (f : Z -> Z -> A) : list A :=
  flat_map (fun q => map (fun t => f q t) (zrange 0 thick)) (zrange 0 m).

Lemma layers_grid {A} m thick (f : Z -> Z -> A) :
  layers m thick f = grid2 thick m (fun t q => f q t).
Proof. reflexivity. Qed.

Lemma zlen_layers {A} m thick (f : Z -> Z -> A) : 0 <= m -> 0 <= thick ->
  zlen (layers m thick f) = m * thick.
Proof. intros. rewrite layers_grid, zlen_grid2; lia. Qed.

Lemma znth_layers {A} m thick (f : Z -> Z -> A) q t :
  0 <= q < m -> 0 <= t < thick -> znth (layers m thick f) (q * thick + t) = Some (f q t).
Proof.
  intros. rewrite layers_grid. replace (q * thick + t) with (node2 thick t q)
    by (unfold node2; lia). rewrite znth_grid2; auto.
Qed.

Lemma In_layers {A} m thick (f : Z -> Z -> A) x :
  In x (layers m thick f) <-> exists q t, 0 <= q < m /\ 0 <= t < thick /\ x = f q t.
Proof.
  rewrite layers_grid, In_grid2. split; intros (a & b & ? & ? & ?); exists b, a; auto.
Qed.

Lemma bnodes2_layers p b n1 n2 edge thick local :
  nth_error (sz2 p) (b - 1) = Some (n1, n2) -> 0 <= n1 -> 0 <= n2 ->
  1 <= edge <= 4 ->
  getBoundaryNodes2 p edge b thick local
  = layers (along2 n1 n2 edge) thick (fun q t =>
      let '(i, j) := edge_pos n1 n2 thick edge q t in
      report (mlgn2 p) local (first2 (sz2 p) b) (node2 n1 i j)).
Proof.
  intros H H1 H2 He. unfold getBoundaryNodes2. rewrite (start2_ok _ _ _ _ _ _ H).
  assert (C : edge = 1 \/ edge = 2 \/ edge = 3 \/ edge = 4) by lia.
  destruct C as [-> |[-> |[-> | ->]]]; cbn -[loop zrange Z.add Z.mul Z.sub];
    rewrite loop_flatZ by lia; unfold layers, along2; cbn -[zrange Z.add Z.mul Z.sub];
    apply flat_map_ext; intros q; apply map_ext; intros t;
    unfold report, node2; destruct local; cbn [negb];
    try (f_equal; lia); lia.
Qed.

Lemma bnodes3_layers p b n1 n2 n3 face thick local :
  nth_error (sz3 p) (b - 1) = Some (n1, n2, n3) -> 0 <= n1 -> 0 <= n2 -> 0 <= n3 ->
  0 <= thick -> 1 <= first3 (sz3 p) b ->
  1 <= face <= 6 ->
  let f := if swapW p && (4 <? face) then 11 - face else face in
  let '(m1, m2) := along3 n1 n2 n3 f in
  getBoundaryNodes3 p face b thick local
  = flat_map (fun r => layers m1 thick (fun q t =>
      let '(i, j, k) := face_pos n1 n2 n3 thick f q r t in
      report (mlgn3 p) local (first3 (sz3 p) b) (node3 n1 n2 i j k))) (zrange 0 m2).
Proof.
  intros H H1 H2 H3 Ht Hf He f.
  assert (Hff : 1 <= f <= 6).
  { unfold f. destruct (swapW p); cbn [andb]; [|lia].
    destruct (Z.ltb_spec 4 face); lia. }
  unfold getBoundaryNodes3. rewrite (start3_ok _ _ _ _ _ _ H).
  destruct (Z.ltb_spec (1 + (first3 (sz3 p) b - 1)) 1); [lia|].
  cbv zeta. fold f. clearbody f.
  assert (C : f = 1 \/ f = 2 \/ f = 3 \/ f = 4 \/ f = 5 \/ f = 6) by lia.
  destruct C as [-> |[-> |[-> |[-> |[-> | ->]]]]];
    cbn -[loop zrange Z.add Z.mul Z.sub Z.to_nat];
    rewrite loop_flatZ by lia;
    apply flat_map_ext; intros r; rewrite loop_flatZ by lia; unfold layers;
    apply flat_map_ext; intros q; rewrite loop_flatZ by lia;
    rewrite flat_map_sing; apply map_ext; intros t;
    unfold report, node3; destruct local; try (f_equal; ring); ring.
Qed.

Lemma bnodes3_bad p b face thick local :
  ~ (1 <= face <= if swapW p then 10 else 6) ->
  getBoundaryNodes3 p face b thick local = [].
Proof.
  intros He. unfold getBoundaryNodes3.
  destruct (start3 (sz3 p) (Nat.max 1 b) 1) as [[[[n1 n2] n3] nd]|]; auto.
  destruct (nd <? 1); auto. cbv zeta.
  set (f := if swapW p && (4 <? face) then 11 - face else face).
  assert (Hf : ~ (1 <= f <= 6)).
  { unfold f. destruct (swapW p); cbn [andb]; [|lia].
    destruct (Z.ltb_spec 4 face); lia. }
  clearbody f. clear He.
  destruct (Z.eqb_spec f 1); [lia|]. destruct (Z.eqb_spec f 2); [lia|].
  destruct (Z.eqb_spec f 3); [lia|]. destruct (Z.eqb_spec f 4); [lia|].
  destruct (Z.eqb_spec f 5); [lia|]. destruct (Z.eqb_spec f 6); [lia|]. reflexivity.
Qed.

Lemma first2_pos sz b : Forall (fun s => 0 <= fst s /\ 0 <= snd s) sz -> 1 <= first2 sz b.
Proof.
  intros H. unfold first2.
  assert (0 <= fold_right Z.add 0 (map (fun s => fst s * snd s) (firstn (b - 1) sz))); [|lia].
  generalize (b - 1)%nat as n. induction H as [|[x y] l Hx Hl IH]; intros [|n]; cbn; try lia.
  specialize (IH n). cbn in Hx. nia.
Qed.

Lemma first3_pos sz b :
  Forall (fun s => 0 <= fst (fst s) /\ 0 <= snd (fst s) /\ 0 <= snd s) sz -> 1 <= first3 sz b.
Proof.
  intros H. unfold first3.
  assert (0 <= fold_right Z.add 0 (map (fun s => fst (fst s) * snd (fst s) * snd s)
                                       (firstn (b - 1) sz))); [|lia].
  generalize (b - 1)%nat as n. induction H as [|[[x y] z] l Hx Hl IH]; intros [|n]; cbn; try lia.
  specialize (IH n). cbn in Hx. assert (0 <= x * y) by nia. nia.
Qed.

(* ---- setNodeNumbers ---- *)

Lemma zlen_vswap v a b : zlen (vswap v a b) = zlen v.
Proof. unfold vswap, zlen. rewrite map_length, seq_length. auto. Qed.

Lemma nth_znth {A} (l : list A) k d x : znth l k = Some x -> nth (Z.to_nat k) l d = x.
Proof.
  unfold znth. destruct (k <? 0); [discriminate|]. apply nth_error_nth.
Qed.

Lemma znth_nth {A} (l : list A) k d : 0 <= k < zlen l -> znth l k = Some (nth (Z.to_nat k) l d).
Proof.
  intros H. destruct (znth_ex l k H) as [x E]. rewrite E. f_equal. symmetry.
  eapply nth_znth; eauto.
Qed.

Lemma znth_vswap v a b k : 0 <= a < zlen v -> 0 <= b < zlen v -> 0 <= k < zlen v ->
  znth (vswap v a b) k
  = if k =? a then znth v b else if k =? b then znth v a else znth v k.
Proof.
  intros Ha Hb Hk. rewrite !(znth_nth v _ 0) by auto.
  unfold vswap. cbv zeta. rewrite znth_map.
  unfold znth. destruct (Z.ltb_spec k 0); [lia|].
  rewrite nth_error_nth' with (d := 0%nat) by (rewrite seq_length; unfold zlen in *; lia).
  rewrite seq_nth by (unfold zlen in *; lia). cbn [option_map].
  rewrite Nat.add_0_l, Z2Nat.id by lia.
  destruct (k =? a); auto. destruct (k =? b); auto.
Qed.

Lemma znth_out {A} (l : list A) k : ~ (0 <= k < zlen l) -> znth l k = None.
Proof.
  intros. destruct (znth l k) eqn:E; auto. apply znth_some_range in E. lia.
Qed.

(** The inner loop exchanges row j with row n2-1-j. *)
Lemma swap_row n1 n2 j v : 0 <= n1 -> zlen v = n1 * n2 -> 0 <= j -> j < n2 - 1 - j ->
  let w := fold_left (fun v i => vswap v (i + n1 * j) (i + n1 * (n2 - j - 1)))
                     (zrange 0 n1) v in
  zlen w = n1 * n2 /\
  (forall i k, 0 <= i < n1 -> 0 <= k < n2 ->
     znth w (node2 n1 i k)
     = znth v (node2 n1 i (if (k =? j) || (k =? n2 - 1 - j) then n2 - 1 - k else k))).
Proof.
  intros Hn Hv Hj Hlt. cbv zeta.
  assert (P : forall c, 0 <= c -> c <= n1 ->
    let w := fold_left (fun v i => vswap v (i + n1 * j) (i + n1 * (n2 - j - 1)))
                     (zrange 0 c) v in
    zlen w = n1 * n2 /\
    (forall i k, 0 <= i < n1 -> 0 <= k < n2 ->
     znth w (node2 n1 i k)
     = znth v (node2 n1 i (if (i <? c) && ((k =? j) || (k =? n2 - 1 - j))
                           then n2 - 1 - k else k)))).
  { intros c Hc. pattern c. apply natlike_ind; [| |exact Hc].
    - intros _. cbv zeta. rewrite (zrange_nil 0 0) by lia. cbn [fold_left]. split; auto.
      intros. destruct (Z.ltb_spec i 0); [lia|]. auto.
    - intros x Hx IH Hxn. cbv zeta in *. unfold Z.succ in *.
      rewrite zrange_S by lia. rewrite fold_left_app. cbn [fold_left].
      destruct IH as [L IH]; [lia|].
      set (w := fold_left _ (zrange 0 x) v) in *. rewrite zlen_vswap. split; auto.
      intros i k Hi Hk.
      assert (B : forall i k, 0 <= i < n1 -> 0 <= k < n2 -> 0 <= node2 n1 i k < n1 * n2)
        by (intros; unfold node2; nia).
      replace (0 + x + n1 * j) with (node2 n1 x j) by (unfold node2; lia).
      replace (0 + x + n1 * (n2 - j - 1)) with (node2 n1 x (n2 - 1 - j)) by (unfold node2; nia).
      rewrite znth_vswap by (rewrite L; apply B; lia).
      destruct (Z.eqb_spec (node2 n1 i k) (node2 n1 x j)) as [E|E].
      + apply node2_inj in E; try lia. destruct E as [-> ->].
        rewrite IH by lia. rewrite !Z.eqb_refl. destruct (Z.ltb_spec x x); [lia|].
        destruct (Z.ltb_spec x (x + 1)); [|lia]. cbn [andb orb]. auto.
      + destruct (Z.eqb_spec (node2 n1 i k) (node2 n1 x (n2 - 1 - j))) as [E'|E'].
        * apply node2_inj in E'; try lia. destruct E' as [-> ->].
          rewrite IH by lia. rewrite !Z.eqb_refl, !orb_true_r.
          destruct (Z.ltb_spec x x); [lia|].
          destruct (Z.ltb_spec x (x + 1)); [|lia]. cbn [andb].
          f_equal. f_equal. lia.
        * rewrite IH by lia.
          destruct (Z.eq_dec i x) as [->|Hix].
          -- assert (k <> j) by congruence. assert (k <> n2 - 1 - j) by congruence.
             destruct (Z.eqb_spec k j); [lia|]. destruct (Z.eqb_spec k (n2 - 1 - j)); [lia|].
             cbn [orb]. rewrite !andb_false_r. auto.
          -- destruct (Z.ltb_spec i x), (Z.ltb_spec i (x + 1)); try lia; auto. }
  specialize (P n1). cbv zeta in P. destruct P as [L P]; [lia|lia|]. split; auto.
  intros i k Hi Hk. rewrite P by auto. destruct (Z.ltb_spec i n1); [|lia]. auto.
Qed.

Lemma setNodeNumbers_swap n1 n2 v : 0 <= n1 -> 0 <= n2 -> zlen v = n1 * n2 ->
  zlen (setNodeNumbers true n1 n2 v) = n1 * n2 /\
  (forall i k, 0 <= i < n1 -> 0 <= k < n2 ->
     znth (setNodeNumbers true n1 n2 v) (node2 n1 i k) = znth v (node2 n1 i (n2 - 1 - k))).
Proof.
  intros H1 H2 Hv. unfold setNodeNumbers.
  pose proof (Z.div_mod n2 2 ltac:(discriminate)) as DM.
  pose proof (Z.mod_pos_bound n2 2 ltac:(reflexivity)) as MB.
  assert (P : forall c, 0 <= c -> c <= n2 / 2 ->
    let w := fold_left (fun v j =>
      fold_left (fun v i => vswap v (i + n1 * j) (i + n1 * (n2 - j - 1)))
                (zrange 0 n1) v) (zrange 0 c) v in
    zlen w = n1 * n2 /\
    (forall i k, 0 <= i < n1 -> 0 <= k < n2 ->
     znth w (node2 n1 i k)
     = znth v (node2 n1 i (if (k <? c) || (n2 - 1 - k <? c) then n2 - 1 - k else k)))).
  { intros c Hc. pattern c. apply natlike_ind; [| |exact Hc].
    - intros _. cbv zeta. rewrite (zrange_nil 0 0) by lia. cbn [fold_left]. split; auto.
      intros. destruct (Z.ltb_spec k 0), (Z.ltb_spec (n2 - 1 - k) 0); try lia. auto.
    - intros x Hx IH Hxn. cbv zeta in *. unfold Z.succ in *.
      rewrite zrange_S by lia. rewrite fold_left_app. cbn [fold_left].
      destruct IH as [L IH]; [lia|].
      set (w := fold_left _ (zrange 0 x) v) in *. replace (0 + x) with x by lia.
      pose proof (swap_row n1 n2 x w H1 L Hx) as S. cbv zeta in S.
      destruct S as [S1 S2]; [lia|]. split; auto.
      intros i k Hi Hk. rewrite S2 by auto. rewrite IH by
        (auto; destruct ((k =? x) || (k =? n2 - 1 - x)); lia).
      f_equal. f_equal.
      destruct (Z.eqb_spec k x), (Z.eqb_spec k (n2 - 1 - x)); cbn [orb];
      destruct (Z.ltb_spec k x), (Z.ltb_spec (n2 - 1 - k) x), (Z.ltb_spec k (x + 1)),
        (Z.ltb_spec (n2 - 1 - k) (x + 1)); cbn [orb];
      try lia;
      repeat match goal with |- context [?a <? ?b] => destruct (Z.ltb_spec a b) end;
      cbn [orb]; lia. }
  specialize (P (n2 / 2)). cbv zeta in P.
  destruct P as [L P]; [lia|lia|]. split; auto.
  intros i k Hi Hk. rewrite P by auto.
  destruct (Z.ltb_spec k (n2 / 2)), (Z.ltb_spec (n2 - 1 - k) (n2 / 2)); cbn [orb]; auto.
  f_equal. f_equal. lia.
Qed.

(* ---- collapse lists ---- *)

Lemma collapse_stop_ok check eqc l :
  (check = false \/ Forall (fun ms => eqc (fst ms) (snd ms) = true) l) ->
  collapse_stop check eqc l = (true, l).
Proof.
  intros H. induction l as [|[m s] l IH]; cbn [collapse_stop]; auto.
  rewrite IH. 2: { destruct H as [H|H]; [left; auto|right; inversion H; auto]. }
  destruct H as [-> |H]; cbn [negb orb]; auto.
  inversion H; subst. cbn in H2. rewrite H2, orb_true_r. auto.
Qed.

Lemma collapse_stop_true check eqc l r :
  collapse_stop check eqc l = (true, r) ->
  r = l /\ (check = true -> Forall (fun ms => eqc (fst ms) (snd ms) = true) l).
Proof.
  revert r. induction l as [|[m s] l IH]; intros r; cbn [collapse_stop].
  - intros E. injection E as <-. split; auto.
  - destruct (negb check || eqc m s) eqn:C; [|discriminate].
    destruct (collapse_stop check eqc l) as [ok r1]. intros E. injection E as -> <-.
    destruct (IH r1 eq_refl) as [-> F]. split; auto. intros ->. constructor; auto.
Qed.

Lemma collapse_skip_true check eqc l r :
  collapse_skip check eqc l = (true, r) ->
  r = l /\ (check = true -> Forall (fun ms => eqc (fst ms) (snd ms) = true) l).
Proof.
  unfold collapse_skip. cbv zeta. intros E. injection E as E1 E2.
  apply Nat.eqb_eq in E1.
  assert (F : forall l', length (filter (fun ms => negb check || eqc (fst ms) (snd ms)) l') = length l' ->
     filter (fun ms : Z * Z => negb check || eqc (fst ms) (snd ms)) l' = l' /\
     Forall (fun ms => negb check || eqc (fst ms) (snd ms) = true) l').
  { induction l' as [|ms l' IH]; cbn [filter]; intros HL; auto.
    destruct (negb check || eqc (fst ms) (snd ms)) eqn:C.
    - cbn [length] in HL. destruct IH as [I1 I2]; [lia|]. split; [f_equal; auto|constructor; auto].
    - exfalso. assert (X : forall P : Z * Z -> bool, (length (filter P l') <= length l')%nat).
      { intros P. clear. induction l'; cbn; auto. destruct (P a); cbn; lia. }
      specialize (X (fun ms => negb check || eqc (fst ms) (snd ms))). cbn [length] in HL. lia. }
  destruct (F l E1) as [F1 F2]. split; [congruence|]. intros ->. cbn [negb orb] in F2. auto.
Qed.

Lemma collapse_skip_ok check eqc l :
  (check = false \/ Forall (fun ms => eqc (fst ms) (snd ms) = true) l) ->
  collapse_skip check eqc l = (true, l).
Proof.
  intros H. unfold collapse_skip. cbv zeta. rewrite filter_all.
  - rewrite Nat.eqb_refl. auto.
  - intros [m s] Hin. destruct H as [-> |H]; auto.
    rewrite Forall_forall in H. rewrite (H _ Hin). apply orb_true_r.
Qed.

(** The layer lists reversed as a whole. *)
Lemma nth_layers {A} m thick (f : Z -> Z -> A) q t d :
  0 <= q < m -> 0 <= t < thick ->
  nth (Z.to_nat (q * thick + t)) (layers m thick f) d = f q t.
Proof. intros. apply nth_znth. apply znth_layers; auto. Qed.
