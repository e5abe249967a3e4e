(** C90, C91: subdomains of a structured patch, and the orientation iterator. *)
From Coq Require Import ZArith List Bool Lia Permutation Sorted.
From Verif Require Import Sub_model Sub_spec Sub_proofs Str_spec Str_model.
Import ListNotations.
Local Open Scope Z_scope.

(** C90.  One direction. *)
Theorem subdomains_1D : forall nel g ov, fits nel g ov ->
  exists subs, calcSubdomains nel 0 0 g 1 1 ov = Some subs /\ Z.of_nat (length subs) = g /\
    forall k, 0 <= k < g ->
      StronglySorted Z.lt (nth (Z.to_nat k) subs []) /\
      (forall e, In e (nth (Z.to_nat k) subs []) <-> inside nel g ov k e).
Proof.
  intros nel g ov HF. assert (HF' := HF). destruct HF' as (Hg & Hn & Hov & Hl).
  exists (map (posK nel g ov) (iota 0 (Z.to_nat g))).
  split; [apply calc1; assumption|]. split; [rewrite map_length, iota_len; lia|].
  intros k Hk. rewrite nth_map_iota by lia. rewrite Z2Nat.id by lia.
  split; [apply posK_sorted | intros; apply posK_in]; assumption.
Qed.

(** Two directions: subdomain (gu,gv) is entry gv*g1+gu. *)
Theorem subdomains_2D : forall n1 n2 g1 g2 ov, fits n1 g1 ov -> fits n2 g2 ov ->
  exists subs, calcSubdomains n1 n2 0 g1 g2 1 ov = Some subs /\ Z.of_nat (length subs) = g1 * g2 /\
    forall gu gv, 0 <= gu < g1 -> 0 <= gv < g2 ->
      StronglySorted Z.lt (nth (Z.to_nat (gv * g1 + gu)) subs []) /\
      (forall e, In e (nth (Z.to_nat (gv * g1 + gu)) subs []) ->
         exists x y, 0 <= x < n1 /\ 0 <= y < n2 /\ e = elem2 n1 x y) /\
      (forall x y, 0 <= x < n1 -> 0 <= y < n2 ->
         (In (elem2 n1 x y) (nth (Z.to_nat (gv * g1 + gu)) subs []) <->
          inside n1 g1 ov gu x /\ inside n2 g2 ov gv y)).
Proof.
  intros n1 n2 g1 g2 ov F1 F2.
  assert (F1' := F1). assert (F2' := F2).
  destruct F1' as (Hg1 & Hn1 & Hov1 & Hl1). destruct F2' as (Hg2 & Hn2 & Hov2 & Hl2).
  eexists. split.
  { unfold calcSubdomains. cbn. replace (0 <? n2) with true by (symmetry; apply Z.ltb_lt; lia).
    apply calc2; assumption. }
  split; [rewrite map_length, list_prod_len, !iota_len; lia|].
  intros gu gv Hu Hv.
  assert (E : nth (Z.to_nat (gv * g1 + gu))
     (map (fun p => row2 n1 (posK n2 g2 ov (fst p)) (posK n1 g1 ov (snd p)))
          (list_prod (iota 0 (Z.to_nat g2)) (iota 0 (Z.to_nat g1)))) [] =
     row2 n1 (posK n2 g2 ov gv) (posK n1 g1 ov gu)).
  { rewrite (nth_indep _ [] (row2 n1 (posK n2 g2 ov (fst (0, 0))) (posK n1 g1 ov (snd (0, 0)))))
      by (rewrite map_length, list_prod_len, !iota_len, <- Z2Nat.inj_mul by lia; apply Z2Nat.inj_lt; nia).
    rewrite map_nth with (d := (0, 0)).
    replace (Z.to_nat (gv * g1 + gu)) with (Z.to_nat gv * length (iota 0 (Z.to_nat g1)) + Z.to_nat gu)%nat
      by (rewrite iota_len, Z2Nat.inj_add, Z2Nat.inj_mul by nia; reflexivity).
    rewrite prod_nth by (rewrite iota_len; lia).
    rewrite !iota_nth by lia. cbn [fst snd]. rewrite !Z2Nat.id by lia. reflexivity. }
  rewrite E.
  assert (RX : forall x, In x (posK n1 g1 ov gu) -> 0 <= x < n1) by (intros; eapply posK_range; eassumption).
  split; [apply row2_sorted; try assumption; try lia; apply posK_sorted; assumption|].
  split.
  - intros e He. apply row2_in in He; [|lia|assumption]. destruct He as [Hx Hy].
    exists (e mod n1), (e / n1). split; [apply RX; assumption|].
    split; [eapply posK_range; eassumption|]. unfold elem2.
    rewrite (Z.div_mod e n1) at 1 by lia. ring.
  - intros x y Hx Hy. rewrite row2_in by (assumption || lia). unfold elem2.
    rewrite Z.add_comm, Z.mod_add, Z.mod_small, Z.div_add, Z.div_small by lia.
    rewrite Z.add_0_l, !posK_in by assumption. reflexivity.
Qed.

(** Three directions: subdomain (gu,gv,gw) is entry (gw*g2+gv)*g1+gu. *)
Theorem subdomains_3D : forall n1 n2 n3 g1 g2 g3 ov, fits n1 g1 ov -> fits n2 g2 ov -> fits n3 g3 ov ->
  exists subs, calcSubdomains n1 n2 n3 g1 g2 g3 ov = Some subs /\
    Z.of_nat (length subs) = g1 * g2 * g3 /\
    forall gu gv gw, 0 <= gu < g1 -> 0 <= gv < g2 -> 0 <= gw < g3 ->
      StronglySorted Z.lt (nth (Z.to_nat ((gw * g2 + gv) * g1 + gu)) subs []) /\
      (forall e, In e (nth (Z.to_nat ((gw * g2 + gv) * g1 + gu)) subs []) ->
         exists x y z, 0 <= x < n1 /\ 0 <= y < n2 /\ 0 <= z < n3 /\ e = elem3 n1 n2 x y z) /\
      (forall x y z, 0 <= x < n1 -> 0 <= y < n2 -> 0 <= z < n3 ->
         (In (elem3 n1 n2 x y z) (nth (Z.to_nat ((gw * g2 + gv) * g1 + gu)) subs []) <->
          inside n1 g1 ov gu x /\ inside n2 g2 ov gv y /\ inside n3 g3 ov gw z)).
Proof.
  intros n1 n2 n3 g1 g2 g3 ov F1 F2 F3.
  assert (F1' := F1). assert (F2' := F2). assert (F3' := F3).
  destruct F1' as (Hg1 & Hn1 & Hov1 & Hl1). destruct F2' as (Hg2 & Hn2 & Hov2 & Hl2).
  destruct F3' as (Hg3 & Hn3 & Hov3 & Hl3).
  eexists. split.
  { unfold calcSubdomains. replace (0 <? n3) with true by (symmetry; apply Z.ltb_lt; lia).
    apply calc3; assumption. }
  split; [rewrite map_length, !list_prod_len, !iota_len; nia|].
  intros gu gv gw Hu Hv Hw.
  set (d0 := (0, (0, 0)) : Z * (Z * Z)).
  set (F := fun p : Z * (Z * Z) => row3 n1 n2 (posK n3 g3 ov (fst p)) (posK n2 g2 ov (fst (snd p))) (posK n1 g1 ov (snd (snd p)))).
  assert (E : nth (Z.to_nat ((gw * g2 + gv) * g1 + gu))
     (map F (list_prod (iota 0 (Z.to_nat g3)) (list_prod (iota 0 (Z.to_nat g2)) (iota 0 (Z.to_nat g1))))) [] =
     row3 n1 n2 (posK n3 g3 ov gw) (posK n2 g2 ov gv) (posK n1 g1 ov gu)).
  { assert (L : (Z.to_nat ((gw * g2 + gv) * g1 + gu)
        < length (list_prod (iota 0 (Z.to_nat g3)) (list_prod (iota 0 (Z.to_nat g2)) (iota 0 (Z.to_nat g1)))))%nat).
    { rewrite !list_prod_len, !iota_len, <- !Z2Nat.inj_mul by nia.
      assert (gw * g2 + gv + 1 <= g3 * g2) by nia.
      assert ((gw * g2 + gv + 1) * g1 <= g3 * g2 * g1) by nia.
      apply Z2Nat.inj_lt; nia. }
    rewrite (nth_indep _ [] (F d0)) by (rewrite map_length; exact L).
    rewrite map_nth. unfold d0.
    replace (Z.to_nat ((gw * g2 + gv) * g1 + gu)) with
      (Z.to_nat gw * length (list_prod (iota 0 (Z.to_nat g2)) (iota 0 (Z.to_nat g1)))
       + (Z.to_nat gv * length (iota 0 (Z.to_nat g1)) + Z.to_nat gu))%nat.
    2:{ rewrite list_prod_len, !iota_len.
        rewrite Z2Nat.inj_add, Z2Nat.inj_mul, Z2Nat.inj_add, Z2Nat.inj_mul by nia. nia. }
    rewrite prod_nth.
    2:{ rewrite iota_len; lia. }
    2:{ rewrite list_prod_len, !iota_len, <- !Z2Nat.inj_mul, <- Z2Nat.inj_add by nia.
        apply Z2Nat.inj_lt; nia. }
    rewrite prod_nth by (rewrite iota_len; lia).
    rewrite !iota_nth by lia. unfold F. cbn [fst snd]. rewrite !Z2Nat.id by lia. reflexivity. }
  rewrite E, row3_as2.
  assert (RX : forall x, In x (posK n1 g1 ov gu) -> 0 <= x < n1) by (intros; eapply posK_range; eassumption).
  assert (RY : forall y, In y (posK n2 g2 ov gv) -> 0 <= y < n2) by (intros; eapply posK_range; eassumption).
  assert (R2 : forall x, In x (row2 n1 (posK n2 g2 ov gv) (posK n1 g1 ov gu)) -> 0 <= x < n1 * n2).
  { intros x Hx. apply row2_in in Hx; [|lia|assumption]. destruct Hx as [Hx Hy].
    apply RX in Hx. apply RY in Hy. rewrite (Z.div_mod x n1) by lia. nia. }
  split.
  { apply row2_sorted; [nia | assumption | apply posK_sorted; assumption|].
    apply row2_sorted; [lia | assumption | |]; apply posK_sorted; assumption. }
  split.
  - intros e He. apply row2_in in He; [|nia|assumption]. destruct He as [He Hz].
    apply row2_in in He; [|lia|assumption]. destruct He as [Hx Hy].
    exists ((e mod (n1 * n2)) mod n1), ((e mod (n1 * n2)) / n1), (e / (n1 * n2)).
    split; [apply RX; assumption|]. split; [apply RY; assumption|].
    split; [eapply posK_range; eassumption|]. unfold elem3.
    rewrite (Z.div_mod e (n1 * n2)) at 1 by nia.
    rewrite (Z.div_mod (e mod (n1 * n2)) n1) at 1 by lia. ring.
  - intros x y z Hx Hy Hz. rewrite row2_in by (assumption || nia).
    unfold elem3. replace ((z * n2 + y) * n1 + x) with (y * n1 + x + z * (n1 * n2)) by ring.
    rewrite Z.mod_add, Z.div_add by nia.
    rewrite (Z.mod_small (y * n1 + x)), (Z.div_small (y * n1 + x)) by nia.
    rewrite row2_in by (assumption || lia).
    rewrite (Z.add_comm (y * n1)), Z.mod_add, Z.mod_small, Z.div_add, Z.div_small by lia.
    rewrite !Z.add_0_l, !posK_in by assumption. tauto.
Qed.

(** Every element is in some subdomain in each direction. *)
Theorem subdomains_cover : forall nel g ov x, fits nel g ov -> 0 <= x < nel ->
  exists k, 0 <= k < g /\ inside nel g ov k x.
Proof.
  intros nel g ov x (Hg & Hn & Hov & Hl) Hx.
  assert (HS := subSize_le nel g ltac:(lia) ltac:(lia)).
  destruct (Z_le_gt_dec (first_of nel g ov (g - 1)) x) as [L | L].
  { exists (g - 1). split; [lia|]. split; [lia|]. lia. }
  (* the last subdomain that starts at or before x *)
  unfold first_of in L. set (d := subSize nel g - ov) in *.
  assert (D : 0 < d) by nia.
  exists (x / d).
  assert (0 <= x / d) by (apply Z.div_pos; lia).
  assert (x = d * (x / d) + x mod d) by (apply Z.div_mod; lia).
  assert (0 <= x mod d < d) by (apply Z.mod_pos_bound; lia).
  assert (x / d < g - 1) by (apply Z.div_lt_upper_bound; nia).
  split; [lia|]. unfold inside, first_of. fold d. split; [nia|]. intros _. nia.
Qed.

(** With at least one element of overlap nothing can go wrong. *)
Theorem subdomains_overlap_fits : forall nel g ov, 1 <= g < 2 ^ 20 -> 1 <= nel < 2 ^ 20 ->
  1 <= ov <= nel / g + 1 -> fits nel g ov.
Proof.
  intros nel g ov Hg Hn Hov. unfold fits, subSize, first_of, subSize.
  repeat split; try lia.
  assert (0 <= nel / g) by (apply Z.div_pos; lia).
  assert (g * (nel / g) <= nel) by (apply Z.mul_div_le; lia). nia.
Qed.

(** Neighbouring subdomains share exactly ov elements (fewer only at the end of the
    patch), and subdomains further apart share none when the size exceeds 2*ov. *)
Theorem subdomains_overlap_exact : forall nel g ov k x, fits nel g ov -> 0 <= k -> k + 1 < g ->
  (inside nel g ov k x /\ inside nel g ov (k + 1) x <->
   first_of nel g ov (k + 1) <= x < Z.min nel (first_of nel g ov (k + 1) + ov)).
Proof.
  intros nel g ov k x (Hg & Hn & Hov & Hl) Hk Hk1.
  assert (HS := subSize_le nel g ltac:(lia) ltac:(lia)).
  unfold inside, first_of in *. nia.
Qed.
Theorem subdomains_apart : forall nel g ov j k x, fits nel g ov -> 2 * ov <= subSize nel g ->
  0 <= j -> j + 2 <= k < g -> inside nel g ov j x -> ~ inside nel g ov k x.
Proof.
  intros nel g ov j k x (Hg & Hn & Hov & Hl) H2 Hj Hk [_ HA] [HB _].
  specialize (HA ltac:(lia)). unfold first_of in *. nia.
Qed.

Example subdomains_ex : fits 8 2 1 /\ calcSubdomains 8 0 0 2 1 1 1 = Some [[0; 1; 2; 3; 4]; [4; 5; 6; 7]].
Proof. split; [apply subdomains_overlap_fits; vm_compute; intuition congruence | vm_compute; reflexivity]. Qed.
Example subdomains_2D_ex : calcSubdomains 3 2 0 2 2 1 1 = Some [[0; 1; 3; 4]; [1; 2; 4; 5]; [3; 4]; [4; 5]].
Proof. vm_compute. reflexivity. Qed.

(** Refuted: without overlap the request for 4 subdomains of 8 elements throws (the
    last size is negative, as a size_t it is huge). *)
Theorem subdomains_zero_overlap_refuted :
  ~ (forall nel g, 1 <= g <= nel -> nel < 2 ^ 20 -> exists subs, calcSubdomains nel 0 0 g 1 1 0 = Some subs).
Proof.
  intros H. destruct (H 8 4 ltac:(lia) ltac:(lia)) as [s E]. vm_compute in E. discriminate.
Qed.
(** Refuted: an overlap above the subdomain size is accepted, and the elements that
    no subdomain has are lost silently. *)
Theorem subdomains_big_overlap_refuted :
  ~ (forall nel g ov subs, 1 <= g <= nel -> nel < 2 ^ 20 -> 0 <= ov < nel ->
     calcSubdomains nel 0 0 g 1 1 ov = Some subs ->
     forall e, 0 <= e < nel -> exists s, In s subs /\ In e s).
Proof.
  intros H.
  destruct (H 9 3 5 [[0; 1; 2; 3]; []; []] ltac:(lia) ltac:(lia) ltac:(lia) ltac:(vm_compute; reflexivity) 8 ltac:(lia))
    as (s & Hs & He).
  simpl in Hs. destruct Hs as [<- | [<- | [<- | []]]]; simpl in He; lia.
Qed.

(** C91.  The number received for the slave's node in column k and row l of its face
    is the one of the master's node (q,r) that the serial connection of the two
    patches identifies with it. *)
Theorem orient_matches_serial : forall o d1 d2 k l, 0 <= o < 8 -> (o < 4 \/ d1 = d2) ->
  0 <= k < d1 -> 0 <= l < d2 ->
  exists q r, 0 <= q < fst (master_size o d1 d2) /\ 0 <= r < snd (master_size o d1 d2) /\
    orient_spec o d1 d2 q r = (k, l) /\
    orient_kl o q r (fst (master_size o d1 d2)) (snd (master_size o d1 d2)) d1 d2 = (k, l) /\
    nth (Z.to_nat (l * d1 + k)) (orientFace o d1 d2) 0 = r * fst (master_size o d1 d2) + q.
Proof.
  intros o d1 d2 k l Ho HD Hk Hl. rewrite orientFace_nth by assumption.
  assert (C : o = 0 \/ o = 1 \/ o = 2 \/ o = 3 \/ o = 4 \/ o = 5 \/ o = 6 \/ o = 7) by lia.
  destruct C as [-> | [-> | [-> | [-> | [-> | [-> | [-> | ->]]]]]]];
    unfold master_size, orient_spec, orient_kl, orders; simpl.
  - exists k, l. repeat split; try lia; ring.
  - exists k, (d2 - 1 - l). repeat split; try lia; try ring; f_equal; lia.
  - exists (d1 - 1 - k), l. repeat split; try lia; try ring; f_equal; lia.
  - exists (d1 - 1 - k), (d2 - 1 - l). repeat split; try lia; try ring; f_equal; lia.
  - assert (d1 = d2) by lia. subst d2. exists l, k. repeat split; try lia; ring.
  - assert (d1 = d2) by lia. subst d2. exists (d1 - 1 - l), k. repeat split; try lia; try ring; f_equal; lia.
  - assert (d1 = d2) by lia. subst d2. exists l, (d1 - 1 - k). repeat split; try lia; try ring; f_equal; lia.
  - assert (d1 = d2) by lia. subst d2. exists (d1 - 1 - l), (d1 - 1 - k). repeat split; try lia; try ring; f_equal; lia.
Qed.

(** Every position of the master's face is used exactly once. *)
Theorem orient_permutation : forall o d1 d2, 0 <= o < 8 -> (o < 4 \/ d1 = d2) -> 0 < d1 -> 0 < d2 ->
  Permutation (iota 0 (Z.to_nat (d1 * d2))) (orientFace o d1 d2).
Proof.
  intros o d1 d2 Ho HD H1 H2.
  apply NoDup_Permutation_bis.
  - apply sorted_nodup, iota_sorted.
  - rewrite orientFace_len, iota_len, Z2Nat.inj_mul by lia. lia.
  - intros e He. apply iota_in in He. rewrite Z2Nat.id in He by nia.
    assert (EX : exists k l, 0 <= k < d1 /\ 0 <= l < d2 /\
      fst (orders o d1 d2 l) + k * snd (orders o d1 d2 l) = e).
    { set (q := e mod d1). set (r := e / d1).
      assert (E : e = d1 * r + q) by (apply Z.div_mod; lia).
      assert (Q : 0 <= q < d1) by (apply Z.mod_pos_bound; lia).
      assert (R : 0 <= r < d2) by (split; [apply Z.div_pos; lia | apply Z.div_lt_upper_bound; lia]).
      assert (C : o = 0 \/ o = 1 \/ o = 2 \/ o = 3 \/ o = 4 \/ o = 5 \/ o = 6 \/ o = 7) by lia.
      destruct C as [-> | [-> | [-> | [-> | [-> | [-> | [-> | ->]]]]]]]; unfold orders; simpl.
      - exists q, r. repeat split; lia.
      - exists q, (d2 - 1 - r). repeat split; try lia; try (rewrite E; ring).
      - exists (d1 - 1 - q), r. repeat split; try lia; try (rewrite E; ring).
      - exists (d1 - 1 - q), (d2 - 1 - r). repeat split; try lia; try (rewrite E; ring).
      - assert (d1 = d2) by lia. subst d2. exists r, q. repeat split; try lia; try ring.
      - assert (d1 = d2) by lia. subst d2. exists r, (d1 - 1 - q). repeat split; try lia; try ring.
      - assert (d1 = d2) by lia. subst d2. exists (d1 - 1 - r), q. repeat split; try lia; try (rewrite E; ring).
      - assert (d1 = d2) by lia. subst d2. exists (d1 - 1 - r), (d1 - 1 - q).
        repeat split; try lia; try (rewrite E; ring). }
    destruct EX as (k & l & Hk & Hl & <-).
    rewrite <- orientFace_nth by assumption. apply nth_In.
    rewrite orientFace_len, <- Z2Nat.inj_mul by lia. apply Z2Nat.inj_lt; nia.
Qed.

(** Edges: the order is kept or reversed. *)
Theorem orient_edge : forall o n i, (i < n)%nat ->
  nth i (orientEdge o n) 0 = (if o =? 0 then Z.of_nat i else Z.of_nat n - 1 - Z.of_nat i) /\
  length (orientEdge o n) = n.
Proof.
  intros o n i Hi. unfold orientEdge. destruct (o =? 0).
  - rewrite iota_nth, iota_len by assumption. split; [lia | reflexivity].
  - rewrite rev_nth, rev_length, iota_len by (rewrite iota_len; assumption).
    rewrite iota_nth by lia. split; [lia | reflexivity].
Qed.

(** The iterator runs over as many positions as the face (edge) has nodes: face 2d+1
    and 2d+2 of a volume are normal to direction d, edges 4d+1 ... 4d+4 run along it. *)
Theorem orient_sizes : forall n1 n2 n3,
  let size d := match d with 0 => n1 | 1 => n2 | _ => n3 end in
  (forall d s, 0 <= d < 3 -> s = 1 \/ s = 2 ->
     faceDims (2 * d + s) n1 n2 n3 =
     match d with 0 => (size 1, size 2) | 1 => (size 0, size 2) | _ => (size 0, size 1) end) /\
  (forall d s, 0 <= d < 3 -> 1 <= s <= 4 -> edgeDim3 (4 * d + s) n1 n2 n3 = size d) /\
  (forall d s, 0 <= d < 2 -> s = 1 \/ s = 2 -> edgeDim2 (2 * d + s) n1 n2 = size (1 - d)) /\
  (forall o d1 d2, 0 <= d1 -> 0 <= d2 -> Z.of_nat (length (orientFace o d1 d2)) = d1 * d2).
Proof.
  intros n1 n2 n3 size. split; [|split; [|split]].
  - intros d s Hd Hs. assert (C : d = 0 \/ d = 1 \/ d = 2) by lia.
    destruct C as [-> | [-> | ->]]; destruct Hs as [-> | ->]; reflexivity.
  - intros d s Hd Hs. assert (C : d = 0 \/ d = 1 \/ d = 2) by lia.
    assert (C2 : s = 1 \/ s = 2 \/ s = 3 \/ s = 4) by lia.
    destruct C as [-> | [-> | ->]]; destruct C2 as [-> | [-> | [-> | ->]]]; reflexivity.
  - intros d s Hd Hs. assert (C : d = 0 \/ d = 1) by lia.
    destruct C as [-> | ->]; destruct Hs as [-> | ->]; reflexivity.
  - intros o d1 d2 H1 H2. rewrite orientFace_len. lia.
Qed.

Example orient_ex : orientFace 5 3 3 = [2; 5; 8; 1; 4; 7; 0; 3; 6] /\ (5 < 4 \/ 3 = 3).
Proof. split; [vm_compute; reflexivity | lia]. Qed.

(** Refuted: a transposing orientation on a face that is not square gives positions
    outside the face and takes others twice. *)
Theorem orient_rectangular_refuted :
  (exists e, In e (orientFace 5 4 2) /\ 4 * 2 <= e) /\
  ~ NoDup (orientFace 4 2 3) /\
  ~ (forall o d1 d2 k l, 0 <= o < 8 -> 0 <= k < d1 -> 0 <= l < d2 ->
     exists q r, 0 <= q < fst (master_size o d1 d2) /\ 0 <= r < snd (master_size o d1 d2) /\
       orient_spec o d1 d2 q r = (k, l) /\
       nth (Z.to_nat (l * d1 + k)) (orientFace o d1 d2) 0 = r * fst (master_size o d1 d2) + q).
Proof.
  split; [exists 13; vm_compute; intuition congruence|].
  split.
  - intros H. assert (E : orientFace 4 2 3 = [0; 2; 1; 3; 2; 4]) by (vm_compute; reflexivity).
    rewrite E in H. inversion H as [|? ? _ H']; subst. inversion H' as [|? ? N _]; subst.
    apply N. simpl. tauto.
  - intros H. destruct (H 4 2 3 1 0 ltac:(lia) ltac:(lia) ltac:(lia)) as (q & r & Hq & Hr & E & N).
    vm_compute in N. unfold master_size, orient_spec in *. simpl in *. inversion E; subst. lia.
Qed.

(** The element pairs of an interface (getElmConnectivities) are the right ones for
    the orientations that are their own inverse ... *)
Theorem iface_pairs_partial : forall o d1 d2 q r k l, 0 <= o < 8 -> o <> 5 -> o <> 6 ->
  (o < 4 \/ d1 = d2) -> 0 <= q < d1 -> 0 <= r < d2 -> orient_spec o d1 d2 q r = (k, l) ->
  nth (Z.to_nat (r * d1 + q)) (ifacePairs o d1 d2) (0, 0) = (r * d1 + q, l * d1 + k).
Proof.
  intros o d1 d2 q r k l Ho H5 H6 HD Hq Hr E.
  assert (N : (Z.to_nat (r * d1 + q) < Z.to_nat (d1 * d2))%nat) by (apply Z2Nat.inj_lt; nia).
  unfold ifacePairs. rewrite combine_nth.
  2:{ rewrite iota_len, orientFace_len, Z2Nat.inj_mul by lia. lia. }
  rewrite iota_nth by assumption. rewrite Z2Nat.id by nia. f_equal.
  rewrite orientFace_nth by assumption.
  assert (C : o = 0 \/ o = 1 \/ o = 2 \/ o = 3 \/ o = 4 \/ o = 7) by lia.
  destruct C as [-> | [-> | [-> | [-> | [-> | ->]]]]];
    unfold orient_spec, orders in *; simpl in *; inversion E; subst; try lia; try ring.
Qed.
(** ... and refuted for the quarter turns, where the iterator (made for copying to the
    slave) is used in the opposite direction. *)
Theorem iface_pairs_refuted :
  ~ (forall o d q r k l, 0 <= o < 8 -> 0 <= q < d -> 0 <= r < d -> orient_spec o d d q r = (k, l) ->
     nth (Z.to_nat (r * d + q)) (ifacePairs o d d) (0, 0) = (r * d + q, l * d + k)).
Proof.
  intros H. specialize (H 5 3 0 1 1 2 ltac:(lia) ltac:(lia) ltac:(lia) ltac:(vm_compute; reflexivity)).
  vm_compute in H. discriminate.
Qed.

Print Assumptions subdomains_1D.
Print Assumptions subdomains_2D.
Print Assumptions subdomains_3D.
Print Assumptions subdomains_cover.
Print Assumptions subdomains_overlap_fits.
Print Assumptions subdomains_overlap_exact.
Print Assumptions subdomains_apart.
Print Assumptions subdomains_zero_overlap_refuted.
Print Assumptions subdomains_big_overlap_refuted.
Print Assumptions orient_matches_serial.
Print Assumptions orient_sizes.
Print Assumptions orient_permutation.
Print Assumptions orient_edge.
Print Assumptions orient_rectangular_refuted.
Print Assumptions iface_pairs_partial.
Print Assumptions iface_pairs_refuted.
