(** C80: element connectivity and numbering of structured patches.

    For every spline patch (any number of coefficients, any orders, any
    non-decreasing knot vectors, repeated knots included) the node list of an
    element names exactly the functions that are non-zero on it. *)
From Coq Require Import ZArith List Bool Lia Sorting.Sorted.
From Verif Require Import Str_model Str_spec Str_proofs.
Import ListNotations.
Local Open Scope Z_scope.

Theorem str_mnpc1 : forall d1, dir_ok d1 ->
  zlen (createMNPC1 d1) = nspan d1 /\
  forall e1, 0 <= e1 < nspan d1 ->
  exists row, znth (createMNPC1 d1) e1 = Some row /\
    (~ nonzero d1 e1 -> row = []) /\
    (nonzero d1 e1 ->
       zlen row = ord d1 /\ StronglySorted Z.lt row /\
       (forall x, In x row <-> covers d1 x e1)).
Proof.
  intros d1 H1. pose proof H1 as [Hp _]. rewrite createMNPC1_grid by auto.
  assert (0 <= nspan d1) by (unfold nspan; lia).
  split. { rewrite zlen_map, zlen_zrange; lia. }
  intros e1 He. rewrite znth_map, znth_zrange by lia. cbn [option_map].
  replace (0 + e1) with e1 by lia. eexists; split; [reflexivity|]. split.
  - intros Hn. unfold nonzero in Hn. destruct (Z.ltb_spec (span_lo d1 e1) (span_hi d1 e1)); auto. lia.
  - intros Hn. pose proof Hn as Hn'. unfold nonzero in Hn'.
    destruct (Z.ltb_spec (span_lo d1 e1) (span_hi d1 e1)); [|lia].
    split; [rewrite zlen_map, zlen_zrange; lia|]. split.
    + apply sorted_znth. intros a b x y Hab Ha Hb.
      pose proof (znth_some_range _ _ _ Ha) as Ra. pose proof (znth_some_range _ _ _ Hb) as Rb.
      rewrite zlen_map, zlen_zrange in Ra, Rb by lia.
      rewrite znth_map, znth_zrange in Ha, Hb by lia. cbn in Ha, Hb.
      injection Ha as <-. injection Hb as <-. lia.
    + intros x. rewrite covers_iff by auto. rewrite in_map_iff. split.
      * intros (a & <- & Ha). apply In_zrange in Ha. lia.
      * intros. exists (x - e1). split; [lia|]. apply In_zrange. lia.
Qed.
Print Assumptions str_mnpc1.

Theorem str_mnpc2 : forall d1 d2, dir_ok d1 -> dir_ok d2 ->
  zlen (createMNPC2 d1 d2) = nspan d1 * nspan d2 /\
  forall e1 e2, 0 <= e1 < nspan d1 -> 0 <= e2 < nspan d2 ->
  exists row, znth (createMNPC2 d1 d2) (node2 (nspan d1) e1 e2) = Some row /\
    (~ (nonzero d1 e1 /\ nonzero d2 e2) -> row = []) /\
    (nonzero d1 e1 -> nonzero d2 e2 ->
       zlen row = ord d1 * ord d2 /\ StronglySorted Z.lt row /\
       (forall x, In x row <->
          exists i j, covers d1 i e1 /\ covers d2 j e2 /\ x = node2 (ncf d1) i j) /\
       (forall a b, 0 <= a < ord d1 -> 0 <= b < ord d2 ->
          znth row (node2 (ord d1) a b) = Some (node2 (ncf d1) (e1 + a) (e2 + b)))).
Proof.
  intros d1 d2 H1 H2. pose proof H1 as [Hp1 _]. pose proof H2 as [Hp2 _].
  rewrite createMNPC2_grid by auto.
  assert (0 <= nspan d1) by (unfold nspan; lia).
  assert (0 <= nspan d2) by (unfold nspan; lia).
  split. { rewrite zlen_grid2; lia. }
  intros e1 e2 He1 He2. rewrite znth_grid2 by lia.
  eexists; split; [reflexivity|]. unfold nonzero at 1 2.
  destruct (Z.ltb_spec (span_lo d1 e1) (span_hi d1 e1));
  destruct (Z.ltb_spec (span_lo d2 e2) (span_hi d2 e2)); cbn [andb];
    (split; [intros; auto; tauto|]); intros N1 N2; unfold nonzero in *; try lia.
  split; [rewrite zlen_grid2; lia|]. split; [|split].
  - apply sorted_grid2; try lia. intros. unfold node2, nspan in *. nia.
  - intros x. rewrite In_grid2. split.
    + intros (a & b & Ha & Hb & ->). exists (e1 + a), (e2 + b).
      rewrite !covers_iff by auto. repeat split; auto; lia.
    + intros (i & j & Hi & Hj & ->). rewrite covers_iff in Hi, Hj by auto.
      exists (i - e1), (j - e2). repeat split; try lia. f_equal; lia.
  - intros. rewrite znth_grid2 by lia. auto.
Qed.
Print Assumptions str_mnpc2.

Theorem str_mnpc3 : forall d1 d2 d3, dir_ok d1 -> dir_ok d2 -> dir_ok d3 ->
  zlen (createMNPC3 d1 d2 d3) = nspan d1 * nspan d2 * nspan d3 /\
  forall e1 e2 e3,
  0 <= e1 < nspan d1 -> 0 <= e2 < nspan d2 -> 0 <= e3 < nspan d3 ->
  exists row,
    znth (createMNPC3 d1 d2 d3) (node3 (nspan d1) (nspan d2) e1 e2 e3) = Some row /\
    (~ (nonzero d1 e1 /\ nonzero d2 e2 /\ nonzero d3 e3) -> row = []) /\
    (nonzero d1 e1 -> nonzero d2 e2 -> nonzero d3 e3 ->
       zlen row = ord d1 * ord d2 * ord d3 /\ StronglySorted Z.lt row /\
       (forall x, In x row <->
          exists i j k, covers d1 i e1 /\ covers d2 j e2 /\ covers d3 k e3 /\
                        x = node3 (ncf d1) (ncf d2) i j k) /\
       (forall a b c, 0 <= a < ord d1 -> 0 <= b < ord d2 -> 0 <= c < ord d3 ->
          znth row (node3 (ord d1) (ord d2) a b c)
          = Some (node3 (ncf d1) (ncf d2) (e1 + a) (e2 + b) (e3 + c)))).
Proof.
  intros d1 d2 d3 H1 H2 H3.
  pose proof H1 as [Hp1 _]. pose proof H2 as [Hp2 _]. pose proof H3 as [Hp3 _].
  rewrite createMNPC3_grid by auto.
  assert (0 <= nspan d1) by (unfold nspan; lia).
  assert (0 <= nspan d2) by (unfold nspan; lia).
  assert (0 <= nspan d3) by (unfold nspan; lia).
  split. { rewrite zlen_grid3; lia. }
  intros e1 e2 e3 He1 He2 He3. rewrite znth_grid3 by lia.
  eexists; split; [reflexivity|]. unfold nonzero at 1 2 3.
  destruct (Z.ltb_spec (span_lo d1 e1) (span_hi d1 e1));
  destruct (Z.ltb_spec (span_lo d2 e2) (span_hi d2 e2));
  destruct (Z.ltb_spec (span_lo d3 e3) (span_hi d3 e3)); cbn [andb];
    (split; [intros; auto; tauto|]); intros N1 N2 N3; unfold nonzero in *; try lia.
  split; [rewrite zlen_grid3; lia|]. split; [|split].
  - apply sorted_grid3; try lia. intros i j k i' j' k' Hi Hi' Hj Hj' Hk0 Hk' Hlt.
    unfold node3, nspan in *.
    destruct Hlt as [Hk|[-> [Hlt|[-> Hlt]]]]; try nia.
    + assert (e2 + j + ncf d2 * (e3 + k) + 1 <= e2 + j' + ncf d2 * (e3 + k')) by nia. nia.
  - intros x. rewrite In_grid3. split.
    + intros (a & b & c & Ha & Hb & Hc & ->). exists (e1 + a), (e2 + b), (e3 + c).
      rewrite !covers_iff by auto. repeat split; auto; lia.
    + intros (i & j & k & Hi & Hj & Hk & ->). rewrite covers_iff in Hi, Hj, Hk by auto.
      exists (i - e1), (j - e2), (k - e3). repeat split; try lia. f_equal; lia.
  - intros. rewrite znth_grid3 by lia. auto.
Qed.
Print Assumptions str_mnpc3.

(** On clamped knot vectors no function is forgotten: every node whose function
    has a support of non-zero length is a node of some element. *)
Theorem str_mnpc_cover : forall d1 d2 d3 i j k,
  dir_ok d1 -> dir_ok d2 -> dir_ok d3 -> clamped d1 -> clamped d2 -> clamped d3 ->
  0 <= i < ncf d1 -> 0 <= j < ncf d2 -> 0 <= k < ncf d3 ->
  knot d1 i < knot d1 (i + ord d1) -> knot d2 j < knot d2 (j + ord d2) ->
  knot d3 k < knot d3 (k + ord d3) ->
  (exists row, In row (createMNPC1 d1) /\ In i row) /\
  (exists row, In row (createMNPC2 d1 d2) /\ In (node2 (ncf d1) i j) row) /\
  (exists row, In row (createMNPC3 d1 d2 d3) /\ In (node3 (ncf d1) (ncf d2) i j k) row).
Proof.
  intros d1 d2 d3 i j k O1 O2 O3 C1 C2 C3 Hi Hj Hk L1 L2 L3.
  destruct (covered_ex d1 i) as (e1 & He1 & N1 & V1); auto.
  destruct (covered_ex d2 j) as (e2 & He2 & N2 & V2); auto.
  destruct (covered_ex d3 k) as (e3 & He3 & N3 & V3); auto.
  split; [|split].
  - destruct (str_mnpc1 d1 O1) as [_ M]. destruct (M e1 He1) as (row & E & _ & R).
    destruct (R N1) as (_ & _ & I). exists row. split; [eapply znth_In; eauto|].
    apply I. auto.
  - destruct (str_mnpc2 d1 d2 O1 O2) as [_ M].
    destruct (M e1 e2 He1 He2) as (row & E & _ & R).
    destruct (R N1 N2) as (_ & _ & I & _). exists row. split; [eapply znth_In; eauto|].
    apply I. eauto.
  - destruct (str_mnpc3 d1 d2 d3 O1 O2 O3) as [_ M].
    destruct (M e1 e2 e3 He1 He2 He3) as (row & E & _ & R).
    destruct (R N1 N2 N3) as (_ & _ & I & _). exists row. split; [eapply znth_In; eauto|].
    apply I. exists i, j, k. auto.
Qed.
Print Assumptions str_mnpc_cover.

(** Numbering of a new 2D patch: nodes are numbered consecutively in grid order
    after the last node so far, the index table gives the grid position back,
    the elements of non-zero area are numbered consecutively after the last
    element so far and in order, the others get number 0 and no nodes. *)
Theorem str_topology2 : forall d1 d2 gEl gNod t mn,
  0 <= gEl -> dir_ok d1 -> dir_ok d2 ->
  generateFEMTopology2 d1 d2 gEl gNod = Some (t, mn) ->
  t_gNod t = gNod + ncf d1 * ncf d2 /\
  zlen (t_mlgn t) = ncf d1 * ncf d2 /\ zlen (t_ind t) = ncf d1 * ncf d2 /\
  (forall i j, 0 <= i < ncf d1 -> 0 <= j < ncf d2 ->
     znth (t_mlgn t) (node2 (ncf d1) i j) = Some (gNod + 1 + node2 (ncf d1) i j) /\
     znth (t_ind t) (node2 (ncf d1) i j) = Some (i, j, 0)) /\
  zlen (t_mlge t) = nspan d1 * nspan d2 /\ zlen mn = nspan d1 * nspan d2 /\
  filter (fun x => 0 <? x) (t_mlge t) = zrange (gEl + 1) (t_gEl t - gEl) /\
  gEl <= t_gEl t /\
  (forall e1 e2, 0 <= e1 < nspan d1 -> 0 <= e2 < nspan d2 ->
     exists x row, znth (t_mlge t) (node2 (nspan d1) e1 e2) = Some x /\
       znth mn (node2 (nspan d1) e1 e2) = Some row /\
       (nonzero d1 e1 /\ nonzero d2 e2 -> 0 < x /\ row <> []) /\
       (~ (nonzero d1 e1 /\ nonzero d2 e2) -> x = 0 /\ row = [])).
Proof.
  intros d1 d2 gEl gNod t mn Hg O1 O2 E.
  pose proof O1 as [Hp1 _]. pose proof O2 as [Hp2 _].
  destruct (topo2_ok _ _ _ _ _ _ Hg O1 O2 E) as (Hn1 & Hn2 & -> & I & G & N & M).
  symmetry in M. apply number_filter in M; auto. destruct M as (M1 & M2 & M3 & M4).
  assert (S1 : 0 <= nspan d1) by (unfold nspan; lia).
  assert (S2 : 0 <= nspan d2) by (unfold nspan; lia).
  assert (LM : zlen (t_mlge t) = nspan d1 * nspan d2).
  { unfold zlen. rewrite M3.
    pose proof (zlen_grid2 (nspan d1) (nspan d2) (fun e1 e2 => bpos d1 e1 && bpos d2 e2) S1 S2).
    unfold zlen in *. auto. }
  destruct (str_mnpc2 d1 d2 O1 O2) as [LN MN].
  split; auto. split; [rewrite N; apply zlen_zrange; nia|].
  split; [rewrite I; apply zlen_grid2; lia|]. split.
  { intros. rewrite N, I. split; [|rewrite znth_grid2 by auto; reflexivity].
    rewrite znth_zrange; [f_equal; lia|]. unfold node2. nia. }
  do 4 (split; auto).
  intros e1 e2 He1 He2. destruct (MN e1 e2 He1 He2) as (row & R1 & R2 & R3).
  pose proof (znth_grid2 (nspan d1) (nspan d2) (fun e1 e2 => bpos d1 e1 && bpos d2 e2)
                e1 e2 He1 He2) as B.
  unfold znth in B. destruct (Z.ltb_spec (node2 (nspan d1) e1 e2) 0); [discriminate|].
  destruct (M4 _ _ B) as (x & X1 & X2). exists x, row.
  split. { unfold znth. destruct (Z.ltb_spec (node2 (nspan d1) e1 e2) 0); [lia|auto]. }
  split; auto.
  unfold bpos, nonzero in *.
  destruct (Z.ltb_spec (span_lo d1 e1) (span_hi d1 e1));
  destruct (Z.ltb_spec (span_lo d2 e2) (span_hi d2 e2)); cbn [andb] in X2;
    (split; [intros [A1 A2]; try lia | intros A; try (exfalso; tauto); auto]).
  split; auto. destruct (R3 A1 A2) as (L & _). intros ->. unfold zlen in L. simpl in L. nia.
Qed.
Print Assumptions str_topology2.

Theorem str_topology3 : forall d1 d2 d3 gEl gNod t mn,
  0 <= gEl -> dir_ok d1 -> dir_ok d2 -> dir_ok d3 ->
  generateFEMTopology3 d1 d2 d3 gEl gNod = Some (t, mn) ->
  t_gNod t = gNod + ncf d1 * ncf d2 * ncf d3 /\
  zlen (t_mlgn t) = ncf d1 * ncf d2 * ncf d3 /\
  zlen (t_ind t) = ncf d1 * ncf d2 * ncf d3 /\
  (forall i j k, 0 <= i < ncf d1 -> 0 <= j < ncf d2 -> 0 <= k < ncf d3 ->
     znth (t_mlgn t) (node3 (ncf d1) (ncf d2) i j k)
       = Some (gNod + 1 + node3 (ncf d1) (ncf d2) i j k) /\
     znth (t_ind t) (node3 (ncf d1) (ncf d2) i j k) = Some (i, j, k)) /\
  zlen (t_mlge t) = nspan d1 * nspan d2 * nspan d3 /\
  zlen mn = nspan d1 * nspan d2 * nspan d3 /\
  filter (fun x => 0 <? x) (t_mlge t) = zrange (gEl + 1) (t_gEl t - gEl) /\
  gEl <= t_gEl t /\
  (forall e1 e2 e3, 0 <= e1 < nspan d1 -> 0 <= e2 < nspan d2 -> 0 <= e3 < nspan d3 ->
     exists x row, znth (t_mlge t) (node3 (nspan d1) (nspan d2) e1 e2 e3) = Some x /\
       znth mn (node3 (nspan d1) (nspan d2) e1 e2 e3) = Some row /\
       (nonzero d1 e1 /\ nonzero d2 e2 /\ nonzero d3 e3 -> 0 < x /\ row <> []) /\
       (~ (nonzero d1 e1 /\ nonzero d2 e2 /\ nonzero d3 e3) -> x = 0 /\ row = [])).
Proof.
  intros d1 d2 d3 gEl gNod t mn Hg O1 O2 O3 E.
  pose proof O1 as [Hp1 _]. pose proof O2 as [Hp2 _]. pose proof O3 as [Hp3 _].
  destruct (topo3_ok _ _ _ _ _ _ _ Hg O1 O2 O3 E) as (Hn1 & Hn2 & Hn3 & -> & I & G & N & M).
  symmetry in M. apply number_filter in M; auto. destruct M as (M1 & M2 & M3 & M4).
  assert (S1 : 0 <= nspan d1) by (unfold nspan; lia).
  assert (S2 : 0 <= nspan d2) by (unfold nspan; lia).
  assert (S3 : 0 <= nspan d3) by (unfold nspan; lia).
  assert (LM : zlen (t_mlge t) = nspan d1 * nspan d2 * nspan d3).
  { unfold zlen. rewrite M3.
    pose proof (zlen_grid3 (nspan d1) (nspan d2) (nspan d3)
       (fun e1 e2 e3 => bpos d1 e1 && bpos d2 e2 && bpos d3 e3) S1 S2 S3).
    unfold zlen in *. auto. }
  destruct (str_mnpc3 d1 d2 d3 O1 O2 O3) as [LN MN].
  split; auto. split; [rewrite N; apply zlen_zrange; nia|].
  split; [rewrite I; apply zlen_grid3; lia|]. split.
  { intros. rewrite N, I. split; [|rewrite znth_grid3 by auto; reflexivity].
    rewrite znth_zrange; [f_equal; lia|]. unfold node3.
    assert (0 <= j + ncf d2 * k < ncf d2 * ncf d3) by nia. nia. }
  do 4 (split; auto).
  intros e1 e2 e3 He1 He2 He3. destruct (MN e1 e2 e3 He1 He2 He3) as (row & R1 & R2 & R3).
  pose proof (znth_grid3 (nspan d1) (nspan d2) (nspan d3)
       (fun e1 e2 e3 => bpos d1 e1 && bpos d2 e2 && bpos d3 e3) e1 e2 e3 He1 He2 He3) as B.
  unfold znth in B.
  destruct (Z.ltb_spec (node3 (nspan d1) (nspan d2) e1 e2 e3) 0); [discriminate|].
  destruct (M4 _ _ B) as (x & X1 & X2). exists x, row.
  split. { unfold znth. destruct (Z.ltb_spec (node3 (nspan d1) (nspan d2) e1 e2 e3) 0); [lia|auto]. }
  split; auto.
  unfold bpos, nonzero in *.
  destruct (Z.ltb_spec (span_lo d1 e1) (span_hi d1 e1));
  destruct (Z.ltb_spec (span_lo d2 e2) (span_hi d2 e2));
  destruct (Z.ltb_spec (span_lo d3 e3) (span_hi d3 e3)); cbn [andb] in X2;
    (split; [intros (A1 & A2 & A3); try lia | intros A; try (exfalso; tauto); auto]).
  split; auto. destruct (R3 A1 A2 A3) as (L & _). intros ->. unfold zlen in L. simpl in L. nia.
Qed.
Print Assumptions str_topology3.

(** Lagrange patches: element (e1,e2) has the p1 x p2 nodes of its block, in
    grid order; neighbouring blocks share their common line of nodes; if the
    number of nodes fits the polynomial order every node is in some element. *)
Theorem str_lag2 : forall nx ny p1 p2, 1 <= nx -> 1 <= ny -> 2 <= p1 -> 2 <= p2 ->
  let n1 := (nx - 1) / (p1 - 1) in let n2 := (ny - 1) / (p2 - 1) in
  zlen (createMNPC2Lag nx ny p1 p2) = n1 * n2 /\
  (forall e1 e2, 0 <= e1 < n1 -> 0 <= e2 < n2 ->
   exists row, znth (createMNPC2Lag nx ny p1 p2) (node2 n1 e1 e2) = Some row /\
     zlen row = p1 * p2 /\ StronglySorted Z.lt row /\
     (forall x, In x row <->
        exists i j, (p1 - 1) * e1 <= i <= (p1 - 1) * (e1 + 1) /\
                    (p2 - 1) * e2 <= j <= (p2 - 1) * (e2 + 1) /\
                    0 <= i < nx /\ 0 <= j < ny /\ x = node2 nx i j) /\
     (forall a b, 0 <= a < p1 -> 0 <= b < p2 ->
        znth row (node2 p1 a b)
        = Some (node2 nx ((p1 - 1) * e1 + a) ((p2 - 1) * e2 + b)))) /\
  (2 <= nx -> 2 <= ny -> (nx - 1) mod (p1 - 1) = 0 -> (ny - 1) mod (p2 - 1) = 0 ->
   forall i j, 0 <= i < nx -> 0 <= j < ny ->
   exists row, In row (createMNPC2Lag nx ny p1 p2) /\ In (node2 nx i j) row).
Proof.
  intros nx ny p1 p2 Hx Hy Hp1 Hp2 n1 n2.
  assert (H1 : 0 <= n1) by (apply Z.div_pos; lia).
  assert (H2 : 0 <= n2) by (apply Z.div_pos; lia).
  assert (B1 : (p1 - 1) * n1 <= nx - 1) by (apply Z.mul_div_le; lia).
  assert (B2 : (p2 - 1) * n2 <= ny - 1) by (apply Z.mul_div_le; lia).
  rewrite createMNPC2Lag_grid by lia. fold n1 n2.
  split. { rewrite zlen_grid2; lia. }
  assert (RW : forall e1 e2, 0 <= e1 < n1 -> 0 <= e2 < n2 ->
     forall x, In x (grid2 p1 p2 (fun a b => node2 nx ((p1 - 1) * e1 + a) ((p2 - 1) * e2 + b)))
      <-> exists i j, (p1 - 1) * e1 <= i <= (p1 - 1) * (e1 + 1) /\
                    (p2 - 1) * e2 <= j <= (p2 - 1) * (e2 + 1) /\
                    0 <= i < nx /\ 0 <= j < ny /\ x = node2 nx i j).
  { intros e1 e2 He1 He2 x. rewrite In_grid2. split.
    - intros (a & b & Ha & Hb & ->).
      exists ((p1 - 1) * e1 + a), ((p2 - 1) * e2 + b). repeat split; nia.
    - intros (i & j & Hi & Hj & _ & _ & ->).
      exists (i - (p1 - 1) * e1), (j - (p2 - 1) * e2).
      repeat split; try lia. f_equal; lia. }
  split.
  - intros e1 e2 He1 He2. rewrite znth_grid2 by lia. eexists; split; [reflexivity|].
    split; [rewrite zlen_grid2; lia|]. split; [|split].
    + apply sorted_grid2; try lia. intros i j i' j' Hi Hi' Hj Hj' Hlt. unfold node2.
      assert (0 <= (p1 - 1) * e1 + i < nx) by nia.
      assert (0 <= (p1 - 1) * e1 + i' < nx) by nia.
      destruct Hlt as [Hlt|[-> Hlt]]; nia.
    + apply RW; auto.
    + intros. rewrite znth_grid2 by lia. auto.
  - intros Nx Ny D1 D2 i j Hi Hj.
    assert (E1 : nx - 1 = (p1 - 1) * n1) by (pose proof (Z.div_mod (nx - 1) (p1 - 1)); lia).
    assert (E2 : ny - 1 = (p2 - 1) * n2) by (pose proof (Z.div_mod (ny - 1) (p2 - 1)); lia).
    assert (P : forall p n m i, 2 <= p -> 0 <= n -> 2 <= m -> m - 1 = (p - 1) * n -> 0 <= i < m ->
       exists e, 0 <= e < n /\ (p - 1) * e <= i <= (p - 1) * (e + 1)).
    { intros p n m x Hp Hn Hm E Hxx. destruct (Z.eq_dec x (m - 1)).
      - exists (n - 1). nia.
      - exists (x / (p - 1)). pose proof (Z.div_mod x (p - 1)).
        pose proof (Z.mod_pos_bound x (p - 1)).
        split; [split; [apply Z.div_pos; lia | apply Z.div_lt_upper_bound; lia]|]. nia. }
    destruct (P p1 n1 nx i) as (e1 & He1 & F1); auto.
    destruct (P p2 n2 ny j) as (e2 & He2 & F2); auto.
    eexists. split.
    + apply In_grid2. exists e1, e2. split; auto.
    + apply RW; auto. exists i, j. auto.
Qed.
Print Assumptions str_lag2.

Theorem str_lag3 : forall nx ny nz p1 p2 p3,
  1 <= nx -> 1 <= ny -> 1 <= nz -> 2 <= p1 -> 2 <= p2 -> 2 <= p3 ->
  let n1 := (nx - 1) / (p1 - 1) in let n2 := (ny - 1) / (p2 - 1) in
  let n3 := (nz - 1) / (p3 - 1) in
  zlen (createMNPC3Lag nx ny nz p1 p2 p3) = n1 * n2 * n3 /\
  (forall e1 e2 e3, 0 <= e1 < n1 -> 0 <= e2 < n2 -> 0 <= e3 < n3 ->
   exists row, znth (createMNPC3Lag nx ny nz p1 p2 p3) (node3 n1 n2 e1 e2 e3) = Some row /\
     zlen row = p1 * p2 * p3 /\ StronglySorted Z.lt row /\
     (forall x, In x row <->
        exists i j k, (p1 - 1) * e1 <= i <= (p1 - 1) * (e1 + 1) /\
                    (p2 - 1) * e2 <= j <= (p2 - 1) * (e2 + 1) /\
                    (p3 - 1) * e3 <= k <= (p3 - 1) * (e3 + 1) /\
                    0 <= i < nx /\ 0 <= j < ny /\ 0 <= k < nz /\ x = node3 nx ny i j k) /\
     (forall a b c, 0 <= a < p1 -> 0 <= b < p2 -> 0 <= c < p3 ->
        znth row (node3 p1 p2 a b c)
        = Some (node3 nx ny ((p1 - 1) * e1 + a) ((p2 - 1) * e2 + b) ((p3 - 1) * e3 + c)))).
Proof.
  intros nx ny nz p1 p2 p3 Hx Hy Hz Hp1 Hp2 Hp3 n1 n2 n3.
  assert (H1 : 0 <= n1) by (apply Z.div_pos; lia).
  assert (H2 : 0 <= n2) by (apply Z.div_pos; lia).
  assert (H3 : 0 <= n3) by (apply Z.div_pos; lia).
  assert (B1 : (p1 - 1) * n1 <= nx - 1) by (apply Z.mul_div_le; lia).
  assert (B2 : (p2 - 1) * n2 <= ny - 1) by (apply Z.mul_div_le; lia).
  assert (B3 : (p3 - 1) * n3 <= nz - 1) by (apply Z.mul_div_le; lia).
  rewrite createMNPC3Lag_grid by lia. fold n1 n2 n3.
  split. { rewrite zlen_grid3; lia. }
  intros e1 e2 e3 He1 He2 He3. rewrite znth_grid3 by lia. eexists; split; [reflexivity|].
  split; [rewrite zlen_grid3; lia|].
  assert (R1 : forall a, 0 <= a < p1 -> 0 <= (p1 - 1) * e1 + a < nx) by (intros; nia).
  assert (R2 : forall a, 0 <= a < p2 -> 0 <= (p2 - 1) * e2 + a < ny) by (intros; nia).
  assert (R3 : forall a, 0 <= a < p3 -> 0 <= (p3 - 1) * e3 + a < nz) by (intros; nia).
  split; [|split].
  - apply sorted_grid3; try lia. intros i j k i' j' k' Hi Hi' Hj Hj' Hk Hk' Hlt.
    unfold node3.
    pose proof (R1 i Hi). pose proof (R1 i' Hi'). pose proof (R2 j Hj). pose proof (R2 j' Hj').
    destruct Hlt as [Hlt|[-> [Hlt|[-> Hlt]]]].
    + assert ((p2 - 1) * e2 + j + ny * ((p3 - 1) * e3 + k) + 1
              <= (p2 - 1) * e2 + j' + ny * ((p3 - 1) * e3 + k')) by nia. nia.
    + nia.
    + nia.
  - intros x. rewrite In_grid3. split.
    + intros (a & b & c & Ha & Hb & Hc & ->).
      exists ((p1 - 1) * e1 + a), ((p2 - 1) * e2 + b), ((p3 - 1) * e3 + c).
      pose proof (R1 a Ha). pose proof (R2 b Hb). pose proof (R3 c Hc).
      repeat split; lia.
    + intros (i & j & k & Hi & Hj & Hk & _ & _ & _ & ->).
      exists (i - (p1 - 1) * e1), (j - (p2 - 1) * e2), (k - (p3 - 1) * e3).
      repeat split; try lia. f_equal; lia.
  - intros. rewrite znth_grid3 by lia. auto.
Qed.
Print Assumptions str_lag3.

(* ---- the hypotheses are met by a quadratic patch with a repeated knot ---- *)

(** Knots 0 0 0 1 1 2 2 2: order 3, 5 coefficients, middle span empty. *)
Definition ex_dir : sdir :=
  mkDir 5 3 (fun i => nth (Z.to_nat i) [0;0;0;1;1;2;2;2] 2).
Example ex_dir_ok : dir_ok ex_dir /\ clamped ex_dir.
Proof.
  split; [|split; reflexivity]. split; [cbn; lia|].
  intros a b Hab Hb. cbn [ex_dir ncf ord] in Hb.
  assert (Ha : a = 0 \/ a = 1 \/ a = 2 \/ a = 3 \/ a = 4 \/ a = 5 \/ a = 6 \/ a = 7) by lia.
  assert (Hb' : b = 0 \/ b = 1 \/ b = 2 \/ b = 3 \/ b = 4 \/ b = 5 \/ b = 6 \/ b = 7) by lia.
  repeat destruct Ha as [-> |Ha]; try (subst a);
  repeat destruct Hb' as [-> |Hb']; try (subst b);
    try (exfalso; lia); apply Z.leb_le; reflexivity.
Qed.
Example ex_mnpc : createMNPC1 ex_dir = [[0;1;2];[];[2;3;4]].
Proof. reflexivity. Qed.
Example ex_topo : exists t mn,
  generateFEMTopology2 ex_dir ex_dir 10 100 = Some (t, mn) /\
  t_mlge t = [11;0;12;0;0;0;13;0;14] /\ t_gEl t = 14 /\ t_gNod t = 125 /\
  nth 8 mn [] = [12;13;14;17;18;19;22;23;24].
Proof. eexists _, _. split; [reflexivity|]. repeat split. Qed.
Example ex_topo3 : exists t mn,
  generateFEMTopology3 ex_dir ex_dir ex_dir 10 100 = Some (t, mn) /\
  t_gEl t = 18 /\ t_gNod t = 225 /\ nth 26 (t_mlge t) 0 = 18 /\ nth 25 (t_mlge t) 5 = 0.
Proof. eexists _, _. split; [reflexivity|]. repeat split. Qed.
Example ex_lag : nth 3 (createMNPC2Lag 5 5 3 3) []
  = [12;13;14;17;18;19;22;23;24].
Proof. reflexivity. Qed.
