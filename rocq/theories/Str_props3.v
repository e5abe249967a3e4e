(** C82: connection of structured patches. *)
From Coq Require Import ZArith List Bool Lia Sorting.Sorted.
From Verif Require Import Str_model Str_spec Str_proofs Str_proofs2 Str_props Str_props2.
Import ListNotations.
Local Open Scope Z_scope.

(** Outcome of a connection over a given list of node pairs that stops at the
    first pair with different coordinates. *)
Lemma collapse_stop_spec check eqc l :
  let res := collapse_stop check eqc l in
  (fst res = true <-> (check = false \/ Forall (fun ms => eqc (fst ms) (snd ms) = true) l)) /\
  (fst res = true -> snd res = l) /\
  (fst res = false -> exists k, (k < length l)%nat /\ snd res = firstn k l /\
     forall m s, nth_error l k = Some (m, s) -> eqc m s = false).
Proof.
  intros res. split; [|split].
  - split.
    + intros H. unfold res in H. destruct (collapse_stop check eqc l) as [ok r] eqn:E.
      cbn in H. subst ok. apply collapse_stop_true in E. destruct check; [right|left]; tauto.
    + intros H. unfold res. rewrite collapse_stop_ok; auto.
  - intros H. unfold res in *. destruct (collapse_stop check eqc l) as [ok r] eqn:E.
    cbn in *. subst ok. apply collapse_stop_true in E. tauto.
  - unfold res. clear res. induction l as [|[m s] l IH]; cbn [collapse_stop]; [discriminate|].
    destruct (negb check || eqc m s) eqn:C.
    + destruct (collapse_stop check eqc l) as [ok r]. cbn [fst snd] in *. intros ->.
      destruct (IH eq_refl) as (k & Hk & -> & HE). exists (S k). cbn [length firstn nth_error].
      split; [lia|]. split; auto.
    + intros _. exists 0%nat. cbn [length firstn nth_error]. split; [lia|]. split; auto.
      intros m' s' E. injection E as <- <-. apply orb_false_elim in C. tauto.
Qed.

(** Curves: the end nodes of the two curves, layer by layer. *)
Theorem str_connect1 : forall m n vertex nvertex thick eqc,
  1 <= thick <= m -> thick <= n ->
  let pos v k t := (if v =? 1 then t else k - thick + t) in
  exists pairs, zlen pairs = thick /\
    (forall t, 0 <= t < thick ->
       znth pairs t = Some (1 + pos nvertex n t, 1 + pos vertex m t)) /\
    let res := connectPatch1 m n vertex nvertex thick eqc in
    (fst res = true <-> Forall (fun ms => eqc (fst ms) (snd ms) = true) pairs) /\
    (fst res = true -> snd res = pairs) /\
    (fst res = false -> exists k, (k < length pairs)%nat /\ snd res = firstn k pairs).
Proof.
  intros m n vertex nvertex thick eqc Hm Hn pos. unfold connectPatch1. cbv zeta.
  eexists. split; [|split; [|]].
  3: { destruct (collapse_stop_spec true eqc
         (map (fun i => ((if nvertex =? 1 then 1 else 1 + n - thick) + i,
                         (if vertex =? 1 then 1 else 1 + m - thick) + i)) (zrange 0 thick)))
         as (A & B & C).
       split; [|split; [exact B|]].
       - rewrite A. intuition discriminate.
       - intros H. destruct (C H) as (k & K1 & K2 & _). exists k. auto. }
  - rewrite zlen_map, zlen_zrange; lia.
  - intros t Ht. rewrite znth_map, znth_zrange by lia. cbn [option_map]. unfold pos.
    destruct (nvertex =? 1), (vertex =? 1); do 2 f_equal; lia.
Qed.
Print Assumptions str_connect1.

Lemma rev_znth {A} (l : list A) k : 0 <= k < zlen l -> znth (rev l) k = znth l (zlen l - 1 - k).
Proof.
  intros H. unfold zlen in *. destruct l as [|d l0] eqn:El; [cbn in H; lia|]. rewrite <- El in *.
  assert (H1 : 0 <= k < zlen (rev l)) by (unfold zlen; rewrite rev_length; lia).
  assert (H2 : 0 <= Z.of_nat (length l) - 1 - k < zlen l) by (unfold zlen; lia).
  rewrite (znth_nth (rev l) k d H1), (znth_nth l _ d H2). f_equal.
  rewrite rev_nth by lia. f_equal. lia.
Qed.

(** Edges of right-handed surfaces.  Without reversal position q of the
    neighbour's edge meets position q of this edge, layer by layer; with
    reversal position q meets the position counted from the other end, and the
    layers are taken in opposite order.  The connection is refused when the
    numbers of nodes differ; it stops at the first pair that does not match,
    leaving the pairs before it connected. *)
Theorem str_connect2 : forall me nb m1 m2 n1 n2 edge nedge revers b slave master check eqc thick,
  nth_error (sz2 me) (b - 1) = Some (m1, m2) -> 1 <= m1 -> 1 <= m2 ->
  nth_error (sz2 nb) (b - 1) = Some (n1, n2) -> 1 <= n1 -> 1 <= n2 ->
  1 <= edge <= 4 -> 1 <= nedge <= 4 ->
  1 <= thick <= across2 m1 m2 edge -> thick <= across2 n1 n2 nedge ->
  let res := connectBasis2 me nb edge nedge revers b slave master check eqc thick in
  let A := along2 m1 m2 edge in
  (along2 n1 n2 nedge <> A -> res = (false, [])) /\
  (along2 n1 n2 nedge = A ->
   exists pairs, zlen pairs = A * thick /\
    NoDup (map fst pairs) /\ NoDup (map snd pairs) /\
    (forall q t, 0 <= q < A -> 0 <= t < thick ->
       let '(i, j) := edge_pos n1 n2 thick nedge q t in
       let '(i', j') := edge_pos m1 m2 thick edge (if revers then A - 1 - q else q)
                                 (if revers then thick - 1 - t else t) in
       znth pairs (q * thick + t)
       = Some (master + 1 + node2 n1 i j, slave + 1 + node2 m1 i' j')) /\
    (fst res = true <->
       (check = false \/ Forall (fun ms => eqc (fst ms) (snd ms) = true) pairs)) /\
    (fst res = true -> snd res = pairs) /\
    (fst res = false -> exists k, (k < length pairs)%nat /\ snd res = firstn k pairs)).
Proof.
  intros me nb m1 m2 n1 n2 edge nedge revers b slave master check eqc thick
    Hm Hm1 Hm2 Hn Hn1 Hn2 He Hne Ht Htn res A.
  destruct (str_bnodes2 me b m1 m2 edge thick true Hm Hm1 Hm2 He Ht) as (LS & PS & _ & NS).
  destruct (str_bnodes2 nb b n1 n2 nedge thick true Hn Hn1 Hn2 Hne ltac:(lia)) as (LM & PM & _ & NM).
  specialize (NS eq_refl). specialize (NM eq_refl).
  set (S0 := getBoundaryNodes2 me edge b thick true) in *.
  set (M0 := getBoundaryNodes2 nb nedge b thick true) in *.
  assert (HA : 1 <= A) by (unfold A, along2; destruct (edge <=? 2); lia).
  assert (HB : 1 <= along2 n1 n2 nedge) by (unfold along2; destruct (nedge <=? 2); lia).
  unfold res, connectBasis2. fold S0 M0. cbv zeta. rewrite !map_length.
  unfold zlen in LS, LM. fold A in LS.
  split.
  - intros HX.
    assert (E : Nat.eqb (length M0) 0 || negb (Nat.eqb (length M0) (length S0)) = true).
    { apply orb_true_intro. right. apply negb_true_iff. apply Nat.eqb_neq. intros E.
      apply HX. nia. }
    rewrite E. auto.
  - intros HX. rewrite HX in LM.
    assert (EL : length M0 = length S0) by nia.
    assert (E : Nat.eqb (length M0) 0 || negb (Nat.eqb (length M0) (length S0)) = false).
    { apply orb_false_intro; [apply Nat.eqb_neq; nia|].
      apply negb_false_iff. apply Nat.eqb_eq. auto. }
    rewrite E.
    set (M := map (fun x => x + master) M0). set (S1 := map (fun x => x + slave) S0).
    set (pairs := map (fun i => (nth i M 0, nth (if revers then (length S0 - i - 1)%nat else i) S1 0))
                      (seq 0 (length M0))).
    assert (LMM : length M = length M0) by (unfold M; apply map_length).
    assert (LSS : length S1 = length S0) by (unfold S1; apply map_length).
    assert (F1 : map fst pairs = M).
    { unfold pairs. rewrite map_map. cbn [fst]. rewrite <- LMM. clear.
      induction M as [|x M IH]; auto. cbn [length seq map nth]. f_equal.
      rewrite <- seq_shift, map_map. auto. }
    assert (F2 : map snd pairs = if revers then rev S1 else S1).
    { unfold pairs. rewrite map_map. cbn [snd]. rewrite EL, <- LSS. clear.
      destruct revers.
      - apply nth_ext with (d := 0) (d' := 0).
        + rewrite map_length, seq_length, rev_length. auto.
        + intros k Hk. rewrite map_length, seq_length in Hk.
          rewrite rev_nth by auto.
          rewrite (nth_indep _ 0 ((fun x => nth (length S1 - x - 1) S1 0) 0%nat))
            by (rewrite map_length, seq_length; auto).
          rewrite (map_nth (fun x => nth (length S1 - x - 1) S1 0)).
          rewrite seq_nth by auto. cbn [Nat.add]. f_equal. lia.
      - induction S1 as [|x S1 IH]; auto. cbn [length seq map nth]. f_equal.
        rewrite <- seq_shift, map_map. auto. }
    assert (INJ : forall c l, NoDup l -> NoDup (map (fun x => x + c) l : list Z)).
    { intros c l HND. induction HND; cbn [map]; constructor; auto.
      rewrite in_map_iff. intros (y & Ey & Hy). assert (y = x) by lia. subst. auto. }
    exists pairs.
    assert (LP : zlen pairs = A * thick).
    { unfold zlen, pairs. rewrite map_length, seq_length. lia. }
    split; [exact LP|]. split; [|split; [|split]].
    + rewrite F1. apply INJ; auto.
    + rewrite F2. destruct revers; [apply NoDup_rev|]; apply INJ; auto.
    + intros q t Hq Hqt. rewrite <- HX in Hq.
      specialize (PM q t Hq Hqt). rewrite HX in Hq.
      set (q' := if revers then A - 1 - q else q).
      set (t' := if revers then thick - 1 - t else t).
      assert (Hq' : 0 <= q' < A) by (unfold q'; destruct revers; lia).
      assert (Ht' : 0 <= t' < thick) by (unfold t'; destruct revers; lia).
      specialize (PS q' t' Hq' Ht').
      destruct (edge_pos n1 n2 thick nedge q t) as [i j].
      destruct (edge_pos m1 m2 thick edge q' t') as [i' j'].
      destruct PM as (_ & _ & PM). destruct PS as (_ & _ & PS).
      unfold report in PM, PS.
      assert (K : 0 <= q * thick + t < zlen pairs) by (rewrite LP; nia).
      destruct (znth_ex pairs (q * thick + t) K) as [[x y] EX]. rewrite EX.
      assert (X1 : znth (map fst pairs) (q * thick + t) = Some x)
        by (rewrite znth_map, EX; auto).
      assert (X2 : znth (map snd pairs) (q * thick + t) = Some y)
        by (rewrite znth_map, EX; auto).
      rewrite F1 in X1. unfold M in X1. rewrite znth_map, PM in X1. cbn [option_map] in X1.
      rewrite F2 in X2.
      assert (X3 : znth S1 (q' * thick + t') = Some y).
      { destruct revers; auto. rewrite rev_znth in X2.
        - rewrite <- X2. f_equal. unfold zlen. rewrite LSS, LS. unfold q', t'. nia.
        - unfold zlen. rewrite LSS, LS. nia. }
      unfold S1 in X3. rewrite znth_map, PS in X3. cbn [option_map] in X3.
      assert (x = 1 + node2 n1 i j + master) by congruence.
      assert (y = 1 + node2 m1 i' j' + slave) by congruence.
      subst x y. f_equal. f_equal; ring.
    + destruct (collapse_stop_spec check eqc pairs) as (C1 & C2 & C3).
      split; [exact C1|]. split; [exact C2|].
      intros HF. destruct (C3 HF) as (k & K1 & K2 & _). exists k. auto.
Qed.
Print Assumptions str_connect2.

(** Faces.  The orientation flag of the documentation is a bijection of the two
    faces. *)
Theorem str_orient_bij : forall norient m1 m2 k l,
  0 <= norient <= 7 -> 0 <= k < m1 -> 0 <= l < m2 ->
  let '(a1, a2) := if Z.testbit norient 2 then (m2, m1) else (m1, m2) in
  exists q r, 0 <= q < a1 /\ 0 <= r < a2 /\ orient_spec norient m1 m2 q r = (k, l) /\
    forall q' r', orient_spec norient m1 m2 q' r' = (k, l) -> q' = q /\ r' = r.
Proof.
  intros norient m1 m2 k l Ho Hk Hl. unfold orient_spec.
  destruct (Z.testbit norient 2), (Z.testbit norient 1), (Z.testbit norient 0).
  - exists (m2 - 1 - l), (m1 - 1 - k). split; [lia|]. split; [lia|].
    split; [f_equal; lia|]. intros q' r' E. injection E as E1 E2. lia.
  - exists l, (m1 - 1 - k). split; [lia|]. split; [lia|].
    split; [f_equal; lia|]. intros q' r' E. injection E as E1 E2. lia.
  - exists (m2 - 1 - l), k. split; [lia|]. split; [lia|].
    split; [f_equal; lia|]. intros q' r' E. injection E as E1 E2. lia.
  - exists l, k. split; [lia|]. split; [lia|].
    split; [f_equal; lia|]. intros q' r' E. injection E as E1 E2. lia.
  - exists (m1 - 1 - k), (m2 - 1 - l). split; [lia|]. split; [lia|].
    split; [f_equal; lia|]. intros q' r' E. injection E as E1 E2. lia.
  - exists (m1 - 1 - k), l. split; [lia|]. split; [lia|].
    split; [f_equal; lia|]. intros q' r' E. injection E as E1 E2. lia.
  - exists k, (m2 - 1 - l). split; [lia|]. split; [lia|].
    split; [f_equal; lia|]. intros q' r' E. injection E as E1 E2. lia.
  - exists k, l. split; [lia|]. split; [lia|].
    split; [f_equal; lia|]. intros q' r' E. injection E as E1 E2. lia.
Qed.
Print Assumptions str_orient_bij.

Theorem str_connect3 : forall me nb m1 m2 m3 n1 n2 n3 face nface norient b slave master
                              check eqc thick,
  nth_error (sz3 me) (b - 1) = Some (m1, m2, m3) ->
  Forall (fun s => 0 <= fst (fst s) /\ 0 <= snd (fst s) /\ 0 <= snd s) (sz3 me) ->
  1 <= m1 -> 1 <= m2 -> 1 <= m3 -> swapW me = false ->
  nth_error (sz3 nb) (b - 1) = Some (n1, n2, n3) ->
  Forall (fun s => 0 <= fst (fst s) /\ 0 <= snd (fst s) /\ 0 <= snd s) (sz3 nb) ->
  1 <= n1 -> 1 <= n2 -> 1 <= n3 -> swapW nb = false ->
  1 <= face <= 6 -> 1 <= nface <= 6 ->
  1 <= thick <= across3 m1 m2 m3 face -> thick <= across3 n1 n2 n3 nface ->
  let res := connectBasis3 me nb face nface norient b slave master check eqc thick in
  let '(M1, M2) := along3 m1 m2 m3 face in
  let '(A1, A2) := along3 n1 n2 n3 nface in
  let fits := (if Z.testbit norient 2 then (A2, A1) else (A1, A2)) = (M1, M2) in
  (~ (0 <= norient <= 7) -> res = (false, [])) /\
  (~ fits -> res = (false, [])) /\
  (0 <= norient <= 7 -> fits ->
   exists pairs, zlen pairs = A1 * A2 * thick /\
    (forall q r t, 0 <= q < A1 -> 0 <= r < A2 -> 0 <= t < thick ->
       let '(k, l) := orient_spec norient M1 M2 q r in
       0 <= k < M1 /\ 0 <= l < M2 /\
       let '(x, y, z) := face_pos n1 n2 n3 thick nface q r t in
       let '(x', y', z') := face_pos m1 m2 m3 thick face k l t in
       znth pairs ((r * A1 + q) * thick + t)
       = Some (master + 1 + node3 n1 n2 x y z, slave + 1 + node3 m1 m2 x' y' z')) /\
    snd res = filter (fun ms => negb check || eqc (fst ms) (snd ms)) pairs /\
    (fst res = true <->
       (check = false \/ Forall (fun ms => eqc (fst ms) (snd ms) = true) pairs))).
Proof.
  intros me nb m1 m2 m3 n1 n2 n3 face nface norient b slave master check eqc thick
    Hm HFm Hm1 Hm2 Hm3 Sm Hn HFn Hn1 Hn2 Hn3 Sn He Hne Ht Htn res.
  pose proof (str_bnodes3 me b m1 m2 m3 face thick true Hm HFm Hm1 Hm2 Hm3 He Ht) as BS.
  pose proof (str_bnodes3 nb b n1 n2 n3 nface thick true Hn HFn Hn1 Hn2 Hn3 Hne ltac:(lia)) as BM.
  cbv zeta in BS, BM. rewrite Sm in BS. rewrite Sn in BM.
  unfold stored_face in BS, BM. cbn [andb] in BS, BM.
  destruct (along3 m1 m2 m3 face) as [M1 M2] eqn:EM.
  destruct (along3 n1 n2 n3 nface) as [A1 A2] eqn:EA.
  destruct BS as (LS & PS & _). destruct BM as (LM & PM & _).
  assert (GS : forall p x1 x2 x3 f, nth_error (sz3 p) (b - 1) = Some (x1, x2, x3) ->
     1 <= f <= 6 -> getFaceSize p b f = Some (along3 x1 x2 x3 f)).
  { intros p x1 x2 x3 f Hp Hf. unfold getFaceSize. rewrite (start3_ok _ _ _ _ _ _ Hp).
    unfold along3.
    assert (C : f = 1 \/ f = 2 \/ f = 3 \/ f = 4 \/ f = 5 \/ f = 6) by lia.
    destruct C as [-> |[-> |[-> |[-> |[-> | ->]]]]]; reflexivity. }
  assert (PM1 : 1 <= M1 /\ 1 <= M2).
  { clear - EM He Hm1 Hm2 Hm3. unfold along3 in EM.
    destruct (face <=? 2), (face <=? 4); injection EM as <- <-; lia. }
  assert (PA1 : 1 <= A1 /\ 1 <= A2).
  { clear - EA Hne Hn1 Hn2 Hn3. unfold along3 in EA.
    destruct (nface <=? 2), (nface <=? 4); injection EA as <- <-; lia. }
  unfold res, connectBasis3. rewrite (GS me _ _ _ face Hm He), EM.
  rewrite (GS nb _ _ _ nface Hn Hne), EA.
  set (S0 := getBoundaryNodes3 me face b thick true) in *.
  set (M0 := getBoundaryNodes3 nb nface b thick true) in *.
  assert (BT : 0 <= norient <= 7 -> Z.testbit norient 2 = (3 <? norient)).
  { intros HO. assert (C : norient = 0 \/ norient = 1 \/ norient = 2 \/ norient = 3 \/
      norient = 4 \/ norient = 5 \/ norient = 6 \/ norient = 7) by lia.
    repeat destruct C as [-> |C]; try (subst norient); reflexivity. }
  split; [|split].
  - intros HO. destruct (Z.ltb_spec norient 0), (Z.ltb_spec 7 norient); try lia; auto.
  - intros HX. destruct (Z.ltb_spec norient 0), (Z.ltb_spec 7 norient); try lia; auto.
    cbn [orb]. rewrite BT in HX by lia.
    destruct (3 <? norient).
    + destruct (Z.eqb_spec A2 M1), (Z.eqb_spec A1 M2), (Z.eqb_spec A2 0), (Z.eqb_spec A1 0);
        subst; cbn [orb negb]; auto. exfalso. apply HX. auto.
    + destruct (Z.eqb_spec A1 M1), (Z.eqb_spec A2 M2), (Z.eqb_spec A2 0), (Z.eqb_spec A1 0);
        subst; cbn [orb negb]; auto. exfalso. apply HX. auto.
  - intros HO HX. destruct (Z.ltb_spec norient 0); [lia|].
    destruct (Z.ltb_spec 7 norient); [lia|]. cbn [orb].
    set (Mm := map (fun x => x + master) M0). set (Ss := map (fun x => x + slave) S0).
    set (pairs := flat_map (fun j => flat_map (fun i =>
             let '(k, l) := orient_kl norient i j A1 A2 M1 M2 in
             map (fun t => (nth (Z.to_nat ((j * A1 + i) * thick + t)) Mm 0,
                            nth (Z.to_nat ((l * M1 + k) * thick + t)) Ss 0))
                 (zrange 0 thick))
             (zrange 0 A1)) (zrange 0 A2)).
    exists pairs.
    assert (OR : forall q r, 0 <= q < A1 -> 0 <= r < A2 ->
       orient_kl norient q r A1 A2 M1 M2 = orient_spec norient M1 M2 q r /\
       let '(k, l) := orient_spec norient M1 M2 q r in 0 <= k < M1 /\ 0 <= l < M2).
    { intros q r Hq Hr. clear - HO HX Hq Hr. unfold orient_kl, orient_spec.
      assert (C : norient = 0 \/ norient = 1 \/ norient = 2 \/ norient = 3 \/
        norient = 4 \/ norient = 5 \/ norient = 6 \/ norient = 7) by lia.
      repeat destruct C as [-> |C]; try (subst norient); cbn -[Z.add Z.sub] in *;
        injection HX as E1 E2; subst; (split; [f_equal; lia|lia]). }
    assert (RL : forall r q, 0 <= q < A1 -> 0 <= r < A2 ->
       zlen (let '(k, l) := orient_kl norient q r A1 A2 M1 M2 in
             map (fun t => (nth (Z.to_nat ((r * A1 + q) * thick + t)) Mm 0,
                            nth (Z.to_nat ((l * M1 + k) * thick + t)) Ss 0))
                 (zrange 0 thick)) = thick).
    { intros. destruct (orient_kl _ _ _ _ _ _ _). rewrite zlen_map, zlen_zrange; lia. }
    assert (RR : forall r, 0 <= r < A2 -> zlen (flat_map (fun i =>
             let '(k, l) := orient_kl norient i r A1 A2 M1 M2 in
             map (fun t => (nth (Z.to_nat ((r * A1 + i) * thick + t)) Mm 0,
                            nth (Z.to_nat ((l * M1 + k) * thick + t)) Ss 0))
                 (zrange 0 thick))
             (zrange 0 A1)) = A1 * thick).
    { intros. apply zlen_flat_map; [lia|]. intros. apply RL; lia. }
    assert (ERES : (if (3 <? norient) then
        (if (A2 =? 0) || (A1 =? 0) || negb (A2 =? M1) || negb (A1 =? M2) then (false, [])
         else collapse_skip check eqc pairs)
        else
        (if (A1 =? 0) || (A2 =? 0) || negb (A1 =? M1) || negb (A2 =? M2) then (false, [])
         else collapse_skip check eqc pairs))
        = collapse_skip check eqc pairs).
    { rewrite BT in HX by lia.
      destruct (3 <? norient); injection HX as E1 E2; rewrite E1, E2, !Z.eqb_refl;
        destruct (Z.eqb_spec M1 0), (Z.eqb_spec M2 0); try lia; reflexivity. }
    split; [|split].
    + unfold pairs. rewrite zlen_flat_map with (m := A1 * thick); [lia|lia|].
      intros. apply RR; lia.
    + intros q r t Hq Hr Hqt. destruct (OR q r Hq Hr) as [OE OB].
      pose proof (PM q r t Hq Hr Hqt) as PMq.
      destruct (orient_spec norient M1 M2 q r) as [k l] eqn:ES. destruct OB as [OB1 OB2].
      pose proof (PS k l t OB1 OB2 Hqt) as PSq.
      split; auto. split; auto.
      destruct (face_pos n1 n2 n3 thick nface q r t) as [[x y] z].
      destruct (face_pos m1 m2 m3 thick face k l t) as [[x' y'] z'].
      destruct PMq as (_ & _ & _ & PMq). destruct PSq as (_ & _ & _ & PSq).
      unfold pairs.
      replace ((r * A1 + q) * thick + t) with (r * (A1 * thick) + (q * thick + t)) by ring.
      rewrite znth_flat_map; [|intros; apply RR; lia|lia|nia].
      rewrite znth_flat_map; [|intros; apply RL; lia|lia|lia].
      replace (0 + r) with r by lia. replace (0 + q) with q by lia.
      rewrite OE. rewrite znth_map, znth_zrange by lia. cbn [option_map].
      replace (0 + t) with t by lia. unfold report in PMq, PSq.
      f_equal. f_equal.
      * apply nth_znth. unfold Mm. rewrite znth_map, PMq. cbn [option_map]. f_equal. ring.
      * apply nth_znth. unfold Ss. rewrite znth_map, PSq. cbn [option_map]. f_equal. ring.
    + match goal with |- snd ?R = _ /\ _ =>
        replace R with (collapse_skip check eqc pairs) end.
      * split.
        -- reflexivity.
        -- split.
           ++ intros HF. destruct (collapse_skip check eqc pairs) as [ok r] eqn:EC.
              cbn in HF. subst ok. apply collapse_skip_true in EC.
              destruct check; [right|left]; tauto.
           ++ intros HF. rewrite collapse_skip_ok; auto.
      * rewrite <- ERES at 1. destruct (3 <? norient); reflexivity.
Qed.
Print Assumptions str_connect3.

(** connectPatch of right-handed patches is connectBasis for the first basis. *)
Theorem str_connectPatch_plain :
  (forall me nb edge nedge revers check eqc thick, swapV me = false -> swapV nb = false ->
   connectPatch2 me nb edge nedge revers check eqc thick
   = connectBasis2 me nb edge nedge revers 1 0 0 check eqc thick) /\
  (forall me nb face nface norient check eqc thick, swapW me = false -> swapW nb = false ->
   connectPatch3 me nb face nface norient check eqc thick
   = connectBasis3 me nb face nface norient 1 0 0 check eqc thick).
Proof.
  split; intros * H1 H2; [unfold connectPatch2|unfold connectPatch3]; rewrite H1, H2; reflexivity.
Qed.
Print Assumptions str_connectPatch_plain.

(** A reversed surface is connected correctly along edges 3 and 4: the nodes
    paired are those of the user's positions. *)
Theorem str_connectPatch2_swap34 : forall me nb m1 m2 n1 n2 edge nedge revers check eqc,
  nth_error (sz2 me) 0 = Some (m1, m2) -> 1 <= m1 -> 1 <= m2 ->
  nth_error (sz2 nb) 0 = Some (n1, n2) -> 1 <= n1 -> 1 <= n2 ->
  3 <= edge <= 4 -> 3 <= nedge <= 4 -> m1 = n1 ->
  let res := connectPatch2 me nb edge nedge revers check eqc 1 in
  fst res = true ->
  forall x y, In (x, y) (snd res) <->
    exists q, 0 <= q < m1 /\
      x = 1 + node2 n1 q (stored (swapV nb) n2 (if nedge =? 3 then 0 else n2 - 1)) /\
      y = 1 + node2 m1 (if revers then m1 - 1 - q else q)
                    (stored (swapV me) m2 (if edge =? 3 then 0 else m2 - 1)).
Proof.
  intros me nb m1 m2 n1 n2 edge nedge revers check eqc Hm Hm1 Hm2 Hn Hn1 Hn2 He Hne HE res HR x y.
  unfold res, connectPatch2 in *. cbv zeta in *.
  set (e := if swapV me && (2 <? edge) then 7 - edge else edge) in *.
  set (ne := if swapV nb && (2 <? nedge) then 7 - nedge else nedge) in *.
  assert (He' : 3 <= e <= 4) by (unfold e; destruct (swapV me && (2 <? edge)); lia).
  assert (Hne' : 3 <= ne <= 4) by (unfold ne; destruct (swapV nb && (2 <? nedge)); lia).
  assert (AL : along2 m1 m2 e = m1) by (unfold along2; destruct (Z.leb_spec e 2); lia).
  assert (ALn : along2 n1 n2 ne = n1) by (unfold along2; destruct (Z.leb_spec ne 2); lia).
  assert (AC : across2 m1 m2 e = m2) by (unfold across2; destruct (Z.leb_spec e 2); lia).
  assert (ACn : across2 n1 n2 ne = n2) by (unfold across2; destruct (Z.leb_spec ne 2); lia).
  destruct (str_connect2 me nb m1 m2 n1 n2 e ne revers 1 0 0 check eqc 1) as [_ T];
    try assumption; try lia.
  destruct (T ltac:(lia)) as (pairs & LP & _ & _ & PP & _ & SN & _). rewrite (SN HR).
  rewrite AL in *. clear T SN HR.
  assert (EP : forall q, 0 <= q < m1 -> znth pairs q =
     Some (1 + node2 n1 q (stored (swapV nb) n2 (if nedge =? 3 then 0 else n2 - 1)),
           1 + node2 m1 (if revers then m1 - 1 - q else q)
                    (stored (swapV me) m2 (if edge =? 3 then 0 else m2 - 1)))).
  { intros q Hq. specialize (PP q 0 Hq ltac:(lia)).
    replace (q * 1 + 0) with q in PP by lia.
    assert (E1 : edge_pos n1 n2 1 ne q 0
                 = (q, stored (swapV nb) n2 (if nedge =? 3 then 0 else n2 - 1))).
    { unfold ne, stored. assert (C : nedge = 3 \/ nedge = 4) by lia.
      destruct C as [-> | ->]; destruct (swapV nb); cbn -[Z.add Z.sub]; apply (f_equal2 pair); lia. }
    assert (E2 : edge_pos m1 m2 1 e (if revers then m1 - 1 - q else q)
                          (if revers then 1 - 1 - 0 else 0)
                 = (if revers then m1 - 1 - q else q,
                    stored (swapV me) m2 (if edge =? 3 then 0 else m2 - 1))).
    { replace (if revers then 1 - 1 - 0 else 0) with 0 by (destruct revers; reflexivity).
      unfold e, stored. assert (C : edge = 3 \/ edge = 4) by lia.
      destruct C as [-> | ->]; destruct (swapV me); cbn -[Z.add Z.sub]; apply (f_equal2 pair); lia. }
    rewrite E1, E2 in PP. rewrite PP. reflexivity. }
  split.
  - intros Hin. apply In_znth in Hin. destruct Hin as (q & Hq & E). rewrite LP in Hq.
    exists q. split; [lia|]. rewrite EP in E by lia. injection E as <- <-. auto.
  - intros (q & Hq & -> & ->). eapply znth_In. apply EP. auto.
Qed.
Print Assumptions str_connectPatch2_swap34.

(* ---- what does not hold ---- *)

(** Edges 1 and 2 of a reversed surface run the other way, which connectPatch
    does not account for: the user's first nodes are not paired. *)
Theorem str_connectPatch2_swap_refuted :
  exists me nb m1 m2 n1, swapV me = true /\ sz2 me = [(m1, m2)] /\ sz2 nb = [(n1, m2)] /\
    2 <= m2 /\
    let res := connectPatch2 me nb 1 2 false false (fun _ _ => true) 1 in
    fst res = true /\
    ~ In (1 + node2 n1 (n1 - 1) 0, 1 + node2 m1 0 (stored true m2 0)) (snd res).
Proof.
  exists (mkP2 [(2, 2)] [] true), (mkP2 [(3, 2)] [] false), 2, 2, 3.
  do 3 (split; [reflexivity|]). split; [lia|]. cbv zeta. split; [reflexivity|].
  intros H. vm_compute in H. intuition congruence.
Qed.
Print Assumptions str_connectPatch2_swap_refuted.

(** connectPatch exchanges faces 5 and 6 of a reversed volume, and so does
    getBoundaryNodes: the two cancel, and the nodes connected are not nodes of
    the face the user named. *)
Theorem str_connectPatch3_swap_refuted :
  exists me nb m1 m2 m3, swapW me = true /\ swapW nb = false /\
    sz3 me = [(m1, m2, m3)] /\ sz3 nb = [(m1, m2, m3)] /\ 2 <= m3 /\
    let res := connectPatch3 me nb 5 6 0 false (fun _ _ => true) 1 in
    fst res = true /\ snd res <> [] /\
    forall x y, In (x, y) (snd res) -> ~ In y (getBoundaryNodes3 me 5 1 1 true).
Proof.
  exists (mkP3 [(2, 2, 3)] [] true), (mkP3 [(2, 2, 3)] [] false), 2, 2, 3.
  do 4 (split; [reflexivity|]). split; [lia|]. cbv zeta. split; [reflexivity|].
  split; [discriminate|].
  intros x y H HI. vm_compute in H, HI.
  intuition congruence.
Qed.
Print Assumptions str_connectPatch3_swap_refuted.

(** Mixed volumes test the face of this patch instead of the neighbour's: with
    a reversed neighbour, face 6 against its face 1 is passed on as face 10,
    and the connection is refused although the faces match. *)
Theorem str_connect3mx_refuted :
  exists me nb m1 m2 m3, swapW me = false /\ swapW nb = true /\
    sz3 me = [(m1, m2, m3)] /\ sz3 nb = [(m3, m1, m2)] /\
    connectFaces3mx me nb 6 1 = (6, 10) /\
    connectBasis3 me nb 6 10 0 1 0 0 false (fun _ _ => true) 1 = (false, []) /\
    fst (connectBasis3 me nb 6 1 0 1 0 0 false (fun _ _ => true) 1) = true.
Proof.
  exists (mkP3 [(2, 3, 4)] [] false), (mkP3 [(4, 2, 3)] [] true), 2, 3, 4.
  repeat split; reflexivity.
Qed.
Print Assumptions str_connect3mx_refuted.

(* ---- examples ---- *)
Example ex_conn2 :
  connectPatch2 ex_p2 ex_p2 1 2 false false (fun _ _ => false) 1
  = (true, [(4,1);(8,5);(12,9)]) /\
  connectPatch2 ex_p2 ex_p2 2 2 true true (fun _ _ => true) 2
  = (true, [(3,12);(4,11);(7,8);(8,7);(11,4);(12,3)]).
Proof. split; reflexivity. Qed.
Example ex_conn3 :
  snd (connectPatch3 (mkP3 [(2, 3, 4)] [] false) (mkP3 [(3, 2, 4)] [] false) 5 5 5
        false (fun _ _ => true) 1)
  = [(1,5);(2,3);(3,1);(4,6);(5,4);(6,2)].
Proof. reflexivity. Qed.
