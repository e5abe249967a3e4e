(** C81: boundary node sets, boundary element sets, corners, Dirichlet
    boundaries and renumbering of structured patches. *)
From Coq Require Import ZArith List Bool Lia Sorting.Sorted Logic.FinFun.
From Verif Require Import Str_model Str_spec Str_proofs Str_proofs2 Str_props.
Import ListNotations.
Local Open Scope Z_scope.

Local Ltac cases4 H e :=
  assert (H : e = 1 \/ e = 2 \/ e = 3 \/ e = 4) by lia;
  destruct H as [-> |[-> |[-> | ->]]].

(** The boundary nodes of an edge of a 2D patch (right-handed): position
    q*thick+t of the list is the q-th node along the edge in layer t, for every
    basis, every thickness that fits, local or global numbers. *)
Theorem str_bnodes2 : forall p b n1 n2 edge thick local,
  nth_error (sz2 p) (b - 1) = Some (n1, n2) -> 1 <= n1 -> 1 <= n2 ->
  1 <= edge <= 4 -> 1 <= thick <= across2 n1 n2 edge ->
  let l := getBoundaryNodes2 p edge b thick local in
  let num i j := report (mlgn2 p) local (first2 (sz2 p) b) (node2 n1 i j) in
  zlen l = along2 n1 n2 edge * thick /\
  (forall q t, 0 <= q < along2 n1 n2 edge -> 0 <= t < thick ->
     let '(i, j) := edge_pos n1 n2 thick edge q t in
     0 <= i < n1 /\ 0 <= j < n2 /\ znth l (q * thick + t) = Some (num i j)) /\
  (thick = 1 -> forall x, In x l <->
     exists i j, on_edge n1 n2 edge i j /\ x = num i j) /\
  (local = true -> NoDup l).
Proof.
  intros p b n1 n2 edge thick local H H1 H2 He Ht l num.
  pose proof (bnodes2_layers p b n1 n2 edge thick local H ltac:(lia) ltac:(lia) He) as L.
  fold l in L.
  assert (A : 0 <= along2 n1 n2 edge) by (unfold along2; destruct (edge <=? 2); lia).
  split; [|split; [|split]].
  - rewrite L, zlen_layers; lia.
  - intros q t Hq Hqt. rewrite L, znth_layers by auto. unfold num.
    cases4 C edge; unfold along2, across2 in *; cbn -[Z.add Z.sub Z.mul] in *;
      (split; [lia|split; [lia|reflexivity]]).
  - intros -> x. rewrite L, In_layers. split.
    + intros (q & t & Hq & Hqt & ->). assert (t = 0) by lia. subst t.
      cases4 C edge; unfold along2 in *; cbn -[Z.add Z.sub Z.mul] in *.
      * exists 0, q. split; auto. unfold on_edge. lia.
      * exists (n1 - 1 + 0), q. split; auto. unfold on_edge. lia.
      * exists q, 0. split; auto. unfold on_edge. lia.
      * exists q, (n2 - 1 + 0). split; auto. unfold on_edge. lia.
    + intros (i & j & (Hi & Hj & Hc) & ->).
      cases4 C edge; unfold along2 in *; cbn -[Z.add Z.sub Z.mul] in *.
      * exists j, 0. assert (i = 0) as -> by lia. repeat split; lia || auto.
      * exists j, 0. assert (i = n1 - 1) as -> by lia.
        replace (n1 - 1 + 0) with (n1 - 1) by lia. repeat split; lia || auto.
      * exists i, 0. assert (j = 0) as -> by lia. repeat split; lia || auto.
      * exists i, 0. assert (j = n2 - 1) as -> by lia.
        replace (n2 - 1 + 0) with (n2 - 1) by lia. repeat split; lia || auto.
  - intros ->. apply NoDup_nth_error. intros a c Hac E.
    assert (Ha : 0 <= Z.of_nat a < zlen l) by (unfold zlen; lia).
    assert (Hc : 0 <= Z.of_nat c < zlen l).
    { unfold zlen. assert (c < length l)%nat; [|lia].
      apply nth_error_Some. rewrite <- E. apply nth_error_Some. auto. }
    assert (E' : znth l (Z.of_nat a) = znth l (Z.of_nat c)).
    { unfold znth. destruct (Z.ltb_spec (Z.of_nat a) 0); [lia|].
      destruct (Z.ltb_spec (Z.of_nat c) 0); [lia|]. rewrite !Nat2Z.id. auto. }
    assert (LL : zlen l = thick * along2 n1 n2 edge) by (rewrite L, zlen_layers; lia).
    rewrite LL in Ha, Hc.
    destruct (node2_inv thick (along2 n1 n2 edge) (Z.of_nat a)) as (t & q & Ht1 & Hq1 & Ea); [lia|auto|].
    destruct (node2_inv thick (along2 n1 n2 edge) (Z.of_nat c)) as (t' & q' & Ht2 & Hq2 & Ec); [lia|auto|].
    rewrite Ea, Ec in E'. unfold node2 in E'.
    replace (t + thick * q) with (q * thick + t) in E' by lia.
    replace (t' + thick * q') with (q' * thick + t') in E' by lia.
    rewrite L, !znth_layers in E' by auto.
    assert (q = q' /\ t = t').
    { clear L LL. injection E' as E'.
      cases4 C edge; unfold along2, across2 in *; cbn -[Z.add Z.sub Z.mul node2] in *;
        assert (E2 : forall u v : Z, 1 + u = 1 + v -> u = v) by (intros; lia);
        apply E2 in E'; apply node2_inj in E'; lia. }
    apply Nat2Z.inj. rewrite Ea, Ec. destruct H0 as [-> ->]. auto.
Qed.
Print Assumptions str_bnodes2.

(** Any other edge index gives no nodes, and so does a basis that does not exist. *)
Theorem str_bnodes2_none : forall p b edge thick local,
  ~ (1 <= edge <= 4) \/ nth_error (sz2 p) (b - 1) = None ->
  getBoundaryNodes2 p edge b thick local = [].
Proof.
  intros p b edge thick local H. unfold getBoundaryNodes2.
  destruct H as [He|Hn].
  - destruct (start2 _ _ _ _) as [[[n1 n2] nd]|]; auto. cbv zeta.
    destruct (Z.eqb_spec edge 1), (Z.eqb_spec edge 2), (Z.eqb_spec edge 3),
      (Z.eqb_spec edge 4); try lia. reflexivity.
  - assert (S : forall sz b node, nth_error sz (b - 1) = None ->
       start2 sz (Nat.max 1 b) (negb local) node = None).
    { induction sz as [|[a1 a2] sz IH]; intros c node Hc.
      - destruct c as [|[|c]]; reflexivity.
      - destruct c as [|[|c]]; try discriminate.
        change (Nat.max 1 (S (S c))) with (S (S c)). cbn [start2].
        replace (S (S c) - 1)%nat with (S c) in Hc by lia. cbn [nth_error] in Hc.
        specialize (IH (S c)). replace (S c - 1)%nat with c in IH by lia.
        apply (IH _ Hc). }
    rewrite S; auto.
Qed.
Print Assumptions str_bnodes2_none.

Local Ltac cases6 H e :=
  assert (H : e = 1 \/ e = 2 \/ e = 3 \/ e = 4 \/ e = 5 \/ e = 6) by lia;
  destruct H as [-> |[-> |[-> |[-> |[-> | ->]]]]].

(** The boundary nodes of a face of a 3D patch; on a patch that was reversed in
    its last direction, faces 5 and 6 mean those of the user's patch. *)
Theorem str_bnodes3 : forall p b n1 n2 n3 face thick local,
  nth_error (sz3 p) (b - 1) = Some (n1, n2, n3) ->
  Forall (fun s => 0 <= fst (fst s) /\ 0 <= snd (fst s) /\ 0 <= snd s) (sz3 p) ->
  1 <= n1 -> 1 <= n2 -> 1 <= n3 ->
  1 <= face <= 6 -> 1 <= thick <= across3 n1 n2 n3 face ->
  let l := getBoundaryNodes3 p face b thick local in
  let num i j k := report (mlgn3 p) local (first3 (sz3 p) b) (node3 n1 n2 i j k) in
  let '(m1, m2) := along3 n1 n2 n3 face in
  zlen l = m1 * m2 * thick /\
  (forall q r t, 0 <= q < m1 -> 0 <= r < m2 -> 0 <= t < thick ->
     let '(i, j, k) := face_pos n1 n2 n3 thick (stored_face (swapW p) face) q r t in
     0 <= i < n1 /\ 0 <= j < n2 /\ 0 <= k < n3 /\
     znth l ((r * m1 + q) * thick + t) = Some (num i j k)) /\
  (thick = 1 -> forall x, In x l <->
     exists i j k, on_face n1 n2 n3 face i j k /\
                   x = num i j (stored (swapW p) n3 k)).
Proof.
  intros p b n1 n2 n3 face thick local H HF H1 H2 H3 He Ht l num.
  pose proof (bnodes3_layers p b n1 n2 n3 face thick local H ltac:(lia) ltac:(lia)
     ltac:(lia) ltac:(lia) (first3_pos _ _ HF) He) as L.
  cbv zeta in L.
  assert (SF : (if swapW p && (4 <? face) then 11 - face else face)
               = stored_face (swapW p) face).
  { unfold stored_face. destruct (swapW p); cbn [andb]; auto.
    destruct (Z.ltb_spec 4 face), (Z.leb_spec 5 face); lia. }
  rewrite SF in L. set (f := stored_face (swapW p) face) in *.
  assert (AL : along3 n1 n2 n3 f = along3 n1 n2 n3 face).
  { unfold f, stored_face, along3. destruct (swapW p); cbn [andb]; auto.
    cases6 C face; reflexivity. }
  rewrite AL in L.
  assert (Hf : 1 <= f <= 6).
  { unfold f, stored_face. destruct (swapW p); cbn [andb]; [|lia].
    destruct (Z.leb_spec 5 face); lia. }
  assert (AC : across3 n1 n2 n3 f = across3 n1 n2 n3 face).
  { unfold f, stored_face, across3. destruct (swapW p); cbn [andb]; auto.
    cases6 C face; reflexivity. }
  rewrite <- AC in Ht.
  destruct (along3 n1 n2 n3 face) as [m1 m2] eqn:EA. fold l in L.
  assert (Hm : 0 <= m1 /\ 0 <= m2).
  { clear - AL H1 H2 H3 Hf. unfold along3 in AL.
    cases6 C f; cbn in AL; injection AL as <- <-; lia. }
  split; [|split].
  - rewrite L. rewrite zlen_flat_map with (m := m1 * thick); [lia|lia|].
    intros. rewrite zlen_layers; lia.
  - intros q r t Hq Hr Hqt.
    assert (E : znth l ((r * m1 + q) * thick + t)
      = Some (let '(i, j, k) := face_pos n1 n2 n3 thick f q r t in num i j k)).
    { rewrite L. replace ((r * m1 + q) * thick + t) with (r * (m1 * thick) + (q * thick + t)) by ring.
      rewrite znth_flat_map; try lia.
      - rewrite znth_layers by auto. unfold num. replace (0 + r) with r by lia. reflexivity.
      - intros. rewrite zlen_layers; lia.
      - nia. }
    clear L SF EA. rewrite AC in *. rewrite <- AC in Ht. clear AC.
    unfold along3, across3 in *. clearbody f. clear He.
    cases6 C f; cbn -[Z.add Z.sub Z.mul] in *; injection AL as <- <-;
      (repeat split; [lia..|exact E]).
  - intros -> x. rewrite L, in_flat_map. split.
    + intros (r & Hr & Hx). apply In_zrange in Hr. apply In_layers in Hx.
      destruct Hx as (q & t & Hq & Hqt & ->). assert (t = 0) by lia. subst t.
      clear L SF AL AC Ht. unfold f, stored_face, along3, stored in *. clear f.
      destruct (swapW p); cbn [andb] in *.
      * cases6 C face; cbn -[Z.add Z.sub Z.mul] in *; injection EA as <- <-.
        -- exists 0, q, (n3 - 1 - r). unfold on_face, num. split; [lia|].
           replace (n3 - 1 - (n3 - 1 - r)) with r by lia. auto.
        -- exists (n1 - 1), q, (n3 - 1 - r). unfold on_face, num. split; [lia|].
           replace (n3 - 1 - (n3 - 1 - r)) with r by lia. replace (n1 - 1 + 0) with (n1 - 1) by lia. auto.
        -- exists q, 0, (n3 - 1 - r). unfold on_face, num. split; [lia|].
           replace (n3 - 1 - (n3 - 1 - r)) with r by lia. auto.
        -- exists q, (n2 - 1), (n3 - 1 - r). unfold on_face, num. split; [lia|].
           replace (n3 - 1 - (n3 - 1 - r)) with r by lia. replace (n2 - 1 + 0) with (n2 - 1) by lia. auto.
        -- exists q, r, 0. unfold on_face, num. split; [lia|].
           change (11 - 5) with 6; change (11 - 6) with 5; cbn -[Z.add Z.sub Z.mul];
           unfold report, node3; destruct local; [ring|f_equal; ring].
        -- exists q, r, (n3 - 1). unfold on_face, num. split; [lia|].
           change (11 - 5) with 6; change (11 - 6) with 5; cbn -[Z.add Z.sub Z.mul];
           unfold report, node3; destruct local; [ring|f_equal; ring].
      * cases6 C face; cbn -[Z.add Z.sub Z.mul] in *; injection EA as <- <-.
        -- exists 0, q, r. unfold on_face, num. split; [lia|auto].
        -- exists (n1 - 1 + 0), q, r. unfold on_face, num. split; [lia|auto].
        -- exists q, 0, r. unfold on_face, num. split; [lia|auto].
        -- exists q, (n2 - 1 + 0), r. unfold on_face, num. split; [lia|auto].
        -- exists q, r, 0. unfold on_face, num. split; [lia|auto].
        -- exists q, r, (n3 - 1 + 0). unfold on_face, num. split; [lia|auto].
    + intros (i & j & k & (Hi & Hj & Hk & Hc) & ->).
      assert (Hs : 0 <= stored (swapW p) n3 k < n3) by (unfold stored; destruct (swapW p); lia).
      assert (X : exists q r, 0 <= q < m1 /\ 0 <= r < m2 /\
                face_pos n1 n2 n3 1 f q r 0 = (i, j, stored (swapW p) n3 k)).
      { clear L SF AL AC Ht. unfold f, stored_face, along3, stored in *. clear f num l.
        destruct (swapW p); cbn [andb] in *;
        cases6 C face; change (11 - 5) with 6; change (11 - 6) with 5;
        cbn -[Z.add Z.sub Z.mul] in *; injection EA as <- <-.
        all: match goal with
             | |- exists q r, _ /\ _ /\ (_, q, r) = (_, ?y, ?z) => exists y, z
             | |- exists q r, _ /\ _ /\ (q, _, r) = (?x, _, ?z) => exists x, z
             | |- exists q r, _ /\ _ /\ (q, r, _) = (?x, ?y, _) => exists x, y
             end.
        all: split; [lia|]; split; [lia|].
        all: assert (TE : forall u v w u' v' w' : Z, u = u' -> v = v' -> w = w' ->
               (u, v, w) = (u', v', w')) by congruence.
        all: apply TE; lia. }
      destruct X as (q & r & Hq & Hr & E). exists r.
      split; [apply In_zrange; lia|]. apply In_layers. exists q, 0.
      rewrite E. repeat split; auto; lia.
Qed.
Print Assumptions str_bnodes3.

(** The nodes of edge 1..12 of a volume: those on both faces that meet there;
    an open edge is without its two end points.  They come in the order of
    increasing position along the edge. *)
Theorem str_bedge3 : forall p b n1 n2 n3 edge local open,
  nth_error (sz3 p) (b - 1) = Some (n1, n2, n3) ->
  Forall (fun s => 0 <= fst (fst s) /\ 0 <= snd (fst s) /\ 0 <= snd s) (sz3 p) ->
  1 <= n1 -> 1 <= n2 -> 1 <= n3 -> 1 <= edge <= 12 ->
  let l := getBoundary1Nodes3 p edge b local open in
  let num i j k := report (mlgn3 p) local (first3 (sz3 p) b) (node3 n1 n2 i j k) in
  (forall x, In x l <->
     exists i j k, on_face n1 n2 n3 (fst (edge_faces edge)) i j k /\
       on_face n1 n2 n3 (snd (edge_faces edge)) i j k /\
       (open = true -> 0 < edge_coord edge i j k < edge_len n1 n2 n3 edge - 1) /\
       x = num i j (stored (swapW p) n3 k)) /\
  (local = true -> StronglySorted Z.lt l).
Proof.
  intros p b n1 n2 n3 edge local open H HF H1 H2 H3 He l num.
  set (e := if swapW p && (edge <=? 8)
            then edge + (if (edge - 1) mod 4 <? 2 then 2 else -2) else edge).
  set (pos q := if e =? 1 then (q, 0, 0) else if e =? 2 then (q, n2 - 1, 0)
      else if e =? 3 then (q, 0, n3 - 1) else if e =? 4 then (q, n2 - 1, n3 - 1)
      else if e =? 5 then (0, q, 0) else if e =? 6 then (n1 - 1, q, 0)
      else if e =? 7 then (0, q, n3 - 1) else if e =? 8 then (n1 - 1, q, n3 - 1)
      else if e =? 9 then (0, 0, q) else if e =? 10 then (n1 - 1, 0, q)
      else if e =? 11 then (0, n2 - 1, q) else (n1 - 1, n2 - 1, q)).
  set (len := edge_len n1 n2 n3 edge).
  assert (L : l = flat_map (fun i => if negb open || ((1 <? i) && (i <? len))
       then [let '(a, b', c) := pos (i - 1) in num a b' c] else []) (zrange 1 len)).
  { unfold l, getBoundary1Nodes3. rewrite (start3_ok _ _ _ _ _ _ H).
    pose proof (first3_pos (sz3 p) b HF).
    destruct (Z.ltb_spec (1 + (first3 (sz3 p) b - 1)) 1); [lia|]. cbv zeta. fold e.
    assert (LE : (if 8 <? e then (n1 * n2, n3) else if 4 <? e then (n1, n2) else (1, n1))
       = (if 8 <? e then n1 * n2 else if 4 <? e then n1 else 1, len)).
    { unfold len, edge_len, e. clear - He. destruct (swapW p); cbn [andb].
      - assert (C : edge = 1 \/ edge = 2 \/ edge = 3 \/ edge = 4 \/ edge = 5 \/ edge = 6 \/
           edge = 7 \/ edge = 8 \/ edge = 9 \/ edge = 10 \/ edge = 11 \/ edge = 12) by lia.
        repeat destruct C as [-> |C]; try (subst edge); reflexivity.
      - assert (C : edge = 1 \/ edge = 2 \/ edge = 3 \/ edge = 4 \/ edge = 5 \/ edge = 6 \/
           edge = 7 \/ edge = 8 \/ edge = 9 \/ edge = 10 \/ edge = 11 \/ edge = 12) by lia.
        repeat destruct C as [-> |C]; try (subst edge); reflexivity. }
    rewrite LE. apply flat_map_ext. intros i.
    destruct (negb open || ((1 <? i) && (i <? len))); auto. f_equal.
    assert (Hee : 1 <= e <= 12).
    { unfold e. clear - He. destruct (swapW p); cbn [andb]; [|lia].
      assert (C : edge = 1 \/ edge = 2 \/ edge = 3 \/ edge = 4 \/ edge = 5 \/ edge = 6 \/
           edge = 7 \/ edge = 8 \/ edge = 9 \/ edge = 10 \/ edge = 11 \/ edge = 12) by lia.
      repeat destruct C as [-> |C]; try (subst edge); cbn; lia. }
    clear LE. unfold pos, num, report, node3. clearbody e.
    assert (C : e = 1 \/ e = 2 \/ e = 3 \/ e = 4 \/ e = 5 \/ e = 6 \/
           e = 7 \/ e = 8 \/ e = 9 \/ e = 10 \/ e = 11 \/ e = 12) by lia.
    repeat destruct C as [-> |C]; try (subst e); cbn -[Z.add Z.sub Z.mul];
      destruct local; try (f_equal; ring); ring. }
  assert (Hlen : 1 <= len) by (unfold len, edge_len; destruct (edge <=? 4), (edge <=? 8); lia).
  clearbody l. split.
  - intros x. rewrite L, in_flat_map. split.
    + intros (i & Hi & Hx). apply In_zrange in Hi.
      destruct (negb open || ((1 <? i) && (i <? len))) eqn:O; [|destruct Hx].
      assert (OO : open = true -> 1 < i < len).
      { intros ->. cbn in O. apply andb_prop in O. destruct O as [O1 O2].
        apply Z.ltb_lt in O1, O2. lia. }
      destruct Hx as [Hx|[]]. subst x. clear L O.
      assert (C : edge = 1 \/ edge = 2 \/ edge = 3 \/ edge = 4 \/ edge = 5 \/ edge = 6 \/
           edge = 7 \/ edge = 8 \/ edge = 9 \/ edge = 10 \/ edge = 11 \/ edge = 12) by lia.
      destruct (swapW p); cbn [andb] in e;
      repeat destruct C as [-> |C]; try (subst edge); vm_compute in e;
      unfold pos, e, len, edge_len, edge_coord, stored, num in *; clear pos e len num;
      cbn -[Z.add Z.sub Z.mul node3 report] in *; unfold on_face;
      match goal with
      | |- exists a b c, _ /\ _ /\ _ /\ report ?m ?l ?f (node3 _ _ ?x ?y ?z) = report _ _ _ (node3 _ _ _ _ (n3 - 1 - _)) =>
          exists x, y, (n3 - 1 - z);
          replace (n3 - 1 - (n3 - 1 - z)) with z by lia
      | |- exists a b c, _ /\ _ /\ _ /\ report ?m ?l ?f (node3 _ _ ?x ?y ?z) = _ =>
          exists x, y, z
      end;
      (split; [lia|split; [lia|split; [intros OT; specialize (OO OT); lia|reflexivity]]]).
    + intros (i & j & k & F1 & F2 & O & ->).
      assert (C : edge = 1 \/ edge = 2 \/ edge = 3 \/ edge = 4 \/ edge = 5 \/ edge = 6 \/
           edge = 7 \/ edge = 8 \/ edge = 9 \/ edge = 10 \/ edge = 11 \/ edge = 12) by lia.
      exists ((if edge <=? 4 then i else if edge <=? 8 then j else stored (swapW p) n3 k) + 1).
      destruct (swapW p); cbn [andb] in e;
      repeat destruct C as [-> |C]; try (subst edge); vm_compute in e;
      unfold pos, e, len, edge_len, edge_coord, stored, num in *; clear pos e num;
      cbn -[Z.add Z.sub Z.mul Z.ltb node3 report] in *; unfold on_face in F1, F2;
      (split; [apply In_zrange; lia|]);
      match goal with |- In _ (if ?B then _ else _) =>
        replace B with true by
          (symmetry; destruct open; cbn [negb orb]; auto;
           apply andb_true_intro; split; apply Z.ltb_lt; lia) end;
      left; do 2 f_equal; lia.
  - intros ->.
    assert (Sb : forall (P : Z -> bool) (g : Z -> Z) lo cnt, 0 <= cnt ->
       (forall x y, x < y -> g x < g y) ->
       StronglySorted Z.lt (flat_map (fun i => if P i then [g i] else []) (zrange lo cnt))).
    { intros P g lo cnt Hc Hg. rewrite flat_map_if, flat_map_sing.
      assert (SS : StronglySorted Z.lt (zrange lo cnt)).
      { apply sorted_znth. intros a c x y Hac Ha Hb.
        pose proof (znth_some_range _ _ _ Ha) as Ra. pose proof (znth_some_range _ _ _ Hb) as Rb.
        rewrite zlen_zrange in Ra, Rb by lia. rewrite znth_zrange in Ha, Hb by lia.
        injection Ha as <-. injection Hb as <-. lia. }
      induction SS as [|z zl SS IH FA]; cbn [filter map]; [constructor|].
      destruct (P z); auto. cbn [map]. constructor; auto.
      apply Forall_forall. intros y Hy. apply in_map_iff in Hy. destruct Hy as (w & <- & Hw).
      apply filter_In in Hw. apply Hg. rewrite Forall_forall in FA. apply FA. tauto. }
    rewrite L. apply Sb; [lia|]. intros x y Hxy. unfold pos, num, report, node3.
    assert (M1 : n1 * (x - 1) < n1 * (y - 1)) by nia.
    assert (M2 : n2 * (x - 1) < n2 * (y - 1)) by nia.
    assert (M3 : n1 * (n2 * (x - 1)) < n1 * (n2 * (y - 1))) by nia.
    repeat match goal with |- context [if ?b then _ else _] => destruct b end; lia.
Qed.
Print Assumptions str_bedge3.

(** Corners. *)
Theorem str_corner2 : forall p b n1 n2 I J,
  (1 <= b)%nat -> nth_error (sz2 p) (b - 1) = Some (n1, n2) -> J <> 0 ->
  getCorner2 p I J b
  = first2 (sz2 p) b + node2 n1 (end_of I n1) (stored (swapV p) n2 (end_of J n2)).
Proof.
  intros p b n1 n2 I J Hb H HJ. unfold getCorner2.
  replace (start2 (sz2 p) b true 1) with (start2 (sz2 p) (Nat.max 1 b) true 1)
    by (f_equal; lia).
  rewrite (start2_ok _ _ _ _ _ _ H). cbv zeta. unfold node2, end_of, stored.
  destruct (swapV p), (Z.ltb_spec 0 I), (Z.ltb_spec 0 J), (Z.ltb_spec 0 (- J)); try lia.
Qed.
Print Assumptions str_corner2.

Theorem str_corner3 : forall p b n1 n2 n3 I J K,
  (1 <= b)%nat -> nth_error (sz3 p) (b - 1) = Some (n1, n2, n3) ->
  Forall (fun s => 0 <= fst (fst s) /\ 0 <= snd (fst s) /\ 0 <= snd s) (sz3 p) ->
  K <> 0 ->
  getCorner3 p I J K b
  = first3 (sz3 p) b
    + node3 n1 n2 (end_of I n1) (end_of J n2) (stored (swapW p) n3 (end_of K n3)).
Proof.
  intros p b n1 n2 n3 I J K Hb H HF HK. unfold getCorner3.
  replace (start3 (sz3 p) b 1) with (start3 (sz3 p) (Nat.max 1 b) 1) by (f_equal; lia).
  rewrite (start3_ok _ _ _ _ _ _ H). cbv zeta. pose proof (first3_pos (sz3 p) b HF).
  destruct (Z.ltb_spec (1 + (first3 (sz3 p) b - 1)) 1); [lia|].
  unfold node3, end_of, stored.
  destruct (swapW p), (Z.ltb_spec 0 I), (Z.ltb_spec 0 J), (Z.ltb_spec 0 K), (Z.ltb_spec 0 (- K)); try lia.
Qed.
Print Assumptions str_corner3.

(** The elements on a boundary of a right-handed patch. *)
Theorem str_belms2 : forall d1 d2 edge, dir_ok d1 -> dir_ok d2 -> 1 <= edge <= 4 ->
  NoDup (findBoundaryElms2 d1 d2 edge) /\
  forall e, In e (findBoundaryElms2 d1 d2 edge) <->
    exists e1 e2, on_edge (nspan d1) (nspan d2) edge e1 e2 /\ e = node2 (nspan d1) e1 e2.
Proof.
  intros d1 d2 edge [O1 _] [O2 _] He. unfold findBoundaryElms2. cbv zeta.
  fold (nspan d1) (nspan d2).
  assert (H1 : 1 <= nspan d1) by (unfold nspan; lia).
  assert (H2 : 1 <= nspan d2) by (unfold nspan; lia).
  set (N1 := nspan d1) in *. set (N2 := nspan d2) in *.
  assert (ND : forall g lo cnt, (forall x y : Z, g x = g y -> x = y) ->
            NoDup (map g (zrange lo cnt) : list Z)).
  { intros g lo cnt Hg. apply Injective_map_NoDup; [exact Hg|].
    unfold zrange. apply Injective_map_NoDup; [|apply seq_NoDup].
    intros x y; lia. }
  cases4 C edge; cbn -[Z.add Z.sub Z.mul zrange]; (split; [apply ND; intros x y; nia|]);
    intros e; rewrite in_map_iff; unfold on_edge, node2; split.
  - intros (i & <- & Hi). apply In_zrange in Hi. exists 0, i. lia.
  - intros (e1 & e2 & Hc & ->). exists e2. split; [|apply In_zrange; lia].
    assert (e1 = 0) by lia. subst. lia.
  - intros (i & <- & Hi). apply In_zrange in Hi. exists (N1 - 1), i. lia.
  - intros (e1 & e2 & Hc & ->). exists e2. split; [|apply In_zrange; lia].
    assert (e1 = N1 - 1) by lia. subst. lia.
  - intros (i & <- & Hi). apply In_zrange in Hi. exists i, 0. lia.
  - intros (e1 & e2 & Hc & ->). exists e1. split; [|apply In_zrange; lia].
    assert (e2 = 0) by lia. subst. lia.
  - intros (i & <- & Hi). apply In_zrange in Hi. exists i, (N2 - 1). lia.
  - intros (e1 & e2 & Hc & ->). exists e1. split; [|apply In_zrange; lia].
    assert (e2 = N2 - 1) by lia. subst. lia.
Qed.
Print Assumptions str_belms2.

Theorem str_belms3 : forall d1 d2 d3 face,
  dir_ok d1 -> dir_ok d2 -> dir_ok d3 -> 1 <= face <= 6 ->
  zlen (findBoundaryElms3 d1 d2 d3 face)
    = (let '(a, b) := along3 (nspan d1) (nspan d2) (nspan d3) face in a * b) /\
  forall e, In e (findBoundaryElms3 d1 d2 d3 face) <->
    exists e1 e2 e3, on_face (nspan d1) (nspan d2) (nspan d3) face e1 e2 e3 /\
      e = node3 (nspan d1) (nspan d2) e1 e2 e3.
Proof.
  intros d1 d2 d3 face [O1 _] [O2 _] [O3 _] He. unfold findBoundaryElms3. cbv zeta.
  fold (nspan d1) (nspan d2) (nspan d3).
  assert (H1 : 1 <= nspan d1) by (unfold nspan; lia).
  assert (H2 : 1 <= nspan d2) by (unfold nspan; lia).
  assert (H3 : 1 <= nspan d3) by (unfold nspan; lia).
  set (N1 := nspan d1) in *. set (N2 := nspan d2) in *. set (N3 := nspan d3) in *.
  assert (ZL : forall (g : Z -> Z -> Z) a b, 0 <= a -> 0 <= b ->
     zlen (flat_map (fun r => map (fun q => g q r) (zrange 0 a)) (zrange 0 b)) = a * b).
  { intros g a b Ha Hb. apply (zlen_grid2 a b g); auto. }
  assert (IN : forall (g : Z -> Z -> Z) a b x,
     In x (flat_map (fun r => map (fun q => g q r) (zrange 0 a)) (zrange 0 b)) <->
     exists q r, 0 <= q < a /\ 0 <= r < b /\ x = g q r).
  { intros g a b x. apply (In_grid2 a b g). }
  cases6 C face; cbn -[Z.add Z.sub Z.mul zrange]; (split; [apply ZL; lia|]);
    intros e; rewrite IN; unfold on_face, node3; split.
  - intros (q & r & Hq & Hr & ->). exists 0, q, r. lia.
  - intros (e1 & e2 & e3 & Hc & ->). exists e2, e3.
    assert (e1 = 0) by lia. subst. lia.
  - intros (q & r & Hq & Hr & ->). exists (N1 - 1), q, r. lia.
  - intros (e1 & e2 & e3 & Hc & ->). exists e2, e3.
    assert (e1 = N1 - 1) by lia. subst. lia.
  - intros (q & r & Hq & Hr & ->). exists q, 0, r. lia.
  - intros (e1 & e2 & e3 & Hc & ->). exists e1, e3.
    assert (e2 = 0) by lia. subst. lia.
  - intros (q & r & Hq & Hr & ->). exists q, (N2 - 1), r. lia.
  - intros (e1 & e2 & e3 & Hc & ->). exists e1, e3.
    assert (e2 = N2 - 1) by lia. subst. lia.
  - intros (q & r & Hq & Hr & ->). exists q, r, 0. lia.
  - intros (e1 & e2 & e3 & Hc & ->). exists e1, e2.
    assert (e3 = 0) by lia. subst. lia.
  - intros (q & r & Hq & Hr & ->). exists q, r, (N3 - 1). lia.
  - intros (e1 & e2 & e3 & Hc & ->). exists e1, e2.
    assert (e3 = N3 - 1) by lia. subst. lia.
Qed.
Print Assumptions str_belms3.

(** A Dirichlet condition on an edge reaches every node of that edge (of its
    interior, when open) once, and no other; the two end points get the
    function code itself, the nodes between get its negative (projection) or
    its absolute value (direct evaluation, negative code). *)
Theorem str_constrainEdge2 : forall p b n1 n2 dir open code,
  nth_error (sz2 p) (b - 1) = Some (n1, n2) -> 2 <= n1 -> 2 <= n2 ->
  1 <= dir_edge dir ->
  let l := constrainEdge2 p dir open code b in
  NoDup (map fst l) /\
  (forall x c, In (x, c) l <->
     exists i j, (if open then in_edge n1 n2 (dir_edge dir) i j
                  else on_edge n1 n2 (dir_edge dir) i j) /\
       x = first2 (sz2 p) b + node2 n1 i (stored (swapV p) n2 j) /\
       ((corner2 n1 n2 i j /\ c = Z.abs code) \/ (~ corner2 n1 n2 i j /\ c = - code))).
Proof.
  intros p b n1 n2 dir open code H H1 H2 Hd l.
  set (d := if swapV p then if (dir =? 2) || (dir =? -2) then - dir else dir else dir).
  assert (Hdir : dir = 1 \/ dir = -1 \/ dir = 2 \/ dir = -2).
  { unfold dir_edge in Hd. destruct dir as [|[q|q|]|[q|q|]]; auto; try lia;
      destruct q; auto; lia. }
  set (f := first2 (sz2 p) b).
  set (N := if (d =? 1) || (d =? -1) then n2 else n1).
  set (st := if d =? 1 then n1 - 1 else if d =? 2 then n1 * (n2 - 1) else 0).
  set (inc := if (d =? 1) || (d =? -1) then n1 else 1).
  assert (AB : (if 0 <? code then code else if code <? 0 then - code else code) = Z.abs code).
  { destruct (Z.ltb_spec 0 code), (Z.ltb_spec code 0); lia. }
  assert (HN : 2 <= N) by (unfold N; destruct ((d =? 1) || (d =? -1)); lia).
  assert (L : l = (if open then [] else [(f + st, Z.abs code)]) ++
      map (fun q => (f + st + inc * (q + 1), - code)) (zrange 0 (N - 2)) ++
      (if open then [] else [(f + st + inc * (N - 1), Z.abs code)])).
  { unfold l, constrainEdge2. rewrite (start2_ok _ _ _ _ _ _ H). cbv zeta. fold d f.
    rewrite AB. unfold st, inc, N in *.
    assert (Hd' : d = 1 \/ d = -1 \/ d = 2 \/ d = -2).
    { unfold d. destruct (swapV p); auto.
      destruct ((dir =? 2) || (dir =? -2)); lia. }
    clearbody d f. clear - Hd' H1 H2.
    destruct Hd' as [-> |[-> |[-> | ->]]]; cbn -[Z.add Z.sub Z.mul Z.max Z.to_nat loop zrange];
      rewrite loop_flatZ by lia; rewrite flat_map_sing, Z.max_r by lia.
    all: f_equal; [destruct open; auto; do 2 f_equal; lia|].
    all: f_equal; [apply map_ext; intros; f_equal; nia|].
    all: destruct open; auto; do 2 f_equal; nia. }
  assert (Hinc : 1 <= inc) by (unfold inc; destruct ((d =? 1) || (d =? -1)); lia).
  clearbody l. split.
  - rewrite L. rewrite !map_app, map_map.
    assert (NM : NoDup (map (fun q => f + st + inc * (q + 1)) (zrange 0 (N - 2)))).
    { apply Injective_map_NoDup.
      - intros x y E. nia.
      - unfold zrange. apply Injective_map_NoDup; [intros x y; lia|apply seq_NoDup]. }
    destruct open; cbn [map app fst].
    + rewrite app_nil_r. auto.
    + constructor.
      * rewrite in_app_iff, in_map_iff. intros [(q & E & Hq)|[E|[]]].
        -- apply In_zrange in Hq. nia.
        -- nia.
      * apply NoDup_rev in NM. rewrite <- (rev_involutive (_ ++ _)). apply NoDup_rev.
        rewrite rev_app_distr. cbn [rev app]. constructor; auto.
        rewrite <- in_rev, in_map_iff. intros (q & E & Hq). apply In_zrange in Hq. nia.
  - intros x c.
    assert (IL : In (x, c) l <-> exists q, 0 <= q < N /\ (open = true -> 0 < q < N - 1) /\
        x = f + st + inc * q /\
        (((q = 0 \/ q = N - 1) /\ c = Z.abs code) \/ (0 < q < N - 1 /\ c = - code))).
    { rewrite L, !in_app_iff, in_map_iff. split.
      - intros [Hx|[(q & E & Hq)|Hx]].
        + destruct open; [destruct Hx|]. destruct Hx as [E|[]]. injection E as <- <-.
          exists 0. repeat split; try lia; try discriminate.
        + injection E as <- <-. apply In_zrange in Hq. exists (q + 1).
          repeat split; try lia.
        + destruct open; [destruct Hx|]. destruct Hx as [E|[]]. injection E as <- <-.
          exists (N - 1). repeat split; try lia; try discriminate.
      - intros (q & Hq & Ho & -> & [[[-> | ->] ->]|[Hq' ->]]).
        + left. destruct open; [specialize (Ho eq_refl); lia|]. left. f_equal; lia.
        + right. right. destruct open; [specialize (Ho eq_refl); lia|]. left. f_equal; lia.
        + right. left. exists (q - 1). split; [do 2 f_equal; lia|apply In_zrange; lia]. }
    rewrite IL. clear IL L. unfold corner2, in_edge, on_edge, stored, node2.
    unfold st, inc, N, d in *. clear st inc N d.
    destruct Hdir as [-> |[-> |[-> | ->]]]; destruct (swapV p);
      cbn -[Z.add Z.sub Z.mul] in *; split.
    + intros (q & Hq & Ho & -> & Hc). exists (n1 - 1), (n2 - 1 - q). destruct open;
        [specialize (Ho eq_refl)|]; (split; [lia|]); (split; [lia|]); lia.
    + intros (i & j & Hij & -> & Hc). exists (n2 - 1 - j). destruct open; repeat split; try lia; try discriminate;
        assert (i = n1 - 1) by lia; subst i; lia.
    + intros (q & Hq & Ho & -> & Hc). exists (n1 - 1), q. destruct open;
        [specialize (Ho eq_refl)|]; (split; [lia|]); (split; [lia|]); lia.
    + intros (i & j & Hij & -> & Hc). exists j. destruct open; repeat split; try lia; try discriminate;
        assert (i = n1 - 1) by lia; subst i; lia.
    + intros (q & Hq & Ho & -> & Hc). exists 0, (n2 - 1 - q). destruct open;
        [specialize (Ho eq_refl)|]; (split; [lia|]); (split; [lia|]); lia.
    + intros (i & j & Hij & -> & Hc). exists (n2 - 1 - j). destruct open; repeat split; try lia; try discriminate;
        assert (i = 0) by lia; subst i; lia.
    + intros (q & Hq & Ho & -> & Hc). exists 0, q. destruct open;
        [specialize (Ho eq_refl)|]; (split; [lia|]); (split; [lia|]); lia.
    + intros (i & j & Hij & -> & Hc). exists j. destruct open; repeat split; try lia; try discriminate;
        assert (i = 0) by lia; subst i; lia.
    + intros (q & Hq & Ho & -> & Hc). exists q, (n2 - 1). destruct open;
        [specialize (Ho eq_refl)|]; (split; [lia|]); (split; [lia|]); lia.
    + intros (i & j & Hij & -> & Hc). exists i. destruct open; repeat split; try lia; try discriminate;
        assert (j = n2 - 1) by lia; subst j; lia.
    + intros (q & Hq & Ho & -> & Hc). exists q, (n2 - 1). destruct open;
        [specialize (Ho eq_refl)|]; (split; [lia|]); (split; [lia|]); lia.
    + intros (i & j & Hij & -> & Hc). exists i. destruct open; repeat split; try lia; try discriminate;
        assert (j = n2 - 1) by lia; subst j; lia.
    + intros (q & Hq & Ho & -> & Hc). exists q, 0. destruct open;
        [specialize (Ho eq_refl)|]; (split; [lia|]); (split; [lia|]); lia.
    + intros (i & j & Hij & -> & Hc). exists i. destruct open; repeat split; try lia; try discriminate;
        assert (j = 0) by lia; subst j; lia.
    + intros (q & Hq & Ho & -> & Hc). exists q, 0. destruct open;
        [specialize (Ho eq_refl)|]; (split; [lia|]); (split; [lia|]); lia.
    + intros (i & j & Hij & -> & Hc). exists i. destruct open; repeat split; try lia; try discriminate;
        assert (j = 0) by lia; subst j; lia.
Qed.
Print Assumptions str_constrainEdge2.

Lemma sorted_filter_fst (L : list (Z * bool)) :
  StronglySorted Z.lt (map fst L) -> StronglySorted Z.lt (map fst (filter snd L)).
Proof.
  induction L as [|[x b] L IH]; cbn [map filter fst snd]; auto.
  intros S. inversion S as [|? ? S' F]; subst. destruct b; auto.
  cbn [map fst]. constructor; auto. rewrite Forall_forall in *. intros y Hy. apply F.
  apply in_map_iff in Hy. destruct Hy as (z & <- & Hz). apply filter_In in Hz.
  apply in_map. tauto.
Qed.

(** The double loop of constrainFace over an M1 x M2 face with node strides. *)
Lemma face_loop (open : bool) code bcode node sq sr M1 M2 :
  1 <= M1 -> 1 <= M2 -> 1 <= sq -> sq * M1 <= sr ->
  let isend i n := (i =? 1) || (i =? n) in
  let l := flat_map (fun r => flat_map (fun q =>
             face_body open (isend q M1) (isend r M2) code bcode
                       (node + sr * (r - 1) + sq * (q - 1))) (zrange 1 M1)) (zrange 1 M2) in
  StronglySorted Z.lt (map fst l) /\
  (forall x c, In (x, c) l <-> exists q r, 0 <= q < M1 /\ 0 <= r < M2 /\
     (open = true -> 0 < q < M1 - 1 /\ 0 < r < M2 - 1) /\
     x = node + sr * r + sq * q /\
     (((q = 0 \/ q = M1 - 1) /\ (r = 0 \/ r = M2 - 1) /\ c = bcode) \/
      (~ ((q = 0 \/ q = M1 - 1) /\ (r = 0 \/ r = M2 - 1)) /\ c = - code))).
Proof.
  intros HM1 HM2 Hsq Hsr isend l. split.
  - set (L := grid2 M1 M2 (fun q r => (node + sr * r + sq * q,
         negb (open && (isend (q + 1) M1 || isend (r + 1) M2))))).
    assert (E : map fst l = map fst (filter snd L)).
    { unfold l, L, grid2. rewrite map_flat_map, filter_flat_map, map_flat_map.
      rewrite (flat_map_zrange_shift _ 0 1). apply flat_map_ext. intros r.
      rewrite map_flat_map, filter_map_comm, map_map. cbn [fst snd].
      rewrite (flat_map_zrange_shift _ 0 1).
      rewrite <- flat_map_sing, <- flat_map_if. apply flat_map_ext. intros q.
      unfold face_body.
      replace (node + sr * (r + 1 - 1) + sq * (q + 1 - 1)) with (node + sr * r + sq * q) by lia.
      destruct (open && (isend (q + 1) M1 || isend (r + 1) M2)); cbn [negb]; auto.
      destruct (isend (q + 1) M1 && isend (r + 1) M2); reflexivity. }
    rewrite E. apply sorted_filter_fst. unfold L.
    assert (E2 : map fst (grid2 M1 M2 (fun q r => (node + sr * r + sq * q,
         negb (open && (isend (q + 1) M1 || isend (r + 1) M2)))))
         = grid2 M1 M2 (fun q r => node + sr * r + sq * q)).
    { unfold grid2. rewrite map_flat_map. apply flat_map_ext. intros r.
      rewrite map_map. reflexivity. }
    rewrite E2. apply sorted_grid2; try lia. intros i j i' j' Hi Hi' Hj Hj' Hlt.
    destruct Hlt as [Hlt|[-> Hlt]]; [|nia].
    assert (sr * (j + 1) <= sr * j') by nia.
    assert (sq * i <= sq * (M1 - 1)) by nia. assert (0 <= sq * i') by nia. nia.
  - intros x c. unfold l. rewrite in_flat_map. split.
    + intros (r & Hr & Hx). apply In_zrange in Hr. apply in_flat_map in Hx.
      destruct Hx as (q & Hq & Hx). apply In_zrange in Hq. unfold face_body, isend in Hx.
      exists (q - 1), (r - 1).
      destruct (Z.eqb_spec q 1), (Z.eqb_spec q M1), (Z.eqb_spec r 1), (Z.eqb_spec r M2), open;
        cbn [orb andb] in Hx; (destruct Hx as [Hx|[]] || (exfalso; exact Hx));
        injection Hx as <- <-;
        repeat split; try lia; try discriminate.
    + intros (q & r & Hq & Hr & Ho & -> & Hc). exists (r + 1).
      split; [apply In_zrange; lia|]. apply in_flat_map. exists (q + 1).
      split; [apply In_zrange; lia|]. unfold face_body, isend.
      replace (node + sr * (r + 1 - 1) + sq * (q + 1 - 1)) with (node + sr * r + sq * q) by lia.
      destruct open; [specialize (Ho eq_refl)|];
      destruct (Z.eqb_spec (q + 1) 1), (Z.eqb_spec (q + 1) M1), (Z.eqb_spec (r + 1) 1),
        (Z.eqb_spec (r + 1) M2); cbn [orb andb]; try lia;
        (left; f_equal; lia).
Qed.

(** A Dirichlet condition on a face reaches every node of that face (of its
    interior, when open) once, in increasing order, and no other; the four
    corners get the function code itself, the others its negative. *)
Theorem str_constrainFace3 : forall p b n1 n2 n3 dir open code,
  nth_error (sz3 p) (b - 1) = Some (n1, n2, n3) ->
  Forall (fun s => 0 <= fst (fst s) /\ 0 <= snd (fst s) /\ 0 <= snd s) (sz3 p) ->
  1 <= n1 -> 1 <= n2 -> 1 <= n3 -> 1 <= dir_face dir ->
  let l := constrainFace3 p dir open code b in
  StronglySorted Z.lt (map fst l) /\
  (forall x c, In (x, c) l <->
     exists i j k, (if open then in_face n1 n2 n3 (dir_face dir) i j k
                    else on_face n1 n2 n3 (dir_face dir) i j k) /\
       x = first3 (sz3 p) b + node3 n1 n2 i j (stored (swapW p) n3 k) /\
       ((corner3 n1 n2 n3 i j k /\ c = Z.abs code) \/
        (~ corner3 n1 n2 n3 i j k /\ c = - code))).
Proof.
  intros p b n1 n2 n3 dir open code H HF H1 H2 H3 Hd l.
  assert (Hdir : dir = 1 \/ dir = -1 \/ dir = 2 \/ dir = -2 \/ dir = 3 \/ dir = -3).
  { unfold dir_face in Hd. destruct dir as [|[q|q|]|[q|q|]]; auto; try lia;
      destruct q; auto; lia. }
  pose proof (first3_pos (sz3 p) b HF) as Hf. set (f := first3 (sz3 p) b) in *.
  assert (AB : (if 0 <? code then code else if code <? 0 then - code else code) = Z.abs code).
  { destruct (Z.ltb_spec 0 code), (Z.ltb_spec code 0); lia. }
  set (d := if swapW p && (Z.abs dir =? 3) then - dir else dir).
  assert (L : l = if (d =? 1) || (d =? -1) then
      flat_map (fun r => flat_map (fun q =>
             face_body open ((q =? 1) || (q =? n2)) ((r =? 1) || (r =? n3)) code (Z.abs code)
               ((if d =? 1 then f + (n1 - 1) else f) + n2 * n1 * (r - 1) + n1 * (q - 1)))
               (zrange 1 n2)) (zrange 1 n3)
    else if (d =? 2) || (d =? -2) then
      flat_map (fun r => flat_map (fun q =>
             face_body open ((q =? 1) || (q =? n1)) ((r =? 1) || (r =? n3)) code (Z.abs code)
               ((if d =? 2 then f + n1 * (n2 - 1) else f) + n2 * n1 * (r - 1) + 1 * (q - 1)))
               (zrange 1 n1)) (zrange 1 n3)
    else
      flat_map (fun r => flat_map (fun q =>
             face_body open ((q =? 1) || (q =? n1)) ((r =? 1) || (r =? n2)) code (Z.abs code)
               ((if d =? 3 then f + n1 * n2 * (n3 - 1) else f) + n1 * (r - 1) + 1 * (q - 1)))
               (zrange 1 n1)) (zrange 1 n2)).
  { unfold l, constrainFace3. rewrite (start3_ok _ _ _ _ _ _ H). fold f.
    replace (1 + (f - 1)) with f by lia.
    destruct (Z.ltb_spec f 1); [lia|]. cbv zeta. rewrite AB. fold d.
    assert (Hd' : d = 1 \/ d = -1 \/ d = 2 \/ d = -2 \/ d = 3 \/ d = -3).
    { unfold d. destruct (swapW p && (Z.abs dir =? 3)); lia. }
    clearbody d f. clear - Hd'.
    destruct Hd' as [-> |[-> |[-> |[-> |[-> | ->]]]]];
      cbn -[Z.add Z.sub Z.mul zrange Z.eqb face_body];
      apply flat_map_ext; intros r; apply flat_map_ext; intros q; f_equal; ring. }
  clearbody l. subst l. unfold corner3, in_face, on_face, node3, stored.
  destruct Hdir as [-> |[-> |[-> |[-> |[-> | ->]]]]]; destruct (swapW p);
    vm_compute in d; unfold d; clear d; cbn [dir_face];
    cbn [Z.eqb Pos.eqb orb];
    match goal with |- context [flat_map (fun r => flat_map (fun q =>
       face_body open ((q =? 1) || (q =? ?M1)) ((r =? 1) || (r =? ?M2)) code (Z.abs code)
         (?nd + ?sr * (r - 1) + ?sq * (q - 1))) (zrange 1 ?M1)) (zrange 1 ?M2)] =>
      pose proof (face_loop open code (Z.abs code) nd sq sr M1 M2) as FL end;
    cbv zeta in FL; (destruct FL as [F1 F2]; [lia|lia|lia|nia|]);
    (split; [exact F1|]); intros x c; rewrite F2; clear F1 F2; split.
  Local Ltac fwd Ho open :=
    destruct open; [specialize (Ho eq_refl)|]; (split; [lia|split; [ring|lia]]).
  Local Ltac bwd open :=
    destruct open; (split; [lia|split; [lia|split; [(intros _; lia) || discriminate|
      split; [ring|lia]]]]).
  - intros (q & r & Hq & Hr & Ho & -> & Hc). exists (n1 - 1), q, (n3 - 1 - r). fwd Ho open.
  - intros (i & j & k & F & -> & Hc). assert (i = n1 - 1) by (destruct open; lia). subst i.
    exists j, (n3 - 1 - k). bwd open.
  - intros (q & r & Hq & Hr & Ho & -> & Hc). exists (n1 - 1), q, r. fwd Ho open.
  - intros (i & j & k & F & -> & Hc). assert (i = n1 - 1) by (destruct open; lia). subst i.
    exists j, k. bwd open.
  - intros (q & r & Hq & Hr & Ho & -> & Hc). exists 0, q, (n3 - 1 - r). fwd Ho open.
  - intros (i & j & k & F & -> & Hc). assert (i = 0) by (destruct open; lia). subst i.
    exists j, (n3 - 1 - k). bwd open.
  - intros (q & r & Hq & Hr & Ho & -> & Hc). exists 0, q, r. fwd Ho open.
  - intros (i & j & k & F & -> & Hc). assert (i = 0) by (destruct open; lia). subst i.
    exists j, k. bwd open.
  - intros (q & r & Hq & Hr & Ho & -> & Hc). exists q, (n2 - 1), (n3 - 1 - r). fwd Ho open.
  - intros (i & j & k & F & -> & Hc). assert (j = n2 - 1) by (destruct open; lia). subst j.
    exists i, (n3 - 1 - k). bwd open.
  - intros (q & r & Hq & Hr & Ho & -> & Hc). exists q, (n2 - 1), r. fwd Ho open.
  - intros (i & j & k & F & -> & Hc). assert (j = n2 - 1) by (destruct open; lia). subst j.
    exists i, k. bwd open.
  - intros (q & r & Hq & Hr & Ho & -> & Hc). exists q, 0, (n3 - 1 - r). fwd Ho open.
  - intros (i & j & k & F & -> & Hc). assert (j = 0) by (destruct open; lia). subst j.
    exists i, (n3 - 1 - k). bwd open.
  - intros (q & r & Hq & Hr & Ho & -> & Hc). exists q, 0, r. fwd Ho open.
  - intros (i & j & k & F & -> & Hc). assert (j = 0) by (destruct open; lia). subst j.
    exists i, k. bwd open.
  - intros (q & r & Hq & Hr & Ho & -> & Hc). exists q, r, (n3 - 1). fwd Ho open.
  - intros (i & j & k & F & -> & Hc). assert (k = n3 - 1) by (destruct open; lia). subst k.
    exists i, j. bwd open.
  - intros (q & r & Hq & Hr & Ho & -> & Hc). exists q, r, (n3 - 1). fwd Ho open.
  - intros (i & j & k & F & -> & Hc). assert (k = n3 - 1) by (destruct open; lia). subst k.
    exists i, j. bwd open.
  - intros (q & r & Hq & Hr & Ho & -> & Hc). exists q, r, 0. fwd Ho open.
  - intros (i & j & k & F & -> & Hc). assert (k = 0) by (destruct open; lia). subst k.
    exists i, j. bwd open.
  - intros (q & r & Hq & Hr & Ho & -> & Hc). exists q, r, 0. fwd Ho open.
  - intros (i & j & k & F & -> & Hc). assert (k = 0) by (destruct open; lia). subst k.
    exists i, j. bwd open.
Qed.
Print Assumptions str_constrainFace3.

(** Renumbering a reversed patch attaches the numbers given for the user's
    node positions to those positions (2D, and 3D with layers of n1*n2). *)
Theorem str_setNodeNumbers : forall swapped n1 n2 nodes,
  0 <= n1 -> 0 <= n2 -> zlen nodes = n1 * n2 ->
  let m := setNodeNumbers swapped n1 n2 nodes in
  zlen m = n1 * n2 /\
  forall i j, 0 <= i < n1 -> 0 <= j < n2 ->
    znth m (node2 n1 i (stored swapped n2 j)) = znth nodes (node2 n1 i j).
Proof.
  intros swapped n1 n2 nodes H1 H2 HL m. unfold m. destruct swapped; cbn [stored].
  - destruct (setNodeNumbers_swap n1 n2 nodes H1 H2 HL) as [A B]. split; auto.
    intros i j Hi Hj. rewrite B by lia. do 2 f_equal. lia.
  - split; auto.
Qed.
Print Assumptions str_setNodeNumbers.

Theorem str_setNodeNumbers3 : forall swapped n1 n2 n3 nodes,
  0 <= n1 -> 0 <= n2 -> 0 <= n3 -> zlen nodes = n1 * n2 * n3 ->
  let m := setNodeNumbers swapped (n1 * n2) n3 nodes in
  zlen m = n1 * n2 * n3 /\
  forall i j k, 0 <= i < n1 -> 0 <= j < n2 -> 0 <= k < n3 ->
    znth m (node3 n1 n2 i j (stored swapped n3 k)) = znth nodes (node3 n1 n2 i j k).
Proof.
  intros swapped n1 n2 n3 nodes H1 H2 H3 HL m.
  destruct (str_setNodeNumbers swapped (n1 * n2) n3 nodes) as [A B]; [nia|lia|lia|].
  split; auto. intros i j k Hi Hj Hk. specialize (B (node2 n1 i j) k).
  replace (node3 n1 n2 i j (stored swapped n3 k))
    with (node2 (n1 * n2) (node2 n1 i j) (stored swapped n3 k)) by (unfold node2, node3; ring).
  replace (node3 n1 n2 i j k)
    with (node2 (n1 * n2) (node2 n1 i j) k) by (unfold node2, node3; ring).
  apply B; auto. unfold node2. nia.
Qed.
Print Assumptions str_setNodeNumbers3.

(** End nodes of a curve, when its end element exists and is thick enough. *)
Theorem str_bnodes1_partial : forall d1 mlge mlgn lIndex thick local,
  dir_ok d1 -> 1 <= thick <= ord d1 -> lIndex = 1 \/ lIndex = 2 ->
  let e := if lIndex =? 1 then 0 else nspan d1 - 1 in
  nonzero d1 e -> 0 < nth (Z.to_nat e) mlge 0 ->
  getBoundaryNodes1 d1 mlge mlgn lIndex thick local
  = Some (map (fun t => let x := (if lIndex =? 1 then t else ncf d1 - thick + t) in
                        if local then x + 1 else nth (Z.to_nat x) mlgn 0)
              (zrange 0 thick)).
Proof.
  intros d1 mlge mlgn lIndex thick local O Ht Hl e Hn Hm.
  pose proof O as [Hp _]. destruct (str_mnpc1 d1 O) as [ZL _].
  unfold getBoundaryNodes1. cbv zeta.
  assert (Hspan : 1 <= nspan d1) by (unfold nspan; lia).
  assert (EI : (if lIndex =? 1 then 0%nat else Nat.pred (length (createMNPC1 d1))) = Z.to_nat e).
  { unfold e. unfold zlen in ZL. destruct (lIndex =? 1); auto. lia. }
  rewrite EI.
  assert (ET : (0 <? nth (Z.to_nat e) mlge 0) && ((lIndex =? 1) || (lIndex =? 2)) = true).
  { apply andb_true_intro. split; [apply Z.ltb_lt; auto|].
    destruct Hl as [-> | ->]; reflexivity. }
  rewrite ET.
  assert (He : 0 <= e < nspan d1) by (unfold e; destruct (lIndex =? 1); lia).
  assert (R : nth (Z.to_nat e) (createMNPC1 d1) [] = map (fun a => e + a) (zrange 0 (ord d1))).
  { apply nth_znth. rewrite createMNPC1_grid by auto. rewrite znth_map, znth_zrange by lia.
    cbn [option_map]. unfold nonzero in Hn. replace (0 + e) with e by lia.
    destruct (Z.ltb_spec (span_lo d1 e) (span_hi d1 e)); auto. lia. }
  rewrite R.
  assert (P : forall l, (forall t, In t l -> 0 <= t < thick) ->
    fold_right (fun i acc => match acc with None => None | Some l0 =>
       if (if lIndex =? 1 then 0 else ord d1 - thick) + i <? 0 then None else
       match nth_error (map (fun a => e + a) (zrange 0 (ord d1)))
               (Z.to_nat ((if lIndex =? 1 then 0 else ord d1 - thick) + i)) with
       | None => None
       | Some node => Some ((if local then node + 1 else nth (Z.to_nat node) mlgn 0) :: l0)
       end end) (Some []) l
    = Some (map (fun t => if local then (if lIndex =? 1 then t else ncf d1 - thick + t) + 1
            else nth (Z.to_nat (if lIndex =? 1 then t else ncf d1 - thick + t)) mlgn 0) l)).
  { induction l as [|t l IH]; intros HI; cbn [fold_right map]; auto.
    rewrite IH by (intros; apply HI; right; auto).
    assert (Ht' : 0 <= t < thick) by (apply HI; left; auto).
    set (o := (if lIndex =? 1 then 0 else ord d1 - thick) + t).
    assert (Ho : 0 <= o < ord d1) by (unfold o; destruct (lIndex =? 1); lia).
    destruct (Z.ltb_spec o 0); [lia|].
    assert (E : znth (map (fun a => e + a) (zrange 0 (ord d1))) o = Some (e + o))
      by (rewrite znth_map, znth_zrange by lia; cbn; do 2 f_equal; lia).
    unfold znth in E. destruct (Z.ltb_spec o 0); [lia|]. rewrite E.
    assert (EE : e + o = if lIndex =? 1 then t else ncf d1 - thick + t)
      by (unfold e, o, nspan; destruct (lIndex =? 1); lia).
    rewrite EE. reflexivity. }
  apply P. intros t Hin. apply In_zrange in Hin. lia.
Qed.
Print Assumptions str_bnodes1_partial.

(* ---- what does not hold ---- *)

Definition lin3 : sdir := mkDir 3 2 (fun i => nth (Z.to_nat i) [0;0;1;2;2] 2).
Definition lin2 : sdir := mkDir 2 2 (fun i => nth (Z.to_nat i) [0;0;1;1] 1).

(** On a reversed surface getBoundaryNodes ignores the reversal, constrainEdge
    and getCorner respect it: the Dirichlet condition on edge 3 and the node
    set of edge 3 have no node in common. *)
Theorem str_bnodes2_swap_refuted :
  exists p n1 n2, swapV p = true /\ nth_error (sz2 p) 0 = Some (n1, n2) /\ 2 <= n1 /\ 2 <= n2 /\
    (forall x c, In (x, c) (constrainEdge2 p (-2) false 0 1) ->
                 ~ In x (getBoundaryNodes2 p 3 1 1 true)) /\
    constrainEdge2 p (-2) false 0 1 <> [] /\
    ~ In (getCorner2 p (-1) (-1) 1) (getBoundaryNodes2 p 3 1 1 true).
Proof.
  exists (mkP2 [(3, 2)] [1;2;3;4;5;6] true), 3, 2.
  split; [reflexivity|]. split; [reflexivity|]. split; [lia|]. split; [lia|].
  split; [|split].
  - intros x c Hx. cbn in Hx.
    destruct Hx as [E|[E|[E|[]]]]; injection E as <- <-;
      intros HI; vm_compute in HI; intuition discriminate.
  - discriminate.
  - intros HI; vm_compute in HI; intuition discriminate.
Qed.
Print Assumptions str_bnodes2_swap_refuted.

(** On a reversed volume the elements found for face 5 have no node among the
    boundary nodes of face 5: findBoundaryElms ignores the reversal. *)
Theorem str_belms3_swap_refuted :
  exists p d1 d2 d3, dir_ok d1 /\ dir_ok d2 /\ dir_ok d3 /\ swapW p = true /\
    sz3 p = [(ncf d1, ncf d2, ncf d3)] /\
    findBoundaryElms3 d1 d2 d3 5 <> [] /\
    (forall e row x, In e (findBoundaryElms3 d1 d2 d3 5) ->
       znth (createMNPC3 d1 d2 d3) e = Some row -> In x row ->
       ~ In (x + 1) (getBoundaryNodes3 p 5 1 1 true)).
Proof.
  assert (O2 : dir_ok lin2).
  { split; [cbn; lia|]. intros a b Hab Hb. cbn in Hb.
    assert (Ha : a = 0 \/ a = 1 \/ a = 2 \/ a = 3) by lia.
    assert (Hb' : b = 0 \/ b = 1 \/ b = 2 \/ b = 3) by lia.
    destruct Ha as [-> |[-> |[-> | ->]]], Hb' as [-> |[-> |[-> | ->]]];
      try (exfalso; lia); apply Z.leb_le; reflexivity. }
  assert (O3 : dir_ok lin3).
  { split; [cbn; lia|]. intros a b Hab Hb. cbn in Hb.
    assert (Ha : a = 0 \/ a = 1 \/ a = 2 \/ a = 3 \/ a = 4) by lia.
    assert (Hb' : b = 0 \/ b = 1 \/ b = 2 \/ b = 3 \/ b = 4) by lia.
    destruct Ha as [-> |[-> |[-> |[-> | ->]]]], Hb' as [-> |[-> |[-> |[-> | ->]]]];
      try (exfalso; lia); apply Z.leb_le; reflexivity. }
  exists (mkP3 [(2, 2, 3)] [] true), lin2, lin2, lin3.
  do 3 (split; [assumption|]). split; [reflexivity|]. split; [reflexivity|].
  split; [discriminate|].
  intros e row x He Hr Hx.
  assert (e = 0) as -> by (vm_compute in He; intuition congruence).
  assert (row = [0;1;2;3;4;5;6;7]) as -> by (vm_compute in Hr; congruence).
  assert (EB : getBoundaryNodes3 (mkP3 [(2, 2, 3)] [] true) 5 1 1 true = [9;10;11;12])
    by reflexivity.
  rewrite EB. cbn in *. lia.
Qed.
Print Assumptions str_belms3_swap_refuted.

(** A curve whose last knot span is empty has no end nodes, and asking for more
    layers than the order reads outside the node list of the element. *)
Theorem str_bnodes1_refuted :
  (exists d1 mlge mlgn, dir_ok d1 /\ zlen mlge = nspan d1 /\
     (forall e, 0 <= e < nspan d1 -> (nonzero d1 e <-> 0 < nth (Z.to_nat e) mlge 0)) /\
     2 <= ncf d1 /\ getBoundaryNodes1 d1 mlge mlgn 2 1 true = Some []) /\
  (exists d1 mlge mlgn thick, dir_ok d1 /\ thick <= ncf d1 /\
     getBoundaryNodes1 d1 mlge mlgn 1 thick true = None).
Proof.
  split.
  - exists (mkDir 3 2 (fun i => nth (Z.to_nat i) [0;0;1;1;1] 1)), [1;0], [1;2;3].
    split; [|split; [reflexivity|split; [|split; [cbn; lia|reflexivity]]]].
    + split; [cbn; lia|]. intros a b Hab Hb. cbn in Hb.
      assert (Ha : a = 0 \/ a = 1 \/ a = 2 \/ a = 3 \/ a = 4) by lia.
      assert (Hb' : b = 0 \/ b = 1 \/ b = 2 \/ b = 3 \/ b = 4) by lia.
      destruct Ha as [-> |[-> |[-> |[-> | ->]]]], Hb' as [-> |[-> |[-> |[-> | ->]]]];
        try (exfalso; lia); apply Z.leb_le; reflexivity.
    + intros e He. cbn in He. assert (E : e = 0 \/ e = 1) by lia.
      destruct E as [-> | ->]; vm_compute; split; congruence.
  - exists lin3, [1;2], [1;2;3], 3. split; [|split; [cbn; lia|reflexivity]].
    split; [cbn; lia|]. intros a b Hab Hb. cbn in Hb.
    assert (Ha : a = 0 \/ a = 1 \/ a = 2 \/ a = 3 \/ a = 4) by lia.
    assert (Hb' : b = 0 \/ b = 1 \/ b = 2 \/ b = 3 \/ b = 4) by lia.
    destruct Ha as [-> |[-> |[-> |[-> | ->]]]], Hb' as [-> |[-> |[-> |[-> | ->]]]];
      try (exfalso; lia); apply Z.leb_le; reflexivity.
Qed.
Print Assumptions str_bnodes1_refuted.

(* ---- examples ---- *)

Definition ex_p2 : patch2 := mkP2 [(4, 3); (3, 2)] (zrange 101 18) false.
Example ex_b2 : getBoundaryNodes2 ex_p2 2 1 2 true = [3;4;7;8;11;12].
Proof. reflexivity. Qed.
Example ex_b2g : getBoundaryNodes2 ex_p2 4 2 1 false = [116;117;118].
Proof. reflexivity. Qed.
Definition ex_p3 : patch3 := mkP3 [(3, 2, 4)] (zrange 1 24) true.
Example ex_p3_ok :
  Forall (fun s => 0 <= fst (fst s) /\ 0 <= snd (fst s) /\ 0 <= snd s) (sz3 ex_p3).
Proof. repeat constructor; cbn; lia. Qed.
Example ex_b3 : getBoundaryNodes3 ex_p3 5 1 1 false = [19;20;21;22;23;24].
Proof. reflexivity. Qed.
Example ex_e3 : getBoundary1Nodes3 ex_p3 1 1 true false = [19;20;21].
Proof. reflexivity. Qed.
Example ex_c3 : constrainFace3 ex_p3 (-1) true 7 1 = [] /\
  constrainFace3 ex_p3 (-3) false 7 1
  = [(19,7);(20,-7);(21,7);(22,7);(23,-7);(24,7)].
Proof. split; reflexivity. Qed.
Example ex_sn : setNodeNumbers true 2 3 [1;2;3;4;5;6] = [5;6;3;4;1;2].
Proof. reflexivity. Qed.
