(** Initialisation of all tables from the patches. *)
From Coq Require Import List Sorted Permutation Arith ZArith QArith Qcanon Bool Lia.
From Verif Require Import Base SAM_model SAM_spec SAM_proofs SAM_proofs2 SAM_proofs3 MPC_model MPC_spec SAMpatch_model SAMpatch_spec SAMpatch_proofs SAMpatch_proofs2 SAMpatch_proofs3.
Import ListNotations.
Local Open Scope Z_scope.

Lemma nodeDofs_table nn ps : modelOK nn ps -> exists md sc, initNodeDofs nn ps = Some (true, md, sc) /\
  length md = S nn /\ dofTable md sc /\ (forall k, isKey md k <-> dofIn nn ps k) /\
  (forall k, dofIn nn ps k -> (code sc (dofOf md k) = 0 <-> isFixed ps k)) /\
  (forall j, 1 <= j <= Z.of_nat (length sc) -> exists k, dofIn nn ps k /\ dofOf md k = j).
Proof.
  intros (Hnn & Hpos & Hcons & Hbc & _ & _). destruct (initNodeDofs_spec nn ps Hnn Hpos Hbc) as (ok & md & sc & c & E & L & M0 & MS & ME & F & Hc & Hok & Hfix).
  assert (Hn : forall n nd, hasNode ps n nd -> 1 <= n <= Z.of_nat nn -> nd = c (Z.to_nat n)).
  { intros n nd Hn R. destruct (Hc (Z.to_nat n) ltac:(lia)) as [[_ Q]|Q]; rewrite Z2Nat.id in Q by lia; [exfalso; apply Q; eauto|]. exact (Hcons n nd _ Hn Q R). }
  assert (ok = true) by (apply Hok; exact Hn). subst ok. exists md, sc. split; [exact E|]. split; [exact L|].
  assert (DT : dofTable md sc).
  { split; [lia|]. split; [exact M0|]. split; [intros i Hi; rewrite MS by lia; lia|]. split; [rewrite L; replace (S nn - 1)%nat with nn by lia; exact ME|exact F]. }
  split; [exact DT|].
  assert (K : forall k, isKey md k <-> dofIn nn ps k).
  { intros [n l]. unfold isKey, dofIn, dofOf. cbn [fst snd]. rewrite L. split.
    - intros (H1 & H2 & H3). pose proof (MS (Z.to_nat (n-1)) ltac:(lia)) as Q. replace (S (Z.to_nat (n - 1))) with (Z.to_nat n) in Q by lia. rewrite Q in H3.
      split; [lia|]. destruct (Hc (Z.to_nat n) ltac:(lia)) as [[Z0 _]|R]; [lia|]. rewrite Z2Nat.id in R by lia. exists (c (Z.to_nat n)). split; [exact R|lia].
    - intros (H1 & nd & H2 & H3). split; [lia|]. split; [lia|]. pose proof (MS (Z.to_nat (n-1)) ltac:(lia)) as Q. replace (S (Z.to_nat (n - 1))) with (Z.to_nat n) in Q by lia. rewrite Q.
      rewrite (Hn n nd H2 ltac:(lia)) in H3. lia. }
  split; [exact K|]. split.
  - intros [n l] Hk. assert (IK : isKey md (n, l)) by (apply K; exact Hk). pose proof (isKey_range md sc DT _ IK) as RG. destruct Hk as (H1 & nd & H2 & H3). cbn [fst snd] in *.
    assert (H4 : (1 <= Z.to_nat l <= c (Z.to_nat n))%nat) by (rewrite (Hn n nd H2 ltac:(lia)) in H3; lia).
    destruct (Hfix (Z.to_nat n) (Z.to_nat l) ltac:(lia) H4) as [A _]. rewrite Z2Nat.id in A by lia. unfold isFixed. cbn [fst snd]. rewrite <- A. unfold code, dofOf in *. cbn [fst snd] in *.
    rewrite (nth_def sc _ 1 0) by (replace (Z.to_nat (n-1)) with (Z.to_nat n - 1)%nat in * by lia; lia).
    replace (Z.to_nat (Z.of_nat (nth (Z.to_nat (n - 1)) md 0%nat) + l - 1 - 1)) with (nth (Z.to_nat n - 1) md 0 + Z.to_nat l - 2)%nat by (replace (Z.to_nat (n-1)) with (Z.to_nat n - 1)%nat by lia; lia). reflexivity.
  - assert (G : forall m, (m <= nn)%nat -> forall j, 1 <= j < Z.of_nat (nth m md 0%nat) -> exists k, isKey md k /\ dofOf md k = j).
    { induction m as [|m IH]; intros Hm j Hj; [rewrite M0 in Hj; lia|]. destruct (Z.lt_ge_cases j (Z.of_nat (nth m md 0%nat))) as [Q|Q]; [apply IH; lia|].
      exists (Z.of_nat (S m), j - Z.of_nat (nth m md 0%nat) + 1). unfold isKey, dofOf. cbn [fst snd]. replace (Z.to_nat (Z.of_nat (S m) - 1)) with m by lia. rewrite Nat2Z.id, L. lia. }
    intros j Hj. destruct (G nn (le_n nn) j) as (k & K1 & K2); [rewrite ME; lia|]. exists k. split; [apply K; exact K1|exact K2].
Qed.
Lemma NoDup_map_inj {X Y Z} (f : X -> Y) (g : X -> Z) l : (forall x y, In x l -> In y l -> g x = g y -> f x = f y) -> NoDup (map f l) -> NoDup (map g l).
Proof.
  induction l as [|x l IH]; intros H N; [constructor|]. cbn [map] in *. inversion N as [|? ? N1 N2]; subst. constructor.
  - intros Q. apply in_map_iff in Q. destruct Q as (y & E & Hy). apply N1. apply in_map_iff. exists y. split; [apply H; [right; exact Hy|left; reflexivity|exact E]|exact Hy].
  - apply IH; [intros; apply H; [right|right|]; assumption|exact N2].
Qed.
Lemma NoDup_map_filter {X Y} (g : X -> Y) p l : NoDup (map g l) -> NoDup (map g (filter p l)).
Proof.
  induction l as [|x l IH]; intros N; [constructor|]. cbn [map filter] in *. inversion N as [|? ? N1 N2]; subst. destruct (p x); [|auto]. cbn [map]. constructor; [|auto].
  intros Q. apply N1. apply in_map_iff in Q. destruct Q as (y & E & Hy). apply filter_In in Hy. apply in_map_iff. exists y. tauto.
Qed.
Lemma list_max_in (g : nat -> nat) l : exists n, forall k, In k l -> (g k < n)%nat.
Proof. induction l as [|x l (n & H)]; [exists 0%nat; intros k []|]. exists (S (g x) + n)%nat. intros k [<-|Hk]; [lia|]. specialize (H k Hk). lia. Qed.
Lemma chainsIn_OK nn ps h md sc : chainsIn nn ps h -> (forall k, isKey md k <-> dofIn nn ps k) -> (forall k, dofIn nn ps k -> (code sc (dofOf md k) = 0 <-> isFixed ps k)) ->
  chainsOK md sc h (flat_map pMPC ps).
Proof.
  intros (A & B & rank & C) K F. split; [exact A|]. split.
  - intros k Hk. destruct (B k Hk) as (B1 & B2 & B3). split; [exact B1|]. split; [apply K; exact B2|]. rewrite Forall_forall in *. intros d Hd. apply K, B3, Hd.
  - exists rank. intros k d Hk Hd. specialize (C k d Hk Hd). destruct (dnext d) as [j|]; [|exact C]. destruct C as (C1 & C2 & C3 & C4). split; [exact C1|]. split; [exact C2|]. split; [|exact C4].
    intros Q. apply C3. apply F; [|exact Q]. destruct (B k Hk) as (_ & _ & B3). rewrite Forall_forall in B3. apply B3. exact Hd.
Qed.
Lemma sum_len ps : list_sum (map (fun p => length (pMPC p)) ps) = length (flat_map pMPC ps).
Proof. induction ps as [|p ps IH]; [reflexivity|]. cbn [map flat_map]. rewrite app_length, <- IH. reflexivity. Qed.

Section Init.
Variables (nn : nat) (ps : list patch) (h : list mpc).
Hypothesis MOK : modelOK nn ps.
Hypothesis CHN : chainsIn nn ps h.
Notation ks := (flat_map pMPC ps).

Lemma rebuild_ok : exists n0, forall fuel junk ne nq nmm0 np icq0, (n0 <= fuel)%nat -> ne = list_sum (map noElms ps) -> nq = Z.of_nat (length ks) -> 0 <= nmm0 -> length icq0 = length h ->
  exists md sc rank pn mn s T,
  initNodeDofs nn ps = Some (true, md, sc) /\ dofTable md sc /\ length md = S nn /\ (forall k, isKey md k <-> dofIn nn ps k) /\
  (forall k, dofIn nn ps k -> (code sc (dofOf md k) = 0 <-> isFixed ps k)) /\
  (forall j, 1 <= j <= Z.of_nat (length sc) -> exists k, dofIn nn ps k /\ dofOf md k = j) /\
  initElementConn junk ne ps = Some (true, pn, mn) /\
  (forall k, In k ks -> (rank k < fuel)%nat) /\
  (forall k d, In k ks -> In d (mmast (nthM h k)) ->
    match dnext d with
    | None => ~ In (dkey d) (slavesOf h ks)
    | Some j => In j ks /\ dkey (mslave (nthM h j)) = dkey d /\ code sc (dofOf md (dkey d)) <> 0 /\ (rank j < rank k)%nat
    end) /\
  (forall k, In k ks -> (k < length h)%nat /\ isKey md (dkey (mslave (nthM h k))) /\ Forall (fun d => isKey md (dkey d)) (mmast (nthM h k))) /\
  cmp s = psum 1 (map (rlen md h sc fuel) (accepted md h ks sc)) /\
  cmm s = flat_map (fun k => dofOf md (dkey (mslave (nthM h k))) :: map fst (fst (row md h sc fuel k))) (accepted md h ks sc) /\
  ctt s = flat_map (fun k => snd (row md h sc fuel k) :: map snd (fst (row md h sc fuel k))) (accepted md h ks sc) /\
  length (csc s) = length sc /\
  (forall k, In k (accepted md h ks sc) -> code (csc s) (dofOf md (dkey (mslave (nthM h k)))) = 0) /\
  (forall j, 1 <= j <= Z.of_nat (length sc) -> (forall k, In k (accepted md h ks sc) -> j <> dofOf md (dkey (mslave (nthM h k)))) -> code (csc s) j = code sc j) /\
  (forall i k, nth_error (accepted md h ks sc) i = Some k -> nth k (icq s) (-1) = Z.of_nat i) /\
  (forall k, ~ In k (accepted md h ks sc) -> nth k (icq s) (-1) = nth k icq0 (-1)) /\
  length (icq s) = length h /\
  initEqs (mkS md (csc s) pn mn (cmp s) (cmm s) (ctt s) [] 0 (Z.to_nat np)) = Some (true, T) /\
  exists nmm, nmm0 <= nmm /\ rebuild fuel junk h ps nn ne nq nmm0 np icq0 = Some (true, mkSP ps nn (pred (length pn)) (nq - Z.of_nat (length ks - length (accepted md h ks sc))) nmm T (icq s)).
Proof.
  destruct (nodeDofs_table nn ps MOK) as (md & sc & E1 & L & DT & K & F & SJ).
  pose proof MOK as (Hnn & _ & _ & _ & EOK & EID).
  destruct (chainsIn_OK nn ps h md sc CHN K F) as (ND & KEY & rank & LNK).
  destruct (list_max_in rank ks) as (n0 & HR). exists n0. intros fuel junk ne nq nmm0 np icq0 Hf NE NQ NM ICQ.
  assert (FUEL : forall k, In k ks -> (rank k < fuel)%nat) by (intros k Hk; specialize (HR k Hk); lia).
  destruct (initElementConn_spec junk ps EOK) as [EC _]. destruct (EC EID) as (pn & mn & E2 & _). rewrite <- NE in E2.
  destruct (initCeqs_ok md h ks rank sc DT ND KEY LNK fuel nq nmm0 icq0 FUEL (Z.eq_le_incl _ _ (eq_sym NQ)) NM ICQ) as (s & nmm & E3 & S0 & S1 & S2 & S3 & S4 & S5 & S6 & S7 & S8 & S9 & S10).
  assert (VI : validInput (mkS md (csc s) pn mn (cmp s) (cmm s) (ctt s) [] 0 (Z.to_nat np))).
  { apply (valid_rows md h ks rank sc DT KEY LNK fuel icq0 FUEL ICQ); cbn; assumption. }
  destruct (initEqs_complete _ VI) as (T & E4).
  assert (LA : (length (accepted md h ks sc) <= length ks)%nat).
  { unfold accepted. generalize (unfixed md h sc). generalize ks. intros l g. clear. induction l as [|x l IH]; cbn; [lia|]. destruct (g x); cbn; lia. }
  exists md, sc, rank, pn, mn, s, T. split; [exact E1|]. split; [exact DT|]. split; [exact L|]. split; [exact K|]. split; [exact F|]. split; [exact SJ|]. split; [exact E2|]. split; [exact FUEL|]. split; [exact LNK|]. split; [exact KEY|].
  split; [exact S2|]. split; [exact S3|]. split; [exact S4|]. split; [exact S5|]. split; [exact S6|]. split; [exact S7|]. split; [exact S9|].
  split; [exact S10|].
  split; [rewrite S8; exact ICQ|].
  split; [exact E4|]. exists nmm. split; [exact S0|]. unfold rebuild. rewrite E1, E2, E3.
  assert (FN : firstn (S (Z.to_nat (cnq s))) (cmp s) = cmp s) by (apply firstn_all2; rewrite S2, psum_length, map_length, S1; lia).
  rewrite FN, E4, S1. reflexivity.
Qed.

(** the values after expanding an equation vector are exactly those that fulfil the boundary conditions and constraints *)
Lemma rebuild_expand : exists n0, forall fuel junk ne nq nmm0 np icq0, (n0 <= fuel)%nat -> ne = list_sum (map noElms ps) -> nq = Z.of_nat (length ks) -> 0 <= nmm0 -> length icq0 = length h ->
  exists sp, rebuild fuel junk h ps nn ne nq nmm0 np icq0 = Some (true, sp) /\
  (forall x v, length x = neq (spTab sp) -> expandVector (spTab sp) 1 x = Some v -> fulfils nn ps h (valueAt (madof (spTab sp)) v)) /\
  (forall v, length v = ndof (spTab sp) -> fulfils nn ps h (valueAt (madof (spTab sp)) v) ->
     exists x, length x = neq (spTab sp) /\ expandVector (spTab sp) 1 x = Some v).
Proof.
  destruct rebuild_ok as (n0 & H). exists n0. intros fuel junk ne nq nmm0 np icq0 Hf NE NQ NM ICQ.
  destruct (H fuel junk ne nq nmm0 np icq0 Hf NE NQ NM ICQ) as (md & sc & rank & pn & mn & s & T & E1 & DT & L & K & F & SJ & E2 & FUEL & LNK & KEY & S2 & S3 & S4 & S5 & S6 & S7 & S9 & S10 & S11 & E4 & nmm & _ & ES). clear H.
  eexists. split; [exact ES|]. cbn [spTab].
  destruct CHN as (ND & _).
  set (T0 := mkS md (csc s) pn mn (cmp s) (cmm s) (ctt s) [] 0 (Z.to_nat np)) in *.
  pose proof (initEqs_consistent _ _ E4) as CT. destruct (initEqs_spec _ _ E4) as (I1 & I2 & I3 & I4 & I5 & I6 & I7 & I8 & I9 & I10 & _ & I12 & _).
  set (acc := accepted md h ks sc) in *.
  assert (MP : mpmceq T = psum 1 (map (rlen md h sc fuel) acc)) by (rewrite I4; exact S2).
  assert (MM : mmceq T = flat_map (fun k => dofOf md (dkey (mslave (nthM h k))) :: map fst (fst (row md h sc fuel k))) acc) by (rewrite I5; exact S3).
  assert (TC : ttcc T = flat_map (fun k => snd (row md h sc fuel k) :: map snd (fst (row md h sc fuel k))) acc) by (rewrite I6; exact S4).
  assert (NC : nceq T = length acc) by (unfold nceq; rewrite MP, psum_length, map_length; reflexivity).
  assert (NC0 : nceq T0 = length acc) by (unfold nceq, T0; cbn [mpmceq]; rewrite S2, psum_length, map_length; reflexivity).
  assert (DN : ndof T = length sc) by (rewrite I7; unfold ndof, T0; cbn [msc]; exact S5).
  assert (DN0 : ndof T0 = length sc) by (unfold ndof, T0; cbn [msc]; exact S5).
  assert (ACC : forall k, In k acc <-> In k ks /\ code sc (dofOf md (dkey (mslave (nthM h k)))) <> 0) by (intros k; apply (accepted_in md h ks sc DT KEY)).
  assert (SD : forall i k, nth_error acc i = Some k -> slaveDof T0 (S i) = dofOf md (dkey (mslave (nthM h k)))).
  { intros i k Hi. apply (rows_ok md h ks sc fuel icq0 ICQ T0 i k S2 S3 S4 Hi). }
  assert (SDT : forall i k, nth_error acc i = Some k -> slaveDof T (S i) = dofOf md (dkey (mslave (nthM h k)))).
  { intros i k Hi. apply (rows_ok md h ks sc fuel icq0 ICQ T i k MP MM TC Hi). }
  assert (NDA : NoDup (map (fun k => dofOf md (dkey (mslave (nthM h k)))) acc)).
  { unfold acc, accepted. apply NoDup_map_filter. apply (NoDup_map_inj (fun k => dkey (mslave (nthM h k)))); [|exact ND].
    intros x y Hx Hy Q. apply (isKey_inj md sc DT); [apply KEY; exact Hx|apply KEY; exact Hy|exact Q]. }
  assert (IDX : forall i q, (i < length acc)%nat -> (q < length acc)%nat -> slaveDof T0 (S i) = slaveDof T0 (S q) -> i = q).
  { intros i q Hi Hq Q. destruct (nth_error acc i) as [k|] eqn:Ei; [|apply nth_error_None in Ei; lia]. destruct (nth_error acc q) as [k'|] eqn:Eq'; [|apply nth_error_None in Eq'; lia].
    rewrite (SD _ _ Ei), (SD _ _ Eq') in Q. rewrite NoDup_nth_error in NDA. apply NDA; [rewrite map_length; exact Hi|]. rewrite (map_nth_error _ _ _ Ei), (map_nth_error _ _ _ Eq'). congruence. }
  (* meqn of slaves and fixed DOFs *)
  assert (ST : forall d, status T0 d = code (csc s) (Z.of_nat (S d))) by (intros d; unfold status, code, T0; cbn [msc]; f_equal; lia).
  assert (MS : forall i k, nth_error acc i = Some k -> nth (Z.to_nat (dofOf md (dkey (mslave (nthM h k))) - 1)) (meqn T) 0 = - Z.of_nat (S i)).
  { intros i k Hi. assert (Hk : In k acc) by (apply nth_error_In in Hi; exact Hi). pose proof Hk as Hk2. apply ACC in Hk2. destruct Hk2 as [Hk2 _].
    assert (RG : 1 <= dofOf md (dkey (mslave (nthM h k))) <= Z.of_nat (length sc)) by (apply (isKey_range md sc DT); apply KEY; exact Hk2).
    set (d := Z.to_nat (dofOf md (dkey (mslave (nthM h k))) - 1)). assert (Ed : Z.of_nat (S d) = dofOf md (dkey (mslave (nthM h k)))) by (unfold d; lia).
    destruct (I12 d) as (_ & _ & I0 & _); [lia|]. rewrite ST, Ed in I0. destruct (I0 (S6 k Hk)) as [(i' & (R & Q & _) & ->)|[Q _]].
    - f_equal. f_equal. destruct i' as [|i']; [lia|]. f_equal. apply IDX; [lia|apply nth_error_Some; congruence|]. rewrite Q, (SD _ _ Hi). exact Ed.
    - exfalso. apply (Q (S i)); [split; [lia|]; rewrite NC0; apply nth_error_Some; congruence|]. rewrite (SD _ _ Hi). reflexivity. }
  assert (MZ : forall d, (d < length sc)%nat -> code sc (Z.of_nat (S d)) = 0 -> nth d (meqn T) 0 = 0).
  { intros d Hd C. destruct (I12 d) as (_ & _ & I0 & _); [lia|].
    assert (NS : forall k, In k acc -> Z.of_nat (S d) <> dofOf md (dkey (mslave (nthM h k)))) by (intros k Hk Q; apply ACC in Hk; destruct Hk as [_ Hk]; apply Hk; rewrite <- Q; exact C).
    rewrite ST, S7 in I0 by (auto; lia). destruct (I0 C) as [(i' & (R & Q & _) & _)|[_ Q]]; [|exact Q].
    exfalso. destruct i' as [|i']; [lia|]. destruct (nth_error acc i') as [k|] eqn:Ei; [|apply nth_error_None in Ei; lia]. rewrite (SD _ _ Ei) in Q. apply (NS k); [apply nth_error_In in Ei; exact Ei|symmetry; exact Q]. }
  assert (RNG : forall j, Z.to_nat (j - 1) = Z.to_nat (j - 1)) by reflexivity.
  (* vectors <-> fields *)
  assert (ZF : forall v, (forall k, dofIn nn ps k -> isFixed ps k -> valueAt md v k = 0%Qc) <-> zeroFixed sc (fun j => nth (Z.to_nat (j-1)) v 0%Qc)).
  { intros v. split.
    - intros H j Hj C. destruct (SJ j Hj) as (k & K1 & <-). apply (H k K1). apply F; assumption.
    - intros H k K1 K2. apply H; [apply (isKey_range md sc DT), K, K1|]. apply F; assumption. }
  assert (HQ : forall v, (forall j, In j ks -> ~ isFixed ps (dkey (mslave (nthM h j))) -> holds (valueAt md v) (nthM h j)) <->
                 (forall k, In k ks -> code sc (dofOf md (dkey (mslave (nthM h k)))) <> 0 -> holdsDof md (fun j => nth (Z.to_nat (j-1)) v 0%Qc) (nthM h k))).
  { intros v. split; intros H k Hk C; apply H; auto; intros Q; apply C; [apply F|apply F in Q]; auto; apply K; apply KEY; exact Hk. }
  rewrite I1. change (madof T0) with md.
  assert (ROW : forall v, (forall k, dofIn nn ps k -> isFixed ps k -> valueAt md v k = 0%Qc) ->
     ((forall j, In j ks -> ~ isFixed ps (dkey (mslave (nthM h j))) -> holds (valueAt md v) (nthM h j)) <->
      (forall i, (1 <= i <= nceq T)%nat -> holdsRow T (fun j => nth (Z.to_nat (j-1)) v 0%Qc) i))).
  { intros v Z0. rewrite HQ. apply (chain_rows md h ks rank sc DT KEY LNK fuel icq0 FUEL ICQ T _ MP MM TC). apply ZF. exact Z0. }
  split.
  - intros x v Lx EX. destruct (expand_spec T 1 x v CT Lx EX) as [Lv HX].
    assert (Z0 : forall k, dofIn nn ps k -> isFixed ps k -> valueAt md v k = 0%Qc).
    { apply ZF. intros j Hj C. destruct (HX (Z.to_nat (j-1)) ltac:(lia)) as (_ & H0 & _). apply H0. apply MZ; [lia|]. replace (Z.of_nat (S (Z.to_nat (j - 1)))) with j by lia. exact C. }
    split; [exact Z0|]. apply ROW; [exact Z0|]. intros i Hi. destruct i as [|i]; [lia|]. destruct (nth_error acc i) as [k|] eqn:Ei; [|apply nth_error_None in Ei; lia].
    assert (Hk : In k ks) by (apply ACC; apply nth_error_In in Ei; exact Ei).
    assert (RG : 1 <= dofOf md (dkey (mslave (nthM h k))) <= Z.of_nat (length sc)) by (apply (isKey_range md sc DT); apply KEY; exact Hk).
    destruct (HX (Z.to_nat (dofOf md (dkey (mslave (nthM h k))) - 1)) ltac:(lia)) as (_ & _ & HS). specialize (HS (S i) (MS i k Ei) ltac:(lia)).
    unfold holdsRow. rewrite (SDT i k Ei). rewrite HS. change (coff T (S i)) with (offset T (S i)). ring.
  - intros v Lv [Z0 HV]. pose proof (proj1 (ROW v Z0) HV) as RV. clear HV.
    destruct (getSolVec_spec T [] v CT Lv) as [LG HG]. exists (getSolVec T [] v). split; [exact LG|].
    destruct (expandVector T 1 (getSolVec T [] v)) as [v'|] eqn:EX; [|unfold expandVector in EX; destruct (Nat.ltb_spec (length (getSolVec T [] v)) (neq T)); [lia|discriminate]].
    f_equal. destruct (expand_spec T 1 _ v' CT LG EX) as [Lv' HX].
    assert (FR : forall d, (d < ndof T)%nat -> 0 < nth d (meqn T) 0 -> nth d v' 0%Qc = nth d v 0%Qc).
    { intros d Hd Hp. destruct (HX d Hd) as (A & _). rewrite A by exact Hp. apply HG; assumption. }
    apply nth_ext with (d := 0%Qc) (d' := 0%Qc); [lia|]. intros d Hd. rewrite Lv' in Hd. destruct (HX d Hd) as (_ & HZ & HS).
    destruct (Z.lt_trichotomy (nth d (meqn T) 0) 0) as [Q|[Q|Q]]; [| |apply FR; assumption].
    + set (i := Z.to_nat (- nth d (meqn T) 0)). assert (Ei : nth d (meqn T) 0 = - Z.of_nat i) by (unfold i; lia). rewrite (HS i Ei) by (unfold i; lia).
      assert (RI : (1 <= i <= nceq T)%nat).
      { destruct CT as (_ & _ & CR & _). specialize (CR d Hd). unfold i. lia. }
      assert (SLd : slaveDof T i = Z.of_nat (S d)).
      { destruct (I12 d) as (P1 & P2 & P0 & _); [lia|]. destruct (I9 d) as [C|[C|C]]; [lia| | |].
        - destruct (P0 C) as [(i' & (_ & R & _) & R2)|[_ R2]]; [|rewrite R2 in Q; lia]. replace i with i' by lia. change (slaveDof T i') with (nth (nth (i'-1) (mpmceq T) 0%nat - 1) (mmceq T) 0). rewrite I4, I5. exact R.
        - rewrite P1 in Q by exact C. lia.
        - rewrite P2 in Q by exact C. lia. }
      specialize (RV i RI). unfold holdsRow in RV. rewrite SLd in RV. replace (Z.to_nat (Z.of_nat (S d) - 1)) with d in RV by lia. rewrite RV.
      assert (QE : qs (fun p : Z * Qc => (snd p * nth (Z.to_nat (fst p - 1)) v' 0)%Qc) (masterTerms T i) = qs (fun p : Z * Qc => (snd p * nth (Z.to_nat (fst p - 1)) v 0)%Qc) (masterTerms T i)).
      { apply qs_ext. intros [j c] Hj. destruct CT as (_ & CC & _). destruct (CC i RI) as (_ & _ & _ & CM). destruct (CM j c Hj) as [CM1 CM2]. cbn [fst snd]. rewrite FR; [reflexivity| |]; [lia|]. unfold eqnOf in CM2. lia. }
      rewrite QE. change (coff T i) with (offset T i). ring.
    + rewrite (HZ Q). symmetry. destruct (I12 d) as (P1 & P2 & P0 & _); [lia|].
      assert (ZS : zeroFixed sc (fun j => nth (Z.to_nat (j-1)) v 0%Qc)) by (apply ZF; exact Z0).
      specialize (ZS (Z.of_nat (S d)) ltac:(lia)). cbv beta in ZS. replace (Z.to_nat (Z.of_nat (S d) - 1)) with d in ZS by lia. apply ZS.
      destruct (I9 d) as [C|[C|C]]; [lia| | |].
      * destruct (P0 C) as [(i' & (R1 & _) & R2)|[NS _]]; [rewrite R2 in Q; lia|]. rewrite ST in C. rewrite <- C. symmetry. apply S7; [lia|].
        intros k Hk R. apply In_nth_error in Hk. destruct Hk as (i & Hi). apply (NS (S i)); [split; [lia|]; rewrite NC0; apply nth_error_Some; congruence|]. rewrite (SD _ _ Hi). symmetry. exact R.
      * rewrite P1 in Q by exact C. lia.
      * rewrite P2 in Q by exact C. lia.
Qed.
End Init.


Lemma samInit_rebuild fuel junk h ps nn : (1 <= nn)%nat -> samInit fuel junk h ps nn =
  rebuild fuel junk h ps nn (list_sum (map noElms ps)) (Z.of_nat (length (flat_map pMPC ps))) 0 0 (repeat (-1) (length h)).
Proof. intros H. unfold samInit. destruct (Nat.eqb_spec nn 0); [lia|]. rewrite sum_len. reflexivity. Qed.
Lemma samInit_expand nn ps h : modelOK nn ps -> chainsIn nn ps h -> exists n0, forall fuel junk, (n0 <= fuel)%nat -> exists sp, samInit fuel junk h ps nn = Some (true, sp) /\
  (forall x v, length x = neq (spTab sp) -> expandVector (spTab sp) 1 x = Some v -> fulfils nn ps h (valueAt (madof (spTab sp)) v)) /\
  (forall v, length v = ndof (spTab sp) -> fulfils nn ps h (valueAt (madof (spTab sp)) v) ->
     exists x, length x = neq (spTab sp) /\ expandVector (spTab sp) 1 x = Some v).
Proof.
  intros M C. destruct (rebuild_expand nn ps h M C) as (n0 & H).
  exists n0. intros fuel junk Hf. rewrite samInit_rebuild by apply M. apply H; [exact Hf|reflexivity|reflexivity|lia|apply repeat_length].
Qed.
