(** C83: refinement marks the entries with the largest errors. *)
From Coq Require Import ZArith QArith Qround Qabs Qminmax List Bool Lia Lqa Permutation Sorted.
From Verif Require Import Adap_model Adap_spec Adap_proofs Adap_proofs2.
Import ListNotations.
Local Open Scope Z_scope.

(** A percentage of all entries (the default): exactly the ceiling of that
    fraction is marked, worst first. *)
Theorem adap_percent : forall errs beta eps,
  errs <> [] -> (0 < beta)%Q -> (beta <= 100)%Q ->
  exists l, select (indexed errs) beta eps NONE = Some l /\
    Z.of_nat (length l) = Qceiling (inject_Z (Z.of_nat (length errs)) * beta / 100) /\
    NoDup l /\ (forall i, In i l -> valid errs i) /\ worst_first errs l.
Proof.
  intros errs beta eps Hne H1 H2.
  assert (Hn : (0 < length errs)%nat) by (destruct errs; [tauto|cbn; lia]).
  unfold select. cbn [errorLimits]. cbv zeta.
  set (S := sortP (indexed errs)). rewrite (sorted_length errs : length S = _).
  set (k := Qceiling _) in *. pose proof (ceil_bounds _ _ Hn H1 H2) as HK. fold k in HK.
  destruct (at_some S (k - 1)) as [x Ex]; [rewrite (sorted_length errs : length S = _); lia|].
  rewrite Ex. destruct S as [|s S'] eqn:ES.
  { exfalso. pose proof (sorted_length errs : length S = _) as L. rewrite ES in L. cbn in L. lia. }
  rewrite <- ES. destruct (marked_facts errs (Z.to_nat k)) as (A & B & C & D).
  fold S in A, B, C, D. exists (map snd (firstn (Z.to_nat k) S)).
  split; auto. split; [rewrite D; lia|]. auto.
Qed.
Print Assumptions adap_percent.

(** Outside of (0,100] the selection reads outside of its vector. *)
Theorem adap_percent_undef : forall errs beta eps,
  errs <> [] ->
  (Qceiling (inject_Z (Z.of_nat (length errs)) * beta / 100) <= 0 \/
   Z.of_nat (length errs) < Qceiling (inject_Z (Z.of_nat (length errs)) * beta / 100)) ->
  select (indexed errs) beta eps NONE = None.
Proof.
  intros errs beta eps Hne H. unfold select. cbn [errorLimits]. cbv zeta.
  rewrite sorted_length, at_none; auto. rewrite sorted_length. lia.
Qed.
Print Assumptions adap_percent_undef.

Lemma limit_ok errs beta t limit : errs <> [] ->
  is_limit errs beta t limit ->
  exists lim, errorLimits (sortP (indexed errs)) beta t = Some lim /\ (lim == limit)%Q.
Proof.
  intros Hne HL.
  assert (SN : sortP (indexed errs) <> []).
  { intros E. pose proof (sorted_length errs) as L. rewrite E in L.
    destruct errs; [tauto|discriminate]. }
  pose proof (sorted_sorted errs) as HS.
  assert (MM : forall i x, valid errs i -> In x (sortP (indexed errs)) ->
     (forall y, In y (sortP (indexed errs)) -> (fst y <= fst x)%Q) ->
     (forall j, valid errs j -> (err errs j <= err errs i)%Q) -> (fst x == err errs i)%Q).
  { intros i [e j] Hi Hx H1 H2. apply In_sorted in Hx. destruct Hx as [Hj ->]. cbn.
    specialize (H2 _ Hj). specialize (H1 (err errs i, i)). cbn in H1.
    assert (In (err errs i, i) (sortP (indexed errs))) by (apply In_sorted; auto).
    specialize (H1 H). lra. }
  assert (MN : forall i x, valid errs i -> In x (sortP (indexed errs)) ->
     (forall y, In y (sortP (indexed errs)) -> (fst x <= fst y)%Q) ->
     (forall j, valid errs j -> (err errs i <= err errs j)%Q) -> (fst x == err errs i)%Q).
  { intros i [e j] Hi Hx H1 H2. apply In_sorted in Hx. destruct Hx as [Hj ->]. cbn.
    specialize (H2 _ Hj). specialize (H1 (err errs i, i)). cbn in H1.
    assert (In (err errs i, i) (sortP (indexed errs))) by (apply In_sorted; auto).
    specialize (H1 H). lra. }
  destruct t; try (exfalso; exact HL); unfold errorLimits.
  - destruct HL as (x & Hv & HE & HM). destruct (sortP (indexed errs)) as [|e S] eqn:ES; [tauto|].
    exists (fst e * beta * (1#100))%Q. split; auto.
    rewrite (MM x e); auto.
    + rewrite HE. unfold Qdiv. reflexivity.
    + left; auto.
    + intros y [<-|Hy]; [lra|]. inversion HS as [|? ? HS' HF]; subst.
      rewrite Forall_forall in HF. destruct (HF _ Hy) as [G|[G _]]; lra.
  - cbn [is_limit] in HL. pose proof (sumErr_total errs) as ST. pose proof (sorted_length errs) as SL.
    destruct (sortP (indexed errs)) as [|e S] eqn:ES; [tauto|].
    eexists. split; [reflexivity|]. rewrite SL, ST, HL. unfold Qdiv. reflexivity.
  - destruct HL as (x & Hv & HE & HM). destruct (sortP (indexed errs)) as [|e S] eqn:ES; [tauto|].
    exists (fst (last (e :: S) e) * beta * (1#100))%Q. split; auto.
    rewrite (MN x (last (e :: S) e)); auto.
    + rewrite HE. unfold Qdiv. reflexivity.
    + apply last_In. discriminate.
    + intros y Hy. destruct (last_min (e :: S) e y HS Hy) as [<-|[G|[G _]]]; lra.
Qed.

(** Thresholds: the entries above the limit are marked, those below are not;
    of the entries at the limit all but number 0 are marked.  When there is
    nothing to mark, the selection reads outside of its vector. *)
Theorem adap_threshold : forall errs beta eps t limit,
  errs <> [] -> is_limit errs beta t limit ->
  let hit i := valid errs i /\
               ((limit < err errs i)%Q \/ ((limit == err errs i)%Q /\ i <> 0)) in
  ((exists i, hit i) ->
     exists l, select (indexed errs) beta eps t = Some l /\
       NoDup l /\ worst_first errs l /\ (forall i, In i l <-> hit i)) /\
  (~ (exists i, hit i) -> select (indexed errs) beta eps t = None).
Proof.
  intros errs beta eps t limit Hne HL hit.
  destruct (limit_ok errs beta t limit Hne HL) as (lim & EL & EQ).
  set (S := sortP (indexed errs)) in *.
  pose proof (sorted_sorted errs : StronglySorted gt_ S) as HS.
  set (k := upper_bound S (lim, 0)).
  assert (HH : forall i, hit i <-> In (err errs i, i) (firstn k S)).
  { intros i. unfold k. rewrite upper_bound_spec by auto. unfold S. rewrite In_sorted.
    unfold hit, gt_. cbn [fst snd]. split.
    - intros (Hv & H). split; [tauto|]. destruct H as [H|[H H1]]; [left; lra|right].
      split; [lra|]. unfold valid in Hv. lia.
    - intros ((Hv & _) & H). split; auto. destruct H as [H|[H H1]]; [left; lra|right].
      split; [lra|lia]. }
  assert (SEL : select (indexed errs) beta eps t =
     match at_ S (Z.of_nat k - 1), S with
     | Some _, _ :: _ => Some (map snd (firstn k S)) | _, _ => None end).
  { unfold select. fold S. rewrite EL. fold k. cbv zeta.
    destruct t; try (exfalso; exact HL); rewrite Nat2Z.id; reflexivity. }
  pose proof (upper_bound_le S (lim, 0)) as UB. fold k in UB. clearbody k.
  split.
  - intros [i0 Hi0]. apply HH in Hi0.
    assert (HK : (0 < k)%nat) by (destruct k; [destruct Hi0|lia]).
    destruct (at_some S (Z.of_nat k - 1)) as [x Ex]; [lia|].
    rewrite SEL, Ex.
    replace (match S with [] => None | _ :: _ => Some (map snd (firstn k S)) end)
      with (Some (map snd (firstn k S))) by (destruct S; [cbn in UB; lia|reflexivity]).
    destruct (marked_facts errs k) as (A & B & C & D). fold S in A, B, C, D.
    exists (map snd (firstn k S)). split; auto. split; auto. split; auto.
    intros i. rewrite HH. unfold S. apply marked_iff.
  - intros HN. rewrite SEL. destruct k as [|k'] eqn:EK; [rewrite at_none; auto; lia|].
    exfalso. apply HN. destruct S as [|[e i] S'] eqn:ES; [cbn in UB; lia|].
    assert (Hin : In (e, i) (firstn k S)) by (rewrite EK, ES; left; auto).
    assert (Hin2 : In (e, i) S) by (rewrite ES; left; auto).
    apply In_sorted in Hin2. destruct Hin2 as [_ ->]. exists i. apply HH.
    rewrite EK, ES in Hin. exact Hin.
Qed.
Print Assumptions adap_threshold.

(** Dorfler marking: the marked entries make up the requested percentage of the
    total error, worst first, provided that entry 0 is not the one with the
    smallest error, or not needed; and every marked entry has at most as many
    entries with larger errors as any set of entries making up the percentage
    has members. *)
Theorem adap_dorfel : forall errs beta eps,
  Forall (fun e => 0 <= e)%Q errs -> (0 < total errs)%Q -> (0 < beta)%Q -> (beta <= 100)%Q ->
  let target := (total errs * beta / 100)%Q in
  ((target <= total errs - err errs 0)%Q \/
   exists j, valid errs j /\ (err errs j < err errs 0)%Q) ->
  exists l, select (indexed errs) beta eps DORFEL = Some l /\
    NoDup l /\ (forall i, In i l -> valid errs i) /\ worst_first errs l /\
    (target <= sumOf errs l)%Q /\
    forall i T, In i l -> NoDup T -> (forall j, In j T -> valid errs j) ->
      (target <= sumOf errs T)%Q -> (above errs (err errs i) <= length T)%nat.
Proof.
  intros errs beta eps HP HT Hb1 Hb2 target HC.
  set (S := sortP (indexed errs)).
  pose proof (sorted_sorted errs : StronglySorted gt_ S) as HS.
  pose proof (sorted_length errs : length S = length errs) as LS.
  assert (HPS : Forall (fun x => 0 <= fst x)%Q S).
  { apply Forall_forall. intros [e i] Hx. apply In_sorted in Hx. destruct Hx as [Hv ->].
    cbn. unfold err. rewrite Forall_forall in HP. apply HP. apply nth_In.
    unfold valid in Hv. lia. }
  assert (FS : (fs S == total errs)%Q).
  { unfold fs, S. apply total_perm. rewrite <- (indexed_fst errs) at 2.
    apply Permutation_map, sortP_perm. }
  assert (SN : S <> []).
  { intros E. rewrite E in FS. unfold fs in FS. cbn in FS. lra. }
  set (T0 := (sumErr S * beta * (1#100))%Q).
  assert (ET : (T0 == target)%Q).
  { unfold T0, target. rewrite (sumErr_total errs : (sumErr S == _)%Q). unfold Qdiv. reflexivity. }
  assert (TP : (0 < target)%Q).
  { unfold target. assert (0 < total errs * beta)%Q by (apply Qmult_lt_0_compat; auto).
    unfold Qdiv. setoid_replace (/ 100)%Q with (1#100)%Q by reflexivity. lra. }
  assert (TU : (target <= total errs)%Q).
  { unfold target. assert (beta * total errs <= 100 * total errs)%Q
      by (apply Qmult_le_compat_r; lra).
    unfold Qdiv. setoid_replace (/ 100)%Q with (1#100)%Q by reflexivity.
    rewrite (Qmult_comm (total errs) beta). lra. }
  assert (ES : exists s0 S0, S = s0 :: S0)
    by (clear - SN; destruct S as [|s0 S0]; [tauto|eauto]).
  destruct ES as (s0 & S0 & ESS).
  set (lim0 := fst (last S s0)).
  set (lim := dorfelLimit S T0 0 lim0).
  set (k := upper_bound S (lim, 0)).
  assert (SEL : select (indexed errs) beta eps DORFEL =
     match at_ S (Z.of_nat k - 1) with
     | Some _ => Some (map snd (firstn k S)) | _ => None end).
  { unfold select. fold S. cbv zeta.
    assert (EL : errorLimits S beta DORFEL = Some lim).
    { unfold lim, lim0, errorLimits, T0. rewrite ESS. reflexivity. }
    rewrite EL. fold k. rewrite Nat2Z.id. clear - ESS.
    clearbody k S. subst S. reflexivity. }
  destruct (dorfel_split S T0 0 lim0) as (A & B & EAB & HA & HB).
  (* the sum over the marked entries *)
  assert (KEY : exists C D, S = C ++ D /\ (forall x, In x C -> gt_ x (lim, 0)) /\
                 (target <= fs C)%Q).
  { destruct B as [|b B].
    - rewrite app_nil_r in EAB. fold lim in HB.
      pose proof (last_In S s0 SN) as HL. destruct (last S s0) as [en jn] eqn:EL.
      assert (HLI := HL). apply In_sorted in HLI. destruct HLI as [HV HE].
      assert (EQ : lim = en) by (rewrite HB; reflexivity).
      destruct (Z.eq_dec jn 0) as [-> |Hn0].
      + destruct (exists_last SN) as (S' & z & ES').
        assert (Hz : z = (en, 0)) by (rewrite ES', last_last in EL; auto). subst z.
        assert (MIN : forall j, valid errs j -> (err errs 0 <= err errs j)%Q).
        { intros j Hj. assert (Hj' : In (err errs j, j) S) by (apply In_sorted; auto).
          destruct (last_min S s0 _ HS Hj') as [E|[G|[G _]]]; rewrite EL in *.
          - injection E as E1 E2. rewrite E1, HE. lra.
          - cbn in G. rewrite HE in G. lra.
          - cbn in G. rewrite HE in G. lra. }
        exists S', [(en, 0)]. split; auto. split.
        * intros x Hx. rewrite EQ. rewrite ES' in HS. apply ss_app_inv in HS.
          destruct HS as (_ & _ & HS). apply HS; auto. left; auto.
        * assert (EF : (fs S == fs S' + en)%Q).
          { rewrite ES', fs_app. unfold fs at 2. cbn [map total fst]. lra. }
          destruct HC as [HC|(j & Hj & HC)]; [|specialize (MIN j Hj); lra].
          rewrite HE in EF. lra.
      + exists S, []. split; [rewrite app_nil_r; auto|]. split; [|lra].
        intros x Hx. destruct (last_min S s0 x HS Hx) as [E|G]; rewrite EL in *.
        * right. rewrite E, EQ. cbn. split; [reflexivity|]. unfold valid in HV. lia.
        * assert (G2 : gt_ (en, jn) (lim, 0)).
          { right. rewrite EQ. cbn. split; [reflexivity|]. unfold valid in HV. lia. }
          eapply gt_trans; eauto.
    - destruct HB as [HB1 HB2]. fold lim in HB1. exists A, (b :: B). split; auto. split; [|lra].
      intros x Hx. rewrite EAB in HS. apply ss_app_inv in HS. destruct HS as (_ & _ & HS).
      assert (G : gt_ x b) by (apply HS; auto; left; auto).
      assert (Hb : In b S) by (rewrite EAB; apply in_or_app; right; left; auto).
      destruct b as [eb jb]. apply In_sorted in Hb. destruct Hb as [HV _]. unfold valid in HV.
      rewrite HB1. destruct G as [G|[G G1]]; [left; auto|right]. cbn in *. split; auto. lia. }
  destruct KEY as (C & D & ECD & HCG & HCT).
  assert (CN : C <> []) by (intros ->; unfold fs in HCT; cbn in HCT; lra).
  assert (EK : k = (length C + upper_bound D (lim, 0%Z))%nat).
  { unfold k. rewrite ECD. apply upper_bound_app; auto. }
  assert (HK : (1 <= k)%nat) by (destruct C; [tauto|cbn in EK; lia]).
  pose proof (upper_bound_le S (lim, 0)) as UB. fold k in UB.
  destruct (at_some S (Z.of_nat k - 1)) as [x Ex]; [lia|].
  rewrite SEL, Ex. exists (map snd (firstn k S)). split; auto.
  destruct (marked_facts errs k) as (M1 & M2 & M3 & M4). fold S in M1, M2, M3, M4.
  split; auto. split; auto. split; auto. split.
  - pose proof (firstn_withErr errs k) as FW. fold S in FW.
    rewrite <- fs_withErr, <- FW.
    assert (EF : firstn k S = C ++ firstn (upper_bound D (lim, 0)) D).
    { rewrite ECD at 1. rewrite EK, firstn_app_2. reflexivity. }
    rewrite EF, fs_app.
    assert (0 <= fs (firstn (upper_bound D (lim, 0%Z)) D))%Q.
    { apply fs_nonneg. apply Forall_forall. intros y Hy. apply in_firstn in Hy.
      rewrite Forall_forall in HPS. apply HPS. rewrite ECD. apply in_or_app. auto. }
    lra.
  - intros i T Hi HTN HTV HTS.
    assert (LI : (lim <= err errs i)%Q).
    { apply (marked_iff errs k) in Hi. fold S in Hi. unfold k in Hi.
      apply upper_bound_spec in Hi; auto. destruct Hi as [_ [G|[G _]]]; cbn in G; lra. }
    rewrite above_sorted. fold S.
    assert (C1 : (length (filter (fun x : dblIdx => qlt (err errs i) (fst x)) S) <= length A)%nat).
    { rewrite EAB, filter_app, app_length.
      assert (Z0 : filter (fun x : dblIdx => qlt (err errs i) (fst x)) B = []).
      { apply filter_none. intros y Hy. apply qlt_false. destruct B as [|b B]; [destruct Hy|].
        destruct HB as [HB1 _]. fold lim in HB1.
        assert (YB : (fst y <= fst b)%Q).
        { destruct Hy as [<-|Hy]; [lra|]. rewrite EAB in HS. apply ss_app_inv in HS.
          destruct HS as (_ & HS & _). inversion HS as [|? ? _ HF]; subst.
          rewrite Forall_forall in HF. destruct (HF y Hy) as [G|[G _]]; lra. }
        rewrite HB1 in LI. lra. }
      rewrite Z0. cbn [length].
      pose proof (filter_length_le' (fun x : dblIdx => qlt (err errs i) (fst x)) A). lia. }
    destruct HA as [-> |(A' & a & EA & HA)]; [cbn in C1; lia|].
    destruct (Nat.le_gt_cases (length A) (length T)) as [|HLT]; [lia|exfalso].
    assert (GR : (fs (withErr errs T) <= fs (firstn (length A') S))%Q).
    { apply greedy; auto.
      - unfold withErr. apply FinFun.Injective_map_NoDup; auto.
        intros u v E. injection E as _ E. auto.
      - intros y Hy. unfold withErr in Hy. apply in_map_iff in Hy.
        destruct Hy as (j & <- & Hj). apply In_sorted. auto.
      - unfold withErr. rewrite map_length. rewrite EA, app_length in HLT. cbn in HLT. lia. }
    rewrite fs_withErr in GR.
    assert (FA : firstn (length A') S = A').
    { rewrite EAB, EA, <- app_assoc, firstn_app, firstn_all, Nat.sub_diag. cbn.
      apply app_nil_r. }
    rewrite FA in GR. lra.
Qed.
Print Assumptions adap_dorfel.

(** Symmetrized selection: the percentage of the entries, and all entries whose
    error is within the tolerance of the smallest one among these. *)
Theorem adap_symmetrized : forall errs beta eps,
  errs <> [] -> (0 < beta)%Q -> (beta <= 100)%Q ->
  exists l0 l f, select (indexed errs) beta eps NONE = Some l0 /\
    select (indexed errs) beta eps SYMMETRIZED = Some l /\
    NoDup l /\ worst_first errs l /\
    (exists i, In i l0 /\ f = err errs i) /\ (forall j, In j l0 -> (f <= err errs j)%Q) /\
    (forall j, In j l <->
       In j l0 \/ (valid errs j /\ (Qabs (err errs j - f) < Qabs f * eps)%Q)).
Proof.
  intros errs beta eps Hne H1 H2.
  assert (Hn : (0 < length errs)%nat) by (destruct errs; [tauto|cbn; lia]).
  unfold select. cbn [errorLimits]. cbv zeta.
  set (S := sortP (indexed errs)).
  pose proof (sorted_length errs : length S = _) as LS. rewrite LS.
  pose proof (sorted_sorted errs : StronglySorted gt_ S) as HS.
  set (k := Qceiling _) in *. pose proof (ceil_bounds _ _ Hn H1 H2) as HK. fold k in HK.
  clearbody k. set (kn := Z.to_nat k).
  destruct (at_some S (k - 1)) as [[f i0] Ex]; [lia|]. rewrite Ex.
  assert (HX : nth_error S (kn - 1) = Some (f, i0)).
  { unfold at_ in Ex. destruct (Z.ltb_spec (k - 1) 0); [lia|].
    replace (kn - 1)%nat with (Z.to_nat (k - 1)) by lia. auto. }
  set (ex := symm_extend (skipn kn S) f (Qabs f * eps)%Q).
  pose proof (symm_extend_le (skipn kn S) f (Qabs f * eps)%Q) as LE. fold ex in LE.
  rewrite skipn_length in LE.
  destruct (at_some S (k + Z.of_nat ex - 1)) as [x2 Ex2]; [lia|].
  rewrite Ex2.
  assert (NE : match S with [] => None | _ :: _ => Some (map snd (firstn kn S)) end
               = Some (map snd (firstn kn S))) by (destruct S; [cbn in LS; lia|auto]).
  replace (Z.to_nat (k + Z.of_nat ex)) with (kn + ex)%nat by lia.
  assert (NE2 : match S with [] => None | _ :: _ => Some (map snd (firstn (kn + ex) S)) end
               = Some (map snd (firstn (kn + ex) S))) by (destruct S; [cbn in LS; lia|auto]).
  rewrite NE2. fold kn. rewrite NE.
  exists (map snd (firstn kn S)), (map snd (firstn (kn + ex) S)), f.
  destruct (marked_facts errs (kn + ex)) as (A & B & C & D). fold S in A, B, C, D.
  assert (SPL : S = firstn (kn - 1) S ++ (f, i0) :: skipn kn S).
  { rewrite <- (firstn_skipn (kn - 1) S) at 1. f_equal.
    assert (SK : forall (l : list dblIdx) n y, nth_error l n = Some y -> skipn n l = y :: skipn (Datatypes.S n) l).
    { intros l. induction l as [|z l IHl]; intros [|n] y E; cbn in *; try discriminate.
      - injection E as ->. auto.
      - apply IHl. auto. }
    rewrite (SK _ _ _ HX). replace (Datatypes.S (kn - 1)) with kn by lia. auto. }
  assert (F1 : firstn kn S = firstn (kn - 1) S ++ [(f, i0)]).
  { rewrite SPL at 1. replace kn with (length (firstn (kn - 1) S) + 1)%nat at 1
      by (rewrite firstn_length; lia). rewrite firstn_app_2. reflexivity. }
  assert (HSS := HS). rewrite SPL in HSS. apply ss_app_inv in HSS. destruct HSS as (_ & HSR & HSX).
  inversion HSR as [|? ? HSK HFK]; subst. rewrite Forall_forall in HFK.
  assert (IN0 : In (f, i0) S) by (eapply nth_error_In; eauto).
  apply In_sorted in IN0. destruct IN0 as [V0 E0].
  split; auto. split; auto. split; auto. split; auto. split; [|split].
  - exists i0. split; [|auto]. rewrite F1, map_app. apply in_or_app. right. left. auto.
  - intros j Hj. apply (marked_iff errs kn) in Hj. fold S in Hj. rewrite F1 in Hj.
    apply in_app_or in Hj. destruct Hj as [Hj|[Hj|[]]].
    + destruct (HSX _ (f, i0) Hj) as [G|[G _]]; [left; auto| |]; cbn in G; lra.
    + injection Hj as E1 E2. rewrite E1. lra.
  - intros j. pose proof (marked_iff errs (kn + ex) j) as MI1.
    pose proof (marked_iff errs kn j) as MI2. fold S in MI1, MI2. rewrite MI1, MI2.
    assert (FE : firstn (kn + ex) S = firstn kn S ++ firstn ex (skipn kn S)).
    { rewrite <- (firstn_skipn kn S) at 1.
      replace (kn + ex)%nat with (length (firstn kn S) + ex)%nat
        by (rewrite firstn_length; lia).
      apply firstn_app_2. }
    rewrite FE, in_app_iff.
    assert (SB : forall y, In y (skipn kn S) -> (fst y <= f)%Q).
    { intros y Hy. destruct (HFK y Hy) as [G|[G _]]; cbn in G; lra. }
    unfold ex. rewrite (symm_extend_in _ _ _ HSK SB). cbn [fst].
    assert (VI : In (err errs j, j) S <-> valid errs j) by (unfold S; rewrite In_sorted; tauto).
    rewrite <- (firstn_skipn kn S) in VI at 1. rewrite in_app_iff in VI.
    assert (VS : In (err errs j, j) S <-> valid errs j) by (unfold S; rewrite In_sorted; tauto).
    tauto.
Qed.
Print Assumptions adap_symmetrized.

(** Hence entries with equal, positive errors are treated equally. *)
Theorem adap_symmetrized_ties : forall errs beta eps l i j,
  (0 < beta)%Q -> (beta <= 100)%Q -> (0 < eps)%Q ->
  Forall (fun e => 0 < e)%Q errs ->
  select (indexed errs) beta eps SYMMETRIZED = Some l ->
  In i l -> valid errs j -> (err errs i == err errs j)%Q -> In j l.
Proof.
  intros errs beta eps l i j H1 H2 He HP HS Hi Hj E.
  assert (Hne : errs <> []) by (intros ->; unfold valid in Hj; cbn in Hj; lia).
  destruct (adap_symmetrized errs beta eps Hne H1 H2) as
    (l0 & l' & f & S0 & S1 & _ & _ & (i0 & Hi0 & Ef) & MIN & IFF).
  assert (l' = l) by congruence. subst l'. apply IFF in Hi.
  destruct (adap_percent errs beta eps Hne H1 H2) as (l1 & S2 & _ & _ & V & WF).
  assert (l1 = l0) by congruence. subst l1.
  assert (PF : (0 < f)%Q).
  { rewrite Ef. rewrite Forall_forall in HP. apply HP. unfold err. apply nth_In.
    specialize (V _ Hi0). unfold valid in V. lia. }
  apply IFF. destruct Hi as [Hi|[_ Hi]].
  - destruct (in_dec Z.eq_dec j l0) as [|HN]; [auto|right]. split; auto.
    specialize (MIN _ Hi). specialize (WF i0 j Hi0 Hj HN).
    assert (EJ : (err errs j - f == 0)%Q) by (rewrite Ef in *; lra).
    rewrite EJ. setoid_replace (Qabs 0) with 0%Q by reflexivity.
    apply Qmult_lt_0_compat; auto. rewrite Qabs_pos; lra.
  - right. split; auto. rewrite <- E. auto.
Qed.
Print Assumptions adap_symmetrized_ties.

(** The error of a basis function is the sum over the elements it lives on. *)
Theorem adap_function_error : forall supp orig nf b,
  length supp = length orig -> Forall (Forall (fun i => (i < nf)%nat)) supp -> 
  let r := remapErrors (repeat 0%Q nf) supp orig in
  length r = nf /\ (nth b r 0 == supportSum supp orig b)%Q.
Proof.
  intros supp orig nf b HL HF r.
  destruct (remap_spec supp orig (repeat 0%Q nf) b HL) as [A B].
  { eapply Forall_impl; [|exact HF]. intros l Hl. rewrite repeat_length. auto. }
  fold r in A, B. rewrite repeat_length in A. split; auto. rewrite B.
  assert (E : nth b (repeat 0%Q nf) 0%Q = 0%Q) by apply nth_repeat. rewrite E. lra.
Qed.
Print Assumptions adap_function_error.

(* ---- what does not hold ---- *)

(** Dorfler marking misses the requested percentage when element 0 has the
    smallest error and is needed. *)
Theorem adap_dorfel_refuted : exists errs beta l,
  Forall (fun e => 0 < e)%Q errs /\ (0 < beta)%Q /\ (beta < 100)%Q /\
  select (indexed errs) beta 0 DORFEL = Some l /\
  (sumOf errs l < total errs * beta / 100)%Q.
Proof.
  exists [1%Q; 2%Q], 90%Q, [1]. split; [repeat constructor|].
  split; [reflexivity|]. split; [reflexivity|]. split; [vm_compute; reflexivity|reflexivity].
Qed.
Print Assumptions adap_dorfel_refuted.

(** It also marks more than needed: one entry alone makes up the percentage. *)
Theorem adap_dorfel_minimal_refuted : exists errs beta l i,
  Forall (fun e => 0 < e)%Q errs /\
  select (indexed errs) beta 0 DORFEL = Some l /\ length l = 2%nat /\
  In i l /\ (total errs * beta / 100 <= err errs i)%Q.
Proof.
  exists [1%Q; 2%Q; 3%Q; 4%Q], 40%Q, [3; 2], 3. split; [repeat constructor|].
  split; [vm_compute; reflexivity|]. split; auto. split; [left; auto|]. discriminate.
Qed.
Print Assumptions adap_dorfel_minimal_refuted.

(** Element 0 is left out where elements with the same error are marked. *)
Theorem adap_threshold_ties_refuted : exists errs beta l,
  select (indexed errs) beta 0 MAXIMUM = Some l /\ valid errs 0 /\
  (exists i, In i l /\ err errs i = err errs 0) /\ ~ In 0 l.
Proof.
  exists [1%Q; 1%Q], 100%Q, [1]. split; [vm_compute; reflexivity|].
  split; [unfold valid; cbn; lia|]. split; [exists 1; split; [left; auto|reflexivity]|].
  intros [H|[]]. discriminate.
Qed.
Print Assumptions adap_threshold_ties_refuted.

(** A uniform error distribution and more than 100 percent of the smallest
    error, or one element and the whole error: nothing is marked, and the
    selection reads before the start of its vector. *)
Theorem adap_nothing_marked_refuted :
  (forall n e, (0 < e)%Q -> select (indexed (repeat e (S n))) 110 0 MINIMUM = None) /\
  (forall e, (0 < e)%Q -> select (indexed [e]) 100 0 DORFEL = None).
Proof.
  split.
  - intros n e He. set (errs := repeat e (S n)).
    assert (V : forall j, valid errs j -> err errs j = e).
    { intros j Hj. unfold err, errs. unfold valid, errs in Hj. rewrite repeat_length in Hj.
      rewrite (nth_indep _ _ e) by (rewrite repeat_length; lia). apply nth_repeat. }
    destruct (adap_threshold errs 110 0 MINIMUM (e * 110 / 100)) as [_ T].
    + discriminate.
    + exists 0. assert (V0 : valid errs 0) by (unfold valid, errs; rewrite repeat_length; lia).
      split; auto. rewrite (V 0 V0). split; [reflexivity|]. intros j Hj. rewrite (V j Hj). lra.
    + apply T. intros (i & Hi & H). rewrite (V i Hi) in H.
      assert (E : (e * 110 / 100 == e * (11#10))%Q) by field.
      destruct H as [H|[H _]]; rewrite E in H; lra.
  - intros e He. unfold select. cbn -[Qmult Qplus Qlt]. unfold sumErr. cbn -[Qmult Qplus].
    assert (E : qlt 0 ((0 + e) * 100 * (1 # 100)) = true) by (apply qlt_iff; lra).
    rewrite E. unfold geP. assert (E2 : gtP (e, 0) (e, 0) = false).
    { apply not_true_iff_false. rewrite gtP_iff. apply gt_irrefl. }
    rewrite E2. reflexivity.
Qed.
Print Assumptions adap_nothing_marked_refuted.

(** Symmetrized selection does not treat zero errors equally. *)
Theorem adap_symmetrized_zero_refuted : exists errs beta eps l i j,
  (0 < eps)%Q /\ select (indexed errs) beta eps SYMMETRIZED = Some l /\
  In i l /\ valid errs j /\ err errs i = err errs j /\ ~ In j l.
Proof.
  exists [1%Q; 0%Q; 0%Q], 60%Q, (1#10)%Q, [0; 2], 2, 1.
  split; [reflexivity|]. split; [vm_compute; reflexivity|]. split; [right; left; auto|].
  split; [unfold valid; cbn; lia|]. split; [reflexivity|]. intros [H|[H|[]]]; discriminate.
Qed.
Print Assumptions adap_symmetrized_zero_refuted.

(* ---- examples ---- *)
Definition ex_errs : list Q := [3%Q; 1%Q; 4%Q; 1%Q; 5%Q].
Example ex_percent : select (indexed ex_errs) 50 0 NONE = Some [4; 2; 0].
Proof. vm_compute. reflexivity. Qed.
Example ex_thresholds :
  select (indexed ex_errs) 60 0 MAXIMUM = Some [4; 2] /\
  select (indexed ex_errs) 100 0 AVERAGE = Some [4; 2; 0] /\
  select (indexed ex_errs) 100 0 MINIMUM = Some [4; 2; 0; 3; 1] /\
  select (indexed ex_errs) 70 0 SYMMETRIZED = Some [4; 2; 0; 3] /\
  select (indexed ex_errs) 70 (1#10) SYMMETRIZED = Some [4; 2; 0; 3; 1].
Proof. repeat split; vm_compute; reflexivity. Qed.
Example ex_dorfel : select (indexed ex_errs) 60 0 DORFEL = Some [4; 2].
Proof. vm_compute. reflexivity. Qed.
(** The hypotheses of adap_threshold and adap_dorfel hold for it. *)
Example ex_is_limit : is_limit ex_errs 60 MAXIMUM 3 /\ is_limit ex_errs 100 AVERAGE (14#5) /\
  (total ex_errs * 60 / 100 <= total ex_errs - err ex_errs 0)%Q.
Proof.
  split; [|split].
  - exists 4. split; [unfold valid; cbn; lia|]. split; [reflexivity|].
    intros j Hj. unfold valid in Hj. cbn in Hj.
    assert (C : j = 0 \/ j = 1 \/ j = 2 \/ j = 3 \/ j = 4) by lia.
    destruct C as [-> |[-> |[-> |[-> | ->]]]]; discriminate.
  - reflexivity.
  - discriminate.
Qed.
Example ex_function : remapErrors [0%Q; 0%Q; 0%Q] [[0%nat; 1%nat]; [1%nat; 2%nat]] [1%Q; 2%Q]
  = [1%Q; 3%Q; 2%Q].
Proof. vm_compute. reflexivity. Qed.
