(** Proofs about the Adams-Moulton methods. *)
From Coq Require Import QArith Reals Qreals List Bool Lia Lra FunctionalExtensionality.
From Verif Require Import Tin_model Tin_spec Tin_proofs2.
Import ListNotations.
Local Open Scope R_scope.

Lemma setL_nth_error {A} (l : list A) i a j : nth_error (setL l i a) j = if (Nat.eqb j i && Nat.ltb i (length l))%bool then Some a else nth_error l j.
Proof.
  revert i j. induction l as [|x l IH]; intros i j; simpl.
  - destruct (Nat.eqb j i && Nat.ltb i 0)%bool eqn:E; [|destruct i; reflexivity].
    apply andb_prop in E. destruct E as [_ E]. apply Nat.ltb_lt in E. lia.
  - destruct i as [|i], j as [|j]; cbn [setL nth_error]; try reflexivity.
    + simpl. rewrite IH. reflexivity.
Qed.
Lemma last_app {A} (l : list A) x d : last (l ++ [x]) d = x.
Proof. induction l as [|y l IH]; [reflexivity|]. simpl. destruct l; [reflexivity|exact IH]. Qed.

Lemma amLoads_ok dt h ps F : forall coefs c acc, length coefs = S c ->
  (forall i, (1 <= i <= c)%nat -> deref h (nth i ps O) = Some (F i)) ->
  amLoads dt coefs h ps c acc = Ok (fun d => acc d + dt * sumR c (fun i => Q2R (back coefs (S i)) * F (S i) d)).
Proof.
  induction coefs as [|q r IH]; intros c acc Hl HF; [discriminate|].
  destruct r as [|p r].
  - simpl in Hl. injection Hl as <-. cbn [amLoads sumR]. f_equal. apply functional_extensionality. intro d. lra.
  - destruct c as [|c]; [discriminate|].
    change (amLoads dt (q :: p :: r) h ps (S c) acc) with
      (match deref h (nth (S c) ps O) with None => UB | Some b => amLoads dt (p :: r) h ps (S c - 1) (vadd acc b (Q2R q * dt)) end).
    rewrite (HF (S c)) by lia. cbn [Nat.sub]. rewrite Nat.sub_0_r.
    rewrite (IH c) by (try (simpl in *; lia); intros; apply HF; lia).
    f_equal. apply functional_extensionality. intro d. cbn [sumR]. unfold vadd.
    assert (E : back (q :: p :: r) (S c) = q).
    { unfold back. simpl in Hl. cbn [length]. replace (S (S (length r)) - 1 - S c)%nat with O by lia. reflexivity. }
    rewrite E.
    replace (sumR c (fun i => Q2R (back (q :: p :: r) (S i)) * F (S i) d)) with (sumR c (fun i => Q2R (back (p :: r) (S i)) * F (S i) d)).
    + ring.
    + clear - Hl. assert (G : forall n, (n <= c)%nat -> sumR n (fun i => Q2R (back (p :: r) (S i)) * F (S i) d) = sumR n (fun i => Q2R (back (q :: p :: r) (S i)) * F (S i) d)).
      { induction n as [|n IHn]; intros Hn; [reflexivity|]. cbn [sumR]. rewrite IHn by lia.
        rewrite (back_cons q (p :: r)) by (simpl in *; lia). reflexivity. }
      apply G. lia.
Qed.

Section AM.
Variable rhs : R -> V -> V.
Variable newton : R -> R -> V -> V -> option V.
Variable m : method.
Notation k := (amOrder m).

Lemma amOrder_pos : (1 <= k <= 4)%nat.
Proof. destruct m; simpl; lia. Qed.
Lemma AM_row c : (c < 5)%nat -> length (nth c AM_coefs []) = S c.
Proof. intros H. destruct c as [|[|[|[|[|c]]]]]; try lia; reflexivity. Qed.

Definition amInv (n : nat) (s : amst) (H : list (R * V)) : Prop :=
  ptrs s = map (fun i => (n - i)%nat) (seq 0 k) /\ length (mem s) = n /\ length H = S n /\
  (forall q, (q < n)%nat -> nth_error (mem s) q = Some (if Nat.ltb (q + k) n then None else Some (hload rhs H (n - 1 - q)))) /\
  (forall i, (i < length H)%nat -> amsols s i = snd (hget H i)) /\
  (amICs s = true -> k = 1%nat).

(** After the advance to step n+1. *)
Definition amMid (n : nat) (s : amst) (H : list (R * V)) : Prop :=
  ptrs s = n :: map (fun i => (n - i)%nat) (seq 0 (k - 1)) /\ length (mem s) = n /\ length H = S n /\
  (forall q, (q < n)%nat -> nth_error (mem s) q = Some (if Nat.ltb (q + k) (S n) then None else Some (hload rhs H (n - 1 - q)))) /\
  (amsols s O = snd (hget H 0)) /\ (forall i, (i < length H)%nat -> amsols s (S i) = snd (hget H i)) /\
  (amICs s = true -> k = 1%nat).

Lemma amAdv_core n H h ps ics u :
  amInv n {| mem := h; ptrs := ps; amICs := ics; amsols := u |} H ->
  exists s, match del h (last ps 0%nat) with
  | Ok h' => Ok {| mem := h'; ptrs := hd 0%nat ps :: removelast ps; amICs := ics;
                   amsols := fun j => match j with O => u O | S i => u i end |}
  | Fail => Fail
  | UB => UB
  end = Ok s /\ amMid n s H.
Proof.
  intros (I1 & I2 & I3 & I4 & I5 & I6). cbn [mem ptrs amICs amsols] in *. pose proof amOrder_pos as Hk.
  assert (Ek : seq 0 k = seq 0 (k - 1) ++ [(k - 1)%nat]).
  { replace k with (S (k - 1)) at 1 by lia. rewrite seq_S. reflexivity. }
  assert (Eh : hd O ps = n).
  { rewrite I1. replace k with (S (k - 1)) by lia. simpl. lia. }
  assert (El : last ps O = (n - (k - 1))%nat).
  { rewrite I1, Ek, map_app. apply last_app. }
  assert (Er : removelast ps = map (fun i => (n - i)%nat) (seq 0 (k - 1))).
  { rewrite I1, Ek, map_app. apply removelast_last. }
  rewrite Eh, El, Er.
  assert (D : exists h', del h (n - (k - 1)) = Ok h' /\ length h' = n /\
     forall q, (q < n)%nat -> nth_error h' q = Some (if Nat.ltb (q + k) (S n) then None else Some (hload rhs H (n - 1 - q)))).
  { unfold del. destruct (n - (k - 1))%nat as [|q0] eqn:Ep.
    - exists h. split; [reflexivity|]. split; [exact I2|]. intros q Hq. rewrite I4 by assumption.
      replace (Nat.ltb (q + k) n) with false by (symmetry; apply Nat.ltb_ge; lia).
      replace (Nat.ltb (q + k) (S n)) with false by (symmetry; apply Nat.ltb_ge; lia). reflexivity.
    - rewrite I4 by lia. replace (Nat.ltb (q0 + k) n) with false by (symmetry; apply Nat.ltb_ge; lia).
      exists (setL h q0 None). split; [reflexivity|]. split; [rewrite setL_len; exact I2|].
      intros q Hq. rewrite setL_nth_error. destruct (Nat.eqb q q0) eqn:Eq.
      + apply Nat.eqb_eq in Eq. subst q. replace (Nat.ltb q0 (length h)) with true by (symmetry; apply Nat.ltb_lt; lia).
        cbn [andb]. replace (Nat.ltb (q0 + k) (S n)) with true by (symmetry; apply Nat.ltb_lt; lia). reflexivity.
      + apply Nat.eqb_neq in Eq. cbn [andb]. rewrite I4 by assumption.
        destruct (Nat.ltb (q + k) n) eqn:E1.
        * apply Nat.ltb_lt in E1. replace (Nat.ltb (q + k) (S n)) with true by (symmetry; apply Nat.ltb_lt; lia). reflexivity.
        * apply Nat.ltb_ge in E1. replace (Nat.ltb (q + k) (S n)) with false by (symmetry; apply Nat.ltb_ge; lia). reflexivity. }
  destruct D as (h' & D1 & D2 & D3). rewrite D1. eexists. split; [reflexivity|].
  unfold amMid. cbn [mem ptrs amICs amsols]. repeat split; try assumption.
  apply I5; lia.
Qed.

Lemma amSolve_ok n s H dt : amMid n s H ->
  amSolve rhs newton m (fst (hget H 0) + dt) dt (S n) s =
  match amNext k rhs newton H dt with
  | None => Fail
  | Some (t, u) => Ok {| mem := mem s ++ [Some (rhs t u)]; ptrs := setL (ptrs s) 0 (S (length (mem s)));
                        amICs := amICs s; amsols := fun j => match j with O => u | S i => amsols s (S i) end |}
  end.
Proof.
  intros (I1 & I2 & I3 & I4 & I5 & I6 & I7). pose proof amOrder_pos as Hk. unfold amSolve, amNext. cbv zeta.
  set (c := if amICs s then (k - 1)%nat else Nat.min (k - 1) (S n - 1)).
  assert (Ec : (Nat.min k (length H) - 1)%nat = c).
  { unfold c. destruct (amICs s) eqn:E; [specialize (I7 eq_refl)|]; lia. }
  rewrite Ec, (AM_row c) by lia. replace (S c - 1)%nat with c by lia.
  rewrite (amLoads_ok dt (mem s) (ptrs s) (fun i => hload rhs H (i - 1))).
  - rewrite back_last, I5.
    match goal with |- match newton ?t ?a ?b ?u with _ => _ end = match option_map _ (newton ?t ?a ?b' ?u) with _ => _ end => assert (E : b = b') end.
    { apply functional_extensionality. intro d. unfold vzero. rewrite Rplus_0_l. f_equal.
      clear. induction c as [|c IH]; [reflexivity|]. cbn [sumR]. f_equal; [|simpl; rewrite Nat.sub_0_r; reflexivity].
      generalize (nth (S c) AM_coefs []). intro l. clear. generalize c. intro n.
      induction n as [|n IH]; [reflexivity|]. cbn [sumR]. rewrite IH. simpl. rewrite Nat.sub_0_r. reflexivity. }
    rewrite E. destruct (newton _ _ _ _); reflexivity.
  - apply AM_row. lia.
  - intros i Hi. rewrite I1. destruct i as [|i]; [lia|]. cbn [nth].
    assert (Hki : (i < k - 1)%nat) by (unfold c in Hi; destruct (amICs s); lia).
    assert (Hni : (i < n)%nat) by (rewrite <- Ec in Hi; lia).
    rewrite (nth_indep _ _ ((fun i => (n - i)%nat) O)) by (rewrite map_length, seq_length; lia).
    rewrite (map_nth (fun i => (n - i)%nat)). rewrite seq_nth by lia. cbn [plus].
    unfold deref. destruct (n - i)%nat as [|q] eqn:Eq; [lia|]. rewrite I4 by lia.
    replace (Nat.ltb (q + k) (S n)) with false by (symmetry; apply Nat.ltb_ge; lia).
    f_equal. f_equal. lia.
Qed.

Lemma amStep_inv n s H dt t u : amMid n s H -> amNext k rhs newton H dt = Some (t, u) ->
  amInv (S n) {| mem := mem s ++ [Some (rhs t u)]; ptrs := setL (ptrs s) 0 (S (length (mem s)));
                        amICs := amICs s; amsols := fun j => match j with O => u | S i => amsols s (S i) end |}
   ((t, u) :: H).
Proof.
  intros (I1 & I2 & I3 & I4 & I5 & I6 & I7) E. pose proof amOrder_pos as Hk.
  unfold amInv. cbn [mem ptrs amICs amsols].
  split; [|split; [|split; [|split; [|split]]]].
  - rewrite I1, I2. cbn [setL]. replace k with (S (k - 1)) at 2 by lia. cbn [seq map].
    f_equal. rewrite <- seq_shift, map_map. reflexivity.
  - rewrite app_length. simpl. lia.
  - simpl. lia.
  - intros q Hq. destruct (Nat.eq_dec q n) as [->|].
    + rewrite nth_error_app2 by lia. rewrite I2, Nat.sub_diag. cbn [nth_error].
      replace (Nat.ltb (n + k) (S n)) with false by (symmetry; apply Nat.ltb_ge; lia).
      f_equal. f_equal. replace (S n - 1 - n)%nat with O by lia. reflexivity.
    + rewrite nth_error_app1 by lia. rewrite I4 by lia. destruct (Nat.ltb (q + k) (S n)); [reflexivity|].
      f_equal. f_equal. replace (S n - 1 - q)%nat with (S (n - 1 - q)) by lia. reflexivity.
  - intros i Hi. destruct i as [|i]; [reflexivity|]. rewrite hget_cons. apply I6. simpl in Hi. lia.
  - exact I7.
Qed.

Lemma amIc_none ic t dt u h ps : (k = 1%nat \/ ic 2%nat = false) ->
  exists ics, amIcLoop rhs ic t dt u 2 (k - 1) h ps = (h, ps, ics) /\ (ics = true -> k = 1%nat).
Proof.
  intros H. pose proof amOrder_pos as Hk. destruct (k - 1)%nat as [|r] eqn:E.
  - exists true. split; [reflexivity|]. lia.
  - destruct H as [H|H]; [lia|]. exists false. cbn [amIcLoop]. rewrite H. split; [reflexivity|discriminate].
Qed.

Lemma amAdvance_ok ic t dt n s H : (k = 1%nat \/ ic 2%nat = false) -> amInv n s H ->
  exists s1, amAdvance rhs m ic t dt (S n) s = Ok s1 /\ amMid n s1 H.
Proof.
  intros Hic I. unfold amAdvance. destruct n as [|n].
  - cbn [Nat.eqb]. destruct (amIc_none ic t dt (amsols s) (mem s) (ptrs s) Hic) as (ics & E & Ei). rewrite E.
    apply amAdv_core. destruct I as (I1 & I2 & I3 & I4 & I5 & I6).
    unfold amInv; cbn [mem ptrs amICs amsols]; repeat split; assumption.
  - cbn [Nat.eqb]. apply amAdv_core. destruct s; exact I.
Qed.

Lemma amRun_ok ic : (k = 1%nat \/ ic 2%nat = false) -> forall dts n s H, amInv n s H ->
  exists s', amRun rhs newton m ic (fst (hget H 0)) n dts s = Ok (s', snd (amHist k rhs newton H dts)) /\
    let H' := fst (amHist k rhs newton H dts) in
    exists n', length H' = S n' /\ if snd (amHist k rhs newton H dts) then amInv n' s' H' else amMid n' s' H'.
Proof.
  intros Hic. induction dts as [|dt r IH]; intros n s H I; cbn [amRun amHist].
  - exists s. split; [reflexivity|]. exists n. split; [apply I|exact I].
  - destruct (amAdvance_ok ic (fst (hget H 0) + dt) dt n s H Hic I) as (s1 & E1 & I1). rewrite E1.
    rewrite (amSolve_ok n s1 H dt I1). destruct (amNext k rhs newton H dt) as [[t u]|] eqn:En.
    + pose proof (amStep_inv n s1 H dt t u I1 En) as I2.
      destruct (IH (S n) _ _ I2) as (s' & E2 & R).
      assert (Et : t = fst (hget H 0) + dt).
      { unfold amNext in En. cbv zeta in En. destruct (newton _ _ _ _); [|discriminate]. simpl in En. injection En as <- _. reflexivity. }
      exists s'. split; [|exact R]. rewrite <- Et. exact E2.
    + exists s1. split; [reflexivity|]. exists n. split; [apply I1|exact I1].
Qed.

Lemma amInit_inv u t0 : amInv 0 (amInit m u) [(t0, u O)].
Proof.
  unfold amInv, amInit. cbn [mem ptrs amICs amsols length]. repeat split; try (intros; lia).
  - assert (G : forall j a, repeat 0%nat j = map (fun i => (0 - i)%nat) (seq a j)).
    { induction j as [|j IH]; intro a; [reflexivity|]. simpl. f_equal. apply IH. }
    apply G.
  - intros i Hi. replace i with O by lia. reflexivity.
Qed.

Lemma delAll_ok n : forall todo a h, (a + todo = k)%nat -> length h = n ->
  (forall q, (q < n)%nat -> exists v, nth_error h q = Some (if (Nat.ltb (q + k) n || Nat.leb n (q + a))%bool then None else Some v)) ->
  exists h', delAll h (map (fun i => (n - i)%nat) (seq a todo)) = Ok h' /\ length h' = n /\ forall o, In o h' -> o = None.
Proof.
  induction todo as [|todo IH]; intros a h Ha Hl Hq; cbn [seq map delAll].
  - exists h. split; [reflexivity|]. split; [assumption|]. intros o Ho. apply In_nth_error in Ho. destruct Ho as (q & Eq).
    assert (Hlt : (q < n)%nat) by (rewrite <- Hl; apply nth_error_Some; rewrite Eq; discriminate).
    destruct (Hq q Hlt) as (v & E). rewrite E in Eq. injection Eq as <-.
    replace (Nat.ltb (q + k) n || Nat.leb n (q + a))%bool with true; [reflexivity|].
    symmetry. apply orb_true_iff. rewrite Nat.ltb_lt, Nat.leb_le. lia.
  - assert (D : exists h1, del h (n - a) = Ok h1 /\ length h1 = n /\
      forall q, (q < n)%nat -> exists v, nth_error h1 q = Some (if (Nat.ltb (q + k) n || Nat.leb n (q + S a))%bool then None else Some v)).
    { unfold del. destruct (n - a)%nat as [|q0] eqn:Ep.
      - exists h. split; [reflexivity|]. split; [assumption|]. intros q Hlt. destruct (Hq q Hlt) as (v & E). exists v. rewrite E.
        replace (Nat.leb n (q + a)) with true by (symmetry; apply Nat.leb_le; lia).
        replace (Nat.leb n (q + S a)) with true by (symmetry; apply Nat.leb_le; lia). reflexivity.
      - destruct (Hq q0 ltac:(lia)) as (v & E). rewrite E.
        replace (Nat.ltb (q0 + k) n || Nat.leb n (q0 + a))%bool with false.
        2:{ symmetry. apply orb_false_iff. rewrite Nat.ltb_ge, Nat.leb_gt. lia. }
        exists (setL h q0 None). split; [reflexivity|]. split; [rewrite setL_len; assumption|].
        intros q Hlt. rewrite setL_nth_error. destruct (Nat.eqb q q0) eqn:Eq.
        + apply Nat.eqb_eq in Eq. subst q. exists v. replace (Nat.ltb q0 (length h)) with true by (symmetry; apply Nat.ltb_lt; lia).
          cbn [andb]. replace (Nat.ltb (q0 + k) n || Nat.leb n (q0 + S a))%bool with true; [reflexivity|].
          symmetry. apply orb_true_iff. rewrite Nat.leb_le. lia.
        + apply Nat.eqb_neq in Eq. cbn [andb]. destruct (Hq q Hlt) as (w & Ew). exists w. rewrite Ew. f_equal.
          replace (Nat.leb n (q + a)) with (Nat.leb n (q + S a)); [reflexivity|].
          apply eq_true_iff_eq. rewrite !Nat.leb_le. lia. }
    destruct D as (h1 & D1 & D2 & D3). rewrite D1. apply (IH (S a) h1); [lia|assumption|assumption].
Qed.

Lemma amInv_del n s H : amInv n s H -> exists h', delAll (mem s) (ptrs s) = Ok h' /\ forall o, In o h' -> o = None.
Proof.
  intros (I1 & I2 & I3 & I4 & I5 & I6). rewrite I1.
  destruct (delAll_ok n k 0 (mem s) ltac:(lia) I2) as (h' & E & _ & E2).
  - intros q Hq. exists (hload rhs H (n - 1 - q)). rewrite I4 by assumption.
    replace (Nat.leb n (q + 0)) with false by (symmetry; apply Nat.leb_gt; lia). rewrite orb_false_r. reflexivity.
  - exists h'. split; assumption.
Qed.

Lemma amMid_del n s H : amMid n s H -> (1 <= n)%nat -> delAll (mem s) (ptrs s) = UB.
Proof.
  intros (I1 & I2 & I3 & I4 & _) Hn. rewrite I1. pose proof amOrder_pos as Hk. cbn [delAll].
  destruct n as [|n]; [lia|]. cbn [del]. rewrite I4 by lia.
  destruct (Nat.ltb (n + k) (S (S n))) eqn:E; [reflexivity|].
  apply Nat.ltb_ge in E. destruct (k - 1)%nat as [|j] eqn:Ek; [lia|].
  cbn [seq map delAll]. rewrite Nat.sub_0_r. cbn [del]. rewrite setL_nth_error, Nat.eqb_refl.
  replace (Nat.ltb n (length (mem s))) with true by (symmetry; apply Nat.ltb_lt; lia). reflexivity.
Qed.
End AM.
