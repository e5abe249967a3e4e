(** Termination of the time integration. *)
From Coq Require Import List Arith ZArith QArith Qcanon Bool Lia Lqa.
From Verif Require Import Base QcLra TimeStep_model TimeStep_spec TimeStep_proofs TimeStep_proofs2 TimeStep_proofs3.
Import ListNotations.
Local Open Scope Qc_scope.

Section Live.
Variable dl : Qc.
Hypothesis dl_pos : 0 < dl.

Record J (s : TS) : Prop := mkJ {
  j_inv : Inv false s;
  j_cfl : maxCFL s <= 0;
  j_max : (maxStep s <= 0)%Z;
  j_min : dtMin s < dtMax s -> dl <= dtMin s;
  j_lists : forall j l e, (stepIt s <= j)%nat -> nth_error (mySteps s) j = Some (l, e) -> l <> [] /\ Forall (fun d => dl <= d) l;
  j_l : forall l e, curSec s = Some (l, e) -> (lstep s < length l)%nat;
  j_dt : mySteps s = [] -> dl <= dt s \/ t s = stopTime s }.

Lemma setSec_nth s l l0 e0 j : curSec s = Some (l0, e0) ->
  nth_error (setSec s l) j = if (j =? stepIt s)%nat then Some (l, e0) else nth_error (mySteps s) j.
Proof. intros C. unfold setSec. rewrite C, upd_nth_error. unfold curSec in C. rewrite C. reflexivity. Qed.

Lemma nocfl_incA s : maxCFL s <= 0 -> qltb 0 (maxCFL s) && qltb q12 (cfl s) = false.
Proof. intros H. apply qltb_false in H. rewrite H. reflexivity. Qed.

Lemma incA_lb s : J s -> t s < stopTime s -> dl <= dt (incA s).
Proof.
  intros H Ht. unfold incA. rewrite nocfl_incA by apply H. destruct (curSec s) as [[l e]|] eqn:C; cbn [dt].
  - pose proof (j_l _ H _ _ C) as Hl. destruct (S (lstep s) <=? length l)%nat eqn:E; [|apply Nat.leb_gt in E; lia].
    destruct (j_lists _ H (stepIt s) l e (le_n _) C) as [_ F]. apply (Forall_nth0 (fun d => dl <= d)); assumption.
  - destruct (mySteps s) eqn:M.
    + destruct (j_dt _ H M) as [E|E]; [exact E|]. rewrite E in Ht. exfalso. qclra.
    + exfalso. pose proof (curSec_None _ C) as K. pose proof (j_inv _ H) as I. pose proof (i_k _ _ I) as K2. pose proof (i_lo _ _ I) as Lo.
      destruct (i_last _ _ I) as [E|E]; [rewrite M in E; discriminate|]. unfold prevEnd in Lo. rewrite M in K, K2. cbn in K, K2.
      destruct (stepIt s) as [|k] eqn:Ek; [lia|]. assert (last (ends s) 0 = nth k (ends s) 0).
      { assert (Q : forall l : list Qc, length l = S k -> last l 0 = nth k l 0).
        { clear. induction k as [|k IH]; intros [|x [|y l]] Hl; cbn in Hl; try discriminate; [reflexivity|]. apply (IH (y :: l)). cbn. lia. }
        apply Q. rewrite ends_length, M. cbn. lia. }
      rewrite E in Ht. qclra.
Qed.
Lemma incB_lb s : (dtMin s < dtMax s -> dl <= dtMin s) -> dl <= dt s -> dl <= dt (incB s).
Proof.
  intros H H1. unfold incB. destruct (_ && _) eqn:E; [|exact H1]. apply andb_prop in E as [E _]. apply andb_prop in E as [E _]. apply qltb_true in E.
  specialize (H E). cbn [setDt dt]. match goal with |- context [qltb ?d (dtMin s)] => set (d0 := d) end.
  pose proof (qltb_spec d0 (dtMin s)). destruct (qltb d0 (dtMin s)); [exact H|]. pose proof (qltb_spec (dtMax s) d0). destruct (qltb (dtMax s) d0); qclra.
Qed.

Lemma incB_max s : maxCFL (incB s) = maxCFL s. Proof. unfold incB; dopen; reflexivity. Qed.
Lemma incC_max s : maxCFL (incC s) = maxCFL s. Proof. unfold incC; dopen; reflexivity. Qed.
Lemma incD_max s : maxCFL (incD s) = maxCFL s. Proof. unfold incD; dopen; reflexivity. Qed.
Lemma incA_max s : maxCFL s <= 0 -> maxCFL (incA s) = maxCFL s.
Proof. intros H. unfold incA. rewrite nocfl_incA by exact H. dopen; reflexivity. Qed.

Lemma J_step s s' : J s -> increment s = (true, s') ->
  J s' /\ (t s' = stopTime s \/ (stepIt s' = stepIt s /\ dl <= dt s') \/ stepIt s' = S (stepIt s)) /\ (stepIt s' <= length (mySteps s))%nat.
Proof.
  intros H E. pose proof (step_Inv _ _ _ (j_inv _ H) E) as [I' _]. pose proof (increment_same s) as Sm. rewrite E in Sm. cbn [snd] in Sm.
  destruct Sm as (G1 & G2 & G3 & G4 & G5 & G6 & G7 & G8 & G9).
  assert (Ht : t s < stopTime s).
  { destruct (Qclt_le_dec (t s) (stopTime s)) as [L|L]; [exact L|]. exfalso. destruct (increment_at_end s (i_stop _ _ (j_inv _ H)) L) as (s2 & E2). congruence. }
  unfold increment in E. set (s1 := incB (incA s)) in *.
  assert (D1 : dl <= dt s1). { unfold s1. apply incB_lb; [|apply incA_lb; assumption]. destruct (incA_same s) as (_ & _ & -> & -> & _). apply H. }
  destruct (hasReached _ _); [discriminate|]. destruct (_ && _); [discriminate|]. set (s2 := advance (bumpStep s1)) in *.
  assert (E' : s' = incD (incC s2)) by congruence. clear E.
  assert (M2 : mySteps s2 = mySteps s) by (unfold s2, s1; cbn; rewrite (proj1 (incB_secs _)); apply incA_secs).
  assert (K2 : stepIt s2 = stepIt s) by (unfold s2, s1; cbn; rewrite (proj1 (proj2 (incB_secs _))); apply incA_secs).
  assert (C2 : curSec s2 = curSec s) by (unfold curSec; rewrite M2, K2; reflexivity).
  assert (X2 : maxCFL s2 = maxCFL s) by (unfold s2, s1; cbn; rewrite incB_max; apply incA_max, H).
  assert (Q : (forall j l e, (stepIt s' <= j)%nat -> nth_error (mySteps s') j = Some (l, e) -> l <> [] /\ Forall (fun d => dl <= d) l) /\
     (forall l e, curSec s' = Some (l, e) -> (lstep s' < length l)%nat) /\
     (mySteps s' = [] -> dl <= dt s' \/ t s' = stopTime s) /\
     (t s' = stopTime s \/ (stepIt s' = stepIt s /\ dl <= dt s') \/ stepIt s' = S (stepIt s)) /\ (stepIt s' <= length (mySteps s))%nat).
  { destruct (curSec s) as [[l e]|] eqn:C.
    - pose proof (j_l _ H _ _ C) as Hl. destruct (j_lists _ H (stepIt s) l e (le_n _) C) as [Nl Fl]. destruct (curSec_lt _ _ _ C) as [Kl _].
      assert (L2 : lstep s2 = S (lstep s)).
      { unfold s2, s1. cbn. destruct (incB_secs (incA s)) as (_ & _ & -> & _). unfold incA. rewrite nocfl_incA by apply H. rewrite C. reflexivity. }
      set (l' := if (length l <=? lstep s2)%nat then l ++ [dt s2] else l).
      assert (Fl' : l' <> [] /\ Forall (fun d => dl <= d) l').
      { unfold l'. destruct (_ <=? _)%nat; [|auto]. split; [destruct l; discriminate|]. apply Forall_app. split; [exact Fl|]. constructor; [exact D1|constructor]. }
      assert (Ll' : (lstep s2 < length l')%nat).
      { unfold l'. destruct (Nat.leb_spec (length l) (lstep s2)) as [Z|Z]; [rewrite app_length; cbn [length]; lia|exact Z]. }
      assert (W : forall s3, incD s3 = s3 \/ (mySteps (incD s3) = mySteps s3 /\ stepIt (incD s3) = stepIt s3 /\ lstep (incD s3) = lstep s3 /\ t (incD s3) = stopTime s3)).
      { intros s3. unfold incD. destruct (qltb _ _); auto. }
      assert (W2 : mySteps s' = mySteps (incC s2) /\ stepIt s' = stepIt (incC s2) /\ lstep s' = lstep (incC s2) /\ (t s' = stopTime s \/ s' = incC s2)).
      { rewrite E'. destruct (W (incC s2)) as [-> |(A & B & D & F)]; [auto|]. rewrite A, B, D. split; [reflexivity|]. split; [reflexivity|]. split; [reflexivity|]. left.
        rewrite F. destruct (incC_same s2) as (_ & -> & _). unfold s2, s1. cbn. destruct (incB_same (incA s)) as (_ & -> & _). apply incA_same. }
      destruct W2 as (V1 & V2 & V3 & V4). unfold curSec. rewrite V1, V2, V3. clear V1 V2 V3. unfold incC in *. rewrite C2 in *. fold l' in V4 |- *.
      destruct (hasReached s2 e).
      + assert (Z : forall lx, let ms := setSec s2 lx in
          (forall j l1 e1, (S (stepIt s2) <= j)%nat -> nth_error ms j = Some (l1, e1) -> l1 <> [] /\ Forall (fun d => dl <= d) l1) /\
          (forall l1 e1, nth_error ms (S (stepIt s2)) = Some (l1, e1) -> (0 < length l1)%nat) /\ ms <> []).
        { intros lx ms. assert (Z1 : forall j l1 e1, (S (stepIt s2) <= j)%nat -> nth_error ms j = Some (l1, e1) -> l1 <> [] /\ Forall (fun d => dl <= d) l1).
          { intros j l1 e1 Hj Hn. unfold ms in Hn. rewrite (setSec_nth _ _ l e) in Hn by exact C2. destruct (j =? stepIt s2)%nat eqn:Ej; [apply Nat.eqb_eq in Ej; lia|].
            rewrite M2 in Hn. apply (j_lists _ H j l1 e1); [lia|exact Hn]. }
          split; [exact Z1|]. split.
          - intros l1 e1 Hn. destruct (Z1 _ _ _ (le_n _) Hn) as [Hne _]. destruct l1; [contradiction|cbn; lia].
          - intros Hn. apply (f_equal (@length _)) in Hn. unfold ms in Hn. rewrite setSec_len, M2 in Hn. cbn in Hn. lia. }
        destruct (Qc_eq_dec (t s2) e); cbn [mySteps stepIt lstep t dt] in *; specialize (Z (if Qc_eq_dec (t s2) e then l' else set_back (dt s2 + (e - t s2)) l')); destruct (Qc_eq_dec (t s2) e); try contradiction;
        cbn zeta in Z; destruct Z as (Z1 & Z2 & Z3); (split; [exact Z1|]); (split; [exact Z2|]); (split; [intros Z4; contradiction|]); (split; [right; right; rewrite K2; reflexivity|rewrite K2; lia]).
      + cbn [mySteps stepIt lstep t dt] in *. split; [|split; [|split; [|split]]].
        * intros j l1 e1 Hj Hn. rewrite (setSec_nth _ _ l e) in Hn by exact C2. destruct (j =? stepIt s2)%nat eqn:Ej.
          -- assert (l1 = l') by congruence. subst l1. exact Fl'.
          -- rewrite M2 in Hn. apply (j_lists _ H j l1 e1); [lia|exact Hn].
        * intros l1 e1 Hn. rewrite (setSec_nth _ _ l e) in Hn by exact C2. rewrite Nat.eqb_refl in Hn. assert (l1 = l') by congruence. subst l1. exact Ll'.
        * intros Hn. exfalso. apply (f_equal (@length _)) in Hn. rewrite setSec_len, M2 in Hn. cbn in Hn. lia.
        * destruct V4 as [V|V]; [left; exact V|right; left]. rewrite V. cbn. split; [exact K2|exact D1].
        * rewrite K2. lia.
    - pose proof (curSec_None _ C) as Kn. assert (Y : incC s2 = s2) by (unfold incC; rewrite C2; reflexivity). rewrite Y in E'.
      assert (mySteps s' = mySteps s /\ stepIt s' = stepIt s /\ (dl <= dt s' \/ t s' = stopTime s)) as (A & B & D).
      { rewrite E'. unfold incD. destruct (qltb _ _); cbn [mySteps stepIt dt t]; rewrite M2, K2; (split; [reflexivity|]); (split; [reflexivity|]).
        - right. unfold s2, s1. cbn. destruct (incB_same (incA s)) as (_ & -> & _). apply incA_same.
        - left. exact D1. }
      rewrite A, B. split; [|split; [|split; [|split]]].
      + intros j l e Hj Hn. apply (j_lists _ H j l e Hj Hn).
      + intros l e Hc. unfold curSec in Hc. rewrite A, B in Hc. unfold curSec in C. congruence.
      + intros _. exact D.
      + destruct D as [D|D]; [right; left; auto|left; exact D].
      + apply H. }
  destruct Q as (Q1 & Q2 & Q3 & Q4 & Q5). split; [|split; [exact Q4|exact Q5]].
  constructor; rewrite ?G2, ?G3, ?G4, ?G7; try apply H; auto.
  - apply Inv_weak. exact I'.
  - assert (maxCFL s' = maxCFL s) as -> ; [|apply H]. rewrite E', incD_max, incC_max. exact X2.
Qed.

Lemma J_iter s k : J s -> J (setIter s k).
Proof. intros []. constructor; auto. apply iter_Inv. assumption. Qed.

Lemma fail_reached s s' : 0 < stopTime s -> (maxStep s <= 0)%Z -> increment s = (false, s') -> stopTime s' - t s' < q6 * qmax q6 (dt s').
Proof.
  intros Hs Hm E. pose proof (increment_same s) as Sm. rewrite E in Sm. cbn [snd] in Sm. unfold increment in E.
  destruct (same_trans _ _ _ (incB_same (incA s)) (incA_same s)) as (_ & E2 & _ & _ & _ & _ & E7 & _).
  destruct (hasReached _ _) eqn:R.
  - assert (Es : s' = incB (incA s)) by congruence. rewrite <- Es in *. rewrite hasReached_pos in R by (rewrite E2; exact Hs). apply qltb_true in R. qclra.
  - destruct (_ && _) eqn:M; [|discriminate]. apply andb_prop in M as [_ M]. apply Z.ltb_lt in M. rewrite E7 in M. lia.
Qed.

Definition qn (n : nat) : Qc := Q2Qc (inject_Z (Z.of_nat n)).
Lemma qn_S n : qn (S n) = qn n + 1.
Proof. unfold qn. apply Qc_is_canon. rewrite this_plus, !this_Q2Qc. rewrite Nat2Z.inj_succ. unfold Z.succ. rewrite inject_Z_plus. reflexivity. Qed.
Lemma qn_0 : qn 0 = 0. Proof. reflexivity. Qed.
Lemma qn_nonneg n : 0 <= qn n.
Proof. induction n as [|n IH]; [rewrite qn_0; apply Qcle_refl|]. rewrite qn_S. qclra. Qed.
Lemma qn_archi a : exists n, a < qn n.
Proof.
  destruct a as [[p q] Hc]. exists (S (Z.to_nat (Z.abs p))). unfold Qclt, qn. rewrite this_Q2Qc. cbn [this]. unfold Qlt, inject_Z. cbn [Qnum Qden].
  rewrite Nat2Z.inj_succ. nia.
Qed.

Lemma J_run : forall its s n, J s -> (t s = stopTime s \/ starTime s + qn n * dl <= t s + qn (stepIt s) * dl) ->
  forall s', runIt its s = (true, s') -> J s' /\ same s' s /\ (t s' = stopTime s \/ starTime s + qn (n + length its) * dl <= t s' + qn (stepIt s') * dl).
Proof.
  induction its as [|k its IH]; intros s n H Hn s' E; cbn [runIt] in E.
  - assert (s' = s) by congruence. subst s'. split; [exact H|]. split; [apply same_refl|]. rewrite Nat.add_0_r. exact Hn.
  - destruct (increment (setIter s k)) as [[|] s1] eqn:E1; [|discriminate].
    pose proof (J_iter _ k H) as H0. destruct (J_step _ _ H0 E1) as (H1 & Hp & _). pose proof (increment_true _ _ E1) as (Et & _ & _).
    pose proof (increment_same (setIter s k)) as Sm. rewrite E1 in Sm. cbn [snd] in Sm. assert (Sm' : same s1 s) by exact Sm.
    destruct Sm' as (G1 & G2 & _). cbn in Et, Hp.
    assert (Hx : t s1 = stopTime s1 \/ starTime s1 + qn (S n) * dl <= t s1 + qn (stepIt s1) * dl).
    { rewrite G1, G2. destruct Hn as [Hn|Hn].
      { exfalso. destruct (increment_at_end (setIter s k)) as (s2 & E2); [apply H|cbn; rewrite Hn; apply Qcle_refl|]. congruence. }
      destruct Hp as [Hp|[[K D]|K]]; [left; exact Hp| |]; right; rewrite qn_S, K.
      - qclra.
      - rewrite qn_S. pose proof (i_dt _ _ (j_inv _ H1)). qclra. }
    destruct (IH s1 (S n) H1 Hx s' E) as (A & B & C). split; [exact A|]. split; [exact (same_trans _ _ _ B Sm)|].
    rewrite G1, G2 in C. replace (n + length (k :: its))%nat with (S n + length its)%nat by (cbn; lia). exact C.
Qed.

Lemma J_terminates s : J s -> t s = starTime s -> stepIt s = 0%nat ->
  exists N, forall its, (N <= length its)%nat -> exists s', runIt its s = (false, s') /\ stopTime s' = stopTime s /\ stopTime s' - t s' < q6 * qmax q6 (dt s').
Proof.
  intros H Ht Hk. destruct (qn_archi ((stopTime s - starTime s) / dl)) as [n0 Hn0].
  assert (Hn : stopTime s - starTime s < qn n0 * dl).
  { assert (E : (stopTime s - starTime s) / dl * dl = stopTime s - starTime s) by (field; intros E; rewrite E in dl_pos; qclra).
    set (q := (stopTime s - starTime s) / dl) in *. qcnra. }
  assert (P0 : t s = stopTime s \/ starTime s + qn 0 * dl <= t s + qn (stepIt s) * dl).
  { right. rewrite Ht, Hk. apply Qcle_refl. }
  assert (M : forall its s', runIt its s = (true, s') -> t s' = stopTime s \/ (length its <= n0 + length (mySteps s))%nat).
  { intros its s' E. destruct (J_run its s 0 H P0 s' E) as (A & B & [C|C]); [left; exact C|right]. cbn [plus] in C.
    destruct (le_lt_dec (length its) (n0 + length (mySteps s))) as [L|L]; [exact L|exfalso].
    destruct B as (B1 & B2 & _ & _ & _ & _ & _ & _ & B9). pose proof (i_hs _ _ (j_inv _ A)) as Hs. rewrite B2 in Hs.
    pose proof (i_k _ _ (j_inv _ A)) as Hk'. rewrite <- ends_length, B9, ends_length in Hk'.
    assert (Mono : forall a b, (a <= b)%nat -> qn a <= qn b).
    { intros a b Hab. induction Hab as [|b _ IHb]; [apply Qcle_refl|]. rewrite qn_S. qclra. }
    pose proof (Mono _ _ (Nat.lt_le_incl _ _ L)) as M1. pose proof (Mono _ _ Hk') as M2.
    assert (Ea : qn (n0 + length (mySteps s)) = qn n0 + qn (length (mySteps s))).
    { clear. induction (length (mySteps s)) as [|m IH]; [rewrite Nat.add_0_r, qn_0; ring|]. rewrite Nat.add_succ_r, !qn_S, IH. ring. }
    rewrite Ea in M1. qcnra. }
  exists (S (S (n0 + length (mySteps s)))). intros its HN.
  assert (D : forall its s1, J s1 -> forall s', runIt its s1 = (false, s') -> stopTime s' = stopTime s1 /\ stopTime s' - t s' < q6 * qmax q6 (dt s')).
  { clear - dl_pos. induction its as [|k its IH]; intros s1 H s' E; cbn [runIt] in E; [discriminate|].
    destruct (increment (setIter s1 k)) as [[|] s2] eqn:E1.
    - destruct (J_step _ _ (J_iter _ k H) E1) as (H2 & _). destruct (IH _ H2 _ E) as [A B]. split; [|exact B]. rewrite A.
      pose proof (increment_same (setIter s1 k)) as Sm. rewrite E1 in Sm. apply Sm.
    - assert (s' = s2) by congruence. subst s2. pose proof (increment_same (setIter s1 k)) as Sm. rewrite E1 in Sm. split; [apply Sm|].
      apply (fail_reached (setIter s1 k)); [apply H|apply H|exact E1]. }
  destruct (runIt its s) as [[|] s'] eqn:E; [|exists s'; split; [reflexivity|exact (D _ _ H _ E)]].
  exfalso.
  (* split off the last entry *)
  destruct (exists_last (l := its)) as (pre & k & ->); [destruct its; [cbn in HN; lia|discriminate]|].
  assert (Sp : forall a b s1 s2, runIt (a ++ b) s1 = (true, s2) -> exists s3, runIt a s1 = (true, s3) /\ runIt b s3 = (true, s2)).
  { clear. induction a as [|x a IH]; intros b s1 s2 E; [exists s1; split; [reflexivity|exact E]|]. cbn [app runIt] in *.
    destruct (increment (setIter s1 x)) as [[|] s3]; [|discriminate]. destruct (IH _ _ _ E) as (s4 & A & B). exists s4. rewrite A. auto. }
  destruct (Sp _ _ _ _ E) as (s3 & E3 & E4). rewrite app_length in HN. cbn in HN.
  destruct (M _ _ E3) as [T|L]; [|lia]. cbn in E4.
  destruct (J_run pre s 0 H P0 s3 E3) as (A & B & _).
  destruct (increment_at_end (setIter s3 k)) as (s5 & E5); [apply A|cbn; destruct B as (_ & -> & _); rewrite T; apply Qcle_refl|].
  rewrite E5 in E4. discriminate.
Qed.
End Live.

(** a positive lower bound exists *)
Lemma lower_bound (l : list Qc) : Forall (fun d => 0 < d) l -> exists dl, 0 < dl /\ Forall (fun d => dl <= d) l.
Proof.
  induction 1 as [|x l Hx _ (d & Hd & F)]; [exists 1; split; [reflexivity|constructor]|].
  exists (if qltb x d then x else d). pose proof (qltb_spec x d). destruct (qltb x d).
  - split; [exact Hx|]. constructor; [apply Qcle_refl|]. eapply Forall_impl; [|exact F]. cbn. intros. qclra.
  - split; [exact Hd|]. constructor; [assumption|exact F].
Qed.

Theorem parse_terminates fuel x s0 : goodInput x -> parseXML fuel x = Some s0 -> x_maxCFL x <= 0 -> (x_maxStep x <= 0)%Z ->
  (x_dtMin x < x_dtMax x -> 0 < x_dtMin x) ->
  exists N, forall its, (N <= length its)%nat -> exists s', runIt its s0 = (false, s') /\ stopTime s' = stopTime s0 /\ stopTime s' - t s' < q6 * qmax q6 (dt s').
Proof.
  intros G P Hc Hm Hd. destruct (parse_Inv _ _ _ G P) as (I & E1 & E2 & E3 & E4 & E5 & E6 & E7 & E8 & E9 & E10 & E11 & E12 & E13 & E14 & E15).
  destruct (lower_bound (dt s0 :: (if qltb 0 (x_dtMin x) then x_dtMin x else 1) :: concat (map fst (mySteps s0)))) as (dl & Hdl & F).
  { constructor; [apply I|]. constructor; [pose proof (qltb_spec 0 (x_dtMin x)); destruct (qltb 0 (x_dtMin x)); [assumption|reflexivity]|].
    apply Forall_concat. rewrite Forall_map. apply I. }
  inversion F as [|? ? F1 F']; subst. inversion F' as [|? ? F2 F3]; subst. clear F F'.
  apply (J_terminates dl Hdl); [|exact E1|exact E3].
  constructor; auto.
  - rewrite E9. exact Hc.
  - rewrite E8. exact Hm.
  - rewrite E10, E11. intros L. specialize (Hd L). apply qltb_true in Hd. rewrite Hd in F2. exact F2.
  - intros j l e _ Hn. split.
    + rewrite Forall_forall in E13. apply (E13 (l, e)). exact (nth_error_In _ _ Hn).
    + rewrite Forall_forall in F3 |- *. intros d Hi. apply F3. apply in_concat. exists l. split; [|exact Hi]. apply in_map_iff. exists (l, e). split; [reflexivity|exact (nth_error_In _ _ Hn)].
  - intros l e C. rewrite E4. unfold curSec in C. apply nth_error_In in C. rewrite Forall_forall in E13. specialize (E13 _ C). cbn in E13. destruct l; [contradiction|cbn; lia].
Qed.
