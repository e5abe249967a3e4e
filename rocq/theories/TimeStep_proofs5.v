(** Sections given by the number of steps; graded sections; restart; cut-back. *)
From Coq Require Import List Arith ZArith QArith Qcanon Bool Lia Lqa.
From Verif Require Import Base QcLra TimeStep_model TimeStep_spec TimeStep_proofs TimeStep_proofs2 TimeStep_proofs3 TimeStep_proofs4.
Import ListNotations.
Local Open Scope Qc_scope.

Definition fixedMode (s : TS) : Prop := maxCFL s <= 0 /\ dtMax s <= dtMin s.
Lemma fixed_incB s : dtMax s <= dtMin s -> incB s = s.
Proof. intros H. unfold incB. apply qltb_false in H. rewrite H. reflexivity. Qed.

(** *** uniform sections *)
Record mid (s : TS) (d e : Qc) (m : nat) (rest : list Section_) : Prop := mkMid {
  m_fix : fixedMode s; m_max : (maxStep s <= 0)%Z; m_stop : 0 < stopTime s; m_e : 0 < e; m_le : e <= stopTime s;
  m_d : q6 * q6 <= d;
  m_cur : exists l, curSec s = Some (l, e) /\ Forall (eq d) l /\ (lstep s < length l)%nat;
  m_t : t s + qn m * d = e;
  m_rest : skipn (S (stepIt s)) (mySteps s) = rest }.

Lemma upd_skipn {A} k (x : A) l : skipn (S k) (upd k x l) = skipn (S k) l.
Proof. revert l; induction k as [|k IH]; intros [|y l]; try reflexivity. exact (IH l). Qed.
Lemma setSec_skip s l : skipn (S (stepIt s)) (setSec s l) = skipn (S (stepIt s)) (mySteps s).
Proof. unfold setSec. destruct (curSec s) as [[l0 e]|]; [apply upd_skipn|reflexivity]. Qed.
Lemma Forall_eq_nth (d : Qc) l k : Forall (eq d) l -> (k < length l)%nat -> nth k l 0 = d.
Proof. intros H Hk. symmetry. apply (Forall_nth0 (eq d)); assumption. Qed.

Lemma tol_le d : q6 * q6 <= d -> q6 * qmax q6 d <= d.
Proof.
  intros H. unfold qmax. destruct (qltb q6 d) eqn:E; [|exact H]. apply qltb_true in E. unfold q6 in *. qclra.
Qed.

Lemma incr_fixed s l e d : fixedMode s -> curSec s = Some (l, e) -> (lstep s < length l)%nat -> nth (lstep s) l 0 = d ->
  incB (incA s) = mkTS (step s) (iter s) (t s) d (dt s) (cfl s) (first s)
              (starTime s) (stopTime s) (maxCFL s) (niter s) (nInitStep s) (maxStep s) (dtMin s) (dtMax s) (f1 s) (f2 s)
              (mySteps s) (stepIt s) (S (lstep s)).
Proof.
  intros [F1 F2] C Hl Hd. rewrite fixed_incB.
  - unfold incA. rewrite nocfl_incA by exact F1. rewrite C. destruct (S (lstep s) <=? length l)%nat eqn:E; [rewrite Hd; reflexivity|]. apply Nat.leb_gt in E. lia.
  - destruct (incA_same s) as (_ & _ & -> & -> & _). exact F2.
Qed.

Lemma mid_step s d e m rest : mid s d e (S m) rest ->
  exists s', increment s = (true, s') /\ t s' = t s + d /\ fixedMode s' /\ (maxStep s' <= 0)%Z /\ stopTime s' = stopTime s /\
    (m = 0%nat -> stepIt s' = S (stepIt s) /\ lstep s' = 0%nat /\ skipn (stepIt s') (mySteps s') = rest /\ t s' = e) /\
    ((0 < m)%nat -> mid s' d e m rest).
Proof.
  intros [Hf Hm Hs He Hle Hd (l & C & Fl & Ll) Ht Hr].
  rewrite qn_S in Ht. pose proof (qn_nonneg m) as Hq. pose proof q6_pos as Q6. assert (Dp : 0 < d) by (unfold q6 in *; qclra).
  assert (0 <= qn m * d) by qcnra.
  unfold increment. rewrite (incr_fixed _ _ _ d Hf C Ll (Forall_eq_nth _ _ _ Fl Ll)).
  set (s1 := mkTS _ _ _ _ _ _ _ _ _ _ _ _ _ _ _ _ _ _ _ _).
  assert (R1 : hasReached s1 (stopTime s1) = false).
  { rewrite hasReached_pos by exact Hs. apply qltb_false. pose proof (tol_le d Hd). cbn [s1 t dt stopTime]. qclra. }
  rewrite R1. assert (M1 : (step s1 =? maxStep s1)%Z && (0 <? maxStep s1)%Z = false).
  { apply andb_false_intro2. apply Z.ltb_ge. exact Hm. }
  rewrite M1. set (s2 := advance (bumpStep s1)).
  assert (C2 : curSec s2 = Some (l, e)) by exact C.
  assert (T2 : t s2 = t s + d) by reflexivity.
  eexists. split; [reflexivity|].
  set (l' := if (length l <=? lstep s2)%nat then l ++ [dt s2] else l).
  assert (Fl' : Forall (eq d) l').
  { unfold l'. destruct (_ <=? _)%nat; [|exact Fl]. apply Forall_app. split; [exact Fl|]. constructor; [reflexivity|constructor]. }
  assert (Ll' : (S (lstep s) < length l')%nat).
  { unfold l'. change (lstep s2) with (S (lstep s)). destruct (Nat.leb_spec (length l) (S (lstep s))) as [Z|Z]; [rewrite app_length; cbn [length]; lia|exact Z]. }
  assert (Y : forall s3, t s3 <= stopTime s3 -> incD s3 = s3).
  { intros s3 L. unfold incD. apply qltb_false in L. rewrite L. reflexivity. }
  assert (T3 : t s2 <= e) by (rewrite T2; qclra).
  destruct m as [|m].
  - rewrite qn_0 in Ht. assert (T4 : t s2 = e) by (rewrite T2; qclra).
    assert (R2 : hasReached s2 e = true) by (apply hasReached_ge; [exact He|rewrite T4; apply Qcle_refl]).
    unfold incC. rewrite C2, R2. destruct (Qc_eq_dec (t s2) e) as [_|N]; [|contradiction].
    fold l'. rewrite Y by (cbn [t stopTime]; exact (Qcle_trans _ _ _ T3 Hle)). cbn [t stopTime maxStep stepIt lstep mySteps]. split; [exact T2|].
    split; [exact Hf|]. split; [exact Hm|]. split; [reflexivity|]. split; [|lia].
    intros _. split; [reflexivity|]. split; [reflexivity|]. split; [|exact T4]. rewrite setSec_skip. exact Hr.
  - rewrite qn_S in Ht. pose proof (qn_nonneg m) as Hq'. assert (0 <= qn m * d) by qcnra. assert (R2 : hasReached s2 e = false).
    { rewrite hasReached_pos by exact He. apply qltb_false. pose proof (tol_le d Hd). change (dt s2) with d. rewrite T2. qclra. }
    unfold incC. rewrite C2, R2. fold l'. rewrite Y by (cbn [t stopTime]; exact (Qcle_trans _ _ _ T3 Hle)). cbn [t stopTime maxStep stepIt lstep mySteps]. split; [exact T2|].
    split; [exact Hf|]. split; [exact Hm|]. split; [reflexivity|]. split; [lia|]. intros _.
    constructor; cbn [t stopTime maxStep stepIt lstep mySteps]; auto.
    + exists l'. split; [|split; [exact Fl'|exact Ll']]. unfold curSec. cbn [mySteps stepIt]. rewrite (setSec_nth _ _ l e) by exact C2. rewrite Nat.eqb_refl. reflexivity.
    + rewrite T2, qn_S. qclra.
    + rewrite setSec_skip. exact Hr.
Qed.

Lemma num_qn n : num n = qn n. Proof. reflexivity. Qed.
Lemma incrN_add a b s : incrN (a + b) s = match incrN a s with (true, s') => incrN b s' | r => r end.
Proof.
  revert s; induction a as [|a IH]; intros s; [reflexivity|]. cbn [plus incrN]. destruct (increment s) as [[|] s']; [apply IH|reflexivity].
Qed.

Lemma mid_run d e rest : forall i m s, mid s d e m rest -> (i < m)%nat ->
  exists s', incrN i s = (true, s') /\ t s' = t s + qn i * d /\ mid s' d e (m - i) rest.
Proof.
  induction i as [|i IH]; intros m s H Hi.
  - exists s. split; [reflexivity|]. rewrite Nat.sub_0_r. split; [rewrite qn_0; ring|exact H].
  - destruct m as [|m]; [lia|]. destruct (mid_step _ _ _ _ _ H) as (s1 & E1 & T1 & _ & _ & _ & _ & M1).
    destruct (IH m s1 (M1 ltac:(lia)) ltac:(lia)) as (s2 & E2 & T2 & M2). exists s2. cbn [incrN]. rewrite E1. split; [exact E2|]. split; [|exact M2].
    rewrite T2, T1, qn_S. ring.
Qed.

(** sections divided into [n] steps each *)
Fixpoint uniSecs (start : Qc) (l : list (nat * Qc)) : list Section_ :=
  match l with [] => [] | (n, e) :: r => ([(e - start) / qn n], e) :: uniSecs e r end.
Fixpoint uniOK (start : Qc) (l : list (nat * Qc)) (stop : Qc) : Prop :=
  match l with [] => True | (n, e) :: r => (0 < n)%nat /\ q6 * q6 <= (e - start) / qn n /\ e <= stop /\ uniOK e r stop end.
Fixpoint cnt (l : list (nat * Qc)) : nat := match l with [] => 0 | (n, _) :: r => n + cnt r end.

Lemma qn_pos n : (0 < n)%nat -> 0 < qn n.
Proof. destruct n as [|n]; [lia|]. intros _. rewrite qn_S. pose proof (qn_nonneg n). qclra. Qed.
Lemma qn_div n a : (0 < n)%nat -> qn n * (a / qn n) = a.
Proof. intros H. pose proof (qn_pos n H) as P. field. intros E. rewrite E in P. qclra. Qed.

Lemma uni_run : forall l s start, fixedMode s -> (maxStep s <= 0)%Z -> 0 < stopTime s -> 0 <= start -> uniOK start l (stopTime s) ->
  t s = start -> lstep s = 0%nat -> skipn (stepIt s) (mySteps s) = uniSecs start l ->
  forall i, (i <= cnt l)%nat -> exists s', incrN i s = (true, s') /\ t s' = timeAfter start l i.
Proof.
  induction l as [|[n e] l IH]; intros s start Hf Hm Hs H0 OK Ht Hl Hsk i Hi.
  - cbn in Hi. assert (i = 0%nat) by lia. subst i. exists s. auto.
  - cbn in OK. destruct OK as (Hn & Hd & He & OK). cbn [uniSecs] in Hsk. cbn [cnt] in Hi.
    set (d := (e - start) / qn n) in *. pose proof (qn_div n (e - start) Hn) as Ed. fold d in Ed. pose proof (qn_pos n Hn) as Pn.
    assert (Pd : 0 < d) by (unfold q6 in Hd; qclra). assert (Pe : start < e) by qcnra.
    assert (Hsk2 : nth_error (mySteps s) (stepIt s) = Some ([d], e) /\ skipn (S (stepIt s)) (mySteps s) = uniSecs e l).
    { revert Hsk. clear. generalize (stepIt s). induction (mySteps s) as [|x ms IH]; intros [|k] H; cbn in H; try discriminate.
      - injection H as -> ->. split; reflexivity.
      - apply IH in H as [A B]. split; assumption. }
    destruct Hsk2 as [Hcur Hsk2].
    assert (M : mid s d e n (uniSecs e l)).
    { constructor; auto.
      - qclra.
      - exists [d]. split; [exact Hcur|]. split; [constructor; [reflexivity|constructor]|]. rewrite Hl. cbn. lia.
      - rewrite Ht, Ed. qclra. }
    cbn [timeAfter]. change num with qn. fold d. destruct (Nat.leb_spec i n) as [L|L].
    + destruct (Nat.eq_dec i n) as [->|Nn].
      * destruct n as [|n]; [lia|]. replace (S n) with (n + 1)%nat by lia. rewrite incrN_add. destruct (mid_run d e _ n (S n) s M ltac:(lia)) as (s1 & E1 & T1 & M1). rewrite E1.
        replace (S n - n)%nat with 1%nat in M1 by lia. destruct (mid_step _ _ _ _ _ M1) as (s2 & E2 & T2 & _). exists s2. cbn [incrN]. rewrite E2. split; [reflexivity|].
        rewrite T2, T1, Ht. replace (n + 1)%nat with (S n) by lia. rewrite qn_S. ring.
      * destruct (mid_run d e _ i n s M ltac:(lia)) as (s1 & E1 & T1 & _). exists s1. split; [exact E1|]. rewrite T1, Ht. reflexivity.
    + destruct n as [|n]; [lia|]. replace i with (n + (1 + (i - S n)))%nat by lia. rewrite incrN_add. destruct (mid_run d e _ n (S n) s M ltac:(lia)) as (s1 & E1 & T1 & M1). rewrite E1.
      replace (S n - n)%nat with 1%nat in M1 by lia. destruct (mid_step _ _ _ _ _ M1) as (s2 & E2 & T2 & F2 & X2 & S2 & Z2 & _). destruct (Z2 eq_refl) as (K2 & L2 & R2 & Te).
      cbn [plus incrN]. rewrite E2.
      assert (S1 : stopTime s1 = stopTime s).
      { clear - E1. revert s E1. induction n as [|n IHn]; intros s E1; cbn in E1; [congruence|]. destruct (increment s) as [[|] s3] eqn:E3; [|discriminate].
        rewrite (IHn _ E1). pose proof (increment_same s) as Sm. rewrite E3 in Sm. apply Sm. }
      replace (n + S (i - S n) - S n)%nat with (i - S n)%nat by lia.
      apply (IH s2 e F2 X2); auto; rewrite ?S2, ?S1; auto; [qclra|lia].
Qed.

(** *** graded sections *)
Lemma gradeLoop_fuel fuel : forall eta T d fin l, gradeLoop fuel eta T d fin = Some l -> forall fuel', (fuel <= fuel')%nat -> gradeLoop fuel' eta T d fin = Some l.
Proof.
  induction fuel as [|fuel IH]; intros eta T d fin l H fuel' Hf.
  - cbn in H. destruct fuel'; cbn; destruct (qltb T fin); try discriminate; exact H.
  - destruct fuel' as [|fuel']; [lia|]. cbn [gradeLoop] in *. destruct (qltb T fin); [|exact H].
    destruct (gradeLoop fuel eta (T + d * eta) (d * eta) fin) as [l0|] eqn:G; [|discriminate]. rewrite (IH _ _ _ _ _ G) by lia. exact H.
Qed.

Section Grade.
Variables start fin d0 d2 : Qc.
Hypotheses (Hd0 : 0 < d0) (Hd2 : 0 < d2) (Hsf : start < fin).
Let c := (d0 - d2) / (fin - start).
Let lo := if qltb d0 d2 then d0 else d2.
Let hi := if qltb d0 d2 then d2 else d0.

Lemma cL : c * (fin - start) = d0 - d2.
Proof. unfold c. field. intros E. qclra. Qed.

Lemma gradeLoop_spec : forall n T d, start <= T -> T <= start + d + (fin - start) -> d = d0 - c * (T - start - d) -> fin - T <= qn n * lo ->
  exists l, gradeLoop n (1 - c) T d fin = Some l /\ (T <= fin -> total l = fin - T) /\ (fin <= T -> l = []) /\
    (forall i, (S i < length l)%nat -> lo <= nth i l 0 /\ nth i l 0 <= hi) /\ Forall (fun x => 0 < x /\ x <= hi) l.
Proof.
  pose proof cL as C0. assert (Lo : 0 < lo /\ lo <= hi) by (unfold lo, hi; pose proof (qltb_spec d0 d2); destruct (qltb d0 d2); split; qclra).
  destruct Lo as [Lo Lh].
  induction n as [|n IH]; intros T d HT HTd Ed Hn; cbn [gradeLoop]; pose proof (qltb_spec T fin) as W; destruct (qltb T fin).
  - exfalso. rewrite qn_0 in Hn. qclra.
  - exists []. split; [reflexivity|]. split; [intros ?; cbn; qclra|]. split; [auto|]. split; [cbn; lia|constructor].
  - set (d' := d * (1 - c)). assert (Ed' : d' = d0 - c * (T - start)) by (unfold d'; rewrite Ed at 1; qcnra).
    assert (B : lo <= d' /\ d' <= hi).
    { rewrite Ed'. set (L := fin - start) in *. set (u := T - start) in *. assert (0 <= u) by (unfold u; qclra). assert (u < L) by (unfold u, L; qclra).
      unfold lo, hi. pose proof (qltb_spec d0 d2) as Q. destruct (qltb d0 d2).
      - (* c < 0 *) assert (c < 0) by (destruct (Qclt_le_dec c 0); [assumption|exfalso; qcnra]). split; qcnra.
      - assert (0 <= c) by (destruct (Qclt_le_dec c 0); [exfalso; qcnra|assumption]). split; qcnra. }
    destruct B as [B1 B2].
    destruct (IH (T + d') d') as (l & El & S1 & S2 & S3 & S4).
    + qclra.
    + qclra.
    + replace (T + d' - start - d') with (T - start) by ring. exact Ed'.
    + rewrite qn_S in Hn. qclra.
    + rewrite El. eexists. split; [reflexivity|]. pose proof (qleb_spec (T + d') fin) as V. destruct (qleb (T + d') fin).
      * split; [|split; [|split]].
        -- intros _. cbn [total fold_right]. fold (total l). rewrite (S1 V). ring.
        -- intros ?. exfalso. qclra.
        -- intros [|i] Hi; [split; assumption|]. cbn in Hi. apply S3. lia.
        -- constructor; [split; [qclra|exact B2]|exact S4].
      * rewrite (S2 ltac:(qclra)). split; [|split; [|split]].
        -- intros _. cbn. ring.
        -- intros ?. exfalso. qclra.
        -- intros i Hi. cbn in Hi. lia.
        -- constructor; [split; qclra|constructor].
  - exists []. split; [reflexivity|]. split; [intros ?; cbn; qclra|]. split; [auto|]. split; [cbn; lia|constructor].
Qed.

Lemma grade_spec : start + d0 <= fin ->
  exists fuel l, (forall fuel', (fuel <= fuel')%nat -> grade fuel' start fin [d0; d2] = Some l) /\ total l = fin - start /\ hd 0 l = d0 /\
    (forall i, (S i < length l)%nat -> lo <= nth i l 0 /\ nth i l 0 <= hi) /\ Forall (fun x => 0 < x /\ x <= hi) l.
Proof.
  intros Hf. assert (Lo : 0 < lo /\ lo <= d0 /\ d0 <= hi) by (unfold lo, hi; pose proof (qltb_spec d0 d2); destruct (qltb d0 d2); repeat split; qclra).
  destruct Lo as (Lo & Ld & Lh).
  destruct (qn_archi ((fin - start - d0) / lo)) as [n Hn].
  assert (E : (fin - start - d0) / lo * lo = fin - start - d0) by (field; intros E; rewrite E in Lo; qclra).
  set (q := (fin - start - d0) / lo) in *.
  destruct (gradeLoop_spec n (start + d0) d0) as (l & El & S1 & S2 & S3 & S4).
  - qclra.
  - qclra.
  - replace (start + d0 - start - d0) with 0 by ring. ring.
  - qcnra.
  - exists n, (d0 :: l). split; [|split; [|split; [|split]]].
    + intros fuel' Hf'. unfold grade. fold c. rewrite (gradeLoop_fuel _ _ _ _ _ _ El _ Hf'). reflexivity.
    + cbn [total fold_right]. fold (total l). rewrite (S1 Hf). ring.
    + reflexivity.
    + intros [|i] Hi; [split; assumption|]. cbn in Hi. apply S3. lia.
    + constructor; [split; assumption|exact S4].
Qed.
End Grade.

(** *** restart *)
Definition norm (s : TS) : TS :=
  mkTS (step s) 0 (t s) (dt s) (dtn s) 0 0 (starTime s) (stopTime s) (maxCFL s)
       0 (nInitStep s) (maxStep s) (dtMin s) (dtMax s) (f1 s) (f2 s) (mySteps s) (stepIt s) (lstep s).

Lemma norm_incA s : maxCFL s <= 0 -> norm (incA s) = incA (norm s).
Proof.
  intros H. unfold incA. rewrite nocfl_incA by exact H. rewrite (nocfl_incA (norm s)) by exact H. change (curSec (norm s)) with (curSec s).
  destruct (curSec s) as [[l e]|]; reflexivity.
Qed.
Lemma norm_incC s : norm (incC s) = incC (norm s).
Proof.
  unfold incC. change (curSec (norm s)) with (curSec s). destruct (curSec s) as [[l e]|] eqn:C; [|reflexivity].
  change (hasReached (norm s) e) with (hasReached s e). destruct (hasReached s e); [|reflexivity].
  change (t (norm s)) with (t s). destruct (Qc_eq_dec (t s) e); reflexivity.
Qed.
Lemma norm_incD s : norm (incD s) = incD (norm s).
Proof. unfold incD. change (qltb (stopTime (norm s)) (t (norm s))) with (qltb (stopTime s) (t s)). destruct (qltb _ _); reflexivity. Qed.
Lemma norm_incr s : fixedMode s -> fst (increment (norm s)) = fst (increment s) /\ norm (snd (increment (norm s))) = norm (snd (increment s)).
Proof.
  intros [F1 F2]. unfold increment.
  assert (E1 : incB (incA s) = incA s) by (apply fixed_incB; destruct (incA_same s) as (_ & _ & -> & -> & _); exact F2).
  assert (E2 : incB (incA (norm s)) = incA (norm s)) by (apply fixed_incB; destruct (incA_same (norm s)) as (_ & _ & -> & -> & _); exact F2).
  rewrite E1, E2, <- norm_incA by exact F1. set (s1 := incA s). change (hasReached (norm s1) (stopTime (norm s1))) with (hasReached s1 (stopTime s1)).
  destruct (hasReached s1 (stopTime s1)); [split; reflexivity|].
  change ((step (norm s1) =? maxStep (norm s1))%Z && (0 <? maxStep (norm s1))%Z) with ((step s1 =? maxStep s1)%Z && (0 <? maxStep s1)%Z).
  destruct (_ && _); [split; reflexivity|]. cbn [fst snd]. split; [reflexivity|].
  rewrite !norm_incD, !norm_incC. reflexivity.
Qed.

Lemma adv_norm s0 n s : fixedMode s0 -> advanced s0 n s -> fixedMode s /\ (step s = step s0 + Z.of_nat n)%Z /\
  forall b, norm b = norm s0 -> fixedMode b -> exists s', incrN n b = (true, s') /\ norm s' = norm s.
Proof.
  intros F0. induction 1 as [|n s s' _ (F & St & IH) E|n s k _ (F & St & IH)|n s q _ (F & St & IH)].
  - split; [exact F0|]. split; [lia|]. intros b Hb _. exists b. split; [reflexivity|exact Hb].
  - pose proof (increment_same s) as Sm. rewrite E in Sm. cbn [snd] in Sm. destruct Sm as (_ & _ & G3 & G4 & _).
    assert (Fm : maxCFL s' = maxCFL s).
    { destruct F as [F1 F2]. unfold increment in E. destruct (hasReached _ _); [discriminate|]. destruct (_ && _); [discriminate|].
      assert (E' : s' = incD (incC (advance (bumpStep (incB (incA s)))))) by congruence. rewrite E', incD_max, incC_max. cbn. rewrite incB_max. apply incA_max. exact F1. }
    assert (F' : fixedMode s') by (unfold fixedMode in *; rewrite Fm, G3, G4; exact F).
    split; [exact F'|]. split; [destruct (increment_true _ _ E) as (_ & _ & ->); lia|].
    intros b Hb Fb. destruct (IH b Hb Fb) as (s1 & E1 & N1). replace (S n) with (n + 1)%nat by lia. rewrite incrN_add, E1. cbn [incrN].
    assert (F1 : fixedMode s1).
    { unfold fixedMode. pose proof (f_equal maxCFL N1) as A. pose proof (f_equal dtMin N1) as B. pose proof (f_equal dtMax N1) as C. cbn in A, B, C. rewrite A, B, C. exact F. }
    destruct (norm_incr s1 F1) as [A1 B1]. destruct (norm_incr s F) as [A2 B2]. rewrite N1 in A1, B1. rewrite E in A2, B2. cbn in A2, B2.
    destruct (increment s1) as [ok s2]. cbn in A1, B1. rewrite A2 in A1. subst ok. exists s2. split; [reflexivity|]. congruence.
  - split; [exact F|]. split; [exact St|]. exact IH.
  - split; [exact F|]. split; [exact St|]. exact IH.
Qed.

Theorem restart_sections fuel x s0 n s : goodInput x -> x_steps x <> [] -> parseXML fuel x = Some s0 ->
  x_maxCFL x <= 0 -> x_dtMax x <= x_dtMin x -> starTime s0 = 0 -> advanced s0 n s ->
  exists s', deSerialize s0 (serialize s) = (true, s') /\ norm s' = norm s.
Proof.
  intros G Nx P Hc Hd H0 A. destruct (parse_Inv _ _ _ G P) as (I & E1 & E2 & E3 & E4 & E5 & E6 & E7 & E8 & E9 & E10 & E11 & E12 & E13 & E14 & _).
  assert (F0 : fixedMode s0) by (unfold fixedMode; rewrite E9, E10, E11; auto).
  destruct (adv_norm _ _ _ F0 A) as (F & St & R). rewrite E2 in St.
  unfold deSerialize, serialize. cbn [a_step a_maxCFL a_t a_dt a_dtn a_CFL a_first]. unfold reset. cbn [mySteps].
  destruct (mySteps s0) as [|[l0 e0] secs] eqn:M.
  { exfalso. pose proof (f_equal (@length _) E5) as L. rewrite ends_length, M, map_length in L. destruct (x_steps x); [contradiction|discriminate]. }
  assert (Mc : maxCFL s = maxCFL s0).
  { clear - A F0 E9 Hc. induction A as [|n s s' A IH E|n s k A IH|n s q A IH]; try reflexivity; try exact IH.
    rewrite <- IH. destruct (adv_norm _ _ _ F0 A) as ([F1 F2] & _). unfold increment in E. destruct (hasReached _ _); [discriminate|]. destruct (_ && _); [discriminate|].
    assert (E' : s' = incD (incC (advance (bumpStep (incB (incA s)))))) by congruence. rewrite E', incD_max, incC_max. cbn. rewrite incB_max. apply incA_max. exact F1. }
  assert (Dn : dtn s0 = 0 /\ first s0 = first s0).
  { unfold parseXML in P. destruct (parseSteps _ _ _ _) as [[star sc]|]; [|discriminate]. assert (Q : forall a, Some a = Some s0 -> dtn a = 0 -> dtn s0 = 0) by (intros a Ea Za; congruence).
    split; [|reflexivity]. eapply Q; [exact P|]. destruct sc as [|[lx ex] sc]; reflexivity. }
  destruct Dn as [Dn _].
  assert (Sn : (if (step s =? 0)%Z then snd (last (mySteps s0) ([], 0)) else stopTime s0) = stopTime s0).
  { destruct (_ =? _)%Z; [|reflexivity]. destruct (i_last _ _ I) as [Z|Z]; [rewrite M in Z; discriminate|]. rewrite Z. unfold ends. clear.
    induction (mySteps s0) as [|a [|b r] IH]; [reflexivity|reflexivity|exact IH]. }
  rewrite M in Sn.
  match goal with |- context [if (step s =? 0)%Z then ?a else ?b] => replace (if (step s =? 0)%Z then a else b) with (stopTime s0) by (symmetry; exact Sn) end.
  match goal with |- context [incrN _ ?b0] => set (b := b0) end.
  assert (Z.to_nat (step s) = n) as -> by (rewrite St; lia).
  apply R.
  - unfold norm, b. cbn [step t dt dtn starTime stopTime maxCFL nInitStep maxStep dtMin dtMax f1 f2 mySteps stepIt lstep].
    rewrite E1, E2, E3, E4, Dn, M, Mc, H0. rewrite E14. reflexivity.
  - unfold fixedMode, b. cbn. rewrite Mc. exact F0.
Qed.

(** *** cut-back *)
Lemma set_back_spec d l : l <> [] -> set_back d l = removelast l ++ [d].
Proof.
  induction l as [|x [|y r] IH]; intros H; [contradiction|reflexivity|]. change (set_back d (x :: y :: r)) with (x :: set_back d (y :: r)).
  rewrite IH by discriminate. reflexivity.
Qed.
Lemma cutback_frame s s' : cutback s = (true, s') ->
  (forall j, j <> stepIt s -> nth_error (mySteps s') j = nth_error (mySteps s) j) /\
  (forall l e, nth_error (mySteps s) (stepIt s) = Some (l, e) -> l <> [] -> nth_error (mySteps s') (stepIt s) = Some (removelast l ++ [dt s'], e)).
Proof.
  unfold cutback. destruct (qleb _ _); [discriminate|]. intros E.
  match type of E with (true, ?x) = _ => assert (Es : s' = x) by congruence end. clear E. subst s'. cbn [mySteps dt].
  set (d := if qltb _ _ then _ else _). destruct (curSec s) as [[l e]|] eqn:C.
  - split.
    + intros j Hj. rewrite (setSec_nth _ _ l e) by exact C. apply Nat.eqb_neq in Hj. rewrite Hj. reflexivity.
    + intros l1 e1 H Hn. unfold curSec in C. rewrite H in C. assert (l1 = l /\ e1 = e) as [-> ->] by (split; congruence).
      rewrite (setSec_nth _ _ l e) by exact H. rewrite Nat.eqb_refl, set_back_spec by exact Hn. reflexivity.
  - split; [reflexivity|]. intros l e H. unfold curSec in C. congruence.
Qed.
Fixpoint cutN (n : nat) (s : TS) : bool * TS :=
  match n with O => (true, s) | S n => let (ok, s') := cutback s in if ok then cutN n s' else (false, s') end.
Lemma cut_terminates s : 0 < dtMin s -> 0 < f2 s -> exists n, fst (cutN n s) = false.
Proof.
  intros H1 H2. set (r := if qltb (f2 s) 1 then f2 s else Q2Qc (1#2)).
  assert (Hr : 0 < r /\ r < 1).
  { unfold r. pose proof (qltb_spec (f2 s) 1). destruct (qltb (f2 s) 1); split; auto; qclra. }
  destruct Hr as [R0 R1]. set (g := (1 - r) * dtMin s). assert (G : 0 < g) by (unfold g; qcnra).
  assert (K : forall n s1, dtMin s1 = dtMin s -> f2 s1 = f2 s -> dt s1 - dtMin s1 <= qn n * g -> exists n, fst (cutN n s1) = false).
  { induction n as [|n IH]; intros s1 E1 E2 Hn.
    - exists 1%nat. cbn. unfold cutback. rewrite qn_0 in Hn. destruct (qleb (dt s1) (dtMin s1)) eqn:Q; [reflexivity|]. apply qleb_false in Q. exfalso. qclra.
    - destruct (cutback s1) as [[|] s2] eqn:C; [|exists 1%nat; cbn; rewrite C; reflexivity].
      pose proof (cutback_same s1) as Sm. rewrite C in Sm. destruct Sm as (_ & _ & G3 & _ & _ & G6 & _). cbn [snd] in G3, G6.
      pose proof C as C0. unfold cutback in C. destruct (qleb (dt s1) (dtMin s1)) eqn:Q; [discriminate|]. apply qleb_false in Q.
      match type of C with (true, ?x) = _ => assert (Es : s2 = x) by congruence end. pose proof (f_equal dt Es) as Ed. cbn [dt] in Ed. clear Es.
      rewrite E2 in Ed. fold r in Ed. destruct (qltb (dt s1 * r) (dtMin s1)) eqn:W.
      + exists 2%nat. cbn [cutN]. rewrite C0.
        assert (X : qleb (dt s2) (dtMin s2) = true) by (apply qleb_true; rewrite Ed, G3; apply Qcle_refl).
        unfold cutback. rewrite X. reflexivity.
      + apply qltb_false in W. rewrite qn_S in Hn. destruct (IH s2) as [m Hm].
        * congruence.
        * congruence.
        * rewrite G3, Ed. unfold g in *. rewrite E1 in *. qcnra.
        * exists (S m). cbn [cutN]. rewrite C0. exact Hm. }
  destruct (qn_archi ((dt s - dtMin s) / g)) as [n Hn]. apply (K n s eq_refl eq_refl).
  assert (E : (dt s - dtMin s) / g * g = dt s - dtMin s) by (field; intros E; rewrite E in G; qclra).
  set (q := (dt s - dtMin s) / g) in *. qcnra.
Qed.
