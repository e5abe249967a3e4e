(** Invariant of a simulation: sections are met exactly, step sizes are positive. *)
From Coq Require Import List Arith ZArith QArith Qcanon Bool Lia Lqa.
From Verif Require Import Base QcLra TimeStep_model TimeStep_spec TimeStep_proofs.
Import ListNotations.
Local Open Scope Qc_scope.

Lemma increasing_cons a l : increasing (a :: l) -> increasing l.
Proof. intros [_ H]. exact H. Qed.
Lemma increasing_hd a l j : increasing (a :: l) -> (j < length l)%nat -> a < nth j l 0.
Proof.
  revert a j; induction l as [|b l IH]; intros a j H Hj; cbn in Hj; [lia|].
  destruct H as [Hab Hl]. destruct j as [|j]; cbn; [exact Hab|]. pose proof (IH b j Hl ltac:(lia)). qclra.
Qed.
Lemma increasing_nth l : increasing l -> forall i j, (i < j)%nat -> (j < length l)%nat -> nth i l 0 < nth j l 0.
Proof.
  induction l as [|a l IH]; intros H i j Hij Hj; cbn in Hj; [lia|]. destruct j as [|j]; [lia|].
  destruct i as [|i]; cbn.
  - apply increasing_hd; [exact H|lia].
  - apply IH; [exact (increasing_cons _ _ H)|lia|lia].
Qed.
Lemma increasing_last a l j : increasing (a :: l) -> (j < length l)%nat -> nth j l 0 <= last l 0.
Proof.
  intros H Hj. assert (E : last l 0 = nth (length l - 1) l 0).
  { clear - Hj. destruct l as [|x l]; [cbn in Hj; lia|]. clear Hj. revert x; induction l as [|y l IH]; intros x; [reflexivity|].
    change (last (x :: y :: l) 0) with (last (y :: l) 0). rewrite IH. cbn [length]. replace (S (length l) - 1)%nat with (length l) by lia.
    replace (S (S (length l)) - 1)%nat with (S (length l)) by lia. reflexivity. }
  rewrite E. destruct (Nat.eq_dec j (length l - 1)) as [->|N]; [apply Qcle_refl|]. apply Qclt_le_weak.
  apply increasing_nth; [exact (increasing_cons _ _ H)|lia|lia].
Qed.

Definition prevEnd (s : TS) : Qc := match stepIt s with O => starTime s | S k => nth k (ends s) 0 end.
Definition posLists (s : TS) : Prop := Forall (fun sec : Section_ => Forall (fun d => 0 < d) (fst sec)) (mySteps s).
Record Inv (b : bool) (s : TS) : Prop := mkInv {
  i_f1 : 0 < f1 s; i_f2 : 0 < f2 s; i_dtMax : 0 < dtMax s; i_dt : 0 < dt s;
  i_lists : posLists s; i_stop : 0 < stopTime s; i_star : 0 <= starTime s;
  i_ends : increasing (starTime s :: ends s);
  i_last : mySteps s = [] \/ stopTime s = last (ends s) 0;
  i_k : (stepIt s <= length (mySteps s))%nat;
  i_lo : prevEnd s <= t s;
  i_hi : (stepIt s < length (mySteps s))%nat -> t s < nth (stepIt s) (ends s) 0;
  i_hs : t s <= stopTime s;
  i_cut : b = true -> In (t s) (ends s) \/ prevEnd s <= t s - dt s }.

Lemma ends_length s : length (ends s) = length (mySteps s).
Proof. apply map_length. Qed.
Lemma curSec_lt s l e : curSec s = Some (l, e) -> (stepIt s < length (mySteps s))%nat /\ nth (stepIt s) (ends s) 0 = e.
Proof.
  unfold curSec. intros H. assert (stepIt s < length (mySteps s))%nat by (apply nth_error_Some; congruence). split; [assumption|].
  unfold ends. rewrite (nth_indep _ 0 (snd ([]:list Qc, 0))) by (rewrite map_length; assumption). rewrite map_nth.
  erewrite nth_error_nth by exact H. reflexivity.
Qed.
Lemma curSec_None s : curSec s = None -> (length (mySteps s) <= stepIt s)%nat.
Proof. apply nth_error_None. Qed.
Lemma end_pos b s : Inv b s -> forall j, (j < length (mySteps s))%nat -> 0 < nth j (ends s) 0.
Proof. intros H j Hj. pose proof (increasing_hd _ _ j (i_ends _ _ H) ltac:(rewrite ends_length; exact Hj)). pose proof (i_star _ _ H). qclra. Qed.
Lemma end_le_stop b s : Inv b s -> forall j, (j < length (mySteps s))%nat -> nth j (ends s) 0 <= stopTime s.
Proof.
  intros H j Hj. destruct (i_last _ _ H) as [E|E]; [rewrite E in Hj; cbn in Hj; lia|]. rewrite E.
  apply (increasing_last (starTime s)); [apply (i_ends _ _ H)|rewrite ends_length; exact Hj].
Qed.

Lemma Forall_nth0 (P : Qc -> Prop) l k : Forall P l -> (k < length l)%nat -> P (nth k l 0).
Proof. intros H Hk. rewrite Forall_forall in H. apply H. apply nth_In. exact Hk. Qed.
Lemma curSec_pos s l e : posLists s -> curSec s = Some (l, e) -> Forall (fun d => 0 < d) l.
Proof. intros H E. unfold posLists in H. rewrite Forall_forall in H. apply (H (l, e)). apply (nth_error_In _ _ E). Qed.

Lemma qcdiv_pos a b : 0 < a -> 0 < b -> 0 < a / b.
Proof.
  intros Ha Hb. assert (E : (a / b) * b = a) by (field; intros ->; qclra). set (q := a / b) in *.
  destruct (Qclt_le_dec 0 q) as [H|H]; [exact H|]. exfalso. qcnra.
Qed.

Lemma incA_dt s : 0 < f1 s -> 0 < dt s -> posLists s -> 0 < dt (incA s).
Proof.
  intros H1 H2 H3. unfold incA. dopen; cbn [dt]; try exact H2.
  - qcnra.
  - apply andb_prop in Heqb as [A B]. apply qltb_true in A, B. apply qcdiv_pos; [exact A|]. pose proof q12_pos. qclra.
  - apply (Forall_nth0 (fun d => 0 < d)); [exact (curSec_pos _ _ _ H3 Heqo)|]. apply Nat.leb_le in Heqb0. lia.
Qed.
Lemma incB_dt s : 0 < f1 s -> 0 < f2 s -> 0 < dtMax s -> 0 < dt s -> 0 < dt (incB s).
Proof.
  intros H1 H2 H3 H4. unfold incB. destruct (_ && _); [|exact H4]. cbn [setDt dt].
  match goal with |- context [qltb ?d (dtMin s)] => set (d0 := d) end.
  assert (0 < d0) by (unfold d0; dopen; try qcnra; exact H4).
  pose proof (qltb_spec d0 (dtMin s)). destruct (qltb d0 (dtMin s)); [qclra|]. destruct (qltb (dtMax s) d0); assumption.
Qed.

Lemma upd_nth_error {A} k (x : A) l j : nth_error (upd k x l) j = if (j =? k)%nat then match nth_error l k with Some _ => Some x | None => None end else nth_error l j.
Proof.
  revert l j; induction k as [|k IH]; intros [|y l] [|j]; cbn; try reflexivity.
  - destruct (_ =? _)%nat; reflexivity.
  - rewrite IH. reflexivity.
Qed.
Lemma upd_len {A} k (x : A) l : length (upd k x l) = length l.
Proof. revert l; induction k as [|k IH]; intros [|y l]; cbn; auto. Qed.
Lemma upd_Forall {A} (P : A -> Prop) k x l : Forall P l -> P x -> Forall P (upd k x l).
Proof. revert l; induction k as [|k IH]; intros [|y l] H Hx; cbn; auto; inversion H; subst; constructor; auto. Qed.
Lemma setSec_len s l : length (setSec s l) = length (mySteps s).
Proof. pose proof (f_equal (@length Qc) (ends_setSec s l)) as H. rewrite ends_length, map_length in H. exact H. Qed.
Lemma setSec_pos s l : posLists s -> Forall (fun d => 0 < d) l -> Forall (fun sec : Section_ => Forall (fun d => 0 < d) (fst sec)) (setSec s l).
Proof. intros H H1. unfold setSec. destruct (curSec s) as [[l0 e]|]; [|exact H]. apply upd_Forall; [exact H|exact H1]. Qed.
Lemma set_back_pos d l : 0 < d -> Forall (fun d => 0 < d) l -> Forall (fun d => 0 < d) (set_back d l).
Proof. intros Hd. induction l as [|x [|y r] IH]; intros H; cbn; auto; inversion H; subst; constructor; auto. Qed.
Lemma push_pos (s : TS) l : 0 < dt s -> Forall (fun d => 0 < d) l -> Forall (fun d => 0 < d) (if (length l <=? lstep s)%nat then l ++ [dt s] else l).
Proof. intros Hd H. destruct (_ <=? _)%nat; [|exact H]. apply Forall_app. split; [exact H|constructor; [exact Hd|constructor]]. Qed.

(** the state between [advance] and [incC] *)
Lemma step_Inv b s s' : Inv b s -> increment s = (true, s') ->
  Inv true s' /\ (forall e, In e (ends s) -> t s < e -> t s' <= e).
Proof.
  intros I H. pose proof (increment_true _ _ H) as (Et & Es & _).
  pose proof (increment_same s) as Sm. rewrite H in Sm. cbn [snd] in Sm.
  unfold increment in H. set (s1 := incB (incA s)) in *.
  assert (S1 : same s1 s) by (exact (same_trans _ _ _ (incB_same (incA s)) (incA_same s))).
  assert (D1 : 0 < dt s1).
  { unfold s1. destruct (incA_same s) as (_ & _ & _ & E4 & E5 & E6 & _). apply incB_dt; rewrite ?E4, ?E5, ?E6; try apply I.
    apply incA_dt; apply I. }
  assert (T1 : t s1 = t s) by (unfold s1; rewrite incB_t; apply incA_t).
  assert (M1 : mySteps s1 = mySteps s) by (unfold s1; rewrite (proj1 (incB_secs _)); apply incA_secs).
  assert (K1 : stepIt s1 = stepIt s) by (unfold s1; rewrite (proj1 (proj2 (incB_secs _))); apply incA_secs).
  destruct (hasReached s1 (stopTime s1)) eqn:HR; [discriminate|].
  assert (Hlt : t s < stopTime s).
  { rewrite <- T1. destruct S1 as (_ & E2 & _). rewrite <- E2. apply hasReached_false_lt; [rewrite E2; apply I|exact HR]. }
  destruct (_ && _); [discriminate|].
  set (s2 := advance (bumpStep s1)) in *.
  assert (E' : s' = incD (incC s2)) by congruence. clear H.
  assert (C2 : curSec s2 = curSec s) by (unfold curSec, s2; cbn; rewrite M1, K1; reflexivity).
  assert (T2 : t s2 = t s + dt s1) by (unfold s2; cbn; rewrite T1; reflexivity).
  assert (D2 : dt s2 = dt s1) by reflexivity.
  assert (P2 : posLists s2) by (unfold posLists, s2; cbn; rewrite M1; apply I).
  destruct Sm as (G1 & G2 & G3 & G4 & G5 & G6 & G7 & G8 & G9).
  assert (Q : posLists s' /\ length (mySteps s') = length (mySteps s) /\ 0 < dt s' /\
     ((stepIt s' = stepIt s /\ ((stepIt s < length (mySteps s))%nat -> t s' < nth (stepIt s) (ends s) 0)) \/
      (stepIt s' = S (stepIt s) /\ (stepIt s < length (mySteps s))%nat /\ t s' = nth (stepIt s) (ends s) 0))).
  { destruct (curSec s) as [[l e]|] eqn:C.
    - destruct (curSec_lt _ _ _ C) as [K2 He]. pose proof (end_pos _ _ I _ K2) as Pe. pose proof (end_le_stop _ _ I _ K2) as Le. rewrite He in Pe, Le.
      pose proof (i_hi _ _ I K2) as Hi. rewrite He in Hi.
      assert (Pl := curSec_pos _ _ _ P2 C2). pose proof (push_pos s2 l D1 Pl) as Pp.
      assert (X : t (incC s2) <= e /\ 0 < dt (incC s2) /\ posLists (incC s2) /\ length (mySteps (incC s2)) = length (mySteps s) /\
          ((stepIt (incC s2) = stepIt s /\ t (incC s2) < e) \/ (stepIt (incC s2) = S (stepIt s) /\ t (incC s2) = e))).
      { unfold incC. rewrite C2. fold s2. destruct (hasReached s2 e) eqn:R.
        - destruct (Qc_eq_dec (t s2) e) as [Te|Te]; cbn [t dt mySteps stepIt].
          + split; [qclra|]. split; [exact D1|]. split; [apply setSec_pos; assumption|]. split; [rewrite setSec_len; unfold s2; cbn; rewrite M1; reflexivity|].
            right. split; [unfold s2; cbn; rewrite K1; reflexivity|exact Te].
          + assert (0 < dt s2 + (e - t s2)) by qclra.
            split; [apply Qcle_refl|]. split; [assumption|]. split; [apply setSec_pos; [exact P2|apply set_back_pos; assumption]|].
            split; [rewrite setSec_len; unfold s2; cbn; rewrite M1; reflexivity|]. right. split; [unfold s2; cbn; rewrite K1; reflexivity|reflexivity].
        - pose proof (hasReached_false_lt _ _ Pe R) as L. cbn [t dt mySteps stepIt]. split; [qclra|]. split; [exact D1|].
          split; [apply setSec_pos; assumption|]. split; [rewrite setSec_len; unfold s2; cbn; rewrite M1; reflexivity|]. left. split; [unfold s2; cbn; rewrite K1; reflexivity|exact L]. }
      destruct X as (X1 & X2 & X3 & X4 & X5).
      assert (Y : incD (incC s2) = incC s2).
      { unfold incD. destruct (incC_same s2) as (_ & Z2 & _). assert (Z3 : stopTime s2 = stopTime s) by (destruct S1 as (_ & Z & _); exact Z).
        pose proof (qltb_spec (stopTime (incC s2)) (t (incC s2))) as W. destruct (qltb _ _); [|reflexivity]. exfalso. rewrite Z2, Z3 in W. qclra. }
      rewrite E', Y. rewrite He. split; [exact X3|]. split; [exact X4|]. split; [exact X2|]. destruct X5 as [[A B]|[A B]]; [left|right]; auto.
    - pose proof (curSec_None _ C) as K2. assert (Y : incC s2 = s2) by (unfold incC; rewrite C2; reflexivity). rewrite E', Y.
      unfold incD. assert (Z3 : stopTime s2 = stopTime s) by (destruct S1 as (_ & Z & _); exact Z). pose proof (qltb_spec (stopTime s2) (t s2)) as W.
      destruct (qltb _ _); cbn [t dt mySteps stepIt].
      + split; [exact P2|]. split; [unfold s2; cbn; rewrite M1; reflexivity|]. split; [rewrite Z3; qclra|]. left. split; [unfold s2; cbn; exact K1|lia].
      + split; [exact P2|]. split; [unfold s2; cbn; rewrite M1; reflexivity|]. split; [exact D1|]. left. split; [unfold s2; cbn; exact K1|lia]. }
  destruct Q as (Q1 & Q2 & Q3 & Q4). clear E' s2 C2 T2 D2 P2 HR D1 S1 T1 M1 K1 s1.
  assert (Lo : prevEnd s <= t s) by apply I.
  assert (I' : Inv true s').
  { constructor; rewrite ?G1, ?G2, ?G4, ?G5, ?G6, ?G9; try apply I; auto.
    - destruct (i_last _ _ I) as [N|N]; [left|right; exact N]. rewrite N in Q2. destruct (mySteps s'); [reflexivity|discriminate].
    - rewrite Q2. pose proof (i_k _ _ I). destruct Q4 as [[-> _]|(-> & ? & _)]; lia.
    - unfold prevEnd. rewrite G1, G9. destruct Q4 as [[-> _]|(-> & ? & Z)]; [fold (prevEnd s); qclra|]. rewrite Z. apply Qcle_refl.
    - rewrite Q2. destruct Q4 as [[-> Z]|(-> & Z0 & Z)]; [exact Z|]. intros L. rewrite Z.
      apply increasing_nth; [exact (increasing_cons _ _ (i_ends _ _ I))|lia|rewrite ends_length; lia].
    - intros _. destruct Q4 as [[Z0 _]|(_ & Z0 & Z)].
      + right. unfold prevEnd. rewrite G1, G9, Z0. fold (prevEnd s). qclra.
      + left. rewrite Z. apply nth_In. rewrite ends_length. exact Z0. }
  split; [exact I'|].
  intros e He Hte. apply (In_nth _ _ 0) in He as (j & Hj & <-). rewrite ends_length in Hj.
  assert (stepIt s <= j)%nat.
  { destruct (le_lt_dec (stepIt s) j) as [Z|Z]; [exact Z|exfalso]. unfold prevEnd in Lo. destruct (stepIt s) as [|k] eqn:Ek; [lia|].
    pose proof (i_k _ _ I) as Kk. rewrite Ek in Kk.
    destruct (Nat.eq_dec j k) as [->|Nk]; [qclra|].
    pose proof (increasing_nth _ (increasing_cons _ _ (i_ends _ _ I)) j k ltac:(lia) ltac:(rewrite ends_length; lia)). qclra. }
  assert (W : t s' <= nth (stepIt s) (ends s) 0) by (destruct Q4 as [[_ Z]|(_ & _ & Z)]; [apply Qclt_le_weak, Z; lia|rewrite Z; apply Qcle_refl]).
  destruct (Nat.eq_dec (stepIt s) j) as [<-|Nj]; [exact W|].
  pose proof (increasing_nth _ (increasing_cons _ _ (i_ends _ _ I)) (stepIt s) j ltac:(lia) ltac:(rewrite ends_length; lia)). qclra.
Qed.
