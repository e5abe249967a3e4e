(** Sets of constraint equations and their merging over the patches. *)
From Coq Require Import List Sorted Permutation Arith ZArith QArith Qcanon Bool Lia.
From Verif Require Import Base MPC_model MPC_spec MPC_proofs.
Import ListNotations.
Local Open Scope Z_scope.

Lemma keyEqb_spec a b : keyEqb a b = true <-> a = b.
Proof. unfold keyEqb. destruct a, b; cbn. rewrite andb_true_iff, !Z.eqb_eq. split; [intros [-> ->]; auto|intros [= -> ->]; auto]. Qed.
Lemma keyEqb_false a b : keyEqb a b = false <-> a <> b.
Proof. rewrite <- not_true_iff_false, keyEqb_spec. reflexivity. Qed.
Lemma keyEqb_refl a : keyEqb a a = true. Proof. apply keyEqb_spec. reflexivity. Qed.

(** ** std::set::insert *)
Lemma setInsert_spec so m : forall l b l', setInsert so m l = (b, l') -> increasing (mpcLess so) l ->
  increasing (mpcLess so) l' /\
  (b = true -> Permutation l' (m :: l) /\ forall x, In x l -> mpcLess so (Some x) (Some m) = true \/ mpcLess so (Some m) (Some x) = true) /\
  (b = false -> l' = l /\ exists x, In x l /\ mpcLess so (Some x) (Some m) = false /\ mpcLess so (Some m) (Some x) = false).
Proof.
  destruct (mpcLess_strictWeak so) as (I & T & W).
  induction l as [|x l IH]; intros b l'; cbn [setInsert].
  - intros [= <- <-] _. split; [constructor; constructor|]. split; [|discriminate]. intros _. split; [reflexivity|intros ? []].
  - intros E S. inversion S as [|? ? S1 S2]; subst. destruct (mpcLess so (Some x) (Some m)) eqn:E1.
    + destruct (setInsert so m l) as [b1 r1] eqn:E2. injection E as <- <-. destruct (IH _ _ eq_refl S1) as (A & B & C). split.
      * constructor; [exact A|]. rewrite Forall_forall in *. intros y Hy. destruct b1.
        { destruct (B eq_refl) as [P _]. eapply Permutation_in in Hy; [|exact P]. destruct Hy as [<-|Hy]; [exact E1|apply S2; exact Hy]. }
        { destruct (C eq_refl) as [-> _]. apply S2; exact Hy. }
      * split.
        { intros ->. destruct (B eq_refl) as [P Q]. split; [rewrite P; apply perm_swap|]. intros y [<-|Hy]; auto. }
        { intros ->. destruct (C eq_refl) as [-> (y & Hy & Q)]. split; [reflexivity|]. exists y. split; [right; exact Hy|exact Q]. }
    + destruct (mpcLess so (Some m) (Some x)) eqn:E2; injection E as <- <-.
      * split; [|split; [|discriminate]].
        { constructor; [exact S|]. constructor; [exact E2|]. rewrite Forall_forall in *. intros y Hy. eapply T; [exact E2|apply S2; exact Hy]. }
        { intros _. split; [reflexivity|]. intros y [<-|Hy]; [right; exact E2|right]. rewrite Forall_forall in S2. eapply T; [exact E2|apply S2; exact Hy]. }
      * split; [exact S|]. split; [discriminate|]. intros _. split; [reflexivity|]. exists x. split; [left; reflexivity|]. auto.
Qed.
Lemma insertAll_sorted so ms : forall l, increasing (mpcLess so) l -> increasing (mpcLess so) (insertAll so ms l).
Proof.
  induction ms as [|m ms IH]; intros l H; cbn; [exact H|]. apply IH. destruct (setInsert so m l) as [b l'] eqn:E.
  exact (proj1 (setInsert_spec _ _ _ _ _ E H)).
Qed.
Lemma less_key a b : mpcLess true (Some a) (Some b) = true -> dkey (mslave a) <> dkey (mslave b).
Proof. intros H E. apply mpcLess_equiv in E. destruct E; congruence. Qed.
Lemma increasing_distinct l : increasing (mpcLess true) l -> NoDup (slaves l).
Proof.
  induction 1 as [|x l S IH F]; cbn; constructor; [|exact IH]. intros Hi. apply in_map_iff in Hi. destruct Hi as (y & E & Hy).
  rewrite Forall_forall in F. apply F in Hy. apply less_key in Hy. congruence.
Qed.
Lemma withSlave_in k l m : In m (withSlave k l) <-> In m l /\ dkey (mslave m) = k.
Proof. unfold withSlave. rewrite filter_In, keyEqb_spec. reflexivity. Qed.
Lemma insertAll_first ms : forall l k, increasing (mpcLess true) l ->
  hd_error (withSlave k (insertAll true ms l)) = hd_error (withSlave k (l ++ ms)).
Proof.
  induction ms as [|m ms IH]; intros l k H; cbn [insertAll fold_left]; [rewrite app_nil_r; reflexivity|].
  destruct (setInsert true m l) as [b l'] eqn:E. destruct (setInsert_spec _ _ _ _ _ E H) as (A & B & C). cbn [snd].
  change (fold_left _ ms l') with (insertAll true ms l'). rewrite IH by exact A. unfold withSlave. rewrite !filter_app. cbn [filter].
  assert (X : forall y, hd_error (filter (fun m0 => keyEqb (dkey (mslave m0)) k) l' ++ y) =
     hd_error (filter (fun m0 => keyEqb (dkey (mslave m0)) k) l ++ (if keyEqb (dkey (mslave m)) k then m :: y else y))).
  { intros y. destruct b.
    - destruct (B eq_refl) as [P Q]. destruct (keyEqb (dkey (mslave m)) k) eqn:Ek.
      + apply keyEqb_spec in Ek.
        assert (N : filter (fun m0 => keyEqb (dkey (mslave m0)) k) l = []).
        { destruct (filter _ l) as [|z r] eqn:F; [reflexivity|]. exfalso. assert (Hz : In z (filter (fun m0 => keyEqb (dkey (mslave m0)) k) l)) by (rewrite F; left; reflexivity).
          apply withSlave_in in Hz. destruct Hz as [Hz Hk]. destruct (Q z Hz) as [Hl|Hl]; apply less_key in Hl; congruence. }
        rewrite N. cbn [app hd_error].
        assert (Q2 : Permutation (filter (fun m0 => keyEqb (dkey (mslave m0)) k) l') [m]).
        { assert (Hm : filter (fun m0 => keyEqb (dkey (mslave m0)) k) (m :: l) = [m]).
          { cbn [filter]. rewrite (proj2 (keyEqb_spec _ _) Ek), N. reflexivity. }
          rewrite <- Hm. clear - P. induction P; cbn; repeat match goal with |- context [if ?c then _ else _] => destruct c end; eauto using Permutation. }
        apply Permutation_sym, Permutation_length_1_inv in Q2. rewrite Q2. reflexivity.
      + assert (Q2 : Permutation (filter (fun m0 => keyEqb (dkey (mslave m0)) k) l') (filter (fun m0 => keyEqb (dkey (mslave m0)) k) l)).
        { assert (Hm : filter (fun m0 => keyEqb (dkey (mslave m0)) k) (m :: l) = filter (fun m0 => keyEqb (dkey (mslave m0)) k) l) by (cbn [filter]; rewrite Ek; reflexivity).
          rewrite <- Hm. clear - P. induction P; cbn; repeat match goal with |- context [if ?c then _ else _] => destruct c end; eauto using Permutation. }
        assert (L : (length (filter (fun m0 => keyEqb (dkey (mslave m0)) k) l) <= 1)%nat).
        { apply increasing_distinct in H. clear - H. induction l as [|x l IH]; cbn; [lia|]. cbn in H. inversion H as [|? ? H1 H2]; subst.
          destruct (keyEqb (dkey (mslave x)) k) eqn:Ex; [|apply IH; exact H2]. cbn. destruct (filter _ l) as [|z r] eqn:F; [cbn; lia|].
          exfalso. apply H1. assert (Hz : In z (withSlave k l)) by (unfold withSlave; rewrite F; left; reflexivity).
          apply withSlave_in in Hz. apply keyEqb_spec in Ex. rewrite Ex. destruct Hz as [Hz <-]. apply (in_map (fun m => dkey (mslave m))). exact Hz. }
        destruct (filter (fun m0 => keyEqb (dkey (mslave m0)) k) l) as [|z [|z2 r]]; cbn in L; [..|lia].
        * apply Permutation_sym, Permutation_nil in Q2. rewrite Q2. reflexivity.
        * apply Permutation_sym, Permutation_length_1_inv in Q2. rewrite Q2. reflexivity.
    - destruct (C eq_refl) as [-> (x & Hx & Q)]. apply mpcLess_equiv in Q. destruct (keyEqb (dkey (mslave m)) k) eqn:Ek; [|reflexivity].
      apply keyEqb_spec in Ek. destruct (filter _ l) as [|z r] eqn:F; [|reflexivity]. exfalso.
      assert (Hz : In x (withSlave k l)) by (apply withSlave_in; split; [exact Hx|congruence]). unfold withSlave in Hz. rewrite F in Hz. destruct Hz. }
  destruct (keyEqb (dkey (mslave m)) k); apply X.
Qed.

(** ** merging over the patches *)
Lemma negligible_abs tol c : negligible tol c = if Qclt_le_dec tol (absv c) then false else true.
Proof.
  assert (N : forall a b : Qc, (a <= b)%Qc -> (- b <= - a)%Qc) by (intros; apply Qcopp_le_compat; auto).
  assert (O : (- 0)%Qc = 0%Qc) by (apply Qc_is_canon; reflexivity).
  destruct (Qclt_le_dec tol (absv c)) as [H|H].
  - apply not_true_is_false. intros E. apply negligible_spec in E. destruct E as [E1 E2]. unfold absv in H.
    destruct (Qclt_le_dec c 0); [|exact (Qclt_not_le _ _ H E2)]. apply N in E1. replace (- - tol)%Qc with tol in E1 by ring. exact (Qclt_not_le _ _ H E1).
  - apply negligible_spec. unfold absv in H. destruct (Qclt_le_dec c 0) as [L|L].
    + split; [apply N in H; replace (- - c)%Qc with c in H by ring; exact H|].
      eapply Qcle_trans; [apply Qclt_le_weak; exact L|]. eapply Qcle_trans; [|exact H]. rewrite <- O. apply N, Qclt_le_weak, L.
    + split; [|exact H]. eapply Qcle_trans; [apply N, H|]. eapply Qcle_trans; [apply N, L|]. rewrite O. exact L.
Qed.
Definition mergeStep (tol : Qc) (x y : mpc) : mpc :=
  if (if Qc_eq_dec (dcoef (mslave x)) 0 then true else false) && (1 <? length (mmast x))%nat then snd (mergeMPC tol x y) else x.
Lemma mergeStep_combine tol x y : dkey (mslave x) = dkey (mslave y) -> combineDef tol x y (mergeStep tol x y).
Proof.
  intros K. unfold mergeStep, combineDef. destruct (Qc_eq_dec (dcoef (mslave x)) 0) as [E|E]; cbn [andb]; [|split; [reflexivity|left; auto]].
  destruct (Nat.ltb_spec 1 (length (mmast x))) as [L|L]; cbn; [|split; [reflexivity|left; split; auto]].
  destruct (mergeMPC tol x y) as [b z] eqn:M. destruct (mergeMPC_spec _ _ _ _ _ M) as (A & B & C & D & _). cbn [snd]. split; [exact A|]. destruct b.
  - destruct (B eq_refl) as (_ & E2 & F). right. split; [exact E|]. split; [exact L|]. split; [congruence|].
    intros u. rewrite F. f_equal. apply qs_ext. intros d _. rewrite negligible_abs. destruct (Qclt_le_dec _ _); reflexivity.
  - left. rewrite (C eq_refl). split; [|reflexivity]. destruct (proj1 D eq_refl) as [Q|[Q|Q]]; [contradiction| |auto]. right; right; left. congruence.
Qed.
Lemma mergeStep_slave tol x y : mslave (mergeStep tol x y) = mslave x.
Proof.
  unfold mergeStep. destruct (_ && _); [|reflexivity]. destruct (mergeMPC tol x y) eqn:M. apply mergeMPC_spec in M. apply M.
Qed.
Definition lookO (k : Z * Z) (l : list owned) : option owned := find (fun pm => keyEqb (dkey (mslave (snd pm))) k) l.
Lemma less_slave a a' b b' : mslave a = mslave a' -> mslave b = mslave b' -> mpcLess true (Some a) (Some b) = mpcLess true (Some a') (Some b').
Proof. intros E1 E2. unfold mpcLess. rewrite E1, E2. reflexivity. Qed.
Lemma insertOwned_spec tol p m : forall l, increasing (mpcLess true) (map snd l) ->
  increasing (mpcLess true) (map snd (insertOwned tol p m l)) /\
  (forall x, In x (map snd (insertOwned tol p m l)) -> dkey (mslave x) = dkey (mslave m) \/ In x (map snd l)) /\
  (forall b, (forall x, In x (map snd l) -> mpcLess true (Some b) (Some x) = true) -> mpcLess true (Some b) (Some m) = true ->
     forall x, In x (map snd (insertOwned tol p m l)) -> mpcLess true (Some b) (Some x) = true) /\
  (forall k, lookO k (insertOwned tol p m l) =
     if keyEqb (dkey (mslave m)) k then match lookO k l with None => Some (p, m) | Some (q, x) => Some (q, mergeStep tol x m) end
     else lookO k l).
Proof.
  destruct (mpcLess_strictWeak true) as (I & T & W).
  induction l as [|[q x] l IH]; intros S; cbn [insertOwned map].
  - split; [constructor; constructor|]. split; [intros x [<-|[]]; auto|]. split; [intros b _ Hb x [<-|[]]; exact Hb|].
    intros k. unfold lookO. cbn. reflexivity.
  - cbn [map snd] in S. inversion S as [|? ? S1 S2]; subst. rewrite Forall_forall in S2. destruct (IH S1) as (A & B & C & D).
    destruct (mpcLess true (Some x) (Some m)) eqn:E1; [|destruct (mpcLess true (Some m) (Some x)) eqn:E2].
    + cbn [map snd]. split; [constructor; [exact A|rewrite Forall_forall; apply C; auto]|]. split.
      { intros y [<-|Hy]; [right; left; reflexivity|]. apply B in Hy. destruct Hy; [auto|right; right; auto]. }
      split.
      { intros b Hb Hm y [<-|Hy]; [apply Hb; left; reflexivity|]. apply C; auto. intros z Hz. apply Hb. right; exact Hz. }
      intros k. unfold lookO in *. cbn [find snd]. apply less_key in E1.
      destruct (keyEqb (dkey (mslave x)) k) eqn:Ek; [|apply D]. apply keyEqb_spec in Ek. subst k.
      rewrite (proj2 (keyEqb_false _ _)) by congruence. reflexivity.
    + cbn [map snd]. split.
      { constructor; [exact S|]. constructor; [exact E2|]. rewrite Forall_forall. intros y Hy. eapply T; [exact E2|apply S2; exact Hy]. }
      split; [intros y [<-|Hy]; [left; reflexivity|right; exact Hy]|]. split; [intros b Hb Hm y [<-|Hy]; [exact Hm|apply Hb; exact Hy]|].
      intros k. unfold lookO. cbn [find snd]. destruct (keyEqb (dkey (mslave m)) k) eqn:Ek; [|reflexivity]. apply keyEqb_spec in Ek. subst k.
      pose proof (less_key _ _ E2) as N. rewrite (proj2 (keyEqb_false _ _)) by congruence.
      destruct (find _ l) as [[q' y]|] eqn:F; [|reflexivity]. exfalso. apply find_some in F. destruct F as [Fi Fk]. cbn [snd] in Fk. apply keyEqb_spec in Fk.
      assert (Hy : In y (map snd l)) by (apply (in_map snd) in Fi; exact Fi). apply S2 in Hy. assert (mpcLess true (Some m) (Some y) = true) as Q by (eapply T; eauto).
      apply less_key in Q. congruence.
    + assert (K : dkey (mslave x) = dkey (mslave m)) by (apply mpcLess_equiv; auto).
      set (st := if _ && _ then (q, snd (mergeMPC tol x m)) :: l else (q, x) :: l).
      assert (Est : st = (q, mergeStep tol x m) :: l) by (unfold st, mergeStep; destruct (_ && _); reflexivity). rewrite Est. clear st Est. cbn [map snd].
      split; [constructor; [exact S1|]; rewrite Forall_forall; intros y Hy; rewrite (less_slave _ x y y (mergeStep_slave _ _ _) eq_refl); apply S2; exact Hy|].
      split; [intros y [<-|Hy]; [left; rewrite mergeStep_slave; exact K|right; right; exact Hy]|].
      split; [intros b Hb Hm y [<-|Hy]; [rewrite (less_slave b b (mergeStep tol x m) x eq_refl (mergeStep_slave _ _ _)); apply Hb; left; reflexivity|apply Hb; right; exact Hy]|].
      intros k. unfold lookO. cbn [find snd]. rewrite mergeStep_slave, K. destruct (keyEqb (dkey (mslave m)) k); reflexivity.
Qed.
Lemma insertFold_spec tol : forall (L acc : list owned), increasing (mpcLess true) (map snd acc) ->
  increasing (mpcLess true) (map snd (fold_left (fun a pm => insertOwned tol (fst pm) (snd pm) a) L acc)) /\
  (forall k, lookO k (fold_left (fun a pm => insertOwned tol (fst pm) (snd pm) a) L acc) =
     match lookO k acc, filter (fun pm => keyEqb (dkey (mslave (snd pm))) k) L with
     | Some (q, x), r => Some (q, fold_left (mergeStep tol) (map snd r) x)
     | None, [] => None
     | None, (q, x) :: r => Some (q, fold_left (mergeStep tol) (map snd r) x)
     end).
Proof.
  induction L as [|[p m] L IH]; intros acc S; cbn [fold_left filter fst snd].
  - split; [exact S|]. intros k. destruct (lookO k acc) as [[q x]|]; reflexivity.
  - destruct (insertOwned_spec tol p m acc S) as (A & _ & _ & D). destruct (IH _ A) as (B & C). split; [exact B|].
    intros k. rewrite C, D. destruct (keyEqb (dkey (mslave m)) k); [|reflexivity]. destruct (lookO k acc) as [[q x]|]; reflexivity.
Qed.
Definition tagged (patches : list (list mpc)) : list owned :=
  flat_map (fun p => map (fun m => (fst p, m)) (snd p)) (combine (seq 0 (length patches)) patches).
Lemma mergeAll_tagged tol patches : mergeAll tol patches = fold_left (fun a pm => insertOwned tol (fst pm) (snd pm) a) (tagged patches) [].
Proof.
  unfold mergeAll, tagged. generalize (@nil owned). generalize (combine (seq 0 (length patches)) patches).
  induction l as [|[p ms] l IH]; intros acc; cbn [fold_left flat_map fst snd]; [reflexivity|].
  rewrite fold_left_app, <- IH. f_equal. clear IH. revert acc. induction ms as [|m ms IH]; intros acc; cbn; [reflexivity|]. apply IH.
Qed.
Lemma combined_fold tol r : forall x, Forall (fun y => dkey (mslave y) = dkey (mslave x)) r -> combined tol x r (fold_left (mergeStep tol) r x).
Proof.
  induction r as [|y r IH]; intros x F; cbn [fold_left]; [constructor|]. inversion F as [|? ? F1 F2]; subst. econstructor.
  - apply mergeStep_combine. congruence.
  - apply IH. rewrite mergeStep_slave. exact F2.
Qed.
Lemma lookO_in k l p m : NoDup (slaves (map snd l)) -> dkey (mslave m) = k -> (In (p, m) l <-> lookO k l = Some (p, m)).
Proof.
  intros N K. unfold lookO. split.
  - induction l as [|[q x] l IH]; [intros []|]. cbn [map slaves snd] in N. inversion N as [|? ? N1 N2]; subst. cbn [find snd].
    intros [[= <- <-]|H]; [rewrite keyEqb_refl; reflexivity|].
    rewrite (proj2 (keyEqb_false _ _)); [apply IH; [exact N2|exact H]|]. intros E. apply N1. unfold slaves. rewrite E.
    apply (in_map (fun m => dkey (mslave m)) _ m). apply (in_map snd) in H. exact H.
  - intros H. apply find_some in H. apply H.
Qed.
Lemma filter_tag k n (P : list mpc) :
  filter (fun pm : owned => keyEqb (dkey (mslave (snd pm))) k) (map (fun m => (n, m)) P) = map (fun m => (n, m)) (withSlave k P).
Proof. induction P as [|m P IH]; cbn; [reflexivity|]. destruct (keyEqb (dkey (mslave m)) k); cbn; rewrite IH; reflexivity. Qed.
Definition tagFrom (n : nat) (patches : list (list mpc)) : list owned :=
  flat_map (fun p => map (fun m => (fst p, m)) (snd p)) (combine (seq n (length patches)) patches).
Lemma tagFrom_map k patches : forall n, map snd (filter (fun pm : owned => keyEqb (dkey (mslave (snd pm))) k) (tagFrom n patches)) = flat_map (withSlave k) patches.
Proof.
  induction patches as [|P patches IH]; intros n; [reflexivity|]. unfold tagFrom in *. cbn [length seq combine flat_map fst snd].
  rewrite filter_app, map_app, IH, filter_tag, map_map. cbn [snd]. rewrite map_id. reflexivity.
Qed.
Lemma tagFrom_first k patches : forall n p x r,
  filter (fun pm : owned => keyEqb (dkey (mslave (snd pm))) k) (tagFrom n patches) = (p, x) :: r ->
  Forall (fun P => NoDup (slaves P)) patches ->
  exists i P, p = (n + i)%nat /\ nth_error patches i = Some P /\ In x P /\ dkey (mslave x) = k /\
    (forall j Q, (j < i)%nat -> nth_error patches j = Some Q -> ~ In k (slaves Q)) /\
    map snd r = flat_map (withSlave k) (skipn (S i) patches).
Proof.
  induction patches as [|P patches IH]; intros n p x r E ND; [discriminate|]. inversion ND as [|? ? ND1 ND2]; subst.
  unfold tagFrom in *. cbn [length seq combine flat_map fst snd] in E. rewrite filter_app, filter_tag in E.
  destruct (withSlave k P) as [|y t] eqn:F; cbn [map app] in E.
  - destruct (IH (S n) _ _ _ E ND2) as (i & Q & -> & A & B & C & D & G). exists (S i), Q. split; [lia|]. split; [exact A|]. split; [exact B|]. split; [exact C|]. split; [|exact G].
    intros [|j] R Hj HR; [|eapply D; [|exact HR]; lia]. injection HR as <-. intros Hi. apply in_map_iff in Hi. destruct Hi as (z & Hz1 & Hz2).
    assert (In z (withSlave k P)) as X by (apply withSlave_in; auto). rewrite F in X. destruct X.
  - injection E as <- <- <-. assert (t = []) as ->.
    { assert (Hy : In y (withSlave k P)) by (rewrite F; left; reflexivity). clear - ND1 F. revert F. unfold withSlave. induction P as [|z P IH]; cbn; [discriminate|].
      inversion ND1 as [|? ? N1 N2]; subst. destruct (keyEqb (dkey (mslave z)) k) eqn:Ez; [|apply IH; exact N2]. intros [= -> F].
      destruct t as [|w t]; [reflexivity|]. exfalso. assert (Hw : In w (withSlave k P)) by (unfold withSlave; rewrite F; left; reflexivity).
      apply withSlave_in in Hw. apply keyEqb_spec in Ez. apply N1. rewrite Ez. destruct Hw as [Hw <-]. apply (in_map (fun m => dkey (mslave m)) _ w Hw). }
    exists O, P. split; [lia|]. split; [reflexivity|]. assert (Hy : In y (withSlave k P)) by (rewrite F; left; reflexivity). apply withSlave_in in Hy.
    split; [apply Hy|]. split; [apply Hy|]. split; [intros; lia|]. cbn [map app skipn]. apply (tagFrom_map k patches (S n)).
Qed.
Lemma mergeAll_spec tol patches : Forall (increasing (mpcLess true)) patches ->
  increasing (mpcLess true) (map snd (mergeAll tol patches)) /\
  (forall k, In k (slaves (map snd (mergeAll tol patches))) <-> exists P, In P patches /\ In k (slaves P)) /\
  (forall p m, In (p, m) (mergeAll tol patches) -> exists P x, nth_error patches p = Some P /\ In x P /\ dkey (mslave x) = dkey (mslave m) /\
     (forall q Q, (q < p)%nat -> nth_error patches q = Some Q -> ~ In (dkey (mslave m)) (slaves Q)) /\
     combined tol x (flat_map (withSlave (dkey (mslave m))) (skipn (S p) patches)) m).
Proof.
  intros SP. assert (ND : Forall (fun P => NoDup (slaves P)) patches) by (eapply Forall_impl; [|exact SP]; intros; apply increasing_distinct; auto).
  rewrite mergeAll_tagged. change (tagged patches) with (tagFrom 0 patches).
  destruct (insertFold_spec tol (tagFrom 0 patches) [] (SSorted_nil _)) as (A & B). set (g := fold_left _ _ _) in *.
  pose proof (increasing_distinct _ A) as N.
  assert (Bk : forall k, lookO k g = match filter (fun pm : owned => keyEqb (dkey (mslave (snd pm))) k) (tagFrom 0 patches) with
     | [] => None | (q, x) :: r => Some (q, fold_left (mergeStep tol) (map snd r) x) end) by (intros k; rewrite B; reflexivity).
  split; [exact A|]. split.
  - intros k. split.
    + intros H. apply in_map_iff in H. destruct H as (m & Hk & Hm). apply in_map_iff in Hm. destruct Hm as ([p m'] & Em & Hm). cbn [snd] in Em. subst m'.
      apply (lookO_in k g p m N Hk) in Hm. rewrite Bk in Hm. destruct (filter _ _) as [|[q x] r] eqn:F; [discriminate|].
      destruct (tagFrom_first k patches 0 q x r F ND) as (i & P & _ & E1 & E2 & E3 & _). exists P. split; [eapply nth_error_In; eauto|].
      rewrite <- E3. apply (in_map (fun m => dkey (mslave m)) _ x E2).
    + intros (P & HP & Hk). apply in_map_iff in Hk. destruct Hk as (y & Hy & HyP).
      assert (Hf : In y (flat_map (withSlave k) patches)) by (apply in_flat_map; exists P; split; [exact HP|apply withSlave_in; auto]).
      rewrite <- (tagFrom_map k patches 0) in Hf. pose proof (Bk k) as Bk'. destruct (filter _ (tagFrom 0 patches)) as [|[q x] r] eqn:F; [destruct Hf|].
      unfold lookO in Bk'. apply find_some in Bk'. destruct Bk' as [Bi Bj]. apply keyEqb_spec in Bj. rewrite <- Bj.
      apply (in_map (fun m => dkey (mslave m))). apply (in_map snd) in Bi. exact Bi.
  - intros p m Hm. apply (lookO_in _ g p m N eq_refl) in Hm. rewrite Bk in Hm. destruct (filter _ _) as [|[q x] r] eqn:F; [discriminate|].
    injection Hm as -> Hm. destruct (tagFrom_first _ patches 0 _ x r F ND) as (i & P & E0 & E1 & E2 & E3 & E4 & E5). cbn in E0. subst i.
    exists P, x. split; [exact E1|]. split; [exact E2|]. split; [exact E3|]. split; [exact E4|]. rewrite <- E5. rewrite <- Hm. apply combined_fold.
    rewrite E5, Forall_forall. intros z Hz. apply in_flat_map in Hz. destruct Hz as (Q & _ & Hz). apply withSlave_in in Hz. destruct Hz as [_ Hz]. congruence.
Qed.
