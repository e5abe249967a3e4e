(** Resolving chained constraint equations. *)
From Coq Require Import List Sorted Permutation Arith ZArith QArith Qcanon Bool Lia.
From Verif Require Import Base MPC_model MPC_spec MPC_proofs MPC_proofs2.
Import ListNotations.
Local Open Scope Z_scope.

Lemma slaves_nth st k : (k < length st)%nat -> nth_error (slaves st) k = Some (dkey (mslave (nthM st k))).
Proof. intros H. unfold slaves, nthM. rewrite nth_error_map. rewrite (nth_error_nth' st (mkMPC (mkD 0 0 0 None) []) H). reflexivity. Qed.
Lemma findSlave_some st n d j : findSlave st n d = Some j -> (j < length st)%nat /\ dkey (mslave (nthM st j)) = (n, d).
Proof.
  revert j. induction st as [|x st IH]; intros j; cbn; [discriminate|]. destruct (_ && _) eqn:E.
  - intros [= <-]. apply andb_true_iff in E. destruct E as [E1 E2]. split; [lia|]. unfold nthM, dkey. cbn. f_equal; lia.
  - destruct (findSlave st n d) as [i|]; [|discriminate]. intros [= <-]. destruct (IH i eq_refl) as [A B]. split; [cbn; lia|exact B].
Qed.
Lemma findSlave_none st n d : findSlave st n d = None <-> ~ In (n, d) (slaves st).
Proof.
  induction st as [|x st IH]; cbn; [tauto|]. destruct (_ && _) eqn:E.
  - apply andb_true_iff in E. destruct E as [E1 E2]. split; [discriminate|]. intros H. exfalso. apply H. left. unfold dkey. f_equal; lia.
  - destruct (findSlave st n d) as [i|]; cbn; split; try discriminate; try reflexivity.
    + intros H. exfalso. assert (Some i = None) by (apply IH; tauto). discriminate.
    + intros _ [Q|Q]; [|apply IH; auto]. unfold dkey in Q. injection Q as Q1 Q2. rewrite Q1, Q2, !Z.eqb_refl in E. discriminate.
Qed.
Lemma nthM_upd st k m j : (k < length st)%nat -> nthM (upd k m st) j = if (j =? k)%nat then m else nthM st j.
Proof. intros H. unfold nthM. rewrite upd_nth. destruct (Nat.eqb_spec j k); cbn [andb]; [|reflexivity]. destruct (Nat.ltb_spec k (length st)); [reflexivity|lia]. Qed.
Lemma slaves_upd st k m : (k < length st)%nat -> dkey (mslave m) = dkey (mslave (nthM st k)) -> slaves (upd k m st) = slaves st.
Proof.
  unfold slaves, nthM. revert k; induction st as [|x st IH]; intros [|k] H E; cbn in *; try lia; [f_equal; exact E|]. f_equal. apply IH; [lia|exact E].
Qed.
Lemma satisfies_nth u st : satisfies u st <-> forall j, (j < length st)%nat -> holds u (nthM st j).
Proof.
  unfold satisfies. rewrite Forall_forall. split.
  - intros H j Hj. apply H. apply nth_In. exact Hj.
  - intros H x Hx. apply (In_nth _ _ (mkMPC (mkD 0 0 0 None) [])) in Hx. destruct Hx as (j & Hj & <-). apply H. exact Hj.
Qed.

Section Resolve.
Variables (tol : Qc) (P : Qc -> Prop).
Hypothesis Padd : forall a b, P a -> P b -> P (a + b)%Qc.
Hypothesis Pmul : forall a b, P a -> P b -> P (a * b)%Qc.
Hypothesis Pneg : forall a, P a -> negligible tol a = true -> a = 0%Qc.
Variables (K : list (Z * Z)) (rank : Z * Z -> nat).
Hypothesis KND : NoDup K.

Definition rk (st : list mpc) (k : nat) : nat := rank (dkey (mslave (nthM st k))).
(** the invariant of the resolution *)
Definition Inv (st : list mpc) : Prop :=
  slaves st = K /\ Forall (coefs P) st /\
  (forall m d, In m st -> In d (map dkey (mmast m)) -> In d K -> (rank d < rank (dkey (mslave m)))%nat).
Definition freeEq (m : mpc) : Prop := forall d, In d (map dkey (mmast m)) -> ~ In d K.
Lemma Inv_len st : Inv st -> length st = length K.
Proof. intros (H & _). rewrite <- H. unfold slaves. rewrite map_length. reflexivity. Qed.
Lemma Inv_key st k : Inv st -> (k < length K)%nat -> nth_error K k = Some (dkey (mslave (nthM st k))).
Proof. intros H Hk. pose proof (Inv_len st H) as L. destruct H as (<- & _). apply slaves_nth. unfold slaves in Hk. rewrite map_length in Hk. exact Hk. Qed.
Lemma rk_same st st' k : Inv st -> Inv st' -> (k < length K)%nat -> rk st' k = rk st k.
Proof. intros H H' Hk. unfold rk. pose proof (Inv_key _ _ H Hk) as E. rewrite (Inv_key _ _ H' Hk) in E. assert (Q : dkey (mslave (nthM st' k)) = dkey (mslave (nthM st k))) by congruence. rewrite Q. reflexivity. Qed.

Lemma removeAt_form (f : dofT -> Qc) l i d : nth_error l i = Some d -> qs f l = (f d + qs f (removeAt i l))%Qc.
Proof.
  intros H. unfold removeAt. rewrite <- (firstn_skipn i l) at 1. rewrite !qs_app.
  assert (skipn i l = d :: skipn (S i) l) as ->.
  { revert i H. induction l as [|x l IH]; intros [|i] H; cbn in *; try discriminate; [congruence|]. apply IH. exact H. }
  rewrite qs_cons. ring.
Qed.
Lemma addScaled_form u c l : forall m, Forall (fun x => P (dcoef x)) l -> P c ->
  rhs u (fold_left (fun a x => addMaster tol (mkD (dnode x) (dldof x) (dcoef x * c)%Qc None) a) l m) =
  (rhs u m + c * qs (fun d => dcoef d * u (dkey d)) l)%Qc.
Proof.
  induction l as [|x l IH]; intros m F Hc; cbn [fold_left]; [rewrite qs_nil; ring|]. inversion F as [|? ? F1 F2]; subst.
  rewrite IH by auto. rewrite addMaster_form, qs_cons. cbn [dcoef]. unfold dkey at 1. cbn [dnode dldof]. fold (dkey x).
  destruct (negligible tol (dcoef x * c)%Qc) eqn:E; [|ring]. apply Pneg in E; [|apply Pmul; auto].
  replace (c * (dcoef x * u (dkey x) + qs (fun d => (dcoef d * u (dkey d))%Qc) l))%Qc with ((dcoef x * c) * u (dkey x) + c * qs (fun d => (dcoef d * u (dkey d))%Qc) l)%Qc by ring.
  rewrite E. ring.
Qed.
Lemma subst_form u m i c d : nth_error (mmast m) i = Some d -> coefs P m -> coefs P c ->
  rhs u (substMaster tol m i c) = (rhs u m + dcoef d * (rhs u c - u (dkey d)))%Qc.
Proof.
  intros E Hm Hc. unfold substMaster. rewrite E. rewrite addScaled_form; [|exact Hc|unfold coefs in Hm; rewrite Forall_forall in Hm; apply Hm; eapply nth_error_In; eauto].
  unfold rhs. cbn [mslave mmast dcoef]. rewrite (removeAt_form (fun d => dcoef d * u (dkey d))%Qc _ _ _ E). ring.
Qed.
Lemma addScaled_slave c l : forall m, mslave (fold_left (fun a x => addMaster tol (mkD (dnode x) (dldof x) (dcoef x * c)%Qc None) a) l m) = mslave m.
Proof. induction l as [|x l IH]; intros m; cbn [fold_left]; [reflexivity|]. rewrite IH. apply addMaster_slave. Qed.
Lemma subst_slave m i c : dkey (mslave (substMaster tol m i c)) = dkey (mslave m).
Proof. unfold substMaster. destruct (nth_error _ _); [|reflexivity]. rewrite addScaled_slave. reflexivity. Qed.
Lemma bump_keys_ext d l : exists e, map dkey (bumpMaster d l) = map dkey l ++ e /\ Forall (eq (dkey d)) e.
Proof. rewrite bump_keys. destruct (existsb _ l); [exists []; rewrite app_nil_r; auto|exists [dkey d]; auto]. Qed.
Lemma addScaled_keys c l : forall m, exists e,
  map dkey (mmast (fold_left (fun a x => addMaster tol (mkD (dnode x) (dldof x) (dcoef x * c)%Qc None) a) l m)) = map dkey (mmast m) ++ e /\
  Forall (fun k => In k (map dkey l)) e.
Proof.
  induction l as [|x l IH]; intros m; cbn [fold_left]; [exists []; rewrite app_nil_r; auto|].
  destruct (IH (addMaster tol (mkD (dnode x) (dldof x) (dcoef x * c)%Qc None) m)) as (e & E & F). rewrite E.
  assert (F' : Forall (fun k => In k (map dkey (x :: l))) e) by (eapply Forall_impl; [|exact F]; intros; right; auto).
  unfold addMaster. destruct (negligible _ _); [exists e; auto|]. cbn [mmast].
  destruct (bump_keys_ext (mkD (dnode x) (dldof x) (dcoef x * c)%Qc None) (mmast m)) as (e1 & E1 & F1). rewrite E1, <- app_assoc. exists (e1 ++ e). split; [reflexivity|].
  apply Forall_app. split; [|exact F']. eapply Forall_impl; [|exact F1]. intros k <-. left. reflexivity.
Qed.
Lemma removeAt_map {X Y} (f : X -> Y) i l : map f (removeAt i l) = removeAt i (map f l).
Proof. unfold removeAt. rewrite map_app, firstn_map, skipn_map. reflexivity. Qed.
Lemma subst_keys m i c d : nth_error (mmast m) i = Some d -> exists e,
  map dkey (mmast (substMaster tol m i c)) = removeAt i (map dkey (mmast m)) ++ e /\ Forall (fun k => In k (map dkey (mmast c))) e.
Proof.
  intros E. unfold substMaster. rewrite E. match goal with |- context [fold_left _ _ ?m1] => destruct (addScaled_keys (dcoef d) (mmast c) m1) as (e & H & F) end.
  exists e. split; [|exact F]. rewrite H. cbn [mmast]. rewrite removeAt_map. reflexivity.
Qed.
Lemma bump_coefs d l : P (dcoef d) -> Forall (fun x => P (dcoef x)) l -> Forall (fun x => P (dcoef x)) (bumpMaster d l).
Proof. intros Hd. induction 1 as [|x l Hx Hl IH]; cbn; [auto|]. destruct (sameDof x d); constructor; auto. cbn. auto. Qed.
Lemma subst_coefs m i c : coefs P m -> coefs P c -> coefs P (substMaster tol m i c).
Proof.
  intros Hm Hc. unfold substMaster. destruct (nth_error (mmast m) i) as [d|] eqn:E; [|exact Hm].
  assert (Hd : P (dcoef d)) by (unfold coefs in Hm; rewrite Forall_forall in Hm; apply Hm; eapply nth_error_In; eauto).
  match goal with |- coefs P (fold_left _ _ ?m1) => assert (H1 : coefs P m1); [|generalize dependent m1] end.
  { unfold coefs in *. cbn [mmast]. unfold removeAt. rewrite Forall_forall in *. intros x Hx. apply Hm. apply in_app_iff in Hx. destruct Hx as [Hx|Hx].
    - rewrite <- (firstn_skipn i (mmast m)). apply in_app_iff. auto.
    - rewrite <- (firstn_skipn (S i) (mmast m)). apply in_app_iff. auto. }
  unfold coefs in Hc. induction Hc as [|x l Hx Hl IH]; intros m1 H1; cbn [fold_left]; [exact H1|]. apply IH. unfold addMaster. destruct (negligible _ _); [exact H1|].
  unfold coefs in *. cbn [mmast]. apply bump_coefs; [cbn; auto|exact H1].
Qed.

Lemma removeAt_in {X} i (l : list X) x : In x (removeAt i l) -> In x l.
Proof.
  unfold removeAt. rewrite in_app_iff. intros [H|H]; [rewrite <- (firstn_skipn i l)|rewrite <- (firstn_skipn (S i) l)]; apply in_app_iff; auto.
Qed.
(** one substitution keeps the invariant and the solution set *)
Lemma subst_step st k i j d : Inv st -> (k < length K)%nat -> (j < length K)%nat -> (rk st j < rk st k)%nat ->
  nth_error (mmast (nthM st k)) i = Some d -> dkey (mslave (nthM st j)) = dkey d -> 
  Inv (upd k (substMaster tol (nthM st k) i (nthM st j)) st) /\
  (forall u, satisfies u (upd k (substMaster tol (nthM st k) i (nthM st j)) st) <-> satisfies u st).
Proof.
  intros H Hk Hj Hr E Ed. pose proof (Inv_len st H) as L. assert (Hjk : j <> k) by (intros ->; lia).
  destruct H as (H1 & H2 & H3).
  assert (Cf : forall x, (x < length st)%nat -> coefs P (nthM st x)) by (intros x Hx; rewrite Forall_forall in H2; apply H2, nth_In; exact Hx).
  split.
  - split; [rewrite slaves_upd; [exact H1|lia|apply subst_slave]|]. split.
    + rewrite Forall_forall. intros m Hm. apply (In_nth _ _ (mkMPC (mkD 0 0 0 None) [])) in Hm. destruct Hm as (x & Hx & <-). rewrite upd_length in Hx.
      change (coefs P (nthM (upd k (substMaster tol (nthM st k) i (nthM st j)) st) x)). rewrite nthM_upd by lia. destruct (x =? k)%nat; [apply subst_coefs; apply Cf; lia|apply Cf; exact Hx].
    + intros m e Hm He HK. apply (In_nth _ _ (mkMPC (mkD 0 0 0 None) [])) in Hm. destruct Hm as (x & Hx & Em). rewrite upd_length in Hx.
      change (nthM (upd k (substMaster tol (nthM st k) i (nthM st j)) st) x = m) in Em. rewrite nthM_upd in Em by lia. destruct (Nat.eqb_spec x k) as [->|N].
      * subst m. rewrite subst_slave. destruct (subst_keys (nthM st k) i (nthM st j) d E) as (ex & Ek & Fk). rewrite Ek, in_app_iff in He. destruct He as [He|He].
        { apply (H3 (nthM st k)); [apply nth_In; exact Hx|eapply removeAt_in; exact He|exact HK]. }
        { rewrite Forall_forall in Fk. apply Fk in He. assert (rank e < rk st j)%nat; [|unfold rk in *; lia].
          apply (H3 (nthM st j)); [apply nth_In; lia|exact He|exact HK]. }
      * subst m. apply (H3 (nthM st x)); [apply nth_In; exact Hx|exact He|exact HK].
  - intros u. rewrite !satisfies_nth, upd_length.
    assert (Q : holds u (nthM st j) -> (holds u (substMaster tol (nthM st k) i (nthM st j)) <-> holds u (nthM st k))).
    { intros Hh. unfold holds. rewrite subst_slave. rewrite (subst_form u _ _ _ d E) by (apply Cf; lia). unfold holds in Hh. rewrite Ed in Hh. rewrite <- Hh.
      replace (rhs u (nthM st k) + dcoef d * (u (dkey d) - u (dkey d)))%Qc with (rhs u (nthM st k)) by ring. reflexivity. }
    assert (Ej : nthM (upd k (substMaster tol (nthM st k) i (nthM st j)) st) j = nthM st j).
    { rewrite nthM_upd by lia. destruct (Nat.eqb_spec j k); [contradiction|reflexivity]. }
    split; intros Hs x Hx.
    + destruct (Nat.eq_dec x k) as [->|N].
      * apply Q; [rewrite <- Ej; apply Hs; lia|]. specialize (Hs k Hx). rewrite nthM_upd, Nat.eqb_refl in Hs by lia. exact Hs.
      * specialize (Hs x Hx). rewrite nthM_upd in Hs by lia. destruct (Nat.eqb_spec x k); [contradiction|exact Hs].
    + rewrite nthM_upd by lia. destruct (Nat.eqb_spec x k) as [->|N]; [apply Q; apply Hs; lia|apply Hs; exact Hx].
Qed.

(** the result of resolving equation [k] *)
Definition Res (st : list mpc) (k : nat) (st' : list mpc) : Prop :=
  Inv st' /\ (forall u, satisfies u st' <-> satisfies u st) /\ freeEq (nthM st' k) /\
  (forall j, (j < length K)%nat -> (rk st k <= rk st j)%nat -> j <> k -> nthM st' j = nthM st j) /\
  (forall j, (j < length K)%nat -> freeEq (nthM st j) -> nthM st' j = nthM st j).
Definition inKb (d : Z * Z) : bool := existsb (keyEqb d) K.
Lemma inKb_spec d : inKb d = true <-> In d K.
Proof. unfold inKb. rewrite existsb_exists. split; [intros (x & Hx & E); apply keyEqb_spec in E; subst; exact Hx|intros H; exists d; split; [exact H|apply keyEqb_refl]]. Qed.
Definition cntK (l : list (Z * Z)) : nat := length (filter inKb l).
Lemma skipn_nth {X} i (l : list X) x : nth_error l i = Some x -> skipn i l = x :: skipn (S i) l.
Proof. revert i. induction l as [|y l IH]; intros [|i] H; cbn in *; try discriminate; [congruence|apply IH; exact H]. Qed.
Lemma resolve_Sfuel f st k i : resolve tol (S f) st k i =
    match nth_error (mmast (nthM st k)) i with
    | None => Some (false, st)
    | Some d =>
      match findSlave st (dnode d) (dldof d) with
      | None => resolve tol f st k (S i)
      | Some j =>
        match resolve tol f st j 0 with
        | None => None
        | Some (_, st1) =>
          match resolve tol f (upd k (substMaster tol (nthM st1 k) i (nthM st1 j)) st1) k i with
          | None => None
          | Some (_, st2) => Some (true, st2)
          end
        end
      end
    end.
Proof. reflexivity. Qed.
Lemma resolve_ok : forall R st k, Inv st -> (k < length K)%nat -> rk st k = R ->
  exists n0 b st', Res st k st' /\ forall fuel, (n0 <= fuel)%nat -> resolve tol fuel st k 0 = Some (b, st').
Proof.
  induction R as [R IHR] using lt_wf_ind.
  assert (Loop : forall c w st k i, Inv st -> (k < length K)%nat -> rk st k = R ->
     (forall d, In d (firstn i (map dkey (mmast (nthM st k)))) -> ~ In d K) ->
     cntK (skipn i (map dkey (mmast (nthM st k)))) = c -> (length (mmast (nthM st k)) - i = w)%nat ->
     exists n0 b st', Res st k st' /\ forall fuel, (n0 <= fuel)%nat -> resolve tol fuel st k i = Some (b, st')).
  { induction c as [c IHc] using lt_wf_ind. induction w as [w IHw] using lt_wf_ind. intros st k i HI Hk Hr Hf Hc Hw.
    destruct (nth_error (mmast (nthM st k)) i) as [d|] eqn:En.
    - assert (Enk : nth_error (map dkey (mmast (nthM st k))) i = Some (dkey d)) by (rewrite nth_error_map, En; reflexivity).
      pose proof (skipn_nth _ _ _ Enk) as Sk. pose proof (Inv_len st HI) as L.
      assert (Hi : (i < length (mmast (nthM st k)))%nat) by (apply nth_error_Some; congruence).
      destruct (findSlave st (dnode d) (dldof d)) as [j|] eqn:Ef.
      + destruct (findSlave_some _ _ _ _ Ef) as [Hj Ej]. rewrite L in Hj. change (dnode d, dldof d) with (dkey d) in Ej.
        assert (HdK : In (dkey d) K).
        { rewrite <- Ej. pose proof (Inv_key st j HI Hj) as Q. eapply nth_error_In; exact Q. }
        assert (Hrj : (rk st j < rk st k)%nat).
        { unfold rk. rewrite Ej. destruct HI as (_ & _ & H3). apply (H3 (nthM st k)); [apply nth_In; lia|apply (nth_error_In _ i); exact Enk|exact HdK]. }
        destruct (IHR (rk st j)) with (st := st) (k := j) as (n1 & b1 & st1 & (I1 & S1 & F1 & U1 & G1) & T1); [lia|exact HI|exact Hj|reflexivity|].
        assert (Ek1 : nthM st1 k = nthM st k) by (apply U1; [exact Hk|lia|intros ->; lia]).
        assert (Er1 : rk st1 k = R) by (rewrite (rk_same st st1 k HI I1 Hk); exact Hr).
        assert (Ej1 : dkey (mslave (nthM st1 j)) = dkey d).
        { pose proof (Inv_key st j HI Hj) as Q1. rewrite (Inv_key st1 j I1 Hj) in Q1. congruence. }
        assert (Hrj1 : (rk st1 j < rk st1 k)%nat) by (rewrite !(rk_same st st1) by auto; exact Hrj).
        pose proof (Inv_len st1 I1) as L1.
        destruct (subst_step st1 k i j d I1 Hk Hj Hrj1) as (I2 & S2); [rewrite Ek1; exact En|exact Ej1|].
        set (st2 := upd k (substMaster tol (nthM st1 k) i (nthM st1 j)) st1) in *.
        assert (E2 : nthM st2 k = substMaster tol (nthM st1 k) i (nthM st1 j)) by (unfold st2; rewrite nthM_upd, Nat.eqb_refl by lia; reflexivity).
        destruct (subst_keys (nthM st1 k) i (nthM st1 j) d) as (e & Ke & Fe); [rewrite Ek1; exact En|].
        assert (Ke' : map dkey (mmast (nthM st2 k)) = firstn i (map dkey (mmast (nthM st k))) ++ (skipn (S i) (map dkey (mmast (nthM st k))) ++ e)).
        { rewrite E2, Ke, Ek1. unfold removeAt. rewrite <- app_assoc. reflexivity. }
        assert (Li : length (firstn i (map dkey (mmast (nthM st k)))) = i) by (rewrite firstn_length, map_length; lia).
        assert (Ec : cntK e = 0%nat).
        { unfold cntK. destruct (filter inKb e) as [|z r] eqn:Fz; [reflexivity|]. exfalso. assert (Hz : In z (filter inKb e)) by (rewrite Fz; left; reflexivity).
          apply filter_In in Hz. destruct Hz as [Hz1 Hz2]. apply inKb_spec in Hz2. rewrite Forall_forall in Fe. apply Fe in Hz1. exact (F1 z Hz1 Hz2). }
        destruct (IHc (cntK (skipn i (map dkey (mmast (nthM st2 k)))))) with (w := (length (mmast (nthM st2 k)) - i)%nat) (st := st2) (k := k) (i := i)
          as (n2 & b2 & st3 & (I3 & S3 & F3 & U3 & G3) & T3).
        * rewrite Ke', skipn_app, Li, Nat.sub_diag, skipn_all2 by lia. cbn [app skipn]. unfold cntK in *. rewrite filter_app, app_length, Ec, <- Hc, Sk.
          cbn [filter]. rewrite (proj2 (inKb_spec _) HdK). cbn. lia.
        * exact I2.
        * exact Hk.
        * rewrite (rk_same st st2) by auto. exact Hr.
        * intros x Hx. rewrite Ke', firstn_app, Li, Nat.sub_diag, app_nil_r, firstn_all2 in Hx by lia. apply Hf. exact Hx.
        * reflexivity.
        * reflexivity.
        * exists (S (n1 + n2)), true, st3. split.
          { split; [exact I3|]. split; [intros u; rewrite S3, S2, S1; reflexivity|]. split; [exact F3|]. split.
            - intros x Hx Hrx Nx. rewrite U3 by (auto; rewrite !(rk_same st st2) by auto; exact Hrx). unfold st2. rewrite nthM_upd by lia.
              destruct (Nat.eqb_spec x k); [contradiction|]. apply U1; auto; [lia|]. intros ->. lia.
            - intros x Hx Fx. assert (Nx : x <> k) by (intros ->; apply (Fx (dkey d)); [apply (nth_error_In _ i); exact Enk|exact HdK]).
              assert (Ex : nthM st2 x = nthM st1 x) by (unfold st2; rewrite nthM_upd by lia; destruct (Nat.eqb_spec x k); [contradiction|reflexivity]).
              rewrite G3; [rewrite Ex; apply G1; auto|exact Hx|]. rewrite Ex, (G1 x Hx Fx). exact Fx. }
          { intros fuel Hfu. destruct fuel as [|f]; [lia|]. rewrite resolve_Sfuel, En, Ef, T1 by lia. fold st2. rewrite T3 by lia. reflexivity. }
      + assert (HdK : ~ In (dkey d) K) by (destruct HI as (<- & _); apply findSlave_none; exact Ef).
        destruct (IHw (length (mmast (nthM st k)) - S i)%nat) with (st := st) (k := k) (i := S i) as (n1 & b1 & st1 & RS & T1); [lia|exact HI|exact Hk|exact Hr| | |reflexivity|].
        * intros x Hx. assert (Q : firstn (S i) (map dkey (mmast (nthM st k))) = firstn i (map dkey (mmast (nthM st k))) ++ [dkey d]).
          { clear - Enk. revert i Enk. generalize (map dkey (mmast (nthM st k))). induction l as [|y l IH]; intros [|i] H; cbn in *; try discriminate; [congruence|]. f_equal. apply IH. exact H. }
          rewrite Q, in_app_iff in Hx. destruct Hx as [Hx|[<-|[]]]; [apply Hf; exact Hx|exact HdK].
        * rewrite <- Hc, Sk. unfold cntK. cbn [filter]. destruct (inKb (dkey d)) eqn:Eb; [apply inKb_spec in Eb; contradiction|reflexivity].
        * exists (S n1), b1, st1. split; [exact RS|]. intros fuel Hfu. destruct fuel as [|f]; [lia|]. rewrite resolve_Sfuel, En, Ef. apply T1. lia.
    - exists 1%nat, false, st. split.
      + split; [exact HI|]. split; [reflexivity|]. split; [|split; auto]. intros x Hx. apply Hf. rewrite firstn_all2; [exact Hx|]. rewrite map_length. apply nth_error_None. exact En.
      + intros fuel Hfu. destruct fuel as [|f]; [lia|]. rewrite resolve_Sfuel, En. reflexivity. }
  intros st k HI Hk Hr. eapply Loop with (i := O); try reflexivity; auto.
Qed.
Lemma resolveAll_ok : forall ks st, Inv st -> Forall (fun k => (k < length K)%nat) ks ->
  exists n0 c st', Inv st' /\ (forall u, satisfies u st' <-> satisfies u st) /\ Forall (fun k => freeEq (nthM st' k)) ks /\
    (forall j, (j < length K)%nat -> freeEq (nthM st j) -> nthM st' j = nthM st j) /\
    forall fuel, (n0 <= fuel)%nat -> resolveAll tol fuel ks st = Some (c, st').
Proof.
  induction ks as [|k ks IH]; intros st HI F.
  - exists 0%nat, 0%nat, st. split; [exact HI|]. split; [reflexivity|]. split; [constructor|]. split; [auto|]. reflexivity.
  - inversion F as [|? ? F1 F2]; subst. destruct (resolve_ok _ st k HI F1 eq_refl) as (n1 & b & st1 & (I1 & S1 & G1 & U1 & V1) & T1).
    destruct (IH st1 I1 F2) as (n2 & c & st2 & I2 & S2 & G2 & V2 & T2).
    exists (n1 + n2)%nat, (if b then S c else c), st2. split; [exact I2|]. split; [intros u; rewrite S2; apply S1|]. split; [constructor; [rewrite V2; auto|exact G2]|]. split.
    + intros j Hj Hf. rewrite V2; [apply V1; auto|exact Hj|]. rewrite V1; auto.
    + intros fuel Hfu. cbn [resolveAll]. rewrite T1, T2 by lia. reflexivity.
Qed.
End Resolve.

Lemma resolveAll_spec tol (P : Qc -> Prop) ks st :
  (forall a b, P a -> P b -> P (a + b)%Qc) -> (forall a b, P a -> P b -> P (a * b)%Qc) -> (forall a, P a -> negligible tol a = true -> a = 0%Qc) ->
  NoDup (slaves st) -> acyclic st -> Forall (coefs P) st -> (forall k, In k ks <-> (k < length st)%nat) ->
  exists n0 c st', (forall fuel, (n0 <= fuel)%nat -> resolveAll tol fuel ks st = Some (c, st')) /\
    slaves st' = slaves st /\ (forall u, satisfies u st' <-> satisfies u st) /\
    (forall m d, In m st' -> In d (mmast m) -> ~ In (dkey d) (slaves st)) /\
    (forall j m, nth_error st j = Some m -> (forall d, In d (mmast m) -> ~ In (dkey d) (slaves st)) -> nth_error st' j = Some m).
Proof.
  intros Pa Pm Pn ND (rank & Hr) HC Hks.
  assert (LK : length (slaves st) = length st) by (unfold slaves; apply map_length).
  assert (HI : Inv P (slaves st) rank st).
  { split; [reflexivity|]. split; [exact HC|]. intros m k Hm Hk HK. apply in_map_iff in Hk. destruct Hk as (d & <- & Hd). apply Hr; auto. }
  destruct (resolveAll_ok tol P Pa Pm Pn (slaves st) rank ND ks st HI) as (n0 & c & st' & I' & S' & G' & V' & T').
  { rewrite Forall_forall. intros k Hk. apply Hks in Hk. lia. }
  exists n0, c, st'. split; [exact T'|]. pose proof (Inv_len _ _ _ _ I') as L'. destruct I' as (E' & _ & _). split; [exact E'|]. split; [exact S'|]. split.
  - intros m d Hm Hd. apply (In_nth _ _ (mkMPC (mkD 0 0 0 None) [])) in Hm. destruct Hm as (j & Hj & <-). rewrite Forall_forall in G'.
    assert (Hjs : In j ks) by (apply Hks; lia). apply (G' j Hjs (dkey d)). apply in_map. exact Hd.
  - intros j m Em Hf. assert (Hj : (j < length st)%nat) by (apply nth_error_Some; congruence).
    assert (En : nthM st j = m) by (unfold nthM; erewrite nth_error_nth; [reflexivity|exact Em]).
    rewrite (nth_error_nth' st' (mkMPC (mkD 0 0 0 None) [])) by lia. f_equal. change (nthM st' j = m). rewrite V'; [exact En|lia|].
    rewrite En. intros k Hk. apply in_map_iff in Hk. destruct Hk as (d & <- & Hd). apply Hf. exact Hd.
Qed.
(** the two coefficient classes *)
Lemma zero_tol_neg a : negligible 0 a = true -> a = 0%Qc.
Proof. intros H. apply negligible_spec in H. destruct H as [A B]. apply Qcle_antisym; [exact B|]. replace (- 0)%Qc with 0%Qc in A by (apply Qc_is_canon; reflexivity). exact A. Qed.
Lemma isInt_add a b : isInt a -> isInt b -> isInt (a + b)%Qc.
Proof.
  intros (x & ->) (y & ->). exists (x + y). unfold Qcplus, Q2Qc. apply Qc_is_canon. cbn [this]. rewrite !Qred_correct.
  unfold inject_Z, Qplus, Qeq. cbn. lia.
Qed.
Lemma isInt_mul a b : isInt a -> isInt b -> isInt (a * b)%Qc.
Proof.
  intros (x & ->) (y & ->). exists (x * y). unfold Qcmult, Q2Qc. apply Qc_is_canon. cbn [this]. rewrite !Qred_correct.
  unfold inject_Z, Qmult, Qeq. cbn. lia.
Qed.
Lemma isInt_neg a : isInt a -> negligible tol8 a = true -> a = 0%Qc.
Proof.
  intros (x & ->) H. apply negligible_spec in H. destruct H as [A B]. unfold Qcle, Qcopp, tol8, Q2Qc in A, B. cbn [this] in A, B.
  rewrite !Qred_correct in B. rewrite !Qred_correct in A. unfold Qle in A, B. cbn in A, B. assert (x = 0) by lia. subst x. apply Qc_is_canon. reflexivity.
Qed.
