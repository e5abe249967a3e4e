(** Linking chained constraint equations (pointer mode of the chain resolution). *)
From Coq Require Import List Sorted Permutation Arith ZArith QArith Qcanon Bool Lia.
From Verif Require Import Base MPC_model MPC_spec MPC_proofs MPC_proofs2 MPC_proofs3.
Import ListNotations.
Local Open Scope Z_scope.

Section Link.
Variables (fixedDof : Z -> Z -> bool) (K : list (Z * Z)) (rank : Z * Z -> nat).
Hypothesis KND : NoDup K.
Notation isFx k := (fixedDof (fst k) (snd k)).

Definition InvL (st : list mpc) : Prop :=
  slaves st = K /\
  (forall m d, In m st -> In d (map dkey (mmast m)) -> In d K -> (rank d < rank (dkey (mslave m)))%nat) /\
  (forall m d j, In m st -> In d (mmast m) -> dnext d = Some j -> nth_error K j = Some (dkey d)).
Lemma InvL_len st : InvL st -> length st = length K.
Proof. intros (H & _). rewrite <- H. unfold slaves. rewrite map_length. reflexivity. Qed.
Lemma InvL_key st k : InvL st -> (k < length K)%nat -> nth_error K k = Some (dkey (mslave (nthM st k))).
Proof. intros H Hk. pose proof (InvL_len st H) as L. destruct H as (<- & _). apply slaves_nth. unfold slaves in Hk. rewrite map_length in Hk. exact Hk. Qed.
Lemma rkL_same st st' k : InvL st -> InvL st' -> (k < length K)%nat -> rk rank st' k = rk rank st k.
Proof.
  intros H H' Hk. unfold rk. pose proof (InvL_key _ _ H Hk) as E. rewrite (InvL_key _ _ H' Hk) in E.
  assert (Q : dkey (mslave (nthM st' k)) = dkey (mslave (nthM st k))) by congruence. rewrite Q. reflexivity.
Qed.

(** equation [k] and all equations it is chained to are completely linked *)
Inductive Done (st : list mpc) : nat -> Prop :=
| Done_i k :
  (forall d, In d (mmast (nthM st k)) -> isFx (dkey d) = false /\ 0 < dldof d) ->
  (forall d, In d (mmast (nthM st k)) -> dnext d = None -> ~ In (dkey d) K) ->
  (forall d j, In d (mmast (nthM st k)) -> dnext d = Some j -> nth_error K j = Some (dkey d) /\ linked (nthM st j) = true) ->
  (forall d j, In d (mmast (nthM st k)) -> dnext d = Some j -> Done st j) ->
  Done st k.
Lemma Done_keep st st' k : Done st k -> (forall j, Done st j -> nthM st' j = nthM st j) -> Done st' k.
Proof.
  intros D H. induction D as [k A B C D IH].
  assert (E : nthM st' k = nthM st k) by (apply H; constructor; auto).
  constructor; rewrite E; auto. intros d j Hd Hj. destruct (C d j Hd Hj) as [C1 C2]. split; [exact C1|]. rewrite H; [exact C2|]. eapply D; eauto.
Qed.

(** equations whose slave is not fixed *)
Definition satFree (u : field) (st : list mpc) : Prop :=
  forall j, (j < length K)%nat -> isFx (dkey (mslave (nthM st j))) = false -> holds u (nthM st j).
(** fields that vanish in fixed (and invalid) DOFs *)
Definition zeroFx (u : field) : Prop := forall n d, fixedDof n d = true \/ d <= 0 -> u (n, d) = 0%Qc.

Definition ResL (st : list mpc) (k : nat) (b : bool) (st' : list mpc) : Prop :=
  InvL st' /\ (forall u, zeroFx u -> (satFree u st' <-> satFree u st)) /\ Done st' k /\ b = linked (nthM st' k) /\
  (forall j, (j < length K)%nat -> (rk rank st k <= rk rank st j)%nat -> j <> k -> nthM st' j = nthM st j) /\
  (forall j, (j < length K)%nat -> Done st j -> nthM st' j = nthM st j) /\
  (forall j, (j < length K)%nat -> mslave (nthM st' j) = mslave (nthM st j)).

Lemma resolveLnk_S f st k i : resolveLnk fixedDof (S f) st k i =
    match nth_error (mmast (nthM st k)) i with
    | None => Some (linked (nthM st k), st)
    | Some d =>
      if fixedDof (dnode d) (dldof d) || (dldof d <=? 0) then
        resolveLnk fixedDof f (upd k (dropMaster i (nthM st k)) st) k i
      else
        match findSlave st (dnode d) (dldof d) with
        | None => resolveLnk fixedDof f st k (S i)
        | Some j =>
          match resolveLnk fixedDof f st j 0 with
          | None => None
          | Some (false, st1) => resolveLnk fixedDof f (upd k (dropMaster i (nthM st1 k)) st1) k i
          | Some (true, st1) => resolveLnk fixedDof f (upd k (setNext i j (nthM st1 k)) st1) k (S i)
          end
        end
    end.
Proof. reflexivity. Qed.

Lemma drop_form u m i d : nth_error (mmast m) i = Some d -> u (dkey d) = 0%Qc -> rhs u (dropMaster i m) = rhs u m.
Proof.
  intros E Z. unfold rhs, dropMaster. cbn [mslave mmast]. rewrite (removeAt_form (fun d => dcoef d * u (dkey d))%Qc _ _ _ E), Z. ring.
Qed.
Lemma upd_same {X} i (x d0 : X) l : (i < length l)%nat -> nth i l d0 = x -> upd i x l = l.
Proof. revert i. induction l as [|y l IH]; intros [|i] H E; cbn in *; try lia; [congruence|]. f_equal. apply IH; [lia|exact E]. Qed.
Lemma setNext_mast i j m d : nth_error (mmast m) i = Some d ->
  mmast (setNext i j m) = firstn i (mmast m) ++ mkD (dnode d) (dldof d) (dcoef d) (Some j) :: skipn (S i) (mmast m).
Proof.
  intros E. unfold setNext. rewrite E. cbn [mmast]. revert i E. generalize (mmast m). clear.
  induction l as [|x l IH]; intros [|i] E; cbn in *; try discriminate; [reflexivity|]. f_equal. apply IH. exact E.
Qed.
Lemma setNext_slave i j m : mslave (setNext i j m) = mslave m.
Proof. unfold setNext. destruct (nth_error _ _); reflexivity. Qed.
Lemma split_nth {X} i (l : list X) x : nth_error l i = Some x -> l = firstn i l ++ x :: skipn (S i) l.
Proof. revert i. induction l as [|y l IH]; intros [|i] E; cbn in *; try discriminate; [congruence|]. f_equal. apply IH. exact E. Qed.
Lemma setNext_keys i j m : map dkey (mmast (setNext i j m)) = map dkey (mmast m).
Proof.
  destruct (nth_error (mmast m) i) as [d|] eqn:E; [|unfold setNext; rewrite E; reflexivity].
  rewrite (setNext_mast _ _ _ _ E). rewrite (split_nth _ _ _ E) at 3. rewrite !map_app. reflexivity.
Qed.
Lemma setNext_form u i j m : rhs u (setNext i j m) = rhs u m.
Proof.
  unfold rhs. rewrite setNext_slave. f_equal. destruct (nth_error (mmast m) i) as [d|] eqn:E; [|unfold setNext; rewrite E; reflexivity].
  rewrite (setNext_mast _ _ _ _ E). rewrite (split_nth _ _ _ E) at 3. rewrite !qs_app, !qs_cons. reflexivity.
Qed.

(** replacing one equation by one with the same slave, its terms a subset *)
Lemma InvL_upd st k m : InvL st -> (k < length K)%nat -> mslave m = mslave (nthM st k) ->
  (forall d, In d (map dkey (mmast m)) -> In d (map dkey (mmast (nthM st k)))) ->
  (forall d j, In d (mmast m) -> dnext d = Some j -> nth_error K j = Some (dkey d)) -> InvL (upd k m st).
Proof.
  intros HI Hk Es Hs Hn. pose proof (InvL_len st HI) as L. destruct HI as (H1 & H2 & H3). 
  assert (X : forall m', In m' (upd k m st) -> m' = m \/ In m' st).
  { intros m' Hm'. apply (In_nth _ _ (mkMPC (mkD 0 0 0 None) [])) in Hm'. destruct Hm' as (x & Hx & <-). rewrite upd_length in Hx.
    rewrite upd_nth. destruct (_ && _); [left; reflexivity|right; apply nth_In; exact Hx]. }
  split; [rewrite slaves_upd; [exact H1|lia|rewrite Es; reflexivity]|]. split.
  - intros m' d Hm' Hd HK. apply X in Hm'. destruct Hm' as [-> | Hm']; [|eapply H2; eauto]. rewrite Es. apply H2; [apply nth_In; lia|apply Hs; exact Hd|exact HK].
  - intros m' d j Hm' Hd Hj. apply X in Hm'. destruct Hm' as [-> | Hm']; [apply Hn; auto|eapply H3; eauto].
Qed.
Lemma sat_upd u st k m : InvL st -> (k < length K)%nat -> dkey (mslave m) = dkey (mslave (nthM st k)) ->
  (holds u m <-> holds u (nthM st k)) -> (satFree u (upd k m st) <-> satFree u st).
Proof.
  intros HI Hk Es Hh. pose proof (InvL_len st HI) as L. unfold satFree.
  assert (E : forall j, nthM (upd k m st) j = if (j =? k)%nat then m else nthM st j) by (intros j; apply nthM_upd; lia).
  split; intros H x Hx Hf.
  - specialize (H x Hx). rewrite E in H. destruct (Nat.eqb_spec x k) as [e|N]; [subst x|auto]. apply Hh, H. rewrite Es. exact Hf.
  - rewrite E in *. destruct (Nat.eqb_spec x k) as [e|N]; [subst x|auto]. apply Hh, H; [exact Hk|]. rewrite <- Es. exact Hf.
Qed.
Lemma sat_upd_eq u st k m : InvL st -> (k < length K)%nat -> dkey (mslave m) = dkey (mslave (nthM st k)) ->
  (satFree u st \/ satFree u (upd k m st) -> (holds u m <-> holds u (nthM st k))) -> (satFree u (upd k m st) <-> satFree u st).
Proof.
  intros HI Hk Es Hh. pose proof (InvL_len st HI) as L. split; intros H; pose proof (Hh ltac:(tauto)) as Hh'; pose proof (sat_upd u st k m HI Hk Es Hh'); tauto.
Qed.
Lemma holds_drop u m i d : nth_error (mmast m) i = Some d -> u (dkey d) = 0%Qc -> (holds u (dropMaster i m) <-> holds u m).
Proof. intros E Z. unfold holds. rewrite (drop_form u m i d E Z). reflexivity. Qed.

Lemma link_ok : forall R st k, InvL st -> (k < length K)%nat -> rk rank st k = R ->
  exists n0 b st', ResL st k b st' /\ forall fuel, (n0 <= fuel)%nat -> resolveLnk fixedDof fuel st k 0 = Some (b, st').
Proof.
  induction R as [R IHR] using lt_wf_ind.
  assert (Loop : forall w st k i, InvL st -> (k < length K)%nat -> rk rank st k = R ->
     (forall d, In d (firstn i (mmast (nthM st k))) -> isFx (dkey d) = false /\ 0 < dldof d) ->
     (forall d, In d (firstn i (mmast (nthM st k))) -> dnext d = None -> ~ In (dkey d) K) ->
     (forall d j, In d (firstn i (mmast (nthM st k))) -> dnext d = Some j -> nth_error K j = Some (dkey d) /\ linked (nthM st j) = true) ->
     (forall d j, In d (firstn i (mmast (nthM st k))) -> dnext d = Some j -> Done st j) ->
     (length (mmast (nthM st k)) - i = w)%nat ->
     exists n0 b st', ResL st k b st' /\ forall fuel, (n0 <= fuel)%nat -> resolveLnk fixedDof fuel st k i = Some (b, st')).
  { induction w as [w IHw] using lt_wf_ind. intros st k i HI Hk Hr PA PB PC PD Hw. pose proof (InvL_len st HI) as L.
    destruct (nth_error (mmast (nthM st k)) i) as [d|] eqn:En.
    2:{ exists 1%nat, (linked (nthM st k)), st.
        assert (Hall : firstn i (mmast (nthM st k)) = mmast (nthM st k)) by (apply firstn_all2, nth_error_None; exact En).
        rewrite Hall in PA, PB, PC, PD. split.
        - split; [exact HI|]. split; [reflexivity|]. split; [constructor; auto|]. split; [reflexivity|]. split; [reflexivity|]. split; reflexivity.
        - intros fuel Hfu. destruct fuel as [|f]; [lia|]. rewrite resolveLnk_S, En. reflexivity. }
    assert (Hi : (i < length (mmast (nthM st k)))%nat) by (apply nth_error_Some; congruence).
    assert (Hin : In d (mmast (nthM st k))) by (eapply nth_error_In; eauto).
    assert (Lf : length (firstn i (mmast (nthM st k))) = i) by (rewrite firstn_length; lia).
    (* dropping master i of the state [st1] reached so far *)
    assert (Drop : forall st1 n1, InvL st1 -> (forall u, zeroFx u -> (satFree u st1 <-> satFree u st)) ->
        (forall u, zeroFx u -> satFree u st1 \/ satFree u (upd k (dropMaster i (nthM st1 k)) st1) -> u (dkey d) = 0%Qc) ->
        nthM st1 k = nthM st k -> (forall j, (j < length K)%nat -> (R <= rk rank st j)%nat -> j <> k -> nthM st1 j = nthM st j) ->
        (forall j, (j < length K)%nat -> Done st j -> nthM st1 j = nthM st j) -> (forall j, (j < length K)%nat -> mslave (nthM st1 j) = mslave (nthM st j)) ->
        (forall j, (j < length K)%nat -> Done st j -> j <> k) -> 
        (forall f n2 b2 st2, (n1 <= f)%nat -> (forall g, (n2 <= g)%nat -> resolveLnk fixedDof g (upd k (dropMaster i (nthM st1 k)) st1) k i = Some (b2, st2)) ->
            (n2 <= f)%nat -> resolveLnk fixedDof (S f) st k i = Some (b2, st2)) ->
        exists n0 b st', ResL st k b st' /\ forall fuel, (n0 <= fuel)%nat -> resolveLnk fixedDof fuel st k i = Some (b, st')).
    { intros st1 n1 I1 S1 Z1 Ek1 U1 V1 W1 NK T1. pose proof (InvL_len st1 I1) as L1.
      assert (En1 : nth_error (mmast (nthM st1 k)) i = Some d) by (rewrite Ek1; exact En).
      set (st2 := upd k (dropMaster i (nthM st1 k)) st1) in *.
      assert (E2 : nthM st2 k = dropMaster i (nthM st k)) by (unfold st2; rewrite nthM_upd, Nat.eqb_refl by lia; rewrite Ek1; reflexivity).
      assert (O2 : forall j, j <> k -> nthM st2 j = nthM st1 j).
      { intros j Nj. unfold st2. rewrite nthM_upd by lia. destruct (Nat.eqb_spec j k); [contradiction|reflexivity]. }
      assert (M2 : mmast (nthM st2 k) = firstn i (mmast (nthM st k)) ++ skipn (S i) (mmast (nthM st k))) by (rewrite E2; reflexivity).
      assert (F2 : firstn i (mmast (nthM st2 k)) = firstn i (mmast (nthM st k))).
      { rewrite M2, firstn_app, Lf, Nat.sub_diag, firstn_O, app_nil_r. apply firstn_all2. lia. }
      assert (I2 : InvL st2).
      { apply InvL_upd; auto.
        - intros x Hx. unfold dropMaster in Hx. cbn [mmast] in Hx. rewrite removeAt_map in Hx. eapply removeAt_in; eauto.
        - intros x j Hx Hj. unfold dropMaster in Hx. cbn [mmast] in Hx. apply removeAt_in in Hx. destruct I1 as (_ & _ & H3). eapply H3; eauto. apply nth_In; lia. }
      assert (S2 : forall u, zeroFx u -> (satFree u st2 <-> satFree u st)).
      { intros u Hu. rewrite <- S1 by exact Hu. apply sat_upd_eq; auto. intros Hs. apply (holds_drop u _ i d En1). apply Z1; auto. }
      assert (NKf : forall j, (j < length K)%nat -> Done st j -> nthM st2 j = nthM st j).
      { intros j Hj Dj. rewrite O2; [apply V1; auto|apply NK; auto]. }
      assert (Dlt : forall dd j, In dd (firstn i (mmast (nthM st k))) -> dnext dd = Some j -> (j < length K)%nat).
      { intros dd j Hd Hj. destruct (PC dd j Hd Hj) as [Q _]. apply nth_error_Some. congruence. }
      assert (Dk : forall j, (j < length K)%nat -> Done st j -> Done st2 j).
      { intros j Hj Dj. apply (Done_keep st); [exact Dj|]. intros j' Dj'. destruct (Nat.lt_ge_cases j' (length K)) as [H'|H']; [apply NKf; auto|].
        unfold nthM. rewrite !nth_overflow; auto; unfold st2; rewrite ?upd_length; lia. }
      destruct (IHw (length (mmast (nthM st2 k)) - i)%nat) with (st := st2) (k := k) (i := i) as (n2 & b2 & st3 & (I3 & S3 & D3 & B3 & U3 & V3 & W3) & T3); auto.
      - rewrite M2, app_length, Lf, skipn_length. lia.
      - rewrite (rkL_same st st2) by auto. exact Hr.
      - rewrite F2. exact PA.
      - rewrite F2. exact PB.
      - rewrite F2. intros x j Hx Hj. destruct (PC x j Hx Hj) as [Q1 Q2]. split; [exact Q1|]. rewrite NKf; eauto.
      - rewrite F2. intros x j Hx Hj. apply Dk; eauto.
      - exists (S (n1 + n2)), b2, st3. split.
        + split; [exact I3|]. split; [intros u Hu; rewrite S3 by exact Hu; apply S2; exact Hu|]. split; [exact D3|]. split; [exact B3|]. split; [|split].
          * intros j Hj Hrj Nj. rewrite U3 by (auto; rewrite !(rkL_same st st2) by auto; exact Hrj). rewrite O2 by exact Nj. apply U1; auto. lia.
          * intros j Hj Dj. rewrite V3 by auto. apply NKf; auto.
          * intros j Hj. rewrite W3 by exact Hj. destruct (Nat.eq_dec j k) as [->|Nj]; [rewrite E2; reflexivity|]. rewrite O2 by exact Nj. apply W1. exact Hj.
        + intros fuel Hfu. destruct fuel as [|f]; [lia|]. apply (T1 f n2); [lia|exact T3|lia]. }
    destruct (fixedDof (dnode d) (dldof d) || (dldof d <=? 0)) eqn:Ef.
    - apply (Drop st 0%nat); auto.
      + tauto.
      + intros u Hu _. unfold dkey. apply Hu. apply orb_true_iff in Ef. destruct Ef as [Ef|Ef]; [left; exact Ef|right; lia].
      + intros j Hj Dj ->. inversion Dj as [? A _ _ _]; subst. destruct (A d Hin) as [A1 A2]. apply orb_true_iff in Ef. cbn in A1. destruct Ef as [Ef|Ef]; [congruence|lia].
      + intros f n2 b2 st2 _ H2 Hf. rewrite resolveLnk_S, En, Ef. apply H2. exact Hf.
    - apply orb_false_iff in Ef. destruct Ef as [Ef1 Ef2]. apply Z.leb_gt in Ef2.
      destruct (findSlave st (dnode d) (dldof d)) as [j|] eqn:Efs.
      + destruct (findSlave_some _ _ _ _ Efs) as [Hj Ej]. rewrite L in Hj. change (dnode d, dldof d) with (dkey d) in Ej.
        assert (HjK : nth_error K j = Some (dkey d)) by (rewrite (InvL_key st j HI Hj), Ej; reflexivity).
        assert (HdK : In (dkey d) K) by (eapply nth_error_In; eauto).
        assert (Hrj : (rk rank st j < rk rank st k)%nat).
        { unfold rk. rewrite Ej. destruct HI as (_ & H2 & _). apply (H2 (nthM st k)); [apply nth_In; lia|apply in_map; exact Hin|exact HdK]. }
        destruct (IHR (rk rank st j)) with (st := st) (k := j) as (n1 & b1 & st1 & (I1 & S1 & D1 & B1 & U1 & V1 & W1) & T1); [lia|exact HI|exact Hj|reflexivity|].
        assert (Ek1 : nthM st1 k = nthM st k) by (apply U1; [exact Hk|lia|intros ->; lia]).
        pose proof (InvL_len st1 I1) as L1.
        assert (DkU : forall j', nth_error K j' = Some (dkey d) -> j' = j).
        { intros j' Hj'. rewrite NoDup_nth_error in KND. apply KND; [apply nth_error_Some; congruence|congruence]. }
        destruct b1.
        * (* chained: set the pointer *)
          assert (En1 : nth_error (mmast (nthM st1 k)) i = Some d) by (rewrite Ek1; exact En).
          set (st2 := upd k (setNext i j (nthM st1 k)) st1) in *.
          assert (E2 : nthM st2 k = setNext i j (nthM st k)) by (unfold st2; rewrite nthM_upd, Nat.eqb_refl by lia; rewrite Ek1; reflexivity).
          assert (O2 : forall j, j <> k -> nthM st2 j = nthM st1 j).
          { intros j' Nj. unfold st2. rewrite nthM_upd by lia. destruct (Nat.eqb_spec j' k); [contradiction|reflexivity]. }
          assert (M2 : mmast (nthM st2 k) = firstn i (mmast (nthM st k)) ++ mkD (dnode d) (dldof d) (dcoef d) (Some j) :: skipn (S i) (mmast (nthM st k))).
          { rewrite E2. apply setNext_mast. exact En. }
          assert (F2 : firstn (S i) (mmast (nthM st2 k)) = firstn i (mmast (nthM st k)) ++ [mkD (dnode d) (dldof d) (dcoef d) (Some j)]).
          { rewrite M2, firstn_app, Lf. replace (S i - i)%nat with 1%nat by lia. rewrite firstn_all2 by lia. reflexivity. }
          assert (I2 : InvL st2).
          { apply InvL_upd; auto.
            - apply setNext_slave.
            - intros x Hx. rewrite setNext_keys in Hx. exact Hx.
            - intros x j' Hx Hj'. rewrite (setNext_mast _ _ _ _ En1) in Hx. apply in_app_iff in Hx. destruct I1 as (_ & _ & H3).
              assert (Ink : In (nthM st1 k) st1) by (apply nth_In; lia).
              destruct Hx as [Hx|[<-|Hx]]; [apply (H3 (nthM st1 k)); auto| |apply (H3 (nthM st1 k)); auto].
              + rewrite (split_nth _ _ _ En1). apply in_app_iff. auto.
              + cbn [dnext] in Hj'. injection Hj' as <-. exact HjK.
              + rewrite (split_nth _ _ _ En1). apply in_app_iff. right; right; auto. }
          assert (S2 : forall u, zeroFx u -> (satFree u st2 <-> satFree u st)).
          { intros u Hu. rewrite <- S1 by exact Hu. apply sat_upd; auto; [rewrite setNext_slave; reflexivity|]. unfold holds. rewrite setNext_slave, setNext_form. reflexivity. }
          assert (V2 : forall j', (j' < length K)%nat -> Done st j' -> nthM st2 j' = nthM st j').
          { intros j' Hj' Dj'. destruct (Nat.eq_dec j' k) as [->|N]; [|rewrite O2 by exact N; apply V1; auto]. rewrite E2.
            inversion Dj' as [? A B C _]; subst.
            assert (Ed : dnext d = Some j).
            { destruct (dnext d) as [j2|] eqn:Edn; [|exfalso; exact (B d Hin Edn HdK)]. destruct (C d j2 Hin Edn) as [Q _]. f_equal. apply DkU. exact Q. }
            unfold setNext. rewrite En. destruct (nthM st k) as [sl ms] eqn:Em. cbn [mmast mslave] in *. f_equal. apply (upd_same i _ d); [exact Hi|].
            rewrite (nth_error_nth _ _ d En). destruct d; cbn in Ed |- *. congruence. }
          assert (Dk : forall j', (j' < length K)%nat -> Done st j' -> Done st2 j').
          { intros j' Hj' Dj'. apply (Done_keep st); [exact Dj'|]. intros j2 Dj2. destruct (Nat.lt_ge_cases j2 (length K)) as [H'|H']; [apply V2; auto|].
            unfold nthM. rewrite !nth_overflow; auto; unfold st2; rewrite ?upd_length; lia. }
          assert (Dj2 : Done st2 j).
          { (* [Done st1 j] and equation [k] has a larger rank, so it is not in the chain *)
            clear - KND D1 I1 I2 O2 Hrj HI L1 Hj Hk. assert (Hr1 : (rk rank st1 j < rk rank st1 k)%nat) by (rewrite !(rkL_same st st1) by auto; exact Hrj).
            clear Hrj. clearbody st2. revert Hr1 Hj. induction D1 as [j A B C D IH]; intros Hr1 Hj. assert (E : nthM st2 j = nthM st1 j) by (apply O2; intros ->; lia).
            assert (X : forall d j', In d (mmast (nthM st1 j)) -> dnext d = Some j' -> (j' < length K)%nat /\ (rk rank st1 j' < rk rank st1 k)%nat).
            { intros d j' Hd Hj'. destruct (C d j' Hd Hj') as [C1 _]. assert (Hl : (j' < length K)%nat) by (apply nth_error_Some; congruence). split; [exact Hl|].
              pose proof (InvL_key st1 j' I1 Hl) as Q. assert (Q2 : dkey d = dkey (mslave (nthM st1 j'))) by congruence.
              assert (rk rank st1 j' < rk rank st1 j)%nat; [|lia]. unfold rk. rewrite <- Q2. destruct I1 as (_ & H2 & _). apply (H2 (nthM st1 j)); [apply nth_In; lia|apply in_map; exact Hd|eapply nth_error_In; exact C1]. }
            constructor; rewrite E; auto.
            - intros d j' Hd Hj'. destruct (C d j' Hd Hj') as [C1 C2]. split; [exact C1|]. rewrite O2; [exact C2|]. intros ->. destruct (X d k Hd Hj'). lia.
            - intros d j' Hd Hj'. destruct (X d j' Hd Hj'). eapply IH; eauto. }
          destruct (IHw (length (mmast (nthM st2 k)) - S i)%nat) with (st := st2) (k := k) (i := S i) as (n2 & b2 & st3 & (I3 & S3 & D3 & B3 & U3 & V3 & W3) & T3); auto.
          -- rewrite M2, app_length, Lf. cbn [length]. rewrite skipn_length. lia.
          -- rewrite (rkL_same st st2) by auto. exact Hr.
          -- rewrite F2. intros x Hx. apply in_app_iff in Hx. destruct Hx as [Hx|[<-|[]]]; [apply PA; exact Hx|]. cbn. auto.
          -- rewrite F2. intros x Hx. apply in_app_iff in Hx. destruct Hx as [Hx|[<-|[]]]; [apply PB; exact Hx|]. cbn. discriminate.
          -- rewrite F2. intros x j' Hx Hj'. apply in_app_iff in Hx. destruct Hx as [Hx|[<-|[]]].
             ++ destruct (PC x j' Hx Hj') as [Q1 Q2]. split; [exact Q1|]. rewrite V2; [exact Q2|apply nth_error_Some; congruence|eauto].
             ++ cbn [dnext] in Hj'. injection Hj' as <-. split; [exact HjK|]. rewrite O2 by (intros ->; lia). symmetry. exact B1.
          -- rewrite F2. intros x j' Hx Hj'. apply in_app_iff in Hx. destruct Hx as [Hx|[<-|[]]].
             ++ apply Dk; [|eauto]. destruct (PC x j' Hx Hj') as [Q1 _]. apply nth_error_Some. congruence.
             ++ cbn [dnext] in Hj'. injection Hj' as <-. exact Dj2.
          -- exists (S (n1 + n2)), b2, st3. split.
             ++ split; [exact I3|]. split; [intros u Hu; rewrite S3 by exact Hu; apply S2; exact Hu|]. split; [exact D3|]. split; [exact B3|]. split; [|split].
                ** intros j' Hj' Hrj' Nj. rewrite U3 by (auto; rewrite !(rkL_same st st2) by auto; exact Hrj'). rewrite O2 by exact Nj. apply U1; auto; [lia|]. intros ->. lia.
                ** intros j' Hj' Dj'. rewrite V3 by auto. apply V2; auto.
                ** intros j' Hj'. rewrite W3 by exact Hj'. destruct (Nat.eq_dec j' k) as [->|Nj]; [rewrite E2; apply setNext_slave|]. rewrite O2 by exact Nj. apply W1. exact Hj'.
             ++ intros fuel Hfu. destruct fuel as [|f]; [lia|]. rewrite resolveLnk_S, En, Ef1. destruct (Z.leb_spec (dldof d) 0) as [Q|Q]; [lia|]. cbn [orb]. rewrite Efs, T1 by lia. fold st2. apply T3. lia.
        * (* the other equation says "slave = 0": drop the master *)
          apply (Drop st1 n1); auto.
          -- intros u Hu Hs. symmetry in B1. unfold linked in B1. apply orb_false_iff in B1. destruct B1 as [B1 B2]. apply negb_false_iff, Nat.eqb_eq in B1. apply negb_false_iff in B2.
             destruct (Qc_eq_dec (dcoef (mslave (nthM st1 j))) 0) as [B2'|]; [|discriminate].
             assert (Nj : j <> k) by (intros ->; lia).
             assert (Hh : isFx (dkey (mslave (nthM st1 j))) = false -> holds u (nthM st1 j)).
             { intros Hfx. destruct Hs as [Hs|Hs].
               - apply (Hs j Hj). exact Hfx.
               - specialize (Hs j Hj). rewrite nthM_upd in Hs by lia. destruct (Nat.eqb_spec j k) as [Ejk|_]; [contradiction|apply Hs; exact Hfx]. }
             assert (Ej1 : dkey (mslave (nthM st1 j)) = dkey d) by (rewrite W1 by exact Hj; exact Ej). rewrite Ej1 in Hh. cbn [dkey fst snd] in Hh.
             specialize (Hh Ef1). unfold holds in Hh. rewrite Ej1 in Hh. rewrite Hh. unfold rhs. rewrite B2'. destruct (mmast (nthM st1 j)); [|discriminate]. rewrite qs_nil. ring.
          -- intros j' Hj' Hrj' Nj. apply U1; auto; [lia|]. intros ->. lia.
          -- (* equation k cannot be done: its chain would be linked *)
             intros j' Hj' Dj' ->. inversion Dj' as [? A B C D]; subst. destruct (dnext d) as [j2|] eqn:Edn; [|exact (B d Hin Edn HdK)].
             destruct (C d j2 Hin Edn) as [Q1 Q2]. apply DkU in Q1. subst j2. rewrite <- (V1 j Hj (D d j Hin Edn)) in Q2. congruence.
          -- intros f n2 b2 st2 Hf1 H2 Hf2. rewrite resolveLnk_S, En, Ef1. destruct (Z.leb_spec (dldof d) 0) as [Q|Q]; [lia|]. cbn [orb]. rewrite Efs, T1 by lia. apply H2. exact Hf2.
      + (* free master *)
        assert (HdK : ~ In (dkey d) K) by (destruct HI as (<- & _); apply findSlave_none; exact Efs).
        assert (Edn : dnext d = None).
        { destruct (dnext d) as [j|] eqn:Edn; [|reflexivity]. exfalso. apply HdK. destruct HI as (_ & _ & H3). apply (nth_error_In _ j). apply (H3 (nthM st k)); auto. apply nth_In. lia. }
        assert (F1 : firstn (S i) (mmast (nthM st k)) = firstn i (mmast (nthM st k)) ++ [d]).
        { rewrite (split_nth _ _ _ En) at 1. rewrite firstn_app, Lf. replace (S i - i)%nat with 1%nat by lia. rewrite firstn_all2 by lia. reflexivity. }
        destruct (IHw (length (mmast (nthM st k)) - S i)%nat) with (st := st) (k := k) (i := S i) as (n1 & b1 & st1 & RS & T1); auto.
        * lia.
        * rewrite F1. intros x Hx. apply in_app_iff in Hx. destruct Hx as [Hx|[<-|[]]]; [apply PA; exact Hx|]. cbn. auto.
        * rewrite F1. intros x Hx. apply in_app_iff in Hx. destruct Hx as [Hx|[<-|[]]]; [apply PB; exact Hx|]. auto.
        * rewrite F1. intros x j Hx. apply in_app_iff in Hx. destruct Hx as [Hx|[<-|[]]]; [apply PC; exact Hx|]. congruence.
        * rewrite F1. intros x j Hx. apply in_app_iff in Hx. destruct Hx as [Hx|[<-|[]]]; [apply PD; exact Hx|]. congruence.
        * exists (S n1), b1, st1. split; [exact RS|]. intros fuel Hfu. destruct fuel as [|f]; [lia|]. rewrite resolveLnk_S, En, Ef1. destruct (Z.leb_spec (dldof d) 0) as [Q|Q]; [lia|]. cbn [orb]. rewrite Efs. apply T1. lia. }
  intros st k HI Hk Hr. eapply Loop with (i := O); auto; cbn [firstn]; intros; contradiction.
Qed.
Lemma linkAll_ok : forall ks st, InvL st -> Forall (fun k => (k < length K)%nat) ks ->
  exists n0 st', InvL st' /\ (forall u, zeroFx u -> (satFree u st' <-> satFree u st)) /\ Forall (Done st') ks /\
    (forall j, (j < length K)%nat -> Done st j -> nthM st' j = nthM st j) /\
    (forall j, (j < length K)%nat -> mslave (nthM st' j) = mslave (nthM st j)) /\
    forall fuel, (n0 <= fuel)%nat -> resolveLnkAll fixedDof fuel ks st = Some st'.
Proof.
  induction ks as [|k ks IH]; intros st HI F.
  - exists 0%nat, st. split; [exact HI|]. split; [reflexivity|]. split; [constructor|]. split; [auto|]. split; [auto|]. reflexivity.
  - inversion F as [|? ? F1 F2]; subst. destruct (link_ok _ st k HI F1 eq_refl) as (n1 & b & st1 & (I1 & S1 & D1 & B1 & U1 & V1 & W1) & T1).
    destruct (IH st1 I1 F2) as (n2 & st2 & I2 & S2 & D2 & V2 & W2 & T2).
    assert (Keep : forall j, Done st1 j -> nthM st2 j = nthM st1 j).
    { intros j Dj. destruct (Nat.lt_ge_cases j (length K)) as [H'|H']; [apply V2; auto|]. unfold nthM. pose proof (InvL_len _ I1). pose proof (InvL_len _ I2). rewrite !nth_overflow; auto; lia. }
    exists (n1 + n2)%nat, st2. split; [exact I2|]. split; [intros u Hu; rewrite S2 by exact Hu; apply S1; exact Hu|]. split; [constructor; [apply (Done_keep st1); auto|exact D2]|].
    split; [|split].
    + intros j Hj Dj. assert (Dj1 : Done st1 j).
      { apply (Done_keep st); [exact Dj|]. intros j2 Dj2. destruct (Nat.lt_ge_cases j2 (length K)) as [H'|H']; [apply V1; auto|]. unfold nthM. pose proof (InvL_len _ I1). pose proof (InvL_len _ HI). rewrite !nth_overflow; auto; lia. }
      rewrite Keep by exact Dj1. apply V1; auto.
    + intros j Hj. rewrite W2 by exact Hj. apply W1. exact Hj.
    + intros fuel Hfu. cbn [resolveLnkAll]. rewrite T1, T2 by lia. reflexivity.
Qed.
End Link.

Lemma linkAll_spec (fixedDof : Z -> Z -> bool) ks st :
  NoDup (slaves st) -> acyclic st -> (forall m d, In m st -> In d (mmast m) -> dnext d = None) -> (forall k, In k ks <-> (k < length st)%nat) ->
  exists n0 st', (forall fuel, (n0 <= fuel)%nat -> resolveLnkAll fixedDof fuel ks st = Some st') /\
    map mslave st' = map mslave st /\
    (forall u, (forall n d, fixedDof n d = true \/ d <= 0 -> u (n, d) = 0%Qc) ->
       ((forall m, In m st' -> fixedDof (dnode (mslave m)) (dldof (mslave m)) = false -> holds u m) <->
        (forall m, In m st -> fixedDof (dnode (mslave m)) (dldof (mslave m)) = false -> holds u m))) /\
    (forall m d, In m st' -> In d (mmast m) -> fixedDof (dnode d) (dldof d) = false /\ 0 < dldof d /\
       match dnext d with
       | None => ~ In (dkey d) (slaves st)
       | Some j => exists m', nth_error st' j = Some m' /\ dkey (mslave m') = dkey d /\
                     (mmast m' <> [] \/ dcoef (mslave m') <> 0%Qc)
       end).
Proof.
  intros ND (rank & AC) NX KS.
  assert (HI : InvL (slaves st) rank st).
  { split; [reflexivity|]. split.
    - intros m d Hm Hd HK. apply in_map_iff in Hd. destruct Hd as (x & <- & Hx). eapply AC; eauto.
    - intros m d j Hm Hd E. rewrite (NX m d Hm Hd) in E. discriminate. }
  assert (LK : length (slaves st) = length st) by (unfold slaves; apply map_length).
  assert (F : Forall (fun k => (k < length (slaves st))%nat) ks) by (apply Forall_forall; intros k Hk; rewrite LK; apply KS, Hk).
  destruct (linkAll_ok fixedDof (slaves st) rank ND ks st HI F) as (n0 & st' & I' & S' & D' & _ & W' & T').
  exists n0, st'. split; [exact T'|].
  assert (L' : length st' = length st) by (rewrite <- LK; apply (InvL_len _ rank); exact I').
  assert (NTH : forall l : list mpc, forall m, In m l <-> exists j, (j < length l)%nat /\ nthM l j = m).
  { intros l m. split; [intros H; destruct (In_nth _ _ (mkMPC (mkD 0 0 0 None) []) H) as (j & A & B); exists j; auto|]. intros (j & A & <-). apply nth_In. exact A. }
  split; [|split].
  - apply nth_ext with (d := mslave (mkMPC (mkD 0 0 0 None) [])) (d' := mslave (mkMPC (mkD 0 0 0 None) [])); rewrite !map_length; [exact L'|].
    intros j Hj. rewrite !map_nth. apply W'. lia.
  - assert (SF : forall u l, length l = length st -> ((forall m, In m l -> fixedDof (dnode (mslave m)) (dldof (mslave m)) = false -> holds u m) <-> satFree fixedDof (slaves st) u l)).
    { intros u l Ll. unfold satFree. rewrite LK. split.
      - intros H j Hj. apply H. apply NTH. exists j. split; [lia|reflexivity].
      - intros H m Hm. apply NTH in Hm. destruct Hm as (j & A & <-). apply H. lia. }
    intros u Hu. rewrite !SF by auto. apply S'. exact Hu.
  - intros m d Hm Hd. apply NTH in Hm. destruct Hm as (k & Hk & <-).
    assert (DK : Done fixedDof (slaves st) st' k) by (rewrite Forall_forall in D'; apply D', KS; lia).
    inversion DK as [? A B C _]; subst. destruct (A d Hd) as [A1 A2]. split; [exact A1|]. split; [exact A2|].
    destruct (dnext d) as [j|] eqn:E; [|apply B; auto]. destruct (C d j Hd E) as [C1 C2].
    assert (Hj : (j < length st')%nat) by (rewrite L', <- LK; apply nth_error_Some; congruence).
    exists (nthM st' j). split; [unfold nthM; apply nth_error_nth'; exact Hj|].
    split; [assert (Hj2 : (j < length (slaves st))%nat) by lia; pose proof (InvL_key _ rank ND st' j I' Hj2) as Q; rewrite Q in C1; congruence|].
    unfold linked in C2. apply orb_true_iff in C2. destruct C2 as [C2|C2].
    + left. intros Z. rewrite Z in C2. discriminate.
    + right. destruct (Qc_eq_dec (dcoef (mslave (nthM st' j))) 0); [discriminate|assumption].
Qed.
