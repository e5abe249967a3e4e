(** Proofs about the global numbering over processes (C93). *)
From Coq Require Import ZArith List Bool Lia Relations.
From Verif Require Import Ddp_model Ddp_proofs Ddg_model Ddg_spec.
Import ListNotations.
Local Open Scope Z_scope.

Lemma iotaZ_len : forall n a, length (iotaZ a n) = n.
Proof. induction n; intros; simpl; [|rewrite IHn]; reflexivity. Qed.
Lemma iotaZ_nth : forall n a i d, (i < n)%nat -> nth i (iotaZ a n) d = a + Z.of_nat i.
Proof.
  induction n; intros a i d H; [lia|]. destruct i; cbn [iotaZ nth]; [lia|]. rewrite IHn by lia. lia.
Qed.

Definition val (v : list Z) (e : Z) : Z := if 0 <? e then nth (Z.to_nat (e - 1)) v 0 else 0.

Lemma setupEqs_ok : forall v eqs, (forall e, In e eqs -> e <= Z.of_nat (length v)) ->
  setupEqs v eqs = Some (map (val v) eqs).
Proof.
  intros v. induction eqs as [|e t IH]; intros H; [reflexivity|].
  cbn [setupEqs map]. rewrite IH by (intros; apply H; right; assumption).
  assert (VE : val v e = if 0 <? e then nth (Z.to_nat (e - 1)) v 0 else 0) by reflexivity. rewrite VE. clear VE.
  destruct (0 <? e) eqn:E; [|reflexivity]. apply Z.ltb_lt in E.
  specialize (H e (or_introl eq_refl)). rewrite (nth_error_nth' v 0) by lia. reflexivity.
Qed.

Lemma setupEqs_len : forall v eqs r, setupEqs v eqs = Some r -> length r = length eqs.
Proof.
  intros v. induction eqs as [|e t IH]; intros r H; simpl in H; [inversion H; reflexivity|].
  destruct (if 0 <? e then _ else _); [|discriminate]. destruct (setupEqs v t) eqn:E; [|discriminate].
  inversion H; subst. simpl. rewrite (IH _ eq_refl). reflexivity.
Qed.
Lemma setupEqs_nth : forall v eqs r, setupEqs v eqs = Some r ->
  forall i e, nth_error eqs i = Some e -> nth_error r i = Some (val v e) /\ e <= Z.of_nat (length v).
Proof.
  intros v. induction eqs as [|x t IH]; intros r H i e HE; [destruct i; discriminate|].
  simpl in H. destruct (if 0 <? x then _ else _) eqn:EX; [|discriminate].
  destruct (setupEqs v t) eqn:E; [|discriminate]. inversion H; subst.
  destruct i; simpl in *; [|apply (IH _ eq_refl); assumption].
  inversion HE; subst. unfold val. destruct (0 <? e) eqn:P.
  - apply Z.ltb_lt in P. assert (LT : (Z.to_nat (e - 1) < length v)%nat) by (apply nth_error_Some; congruence).
    rewrite (nth_error_nth' v 0 LT) in EX. inversion EX; subst. split; [reflexivity | lia].
  - apply Z.ltb_ge in P. inversion EX; subst. split; [reflexivity | lia].
Qed.

(* the joined pairs of an interface, in loop order *)
Definition pairsOf (it : iface) : list (Z * (nat * Z)) :=
  filter (fun p => 0 <? fst p)
    (map (fun so => (fst so, (mproc it, nth (snd so) (mlist it) 0))) (combine (slist it) (ord it))).

Definition addFlags (flags : list bool) (ks : list Z) : list bool :=
  fold_left (fun fl e => setFlag fl (Z.to_nat (e - 1))) ks flags.

Definition prs (sl : list Z) (os : list nat) (q : nat) (mll : list Z) : list (Z * (nat * Z)) :=
  filter (fun p => 0 <? fst p) (map (fun so => (fst so, (q, nth (snd so) mll 0))) (combine sl os)).

Lemma linkLoop_ok : forall nEqs neq M q mll os sl pre st,
  0 <= nEqs ->
  length sl = length os ->
  (forall e, In e sl -> e <= Z.of_nat neq) ->
  (forall o, In o os -> (o < length mll)%nat) ->
  (forall i o e f, nth_error os i = Some o -> nth_error sl i = Some e -> nth_error mll o = Some f -> (0 < e <-> 0 < f)) ->
  (forall f, In f mll -> 0 < f -> 0 < nth (Z.to_nat (f - 1)) M 0) ->
  linkLoop nEqs (pre ++ map (val (iotaZ (nEqs + 1) neq)) sl) (map (val M) mll) (length pre) os st =
  Ok (rev (map (fun p => (nEqs + fst p, nth (Z.to_nat (snd (snd p) - 1)) M 0)) (prs sl os q mll)) ++ fst st,
      addFlags (snd st) (map fst (prs sl os q mll))).
Proof.
  intros nEqs neq M q mll. induction os as [|o os IH]; intros sl pre st HN HL HS HO HC HM.
  - destruct sl; [|discriminate]. simpl. destruct st; reflexivity.
  - destruct sl as [|e sl]; [discriminate|]. cbn [linkLoop].
    rewrite nth_error_app2, Nat.sub_diag by lia. cbn [map nth_error].
    assert (LO : (o < length mll)%nat) by (apply HO; left; reflexivity).
    rewrite nth_error_map. rewrite (nth_error_nth' mll 0 LO). cbn [option_map].
    set (f := nth o mll 0).
    assert (IF : In f mll) by (apply nth_In; exact LO).
    assert (EF : 0 < e <-> 0 < f).
    { apply (HC 0%nat o e f); [reflexivity | reflexivity | apply nth_error_nth'; exact LO]. }
    assert (HE := HS e (or_introl eq_refl)).
    assert (VE : val (iotaZ (nEqs + 1) neq) e = if 0 <? e then nEqs + e else 0).
    { unfold val. destruct (0 <? e) eqn:P; [|reflexivity]. apply Z.ltb_lt in P. rewrite iotaZ_nth by lia. lia. }
    assert (REC : forall st', linkLoop nEqs (pre ++ val (iotaZ (nEqs + 1) neq) e :: map (val (iotaZ (nEqs + 1) neq)) sl)
        (map (val M) mll) (S (length pre)) os st' =
        Ok (rev (map (fun p => (nEqs + fst p, nth (Z.to_nat (snd (snd p) - 1)) M 0)) (prs sl os q mll)) ++ fst st',
            addFlags (snd st') (map fst (prs sl os q mll)))).
    { intros st'. specialize (IH sl (pre ++ [val (iotaZ (nEqs + 1) neq) e]) st' HN).
      rewrite app_length in IH. simpl length in IH. rewrite Nat.add_1_r in IH.
      rewrite <- app_assoc in IH. apply IH.
      - simpl in HL. lia.
      - intros; apply HS; right; assumption.
      - intros; apply HO; right; assumption.
      - intros i o' e' f' H1 H2 H3. apply (HC (S i) o' e' f'); assumption.
      - assumption. }
    unfold prs. cbn [combine map filter fst snd]. fold f.
    destruct (0 <? e) eqn:P.
    + apply Z.ltb_lt in P. assert (PF : 0 < f) by tauto.
      assert (VF : val M f = nth (Z.to_nat (f - 1)) M 0).
      { unfold val. replace (0 <? f) with true by (symmetry; apply Z.ltb_lt; exact PF). reflexivity. }
      assert (PG := HM f IF PF). rewrite <- VF in PG. rewrite VE.
      replace (nEqs + e <? 1) with false by (symmetry; apply Z.ltb_ge; lia).
      replace (val M f <? 1) with false by (symmetry; apply Z.ltb_ge; lia).
      cbn [andb orb]. rewrite andb_false_r. rewrite VE in REC. rewrite REC.
      cbn [fst snd map rev]. fold (prs sl os q mll). rewrite VF.
      rewrite <- app_assoc. simpl app. unfold addFlags. cbn [fold_left].
      replace (nEqs + e - nEqs - 1) with (e - 1) by lia. reflexivity.
    + apply Z.ltb_ge in P. assert (PF : ~ 0 < f) by lia.
      assert (VF : val M f = 0).
      { unfold val. replace (0 <? f) with false by (symmetry; apply Z.ltb_ge; lia). reflexivity. }
      rewrite VE, VF. cbn. rewrite VE in REC. rewrite REC. reflexivity.
Qed.

(* renumbering of the interface equations *)
Definition keyed (nEqs : Z) (mls : list (list Z)) (p : Z * (nat * Z)) : Z * Z :=
  (nEqs + fst p, nth (Z.to_nat (snd (snd p) - 1)) (nth (fst (snd p)) mls []) 0).

Definition okIf (mls : list (list Z)) (neq : nat) (it : iface) : Prop :=
  (mproc it < length mls)%nat /\ length (mlist it) = length (slist it) /\ length (ord it) = length (slist it) /\
  (forall e, In e (slist it) -> e <= Z.of_nat neq) /\
  (forall f, In f (mlist it) -> f <= Z.of_nat (length (nth (mproc it) mls []))) /\
  (forall o, In o (ord it) -> (o < length (mlist it))%nat) /\
  (forall i o e f, nth_error (ord it) i = Some o -> nth_error (slist it) i = Some e ->
     nth_error (mlist it) o = Some f -> (0 < e <-> 0 < f)).

Lemma prs_same : forall it, prs (slist it) (ord it) (mproc it) (mlist it) = pairsOf it.
Proof. reflexivity. Qed.

Lemma linkAll_ok : forall mls nEqs neq its st, 0 <= nEqs ->
  (forall it, In it its -> okIf mls neq it) ->
  (forall v g, In v mls -> In g v -> 0 < g) ->
  linkAll mls nEqs (iotaZ (nEqs + 1) neq) its st =
  Ok (rev (map (keyed nEqs mls) (flat_map pairsOf its)) ++ fst st,
      addFlags (snd st) (map fst (flat_map pairsOf its))).
Proof.
  intros mls nEqs neq. induction its as [|it its IH]; intros st HN HI HP.
  - simpl. destruct st; reflexivity.
  - cbn [linkAll]. destruct (HI it (or_introl eq_refl)) as (H1 & H2 & H3 & H4 & H5 & H6 & H7).
    assert (E : linkIface mls nEqs (iotaZ (nEqs + 1) neq) it st =
      Ok (rev (map (keyed nEqs mls) (pairsOf it)) ++ fst st, addFlags (snd st) (map fst (pairsOf it)))).
    { unfold linkIface. rewrite setupEqs_ok by (rewrite iotaZ_len; assumption).
      rewrite setupEqs_ok by assumption. rewrite !map_length, H2, Nat.eqb_refl. cbn [negb].
      transitivity (Ok (rev (map (fun p => (nEqs + fst p, nth (Z.to_nat (snd (snd p) - 1)) (nth (mproc it) mls []) 0))
          (prs (slist it) (ord it) (mproc it) (mlist it))) ++ fst st,
        addFlags (snd st) (map fst (prs (slist it) (ord it) (mproc it) (mlist it))))).
      + apply (linkLoop_ok nEqs neq (nth (mproc it) mls []) (mproc it) (mlist it) (ord it) (slist it) [] st);
        [assumption | lia | assumption | assumption | assumption |].
        intros f Hf Pf. apply (HP (nth (mproc it) mls [])); [apply nth_In; exact H1|].
        apply nth_In. specialize (H5 f Hf). lia.
      + rewrite prs_same. f_equal. f_equal. f_equal. f_equal. apply map_ext_in.
        intros p Hp. unfold keyed. f_equal. f_equal.
        unfold pairsOf in Hp. apply filter_In in Hp. destruct Hp as [Hp _]. apply in_map_iff in Hp.
        destruct Hp as (so & <- & _). reflexivity. }
    rewrite E, IH; [|assumption | intros; apply HI; right; assumption | assumption].
    cbn [fst snd flat_map]. rewrite !map_app, rev_app_distr, <- app_assoc.
    f_equal. f_equal. unfold addFlags. rewrite fold_left_app. reflexivity.
Qed.

Lemma setFlag_len : forall l i, length (setFlag l i) = length l.
Proof. induction l; intros [|i]; simpl; auto. Qed.
Lemma setFlag_nth : forall l i j, (j < length l)%nat ->
  nth j (setFlag l i) true = true <-> (i = j \/ nth j l true = true).
Proof.
  induction l; intros [|i] [|j] H; simpl in *; try lia; try tauto.
  - split; [auto|]. intros [E | E]; [discriminate | assumption].
  - split; [auto|]. intros [E | E]; [discriminate | assumption].
  - rewrite IHl by lia. split; intros [E | E]; auto.
Qed.

Lemma addFlags_len : forall ks fl, length (addFlags fl ks) = length fl.
Proof. induction ks; intros; unfold addFlags in *; simpl; [reflexivity|]. rewrite IHks, setFlag_len. reflexivity. Qed.
Lemma addFlags_nth : forall ks fl j, (j < length fl)%nat -> (forall k, In k ks -> 0 < k) ->
  (nth j (addFlags fl ks) true = true <-> In (Z.of_nat j + 1) ks \/ nth j fl true = true).
Proof.
  induction ks as [|k ks IH]; intros fl j H HK; [simpl; tauto|].
  unfold addFlags in *. cbn [fold_left]. rewrite IH.
  - rewrite setFlag_nth by assumption. simpl. assert (0 < k) by (apply HK; left; reflexivity). split.
    + intros [A | [A | A]]; [tauto | left; left; lia | tauto].
    + intros [[A | A] | A]; [right; left; lia | tauto | tauto].
  - rewrite setFlag_len. assumption.
  - intros; apply HK; right; assumption.
Qed.

Lemma lookup_some : forall m k g, lookup k m = Some g -> In (k, g) m.
Proof.
  induction m as [|[a v] m IH]; intros k g H; simpl in H; [discriminate|].
  destruct (a =? k) eqn:E; [apply Z.eqb_eq in E; inversion H; subst; left; reflexivity | right; apply IH; assumption].
Qed.
Lemma lookup_none : forall m k, lookup k m = None <-> (forall g, ~ In (k, g) m).
Proof.
  induction m as [|[a v] m IH]; intros k; simpl; [split; [intros _ g [] | reflexivity]|].
  destruct (a =? k) eqn:E.
  - apply Z.eqb_eq in E. subst. split; [discriminate|]. intros H. exfalso. apply (H v). left; reflexivity.
  - apply Z.eqb_neq in E. rewrite IH. split.
    + intros H g [A | A]; [inversion A; congruence | apply (H g A)].
    + intros H g A. apply (H g). right; assumption.
Qed.

(* number of free positions among the first n *)
Fixpoint cnt (fl : list bool) (n : nat) : Z :=
  match n, fl with
  | O, _ => 0
  | _, [] => 0
  | S k, b :: t => (if b then 0 else 1) + cnt t k
  end.
Lemma cnt_bounds : forall fl n, 0 <= cnt fl n <= Z.of_nat n.
Proof. induction fl as [|b fl IH]; intros [|n]; simpl cnt; try lia. specialize (IH n). destruct b; lia. Qed.
Lemma cnt_S : forall fl n, (n < length fl)%nat -> cnt fl (S n) = cnt fl n + (if nth n fl true then 0 else 1).
Proof.
  induction fl as [|b fl IH]; intros n H; [simpl in H; lia|].
  destruct n; [simpl; destruct fl; destruct b; simpl; lia|].
  simpl in H. change (cnt (b :: fl) (S (S n))) with ((if b then 0 else 1) + cnt fl (S n)).
  rewrite IH by lia. simpl. lia.
Qed.
Lemma cnt_mono : forall fl a b, (a <= b)%nat -> (b <= length fl)%nat -> cnt fl a <= cnt fl b.
Proof.
  intros fl a b H. induction H; intros HL; [lia|]. rewrite cnt_S by lia.
  specialize (IHle ltac:(lia)). destruct (nth m fl true); lia.
Qed.
Lemma cnt_inj : forall fl a b, (a < length fl)%nat -> (b < length fl)%nat ->
  nth a fl true = false -> nth b fl true = false -> cnt fl a = cnt fl b -> a = b.
Proof.
  assert (G : forall fl a b, (a < b)%nat -> (b < length fl)%nat -> nth a fl true = false -> cnt fl a < cnt fl b).
  { intros fl a b H HL HA. assert (cnt fl (S a) <= cnt fl b) by (apply cnt_mono; lia).
    rewrite cnt_S in H0 by lia. rewrite HA in H0. lia. }
  intros fl a b Ha Hb Fa Fb E. destruct (lt_eq_lt_dec a b) as [[L | L] | L]; [|assumption|].
  - specialize (G fl a b L Hb Fa). lia.
  - specialize (G fl b a L Ha Fb). lia.
Qed.
Lemma cnt_surj : forall fl n, 0 <= n < cnt fl (length fl) ->
  exists a, (a < length fl)%nat /\ nth a fl true = false /\ cnt fl a = n.
Proof.
  intros fl n. assert (G : forall k, (k <= length fl)%nat -> 0 <= n < cnt fl k ->
    exists a, (a < k)%nat /\ nth a fl true = false /\ cnt fl a = n).
  { induction k; intros Hk H; [destruct fl; simpl in H; lia|].
    rewrite cnt_S in H by lia. destruct (nth k fl true) eqn:E.
    - destruct (IHk ltac:(lia) ltac:(lia)) as (a & A & B & C). exists a. repeat split; try assumption; lia.
    - destruct (Z.eq_dec n (cnt fl k)) as [-> | NE]; [exists k; repeat split; try assumption; lia|].
      destruct (IHk ltac:(lia) ltac:(lia)) as (a & A & B & C). exists a. repeat split; try assumption; lia. }
  intros H. destruct (G (length fl) (le_n _) H) as (a & A & B & C). exists a. auto.
Qed.

Lemma restLoop_ok : forall fl i nEqs mxe m, 
  snd (restLoop i fl nEqs mxe m) = mxe + cnt fl (length fl) /\
  forall k, (forall j, (j < length fl)%nat -> k = i + Z.of_nat j + nEqs ->
       lookup k (fst (restLoop i fl nEqs mxe m)) = if nth j fl true then lookup k m else Some (mxe + cnt fl j + 1)) /\
    (~ (i + nEqs <= k < i + nEqs + Z.of_nat (length fl)) -> lookup k (fst (restLoop i fl nEqs mxe m)) = lookup k m).
Proof.
  induction fl as [|b fl IH]; intros i nEqs mxe m.
  - simpl. split; [lia|]. intros k. split; [intros; lia | reflexivity].
  - destruct b; cbn [restLoop].
    + destruct (IH (i + 1) nEqs mxe m) as [S1 S2]. split.
      { rewrite S1. simpl. lia. }
      intros k. destruct (S2 k) as [A B]. split.
      * intros [|j] Hj Hk; simpl in Hj.
        -- simpl. apply B. lia.
        -- rewrite (A j) by lia. simpl. reflexivity.
      * intros H. apply B. simpl in H. lia.
    + destruct (IH (i + 1) nEqs (mxe + 1) ((i + nEqs, mxe + 1) :: m)) as [S1 S2]. split.
      { rewrite S1. change (cnt (false :: fl) (length (false :: fl))) with (1 + cnt fl (length fl)). lia. }
      intros k. destruct (S2 k) as [A B]. split.
      * intros [|j] Hj Hk; simpl in Hj.
        -- rewrite B by lia. simpl. replace (i + nEqs =? k) with true by (symmetry; apply Z.eqb_eq; lia).
           f_equal. lia.
        -- rewrite (A j) by lia. simpl nth. destruct (nth j fl true).
           ++ simpl. replace (i + nEqs =? k) with false by (symmetry; apply Z.eqb_neq; lia). reflexivity.
           ++ change (cnt (false :: fl) (S j)) with (1 + cnt fl j). f_equal. lia.
      * intros H. rewrite B by (simpl in H; lia). simpl.
        replace (i + nEqs =? k) with false by (symmetry; apply Z.eqb_neq; simpl in H; lia). reflexivity.
Qed.

(* the result of one process *)
Lemma eqProc_ok : forall mls nEqs neq its, 0 <= nEqs ->
  (forall it, In it its -> okIf mls neq it) ->
  (forall v g, In v mls -> In g v -> 0 < g <= nEqs) ->
  exists r fl, eqProc mls nEqs neq its = Ok r /\ length (ml r) = neq /\ length fl = neq /\
    mn r = nEqs + 1 /\ mx r = nEqs + cnt fl neq /\
    (forall j, (j < neq)%nat ->
       (nth j fl true = true <-> exists pr, In pr (flat_map pairsOf its) /\ fst pr = Z.of_nat j + 1)) /\
    (forall j, (j < neq)%nat -> nth j fl true = false -> nth j (ml r) 0 = nEqs + cnt fl j + 1) /\
    (forall j, (j < neq)%nat -> nth j fl true = true ->
       exists pr, In pr (flat_map pairsOf its) /\ fst pr = Z.of_nat j + 1 /\
         nth j (ml r) 0 = snd (keyed nEqs mls pr)).
Proof.
  intros mls nEqs neq its HN HI HP. unfold eqProc.
  rewrite linkAll_ok; [|assumption | assumption | intros v g A B; specialize (HP v g A B); lia].
  cbn [fst snd]. rewrite app_nil_r.
  set (prs := flat_map pairsOf its). set (m := rev (map (keyed nEqs mls) prs)).
  set (fl := addFlags (repeat false neq) (map fst prs)).
  assert (LF : length fl = neq) by (unfold fl; rewrite addFlags_len, repeat_length; reflexivity).
  destruct (restLoop_ok fl 1 nEqs nEqs []) as [S1 S2].
  destruct (restLoop 1 fl nEqs nEqs []) as [m2 mxe] eqn:ER. cbn [fst snd] in S1, S2.
  eexists. exists fl. split; [reflexivity|]. cbn [ml mn mx].
  split; [rewrite !map_length, iotaZ_len; reflexivity|]. split; [exact LF|]. split; [reflexivity|].
  split; [rewrite S1, LF; reflexivity|].
  assert (POS : forall pr, In pr prs -> 0 < fst pr).
  { intros pr Hp. unfold prs in Hp. apply in_flat_map in Hp. destruct Hp as (it & _ & Hp).
    unfold pairsOf in Hp. apply filter_In in Hp. apply Z.ltb_lt. apply Hp. }
  assert (FLG : forall j, (j < neq)%nat -> (nth j fl true = true <-> exists pr, In pr prs /\ fst pr = Z.of_nat j + 1)).
  { intros j Hj. unfold fl. rewrite addFlags_nth.
    - rewrite (nth_indep _ true false) by (rewrite repeat_length; exact Hj). rewrite nth_repeat.
      rewrite in_map_iff. split.
      + intros [(pr & A & B) | A]; [exists pr; auto | discriminate].
      + intros (pr & A & B). left. exists pr. auto.
    - rewrite repeat_length. exact Hj.
    - intros k Hk. apply in_map_iff in Hk. destruct Hk as (pr & <- & Hp). apply POS. exact Hp. }
  split; [exact FLG|].
  assert (ENT : forall j, (j < neq)%nat ->
    nth j (map (renum m2) (map (renum m) (iotaZ (nEqs + 1) neq))) 0 = renum m2 (renum m (nEqs + 1 + Z.of_nat j))).
  { intros j Hj. rewrite map_map. rewrite (nth_indep _ 0 (renum m2 (renum m 0))) by (rewrite map_length, iotaZ_len; exact Hj).
    rewrite map_nth with (f := fun x => renum m2 (renum m x)). rewrite iotaZ_nth by exact Hj. reflexivity. }
  assert (MIN : forall k g, In (k, g) m <-> exists pr, In pr prs /\ k = nEqs + fst pr /\ g = snd (keyed nEqs mls pr)).
  { intros k g. unfold m. rewrite <- in_rev, in_map_iff. split.
    - intros (pr & E & Hp). exists pr. split; [exact Hp|]. rewrite E. unfold keyed in E. inversion E as [[E1 E2]]. split; reflexivity.
    - intros (pr & Hp & -> & ->). exists pr. split; [reflexivity | exact Hp]. }
  split.
  - intros j Hj F. rewrite ENT by exact Hj.
    assert (E1 : renum m (nEqs + 1 + Z.of_nat j) = nEqs + 1 + Z.of_nat j).
    { unfold renum. replace (lookup (nEqs + 1 + Z.of_nat j) m) with (@None Z); [reflexivity|].
      symmetry. apply lookup_none. intros g Hg. apply MIN in Hg. destruct Hg as (pr & Hp & E & _).
      assert (nth j fl true = true); [|congruence]. apply FLG; [exact Hj|]. exists pr. split; [exact Hp | lia]. }
    rewrite E1. unfold renum. destruct (S2 (nEqs + 1 + Z.of_nat j)) as [A _].
    rewrite (A j) by (rewrite ?LF; lia). rewrite F. reflexivity.
  - intros j Hj F. rewrite ENT by exact Hj. apply FLG in F; [|exact Hj]. destruct F as (pr0 & Hp0 & E0).
    destruct (lookup (nEqs + 1 + Z.of_nat j) m) as [g|] eqn:LK.
    2:{ exfalso. apply (proj1 (lookup_none m _) LK (snd (keyed nEqs mls pr0))). apply MIN.
        exists pr0. repeat split; [exact Hp0 | lia]. }
    assert (HG := lookup_some _ _ _ LK). apply MIN in HG. destruct HG as (pr & Hp & E1 & E2).
    exists pr. split; [exact Hp|]. split; [lia|].
    unfold renum at 2. rewrite LK.
    assert (BG : 0 < g <= nEqs).
    { assert (Hp' := Hp). unfold prs in Hp'. apply in_flat_map in Hp'. destruct Hp' as (it & Hit & Hpi).
      destruct (HI it Hit) as (H1 & H2 & H3 & H4 & H5 & H6 & H7).
      unfold pairsOf in Hpi. apply filter_In in Hpi. destruct Hpi as [Hpi PP]. apply Z.ltb_lt in PP.
      apply in_map_iff in Hpi. destruct Hpi as ([s o] & <- & Hso). cbn [fst snd] in *.
      assert (HO : In o (ord it)) by (apply in_combine_r in Hso; exact Hso).
      assert (LO := H6 o HO).
      assert (PF : 0 < nth o (mlist it) 0).
      { apply In_nth with (d := (0, O)) in Hso. destruct Hso as (i & Hi & EI).
        rewrite combine_length in Hi. rewrite combine_nth in EI by lia. injection EI as EA EB.
        refine (proj1 (H7 i o s (nth o (mlist it) 0) _ _ _) PP).
        - rewrite (nth_error_nth' _ O) by lia. f_equal. assumption.
        - rewrite (nth_error_nth' _ 0) by lia. f_equal. assumption.
        - apply nth_error_nth'. exact LO. }
      rewrite E2. unfold keyed. cbn [fst snd].
      apply (HP (nth (mproc it) mls [])); [apply nth_In; exact H1|]. apply nth_In.
      assert (IM : In (nth o (mlist it) 0) (mlist it)) by (apply nth_In; exact LO).
      specialize (H5 _ IM). lia. }
    unfold renum. destruct (S2 g) as [_ B]. rewrite B by lia. simpl. exact E2.
Qed.
