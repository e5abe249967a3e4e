(** Constraint equations: ordering, adding and merging masters. *)
From Coq Require Import List Arith ZArith QArith Qcanon Bool Lia.
From Verif Require Import Base MPC_model MPC_spec.
Import ListNotations.
Local Open Scope Z_scope.

(** ** ordering *)
Lemma qltb_spec a b : qltb a b = true <-> (a < b)%Qc.
Proof. unfold qltb, Qclt. rewrite Qlt_alt. unfold Qccompare. destruct (this a ?= this b)%Q; split; congruence. Qed.
Lemma qltb_false a b : qltb a b = false <-> (b <= a)%Qc.
Proof.
  destruct (qltb a b) eqn:E.
  - apply qltb_spec in E. split; [discriminate|]. intros H. exfalso. exact (Qclt_not_le _ _ E H).
  - split; [|reflexivity]. intros _. apply Qcnot_lt_le. intros H. apply qltb_spec in H. congruence.
Qed.

(** an order given by a function is strict weak if it is irreflexive, transitive and
    its complement is transitive *)
Lemma swo_intro {X} (lt : X -> X -> bool) :
  (forall x, lt x x = false) -> (forall x y z, lt x y = true -> lt y z = true -> lt x z = true) ->
  (forall x y z, lt x y = false -> lt y z = false -> lt x z = false) -> strictWeak lt.
Proof. intros A B C. split; [exact A|]. split; [exact B|]. intros x y z H1 H2 H3 H4. split; eapply C; eauto. Qed.

Definition dofCmp (so : bool) (a b : dofT) : comparison :=
  match dnode a ?= dnode b with
  | Eq => match dldof a ?= dldof b with
          | Eq => if so then Eq else Qccompare (dcoef a) (dcoef b)
          | c => c end
  | c => c end.
Lemma dofLess_cmp so a b : dofLess so a b = match dofCmp so a b with Lt => true | _ => false end.
Proof.
  unfold dofLess, dofCmp, qltb. rewrite !Z.ltb_compare, (Z.compare_antisym (dnode a) (dnode b)), (Z.compare_antisym (dldof a) (dldof b)).
  destruct (dnode a ?= dnode b); try reflexivity. cbn. destruct (dldof a ?= dldof b); try reflexivity. cbn. destruct so; reflexivity.
Qed.
(** a comparison function with the laws of a total preorder *)
Definition goodCmp {X} (c : X -> X -> comparison) : Prop :=
  (forall x y, c y x = CompOpp (c x y)) /\
  (forall x y z r, c x y = r -> c y z = r -> c x z = r) /\
  (forall x y z, c x y = Eq -> c x z = c y z).
Lemma Qccompare_good : goodCmp Qccompare.
Proof.
  unfold Qccompare. split; [|split].
  - intros x y. symmetry. apply Qcompare_antisym.
  - intros x y z [| |] H1 H2.
    + apply Qeq_alt in H1, H2. apply Qeq_alt. eapply Qeq_trans; eauto.
    + apply Qlt_alt in H1, H2. apply Qlt_alt. eapply Qlt_trans; eauto.
    + apply Qgt_alt in H1, H2. apply Qgt_alt. eapply Qlt_trans; eauto.
  - intros x y z H. apply Qeq_alt in H. rewrite H. reflexivity.
Qed.
Lemma Zcompare_good : goodCmp Z.compare.
Proof.
  split; [intros; apply Z.compare_antisym|]. split.
  - intros x y z [| |] H1 H2.
    + apply Z.compare_eq in H1, H2. subst. apply Z.compare_refl.
    + change (x < y) in H1. change (y < z) in H2. change (x < z). lia.
    + rewrite Z.compare_gt_iff in H1, H2 |- *. lia.
  - intros x y z H. apply Z.compare_eq in H. subst. reflexivity.
Qed.
Definition lexCmp {X} (c1 c2 : X -> X -> comparison) (x y : X) : comparison :=
  match c1 x y with Eq => c2 x y | c => c end.
Lemma good_r {X} (c : X -> X -> comparison) x y z : goodCmp c -> c y z = Eq -> c x z = c x y.
Proof. intros (A & B & D) H. rewrite (A z x), (A y x). f_equal. symmetry. apply D. exact H. Qed.
Lemma lexCmp_good {X} (c1 c2 : X -> X -> comparison) : goodCmp c1 -> goodCmp c2 -> goodCmp (lexCmp c1 c2).
Proof.
  intros G1 G2. pose proof G1 as (A1 & B1 & D1). pose proof G2 as (A2 & B2 & D2). unfold lexCmp. split; [|split].
  - intros x y. rewrite (A1 x y). destruct (c1 x y); cbn; auto.
  - intros x y z r. destruct (c1 x y) eqn:E1.
    + rewrite (D1 x y z E1). destruct (c1 y z); [apply B2|auto|auto].
    + intros <-. destruct (c1 y z) eqn:E2; [|rewrite (B1 x y z _ E1 E2); reflexivity|discriminate].
      rewrite (good_r c1 x y z G1 E2), E1. reflexivity.
    + intros <-. destruct (c1 y z) eqn:E2; [|discriminate|rewrite (B1 x y z _ E1 E2); reflexivity].
      rewrite (good_r c1 x y z G1 E2), E1. reflexivity.
  - intros x y z. destruct (c1 x y) eqn:E1; try discriminate. rewrite (D1 x y z E1). destruct (c1 y z); [apply D2|auto|auto].
Qed.
Lemma onCmp_good {X Y} (f : X -> Y) c : goodCmp c -> goodCmp (fun x y => c (f x) (f y)).
Proof. intros (A & B & D). split; [|split]; intros; [apply A|eapply B; eauto|apply D; auto]. Qed.
Lemma constCmp_good {X} : goodCmp (fun _ _ : X => Eq).
Proof. split; [|split]; intros; auto. Qed.
Lemma dofCmp_good so : goodCmp (dofCmp so).
Proof.
  assert (G : goodCmp (lexCmp (fun a b => dnode a ?= dnode b) (lexCmp (fun a b => dldof a ?= dldof b)
                (if so then fun _ _ => Eq else fun a b => Qccompare (dcoef a) (dcoef b))))).
  { apply lexCmp_good; [apply onCmp_good, Zcompare_good|]. apply lexCmp_good; [apply onCmp_good, Zcompare_good|].
    destruct so; [apply constCmp_good|apply onCmp_good, Qccompare_good]. }
  assert (E : forall a b, dofCmp so a b = lexCmp (fun a b => dnode a ?= dnode b) (lexCmp (fun a b => dldof a ?= dldof b)
                (if so then fun _ _ => Eq else fun a b => Qccompare (dcoef a) (dcoef b))) a b).
  { intros a b. unfold dofCmp, lexCmp. destruct (dnode a ?= dnode b); auto. destruct (dldof a ?= dldof b); auto. destruct so; reflexivity. }
  destruct G as (A & B & D). split; [|split]; intros *; rewrite !E; [apply A|apply B|apply D].
Qed.
Fixpoint listCmp {X} (c : X -> X -> comparison) (a b : list X) : comparison :=
  match a, b with
  | [], [] => Eq | [], _ :: _ => Lt | _ :: _, [] => Gt
  | x :: a', y :: b' => match c x y with Eq => listCmp c a' b' | r => r end
  end.
Lemma listCmp_good {X} (c : X -> X -> comparison) : goodCmp c -> goodCmp (listCmp c).
Proof.
  intros G. pose proof G as (A & B & D). split; [|split].
  - induction x as [|x a IH]; intros [|y b]; cbn; auto. rewrite (A x y). destruct (c x y); cbn; auto.
  - induction x as [|x a IH]; intros [|y b] [|z e] r; cbn; try congruence.
    destruct (c x y) eqn:E1.
    + rewrite (D x y z E1). destruct (c y z); [apply IH|auto|auto].
    + intros <-. destruct (c y z) eqn:E2; [|rewrite (B x y z _ E1 E2); reflexivity|discriminate].
      rewrite (good_r c x y z G E2), E1. reflexivity.
    + intros <-. destruct (c y z) eqn:E2; [|discriminate|rewrite (B x y z _ E1 E2); reflexivity].
      rewrite (good_r c x y z G E2), E1. reflexivity.
  - induction x as [|x a IH]; intros [|y b] [|z e]; cbn; try congruence. destruct (c x y) eqn:E1; try discriminate.
    intros H. rewrite (D x y z E1). destruct (c y z); auto.
Qed.
Lemma mastLess_cmp so a : forall b, mastLess so a b = match listCmp (dofCmp so) a b with Lt => true | _ => false end.
Proof.
  destruct (dofCmp_good so) as (A & _ & _).
  induction a as [|x a IH]; intros [|y b]; cbn; auto. rewrite !dofLess_cmp, (A x y). destruct (dofCmp so x y); cbn; auto.
Qed.
Definition mpcCmp (so : bool) (a b : mpc) : comparison :=
  lexCmp (fun x y => dofCmp so (mslave x) (mslave y)) (if so then fun _ _ => Eq else fun x y => listCmp (dofCmp so) (mmast x) (mmast y)) a b.
Lemma mpcCmp_good so : goodCmp (mpcCmp so).
Proof.
  apply lexCmp_good; [apply (onCmp_good mslave), dofCmp_good|]. destruct so; [apply constCmp_good|].
  apply (onCmp_good mmast), listCmp_good, dofCmp_good.
Qed.
Lemma mpcLess_cmp so a b : mpcLess so (Some a) (Some b) = match mpcCmp so a b with Lt => true | _ => false end.
Proof.
  destruct (dofCmp_good so) as (A & _ & _). unfold mpcLess, mpcCmp, lexCmp.
  rewrite !dofLess_cmp, (A (mslave a) (mslave b)). destruct (dofCmp so (mslave a) (mslave b)); cbn; auto.
  destruct so; [reflexivity|]. apply mastLess_cmp.
Qed.
Lemma goodCmp_strictWeak {X} (c : X -> X -> comparison) : goodCmp c -> strictWeak (fun x y => match c x y with Lt => true | _ => false end).
Proof.
  intros G. pose proof G as (A & B & D). apply swo_intro.
  - intros x. pose proof (A x x) as H. destruct (c x x); auto. discriminate.
  - intros x y z. destruct (c x y) eqn:E1; try discriminate. destruct (c y z) eqn:E2; try discriminate. rewrite (B x y z _ E1 E2). auto.
  - intros x y z. destruct (c x y) eqn:E1; try discriminate; destruct (c y z) eqn:E2; try discriminate; intros _ _.
    + rewrite (B x y z _ E1 E2). reflexivity.
    + rewrite (D x y z E1), E2. reflexivity.
    + rewrite (good_r c x y z G E2), E1. reflexivity.
    + rewrite (B x y z _ E1 E2). reflexivity.
Qed.
Lemma mpcLess_strictWeak so : strictWeak (mpcLess so).
Proof.
  destruct (goodCmp_strictWeak _ (mpcCmp_good so)) as (A & B & C). split; [|split].
  - intros [x|]; [rewrite mpcLess_cmp; apply A|reflexivity].
  - intros [x|] [y|] [z|]; cbn [mpcLess]; try congruence. pose proof (B x y z) as H. rewrite <- !mpcLess_cmp in H. exact H.
  - intros [x|] [y|] [z|]; cbn [mpcLess]; try (intros; discriminate || auto; fail); try (pose proof (C x y z) as H; rewrite <- !mpcLess_cmp in H; exact H); auto.
Qed.
Lemma mpcLess_equiv a b : (mpcLess true (Some a) (Some b) = false /\ mpcLess true (Some b) (Some a) = false) <-> dkey (mslave a) = dkey (mslave b).
Proof.
  unfold mpcLess, dofLess, dkey. split.
  - intros [H1 H2].
    destruct (dnode (mslave a) <? dnode (mslave b)) eqn:E1; [discriminate|].
    destruct (dnode (mslave b) <? dnode (mslave a)) eqn:E2; [cbn in H2; discriminate|].
    destruct (dldof (mslave a) <? dldof (mslave b)) eqn:E3; [discriminate|].
    destruct (dldof (mslave b) <? dldof (mslave a)) eqn:E4; [cbn in H2; discriminate|]. f_equal; lia.
  - intros [= -> ->]. rewrite !Z.ltb_irrefl. auto.
Qed.

(** ** masters *)
Lemma sameDof_spec a b : sameDof a b = true <-> dkey a = dkey b.
Proof. unfold sameDof, dkey. rewrite andb_true_iff, !Z.eqb_eq. split; [intros [-> ->]; reflexivity|intros [= -> ->]; auto]. Qed.
Definition mform (u : field) (l : list dofT) : Qc := qs (fun d => dcoef d * u (dkey d))%Qc l.
Lemma bump_form u d l : mform u (bumpMaster d l) = (mform u l + dcoef d * u (dkey d))%Qc.
Proof.
  unfold mform. induction l as [|x l IH]; cbn [bumpMaster]; [rewrite qs_cons, !qs_nil; ring|].
  destruct (sameDof x d) eqn:E; rewrite !qs_cons.
  - apply sameDof_spec in E. unfold dkey at 1. cbn [dcoef dnode dldof]. fold (dkey x). rewrite E. ring.
  - rewrite IH. ring.
Qed.
Lemma bump_keys d l : map dkey (bumpMaster d l) = if existsb (fun x => sameDof x d) l then map dkey l else map dkey l ++ [dkey d].
Proof.
  induction l as [|x l IH]; cbn; [reflexivity|]. destruct (sameDof x d) eqn:E; cbn; [reflexivity|]. rewrite IH. destruct (existsb _ l); reflexivity.
Qed.
Lemma bump_nodup d l : NoDup (map dkey l) -> NoDup (map dkey (bumpMaster d l)).
Proof.
  intros H. rewrite bump_keys. destruct (existsb _ l) eqn:E; [exact H|].
  assert (N : ~ In (dkey d) (map dkey l)).
  { intros Hi. apply in_map_iff in Hi. destruct Hi as (x & Hx & Hi). assert (existsb (fun y => sameDof y d) l = true); [|congruence].
    apply existsb_exists. exists x. split; [exact Hi|]. apply sameDof_spec. exact Hx. }
  clear E. induction l as [|x l IH]; cbn in *; [constructor; [tauto|constructor]|]. inversion H as [|? ? H1 H2]; subst. constructor.
  - rewrite in_app_iff. cbn. intros [Q|[Q|[]]]; [contradiction|]. apply N. left. symmetry; exact Q.
  - apply IH; auto.
Qed.
Lemma bump_in d l k : In k (map dkey (bumpMaster d l)) <-> k = dkey d \/ In k (map dkey l).
Proof.
  rewrite bump_keys. destruct (existsb _ l) eqn:E.
  - apply existsb_exists in E. destruct E as (x & Hx & Hs). apply sameDof_spec in Hs. split; [auto|]. intros [->|H]; [|exact H].
    rewrite <- Hs. apply in_map. exact Hx.
  - rewrite in_app_iff. cbn. split; [intros [H|[H|[]]]; auto|intros [->|H]; auto].
Qed.
Lemma negligible_spec tol c : negligible tol c = true <-> (- tol <= c)%Qc /\ (c <= tol)%Qc.
Proof. unfold negligible. rewrite andb_true_iff, !negb_true_iff, !qltb_false. reflexivity. Qed.
Lemma addMaster_form tol d m u : rhs u (addMaster tol d m) = (rhs u m + if negligible tol (dcoef d) then 0 else dcoef d * u (dkey d))%Qc.
Proof.
  unfold addMaster, rhs. destruct (negligible tol (dcoef d)); [ring|]. cbn [mslave mmast]. pose proof (bump_form u d (mmast m)) as H. unfold mform in H. rewrite H. ring.
Qed.
Lemma addMaster_slave tol d m : mslave (addMaster tol d m) = mslave m.
Proof. unfold addMaster. destruct (negligible _ _); reflexivity. Qed.
Lemma addMaster_nodup tol d m : NoDup (map dkey (mmast m)) -> NoDup (map dkey (mmast (addMaster tol d m))).
Proof. unfold addMaster. destruct (negligible _ _); [auto|]. apply bump_nodup. Qed.
Lemma addMaster_in tol d m k : In k (map dkey (mmast (addMaster tol d m))) ->
  k = dkey d \/ In k (map dkey (mmast m)).
Proof. unfold addMaster. destruct (negligible _ _); [auto|]. apply bump_in. Qed.
Lemma addMaster_keep tol d m k : In k (map dkey (mmast m)) -> In k (map dkey (mmast (addMaster tol d m))).
Proof. unfold addMaster. destruct (negligible _ _); [auto|]. intros H. apply bump_in. auto. Qed.

Lemma addFold_form tol u l : forall m,
  rhs u (fold_left (fun a d => addMaster tol d a) l m) =
  (rhs u m + qs (fun d => if negligible tol (dcoef d) then 0 else dcoef d * u (dkey d)) l)%Qc.
Proof. induction l as [|d l IH]; intros m; cbn [fold_left]; [rewrite qs_nil; ring|]. rewrite IH, addMaster_form, qs_cons. ring. Qed.
Lemma addFold_slave tol l : forall m, mslave (fold_left (fun a d => addMaster tol d a) l m) = mslave m.
Proof. induction l as [|d l IH]; intros m; cbn [fold_left]; [reflexivity|]. rewrite IH. apply addMaster_slave. Qed.
Lemma addFold_nodup tol l : forall m, NoDup (map dkey (mmast m)) -> NoDup (map dkey (mmast (fold_left (fun a d => addMaster tol d a) l m))).
Proof. induction l as [|d l IH]; intros m H; cbn [fold_left]; [exact H|]. apply IH, addMaster_nodup, H. Qed.
Lemma addFold_in tol l : forall m k, In k (map dkey (mmast (fold_left (fun a d => addMaster tol d a) l m))) ->
  In k (map dkey l) \/ In k (map dkey (mmast m)).
Proof.
  induction l as [|d l IH]; intros m k H; cbn [fold_left] in H; [auto|]. apply IH in H. cbn. destruct H as [H|H]; [auto|].
  apply addMaster_in in H. destruct H as [->|H]; auto.
Qed.

(** merging *)
Lemma qabsv_absv x : qabsv x = absv x.
Proof.
  unfold qabsv, absv. destruct (Qclt_le_dec x 0) as [H|H].
  - apply qltb_spec in H. rewrite H. reflexivity.
  - apply qltb_false in H. rewrite H. reflexivity.
Qed.
Lemma identic_spec tol a : forall b, identicMasters tol a b = true <->
  Forall2 (fun x y => dkey x = dkey y /\ (absv (dcoef x - dcoef y) < tol)%Qc) a b.
Proof.
  induction a as [|x a IH]; intros [|y b]; cbn; try (split; [discriminate|inversion 1]).
  - split; [constructor|reflexivity].
  - rewrite !andb_true_iff, sameDof_spec, qltb_spec, qabsv_absv, IH. split.
    + intros ((A & B) & C). constructor; auto.
    + inversion 1 as [|? ? ? ? [? ?] ?]; subst; auto.
Qed.
Lemma mergeMPC_spec tol m o b m' : mergeMPC tol m o = (b, m') ->
  mslave m' = mslave m /\
  (b = true -> dkey (mslave m) = dkey (mslave o) /\ dcoef (mslave m) = dcoef (mslave o) /\
     (forall u, rhs u m' = (rhs u m + qs (fun d => if negligible tol (dcoef d) then 0 else dcoef d * u (dkey d)) (mmast o))%Qc)) /\
  (b = false -> m' = m) /\
  (b = false <-> dkey (mslave m) <> dkey (mslave o) \/ dcoef (mslave m) <> dcoef (mslave o) \/
     Forall2 (fun x y => dkey x = dkey y /\ (absv (dcoef x - dcoef y) < tol)%Qc) (mmast m) (mmast o)) /\
  (NoDup (map dkey (mmast m)) -> NoDup (map dkey (mmast m'))).
Proof.
  unfold mergeMPC. destruct (sameDof (mslave m) (mslave o)) eqn:E1.
  - apply sameDof_spec in E1. destruct (Qc_eq_dec _ _) as [E2|E2]; cbn [andb negb].
    + destruct (identicMasters tol (mmast m) (mmast o)) eqn:E3.
      * intros [= <- <-]. apply identic_spec in E3. split; [reflexivity|]. split; [discriminate|]. split; [reflexivity|]. split; [split; auto|auto].
      * intros [= <- <-]. split; [apply addFold_slave|]. split; [intros _; split; [exact E1|split; [exact E2|intros u; apply addFold_form]]|]. split; [discriminate|].
        split; [|apply addFold_nodup]. split; [discriminate|]. intros [Q|[Q|Q]]; try contradiction. apply identic_spec in Q. congruence.
    + intros [= <- <-]. split; [reflexivity|]. split; [discriminate|]. split; [reflexivity|]. split; [split; auto|auto].
  - cbn [andb negb]. intros [= <- <-]. split; [reflexivity|]. split; [discriminate|]. split; [reflexivity|]. split; [|auto].
    split; [|reflexivity]. intros _. left. intros H. apply sameDof_spec in H. congruence.
Qed.

(** renumbering and shifting: the equation holds for the renumbered field *)
Lemma renumber_form old2new m u v : (forall n d, u (n, d) = v (match zfind n old2new with Some n' => n' | None => n end, d)) ->
  rhs u m = rhs v (snd (renumberMPC old2new m)) /\ u (dkey (mslave m)) = v (dkey (mslave (snd (renumberMPC old2new m)))).
Proof.
  intros H. assert (K : forall d, u (dkey d) = v (dkey (renumDof old2new d)) /\ dcoef (renumDof old2new d) = dcoef d).
  { intros d. unfold dkey at 1. rewrite H. unfold renumDof. destruct (zfind (dnode d) old2new); auto. }
  split; [|apply K]. unfold rhs. cbn [snd renumberMPC mslave mmast]. rewrite qs_map. destruct (K (mslave m)) as [_ ->]. f_equal.
  apply qs_ext. intros d _. destruct (K d) as [-> ->]. reflexivity.
Qed.
Lemma shift_form k m u v : (forall n d, u (n, d) = v (n + k, d)) ->
  rhs u m = rhs v (shiftMPC k m) /\ u (dkey (mslave m)) = v (dkey (mslave (shiftMPC k m))).
Proof.
  intros H. assert (K : forall d, u (dkey d) = v (dkey (shiftDof k d))) by (intros d; unfold dkey; rewrite H; reflexivity).
  split; [|apply K]. unfold rhs. cbn [shiftMPC mslave mmast]. rewrite qs_map. cbn [shiftDof dcoef]. f_equal. apply qs_ext. intros d _. rewrite K. reflexivity.
Qed.
Lemma renumber_invalid old2new m : fst (renumberMPC old2new m) =
  length (filter (fun d => match zfind (dnode d) old2new with None => true | _ => false end) (mslave m :: mmast m)).
Proof.
  cbn [fst renumberMPC]. cbn [filter].
  assert (E : list_sum (map (badDof old2new) (mmast m)) = length (filter (fun d => match zfind (dnode d) old2new with None => true | _ => false end) (mmast m))).
  { induction (mmast m) as [|d l IH]; [reflexivity|]. cbn [map filter]. change (list_sum (badDof old2new d :: map (badDof old2new) l)) with (badDof old2new d + list_sum (map (badDof old2new) l))%nat. rewrite IH. unfold badDof at 1. destruct (zfind (dnode d) old2new); reflexivity. }
  rewrite E. unfold badDof. destruct (zfind _ _); reflexivity.
Qed.
Lemma Qccompare_eq a b : Qccompare a b = Eq <-> a = b.
Proof. unfold Qccompare. rewrite <- Qeq_alt. split; [apply Qc_is_canon|intros ->; reflexivity]. Qed.
Lemma dofCmp_eq a b : dofCmp false a b = Eq <-> dkey a = dkey b /\ dcoef a = dcoef b.
Proof.
  unfold dofCmp, dkey. destruct (dnode a ?= dnode b) eqn:E1; [|split; [discriminate|]..].
  - apply Z.compare_eq in E1. destruct (dldof a ?= dldof b) eqn:E2; [|split; [discriminate|]..].
    + apply Z.compare_eq in E2. rewrite Qccompare_eq. split; [intros; split; [congruence|auto]|tauto].
    + intros [Q _]. unfold dkey in Q. assert (Q2 : dldof a = dldof b) by congruence. rewrite Q2, Z.compare_refl in E2. discriminate.
    + intros [Q _]. unfold dkey in Q. assert (Q2 : dldof a = dldof b) by congruence. rewrite Q2, Z.compare_refl in E2. discriminate.
  - intros [Q _]. unfold dkey in Q. assert (Q2 : dnode a = dnode b) by congruence. rewrite Q2, Z.compare_refl in E1. discriminate.
  - intros [Q _]. unfold dkey in Q. assert (Q2 : dnode a = dnode b) by congruence. rewrite Q2, Z.compare_refl in E1. discriminate.
Qed.
Lemma listCmp_eq a : forall b, listCmp (dofCmp false) a b = Eq <-> sameTerms a b.
Proof.
  unfold sameTerms. induction a as [|x a IH]; intros [|y b]; cbn; try (split; congruence).
  destruct (dofCmp false x y) eqn:E.
  - apply dofCmp_eq in E. destruct E as [E1 E2]. rewrite IH, E1, E2. split; congruence.
  - split; [discriminate|]. intros H. assert (E1 : dofCmp false x y = Eq) by (apply dofCmp_eq; split; congruence). congruence.
  - split; [discriminate|]. intros H. assert (E1 : dofCmp false x y = Eq) by (apply dofCmp_eq; split; congruence). congruence.
Qed.
Lemma mpcLess_equiv_full a b : (mpcLess false (Some a) (Some b) = false /\ mpcLess false (Some b) (Some a) = false) <->
  sameTerms (mslave a :: mmast a) (mslave b :: mmast b).
Proof.
  destruct (mpcCmp_good false) as (A & _ & _). rewrite !mpcLess_cmp.
  assert (E : mpcCmp false a b = Eq <-> sameTerms (mslave a :: mmast a) (mslave b :: mmast b)).
  { rewrite <- listCmp_eq. unfold mpcCmp, lexCmp. cbn [listCmp]. reflexivity. }
  rewrite <- E. pose proof (A a b) as Q. destruct (mpcCmp false a b), (mpcCmp false b a); cbn in Q; try discriminate Q; split; try (intros [X Y]); try (intros X); try split; auto; discriminate.
Qed.
