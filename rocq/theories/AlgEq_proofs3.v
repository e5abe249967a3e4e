(** Assembly of one element: always defined, and what it adds. *)
From Coq Require Import List Arith ZArith QArith Qcanon Bool Lia Permutation.
From Verif Require Import Base SAM_model SAM_spec SAM_proofs SAM_proofs2 SAM_proofs3 SAM_proofs4 Sparse_model Sparse_spec Sparse_proofs Sparse_proofs2 Sparse_proofs3 Sparse_proofs4 Sparse_proofs5 Sparse_proofs6 Sparse_proofs8 AlgEq_model AlgEq_spec AlgEq_proofs AlgEq_proofs2.
Import ListNotations.
Local Open Scope nat_scope.

(** ** Vectors and reactions *)
Lemma elmDofs_eq s nodes : elmDofs s nodes = map (option_map Z.of_nat) (flat_map (dofsOf s) nodes).
Proof.
  unfold elmDofs. induction nodes as [|n nodes IH]; [reflexivity|]. cbn [flat_map]. rewrite map_app, IH. f_equal. unfold dofsOf. cbv zeta.
  destruct (0 <? n)%Z eqn:E; [rewrite map_map; reflexivity|]. destruct (n <? 0)%Z eqn:E2.
  - generalize (nth (Z.to_nat (Z.abs n)) (madof s) 0 - nth (Z.to_nat (Z.abs n) - 1) (madof s) 0) as k. generalize (nth (Z.to_nat (Z.abs n) - 1) (madof s) 0) as st. intros st k. revert st.
    induction k as [|k IHk]; intros st; [reflexivity|]. cbn. f_equal. apply IHk.
  - assert (n = 0%Z) by lia. subst n. cbn. rewrite Nat.sub_diag. reflexivity.
Qed.
Lemma qs_combine {X} (f : X -> Qc -> Qc) (ds : list X) : forall eS n, length eS = n \/ (eS = [] /\ forall x, f x 0%Qc = 0%Qc) ->
  qs (fun q => f (fst q) (snd q)) (combine ds eS) = qs (fun i => match nth_error ds i with Some x => f x (nth i eS 0%Qc) | None => 0%Qc end) (seq 0 n).
Proof.
  induction ds as [|x ds IH]; intros eS n H.
  - cbn. symmetry. apply qs_zero. intros [|i] _; reflexivity.
  - destruct H as [H|[H Z]].
    + destruct eS as [|e eS]; cbn in H; subst n; [reflexivity|]. cbn [combine seq]. rewrite !qs_cons. cbn [fst snd nth_error nth]. f_equal. rewrite (IH eS (length eS)) by auto.
      rewrite <- seq_shift, qs_map. apply qs_ext. reflexivity.
    + subst eS. cbn. symmetry. apply qs_zero. intros i _. destruct (nth_error (x :: ds) i); [|reflexivity]. destruct i; apply Z.
Qed.
Definition rOK (a z : option (list Qc)) : Prop := match a, z with None, None => True | Some u, Some v => length u = length v | _, _ => False end.
Definition rAdd (f : nat -> Qc) (a z : option (list Qc)) : Prop := match a, z with Some u, Some v => forall p, p < length u -> nth p v 0%Qc = (nth p u 0 + f p)%Qc | _, _ => True end.
Lemma rOK_refl a : rOK a a. Proof. destruct a; reflexivity || exact I. Qed.
Lemma rAdd_zero f a : (forall p, f p = 0%Qc) -> rAdd f a a.
Proof. intros H. destruct a; cbn; auto. intros p _. rewrite H. ring. Qed.
Lemma rOK_trans a z u : rOK a z -> rOK z u -> rOK a u.
Proof. destruct a, z, u; cbn; try tauto. congruence. Qed.
Lemma rAdd_trans f g k a z u : rOK a z -> rAdd f a z -> rAdd g z u -> (forall p, k p = (f p + g p)%Qc) -> rOK z u -> rAdd k a u.
Proof. destruct a, z, u; cbn; try tauto. intros L F G K _ p Hp. rewrite G by (rewrite <- L; exact Hp). rewrite F by exact Hp. rewrite K. ring. Qed.

Lemma assembleReactions_len s rf eS nodes : length (assembleReactions s rf eS nodes) = length rf.
Proof.
  unfold assembleReactions. generalize (combine (flat_map (dofsOf s) nodes) eS) as l. intros l. revert rf. induction l as [|[[d|] v] l IH]; intros rf; cbn [fold_left fst snd]; auto.
  rewrite IH. cbv zeta. destruct (_ && _)%Z; [apply addAt_length|reflexivity].
Qed.
Lemma reactions_add s rf eS nodes n : length eS = n \/ eS = [] ->
  rAdd (reactAt s nodes n (fun i => nth i eS 0%Qc)) (Some rf) (Some (assembleReactions s rf eS nodes)).
Proof.
  intros Hn. cbn. intros p Hp. destruct (assembleReactions_val s rf eS nodes p Hp) as [_ ->]. f_equal.
  rewrite (qs_combine (fun d v => if (reactPos s d =? Z.of_nat (S p))%Z then v else 0%Qc) (flat_map (dofsOf s) nodes) eS n).
  - unfold reactAt. apply qs_ext. intros i _. rewrite elmDofs_eq, nth_error_map. destruct (nth_error (flat_map (dofsOf s) nodes) i) as [[k|]|]; cbn [option_map reactPos]; try reflexivity.
    rewrite Nat2Z.id. reflexivity.
  - destruct Hn as [H|H]; [left; exact H|right; split; [exact H|]]. intros x. destruct (_ =? _)%Z; reflexivity.
Qed.
Lemma addToRHSloop_len s : forall meen S rhs, length (addToRHSloop s meen S rhs) = length rhs.
Proof. induction meen as [|m meen IH]; intros [|v S] rhs; cbn; auto. rewrite IH. apply assembleRHS_len. Qed.
Lemma assembleKRHS_len s K meen rhs : length (assembleKRHS s K meen rhs) = length rhs.
Proof.
  unfold assembleKRHS. generalize (seq 0 (length meen)) at 2 as js. intros js. revert rhs. induction js as [|j js IH]; intros rhs; cbn [fold_left]; auto. rewrite IH.
  destruct (_ <? _)%Z; [reflexivity|]. generalize (seq 0 (length meen)) as is. intros is. revert rhs. induction is as [|i is IHi]; intros rhs; cbn [fold_left]; auto. rewrite IHi. apply assembleRHS_len.
Qed.
Lemma applyRHS_len : forall us rhs, length (applyRHS us rhs) = length rhs.
Proof. unfold applyRHS. induction us as [|u us IH]; intros rhs; cbn [fold_left]; auto. rewrite IH. apply addAt_length. Qed.
Lemma applyRHS_nth p : forall us rhs, (forall u, In u us -> (1 <= fst u <= Z.of_nat (length rhs))%Z) ->
  nth p (applyRHS us rhs) 0%Qc = (nth p rhs 0 + entryV (Z.of_nat (S p)) us)%Qc.
Proof.
  unfold applyRHS. induction us as [|u us IH]; intros rhs H; cbn [fold_left]; [rewrite entryV_nil; ring|].
  pose proof (H u (or_introl eq_refl)) as Hu. rewrite IH by (intros v Hv; rewrite addAt_length; apply H; right; exact Hv).
  rewrite addAt_nth by lia. rewrite entryV_cons. destruct (Nat.eqb_spec p (Z.to_nat (fst u - 1))); destruct (fst u =? Z.of_nat (S p))%Z eqn:E; try lia; ring.
Qed.
Lemma assemRHS_range s K meen u : consistent s -> eqsOK s meen -> In u (snd (assemSparse s K meen)) -> (1 <= fst u <= Z.of_nat (neq s))%Z.
Proof.
  intros C Eq. unfold assemSparse, consRHS. cbn [snd]. intros H. apply in_flat_map in H. destruct H as (j & Hj & H).
  destruct (_ <? _)%Z; [destruct H|]. apply in_flat_map in H. destruct H as (i & Hi & H).
  apply in_seq in Hi. pose proof (me_range s meen i Eq) as Hm. destruct (0 <? me meen i)%Z eqn:E1.
  - destruct H as [<-|[]]. cbn [fst]. lia.
  - destruct (me meen i <? 0)%Z eqn:E2; [|destruct H]. apply in_map_iff in H. destruct H as ([q cf] & <- & Hq). cbn [fst]. eapply masters_range; eauto. unfold ceqno; lia.
Qed.
Lemma elmEqns_N s iel n meen : getElmEqns s iel = Some meen -> n = 0 \/ n = length meen -> getElmEqnsN s iel n = Some meen.
Proof.
  unfold getElmEqns, getElmEqnsN. destruct (elmNodes s iel) as [[|z nodes]|]; try discriminate; intros [= <-] Hn; [reflexivity|]. cbv zeta.
  destruct Hn as [-> | ->]; [reflexivity|]. rewrite Nat.eqb_refl, orb_true_r. reflexivity.
Qed.
Lemma elmEqns_nodes s iel meen : getElmEqns s iel = Some meen -> exists nodes, elmNodes s iel = Some nodes.
Proof. unfold getElmEqns. destruct (elmNodes s iel); [eauto|discriminate]. Qed.

Lemma asmVec_ok s eS iel rhs reac : consistent s -> length rhs = neq s -> (reac <> None -> exists nodes, elmNodes s iel = Some nodes) ->
  exists ok x r, asmVec s eS iel rhs reac = Some (ok, x, r) /\ length x = neq s /\ rOK reac r /\
    (forall meen nodes, getElmEqns s iel = Some meen -> elmNodes s iel = Some nodes -> eS = [] \/ length eS = length meen ->
       ok = true /\ (forall p, nth p x 0%Qc = (nth p rhs 0 + vecTerm s meen eS (S p))%Qc) /\ rAdd (reactAt s nodes (length meen) (fun i => nth i eS 0%Qc)) reac r).
Proof.
  intros C L Hr. unfold asmVec. destruct eS as [|e0 es] eqn:Ee.
  - exists true, rhs, reac. split; [reflexivity|]. split; [exact L|]. split; [apply rOK_refl|]. intros meen nodes _ _ _. split; [reflexivity|]. split.
    + intros p. unfold vecTerm. rewrite qs_zero; [ring|]. intros i _. destruct i; cbn [nth]; ring.
    + apply rAdd_zero. intros p. unfold reactAt. apply qs_zero. intros i _. destruct (nth_error _ i) as [[dd|]|]; try reflexivity. destruct (_ =? _)%Z; [|reflexivity]. destruct i; reflexivity.
  - rewrite <- Ee. rewrite L, Nat.ltb_irrefl. assert (Ne : eS <> []) by (rewrite Ee; discriminate). clear e0 es Ee.
    assert (Lx : length (snd (assembleElmVec s eS iel rhs)) = neq s).
    { unfold assembleElmVec. destruct eS; [contradiction|]. destruct (getElmEqnsN _ _ _); [|exact L]. cbn [snd]. rewrite addToRHSloop_len. exact L. }
    assert (V : forall meen, getElmEqns s iel = Some meen -> eS = [] \/ length eS = length meen -> fst (assembleElmVec s eS iel rhs) = true /\
       forall p, nth p (snd (assembleElmVec s eS iel rhs)) 0%Qc = (nth p rhs 0 + vecTerm s meen eS (S p))%Qc).
    { intros meen G [H|H]; [contradiction|]. pose proof (elmEqns_N s iel (length eS) meen G (or_intror H)) as G'.
      destruct (assembleElmVec_spec s eS iel rhs C L) as [[H1 _]|[(_ & H1 & _)|(_ & meen' & rhs' & H1 & H2 & H3)]]; [contradiction|congruence|].
      rewrite H2. cbn [fst snd]. split; [reflexivity|]. rewrite G' in H1. injection H1 as <-. intros p. rewrite H3. reflexivity. }
    destruct (assembleElmVec s eS iel rhs) as [ok x]. cbn [fst snd] in *. destruct reac as [rf|].
    + destruct (Hr ltac:(discriminate)) as (nodes & En). rewrite En. exists ok, x, (Some (assembleReactions s rf eS nodes)). split; [reflexivity|]. split; [exact Lx|].
      split; [cbn; symmetry; apply assembleReactions_len|]. intros meen nodes' G En' Hm. destruct (V meen G Hm) as [V1 V2]. split; [exact V1|]. split; [exact V2|].
      assert (nodes' = nodes) as -> by congruence. apply reactions_add. tauto.
    + exists ok, x, None. split; [reflexivity|]. split; [exact Lx|]. split; [exact I|]. intros meen nodes' G _ Hm. destruct (V meen G Hm) as [V1 V2]. split; [exact V1|]. split; [exact V2|exact I].
Qed.

(** ** Element matrices *)
Definition matReact (s : tables) (meen : list Z) (E : nat * emat) (i : nat) : Qc :=
  match lastPresc meen with
  | Some j => if negb (fst E =? 0) && (nth i meen 0 <? 1)%Z then (- (offset s (Z.to_nat (- nth j meen 0%Z)) * snd E i j))%Qc else 0%Qc
  | None => 0%Qc
  end.
Lemma lastPresc_eq meen : lastPresc meen = lastCon meen (seq 0 (length meen)).
Proof.
  unfold lastPresc, lastCon. generalize (seq 0 (length meen)) as l. generalize (@None nat) as a. intros a l. revert a.
  induction l as [|j l IH]; intros a; cbn [fold_left]; [reflexivity|]. rewrite IH. f_equal. unfold me. destruct (nth j meen 0 <? 0)%Z eqn:E1, (- nth j meen 0 <? 1)%Z eqn:E2; try lia; reflexivity.
Qed.
Lemma asmReact_ok s K n meen nodes reac : n <> 0 -> rOK reac (asmReact s K meen nodes reac) /\
  rAdd (reactAt s nodes (length meen) (matReact s meen (n, K))) reac (asmReact s K meen nodes reac).
Proof.
  intros Hn. unfold asmReact. destruct reac as [rf|]; [|split; exact I].
  assert (M : forall i, i < length meen -> matReact s meen (n, K) i = eSval (reactVec s K meen) i).
  { intros i Hi. rewrite reactVec_last by exact Hi. unfold matReact. rewrite lastPresc_eq. cbn [fst snd]. apply Nat.eqb_neq in Hn. rewrite Hn. cbn [negb andb]. reflexivity. }
  assert (Ls : eSlen (length meen) (reactVec s K meen)) by apply reactLoop_val.
  destruct (reactVec s K meen) as [eS|].
  - split; [cbn; symmetry; apply assembleReactions_len|]. cbn in Ls. pose proof (reactions_add s rf eS nodes (length meen) (or_introl Ls)) as R. cbn in *. intros p Hp. rewrite (R p Hp).
    f_equal. unfold reactAt. apply qs_ext. intros i Hi. apply in_seq in Hi. rewrite M by lia. reflexivity.
  - split; [apply rOK_refl|]. cbn. intros p _. unfold reactAt. rewrite qs_zero; [ring|]. intros i Hi. apply in_seq in Hi. rewrite M by lia. cbn. destruct (nth_error _ i) as [[dd|]|]; try reflexivity. destruct (_ =? _)%Z; reflexivity.
Qed.
Lemma matReact_0 s nodes meen E : fst E = 0 -> forall p, reactAt s nodes (length meen) (matReact s meen E) p = 0%Qc.
Proof.
  intros H p. unfold reactAt. apply qs_zero. intros i _. unfold matReact. rewrite H. cbn. destruct (nth_error _ i) as [[dd|]|]; try reflexivity. destruct (_ =? _)%Z; [|reflexivity]. destruct (lastPresc meen); reflexivity.
Qed.
Lemma presc_entryV s meen E r : fst E <> 0 -> entryV (Z.of_nat r) (snd (assemSparse s (snd E) meen)) = (- prescTerm s meen E r)%Qc.
Proof. intros H. rewrite assemSparse_rhs. unfold prescTerm. apply Nat.eqb_neq in H. rewrite H. reflexivity. Qed.

Lemma asmKVec_ok s E iel rhs reac : consistent s -> length rhs = neq s ->
  exists ok x r, asmKVec s E iel rhs reac = Some (ok, x, r) /\ length x = neq s /\ rOK reac r /\
    (forall meen nodes, getElmEqns s iel = Some meen -> elmNodes s iel = Some nodes -> fst E = 0 \/ fst E = length meen ->
       ok = true /\ (forall p, nth p x 0%Qc = (nth p rhs 0 - prescTerm s meen E (S p))%Qc) /\ rAdd (reactAt s nodes (length meen) (matReact s meen E)) reac r).
Proof.
  intros C L. unfold asmKVec. destruct (Nat.eqb_spec (fst E) 0) as [E0|E0].
  - exists true, rhs, reac. split; [reflexivity|]. split; [exact L|]. split; [apply rOK_refl|]. intros meen nodes _ _ _. split; [reflexivity|]. split.
    + intros p. unfold prescTerm. rewrite E0. cbn. ring.
    + apply rAdd_zero. apply matReact_0, E0.
  - destruct (getElmEqnsN s iel (fst E)) as [meen|] eqn:G.
    + assert (exists nodes, elmNodes s iel = Some nodes) as (nodes & En) by (unfold getElmEqnsN in G; destruct (elmNodes s iel); [eauto|discriminate]).
      rewrite En, L, Nat.ltb_irrefl. eexists. eexists. eexists. split; [reflexivity|]. split; [rewrite assembleKRHS_len; exact L|].
      destruct E as [n K]. destruct (asmReact_ok s K n meen nodes reac E0) as [R1 R2]. split; [exact R1|]. intros meen' nodes' G' En' Hm.
      assert (nodes' = nodes) as -> by congruence. rewrite (elmEqns_N s iel _ meen' G' Hm) in G. injection G as ->.
      split; [reflexivity|]. split; [|exact R2]. intros p. cbn [snd]. rewrite assembleKRHS_spec; auto; [|eapply getElmEqns_range; eauto]. rewrite (presc_entryV s meen (n, K)) by exact E0. reflexivity.
    + exists false, rhs, reac. split; [reflexivity|]. split; [exact L|]. split; [apply rOK_refl|]. intros meen nodes G' _ Hm. rewrite (elmEqns_N s iel _ meen G' Hm) in G. discriminate.
Qed.

Definition em1 (ro : bool) (meen : list Z) (o : option (nat * emat)) : list (emat * list Z) :=
  match o with Some E => if negb ro && negb (fst E =? 0) then [(snd E, meen)] else [] | None => [] end.
Definition oOK (s : tables) (a z : option (list Qc)) : Prop := match a, z with None, None => True | Some _, Some v => length v = neq s | _, _ => False end.
Definition oAdd (f : nat -> Qc) (a z : option (list Qc)) : Prop := match a, z with Some u, Some v => forall p, nth p v 0%Qc = (nth p u 0 + f p)%Qc | _, _ => True end.
Lemma asmMat_ok s sl E iel M rhs reac : consistent s -> ready s sl M -> (forall v, rhs = Some v -> length v = neq s) ->
  exists ok M' x r, asmMat s E iel M rhs reac = Some (ok, M', x, r) /\ ready s sl M' /\ oOK s rhs x /\ rOK reac r /\
    (forall meen nodes, getElmEqns s iel = Some meen -> elmNodes s iel = Some nodes -> fst E = 0 \/ fst E = length meen ->
       ok = true /\ assembleElms s (em1 false meen (Some E)) M = Some M' /\ oAdd (fun p => - prescTerm s meen E (S p))%Qc rhs x /\
       rAdd (reactAt s nodes (length meen) (matReact s meen E)) reac r).
Proof.
  intros C RM L. unfold asmMat. assert (Lo : oOK s rhs rhs) by (destruct rhs; cbn; auto). destruct (Nat.eqb_spec (fst E) 0) as [E0|E0].
  - exists true, M, rhs, reac. split; [reflexivity|]. split; [exact RM|]. split; [exact Lo|]. split; [apply rOK_refl|]. intros meen nodes _ _ _. split; [reflexivity|]. split; [|split].
    + cbn. rewrite E0. reflexivity.
    + destruct rhs; cbn; auto. intros p. unfold prescTerm. rewrite E0. cbn. ring.
    + apply rAdd_zero. apply matReact_0, E0.
  - destruct (getElmEqnsN s iel (fst E)) as [meen|] eqn:G.
    + assert (exists nodes, elmNodes s iel = Some nodes) as (nodes & En) by (unfold getElmEqnsN in G; destruct (elmNodes s iel); [eauto|discriminate]).
      pose proof (elmEqnsN_ok s iel _ meen C G) as Eq. rewrite En.
      assert ((match rhs with Some v => length v <? neq s | None => false end) = false) as -> by (destruct rhs as [v|]; [rewrite (L v eq_refl), Nat.ltb_irrefl; reflexivity|reflexivity]).
      destruct E as [n K]. cbn [fst snd] in *. destruct (assembleElm_ready s sl K meen M C RM Eq) as (M' & EM & RM'). rewrite EM.
      destruct (asmReact_ok s K n meen nodes reac E0) as [R1 R2].
      eexists. eexists. eexists. eexists. split; [reflexivity|]. split; [exact RM'|]. split; [destruct rhs as [v|]; cbn; auto; rewrite applyRHS_len; apply L; reflexivity|].
      split; [exact R1|]. intros meen' nodes' G' En' Hm.
      assert (nodes' = nodes) as -> by congruence. rewrite (elmEqns_N s iel _ meen' G' Hm) in G. injection G as ->.
      split; [reflexivity|]. split; [|split].
      * cbn. apply Nat.eqb_neq in E0. rewrite E0. cbn. rewrite EM. reflexivity.
      * destruct rhs as [v|]; [|exact I]. cbn [option_map oAdd]. intros p. rewrite applyRHS_nth; [|intros u Hu; rewrite (L v eq_refl); exact (assemRHS_range s K meen u C Eq Hu)].
        f_equal. apply (presc_entryV s meen (n, K)). exact E0.
      * exact R2.
    + exists false, M, rhs, reac. split; [destruct (elmNodes s iel); reflexivity|]. split; [exact RM|]. split; [exact Lo|]. split; [apply rOK_refl|]. intros meen nodes G' _ Hm. rewrite (elmEqns_N s iel _ meen G' Hm) in G. discriminate.
Qed.
