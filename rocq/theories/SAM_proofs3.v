(** Proofs about SAM: virtual work, couplings, reactions, lookups (C07, C09-C12, C31). *)
From Coq Require Import List Arith ZArith QArith Qcanon Bool Permutation Lia.
Require Import ZifyBool ZifyNat.
From Verif Require Import Base SAM_model SAM_spec SAM_proofs SAM_proofs2.
Import ListNotations.
Local Open Scope Z_scope.

Lemma in_firstn {A} n (l : list A) x : In x (firstn n l) -> In x l.
Proof. intros H. rewrite <- (firstn_skipn n l). apply in_or_app. left; exact H. Qed.
Lemma in_skipn {A} n (l : list A) x : In x (skipn n l) -> In x l.
Proof. intros H. rewrite <- (firstn_skipn n l). apply in_or_app. right; exact H. Qed.

(** ** equation lists of elements are in range *)
Lemma nodeEqs_in s node m : In m (nodeEqs s node) -> m = 0 \/ In m (meqn s).
Proof.
  unfold nodeEqs. destruct (0 <? node).
  - intros H. right. apply in_firstn in H. apply in_skipn in H. exact H.
  - destruct (node <? 0); [|intros []]. intros H. left. apply repeat_spec in H. exact H.
Qed.
Lemma meqn_range s m : consistent s -> In m (meqn s) -> - Z.of_nat (nceq s) <= m <= Z.of_nat (neq s).
Proof. intros (L&_&CR&_) Hm. apply (In_nth _ _ 0) in Hm. destruct Hm as (d&Hd&<-). apply CR. lia. Qed.
Lemma getElmEqns_range s iel meen : consistent s -> getElmEqns s iel = Some meen -> eqsOK s meen.
Proof.
  intros C H m Hm. unfold getElmEqns in H. destruct (elmNodes s iel) as [nodes|]; [|discriminate].
  injection H as <-. apply in_flat_map in Hm. destruct Hm as (nd&_&Hm).
  destruct (nodeEqs_in _ _ _ Hm) as [->|Hi]; [lia|]. apply meqn_range; auto.
Qed.
Lemma me_range s meen i : eqsOK s meen -> - Z.of_nat (nceq s) <= me meen i <= Z.of_nat (neq s).
Proof.
  intros R. unfold me. destruct (Nat.lt_ge_cases i (length meen)) as [H|H].
  - apply R. apply nth_In. exact H.
  - rewrite nth_overflow by exact H. lia.
Qed.

(** ** virtual work *)
Lemma qs_swap4 {A B C D} (f : C -> D -> A -> B -> Qc) (R : list A) (Cl : list B) (I : list C) (J : list D) :
  qs (fun r => qs (fun c => qs (fun i => qs (fun j => f i j r c) J) I) Cl) R =
  qs (fun i => qs (fun j => qs (fun r => qs (fun c => f i j r c) Cl) R) J) I.
Proof.
  transitivity (qs (fun r => qs (fun i => qs (fun c => qs (fun j => f i j r c) J) Cl) I) R).
  { apply qs_ext. intros r _. apply (qs_swap (fun c i => qs (fun j => f i j r c) J)). }
  rewrite (qs_swap (fun r i => qs (fun c => qs (fun j => f i j r c) J) Cl)).
  apply qs_ext. intros i _.
  transitivity (qs (fun r => qs (fun j => qs (fun c => f i j r c) Cl) J) R).
  { apply qs_ext. intros r _. apply (qs_swap (fun c j => f i j r c)). }
  apply (qs_swap (fun r j => qs (fun c => f i j r c) Cl)).
Qed.

Lemma expandDof_split s x m : consistent s -> - Z.of_nat (nceq s) <= m <= Z.of_nat (neq s) ->
  expandDof s 1 x m = (expandDof s 0 x m + c0 s m)%Qc.
Proof.
  intros C Hm. destruct (Z_lt_le_dec m 0) as [Hneg|Hnn].
  - rewrite !expandDof_neg by (auto; lia). rewrite !c0_eq. destruct (m <? 0) eqn:E; [|lia]. ring.
  - rewrite c0_eq; unfold expandDof. destruct (0 <? m); destruct (m <? 0) eqn:E; try lia; ring.
Qed.

Lemma bilin_assem s K meen x y : consistent s -> eqsOK s meen -> length x = neq s -> length y = neq s ->
  bilin (neq s) y (fst (assemSparse s K meen)) x =
  qs2 (length meen) (fun i j => expandDof s 0 y (me meen i) * K i j * expandDof s 0 x (me meen j))%Qc.
Proof.
  intros C R Hx Hy. unfold bilin.
  rewrite (qs_ext _ (fun r => qs (fun c => qs (fun i => qs (fun j =>
       (Tcoef s (me meen i) (Z.of_nat (S r)) * nth r y 0) * K i j
       * (Tcoef s (me meen j) (Z.of_nat (S c)) * nth c x 0))%Qc (seq 0 (length meen))) (seq 0 (length meen))) (seq 0 (neq s)))).
  2:{ intros r _. apply qs_ext. intros c _. rewrite assemSparse_entry. unfold qs2.
      rewrite <- qs_scal, <- qs_scal_r. apply qs_ext. intros i _. rewrite <- qs_scal, <- qs_scal_r.
      apply qs_ext. intros j _. ring. }
  rewrite (qs_swap4 (fun i j r c => (Tcoef s (me meen i) (Z.of_nat (S r)) * nth r y 0) * K i j
       * (Tcoef s (me meen j) (Z.of_nat (S c)) * nth c x 0))%Qc).
  unfold qs2. apply qs_ext. intros i _. apply qs_ext. intros j _.
  rewrite !Tcoef_expand by (auto using me_range).
  rewrite <- !qs_scal_r. apply qs_ext. intros r _. rewrite <- qs_scal. reflexivity.
Qed.

Lemma linform_assem s K meen y : consistent s -> eqsOK s meen -> length y = neq s ->
  linform (neq s) y (snd (assemSparse s K meen)) =
  (- qs2 (length meen) (fun i j => expandDof s 0 y (me meen i) * K i j * c0 s (me meen j)))%Qc.
Proof.
  intros C R Hy. unfold linform.
  rewrite (qs_ext _ (fun r => - qs (fun i => qs (fun j => (Tcoef s (me meen i) (Z.of_nat (S r)) * nth r y 0) * (K i j * c0 s (me meen j)))
      (seq 0 (length meen))) (seq 0 (length meen)))%Qc).
  2:{ intros r _. rewrite assemSparse_rhs. unfold qs2.
      transitivity (- (nth r y 0 * qs (fun i => qs (fun j => Tcoef s (me meen i) (Z.of_nat (S r)) * K i j * c0 s (me meen j)) (seq 0 (length meen))) (seq 0 (length meen))))%Qc; [ring|].
      f_equal. rewrite <- qs_scal. apply qs_ext. intros i _. rewrite <- qs_scal. apply qs_ext. intros j _. ring. }
  rewrite qs_opp. f_equal.
  rewrite (qs_swap (fun r i => qs (fun j => (Tcoef s (me meen i) (Z.of_nat (S r)) * nth r y 0) * (K i j * c0 s (me meen j)))%Qc (seq 0 (length meen)))).
  unfold qs2. apply qs_ext. intros i _.
  rewrite (qs_swap (fun r j => (Tcoef s (me meen i) (Z.of_nat (S r)) * nth r y 0) * (K i j * c0 s (me meen j)))%Qc).
  apply qs_ext. intros j _. rewrite Tcoef_expand by (auto using me_range).
  rewrite qs_scal_r. ring.
Qed.

Lemma assembly_virtual_work s K meen x y : consistent s -> eqsOK s meen ->
  length x = neq s -> length y = neq s ->
  (bilin (neq s) y (fst (assemSparse s K meen)) x - linform (neq s) y (snd (assemSparse s K meen)))%Qc =
  qs2 (length meen) (fun i j => expandDof s 0 y (me meen i) * K i j * expandDof s 1 x (me meen j))%Qc.
Proof.
  intros C R Hx Hy. rewrite bilin_assem, linform_assem by auto.
  rewrite (qs2_ext _ (fun i j => expandDof s 0 y (me meen i) * K i j * expandDof s 1 x (me meen j))%Qc
    (fun i j => expandDof s 0 y (me meen i) * K i j * expandDof s 0 x (me meen j)
              + expandDof s 0 y (me meen i) * K i j * c0 s (me meen j))%Qc).
  2:{ intros i j _ _. rewrite expandDof_split by (auto using me_range). ring. }
  rewrite qs2_plus. ring.
Qed.

(** ** order independence of the whole assembly *)
Definition assemAll (s : tables) (els : list (emat * list Z)) : list (Z*Z*Qc) * list (Z*Qc) :=
  (flat_map (fun e => fst (assemSparse s (fst e) (snd e))) els,
   flat_map (fun e => snd (assemSparse s (fst e) (snd e))) els).
Lemma assemAll_perm s els els' : Permutation els els' ->
  (forall r c, entry r c (fst (assemAll s els)) = entry r c (fst (assemAll s els'))) /\
  (forall r, entryV r (snd (assemAll s els)) = entryV r (snd (assemAll s els'))).
Proof.
  intros P. split; intros; unfold assemAll, entry, entryV; cbn [fst snd]; rewrite !qs_flat_map; apply qs_perm; exact P.
Qed.

(** ** couplings *)
Lemma assem_in_couplings s K meen r c v :
  In (r, c, v) (fst (assemSparse s K meen)) -> In (r, c) (elmCouplings s meen).
Proof.
  unfold assemSparse, elmCouplings; cbn [fst]. rewrite in_app_iff. intros [H|H].
  - unfold freeUpd in H. apply in_flat_map in H. destruct H as (j&Hj&H).
    destruct (me meen j <? 1) eqn:E; [destruct H|]. apply in_flat_map. exists j. split; [exact Hj|].
    destruct (0 <? me meen j) eqn:E2; [|lia]. destruct H as [H|H]; [left; congruence|right].
    apply in_flat_map in H. destruct H as (i&Hi&H). apply in_flat_map. exists i. split; [exact Hi|].
    destruct (me meen i <? 1) eqn:E3; [destruct H|]. destruct (0 <? me meen i) eqn:E4; [|lia].
    destruct H as [H|[H|[]]]; [left|right; left]; congruence.
  - unfold consUpd in H. apply in_flat_map in H. destruct H as (j&Hj&H).
    destruct (- me meen j <? 1) eqn:E; [destruct H|]. apply in_flat_map. exists j. split; [exact Hj|].
    destruct (0 <? me meen j) eqn:E2; [lia|]. destruct (me meen j <? 0) eqn:E5; [|lia].
    apply in_flat_map in H. destruct H as (jp&Hjp&H). apply in_flat_map. exists jp. split; [exact Hjp|].
    apply in_flat_map in H. destruct H as (i&Hi&H). apply in_flat_map. exists i. split; [exact Hi|].
    destruct (0 <? me meen i).
    + destruct H as [H|[H|[]]]; [left|right; left]; congruence.
    + destruct (me meen i <? 0); [|destruct H]. apply in_map_iff in H. destruct H as (ip&H&Hip).
      apply in_map_iff. exists ip. split; [congruence|exact Hip].
Qed.

Lemma elmCouplings_iff s meen r c : In (r, c) (elmCouplings s meen) <->
  exists i j, (i < length meen)%nat /\ (j < length meen)%nat /\
    In r (uniqueEqns s [me meen i]) /\ In c (uniqueEqns s [me meen j]).
Proof.
  assert (U : forall q m, In q (uniqueEqns s [m]) <->
     (0 < m /\ q = m) \/ (m < 0 /\ exists t, In (q, t) (masters s (ceqno m)))).
  { intros q m. unfold uniqueEqns. cbn [flat_map]. rewrite app_nil_r.
    destruct (m <? 0) eqn:E1; [|destruct (0 <? m) eqn:E2].
    - rewrite in_map_iff. split.
      + intros ((q'&t)&<-&H). right. split; [lia|]. exists t. exact H.
      + intros [[H _]|[_ (t&H)]]; [lia|]. exists (q, t). auto.
    - cbn [In]. split; [intros [<-|[]]; left; lia|]. intros [[_ H]|[H _]]; [left; lia|lia].
    - split; [intros []|]. intros [[H _]|[H _]]; lia. }
  unfold elmCouplings. rewrite in_flat_map. split.
  - intros (j&Hj&H). apply in_seq in Hj.
    destruct (0 <? me meen j) eqn:E.
    + destruct H as [[= <- <-]|H].
      { exists j, j. repeat split; try lia; apply U; left; lia. }
      apply in_flat_map in H. destruct H as (i&Hi&H). apply in_seq in Hi.
      destruct (0 <? me meen i) eqn:E2; [|destruct H].
      destruct H as [[= <- <-]|[[= <- <-]|[]]]; [exists i, j|exists j, i]; (repeat split; try lia; apply U; left; lia).
    + destruct (me meen j <? 0) eqn:E2; [|destruct H].
      apply in_flat_map in H. destruct H as ((q&t)&Hjp&H). apply in_flat_map in H. destruct H as (i&Hi&H).
      apply in_seq in Hi. cbn [fst] in H.
      destruct (0 <? me meen i) eqn:E3.
      * destruct H as [[= <- <-]|[[= <- <-]|[]]]; [exists i, j|exists j, i]; repeat split; try lia; apply U;
          first [left; lia | right; split; [lia|eauto]].
      * destruct (me meen i <? 0) eqn:E4; [|destruct H]. apply in_map_iff in H.
        destruct H as ((q'&t')&[= <- <-]&Hip). exists i, j. repeat split; try lia; apply U; right; split; try lia; eauto.
  - intros (i&j&Hi&Hj&Hr&Hc). apply U in Hr. apply U in Hc.
    destruct Hr as [[Hr ->]|[Hr (t&Ht)]]; destruct Hc as [[Hc ->]|[Hc (t'&Ht')]].
    + destruct (Nat.lt_trichotomy i j) as [L|[L|L]].
      * exists j. split; [apply in_seq; lia|]. destruct (0 <? me meen j) eqn:E; [|lia]. right.
        apply in_flat_map. exists i. split; [apply in_seq; lia|]. destruct (0 <? me meen i) eqn:E2; [|lia]. left; reflexivity.
      * subst j. exists i. split; [apply in_seq; lia|]. destruct (0 <? me meen i) eqn:E; [|lia]. left. reflexivity.
      * exists i. split; [apply in_seq; lia|]. destruct (0 <? me meen i) eqn:E; [|lia]. right.
        apply in_flat_map. exists j. split; [apply in_seq; lia|]. destruct (0 <? me meen j) eqn:E2; [|lia]. right; left; reflexivity.
    + exists j. split; [apply in_seq; lia|]. destruct (0 <? me meen j) eqn:E; [lia|]. destruct (me meen j <? 0) eqn:E2; [|lia].
      apply in_flat_map. exists (c, t'). split; [exact Ht'|]. apply in_flat_map. exists i. split; [apply in_seq; lia|].
      destruct (0 <? me meen i) eqn:E3; [|lia]. left; reflexivity.
    + exists i. split; [apply in_seq; lia|]. destruct (0 <? me meen i) eqn:E; [lia|]. destruct (me meen i <? 0) eqn:E2; [|lia].
      apply in_flat_map. exists (r, t). split; [exact Ht|]. apply in_flat_map. exists j. split; [apply in_seq; lia|].
      destruct (0 <? me meen j) eqn:E3; [|lia]. right; left; reflexivity.
    + exists j. split; [apply in_seq; lia|]. destruct (0 <? me meen j) eqn:E; [lia|]. destruct (me meen j <? 0) eqn:E2; [|lia].
      apply in_flat_map. exists (c, t'). split; [exact Ht'|]. apply in_flat_map. exists i. split; [apply in_seq; lia|].
      destruct (0 <? me meen i) eqn:E3; [lia|]. destruct (me meen i <? 0) eqn:E4; [|lia].
      apply in_map_iff. exists (r, t). split; [reflexivity|exact Ht].
Qed.

Lemma uniqueEqns_range s meen q : consistent s -> eqsOK s meen -> In q (uniqueEqns s meen) -> 1 <= q <= Z.of_nat (neq s).
Proof.
  intros C R H. unfold uniqueEqns in H. apply in_flat_map in H. destruct H as (m&Hm&H). specialize (R m Hm).
  destruct (m <? 0) eqn:E1; [|destruct (0 <? m) eqn:E2; [|destruct H]].
  - apply in_map_iff in H. destruct H as ((q'&t)&<-&H). cbn [fst]. eapply masters_range; eauto. unfold ceqno; lia.
  - destruct H as [<-|[]]. lia.
Qed.

Lemma dofCouplings_elm s p : In p (dofCouplings s) <->
  exists iel meen, getElmEqns s iel = Some meen /\ In p (elmCouplings s meen).
Proof.
  unfold dofCouplings. rewrite in_flat_map. split.
  - intros (iel&_&H). exists iel. destruct (getElmEqns s iel) as [m|]; [|destruct H]. exists m. auto.
  - intros (iel&m&G&H). exists iel. rewrite G. split; [|exact H].
    unfold getElmEqns, elmNodes in G. destruct ((1 <=? iel)%nat && (iel <=? nel s)%nat) eqn:E; [|discriminate].
    apply in_seq. lia.
Qed.

Lemma couplings_cover s iel meen K r c v : getElmEqns s iel = Some meen ->
  In (r, c, v) (fst (assemSparse s K meen)) -> In (r, c) (dofCouplings s).
Proof. intros G H. apply dofCouplings_elm. exists iel, meen. split; [exact G|]. eapply assem_in_couplings; eauto. Qed.
Lemma couplings_sym s r c : In (r, c) (dofCouplings s) -> In (c, r) (dofCouplings s).
Proof.
  rewrite !dofCouplings_elm. intros (iel&meen&G&H). exists iel, meen. split; [exact G|].
  apply elmCouplings_iff in H. destruct H as (i&j&Hi&Hj&Hr&Hc). apply elmCouplings_iff. exists j, i. auto.
Qed.
Lemma couplings_range s r c : consistent s -> In (r, c) (dofCouplings s) ->
  1 <= r <= Z.of_nat (neq s) /\ 1 <= c <= Z.of_nat (neq s).
Proof.
  intros C H. apply dofCouplings_elm in H. destruct H as (iel&meen&G&H).
  pose proof (getElmEqns_range s iel meen C G) as R.
  apply elmCouplings_iff in H. destruct H as (i&j&Hi&Hj&Hr&Hc).
  assert (R1 : forall k, eqsOK s [me meen k]) by (intros k m [<-|[]]; apply me_range; exact R).
  split; [apply (uniqueEqns_range s [me meen i])|apply (uniqueEqns_range s [me meen j])]; auto.
Qed.

(** ** reactions *)
Definition reactInner (s : tables) (K : emat) (meen : list Z) (j : nat) (e : option (list Qc)) : option (list Qc) :=
  fold_left (fun e i => if me meen i <? 1 then
       let l := match e with Some l => l | None => repeat 0%Qc (length meen) end in
       Some (upd i (- (coff s (ceqno (me meen j)) * K i j))%Qc l) else e) (seq 0 (length meen)) e.
Definition eSval (e : option (list Qc)) (i : nat) : Qc := match e with Some l => nth i l 0%Qc | None => 0%Qc end.
Definition eSlen (n : nat) (e : option (list Qc)) : Prop := match e with Some l => length l = n | None => True end.

Lemma reactInner_gen s K meen j : forall is e, eSlen (length meen) e -> NoDup is ->
  (forall i, In i is -> (i < length meen)%nat) ->
  let e' := fold_left (fun e i => if me meen i <? 1 then
       let l := match e with Some l => l | None => repeat 0%Qc (length meen) end in
       Some (upd i (- (coff s (ceqno (me meen j)) * K i j))%Qc l) else e) is e in
  eSlen (length meen) e' /\
  forall i, eSval e' i = if existsb (Nat.eqb i) is && (me meen i <? 1) then (- (coff s (ceqno (me meen j)) * K i j))%Qc else eSval e i.
Proof.
  induction is as [|i0 is IH]; intros e He Hn Hr e'; subst e'; cbn [fold_left].
  - split; [exact He|]. intros i. reflexivity.
  - inversion Hn as [|? ? Hi Hn']; subst.
    set (e1 := if me meen i0 <? 1 then _ else e).
    assert (H1 : eSlen (length meen) e1 /\ forall i, eSval e1 i =
       if Nat.eqb i i0 && (me meen i <? 1) then (- (coff s (ceqno (me meen j)) * K i j))%Qc else eSval e i).
    { subst e1. specialize (Hr i0 (or_introl eq_refl)). destruct (me meen i0 <? 1) eqn:E.
      - split.
        + cbv beta zeta. unfold eSlen. rewrite upd_length. destruct e as [l|]; [exact He|apply repeat_length].
        + intros i. cbv beta zeta. unfold eSval at 1. rewrite upd_nth.
          assert (L : length (match e with Some l => l | None => repeat 0%Qc (length meen) end) = length meen)
            by (destruct e as [l|]; [exact He|apply repeat_length]).
          rewrite L. destruct (Nat.eqb_spec i i0) as [->|Hne].
          * rewrite E. destruct (Nat.ltb_spec i0 (length meen)); [reflexivity|lia].
          * cbn [andb]. destruct e as [l|]; [reflexivity|]. unfold eSval. apply nth_repeat.
      - split; [exact He|]. intros i. destruct (Nat.eqb_spec i i0) as [->|Hne]; [rewrite E|]; reflexivity. }
    destruct H1 as [L1 V1]. destruct (IH e1 L1 Hn' (fun i Hi' => Hr i (or_intror Hi'))) as [L2 V2].
    split; [exact L2|]. intros i. rewrite V2, V1. cbn [existsb].
    destruct (existsb (Nat.eqb i) is) eqn:Ex.
    + rewrite orb_true_r. cbn [andb]. destruct (me meen i <? 1); [reflexivity|]. rewrite andb_false_r. reflexivity.
    + rewrite orb_false_r. destruct (Nat.eqb i i0); reflexivity.
Qed.

Lemma reactInner_val s K meen j e : eSlen (length meen) e ->
  eSlen (length meen) (reactInner s K meen j e) /\
  forall i, (i < length meen)%nat -> eSval (reactInner s K meen j e) i =
    if me meen i <? 1 then (- (coff s (ceqno (me meen j)) * K i j))%Qc else eSval e i.
Proof.
  intros He. destruct (reactInner_gen s K meen j (seq 0 (length meen)) e He (seq_NoDup _ _)) as [L V].
  { intros i Hi. apply in_seq in Hi. lia. }
  split; [exact L|]. intros i Hi. unfold reactInner. rewrite V.
  assert (existsb (Nat.eqb i) (seq 0 (length meen)) = true) as ->; [|reflexivity].
  apply existsb_exists. exists i. split; [apply in_seq; lia|apply Nat.eqb_refl].
Qed.
Lemma reactInner_zero s K meen j e i : eSlen (length meen) e -> (i < length meen)%nat -> 1 <= me meen i ->
  eSval (reactInner s K meen j e) i = eSval e i.
Proof. intros He Hi Hm. destruct (reactInner_val s K meen j e He) as [_ V]. rewrite V by exact Hi.
  destruct (me meen i <? 1) eqn:E; [lia|reflexivity]. Qed.

(** the last constrained DOF of a list of indices *)
Definition lastCon (meen : list Z) (js : list nat) : option nat :=
  fold_left (fun a j => if - me meen j <? 1 then a else Some j) js None.
Lemma lastCon_snoc meen js j : lastCon meen (js ++ [j]) = if - me meen j <? 1 then lastCon meen js else Some j.
Proof. unfold lastCon. rewrite fold_left_app. reflexivity. Qed.
Lemma reactLoop_snoc s K meen js j e :
  reactLoop s K meen (js ++ [j]) e =
  if - me meen j <? 1 then reactLoop s K meen js e else reactInner s K meen j (reactLoop s K meen js e).
Proof.
  revert e. induction js as [|k js IH]; intros e; cbn [app reactLoop].
  - destruct (- me meen j <? 1); reflexivity.
  - destruct (- me meen k <? 1); apply IH.
Qed.

Lemma reactLoop_val s K meen js :
  eSlen (length meen) (reactLoop s K meen js None) /\
  forall i, (i < length meen)%nat -> eSval (reactLoop s K meen js None) i =
    match lastCon meen js with
    | Some j => if me meen i <? 1 then (- (coff s (ceqno (me meen j)) * K i j))%Qc else 0%Qc
    | None => 0%Qc end.
Proof.
  induction js as [|j js IH] using rev_ind.
  - split; [exact I|]. intros; reflexivity.
  - rewrite reactLoop_snoc, lastCon_snoc. destruct IH as [L V]. destruct (- me meen j <? 1); [split; auto|].
    destruct (reactInner_val s K meen j _ L) as [L2 V2]. split; [exact L2|].
    intros i Hi. rewrite V2 by exact Hi. destruct (me meen i <? 1) eqn:E; [reflexivity|].
    rewrite V by exact Hi. destruct (lastCon meen js); rewrite ?E; reflexivity.
Qed.

Lemma reactVec_last s K meen i : (i < length meen)%nat ->
  eSval (reactVec s K meen) i =
    match lastCon meen (seq 0 (length meen)) with
    | Some j => if me meen i <? 1 then (- (coff s (ceqno (me meen j)) * K i j))%Qc else 0%Qc
    | None => 0%Qc end.
Proof. intros Hi. apply reactLoop_val. exact Hi. Qed.

Lemma lastCon_spec meen n :
  match lastCon meen (seq 0 n) with
  | Some j => (j < n)%nat /\ me meen j < 0 /\ forall k, (j < k < n)%nat -> 0 <= me meen k
  | None => forall k, (k < n)%nat -> 0 <= me meen k
  end.
Proof.
  induction n as [|n IH]; [simpl; lia|]. rewrite seq_S, lastCon_snoc. cbn [Nat.add].
  destruct (- me meen n <? 1) eqn:E.
  - destruct (lastCon meen (seq 0 n)) as [j|].
    + destruct IH as (A&B&D). repeat split; [lia|exact B|]. intros k Hk.
      destruct (Nat.eq_dec k n) as [->|]; [lia|]. apply D. lia.
    + intros k Hk. destruct (Nat.eq_dec k n) as [->|]; [lia|]. apply IH. lia.
  - repeat split; try lia.
Qed.

Lemma reactSum_eq s K meen i : reactSum s K meen i =
  if me meen i <? 1 then
    qs (fun j => if (me meen j <? 0)%Z then - (coff s (ceqno (me meen j)) * K i j) else 0)%Qc (seq 0 (length meen))
  else 0%Qc.
Proof. reflexivity. Qed.
(** partial C10: correct if all constrained DOFs but the last one give nothing *)
Lemma reactVec_sum_partial s K meen i : (i < length meen)%nat ->
  (forall j k, (j < k < length meen)%nat -> me meen j < 0 -> me meen k < 0 ->
     (coff s (ceqno (me meen j)) * K i j = 0)%Qc) ->
  eSval (reactVec s K meen) i = reactSum s K meen i.
Proof.
  intros Hi H. rewrite reactVec_last by exact Hi. rewrite reactSum_eq. pose proof (lastCon_spec meen (length meen)) as S.
  destruct (lastCon meen (seq 0 (length meen))) as [j|].
  - destruct S as (A&B&D). destruct (me meen i <? 1) eqn:E; [|reflexivity].
    rewrite (qs_single _ _ j).
    + destruct (me meen j <? 0) eqn:E2; [reflexivity|lia].
    + apply seq_NoDup.
    + apply in_seq; lia.
    + intros k Hk Hne. apply in_seq in Hk. destruct (me meen k <? 0) eqn:E2; [|reflexivity].
      destruct (Nat.lt_trichotomy k j) as [L|[L|L]]; [|contradiction|].
      * rewrite (H k j) by lia. ring.
      * specialize (D k ltac:(lia)). lia.
  - destruct (me meen i <? 1); [|reflexivity]. symmetry. apply qs_zero. intros k Hk. apply in_seq in Hk.
    specialize (S k ltac:(lia)). destruct (me meen k <? 0) eqn:E2; [lia|reflexivity].
Qed.

Lemma addAt_nth k v l p : (k < length l)%nat -> nth p (addAt k v l) 0%Qc = (nth p l 0 + if Nat.eqb p k then v else 0)%Qc.
Proof.
  intros H. unfold addAt. rewrite upd_nth. destruct (Nat.eqb_spec p k) as [->|Hn]; cbn [andb].
  - destruct (Nat.ltb_spec k (length l)); [ring|lia].
  - ring.
Qed.
Lemma assembleReactions_val s rf eS nodes p : (p < length rf)%nat ->
  length (assembleReactions s rf eS nodes) = length rf /\
  nth p (assembleReactions s rf eS nodes) 0%Qc =
  (nth p rf 0 + qs (fun q : option nat * Qc => if (reactPos s (fst q) =? Z.of_nat (S p))%Z then snd q else 0%Qc)
                  (combine (flat_map (dofsOf s) nodes) eS))%Qc.
Proof.
  intros Hp. unfold assembleReactions. generalize (combine (flat_map (dofsOf s) nodes) eS) as l. intros l.
  revert rf Hp. induction l as [|[d v] l IH]; intros rf Hp; cbn [fold_left fst snd].
  - rewrite qs_nil. split; [reflexivity|ring].
  - rewrite qs_cons. cbn [fst snd]. destruct d as [d|]; cbn [reactPos].
    + set (ip := - nth (d-1) (msc s) 0). destruct ((0 <? ip) && (ip <=? Z.of_nat (length rf))) eqn:E.
      * destruct (IH (addAt (Z.to_nat (ip-1)) v rf)) as [L V]; [rewrite addAt_length; exact Hp|].
        rewrite L, V, addAt_length. split; [reflexivity|]. rewrite addAt_nth by lia.
        destruct (Nat.eqb_spec p (Z.to_nat (ip - 1))); destruct (ip =? Z.of_nat (S p)) eqn:E2; try lia; ring.
      * destruct (IH rf Hp) as [L V]. rewrite L, V. split; [reflexivity|].
        destruct (ip =? Z.of_nat (S p)) eqn:E2; [lia|]. ring.
    + destruct (IH rf Hp) as [L V]. rewrite L, V. split; [reflexivity|].
      destruct (0 =? Z.of_nat (S p)) eqn:E2; [lia|]. ring.
Qed.

(** ** lookups *)
Lemma findNode_skip mad : forall n idof,
  findNode mad n idof = (0, 0) /\ (forall k, (S k < length mad)%nat -> Z.of_nat (nth (S k) mad 0%nat) <= idof) \/
  exists k, (S k < length mad)%nat /\ idof < Z.of_nat (nth (S k) mad 0%nat) /\
    (forall k', (k' < k)%nat -> Z.of_nat (nth (S k') mad 0%nat) <= idof) /\
    findNode mad n idof = (Z.of_nat (n + k), idof - Z.of_nat (nth k mad 0%nat) + 1).
Proof.
  induction mad as [|b r IH]; intros n idof; [left; split; [reflexivity|simpl; lia]|].
  destruct r as [|e q]; [left; split; [reflexivity|simpl; lia]|].
  change (findNode (b :: e :: q) n idof) with
    (if idof <? Z.of_nat e then (Z.of_nat n, idof - Z.of_nat b + 1) else findNode (e :: q) (S n) idof).
  destruct (idof <? Z.of_nat e) eqn:E.
  - right. exists 0%nat. cbn [nth length]. repeat split; try lia. f_equal. lia.
  - destruct (IH (S n) idof) as [[H1 H2]|(k&K1&K2&K3&K4)].
    + left. split; [exact H1|]. intros [|k] Hk; cbn [nth length] in *; [lia|]. apply (H2 k). lia.
    + right. exists (S k). repeat split.
      * cbn [length] in *. lia.
      * exact K2.
      * intros [|k'] Hk'; [cbn [nth]; lia|]. apply K3. lia.
      * rewrite K4. f_equal. f_equal. lia.
Qed.

Lemma madof_mono s : madofOK s -> forall a b, (a <= b <= nnod s)%nat -> (nth a (madof s) 0 <= nth b (madof s) 0)%nat.
Proof.
  intros (_&M&_) a b. induction b as [|b IH]; intros H; [replace a with 0%nat by lia; lia|].
  destruct (Nat.eq_dec a (S b)) as [->|]; [lia|]. specialize (IH ltac:(lia)). specialize (M b ltac:(lia)). lia.
Qed.
Lemma madof_len s : madofOK s -> length (madof s) = S (nnod s).
Proof.
  intros (H&_). unfold nnod. destruct (madof s) as [|b r]; [discriminate H|reflexivity].
Qed.

Lemma node_of_dof s idof n l : madofOK s -> 1 <= idof <= Z.of_nat (ndof s) ->
  (getNodeAndLocalDof s idof false = (n, l) <-> isDof s n l idof).
Proof.
  intros OK Hd. pose proof (madof_len s OK) as L. pose proof (madof_mono s OK) as M. pose proof OK as (F0&_&FL).
  unfold getNodeAndLocalDof. 
  destruct (findNode_skip (madof s) 1 idof) as [[_ H]|(k&K1&K2&K3&K4)].
  { exfalso. destruct (nnod s) as [|m] eqn:En.
    - rewrite FL in F0. lia.
    - specialize (H m ltac:(lia)). rewrite FL in H. lia. }
  rewrite K4.
  assert (Kb : Z.of_nat (nth k (madof s) 0%nat) <= idof).
  { destruct k as [|k]; [rewrite F0; lia|]. apply (K3 k). lia. }
  split.
  - intros H0. assert (Hn : n = Z.of_nat (1 + k)) by congruence.
    assert (Hl : l = idof - Z.of_nat (nth k (madof s) 0%nat) + 1) by congruence. unfold isDof.
    replace (Z.to_nat (n - 1)) with k by lia. replace (Z.to_nat n) with (S k) by lia. lia.
  - intros (R1&R2&E&R3). assert (E1 : Z.to_nat n = S k).
    { destruct (Nat.lt_trichotomy (Z.to_nat n) (S k)) as [T|[T|T]]; [|exact T|]; exfalso.
      - specialize (M (Z.to_nat n) k ltac:(lia)). lia.
      - specialize (M (S k) (Z.to_nat (n-1)) ltac:(lia)). lia. }
    f_equal; [lia|]. rewrite E. replace (Z.to_nat (n-1)) with k by lia. lia.
Qed.

Lemma node_of_dof_high s idof : madofOK s -> Z.of_nat (ndof s) < idof -> getNodeAndLocalDof s idof false = (0, 0).
Proof.
  intros OK Hd. pose proof (madof_len s OK) as L. pose proof (madof_mono s OK) as M. pose proof OK as (F0&_&FL).
  unfold getNodeAndLocalDof.
  destruct (findNode_skip (madof s) 1 idof) as [[H _]|(k&K1&K2&K3&K4)]; [exact H|].
  exfalso. specialize (M (S k) (nnod s) ltac:(lia)). lia.
Qed.

Lemma findPos_spec x l : match findPos x l with
  | Some k => (k < length l)%nat /\ nth k l 0 = x
  | None => ~ In x l end.
Proof.
  induction l as [|y l IH]; [simpl; auto|]. cbn [findPos]. destruct (x =? y) eqn:E.
  - cbn [length nth]. split; lia.
  - destruct (findPos x l) as [k|]; cbn [option_map length nth].
    + destruct IH. split; [lia|assumption].
    + intros [H|H]; [lia|contradiction].
Qed.

(** what the equation-number variant reports: the DOF before the right one *)
Lemma node_of_eqn s e d : consistent s -> 1 <= e <= Z.of_nat (neq s) -> (d < ndof s)%nat -> nth d (meqn s) 0 = e ->
  getNodeAndLocalDof s e true = getNodeAndLocalDof s (Z.of_nat d) false.
Proof.
  intros (L&_&_&U) He Hd Hm. unfold getNodeAndLocalDof. pose proof (findPos_spec e (meqn s)) as P.
  destruct (findPos e (meqn s)) as [k|].
  - destruct P as [P1 P2]. destruct (U e He) as (d0&_&_&Q). rewrite (Q d Hd Hm). rewrite (Q k) by lia. reflexivity.
  - exfalso. apply P. rewrite <- Hm. apply nth_In. lia.
Qed.

Lemma getDofVal_spec s v n l idof : madofOK s -> length v = ndof s -> isDof s n l idof ->
  getDofVal s v n l = if idof <? Z.of_nat (ndof s) then nth (Z.to_nat (idof-1)) v 0%Qc else 0%Qc.
Proof.
  intros OK Hv (R1&R2&E&R3). unfold getDofVal.
  destruct ((n <? 1) || (Z.of_nat (nnod s) <? n) || (l <? 1)) eqn:B; [lia|]. rewrite <- E, Hv.
  destruct (idof <? Z.of_nat (nth (Z.to_nat n) (madof s) 0%nat)) eqn:B2; [|lia]. reflexivity.
Qed.
Lemma getDofVal_outside s v n l : (n < 1 \/ Z.of_nat (nnod s) < n \/ l < 1 \/
    (1 <= n <= Z.of_nat (nnod s) /\ 1 <= l /\ Z.of_nat (nth (Z.to_nat n) (madof s) 0%nat) <= Z.of_nat (nth (Z.to_nat (n-1)) (madof s) 0%nat) + l - 1)) ->
  getDofVal s v n l = 0%Qc.
Proof.
  intros H. unfold getDofVal. destruct ((n <? 1) || (Z.of_nat (nnod s) <? n) || (l <? 1)) eqn:B; [reflexivity|].
  destruct (Z.of_nat (nth (Z.to_nat (n-1)) (madof s) 0%nat) + l - 1 <? Z.of_nat (nth (Z.to_nat n) (madof s) 0%nat)) eqn:B2; [lia|reflexivity].
Qed.

Lemma getEquation_spec s n l idof : isDof s n l idof ->
  getEquation s n l = Z.max 0 (eqn s idof).
Proof.
  intros (R1&R2&E&R3). unfold getEquation, eqn.
  destruct ((n <? 1) || (Z.of_nat (nnod s) <? n) || (l <? 1)) eqn:B; [lia|]. rewrite <- E.
  destruct (Z.of_nat (nth (Z.to_nat n) (madof s) 0%nat) <=? idof) eqn:B2; [lia|].
  destruct (0 <? nth (Z.to_nat (idof-1)) (meqn s) 0) eqn:B3; lia.
Qed.

Lemma uniqueEqns_iff s meen r : In r (uniqueEqns s meen) <-> eqInElm s meen r.
Proof.
  unfold uniqueEqns, eqInElm. rewrite in_flat_map. split; intros (m&Hm&H); exists m; split; auto.
  - destruct (m <? 0) eqn:E1; [|destruct (0 <? m) eqn:E2; [|destruct H]].
    + right. split; [lia|]. apply in_map_iff in H. destruct H as ((q'&t)&<-&H). apply in_masters in H.
      destruct H as (j&A&B&D). exists j, t. auto.
    + left. destruct H as [<-|[]]. lia.
  - destruct H as [[H ->]|[H (j&t&A&B&->)]].
    + destruct (m <? 0) eqn:E1; [lia|]. destruct (0 <? m) eqn:E2; [|lia]. left; reflexivity.
    + destruct (m <? 0) eqn:E1; [|lia]. apply in_map_iff. exists (eqnOf s j, t). split; [reflexivity|].
      apply in_masters. exists j. auto.
Qed.
Lemma couplings_exact s r c : In (r, c) (dofCouplings s) <->
  exists iel meen, getElmEqns s iel = Some meen /\ eqInElm s meen r /\ eqInElm s meen c.
Proof.
  assert (U : forall x meen, eqInElm s meen x <-> exists i, (i < length meen)%nat /\ In x (uniqueEqns s [me meen i])).
  { intros x meen. rewrite <- uniqueEqns_iff. unfold uniqueEqns at 1. rewrite in_flat_map. split.
    - intros (m&Hm&H). apply (In_nth _ _ 0) in Hm. destruct Hm as (i&Hi&<-). exists i. split; [exact Hi|].
      unfold uniqueEqns. cbn [flat_map]. rewrite app_nil_r. exact H.
    - intros (i&Hi&H). exists (me meen i). split; [apply nth_In; exact Hi|].
      unfold uniqueEqns in H. cbn [flat_map] in H. rewrite app_nil_r in H. exact H. }
  rewrite dofCouplings_elm. split.
  - intros (iel&meen&G&H). exists iel, meen. split; [exact G|]. apply elmCouplings_iff in H.
    destruct H as (i&j&Hi&Hj&A&B). split; apply U; eauto.
  - intros (iel&meen&G&A&B). exists iel, meen. split; [exact G|]. apply elmCouplings_iff.
    apply U in A. apply U in B. destruct A as (i&Hi&A). destruct B as (j&Hj&B). exists i, j. auto.
Qed.

(** ** element equations *)
Lemma firstn_skipn_map (l : list Z) : forall b n, (b + n <= length l)%nat ->
  firstn n (skipn b l) = map (fun k => nth k l 0) (seq b n).
Proof.
  intros b n H. apply nth_ext with (d := 0) (d' := 0).
  - rewrite firstn_length, skipn_length, map_length, seq_length. lia.
  - rewrite firstn_length, skipn_length. intros k Hk.
    rewrite nth_firstn_lt by lia. rewrite nth_skipn.
    rewrite (nth_map' _ _ 0%nat) by (rewrite seq_length; lia). rewrite seq_nth by lia. reflexivity.
Qed.
Lemma elmNodes_spec s iel : (1 <= iel <= nel s)%nat -> ptrOK s iel -> elmNodes s iel = Some (nodeList s iel).
Proof.
  intros Hi (P1&P2&P3). unfold elmNodes, nodeList.
  destruct ((1 <=? iel)%nat && (iel <=? nel s)%nat) eqn:E; [|lia]. f_equal.
  rewrite firstn_skipn_map by lia.
  set (b := nth (iel-1) (mpmnpc s) 0%nat) in *. 
  replace (seq b (nth iel (mpmnpc s) 0%nat - b)) with (map S (seq (b-1) (nth iel (mpmnpc s) 0%nat - b))).
  - rewrite map_map. apply map_ext. intros k. f_equal. lia.
  - rewrite seq_shift. f_equal. lia.
Qed.
Lemma nodeEqs_spec s node : madofOK s -> length (meqn s) = ndof s -> node <> 0 -> Z.abs node <= Z.of_nat (nnod s) ->
  nodeEqs s node = map (fun o => match o with Some d => eqnOf s d | None => 0 end) (elmDofs s [node]).
Proof.
  intros OK L H0 H1. unfold nodeEqs, elmDofs. cbn [flat_map]. rewrite app_nil_r, map_map.
  set (n := Z.to_nat (Z.abs node)). set (b := nth (n-1) (madof s) 0%nat). set (e := nth n (madof s) 0%nat).
  assert (Hb : (1 <= b)%nat).
  { unfold b. pose proof (madof_mono s OK 0%nat (n-1)%nat ltac:(lia)) as MM. destruct OK as (F0&_). rewrite F0 in MM. exact MM. }
  assert (He : (e <= S (ndof s))%nat).
  { unfold e. pose proof (madof_mono s OK n (nnod s) ltac:(lia)) as MM. destruct OK as (_&_&FL). rewrite FL in MM. exact MM. }
  destruct (0 <? node) eqn:E.
  - destruct (Nat.le_gt_cases e b) as [Hle|Hgt].
    { replace (e - b)%nat with 0%nat by lia. reflexivity. }
    rewrite firstn_skipn_map by lia.
    replace (seq b (e-b)) with (map S (seq (b-1) (e-b))) by (rewrite seq_shift; f_equal; lia).
    rewrite map_map. apply map_ext. intros k. unfold eqnOf. f_equal. lia.
  - destruct (node <? 0) eqn:E2; [|lia]. clear. generalize (e-b)%nat as k. generalize b as x. intros x k. revert x.
    induction k as [|k IH]; intros x; [reflexivity|].
    cbn [repeat seq map]. f_equal. apply IH.
Qed.
Lemma elmEqns_spec s iel : madofOK s -> length (meqn s) = ndof s -> ptrOK s iel -> connOK s (nodeList s iel) ->
  getElmEqns s iel = if (1 <=? iel)%nat && (iel <=? nel s)%nat
    then Some (map (fun o => match o with Some d => eqnOf s d | None => 0 end) (elmDofs s (nodeList s iel))) else None.
Proof.
  intros OK L P C. destruct ((1 <=? iel)%nat && (iel <=? nel s)%nat) eqn:E.
  - unfold getElmEqns. rewrite elmNodes_spec by (auto; lia). f_equal.
    revert C. generalize (nodeList s iel) as l. induction l as [|nd l IH]; intros C; [reflexivity|].
    cbn [flat_map]. rewrite IH by (intros x Hx; apply C; right; exact Hx).
    destruct (C nd (or_introl eq_refl)) as [C1 C2]. rewrite nodeEqs_spec by auto.
    unfold elmDofs. cbn [flat_map]. rewrite app_nil_r, map_app. reflexivity.
  - unfold getElmEqns, elmNodes. rewrite E. reflexivity.
Qed.
