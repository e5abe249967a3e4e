From Coq Require Import List Arith ZArith QArith Qcanon Lia.
From Verif Require Import Race_model.
Import ListNotations.
Local Open Scope Qc_scope.

Section P.
Context {cell : Type} (ceq : forall a b : cell, {a = b} + {a <> b}).
Notation mem := (@mem cell). Notation thread := (@thread cell).

(** what remains to be added to a cell by a thread *)
Definition rem (c : cell) (t : thread) : Qc :=
  (match tpend t with Some (c',d,_) => if ceq c' c then d else 0 | None => 0 end)
  + total ceq c (ttodo t).
Definition remall (c : cell) (ts : list thread) : Qc := fold_right (fun t s => rem c t + s) 0 ts.

Definition touch (t : thread) (c : cell) : Prop :=
  (match tpend t with Some (c',_,_) => c' = c | None => False end) \/ In c (map fst (ttodo t)).
Definition disj (ts : list thread) : Prop :=
  forall l1 t l2 t' l3 c, ts = l1 ++ t :: l2 ++ t' :: l3 -> touch t c -> touch t' c -> False.
Definition pok (m : mem) (t : thread) : Prop :=
  match tpend t with Some (c,d,v) => v = m c + d | None => True end.

Lemma remall_app c a b : remall c (a ++ b) = remall c a + remall c b.
Proof. induction a as [|x a IH]; simpl; [|rewrite IH]; ring. Qed.

Lemma tstep_touch m t m' t' c : tstep ceq m t m' t' -> touch t' c -> touch t c.
Proof.
  intros [m0 c0 d r|m0 c0 d v r]; unfold touch; simpl.
  - intros [->|H]; auto.
  - intros [[]|H]; auto.
Qed.

Lemma disj_mid l1 t t' l2 : disj (l1 ++ t :: l2) -> (forall c, touch t' c -> touch t c) ->
  disj (l1 ++ t' :: l2).
Proof.
  intros D S.
  assert (G : forall (a : list thread) x b y e, a ++ x :: b ++ y :: e = l1 ++ t' :: l2 ->
     exists x' y' a' b' e', l1 ++ t :: l2 = a' ++ x' :: b' ++ y' :: e' /\
       (forall c, touch x c -> touch x' c) /\ (forall c, touch y c -> touch y' c)).
  { clear D. revert l2. induction l1 as [|z l1 IH]; intros l2 a x b y e E.
    - destruct a as [|z a]; simpl in E; injection E; intros; subst.
      + exists t, y, [], b, e. auto.
      + exists x, y, (t :: a), b, e. auto.
    - destruct a as [|z' a]; simpl in E; injection E; clear E; intros E ?; subst.
      + clear IH. revert l1 E. induction b as [|w b IHb]; intros l1 E.
        * destruct l1 as [|q l1]; simpl in E; injection E; intros; subst.
          -- exists z, t, [], [], l2. auto.
          -- exists z, q, [], [], (l1 ++ t :: l2). auto.
        * destruct l1 as [|q l1]; simpl in E; injection E; clear E; intros E ?; subst.
          -- exists z, y, [], (t :: b), e. auto.
          -- destruct (IHb l1 E) as (x'&y'&a'&b'&e'&E'&S1&S2).
             destruct a' as [|h a']; simpl in E'; injection E'; intros E'' ?; subst.
             ++ exists x', y', [], (q :: b'), e'. simpl. rewrite E''. auto.
             ++ exists x', y', (h :: q :: a'), b', e'. simpl. rewrite E''. auto.
      + destruct (IH l2 a x b y e E) as (x'&y'&a'&b'&e'&E'&S1&S2).
        exists x', y', (z :: a'), b', e'. simpl. rewrite E'. auto. }
  intros a x b y e c E Hx Hy. symmetry in E. destruct (G _ _ _ _ _ E) as (x'&y'&a'&b'&e'&E'&S1&S2).
  eapply D; eauto.
Qed.

Lemma tstep_rem m t m' t' c : tstep ceq m t m' t' -> pok m t ->
  m' c + rem c t' = m c + rem c t.
Proof.
  intros [m0 c0 d r|m0 c0 d v r] P; unfold rem, mupd, pok in *; simpl in *.
  - destruct (ceq c0 c); ring.
  - subst v. destruct (ceq c c0) as [->|N].
    + destruct (ceq c0 c0); [ring|congruence].
    + destruct (ceq c0 c); [congruence|ring].
Qed.
Lemma tstep_pok m t m' t' : tstep ceq m t m' t' -> pok m' t'.
Proof. intros [m0 c0 d r|m0 c0 d v r]; unfold pok; simpl; auto. Qed.
Lemma tstep_other m t m' t' u : tstep ceq m t m' t' -> (forall c, touch t c -> touch u c -> False) ->
  pok m u -> pok m' u.
Proof.
  intros [m0 c0 d r|m0 c0 d v r] D P; auto.
  unfold pok, mupd in *. destruct u as [[[[c1 d1] v1]|] r1]; simpl in *; auto.
  destruct (ceq c1 c0) as [->|]; auto.
  exfalso. apply (D c0); unfold touch; simpl; auto.
Qed.

Definition inv (m0 : mem) (tot : cell -> Qc) (s : mem * list thread) : Prop :=
  disj (snd s) /\ Forall (pok (fst s)) (snd s) /\
  forall c, fst s c + remall c (snd s) = m0 c + tot c.

Lemma pstep_inv m0 tot s s' : pstep ceq s s' -> inv m0 tot s -> inv m0 tot s'.
Proof.
  intros [m m' l1 t t' l2 H] (D&P&E). unfold inv in *; cbn [fst snd] in *.
  assert (Pt : pok m t) by (rewrite Forall_forall in P; apply P; rewrite in_app_iff; simpl; auto).
  repeat split.
  - eapply disj_mid; eauto. intros c. eapply tstep_touch; eauto.
  - rewrite Forall_forall in *. intros u Hu. rewrite in_app_iff in Hu. simpl in Hu.
    destruct Hu as [Hu|[<-|Hu]].
    + eapply tstep_other; eauto.
      * intros c Hc Hc'. apply in_split in Hu. destruct Hu as (a&b&->).
        rewrite <- app_assoc in D. simpl in D. eapply D; eauto.
      * apply P. rewrite in_app_iff; auto.
    + eapply tstep_pok; eauto.
    + eapply tstep_other; eauto.
      * intros c Hc Hc'. apply in_split in Hu. destruct Hu as (a&b&->). eapply D; eauto.
      * apply P. rewrite in_app_iff; simpl; auto.
  - intros c. rewrite <- E. rewrite !remall_app. simpl.
    pose proof (tstep_rem m t m' t' c H Pt) as Q.
    replace (m' c + (remall c l1 + (rem c t' + remall c l2)))
      with ((m' c + rem c t') + remall c l1 + remall c l2) by ring.
    rewrite Q. ring.
Qed.

Lemma run_inv m0 tot s s' : run ceq s s' -> inv m0 tot s -> inv m0 tot s'.
Proof. induction 1; auto. intros. apply IHrun. eapply pstep_inv; eauto. Qed.

Lemma total_app c a b : total ceq c (a ++ b) = total ceq c a + total ceq c b.
Proof. induction a as [|x a IH]; simpl; [ring|]. rewrite IH. destruct (ceq _ _); ring. Qed.

Lemma remall_start c progs : remall c (start progs) = total ceq c (concat progs).
Proof.
  induction progs as [|p l IH]; simpl; [reflexivity|].
  rewrite total_app, IH. unfold rem. simpl. ring.
Qed.
Lemma remall_done c ts : done ts -> remall c ts = 0.
Proof. induction 1 as [|t l Ht _ IH]; simpl; [reflexivity|]. subst t. rewrite IH. unfold rem. simpl. ring. Qed.

Lemma race_free m0 progs m' ts' :
  (forall i j c, i <> j -> In c (map fst (nth i progs [])) -> In c (map fst (nth j progs [])) -> False) ->
  run ceq (m0, start progs) (m', ts') -> done ts' ->
  forall c, m' c = m0 c + total ceq c (concat progs).
Proof.
  intros D R F c.
  assert (I : inv m0 (fun c => total ceq c (concat progs)) (m0, start progs)).
  { unfold inv; cbn [fst snd]. repeat split.
    - intros l1 t l2 t' l3 c0 E H1 H2.
      assert (Ht : exists p, t = mkT None p /\ nth (length l1) progs [] = p).
      { exists (nth (length l1) progs []). split; [|reflexivity].
        assert (X : nth (length l1) (start progs) (mkT None []) = t) by (rewrite E, app_nth2, Nat.sub_diag; auto).
        rewrite <- X. unfold start. rewrite (map_nth (mkT None)). reflexivity. }
      assert (Ht' : exists p, t' = mkT None p /\ nth (length l1 + S (length l2)) progs [] = p).
      { exists (nth (length l1 + S (length l2)) progs []). split; [|reflexivity].
        assert (X : nth (length l1 + S (length l2)) (start progs) (mkT None []) = t').
        { rewrite E, app_nth2 by lia. replace (length l1 + S (length l2) - length l1)%nat with (S (length l2)) by lia.
          cbn [nth]. rewrite app_nth2, Nat.sub_diag; auto. }
        rewrite <- X. unfold start. rewrite (map_nth (mkT None)). reflexivity. }
      destruct Ht as (p&->&E1). destruct Ht' as (p'&->&E2).
      unfold touch in H1, H2; simpl in H1, H2. destruct H1 as [[]|H1]. destruct H2 as [[]|H2].
      eapply (D (length l1) (length l1 + S (length l2))%nat c0); [lia|rewrite E1; exact H1|rewrite E2; exact H2].
    - unfold start. rewrite Forall_map. apply Forall_forall. intros x _. exact Logic.I.
    - intros c0. rewrite remall_start. reflexivity. }
  destruct (run_inv _ _ _ _ R I) as (_&_&E). cbn [fst snd] in E.
  rewrite <- (E c), (remall_done c ts' F). ring.
Qed.
End P.
