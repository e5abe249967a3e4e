(** Proofs about merging duplicated nodes in the element connectivities. *)
From Coq Require Import List Sorted Arith ZArith QArith Qcanon Bool Lia Permutation.
From Verif Require Import Base MPC_model MPC_spec ASMbc_model ASMbc_spec ASMnum_model ASMnum_spec ASMnum_proofs ASMnum_proofs2.
Import ListNotations.
Local Open Scope nat_scope.

Fixpoint idx (x : Z) (l : list Z) : nat := match l with [] => 0 | y :: r => if (x =? y)%Z then 0 else S (idx x r) end.
Definition rho (l : list Z) (k : nat) : nat := idx (nth k l 0%Z) l.
Lemma idx_spec x l : In x l -> idx x l < length l /\ nth (idx x l) l 0%Z = x.
Proof.
  induction l as [|y l IH]; intros H; [destruct H|]. cbn [idx]. destruct (Z.eqb_spec x y) as [->|D]; cbn [length nth]; [split; [lia|reflexivity]|].
  destruct H as [H|H]; [congruence|]. destruct (IH H). split; [lia|auto].
Qed.
Lemma idx_min x l i : i < idx x l -> i < length l -> nth i l 0%Z <> x.
Proof.
  revert i. induction l as [|y l IH]; intros i H L; cbn [idx length] in *; [lia|]. destruct (Z.eqb_spec x y) as [->|D]; [lia|].
  destruct i as [|i]; cbn [nth]; [congruence|]. apply IH; lia.
Qed.
Lemma rho_spec l k : k < length l -> rho l k <= k /\ nth (rho l k) l 0%Z = nth k l 0%Z /\ forall i, i < rho l k -> nth i l 0%Z <> nth k l 0%Z.
Proof.
  intros H. unfold rho. destruct (idx_spec (nth k l 0%Z) l (nth_In _ _ H)) as [A B]. split; [|split; [auto|]].
  - destruct (Nat.le_gt_cases (idx (nth k l 0%Z) l) k) as [L|L]; [auto|]. exfalso. apply (idx_min _ _ _ L H). reflexivity.
  - intros i Hi. apply idx_min; lia.
Qed.
Lemma rho_eq l a b : a < length l -> b < length l -> nth a l 0%Z = nth b l 0%Z <-> rho l a = rho l b.
Proof.
  intros Ha Hb. split; [intros E; unfold rho; rewrite E; reflexivity|]. intros E. destruct (rho_spec l a Ha) as (_ & A & _). destruct (rho_spec l b Hb) as (_ & B & _). congruence.
Qed.
Definition stage (l : list Z) (I J k : nat) : nat :=
  if k <? length l then (if rho l k <? I then rho l k else if (rho l k =? I) && (k <? J) then I else k) else k.
Definition repl (i j k : nat) : nat := if k =? j then i else k.
Ltac nb := repeat (match goal with |- context [?a <? ?b] => destruct (Nat.ltb_spec a b) | |- context [?a =? ?b] => destruct (Nat.eqb_spec a b) end; cbn [andb]).
Lemma stage_init l k : stage l 0 1 k = k.
Proof. unfold stage. nb; try reflexivity; lia. Qed.
Lemma stage_next l I k : I < length l -> stage l I (length l) k = stage l (S I) (S (S I)) k.
Proof. intros H. unfold stage. destruct (Nat.ltb_spec k (length l)) as [L|L]; [|reflexivity]. destruct (rho_spec l k L) as (A & _). nb; try reflexivity; try lia. Qed.
Lemma stage_step l I j k : I < j -> j < length l ->
  stage l I (S j) k = if (nth j l 0 =? nth I l 0)%Z then repl I j (stage l I j k) else stage l I j k.
Proof.
  intros H1 H2. unfold stage. destruct (Nat.ltb_spec k (length l)) as [L|L].
  2:{ destruct (Z.eqb_spec (nth j l 0%Z) (nth I l 0%Z)); [unfold repl; nb; lia|reflexivity]. }
  destruct (rho_spec l k L) as (A & B & C). destruct (rho_spec l j H2) as (A' & B' & C').
  assert (HI : I < length l) by lia. destruct (rho_spec l I HI) as (A2 & B2 & C2).
  destruct (Z.eqb_spec (nth j l 0%Z) (nth I l 0%Z)) as [E|E].
  - assert (E' : rho l j = rho l I) by (apply rho_eq; auto). unfold repl.
    destruct (Nat.eq_dec k j) as [->|D]; nb; try reflexivity; try lia.
  - assert (E' : rho l j <> rho l I) by (rewrite <- rho_eq; auto).
    destruct (Nat.eq_dec k j) as [->|D]; nb; try reflexivity; try lia. exfalso.
    assert (rho l I = I); [|lia]. destruct (Nat.lt_ge_cases (rho l I) I) as [Q|Q]; [|lia]. exfalso.
    (* rho j = I is a first position, hence rho I = I *)
    rewrite e in B', C'. apply (C' (rho l I) Q). congruence.
Qed.

(** ** replacing one node in one element *)
Lemma replaceLoop_map i j : forall fuel k l g, k + fuel = length l ->
  fst (replaceLoop fuel k i j l g) = firstn k l ++ map (repl i j) (skipn k l).
Proof.
  induction fuel as [|f IH]; intros k l g H; cbn [replaceLoop].
  - rewrite firstn_all2, skipn_all2 by lia. cbn. rewrite app_nil_r. reflexivity.
  - assert (SK : skipn k l = nth k l 0 :: skipn (S k) l).
    { clear - H. revert k H. induction l as [|x l IH]; intros k H; [cbn in H; lia|]. destruct k as [|k]; [reflexivity|]. cbn [skipn nth]. apply IH. cbn [length] in H. lia. }
    assert (FK : forall x l', length l' = length l -> firstn k l' = firstn k l -> nth k l' 0 = x -> firstn (S k) l' = firstn k l ++ [x]).
    { intros x l' L E1 E2. clear - H L E1 E2. revert l l' H L E1 E2. induction k as [|k IH]; intros l l' H L E1 E2; destruct l as [|a l], l' as [|b l']; cbn [length] in *; try lia.
      - cbn in *. subst. reflexivity.
      - cbn [firstn nth app] in *. injection E1 as E1a E1b. subst b. f_equal. apply (IH l l'); auto; lia. }
    destruct (Nat.eqb_spec (nth k l 0) j) as [E|E].
    + rewrite IH by (rewrite upd_length; lia). rewrite SK. cbn [map]. unfold repl at 2. rewrite (proj2 (Nat.eqb_eq _ _) E).
      rewrite (FK i (upd k i l)); [|apply upd_length| |apply upd_nth_same; lia].
      * rewrite <- app_assoc. cbn [app]. do 2 f_equal. f_equal.
        clear. revert k. induction l as [|x l IH]; intros [|k]; cbn [upd skipn]; try reflexivity. apply IH.
      * clear. revert k. induction l as [|x l IH]; intros [|k]; cbn [upd firstn]; try reflexivity. f_equal. apply IH.
    + rewrite IH by lia. rewrite SK. cbn [map]. unfold repl at 2. rewrite (proj2 (Nat.eqb_neq _ _) E). rewrite (FK (nth k l 0) l); auto. rewrite <- app_assoc. reflexivity.
Qed.
Lemma replaceElm_map i j e : fst (replaceElm i j e) = map (repl i j) (fst e).
Proof. unfold replaceElm. rewrite replaceLoop_map by reflexivity. reflexivity. Qed.
Lemma replaceLoop_other i j : forall fuel k l g, length l <> 3 -> snd (replaceLoop fuel k i j l g) = g.
Proof.
  induction fuel as [|f IH]; intros k l g H; cbn [replaceLoop]; [reflexivity|]. destruct (nth k l 0 =? j); [|auto]. rewrite IH by (rewrite upd_length; auto).
  unfold degenerate. rewrite upd_length. destruct (Nat.eqb_spec (length l) 3); [contradiction|reflexivity].
Qed.
Lemma replaceElm_tri i j a b c g : i <> j -> NoDup [a; b; c] \/ (g = 0%Z /\ (a = j -> b <> j /\ c <> j) /\ (b = j -> c <> j)) ->
  snd (replaceElm i j ([a; b; c], g)) = if (in_dec Nat.eq_dec j [a; b; c]) then (if in_dec Nat.eq_dec i [a; b; c] then 0%Z else g) else g.
Proof.
  intros D H. unfold replaceElm. cbn [fst snd length].
  assert (H' : (a = j -> b <> j /\ c <> j) /\ (b = j -> c <> j)).
  { destruct H as [H|(_ & H)]; [|exact H]. inversion H as [|? ? N1 N2]; subst. inversion N2 as [|? ? N3 N4]; subst. cbn [In] in *. split; intros; subst; tauto. }
  assert (Hg : NoDup [a; b; c] \/ g = 0%Z) by tauto. destruct H' as [Ha Hb].
  cbn [replaceLoop nth upd]. 
  destruct (Nat.eqb_spec a j) as [Ea|Ea].
  - destruct (Ha Ea) as [Eb Ec]. cbn [nth upd]. destruct (Nat.eqb_spec b j); [contradiction|]. destruct (Nat.eqb_spec c j); [contradiction|]. cbn [snd].
    destruct (in_dec Nat.eq_dec j [a; b; c]) as [_|K]; [|exfalso; apply K; left; auto]. unfold degenerate. cbn [length nth Nat.add]. change (1 mod 3) with 1. change (2 mod 3) with 2. cbn [nth Nat.eqb andb].
    destruct (in_dec Nat.eq_dec i [a; b; c]) as [K|K]; cbn [In] in K; destruct (Nat.eqb_spec b i), (Nat.eqb_spec c i); cbn [orb]; try reflexivity; exfalso; intuition congruence.
  - destruct (Nat.eqb_spec b j) as [Eb|Eb].
    + specialize (Hb Eb). cbn [nth upd]. destruct (Nat.eqb_spec c j); [contradiction|]. cbn [snd].
      destruct (in_dec Nat.eq_dec j [a; b; c]) as [_|K]; [|exfalso; apply K; right; left; auto]. unfold degenerate. cbn [length nth Nat.add]. change (2 mod 3) with 2. change (3 mod 3) with 0. cbn [nth Nat.eqb andb].
      destruct (in_dec Nat.eq_dec i [a; b; c]) as [K|K]; cbn [In] in K; destruct (Nat.eqb_spec c i), (Nat.eqb_spec a i); cbn [orb]; try reflexivity; exfalso; intuition congruence.
    + cbn [nth upd]. destruct (Nat.eqb_spec c j) as [Ec|Ec].
      * cbn [snd]. destruct (in_dec Nat.eq_dec j [a; b; c]) as [_|K]; [|exfalso; apply K; do 2 right; left; auto]. unfold degenerate. cbn [length nth Nat.add]. change (3 mod 3) with 0. change (4 mod 3) with 1. cbn [nth Nat.eqb andb upd].
        destruct (in_dec Nat.eq_dec i [a; b; c]) as [K|K]; cbn [In] in K; destruct (Nat.eqb_spec a i), (Nat.eqb_spec b i); cbn [orb]; try reflexivity; exfalso; intuition congruence.
      * cbn [snd]. destruct (in_dec Nat.eq_dec j [a; b; c]) as [K|K]; [|reflexivity]. exfalso. cbn [In] in K. tauto.
Qed.

(** ** all elements *)
Definition elmInv (f : nat -> nat) (e e' : list nat * Z) : Prop :=
  fst e' = map f (fst e) /\ (length (fst e) <> 3 -> snd e' = snd e) /\
  (length (fst e) = 3 -> NoDup (fst e) -> (NoDup (fst e') -> snd e' = snd e) /\ (~ NoDup (fst e') -> snd e' = 0%Z)).
Lemma elmInv_step f f' i j e e' : i <> j -> (forall k, f' k = repl i j (f k)) -> (forall a b, f a = j -> f b = j -> a = b) ->
  elmInv f e e' -> elmInv f' e (replaceElm i j e').
Proof.
  intros D Ef U (H1 & H2 & H3). split; [|split].
  - rewrite replaceElm_map, H1, map_map. apply map_ext. intros. symmetry. apply Ef.
  - intros L. unfold replaceElm. rewrite replaceLoop_other; [auto|]. rewrite H1, map_length. exact L.
  - intros L N. specialize (H3 L N). rewrite replaceElm_map. destruct e as [l g], e' as [l' g']. cbn [fst snd] in *.
    destruct l as [|a [|b [|c [|? ?]]]]; try discriminate L. subst l'. cbn [map] in *.
    assert (Na : a <> b /\ a <> c /\ b <> c). { inversion N as [|? ? N1 N2]; subst. inversion N2 as [|? ? N3 N4]; subst. cbn [In] in *. split; [|split]; intros ->; tauto. }
    assert (Hone : (f a = j -> f b <> j /\ f c <> j) /\ (f b = j -> f c <> j)).
    { split; [intros Ea; split; intros Eb|intros Ea Eb]; pose proof (U _ _ Ea Eb); tauto. }
    rewrite (replaceElm_tri i j (f a) (f b) (f c) g' D).
    2:{ destruct (ListDec.NoDup_dec Nat.eq_dec [f a; f b; f c]) as [K|K]; [left; auto|right; split; [apply H3; auto|exact Hone]]. }
    assert (ND : forall x y z : nat, NoDup [x; y; z] <-> x <> y /\ x <> z /\ y <> z).
    { intros x y z. split.
      - intros K. inversion K as [|? ? N1 N2]; subst. inversion N2 as [|? ? N3 N4]; subst. cbn [In] in *. split; [|split]; intros ->; tauto.
      - intros (K1 & K2 & K3). repeat constructor; cbn [In]; intuition. }
    rewrite !ND in *. destruct Hone as [Ha Hb]. destruct H3 as [H3a H3b]. unfold repl.
    destruct (in_dec Nat.eq_dec j [f a; f b; f c]) as [K|K]; cbn [In] in K.
    + destruct (in_dec Nat.eq_dec i [f a; f b; f c]) as [K2|K2]; cbn [In] in K2.
      * split; [|reflexivity]. intros (Q1 & Q2 & Q3). exfalso. revert Q1 Q2 Q3. nb; intros; subst; intuition congruence.
      * split; intros Q.
        -- apply H3a. revert Q. nb; intros (Q1 & Q2 & Q3); subst; intuition congruence.
        -- apply H3b. intros (Q1 & Q2 & Q3). apply Q. nb; subst; intuition congruence.
    + destruct (Nat.eqb_spec (f a) j); [exfalso; tauto|]. destruct (Nat.eqb_spec (f b) j); [exfalso; tauto|]. destruct (Nat.eqb_spec (f c) j); [exfalso; tauto|]. split; auto.
Qed.
Lemma elmInv_ext f f' e e' : (forall k, f' k = f k) -> elmInv f e e' -> elmInv f' e e'.
Proof. intros E (H1 & H2). split; [|exact H2]. rewrite H1. apply map_ext. auto. Qed.
Lemma stage_inj_at l I j a b : I < j -> j < length l -> stage l I j a = j -> stage l I j b = j -> a = b.
Proof.
  intros H1 H2. unfold stage. intros Ha Hb.
  assert (A : forall k, (if k <? length l then (if rho l k <? I then rho l k else if (rho l k =? I) && (k <? j) then I else k) else k) = j -> k = j).
  { intros k. nb; lia. }
  rewrite (A a Ha), (A b Hb). reflexivity.
Qed.
Lemma Forall2_map_r {A B} (R S : A -> B -> Prop) (f : B -> B) l l' : (forall a b, R a b -> S a (f b)) -> Forall2 R l l' -> Forall2 S l (map f l').
Proof. intros H. induction 1; cbn [map]; constructor; auto. Qed.
Lemma Forall2_impl' {A B} (R S : A -> B -> Prop) l l' : (forall a b, R a b -> S a b) -> Forall2 R l l' -> Forall2 S l l'.
Proof. intros H. induction 1; constructor; auto. Qed.
Lemma inner_inv l I elms0 : I < length l -> forall n j elms, j + n = length l -> I < j ->
  Forall2 (elmInv (stage l I j)) elms0 elms ->
  Forall2 (elmInv (stage l I (length l))) elms0
    (fold_left (fun elms j => if (nth j l 0 =? nth I l 0)%Z then map (replaceElm I j) elms else elms) (seq j n) elms).
Proof.
  intros HI. induction n as [|n IH]; intros j elms E L F; cbn [seq fold_left].
  - replace (length l) with j by lia. exact F.
  - apply IH; [lia|lia|]. assert (Lj : j < length l) by lia. pose proof (stage_step l I j) as St.
    destruct (Z.eqb_spec (nth j l 0%Z) (nth I l 0%Z)) as [Q|Q].
    + eapply Forall2_map_r; [|exact F]. intros e e' He. apply elmInv_step with (f := stage l I j); [lia| | |exact He].
      * intros k. rewrite (St k L Lj). reflexivity.
      * intros a b. apply stage_inj_at; auto.
    + eapply Forall2_impl'; [|exact F]. intros e e'. apply elmInv_ext. intros k. rewrite (St k L Lj). reflexivity.
Qed.
Lemma outer_inv l elms0 : forall n I elms, I + n = length l -> Forall2 (elmInv (stage l I (S I))) elms0 elms ->
  Forall2 (elmInv (stage l (length l) (S (length l)))) elms0
    (fold_left (fun elms i => fold_left (fun elms j => if (nth j l 0 =? nth i l 0)%Z then map (replaceElm i j) elms else elms) (seq (S i) (length l - S i)) elms) (seq I n) elms).
Proof.
  induction n as [|n IH]; intros I elms E F; cbn [seq fold_left].
  - replace (length l) with I at 1 2 by lia. exact F.
  - apply IH; [lia|]. assert (HI : I < length l) by lia.
    assert (G := inner_inv l I elms0 HI (length l - S I) (S I) elms ltac:(lia) ltac:(lia) F).
    eapply Forall2_impl'; [|exact G]. intros e e'. apply elmInv_ext. intros k. symmetry. apply stage_next. auto.
Qed.
Lemma mergeDuplicates_ok l elms : (forall e k, In e elms -> In k (fst e) -> k < length l) ->
  Forall2 (mergedElm l) elms (mergeDuplicates l elms).
Proof.
  intros B. unfold mergeDuplicates.
  assert (F0 : Forall2 (elmInv (stage l 0 1)) elms elms).
  { clear B. induction elms as [|e elms IH]; constructor; auto. split; [|split].
    - rewrite <- (map_id (fst e)) at 1. apply map_ext. intros. symmetry. apply stage_init.
    - reflexivity.
    - intros L N. split; [reflexivity|contradiction]. }
  pose proof (outer_inv l elms (length l) 0 elms eq_refl F0) as G.
  revert G B. generalize (fold_left (fun elms0 i => fold_left (fun elms1 j => if (nth j l 0 =? nth i l 0)%Z then map (replaceElm i j) elms1 else elms1) (seq (S i) (length l - S i)) elms0) (seq 0 (length l)) elms).
  intros elms' G. clear F0. induction G as [|e e' r r' H G IH]; intros B; constructor.
  - destruct H as (H1 & H2). split; [|exact H2]. rewrite H1.
    assert (Be : forall k, In k (fst e) -> k < length l) by (intros k; apply (B e); left; auto). clear - Be. induction (fst e) as [|k ks IH]; cbn [map]; constructor; [|apply IH; intros; apply Be; right; auto].
    assert (Lk : k < length l) by (apply Be; left; auto). destruct (rho_spec l k Lk) as (A & R & C).
    assert (E : stage l (length l) (S (length l)) k = rho l k) by (unfold stage; nb; lia). rewrite E. split.
    + rewrite (nth_error_nth' l 0%Z Lk). rewrite (nth_error_nth' l 0%Z) by lia. f_equal. exact R.
    + intros i Hi. rewrite (nth_error_nth' l 0%Z Lk). rewrite (nth_error_nth' l 0%Z) by lia. intros K. inversion K. apply (C i Hi). auto.
  - apply IH. intros; eapply B; [right|]; eauto.
Qed.
