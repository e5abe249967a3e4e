(** Proofs about closing structured patches. *)
From Coq Require Import List Sorted Arith ZArith QArith Qcanon Bool Lia Permutation.
From Verif Require Import Base MPC_model MPC_spec ASMbc_model ASMbc_spec ASMnum_model ASMnum_spec ASMnum_proofs ASMnum_proofs2 ASMnum_proofs4.
Import ListNotations.
Local Open Scope Z_scope.

Lemma collapseOwn_nf p m s : pnf (nb (collapseOwn p m s)) = pnf (nb p).
Proof.
  destruct (Nat.le_gt_cases 1 m) as [H1|H1], (Nat.le_gt_cases m (length (nums p))) as [H2|H2], (Nat.le_gt_cases 1 s) as [H3|H3], (Nat.le_gt_cases s (length (nums p))) as [H4|H4];
  try (destruct (collapseOwn_ok p m s) as [_ C]; [lia|lia|apply C]);
  unfold collapseOwn, collapseNodes; cbn [fst snd nth]; change (nMLGN p) with (nums p);
  repeat (match goal with |- context [(?a <? ?b)%nat] => destruct (Nat.ltb_spec a b); try lia; cbn [orb] end); reflexivity.
Qed.
Lemma allPeriodic_dirs p nfb : (1 <= nfb <= 9)%nat -> pnf (nb p) = Z.of_nat nfb -> allPeriodic p (getDirs nfb) = true.
Proof.
  intros H E. unfold allPeriodic. rewrite E. do 10 (destruct nfb as [|nfb]; [try lia; vm_compute; reflexivity|]). lia.
Qed.
Lemma closeStep_ok nfb gap inc p m : (1 <= nfb <= 9)%nat -> pnf (nb p) = Z.of_nat nfb ->
  closeStep (getDirs nfb) gap inc p m = Some (foldPairs p [(m, (m + gap)%nat)], (m + inc)%nat).
Proof. intros H E. unfold closeStep, makePeriodic. rewrite (allPeriodic_dirs _ _ H E). reflexivity. Qed.
Lemma foldPairs_app p a b : foldPairs p (a ++ b) = foldPairs (foldPairs p a) b.
Proof. unfold foldPairs. apply fold_left_app. Qed.
Lemma foldPairs_nf prs : forall p, pnf (nb (foldPairs p prs)) = pnf (nb p).
Proof. induction prs as [|a prs IH]; intros p; [reflexivity|]. cbn [foldPairs fold_left]. change (pnf (nb (foldPairs (collapseOwn p (fst a) (snd a)) prs)) = pnf (nb p)). rewrite IH. apply collapseOwn_nf. Qed.
Lemma closeLoop_ok nf (blk : nat -> list (nat * nat)) inc body :
  (forall p m, pnf (nb p) = nf -> body p m = Some (foldPairs p (blk m), (m + inc)%nat)) ->
  forall n p m, pnf (nb p) = nf ->
  closeLoop n body p m = Some (foldPairs p (flat_map (fun t => blk (m + t * inc)%nat) (seq 0 n)), (m + n * inc)%nat).
Proof.
  intros B. induction n as [|n IH]; intros p m E; cbn [closeLoop seq flat_map].
  - rewrite Nat.add_0_r. reflexivity.
  - rewrite (B p m E). rewrite IH by (rewrite foldPairs_nf; exact E). rewrite foldPairs_app. replace (m + 0 * inc)%nat with m by lia.
    f_equal. f_equal; [|lia]. rewrite <- seq_shift. rewrite flat_map_concat_map, flat_map_concat_map, map_map. do 2 f_equal. apply map_ext. intros t. f_equal. lia.
Qed.

(** ** coordinates *)
Notation coord := (nat * nat * nat)%type.
Definition getd (d : nat) (x : coord) : nat := match d with 1%nat => fst (fst x) | 2%nat => snd (fst x) | _ => snd x end.
Definition setd (d c : nat) (x : coord) : coord := match d with 1%nat => (c, snd (fst x), snd x) | 2%nat => (fst (fst x), c, snd x) | _ => (fst (fst x), snd (fst x), c) end.
Section Grid.
Variables n1 n2 n3 off nfb : nat.
Hypothesis Hn : (1 <= n1 /\ 1 <= n2 /\ 1 <= n3)%nat.
Hypothesis Hnf : (1 <= nfb <= 9)%nat.
Definition size (d : nat) : nat := match d with 1%nat => n1 | 2%nat => n2 | _ => n3 end.
Definition inG (x : coord) : Prop := (fst (fst x) < n1 /\ snd (fst x) < n2 /\ snd x < n3)%nat.
Definition pos (x : coord) : nat := pos3 n1 n2 off (fst (fst x)) (snd (fst x)) (snd x).
Definition isDir (d : nat) : Prop := d = 1%nat \/ d = 2%nat \/ d = 3%nat.
Lemma inG_setd d c x : isDir d -> inG x -> (c < size d)%nat -> inG (setd d c x).
Proof. intros [-> | [-> | ->]] (A & B & C) H; unfold inG, setd, size in *; cbn [fst snd] in *; lia. Qed.
Lemma size_pos d : (1 <= size d)%nat. Proof. unfold size. destruct d as [|[|[|d]]]; lia. Qed.
Lemma getd_lt d x : isDir d -> inG x -> (getd d x < size d)%nat.
Proof. intros [-> | [-> | ->]] (A & B & C); unfold getd, size; lia. Qed.
Lemma pos_inj x y : inG x -> inG y -> pos x = pos y -> x = y.
Proof.
  destruct x as [[i j] k], y as [[i' j'] k']. unfold inG, pos, pos3. cbn [fst snd]. intros (A & B & C) (A' & B' & C') E.
  assert (E1 : (n1 * (k * n2 + j) + i = n1 * (k' * n2 + j') + i')%nat) by lia.
  destruct (Nat.div_mod_unique n1 _ _ _ _ A A' E1) as [E2 E3].
  assert (E4 : (n2 * k + j = n2 * k' + j')%nat) by lia.
  destruct (Nat.div_mod_unique n2 _ _ _ _ B B' E4) as [E5 E6]. congruence.
Qed.
Lemma pos_range x : inG x -> (off <= pos x < off + n1 * n2 * n3)%nat.
Proof. destruct x as [[i j] k]. unfold inG, pos, pos3. cbn [fst snd]. intros (A & B & C).
  assert (K : (k * n2 + j + 1 <= n2 * n3)%nat) by nia. assert (K2 : ((k * n2 + j + 1) * n1 <= n2 * n3 * n1)%nat) by (apply Nat.mul_le_mono_r; exact K). nia. Qed.
(** the pairs of one direction *)
Definition pairOf (d : nat) (x : coord) : nat * nat := (S (pos (setd d 0 x)), S (pos (setd d (size d - 1) x))).
Definition coords2 (d : nat) : list coord :=
  match d with
  | 1%nat => map (fun ab => (0%nat, snd ab, fst ab)) (list_prod (seq 0 n3) (seq 0 n2))
  | 2%nat => map (fun ab => (snd ab, 0%nat, fst ab)) (list_prod (seq 0 n3) (seq 0 n1))
  | _ => map (fun ab => (snd ab, fst ab, 0%nat)) (list_prod (seq 0 n2) (seq 0 n1))
  end.
Definition pairs (d : nat) : list (nat * nat) := map (pairOf d) (coords2 d).
Lemma flat_map_prod {C} (g : nat -> nat -> C) a b : flat_map (fun t => map (g t) b) a = map (fun ab => g (fst ab) (snd ab)) (list_prod a b).
Proof.
  induction a as [|t a IH]; cbn [flat_map list_prod]; [reflexivity|]. rewrite map_app, map_map, IH. reflexivity.
Qed.
Lemma flat_map_flat {A B C} (f : B -> list C) (g : A -> list B) l : flat_map f (flat_map g l) = flat_map (fun x => flat_map f (g x)) l.
Proof. induction l as [|x l IH]; cbn [flat_map]; [reflexivity|]. rewrite flat_map_app, IH. reflexivity. Qed.
Lemma flat_map_single {A B} (f : A -> B) l : flat_map (fun x => [f x]) l = map f l.
Proof. induction l as [|x l IH]; cbn; [reflexivity|]. rewrite IH. reflexivity. Qed.
Lemma close3D_pairs d p : isDir d -> pnf (nb p) = Z.of_nat nfb -> close3D n1 n2 n3 nfb d (S off) p = Some (foldPairs p (pairs d)).
Proof.
  intros D E. pose proof (closeStep_ok nfb) as St. unfold close3D.
  assert (Q : forall n gap inc p m, pnf (nb p) = Z.of_nat nfb ->
     closeLoop n (closeStep (getDirs nfb) gap inc) p m = Some (foldPairs p (map (fun t => ((m + t * inc)%nat, (m + t * inc + gap)%nat)) (seq 0 n)), (m + n * inc)%nat)).
  { intros n gap inc q m Eq. rewrite (closeLoop_ok (Z.of_nat nfb) (fun m => [(m, (m + gap)%nat)]) inc); [|intros; apply St; auto|exact Eq].
    rewrite flat_map_single. reflexivity. }
  destruct D as [-> | [-> | ->]].
  - rewrite (closeLoop_ok (Z.of_nat nfb) (fun m => map (fun t => ((m + t * n1)%nat, (m + t * n1 + (n1 - 1))%nat)) (seq 0 n2)) (n2 * n1)); [|intros; apply Q; auto|exact E].
    cbn [option_map fst]. do 2 f_equal. unfold pairs, coords2. rewrite (flat_map_prod (fun t u => ((S off + t * (n2 * n1) + u * n1)%nat, (S off + t * (n2 * n1) + u * n1 + (n1 - 1))%nat))), map_map.
    apply map_ext. intros [a b]. unfold pairOf, pos, pos3, setd, size. cbn [fst snd]. f_equal; nia.
  - rewrite (closeLoop_ok (Z.of_nat nfb) (fun m => map (fun t => ((m + t * 1)%nat, (m + t * 1 + n1 * (n2 - 1))%nat)) (seq 0 n1)) (n1 * n2)); [| |exact E].
    + cbn [option_map fst]. do 2 f_equal. unfold pairs, coords2. rewrite (flat_map_prod (fun t u => ((S off + t * (n1 * n2) + u * 1)%nat, (S off + t * (n1 * n2) + u * 1 + n1 * (n2 - 1))%nat))), map_map.
      apply map_ext. intros [a b]. unfold pairOf, pos, pos3, setd, size. cbn [fst snd]. f_equal; nia.
    + intros q m Eq. rewrite Q by exact Eq. cbn [option_map fst snd]. do 2 f_equal. nia.
  - rewrite (closeLoop_ok (Z.of_nat nfb) (fun m => map (fun t => ((m + t * 1)%nat, (m + t * 1 + n1 * n2 * (n3 - 1))%nat)) (seq 0 n1)) (n1 * 1)); [|intros; apply Q; auto|exact E].
    cbn [option_map fst]. do 2 f_equal. unfold pairs, coords2. rewrite (flat_map_prod (fun t u => ((S off + t * (n1 * 1) + u * 1)%nat, (S off + t * (n1 * 1) + u * 1 + n1 * n2 * (n3 - 1))%nat))), map_map.
    apply map_ext. intros [a b]. unfold pairOf, pos, pos3, setd, size. cbn [fst snd]. f_equal; nia.
Qed.
Lemma coords2_in d x : isDir d -> In x (coords2 d) <-> inG x /\ getd d x = 0%nat.
Proof.
  intros [-> | [-> | ->]]; unfold coords2; rewrite in_map_iff; destruct x as [[i j] k]; unfold inG, getd; cbn [fst snd]; split.
  - intros ([a b] & E & H). apply in_prod_iff in H. rewrite !in_seq in H. cbn [fst snd] in E. inversion E. subst. lia.
  - intros [H E]. exists (k, j). split; [cbn; subst; reflexivity|]. apply in_prod_iff. rewrite !in_seq. lia.
  - intros ([a b] & E & H). apply in_prod_iff in H. rewrite !in_seq in H. cbn [fst snd] in E. inversion E. subst. lia.
  - intros [H E]. exists (k, i). split; [cbn; subst; reflexivity|]. apply in_prod_iff. rewrite !in_seq. lia.
  - intros ([a b] & E & H). apply in_prod_iff in H. rewrite !in_seq in H. cbn [fst snd] in E. inversion E. subst. lia.
  - intros [H E]. exists (j, i). split; [cbn; subst; reflexivity|]. apply in_prod_iff. rewrite !in_seq. lia.
Qed.
Lemma NoDup_list_prod {A B} (a : list A) (b : list B) : NoDup a -> NoDup b -> NoDup (list_prod a b).
Proof.
  intros Na Nb. induction Na as [|x a Nx Na IH]; cbn [list_prod]; [constructor|].
  assert (G : forall l, NoDup l -> NoDup (map (fun y : B => (x, y)) l)).
  { induction l as [|y l IHl]; intros N; cbn [map]; [constructor|]. inversion N; subst. constructor; [|auto]. rewrite in_map_iff. intros (z & E & Hz). inversion E. subst. contradiction. }
  specialize (G b Nb). 
  assert (Ap : forall l r : list (A * B), NoDup l -> NoDup r -> (forall z, In z l -> In z r -> False) -> NoDup (l ++ r)).
  { clear. induction l as [|z l IH]; intros r Nl Nr D; cbn [app]; [exact Nr|]. inversion Nl; subst. constructor.
    - rewrite in_app_iff. intros [K|K]; [contradiction|]. apply (D z); [left; auto|auto].
    - apply IH; auto. intros w K1 K2. apply (D w); [right; auto|auto]. }
  apply Ap; [exact G|exact IH|]. intros [z w] K1 K2. apply in_map_iff in K1. destruct K1 as (y & E & _). inversion E. subst. apply in_prod_iff in K2. tauto.
Qed.
Lemma map_inj_NoDup {A B} (f : A -> B) l : (forall a b, In a l -> In b l -> f a = f b -> a = b) -> NoDup l -> NoDup (map f l).
Proof.
  induction l as [|x l IH]; intros I N; cbn [map]; [constructor|]. inversion N; subst. constructor.
  - intros K. apply in_map_iff in K. destruct K as (y & E & Hy). assert (y = x) by (apply I; [right; auto|left; auto|auto]). subst. contradiction.
  - apply IH; auto. intros; apply I; auto; right; auto.
Qed.
Lemma coords2_NoDup d : NoDup (coords2 d).
Proof.
  assert (G : forall (f : nat * nat -> coord) a b, (forall u v, f u = f v -> u = v) -> NoDup (map f (list_prod (seq 0 a) (seq 0 b)))).
  { intros f a b I. apply map_inj_NoDup; [intros; apply I; auto|]. apply NoDup_list_prod; apply seq_NoDup. }
  unfold coords2. destruct d as [|[|[|d]]]; apply G; intros [? ?] [? ?] E; cbn [fst snd] in E; inversion E; reflexivity.
Qed.
Lemma setd_set d a b x : isDir d -> setd d a (setd d b x) = setd d a x.
Proof. intros [-> | [-> | ->]]; reflexivity. Qed.
Lemma setd_get d x : isDir d -> setd d (getd d x) x = x.
Proof. intros [-> | [-> | ->]]; destruct x as [[? ?] ?]; reflexivity. Qed.
Lemma getd_set d c x : isDir d -> getd d (setd d c x) = c.
Proof. intros [-> | [-> | ->]]; reflexivity. Qed.
Lemma touch_coord d x y : isDir d -> inG x -> inG y -> touches (S (pos y)) (pairOf d x) -> y = setd d 0 x \/ y = setd d (size d - 1) x.
Proof.
  intros D X Y [T|T]; cbn [pairOf fst snd] in T; injection T as T; apply pos_inj in T; auto; apply inG_setd; auto; pose proof (size_pos d); lia.
Qed.
Lemma pairs_disjoint d : isDir d -> disjointPairs (pairs d).
Proof.
  intros D. unfold pairs. pose proof (coords2_NoDup d) as N. assert (I : forall x, In x (coords2 d) -> inG x /\ getd d x = 0%nat) by (intros x; apply coords2_in; auto).
  induction (coords2 d) as [|x l IH]; cbn [map disjointPairs]; [exact Logic.I|]. inversion N as [|? ? N1 N2]; subst. split; [|apply IH; [exact N2|intros; apply I; right; auto]].
  intros b t Hb T1 T2. apply in_map_iff in Hb. destruct Hb as (y & <- & Hy). destruct (I x (or_introl eq_refl)) as [X1 X2]. destruct (I y (or_intror Hy)) as [Y1 Y2].
  pose proof (size_pos d) as SP.
  assert (E : exists c c', (c < size d)%nat /\ (c' < size d)%nat /\ pos (setd d c x) = pos (setd d c' y)).
  { destruct T1 as [-> | ->], T2 as [T2|T2]; cbn [pairOf fst snd] in T2; injection T2 as T2; eexists; eexists; (split; [|split; [|exact T2]]); lia. }
  destruct E as (c & c' & Hc & Hc' & E). apply pos_inj in E; [|apply inG_setd; auto|apply inG_setd; auto].
  assert (E2 : setd d 0 (setd d c x) = setd d 0 (setd d c' y)) by (rewrite E; reflexivity). rewrite !setd_set in E2 by auto.
  rewrite <- X2 in E2 at 1. rewrite <- Y2 in E2. rewrite !setd_get in E2 by auto. subst. contradiction.
Qed.
(** the number at a grid position *)
Definition at_ (v : list Z) (x : coord) : Z := nth (pos x) v 0.
Lemma close_one d p : isDir d -> pnf (nb p) = Z.of_nat nfb -> (off + n1 * n2 * n3 <= length (nums p))%nat ->
  exists q, close3D n1 n2 n3 nfb d (S off) p = Some q /\ length (nums q) = length (nums p) /\
    (forall x, inG x -> at_ (nums q) x = if (getd d x =? 0)%nat || (getd d x =? size d - 1)%nat
       then Z.min (at_ (nums p) (setd d 0 x)) (at_ (nums p) (setd d (size d - 1) x)) else at_ (nums p) x) /\
    (forall t, (t < off \/ off + n1 * n2 * n3 <= t)%nat -> nth t (nums q) 0 = nth t (nums p) 0) /\
    condsMoved (chain (nums p) (pairs d)) p q.
Proof.
  intros D E L. exists (foldPairs p (pairs d)). split; [apply close3D_pairs; auto|].
  pose proof (size_pos d) as SP.
  assert (R : Forall (inRange (length (nums p))) (pairs d)).
  { apply Forall_forall. intros ms H. apply in_map_iff in H. destruct H as (x & <- & Hx). apply coords2_in in Hx; [|auto]. destruct Hx as [Hx _].
    assert (P1 := pos_range (setd d 0 x) ltac:(apply inG_setd; auto; lia)). assert (P2 := pos_range (setd d (size d - 1) x) ltac:(apply inG_setd; auto; lia)).
    unfold inRange, pairOf. cbn [fst snd]. lia. }
  destruct (foldPairs_ok (pairs d) p (pairs_disjoint d D) R) as (F1 & F2 & F3 & F4).
  split; [exact F1|]. split; [|split; [|exact F4]].
  - intros x Hx. unfold at_.
    assert (Px : In (pairOf d (setd d 0 x)) (pairs d)).
    { apply in_map. apply coords2_in; [auto|]. split; [apply inG_setd; auto; lia|apply getd_set; auto]. }
    assert (Lw : low (nums p) (pairOf d (setd d 0 x)) = Z.min (nth (pos (setd d 0 x)) (nums p) 0) (nth (pos (setd d (size d - 1) x)) (nums p) 0)).
    { unfold low, pairOf. cbn [fst snd]. rewrite !setd_set by auto. replace (S (pos (setd d 0 x)) - 1)%nat with (pos (setd d 0 x)) by lia.
      replace (S (pos (setd d (size d - 1) x)) - 1)%nat with (pos (setd d (size d - 1) x)) by lia. reflexivity. }
    replace (pos x) with (S (pos x) - 1)%nat at 1 by lia.
    destruct (Nat.eqb_spec (getd d x) 0) as [G|G]; cbn [orb].
    + rewrite (F2 _ (S (pos x)) Px); [exact Lw|]. left. unfold pairOf. cbn [fst]. rewrite setd_set by auto. rewrite <- G at 1. rewrite setd_get by auto. reflexivity.
    + destruct (Nat.eqb_spec (getd d x) (size d - 1)) as [G2|G2].
      * rewrite (F2 _ (S (pos x)) Px); [exact Lw|]. right. unfold pairOf. cbn [snd]. rewrite setd_set by auto. rewrite <- G2 at 1. rewrite setd_get by auto. reflexivity.
      * rewrite F3; [f_equal; lia|lia|]. intros ms Hms T. apply in_map_iff in Hms. destruct Hms as (y & <- & Hy). apply coords2_in in Hy; [|auto]. destruct Hy as [Hy _].
        destruct (touch_coord d y x D Hy Hx T) as [K|K]; [apply G|apply G2]; rewrite K; apply getd_set; auto.
  - intros t Ht. replace t with (S t - 1)%nat by lia. apply F3; [lia|]. intros ms Hms T. apply in_map_iff in Hms. destruct Hms as (y & <- & Hy). apply coords2_in in Hy; [|auto]. destruct Hy as [Hy _].
    assert (P1 := pos_range (setd d 0 y) ltac:(apply inG_setd; auto; lia)). assert (P2 := pos_range (setd d (size d - 1) y) ltac:(apply inG_setd; auto; lia)).
    destruct T as [T|T]; cbn [pairOf fst snd] in T; lia.
Qed.

(** ** several directions *)
Definition has (ds : list nat) (d : nat) : bool := existsb (Nat.eqb d) ds.
Definition wrapC (ds : list nat) (x : coord) : coord :=
  (wrapIdx (has ds 1) n1 (fst (fst x)), wrapIdx (has ds 2) n2 (snd (fst x)), wrapIdx (has ds 3) n3 (snd x)).
Lemma wrapIdx_lt b n i : (i < n)%nat -> (wrapIdx b n i < n)%nat.
Proof. unfold wrapIdx. destruct b; cbn [andb]; [|auto]. destruct (i =? n - 1)%nat; lia. Qed.
Lemma inG_wrap ds x : inG x -> inG (wrapC ds x).
Proof. intros (A & B & C). unfold wrapC, inG. cbn [fst snd]. split; [|split]; apply wrapIdx_lt; auto. Qed.
Lemma wrap_setd ds d c x : isDir d -> wrapC ds (setd d c x) = setd d (wrapIdx (has ds d) (size d) c) (wrapC ds x).
Proof. intros [-> | [-> | ->]]; reflexivity. Qed.
Lemma getd_wrap ds d x : isDir d -> getd d (wrapC ds x) = wrapIdx (has ds d) (size d) (getd d x).
Proof. intros [-> | [-> | ->]]; reflexivity. Qed.
Lemma has_cons d ds e : has (d :: ds) e = (e =? d)%nat || has ds e. Proof. reflexivity. Qed.
Lemma wrap_cons ds d x : isDir d -> inG x -> wrapC (d :: ds) x =
  if (getd d x =? size d - 1)%nat then wrapC ds (setd d 0 x) else wrapC ds x.
Proof.
  intros D X. assert (W : forall b n i, (i = n - 1)%nat -> wrapIdx true n i = wrapIdx b n 0).
  { intros b n i E. unfold wrapIdx. cbn [andb]. rewrite (proj2 (Nat.eqb_eq _ _) E). destruct b; cbn [andb]; [|reflexivity]. destruct (0 =? n - 1)%nat; reflexivity. }
  assert (W' : forall b n i, (i <> n - 1)%nat -> wrapIdx true n i = wrapIdx b n i).
  { intros b n i E. unfold wrapIdx. cbn [andb]. rewrite (proj2 (Nat.eqb_neq _ _) E). destruct b; reflexivity. }
  destruct (Nat.eqb_spec (getd d x) (size d - 1)) as [E|E]; destruct D as [-> | [-> | ->]]; unfold getd, size in E; unfold wrapC, setd; cbn [fst snd];
   rewrite !has_cons; change (1 =? 1)%nat with true; change (2 =? 2)%nat with true; change (3 =? 3)%nat with true; change (1 =? 2)%nat with false; change (1 =? 3)%nat with false; change (2 =? 1)%nat with false; change (2 =? 3)%nat with false; change (3 =? 1)%nat with false; change (3 =? 2)%nat with false;
   (apply f_equal2; [apply f_equal2|]); first [reflexivity|apply W; exact E|apply W'; exact E].
Qed.
Definition ordered (v : list Z) : Prop := forall x y, inG x -> inG y -> (pos x < pos y)%nat -> at_ v x < at_ v y.
Lemma ordered_inj v x y : ordered v -> inG x -> inG y -> at_ v x = at_ v y -> x = y.
Proof.
  intros O X Y E. apply pos_inj; auto. destruct (Nat.lt_trichotomy (pos x) (pos y)) as [H|[H|H]]; [|auto|]; apply O in H; auto; lia.
Qed.
Lemma pos_setd_le d c c' x : isDir d -> (c <= c')%nat -> (pos (setd d c x) <= pos (setd d c' x))%nat.
Proof.
  intros D H; destruct x as [[i j] k]; destruct D as [-> | [-> | ->]]; unfold pos, pos3, setd; cbn [fst snd].
  - lia.
  - assert ((k * n2 + c) * n1 <= (k * n2 + c') * n1)%nat by (apply Nat.mul_le_mono_r; lia). lia.
  - assert (c * n2 <= c' * n2)%nat by (apply Nat.mul_le_mono_r; lia). assert ((c * n2 + j) * n1 <= (c' * n2 + j) * n1)%nat by (apply Nat.mul_le_mono_r; lia). lia.
Qed.
Lemma ordered_setd v d c x : ordered v -> isDir d -> inG x -> (c < size d)%nat -> at_ v (setd d 0 x) <= at_ v (setd d c x).
Proof.
  intros O D X H. pose proof (size_pos d). pose proof (pos_setd_le d 0 c x D ltac:(lia)) as L. destruct (Nat.eq_dec (pos (setd d 0 x)) (pos (setd d c x))) as [E|E].
  - unfold at_. rewrite E. lia.
  - apply Z.lt_le_incl, O; [apply inG_setd; auto|apply inG_setd; auto|lia].
Qed.
Definition closeAll (ds : list nat) (p : npatch) : option npatch :=
  fold_left (fun o d => match o with None => None | Some p => close3D n1 n2 n3 nfb d (S off) p end) ds (Some p).
Lemma closeAll_ok p : pnf (nb p) = Z.of_nat nfb -> (off + n1 * n2 * n3 <= length (nums p))%nat -> ordered (nums p) ->
  forall ds, (forall d, In d ds -> isDir d) ->
  exists q s, closeAll ds p = Some q /\ length (nums q) = length (nums p) /\
    (forall x, inG x -> at_ (nums q) x = at_ (nums p) (wrapC ds x)) /\
    (forall t, (t < off \/ off + n1 * n2 * n3 <= t)%nat -> nth t (nums q) 0 = nth t (nums p) 0) /\
    condsMoved s p q /\ (forall x, inG x -> s (at_ (nums p) x) = at_ (nums q) x) /\
    (forall n, (forall x, inG x -> at_ (nums p) x <> n) -> s n = n).
Proof.
  intros Enf L O ds. induction ds as [|d ds IH] using rev_ind; intros D.
  - exists p, (fun n => n). cbn [closeAll fold_left]. split; [reflexivity|]. split; [reflexivity|]. split; [|split; [auto|split; [apply condsMoved_refl|split; auto]]].
    intros x Hx. f_equal. unfold wrapC, has. cbn [existsb]. unfold wrapIdx. cbn [andb]. destruct x as [[? ?] ?]. reflexivity.
  - destruct IH as (q & s & Q1 & Q2 & Q3 & Q4 & Q5 & Q6 & Q7); [intros; apply D; apply in_app_iff; auto|].
    assert (Dd : isDir d) by (apply D; apply in_app_iff; right; left; auto).
    assert (Eq : pnf (nb q) = Z.of_nat nfb) by (destruct Q5 as (_ & _ & -> & _); auto).
    destruct (close_one d q Dd Eq) as (r & R1 & R2 & R3 & R4 & R5); [rewrite Q2; auto|].
    pose proof (size_pos d) as SP.
    assert (U0 : forall x c, inG x -> (c < size d)%nat -> at_ (nums q) (setd d 0 x) <= at_ (nums q) (setd d c x)).
    { intros x c X H. rewrite !Q3 by (apply inG_setd; auto; lia). rewrite !wrap_setd by auto.
      assert (E : wrapIdx (has ds d) (size d) 0 = 0%nat) by (unfold wrapIdx; destruct (_ && _); reflexivity). rewrite E. apply ordered_setd; auto; [apply inG_wrap; auto|apply wrapIdx_lt; auto]. }
    assert (W2 : forall x, has (ds ++ [d]) x = has (d :: ds) x). { intros x. unfold has. rewrite existsb_app. cbn [existsb]. rewrite orb_false_r. apply orb_comm. }
    assert (W3 : forall x, wrapC (ds ++ [d]) x = wrapC (d :: ds) x) by (intros x; unfold wrapC; rewrite !W2; reflexivity).
    (* the new numbers *)
    assert (N : forall x, inG x -> at_ (nums r) x = if (getd d x =? size d - 1)%nat then at_ (nums q) (setd d 0 x) else at_ (nums q) x).
    { intros x X. rewrite R3 by auto. pose proof (U0 x (size d - 1)%nat X ltac:(lia)) as U.
      destruct (Nat.eqb_spec (getd d x) (size d - 1)) as [E|E].
      - rewrite orb_true_r. lia.
      - destruct (Nat.eqb_spec (getd d x) 0) as [E0|E0]; cbn [orb]; [|reflexivity]. rewrite Z.min_l by lia. rewrite <- E0 at 1. rewrite setd_get by auto. reflexivity. }
    (* the substitution applied to the conditions *)
    assert (HL : forall c, In c (coords2 d) -> low (nums q) (pairOf d c) = at_ (nums q) (setd d 0 c) /\ high (nums q) (pairOf d c) = at_ (nums q) (setd d (size d - 1) c)).
    { intros c Hc. apply coords2_in in Hc; [|auto]. destruct Hc as [Hc _]. pose proof (U0 c (size d - 1)%nat Hc ltac:(lia)) as U. unfold low, high, pairOf. cbn [fst snd].
      replace (S (pos (setd d 0 c)) - 1)%nat with (pos (setd d 0 c)) by lia. replace (S (pos (setd d (size d - 1) c)) - 1)%nat with (pos (setd d (size d - 1) c)) by lia.
      fold (at_ (nums q) (setd d 0 c)) (at_ (nums q) (setd d (size d - 1) c)). lia. }
    assert (CG : forall c, In c (coords2 d) -> inG c) by (intros c Hc; apply coords2_in in Hc; tauto).
    assert (UE : forall x y, inG x -> inG y -> at_ (nums q) x = at_ (nums q) y -> wrapC ds x = wrapC ds y).
    { intros x y X Y E. rewrite !Q3 in E by auto. apply (ordered_inj (nums p)) in E; auto; apply inG_wrap; auto. }
    assert (WL : forall i, wrapIdx (has ds d) (size d) i = (size d - 1)%nat -> (i < size d)%nat -> (size d - 1)%nat = 0%nat \/ (has ds d = false /\ i = (size d - 1)%nat)).
    { intros i. unfold wrapIdx. destruct (has ds d); cbn [andb]; [|auto]. destruct (Nat.eqb_spec i (size d - 1)); intros; lia. }
    assert (closedEq : forall x, inG x -> has ds d = true -> at_ (nums q) (setd d (size d - 1) x) = at_ (nums q) (setd d 0 x)).
    { intros x X H. rewrite !Q3 by (apply inG_setd; auto; lia). rewrite !wrap_setd by auto. f_equal. f_equal. rewrite H. unfold wrapIdx. cbn [andb]. rewrite Nat.eqb_refl. destruct (0 =? size d - 1)%nat; reflexivity. }
    assert (C0 := fun n => chain_ok (nums q) (pairs d) n).
    assert (H1 : forall a b, In a (pairs d) -> In b (pairs d) -> high (nums q) a = low (nums q) b -> low (nums q) a = high (nums q) a).
    { intros a b Ha Hb. apply in_map_iff in Ha. destruct Ha as (x & <- & Hx). apply in_map_iff in Hb. destruct Hb as (y & <- & Hy).
      destruct (HL x Hx) as [-> ->]. destruct (HL y Hy) as [-> _]. intros E. apply CG in Hx, Hy.
      apply UE in E; [|apply inG_setd; auto; lia|apply inG_setd; auto; lia]. apply (f_equal (getd d)) in E. rewrite !wrap_setd, !getd_set in E by auto.
      destruct (has ds d) eqn:Hd; [symmetry; apply closedEq; auto|]. unfold wrapIdx in E. cbn [andb] in E. rewrite E. reflexivity. }
    assert (H2 : forall a b, In a (pairs d) -> In b (pairs d) -> high (nums q) a = high (nums q) b -> low (nums q) a = low (nums q) b).
    { intros a b Ha Hb. apply in_map_iff in Ha. destruct Ha as (x & <- & Hx). apply in_map_iff in Hb. destruct Hb as (y & <- & Hy).
      destruct (HL x Hx) as [-> ->]. destruct (HL y Hy) as [-> ->]. intros E. apply CG in Hx, Hy.
      apply UE in E; [|apply inG_setd; auto; lia|apply inG_setd; auto; lia]. rewrite !wrap_setd in E by auto. apply (f_equal (setd d (wrapIdx (has ds d) (size d) 0))) in E. rewrite !setd_set in E by auto.
      rewrite !Q3 by (apply inG_setd; auto; lia). rewrite !wrap_setd by auto. rewrite E. reflexivity. }
    assert (CH : forall x, inG x -> chain (nums q) (pairs d) (at_ (nums q) x) = at_ (nums r) x).
    { intros x X. destruct (C0 (at_ (nums q) x) H1 H2) as [C1 C2]. rewrite N by auto.
      assert (Px : In (setd d 0 x) (coords2 d)) by (apply coords2_in; [auto|split; [apply inG_setd; auto; lia|apply getd_set; auto]]).
      destruct (Nat.eqb_spec (getd d x) (size d - 1)) as [E|E].
      - rewrite (C1 (pairOf d (setd d 0 x))); [|apply in_map; auto|].
        + destruct (HL _ Px) as [-> _]. rewrite setd_set by auto. reflexivity.
        + destruct (HL _ Px) as [_ ->]. rewrite setd_set by auto. rewrite <- E. rewrite setd_get by auto. reflexivity.
      - destruct (in_dec Z.eq_dec (at_ (nums q) x) (map (high (nums q)) (pairs d))) as [I|I].
        + apply in_map_iff in I. destruct I as (ms & Ems & Hms). rewrite (C1 ms Hms (eq_sym Ems)). pose proof Hms as Hms'. apply in_map_iff in Hms. destruct Hms as (y & <- & Hy).
          destruct (HL y Hy) as [HLl HLh]. rewrite HLh in Ems. pose proof (CG y Hy) as Y. pose proof (eq_sym Ems) as Ems0.
          apply UE in Ems; [|apply inG_setd; auto; lia|auto]. apply (f_equal (getd d)) in Ems. rewrite wrap_setd, getd_set, getd_wrap in Ems by auto.
          destruct (has ds d) eqn:Hd.
          * rewrite HLl, <- (closedEq y Y eq_refl). symmetry. exact Ems0.
          * exfalso. unfold wrapIdx in Ems. cbn [andb] in Ems. congruence.
        + apply C2. intros a Ha K. apply I. apply in_map_iff. exists a. auto. }
    exists r, (fun n => chain (nums q) (pairs d) (s n)). split; [|split; [|split; [|split; [|split; [|split]]]]].
    + unfold closeAll in *. rewrite fold_left_app. cbn [fold_left]. rewrite Q1. exact R1.
    + congruence.
    + intros x X. rewrite N by auto. rewrite W3, wrap_cons by auto. destruct (getd d x =? size d - 1)%nat; apply Q3; auto. apply inG_setd; auto; lia.
    + intros t Ht. rewrite R4, Q4; auto.
    + eapply condsMoved_comp; eauto.
    + intros x X. rewrite Q6 by auto. apply CH. auto.
    + intros n Hn'. rewrite Q7 by auto. apply C0; auto. intros a Ha K. apply in_map_iff in Ha. destruct Ha as (y & <- & Hy). destruct (HL y Hy) as [_ HLh]. rewrite HLh in K.
      apply CG in Hy. assert (G : inG (setd d (size d - 1) y)) by (apply inG_setd; auto; lia). rewrite Q3 in K by auto. apply (Hn' (wrapC ds (setd d (size d - 1) y))); [apply inG_wrap; auto|auto].
Qed.
End Grid.

Lemma pos_surj n1 n2 n3 off t : (off <= t < off + n1 * n2 * n3)%nat -> exists x, inG n1 n2 n3 x /\ pos n1 n2 off x = t.
Proof.
  intros H. set (u := (t - off)%nat). assert (N1 : (n1 <> 0)%nat) by (intros ->; lia). assert (N2 : (n2 <> 0)%nat) by (intros ->; lia).
  exists ((u mod n1)%nat, ((u / n1) mod n2)%nat, (u / n1 / n2)%nat). unfold inG, pos, pos3. cbn [fst snd].
  assert (U : (u < n1 * (n2 * n3))%nat) by (unfold u; nia).
  split; [split; [apply Nat.mod_upper_bound; auto|split; [apply Nat.mod_upper_bound; auto|]]|].
  - apply Nat.div_lt_upper_bound; [auto|]. apply Nat.div_lt_upper_bound; [auto|]. exact U.
  - pose proof (Nat.div_mod u n1 N1) as E1. pose proof (Nat.div_mod (u / n1) n2 N2) as E2.
    replace ((u / n1 / n2) * n2 + (u / n1) mod n2)%nat with (u / n1)%nat by lia. unfold u in *. lia.
Qed.
Lemma close3D_seq n1 n2 n3 off nfb ds p : (1 <= n1 /\ 1 <= n2 /\ 1 <= n3)%nat -> (1 <= nfb <= 9)%nat -> pnf (nb p) = Z.of_nat nfb ->
  (off + n1 * n2 * n3 <= length (nums p))%nat ->
  (forall s t, (off <= s < t)%nat -> (t < off + n1 * n2 * n3)%nat -> nth s (nums p) 0 < nth t (nums p) 0) ->
  (forall d, In d ds -> d = 1 \/ d = 2 \/ d = 3)%nat ->
  exists q, closeSeq (fun d => close3D n1 n2 n3 nfb d (S off)) ds p = Some q /\ closedAs n1 n2 n3 off ds p q.
Proof.
  intros Hn Hnf E L O D.
  assert (Or : ordered n1 n2 n3 off (nums p)).
  { intros x y X Y H. pose proof (pos_range n1 n2 n3 off nfb Hn Hnf x X). pose proof (pos_range n1 n2 n3 off nfb Hn Hnf y Y). unfold at_. apply O; lia. }
  destruct (closeAll_ok n1 n2 n3 off nfb Hn Hnf p E L Or ds D) as (q & s & Q1 & Q2 & Q3 & Q4 & Q5 & Q6 & Q7).
  exists q. split; [exact Q1|]. split; [exact Q2|]. split; [|split; [exact Q4|]].
  - intros i j k H. apply (Q3 (i, j, k)). exact H.
  - exists s. split; [exact Q5|]. split.
    + intros t Ht. destruct (pos_surj n1 n2 n3 off t Ht) as (x & X & <-). apply Q6. exact X.
    + intros n H. apply Q7. intros x X K. apply (H (pos n1 n2 off x)); [exact (pos_range n1 n2 n3 off nfb Hn Hnf x X)|exact K].
Qed.
Lemma close2D_3D n1 n2 nfb d m p : d = 1%nat \/ d = 2%nat -> close2D n1 n2 nfb d m p = close3D n1 n2 1 nfb d m p.
Proof.
  intros [-> | ->]; unfold close2D, close3D; cbn [closeLoop].
  - destruct (closeLoop n2 _ p m) as [[? ?]|]; reflexivity.
  - destruct (closeLoop n1 _ p m) as [[? ?]|]; reflexivity.
Qed.
Lemma close2D_seq n1 n2 off nfb ds p : (1 <= n1 /\ 1 <= n2)%nat -> (1 <= nfb <= 9)%nat -> pnf (nb p) = Z.of_nat nfb ->
  (off + n1 * n2 * 1 <= length (nums p))%nat ->
  (forall s t, (off <= s < t)%nat -> (t < off + n1 * n2 * 1)%nat -> nth s (nums p) 0 < nth t (nums p) 0) ->
  (forall d, In d ds -> d = 1 \/ d = 2)%nat ->
  exists q, closeSeq (fun d => close2D n1 n2 nfb d (S off)) ds p = Some q /\ closedAs n1 n2 1 off ds p q.
Proof.
  intros Hn Hnf E L O D. destruct (close3D_seq n1 n2 1 off nfb ds p) as (q & Q1 & Q2); auto; [lia|intros d K; destruct (D d K); auto|].
  exists q. split; [|exact Q2]. rewrite <- Q1. unfold closeSeq. clear - D. generalize (Some p). induction ds as [|d ds IH]; intros o; cbn [fold_left]; [reflexivity|].
  rewrite IH by (intros; apply D; right; auto). f_equal. destruct o; [|reflexivity]. apply close2D_3D. apply D. left; auto.
Qed.
