(** Proofs about digits and fixation codes. *)
From Coq Require Import List Sorted Arith ZArith QArith Qcanon Bool Lia.
From Verif Require Import Base MPC_model MPC_spec ASMbc_model ASMbc_spec.
Import ListNotations.
Local Open Scope Z_scope.

(** ** Digits *)
Lemma zinsert_in x l d : In d (zinsert x l) <-> d = x \/ In d l.
Proof.
  induction l as [|y l IH]; cbn [zinsert In]; [intuition|].
  destruct (Z.ltb_spec y x); [cbn [In]; rewrite IH; intuition|].
  destruct (Z.ltb_spec x y); cbn [In]; [intuition|]. assert (x = y) by lia. subst. intuition.
Qed.
Lemma zinsert_sorted x l : StronglySorted Z.lt l -> StronglySorted Z.lt (zinsert x l).
Proof.
  induction l as [|y l IH]; intros S; cbn [zinsert]; [repeat constructor|].
  inversion S as [|? ? S1 S2]; subst. rewrite Forall_forall in S2.
  destruct (Z.ltb_spec y x).
  - constructor; [apply IH; exact S1|]. apply Forall_forall. intros z Hz. apply zinsert_in in Hz. destruct Hz as [->|Hz]; auto.
  - destruct (Z.ltb_spec x y); [|exact S]. constructor; [exact S|]. apply Forall_forall. intros z [<-|Hz]; [lia|]. apply S2 in Hz. lia.
Qed.
Lemma digitsLoop_sorted f : forall num acc, StronglySorted Z.lt acc -> StronglySorted Z.lt (digitsLoop f num acc).
Proof.
  induction f as [|f IH]; intros num acc S; cbn [digitsLoop]; [exact S|].
  destruct (num =? 0); [exact S|]. apply IH, zinsert_sorted, S.
Qed.
Lemma getDigits_sorted num : StronglySorted Z.lt (getDigits num).
Proof. apply digitsLoop_sorted. constructor. Qed.

Lemma fuel_step num f : 0 < num -> (digitFuel num <= S f)%nat -> num / 10 > 0 -> (digitFuel (num / 10) <= f)%nat.
Proof.
  intros H F P. unfold digitFuel in *. rewrite !Z.abs_eq in * by lia.
  pose proof (Z.log2_nonneg (num/10)). pose proof (Z.log2_nonneg num).
  assert (Z.log2 (num/10) < Z.log2 num) as L; [|lia].
  assert (Z.log2 (2 * (num/10)) <= Z.log2 num) as L by (apply Z.log2_le_mono; pose proof (Z.mul_div_le num 10); lia).
  rewrite Z.log2_double in L by lia. lia.
Qed.
Lemma isDigit_step num d : 0 < num -> (IsDigit num d <-> d = num mod 10 \/ IsDigit (num / 10) d).
Proof.
  intros H. unfold IsDigit. split.
  - intros ([|k] & L & ->).
    + left. rewrite Z.pow_0_r, Z.div_1_r. reflexivity.
    + right. exists k. rewrite Nat2Z.inj_succ, Z.pow_succ_r in * by lia.
      rewrite Z.div_div by (try apply Z.pow_pos_nonneg; lia). split; [|reflexivity].
      apply Z.div_le_lower_bound; lia.
  - intros [->|(k & L & ->)].
    + exists O. rewrite Z.pow_0_r, Z.div_1_r. split; [lia|reflexivity].
    + exists (S k). rewrite Nat2Z.inj_succ, Z.pow_succ_r in * by lia.
      rewrite Z.div_div by (try apply Z.pow_pos_nonneg; lia). split; [|reflexivity].
      pose proof (Z.mul_div_le num 10). nia.
Qed.
Lemma isDigit_zero d : ~ IsDigit 0 d.
Proof. intros (k & L & _). assert (0 < 10 ^ Z.of_nat k) by (apply Z.pow_pos_nonneg; lia). lia. Qed.
Lemma isDigit_range num d : 0 <= num -> IsDigit num d -> 0 <= d <= 9.
Proof. intros _ (k & _ & ->). pose proof (Z.mod_pos_bound (num / 10 ^ Z.of_nat k) 10). lia. Qed.

Lemma digitsLoop_in d : forall f num acc, 0 <= num -> (0 < num -> (digitFuel num <= f)%nat) ->
  (In d (digitsLoop f num acc) <-> In d acc \/ IsDigit num d).
Proof.
  induction f as [|f IH]; intros num acc H F; cbn [digitsLoop].
  - assert (num = 0) as -> by (destruct (Z.eq_dec num 0); [auto|]; assert (digitFuel num <= 0)%nat by (apply F; lia); unfold digitFuel in *; lia).
    pose proof (isDigit_zero d). intuition.
  - destruct (Z.eqb_spec num 0) as [->|N]; [pose proof (isDigit_zero d); intuition|].
    rewrite Z.quot_div_nonneg, Z.rem_mod_nonneg by lia. assert (0 <= num / 10) by (apply Z.div_pos; lia).
    rewrite IH; [|lia|].
    + rewrite zinsert_in, (isDigit_step num) by lia. intuition.
    + intros P. apply fuel_step; [lia|apply F; lia|lia].
Qed.
Lemma getDigits_in num d : 0 < num -> (In d (getDigits num) <-> IsDigit num d).
Proof. intros H. unfold getDigits. rewrite digitsLoop_in; [|lia|auto]. cbn. intuition. Qed.

(** ** One fixation record *)
Lemma bcSet_node v d b : bnode (bcSet v d b) = bnode b.
Proof. unfold bcSet. repeat match goal with |- context [if ?c then _ else _] => destruct c end; reflexivity. Qed.
Ltac bcase d := destruct (Z.eq_dec d 1); [|destruct (Z.eq_dec d 2); [|destruct (Z.eq_dec d 3); [|destruct (Z.eq_dec d 4); [|destruct (Z.eq_dec d 5); [|destruct (Z.eq_dec d 6)]]]]]; subst.
Ltac killeqb := repeat match goal with |- context [?a =? ?b] => destruct (Z.eqb_spec a b); try lia; try congruence end.
Lemma fixedIn_range b d : fixedIn b d -> 1 <= d <= 6.
Proof. unfold fixedIn. intuition lia. Qed.
Lemma fix_in b d e : fixedIn (bcSet false d b) e <-> fixedIn b e \/ (e = d /\ 1 <= d <= 6).
Proof.
  unfold bcSet, fixedIn. killeqb; subst; cbn [bCX bCY bCZ bRX bRY bRZ]; intuition (try lia).
Qed.
Lemma free_in b d e : fixedIn (bcSet true d b) e <-> fixedIn b e /\ e <> d.
Proof.
  unfold bcSet, fixedIn. killeqb; subst; cbn [bCX bCY bCZ bRX bRY bRZ]; intuition (try lia; try congruence).
Qed.
Lemma newBC_in n d : ~ fixedIn (newBC n) d.
Proof. unfold fixedIn, newBC. cbn. intuition congruence. Qed.
Lemma allFree_in b : allFree b = true <-> forall d, ~ fixedIn b d.
Proof.
  unfold allFree, fixedIn. rewrite !andb_true_iff. split.
  - intros (((((A & B) & C) & D) & E) & F) d. rewrite A, B, C, D, E, F. intuition congruence.
  - intros H. repeat split.
    + destruct (bCX b) eqn:E; auto. exfalso. apply (H 1). intuition.
    + destruct (bCY b) eqn:E; auto. exfalso. apply (H 2). intuition.
    + destruct (bCZ b) eqn:E; auto. exfalso. apply (H 3). intuition.
    + destruct (bRX b) eqn:E; auto. exfalso. apply (H 4). intuition.
    + destruct (bRY b) eqn:E; auto. exfalso. apply (H 5). intuition.
    + destruct (bRZ b) eqn:E; auto. exfalso. apply (H 6). intuition.
Qed.
Lemma fixBC_node nf ds : forall b, bnode (fixBC nf ds b) = bnode b.
Proof.
  unfold fixBC. induction ds as [|d ds IH]; intros b; cbn [fold_left]; [reflexivity|]. rewrite IH.
  destruct (d <=? nf); [apply bcSet_node|reflexivity].
Qed.
Lemma fixBC_in nf e ds : forall b, fixedIn (fixBC nf ds b) e <-> fixedIn b e \/ (In e ds /\ e <= nf /\ 1 <= e <= 6).
Proof.
  unfold fixBC. induction ds as [|d ds IH]; intros b; cbn [fold_left In]; [intuition|]. rewrite IH.
  destruct (Z.leb_spec d nf).
  - rewrite fix_in. split; intros H0.
    + destruct H0 as [[H0|H0]|H0]; intuition (subst; intuition).
    + destruct H0 as [H0|([->|H0] & H1)]; intuition.
  - split; intros H0; [intuition|]. destruct H0 as [H0|([->|H0] & H1)]; intuition lia.
Qed.

(** ** The functor [fixed] *)
Lemma fixedLoop_one f b d : 0 <= d <= 9 -> (f >= 1)%nat -> ((f >= 2)%nat \/ 1 <= d <= 6) ->
  (fixedLoop f d b = true <-> fixedIn b d).
Proof.
  intros R F F'. destruct f as [|f]; [lia|]. cbn [fixedLoop].
  rewrite Z.rem_mod_nonneg, Z.quot_div_nonneg, Z.mod_small by lia. rewrite (Z.div_small d 10) by lia.
  destruct (Z.ltb_spec 0 d) as [P|P]; cbn [negb].
  - unfold fixedIn. killeqb; subst; rewrite ?negb_true_iff; intuition (try lia; try congruence).
    all: destruct f; cbn [fixedLoop] in *; cbn in *; try congruence.
  - assert (d = 0) by lia. subst. split; [congruence|]. intros H. apply fixedIn_range in H. lia.
Qed.
Lemma fixedBC_one n d b : 0 <= d <= 9 -> (fixedBC n d b = true <-> bnode b = n /\ fixedIn b d).
Proof.
  intros R. unfold fixedBC. rewrite andb_true_iff, Z.eqb_eq.
  destruct (Z_le_gt_dec 1 d); [|].
  - destruct (Z_le_gt_dec d 6).
    + rewrite fixedLoop_one; [tauto|lia|unfold digitFuel; lia|right; lia].
    + rewrite fixedLoop_one; [tauto|lia|unfold digitFuel; lia|left; unfold digitFuel].
      assert (Z.log2 1 < Z.log2 (Z.abs d)); [|change (Z.log2 1) with 0 in *; lia].
      assert (Z.log2 2 <= Z.log2 (Z.abs d)) by (apply Z.log2_le_mono; lia). change (Z.log2 2) with 1 in *. change (Z.log2 1) with 0. lia.
  - assert (d = 0) by lia. subst. unfold digitFuel; cbn [fixedLoop Z.abs Z.log2 Z.to_nat]. cbn.
    split; [intuition congruence|]. intros (_ & H). apply fixedIn_range in H. lia.
Qed.
Lemma fixedBC_neg n d b : d <= 0 -> fixedBC n d b = false.
Proof. intros H. unfold fixedBC, digitFuel. cbn [fixedLoop]. destruct (Z.ltb_spec 0 d); [lia|]. cbn [negb]. apply andb_false_r. Qed.
(** the digit that decides, for a number with several digits *)
Lemma fixedLoop_sound b : forall f num, 0 <= num -> fixedLoop f num b = true -> exists d, IsDigit num d /\ fixedIn b d.
Proof.
  induction f as [|f IH]; intros num H E; cbn [fixedLoop] in E; [discriminate E|].
  destruct (Z.ltb_spec 0 num) as [P|P]; cbn [negb] in E; [|discriminate E].
  rewrite Z.rem_mod_nonneg, Z.quot_div_nonneg in E by lia.
  assert (D : IsDigit num (num mod 10)) by (apply isDigit_step; [lia|left; reflexivity]).
  assert (0 <= num / 10) by (apply Z.div_pos; lia).
  repeat match type of E with context [?a =? ?b] => destruct (Z.eqb_spec a b) as [Q|_] end;
    try (exists (num mod 10); split; [exact D|]; unfold fixedIn; rewrite negb_true_iff in E; intuition; fail).
  destruct (IH _ H0 E) as (d & A & B). exists d. split; [|exact B]. apply isDigit_step; [lia|right; exact A].
Qed.

Lemma existsb_fixed p n d : 0 <= d <= 9 -> (existsb (fixedBC n d) (pBC p) = true <-> Fixed p n d).
Proof.
  intros R. rewrite existsb_exists. unfold Fixed. split; intros (b & I & H); exists b.
  - apply fixedBC_one in H; tauto.
  - split; [exact I|]. apply fixedBC_one; tauto.
Qed.
Lemma existsb_fixed_any p n d : (existsb (fixedBC n d) (pBC p) = true -> d < 10 -> Fixed p n d).
Proof.
  intros H R. destruct (Z_le_gt_dec d 0) as [L|L].
  - apply existsb_exists in H. destruct H as (b & _ & H). rewrite fixedBC_neg in H by lia. discriminate H.
  - apply existsb_fixed; [lia|exact H].
Qed.

(** ** fix *)
Lemma onBC_in node f l b : (forall b, bnode (f b) = bnode b) ->
  NoDup (map bnode l) -> (In b (onBC node f l) <->
    (In b l /\ bnode b <> node) \/ (exists a, In a l /\ bnode a = node /\ b = f a) \/ ((forall a, In a l -> bnode a <> node) /\ b = f (newBC node))).
Proof.
  intros Hf. induction l as [|a l IH]; intros N; cbn [onBC].
  - cbn [In]. split; [intros [<-|[]]; right; right; split; [intros ? []|reflexivity]|].
    intros [[[] _]|[(a & [] & _)|[_ ->]]]. left; reflexivity.
  - cbn [map] in N. inversion N as [|? ? N1 N2]; subst. destruct (Z.eqb_spec (bnode a) node) as [E|E].
    + cbn [In]. split.
      * intros [<-|Hi]; [right; left; exists a; intuition|]. left. split; [right; exact Hi|].
        intros Q. apply N1. rewrite E, <- Q. apply in_map. exact Hi.
      * intros [[[->|Hi] Q]|[(a' & [<-|Hi] & Q & ->)|[Q _]]].
        -- congruence.
        -- right. exact Hi.
        -- left. reflexivity.
        -- exfalso. apply N1. rewrite E, <- Q. apply in_map. exact Hi.
        -- exfalso. apply (Q a); [left; reflexivity|exact E].
    + cbn [In]. rewrite IH by exact N2. split.
      * intros [<-|[[Hi Q]|[(a' & Hi & Q & ->)|[Q ->]]]].
        -- left. split; [left; reflexivity|exact E].
        -- left. split; [right; exact Hi|exact Q].
        -- right; left. exists a'. split; [right; exact Hi|auto].
        -- right; right. split; [|reflexivity]. intros a' [<-|Ha]; auto.
      * intros [[[->|Hi] Q]|[(a' & [<-|Hi] & Q & ->)|[Q ->]]].
        -- left; reflexivity.
        -- right; left; auto.
        -- congruence.
        -- right; right; left. exists a'. auto.
        -- right; right; right. split; [|reflexivity]. intros a' Ha. apply Q. right; exact Ha.
Qed.
(** without the uniqueness of the records *)
Lemma onBC_fixed n nf ds l m e :
  (exists b, In b (onBC n (fixBC nf ds) l) /\ bnode b = m /\ fixedIn b e) <->
  (exists b, In b l /\ bnode b = m /\ fixedIn b e) \/ (m = n /\ In e ds /\ e <= nf /\ 1 <= e <= 6).
Proof.
  induction l as [|a l IH]; cbn [onBC].
  - split.
    + intros (b & [<-|[]] & A & B). rewrite fixBC_node in A. cbn in A. apply fixBC_in in B. destruct B as [B|B]; [exfalso; eapply newBC_in; exact B|right; intuition].
    + intros [(b & [] & _)|(-> & B)]. exists (fixBC nf ds (newBC n)). split; [left; reflexivity|]. rewrite fixBC_node. split; [reflexivity|]. apply fixBC_in. right; exact B.
  - destruct (Z.eqb_spec (bnode a) n) as [E|E].
    + split.
      * intros (b & [<-|Hi] & A & B).
        -- rewrite fixBC_node in A. apply fixBC_in in B. destruct B as [B|B].
           ++ left. exists a. split; [left; reflexivity|auto].
           ++ right. split; [congruence|exact B].
        -- left. exists b. split; [right; exact Hi|auto].
      * intros [(b & [<-|Hi] & A & B)|(-> & B)].
        -- exists (fixBC nf ds a). split; [left; reflexivity|]. rewrite fixBC_node. split; [exact A|]. apply fixBC_in. left; exact B.
        -- exists b. split; [right; exact Hi|auto].
        -- exists (fixBC nf ds a). split; [left; reflexivity|]. rewrite fixBC_node. split; [exact E|]. apply fixBC_in. right; exact B.
    + split.
      * intros (b & [<-|Hi] & A & B); [left; exists a; split; [left; reflexivity|auto]|].
        destruct (proj1 IH (ex_intro _ b (conj Hi (conj A B)))) as [(b' & I' & Q)|Q]; [left|right; exact Q].
        exists b'. split; [right; exact I'|exact Q].
      * intros [(b & [<-|Hi] & A & B)|Q].
        -- exists a. split; [left; reflexivity|auto].
        -- destruct (proj2 IH (or_introl (ex_intro _ b (conj Hi (conj A B))))) as (b' & I' & Q). exists b'. split; [right; exact I'|exact Q].
        -- destruct (proj2 IH (or_intror Q)) as (b' & I' & Q'). exists b'. split; [right; exact I'|exact Q'].
Qed.
Lemma onBC_nodup n f l : (forall b, bnode (f b) = bnode b) -> NoDup (map bnode l) -> NoDup (map bnode (onBC n f l)).
Proof.
  intros Hf. induction l as [|a l IH]; intros N; cbn [onBC map].
  - rewrite Hf. cbn. constructor; [intros []|constructor].
  - cbn [map] in N. inversion N as [|? ? N1 N2]; subst. destruct (Z.eqb_spec (bnode a) n) as [E|E]; cbn [map].
    + rewrite Hf. constructor; auto.
    + constructor; [|auto]. intros Q. apply in_map_iff in Q. destruct Q as (b & Q & Hi).
      apply onBC_in in Hi; [|exact Hf|exact N2]. destruct Hi as [[Hi _]|[(a' & Hi & Q1 & ->)|[_ ->]]].
      * apply N1. rewrite <- Q. apply in_map. exact Hi.
      * rewrite Hf in Q. congruence.
      * rewrite Hf in Q. cbn in Q. congruence.
Qed.

(** the digits of the returned number are those of the invalid directions *)
Lemma invalidOf_acc nf : forall ds r, StronglySorted Z.lt ds -> Forall (fun d => 0 <= d <= 9) ds -> 0 <= nf -> 0 <= r ->
  0 <= fold_left (fun r dof => if dof <=? nf then r else 10 * r + dof) ds r /\
  (fold_left (fun r dof => if dof <=? nf then r else 10 * r + dof) ds r = 0 <-> r = 0 /\ Forall (fun d => d <= nf) ds) /\
  (forall d, IsDigit (fold_left (fun r dof => if dof <=? nf then r else 10 * r + dof) ds r) d <-> IsDigit r d \/ (In d ds /\ nf < d)).
Proof.
  induction ds as [|x ds IH]; intros r S R N P; cbn [fold_left].
  - split; [exact P|]. split; [intuition|]. intros d. cbn [In]. intuition.
  - inversion S as [|? ? S1 S2]; subst. inversion R as [|? ? R1 R2]; subst. destruct (Z.leb_spec x nf) as [L|L].
    + destruct (IH r S1 R2 N P) as (A & B & C). split; [exact A|]. split.
      * rewrite B. split; intros (Q1 & Q2); (split; [exact Q1|]); [constructor; auto|inversion Q2; auto].
      * intros d. rewrite C. cbn [In]. intuition (subst; lia).
    + assert (P' : 0 <= 10 * r + x) by lia. destruct (IH (10 * r + x) S1 R2 N P') as (A & B & C). split; [exact A|]. split.
      * rewrite B. split; [intros (Q & _); lia|]. intros (_ & Q). inversion Q; lia.
      * intros d. rewrite C. rewrite (isDigit_step (10*r+x)) by lia.
        replace ((10 * r + x) mod 10) with x by (rewrite Z.add_comm, Z.mul_comm, Z.mod_add, Z.mod_small; lia).
        replace ((10 * r + x) / 10) with r by (rewrite Z.add_comm, Z.mul_comm, Z.div_add, Z.div_small; lia).
        cbn [In]. intuition (subst; auto).
Qed.
Lemma getDigits_range num : 0 < num -> Forall (fun d => 0 <= d <= 9) (getDigits num).
Proof. intros H. apply Forall_forall. intros d Hd. apply getDigits_in in Hd; [|exact H]. apply isDigit_range in Hd; lia. Qed.
Lemma invalidOf_spec nf num : 0 < num -> 0 <= nf ->
  0 <= invalidOf nf (getDigits num) /\
  (invalidOf nf (getDigits num) = 0 <-> forall d, IsDigit num d -> d <= nf) /\
  (forall d, IsDigit (invalidOf nf (getDigits num)) d <-> IsDigit num d /\ nf < d).
Proof.
  intros H N. assert (Z0 : 0 <= 0) by lia.
  destruct (invalidOf_acc nf (getDigits num) 0 (getDigits_sorted num) (getDigits_range num H) N Z0) as (A & B & C).
  unfold invalidOf. split; [exact A|]. split.
  - rewrite B, Forall_forall. split.
    + intros (_ & Q) d Hd. apply Q, getDigits_in; auto.
    + intros Q. split; [reflexivity|]. intros d Hd. apply Q, getDigits_in; auto.
  - intros d. rewrite C, getDigits_in by exact H. pose proof (isDigit_zero d). intuition.
Qed.

Lemma nodeAt_getNodeID p i g : nodeAt p i g -> getNodeID p i = g.
Proof. intros (A & B). destruct i as [|i]; [lia|]. cbn [getNodeID]. replace (S i - 1)%nat with i in B by lia. apply nth_error_nth with (d := 0) in B. exact B. Qed.
Lemma getNodeID_nodeAt p i : 1 <= getNodeID p i -> nodeAt p i (getNodeID p i).
Proof.
  destruct i as [|i]; cbn [getNodeID]; [lia|]. intros H. split; [lia|]. replace (S i - 1)%nat with i by lia.
  apply nth_error_nth'. destruct (Nat.lt_ge_cases i (length (pMLGN p))); [exact H0|]. rewrite nth_overflow in H by exact H0. lia.
Qed.

Lemma fixNode_spec p i dirs p' r g : fixNode p i dirs = (p', r) -> nodeAt p i g -> 1 <= g -> 1 <= dirs -> 0 <= pnf p ->
  sameButBC p p' /\
  (forall n d, Fixed p' n d <-> Fixed p n d \/ (n = g /\ IsDigit dirs d /\ 1 <= d <= 6 /\ d <= pnf p)) /\
  (r = 0 <-> forall d, IsDigit dirs d -> d <= pnf p) /\
  (forall d, IsDigit r d <-> IsDigit dirs d /\ pnf p < d).
Proof.
  intros E Hn Hg Hd Hf. unfold fixNode in E. rewrite (nodeAt_getNodeID _ _ _ Hn) in E.
  destruct (Z.ltb_spec g 1); [lia|]. destruct (Z.ltb_spec dirs 1); [lia|]. cbn [orb] in E. injection E as <- <-.
  assert (D : 0 < dirs) by lia. destruct (invalidOf_spec (pnf p) dirs D Hf) as (_ & B & C).
  split; [|split; [|split; [exact B|exact C]]].
  - unfold sameButBC, setBC. cbn. auto.
  - intros n d. unfold Fixed, setBC. cbn [pBC]. rewrite onBC_fixed, getDigits_in by exact D. intuition.
Qed.
Lemma fixNode_invalid p i dirs : (forall g, nodeAt p i g -> g < 1) \/ dirs < 1 -> fixNode p i dirs = (p, dirs).
Proof.
  intros H. unfold fixNode. destruct (Z.ltb_spec (getNodeID p i) 1) as [L|L]; cbn [orb]; [reflexivity|].
  destruct (Z.ltb_spec dirs 1); [reflexivity|]. destruct H as [H|H]; [|lia]. pose proof (H _ (getNodeID_nodeAt _ _ L)). lia.
Qed.

(** ** allDofs *)
Lemma allDofsLoop_over nf : forall l c, nf < c -> allDofsLoop l c nf = false.
Proof.
  induction l as [|y l IHl]; intros e He; cbn [allDofsLoop]; [apply Z.eqb_neq; lia|].
  destruct (e + 1 =? y); [apply IHl; lia|reflexivity].
Qed.
Lemma allDofsLoop_spec nf : forall ds k, StronglySorted Z.lt ds -> Forall (fun d => k < d) ds -> k <= nf ->
  (allDofsLoop ds k nf = true <-> forall d, In d ds <-> k + 1 <= d <= nf).
Proof.
  induction ds as [|x ds IH]; intros k S F K; cbn [allDofsLoop].
  - rewrite Z.eqb_eq. split; [intros ->; intros d; cbn [In]; intuition lia|].
    intros H. destruct (Z.eq_dec k nf); [auto|]. assert (I : In (k+1) []) by (apply H; lia). destruct I.
  - inversion S as [|? ? S1 S2]; subst. inversion F as [|? ? F1 F2]; subst. rewrite Forall_forall in S2. destruct (Z.eqb_spec (k+1) x) as [<-|N].
    + destruct (Z_le_gt_dec (k+1) nf) as [L|L].
      * rewrite IH; [|exact S1|apply Forall_forall; exact S2|exact L]. split; intros H d; specialize (H d); cbn [In] in *.
        -- rewrite H. lia.
        -- assert (In d ds -> k + 1 < d) by (apply S2). split; intros Q; [assert (k + 1 <= d <= nf) by (apply H; right; exact Q); apply H0 in Q; lia|].
           assert (J : k + 1 = d \/ In d ds) by (apply H; lia). destruct J; [lia|assumption].
      * assert (k = nf) by lia. subst k. split.
        -- intros Q. rewrite allDofsLoop_over in Q by lia. discriminate Q.
        -- intros H. assert (I : In (nf+1) (nf+1 :: ds)) by (left; reflexivity). apply H in I. lia.
    + split; [intros Q; discriminate Q|]. intros H. exfalso.
      assert (I : In x (x :: ds)) by (left; reflexivity). apply H in I. assert (J : In (k+1) (x :: ds)) by (apply H; lia).
      destruct J as [J|J]; [lia|]. apply S2 in J. lia.
Qed.
Lemma allDofs_spec p dirs : 1 <= dirs -> 0 <= pnf p ->
  (allDofs p dirs = true <-> forall d, IsDigit dirs d <-> 1 <= d <= pnf p).
Proof.
  intros H N. unfold allDofs. pose proof (getDigits_range dirs ltac:(lia)) as R. rewrite Forall_forall in R.
  destruct (In_dec Z.eq_dec 0 (getDigits dirs)) as [I|I].
  - split.
    + intros E. exfalso. pose proof (getDigits_sorted dirs) as S. destruct (getDigits dirs) as [|x l] eqn:Q; [destruct I|].
      inversion S as [|? ? S1 S2]; subst. rewrite Forall_forall in S2. cbn [allDofsLoop] in E.
      destruct (Z.eqb_spec (0 + 1) x) as [<-|]; [|discriminate E]. destruct I as [I|I]; [lia|]. apply S2 in I. lia.
    + intros Q. apply getDigits_in in I; [|lia]. apply Q in I. lia.
  - rewrite allDofsLoop_spec; [|apply getDigits_sorted| |lia].
    + split; intros Q d; specialize (Q d); rewrite getDigits_in in * by lia; rewrite Q; lia.
    + apply Forall_forall. intros d Hd. assert (d <> 0) by (intros ->; contradiction). apply R in Hd. lia.
Qed.
