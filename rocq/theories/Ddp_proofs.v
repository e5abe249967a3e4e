(** Proofs about the numbering of a graph-partitioned model (C92). *)
From Coq Require Import ZArith List Bool Lia.
From Verif Require Import Ddp_model Ddp_spec.
Import ListNotations.
Local Open Scope Z_scope.

Lemma upd_len : forall l i v, length (upd l i v) = length l.
Proof. induction l; intros [|i] v; simpl; auto. Qed.
Lemma upd_same : forall l i v d, (i < length l)%nat -> nth i (upd l i v) d = v.
Proof. induction l; intros [|i] v d H; simpl in *; try lia; auto. apply IHl. lia. Qed.
Lemma upd_other : forall l i j v d, i <> j -> nth j (upd l i v) d = nth j l d.
Proof. induction l; intros [|i] [|j] v d H; simpl; auto; try congruence. Qed.

(* entry of equation e *)
Definition ent (b : blk) (e : Z) : Z := nth (Z.to_nat (e - 1)) (mlgeq b) 0.

(* L: the equations numbered so far, in the order of their numbers *)
Record rel (neq : nat) (loc : list Z) (b : blk) (L : list Z) : Prop := {
  r_len : length (mlgeq b) = neq;
  r_loc : localEqs b = loc;
  r_max : maxEq b = Z.of_nat (length L);
  r_nd : NoDup L;
  r_rng : forall e, In e L -> 1 <= e <= Z.of_nat neq;
  r_num : forall i, (i < length L)%nat -> ent b (nth i L 0) = Z.of_nat i + 1;
  r_un : forall e, 1 <= e <= Z.of_nat neq -> ~ In e L -> ent b e = -1 }.

Lemma rel_fresh : forall neq loc, rel neq loc (freshBlk neq loc) [].
Proof.
  intros. constructor; simpl; try reflexivity; try (intros; contradiction).
  - apply repeat_length.
  - constructor.
  - intros; lia.
  - intros e He _. unfold ent. simpl.
    rewrite (nth_indep _ 0 (-1)) by (rewrite repeat_length; lia). apply nth_repeat.
Qed.

Lemma rel_recv : forall neq loc b b' L, rel neq loc b L -> localEqs b' = loc -> rel neq loc (recvBlk b b') L.
Proof. intros neq loc b b' L H E. destruct H. constructor; simpl; auto. Qed.

Definition countsb (first : bool) (loc : list Z) (e : Z) : bool :=
  (0 <? e) && (first || existsb (Z.eqb e) loc).
Lemma existsb_in : forall e l, existsb (Z.eqb e) l = true <-> In e l.
Proof.
  intros. rewrite existsb_exists. split.
  - intros (x & Hx & E). apply Z.eqb_eq in E. subst. assumption.
  - intros H. exists e. split; [assumption | apply Z.eqb_refl].
Qed.
Lemma countsb_ok : forall f l e, countsb f l e = true <-> counts f l e.
Proof.
  intros. unfold countsb, counts. rewrite andb_true_iff, orb_true_iff, Z.ltb_lt, existsb_in.
  destruct f; intuition congruence.
Qed.

Lemma numberEq_rel : forall neq loc f e b L, rel neq loc b L -> e <= Z.of_nat neq ->
  exists b', numberEq f e b = Some b' /\ minEq b' = minEq b /\
    rel neq loc b' (if countsb f loc e && negb (existsb (Z.eqb e) L) then L ++ [e] else L).
Proof.
  intros neq loc f e b L R He. unfold numberEq. rewrite (r_loc _ _ _ _ R).
  assert (C : (0 <? (if negb f && negb (existsb (Z.eqb e) loc) then 0 else e)) = countsb f loc e).
  { unfold countsb. destruct f; simpl; [rewrite andb_true_r; reflexivity|].
    destruct (existsb (Z.eqb e) loc); simpl; [rewrite andb_true_r | rewrite andb_false_r]; reflexivity. }
  rewrite C. destruct (countsb f loc e) eqn:CE; [|eexists; split; [reflexivity | split; [reflexivity | exact R]]].
  assert (EE : (if negb f && negb (existsb (Z.eqb e) loc) then 0 else e) = e).
  { destruct (negb f && negb (existsb (Z.eqb e) loc)); [discriminate C | reflexivity]. }
  rewrite EE. assert (P : 0 < e) by (apply countsb_ok in CE; destruct CE; assumption).
  assert (LT : (Z.to_nat (e - 1) < length (mlgeq b))%nat) by (rewrite (r_len _ _ _ _ R); lia).
  rewrite (nth_error_nth' _ 0 LT). fold (ent b e).
  destruct (existsb (Z.eqb e) L) eqn:X; simpl.
  - apply existsb_in in X. apply In_nth with (d := 0) in X. destruct X as (i & Hi & EI).
    assert (V := r_num _ _ _ _ R i Hi). rewrite EI in V.
    destruct (ent b e =? -1) eqn:Q; [apply Z.eqb_eq in Q; lia|].
    eexists; split; [reflexivity | split; [reflexivity | exact R]].
  - assert (NI : ~ In e L) by (intros HI; apply existsb_in in HI; congruence).
    rewrite (r_un _ _ _ _ R e ltac:(lia) NI). simpl.
    eexists; split; [reflexivity | split; [reflexivity |]].
    destruct R as [R1 R2 R3 R4 R5 R6 R7]. constructor; simpl.
    + rewrite upd_len. assumption.
    + reflexivity.
    + rewrite app_length. simpl. lia.
    + apply NoDup_rev in R4. rewrite <- (rev_involutive (L ++ [e])). apply NoDup_rev.
      rewrite rev_app_distr. simpl. constructor; [rewrite <- in_rev; assumption | assumption].
    + intros x Hx. apply in_app_or in Hx. destruct Hx as [Hx | [-> | []]]; [auto | lia].
    + intros i Hi. rewrite app_length in Hi. simpl in Hi. unfold ent in *. simpl.
      destruct (Nat.eq_dec i (length L)) as [-> | NE].
      * rewrite app_nth2, Nat.sub_diag by lia. simpl. rewrite upd_same by assumption. lia.
      * rewrite app_nth1 by lia. rewrite upd_other; [apply R6; lia|].
        assert (HI : In (nth i L 0) L) by (apply nth_In; lia).
        assert (B := R5 _ HI). intros Q. assert (e = nth i L 0) by lia. subst e. apply NI. assumption.
    + intros x Hx NX. unfold ent in *. simpl. rewrite upd_other.
      * apply R7; [assumption|]. intros HI. apply NX. apply in_or_app. left; assumption.
      * intros Q. apply NX. apply in_or_app. right. left. lia.
Qed.

(* the list of one process, starting from L *)
Definition meetL (f : bool) (loc : list Z) (L : list Z) (e : Z) : list Z :=
  if countsb f loc e && negb (existsb (Z.eqb e) L) then L ++ [e] else L.

Definition tot (f : bool) (e : Z) (b : blk) : blk := match numberEq f e b with Some x => x | None => b end.

Lemma tot_rel : forall neq loc f e b L, rel neq loc b L -> e <= Z.of_nat neq ->
  numberEq f e b = Some (tot f e b) /\ minEq (tot f e b) = minEq b /\ rel neq loc (tot f e b) (meetL f loc L e).
Proof.
  intros neq loc f e b L R He. destruct (numberEq_rel neq loc f e b L R He) as (b' & E & M & R').
  unfold tot. rewrite E. auto.
Qed.

Definition totAll (f : bool) (eqs : list Z) (b : blk) : blk := fold_left (fun b e => tot f e b) eqs b.

Lemma totAll_rel : forall neq loc f eqs b L, rel neq loc b L -> (forall e, In e eqs -> e <= Z.of_nat neq) ->
  minEq (totAll f eqs b) = minEq b /\ rel neq loc (totAll f eqs b) (fold_left (meetL f loc) eqs L).
Proof.
  intros neq loc f. induction eqs; intros b L R H; [split; [reflexivity | exact R]|].
  destruct (tot_rel neq loc f a b L R (H a (or_introl eq_refl))) as (_ & M & R').
  simpl. destruct (IHeqs _ _ R' (fun e He => H e (or_intror He))) as [M' R''].
  split; [rewrite M'; exact M | exact R''].
Qed.

Definition good (neq : nat) (b : blk) : Prop := exists loc L, rel neq loc b L.

Lemma numberBlocks_false : forall neq e bs, Forall (good neq) bs -> e <= Z.of_nat neq ->
  numberBlocks false e bs = Some (map (tot false e) bs).
Proof.
  intros neq e. induction bs; intros H He; [reflexivity|].
  inversion H as [|? ? (loc & L & R) H']; subst. simpl.
  destruct (tot_rel neq loc false e a L R He) as (E & _ & _). rewrite E, IHbs by assumption. reflexivity.
Qed.

Lemma numberAll_eq : forall neq eqs b t, good neq b -> Forall (good neq) t ->
  (forall e, In e eqs -> e <= Z.of_nat neq) ->
  numberAll eqs (b :: t) = Some (totAll true eqs b :: map (totAll false eqs) t).
Proof.
  intros neq. induction eqs; intros b t Hb Ht H.
  - simpl. rewrite map_id. reflexivity.
  - cbn [numberAll numberBlocks]. destruct Hb as (loc & L & R).
    destruct (tot_rel neq loc true a b L R (H a (or_introl eq_refl))) as (E & _ & R').
    rewrite E, (numberBlocks_false neq) by (try assumption; apply H; left; reflexivity).
    rewrite IHeqs.
    + f_equal. f_equal. rewrite map_map. reflexivity.
    + exists loc. eexists. exact R'.
    + apply Forall_map. eapply Forall_impl; [|exact Ht]. intros x (lx & Lx & Rx).
      destruct (tot_rel neq lx false a x Lx Rx (H a (or_introl eq_refl))) as (_ & _ & Rx').
      exists lx. eexists. exact Rx'.
    + intros e He. apply H. right; assumption.
Qed.

(* one block through one process *)
Definition start1 (neq : nat) (loc : list Z) (prev : option blk) : blk :=
  match prev with None => freshBlk neq loc | Some p => recvBlk p (freshBlk neq loc) end.
Definition proc1 (f : bool) (neq : nat) (loc : list Z) (prev : option blk) (elms : list (list Z)) : blk :=
  totAll f (concat elms) (start1 neq loc prev).
Definition L0 (prev : option (list Z)) : list Z := match prev with None => [] | Some l => l end.

Fixpoint cols (f : bool) (neq : nat) (loc : list Z) (prev : option blk) (procs : list (list (list Z))) : list blk :=
  match procs with
  | [] => []
  | p :: r => proc1 f neq loc prev p :: cols f neq loc (Some (proc1 f neq loc prev p)) r
  end.
Fixpoint Ls (f : bool) (loc : list Z) (L : list Z) (procs : list (list (list Z))) : list (list Z) :=
  match procs with
  | [] => []
  | p :: r => let L' := fold_left (meetL f loc) (concat p) L in L' :: Ls f loc L' r
  end.

Lemma meets_concat : forall elms e, In e (concat elms) <-> meets elms e.
Proof. intros. rewrite in_concat. unfold meets. reflexivity. Qed.

Lemma rel_start : forall neq loc prev L, match prev with None => L = [] | Some p => rel neq loc p L end ->
  rel neq loc (start1 neq loc prev) L.
Proof.
  intros neq loc [p|] L H; simpl.
  - apply rel_recv; [assumption | reflexivity].
  - subst L. apply rel_fresh.
Qed.

Lemma proc1_rel : forall f neq loc prev L elms,
  match prev with None => L = [] | Some p => rel neq loc p L end ->
  (forall e, meets elms e -> e <= Z.of_nat neq) ->
  rel neq loc (proc1 f neq loc prev elms) (fold_left (meetL f loc) (concat elms) L) /\
  minEq (proc1 f neq loc prev elms) = Z.of_nat (length L) + 1.
Proof.
  intros f neq loc prev L elms H HV. assert (R := rel_start neq loc prev L H).
  destruct (totAll_rel neq loc f (concat elms) _ L R) as [M R'].
  { intros e He. apply HV, meets_concat, He. }
  split; [exact R'|]. unfold proc1. rewrite M. destruct prev as [p|]; simpl.
  - rewrite (r_max _ _ _ _ H). reflexivity.
  - subst L. reflexivity.
Qed.

(* all blocks of one process *)
Lemma combine_map2 {A B C} : forall (g : A -> B) (h : A -> C) l, combine (map g l) (map h l) = map (fun x => (g x, h x)) l.
Proof. induction l; simpl; [|rewrite IHl]; reflexivity. Qed.

Definition allBlks (neq : nat) (l0 : list Z) (ls : list (list Z)) (G : bool -> list Z -> blk) : list blk :=
  G true l0 :: map (G false) ls.

Lemma runProc_eq : forall neq l0 ls elms (G : option (bool -> list Z -> blk)) (GL : bool -> list Z -> list Z),
  (forall f loc, match G with None => GL f loc = [] | Some g => rel neq loc (g f loc) (GL f loc) end) ->
  (forall e, meets elms e -> e <= Z.of_nat neq) ->
  runProc neq (l0 :: ls) (option_map (allBlks neq l0 ls) G) elms =
  Some (allBlks neq l0 ls (fun f loc => proc1 f neq loc (option_map (fun g => g f loc) G) elms)).
Proof.
  intros neq l0 ls elms G GL H HV. unfold runProc, numberElms.
  assert (E : match option_map (allBlks neq l0 ls) G with
     | None => map (freshBlk neq) (l0 :: ls)
     | Some ps => map (fun pb => recvBlk (fst pb) (snd pb)) (combine ps (map (freshBlk neq) (l0 :: ls)))
     end = start1 neq l0 (option_map (fun g => g true l0) G)
           :: map (fun loc => start1 neq loc (option_map (fun g => g false loc) G)) ls).
  { destruct G as [g|]; simpl; [|reflexivity]. rewrite combine_map2, map_map. reflexivity. }
  rewrite E, (numberAll_eq neq).
  - unfold allBlks, proc1. rewrite map_map. reflexivity.
  - exists l0, (GL true l0). apply rel_start. specialize (H true l0). destruct G; exact H.
  - apply Forall_map. apply Forall_forall. intros loc _. exists loc, (GL false loc).
    apply rel_start. specialize (H false loc). destruct G; exact H.
  - intros e He. apply HV, meets_concat, He.
Qed.

Lemma runProcs_eq : forall neq l0 ls procs (G : option (bool -> list Z -> blk)) (GL : bool -> list Z -> list Z),
  (forall f loc, match G with None => GL f loc = [] | Some g => rel neq loc (g f loc) (GL f loc) end) ->
  valid neq procs ->
  exists res, runProcs neq (l0 :: ls) (option_map (allBlks neq l0 ls) G) procs = Some res /\
    length res = length procs /\
    forall p, (p < length procs)%nat ->
      nth p res [] = allBlks neq l0 ls (fun f loc => nth p (cols f neq loc (option_map (fun g => g f loc) G) procs) (freshBlk neq [])).
Proof.
  intros neq l0 ls. induction procs as [|el procs IH]; intros G GL H HV.
  - exists []. simpl. repeat split. intros; lia.
  - assert (HV1 : forall e, meets el e -> e <= Z.of_nat neq) by (intros; eapply HV; [left; reflexivity | assumption]).
    cbn [runProcs]. rewrite (runProc_eq _ _ _ _ G GL H HV1).
    set (g' := fun f loc => proc1 f neq loc (option_map (fun g => g f loc) G) el).
    destruct (IH (Some g') (fun f loc => fold_left (meetL f loc) (concat el) (GL f loc))) as (res & E & LN & N).
    + intros f loc. unfold g'. apply proc1_rel; [|assumption]. specialize (H f loc). destruct G; exact H.
    + intros p e Hp. apply HV. right; assumption.
    + simpl in E. rewrite E. eexists. split; [reflexivity|]. split; [simpl; rewrite LN; reflexivity|].
      intros [|p] Hp; [reflexivity|]. simpl in Hp. cbn [nth]. rewrite (N p) by lia. reflexivity.
Qed.

Lemma cols_rel : forall f neq loc procs prev L, valid neq procs ->
  match prev with None => L = [] | Some p => rel neq loc p L end ->
  length (cols f neq loc prev procs) = length procs /\
  forall p, (p < length procs)%nat ->
    rel neq loc (nth p (cols f neq loc prev procs) (freshBlk neq [])) (nth p (Ls f loc L procs) []) /\
    minEq (nth p (cols f neq loc prev procs) (freshBlk neq [])) =
      Z.of_nat (length (nth p (L :: Ls f loc L procs) [])) + 1.
Proof.
  intros f neq loc. induction procs as [|el procs IH]; intros prev L HV H.
  - split; [reflexivity | simpl; intros; lia].
  - destruct (proc1_rel f neq loc prev L el H) as [R M].
    { intros e He. eapply HV; [left; reflexivity | assumption]. }
    destruct (IH (Some (proc1 f neq loc prev el)) _ (fun p e Hp => HV p e (or_intror Hp)) R) as [LN N].
    split; [simpl; rewrite LN; reflexivity|].
    intros [|p] Hp.
    + split; [exact R | exact M].
    + simpl in Hp. destruct (N p ltac:(lia)) as [N1 N2]. split; [exact N1|].
      cbn [cols nth Ls]. rewrite N2. reflexivity.
Qed.

(* what the lists contain *)
Lemma meet_in : forall f loc eqs L e, In e (fold_left (meetL f loc) eqs L) <-> In e L \/ (counts f loc e /\ In e eqs).
Proof.
  intros f loc. induction eqs; intros L e; simpl; [tauto|].
  rewrite IHeqs. unfold meetL at 1.
  destruct (countsb f loc a) eqn:C; destruct (existsb (Z.eqb a) L) eqn:X; simpl.
  - apply existsb_in in X. split; [tauto|]. intros [H | [Hc [-> | H]]]; tauto.
  - apply countsb_ok in C. rewrite in_app_iff. simpl.
    split; [|tauto]. intros [[H | [-> | []]] | H]; tauto.
  - split; [tauto|]. intros [H | [Hc [-> | H]]]; try tauto. apply countsb_ok in Hc. congruence.
  - split; [tauto|]. intros [H | [Hc [-> | H]]]; try tauto. apply countsb_ok in Hc. congruence.
Qed.

Lemma meet_prefix : forall f loc eqs L, exists D, fold_left (meetL f loc) eqs L = L ++ D.
Proof.
  intros f loc. induction eqs; intros L; simpl; [exists []; rewrite app_nil_r; reflexivity|].
  destruct (IHeqs (meetL f loc L a)) as (D & E). rewrite E. unfold meetL.
  destruct (_ && _).
  - exists ([a] ++ D). rewrite app_assoc. reflexivity.
  - exists D. reflexivity.
Qed.

Lemma Ls_len : forall f loc procs L, length (Ls f loc L procs) = length procs.
Proof. induction procs; intros; simpl; [|rewrite IHprocs]; reflexivity. Qed.

Lemma Ls_in : forall f loc procs L p e, (p < length procs)%nat ->
  (In e (nth p (Ls f loc L procs) []) <->
   In e L \/ (counts f loc e /\ exists q, (q <= p)%nat /\ meets (nth q procs []) e)).
Proof.
  intros f loc. induction procs as [|el procs IH]; intros L p e Hp; [simpl in Hp; lia|].
  simpl in Hp. destruct p; cbn [Ls nth].
  - rewrite meet_in, meets_concat. split.
    + intros [H | [H1 H2]]; [left; assumption | right; split; [assumption | exists 0%nat; split; [lia | exact H2]]].
    + intros [H | [H1 (q & Hq & H2)]]; [left; assumption | right; split; [assumption|]].
      assert (q = 0)%nat by lia. subst q. exact H2.
  - rewrite IH by lia. rewrite meet_in, meets_concat. split.
    + intros [[H | [H1 H2]] | [H1 (q & Hq & H2)]]; [left; assumption | |]; right; split; try assumption.
      * exists 0%nat. split; [lia | exact H2].
      * exists (S q). split; [lia | exact H2].
    + intros [H | [H1 (q & Hq & H2)]]; [left; left; assumption|].
      destruct q; [left; right; split; assumption|].
      right. split; [assumption|]. exists q. split; [lia | exact H2].
Qed.

Lemma Ls_step : forall f loc procs L p, (p < length procs)%nat ->
  exists D, nth p (Ls f loc L procs) [] = nth p (L :: Ls f loc L procs) [] ++ D.
Proof.
  intros f loc. induction procs as [|el procs IH]; intros L p Hp; [simpl in Hp; lia|].
  destruct p; cbn [Ls nth].
  - apply meet_prefix.
  - simpl in Hp. destruct (IH (fold_left (meetL f loc) (concat el) L) p ltac:(lia)) as (D & E).
    exists D. exact E.
Qed.

Lemma Ls_ext : forall f loc procs L p q, (p <= q)%nat -> (q < length procs)%nat ->
  exists D, nth q (Ls f loc L procs) [] = nth p (Ls f loc L procs) [] ++ D.
Proof.
  intros f loc procs L p q H Hq. induction q.
  - assert (p = 0)%nat by lia. subst. exists []. rewrite app_nil_r. reflexivity.
  - destruct (Nat.eq_dec p (S q)) as [-> | NE]; [exists []; rewrite app_nil_r; reflexivity|].
    destruct (IHq ltac:(lia) ltac:(lia)) as (D & E).
    destruct (Ls_step f loc procs L (S q) Hq) as (D2 & E2). cbn [nth] in E2.
    exists (D ++ D2). rewrite E2, E, app_assoc. reflexivity.
Qed.

(* G2LEQ *)
Lemma g2l_lookup : forall l i m k v, (forall a b, (a < length l)%nat -> (b < length l)%nat ->
    nth a l (-1) <> -1 -> nth a l (-1) = nth b l (-1) -> a = b) ->
  (forall a w, (a < length l)%nat -> nth a l (-1) <> -1 -> lookup (nth a l (-1)) m = Some w -> False) ->
  (lookup k (g2lLoop i l m) = Some v <->
   lookup k m = Some v \/ (exists a, (a < length l)%nat /\ nth a l (-1) = k /\ k <> -1 /\ v = i + Z.of_nat a + 1)).
Proof.
  induction l as [|x l IH]; intros i m k v HI HM.
  - simpl. split; [tauto|]. intros [H | (a & Ha & _)]; [assumption | lia].
  - cbn [g2lLoop]. rewrite IH.
    + destruct (x =? -1) eqn:X.
      * apply Z.eqb_eq in X. split.
        -- intros [H | (a & Ha & E & N & V)]; [left; assumption|].
           right. exists (S a). simpl. repeat split; try assumption; lia.
        -- intros [H | (a & Ha & E & N & V)]; [left; assumption|].
           destruct a; [simpl in E; congruence|]. right. exists a. simpl in *. repeat split; try assumption; lia.
      * apply Z.eqb_neq in X. simpl lookup. destruct (x =? k) eqn:K.
        -- apply Z.eqb_eq in K. subst k. split.
           ++ intros [H | (a & Ha & E & N & V)].
              ** inversion H; subst. right. exists 0%nat. simpl. repeat split; try assumption; lia.
              ** right. exists (S a). simpl. repeat split; try assumption; lia.
           ++ intros [H | (a & Ha & E & N & V)].
              ** exfalso. apply (HM 0%nat v); [simpl; lia | simpl; assumption | simpl; assumption].
              ** assert (0 = a)%nat by (apply HI; simpl in *; try lia; try assumption; auto).
                 subst a. left. f_equal. lia.
        -- apply Z.eqb_neq in K. split.
           ++ intros [H | (a & Ha & E & N & V)]; [left; assumption|].
              right. exists (S a). simpl. repeat split; try assumption; lia.
           ++ intros [H | (a & Ha & E & N & V)]; [left; assumption|].
              destruct a; [simpl in E; congruence|]. right. exists a. simpl in *. repeat split; try assumption; lia.
    + intros a b Ha Hb N E. assert (S a = S b) by (apply HI; simpl; try lia; assumption). lia.
    + intros a w Ha N. destruct (x =? -1) eqn:X.
      * intros H. apply (HM (S a) w); simpl; try lia; assumption.
      * apply Z.eqb_neq in X. simpl. destruct (x =? nth a l (-1)) eqn:K.
        -- apply Z.eqb_eq in K. assert (0 = S a)%nat by (apply HI; simpl; try lia; assumption). lia.
        -- intros H. apply (HM (S a) w); simpl; try lia; assumption.
Qed.
