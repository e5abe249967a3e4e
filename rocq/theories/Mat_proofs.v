(** Memory and loop lemmas for dense matrices. *)
From Coq Require Import List Arith ZArith QArith Qcanon Bool Lia.
From Verif Require Import Base QcLra Mat_model Mat_spec.
Import ListNotations.
Local Open Scope Qc_scope.

Lemma bind_some {A B} (o : option A) (f : A -> option B) x : o = Some x -> bind o f = f x.
Proof. intros ->. reflexivity. Qed.
Lemma forN_inv {S} (P : nat -> S -> Prop) f n s : P 0%nat s ->
  (forall k s, (k < n)%nat -> P k s -> exists s', f k s = Some s' /\ P (Datatypes.S k) s') -> exists s', forN n f s = Some s' /\ P n s'.
Proof.
  intros H0 Hs. induction n as [|n IH]; [exists s; auto|]. destruct IH as (s1 & E1 & P1); [intros; apply Hs; [lia|auto]|].
  destruct (Hs n s1 ltac:(lia) P1) as (s2 & E2 & P2). exists s2. cbn [forN]. rewrite E1. auto.
Qed.
Lemma forN_ext {S} n (f g : nat -> S -> option S) s : (forall k s, (k < n)%nat -> f k s = g k s) -> forN n f s = forN n g s.
Proof. induction n as [|n IH]; intros H; [reflexivity|]. cbn [forN]. rewrite IH by (intros; apply H; lia). destruct (forN n g s); [apply H; lia|reflexivity]. Qed.
Lemma idx_lt r c i j : (i < r)%nat -> (j < c)%nat -> (i + r * j < r * c)%nat.
Proof. intros. nia. Qed.
Lemma idx_inj r i j i' j' : (i < r)%nat -> (i' < r)%nat -> (i + r * j = i' + r * j')%nat -> i = i' /\ j = j'.
Proof. intros H H' E0. assert (E1 : (r * j + i = r * j' + i')%nat) by lia. destruct (Nat.div_mod_unique r _ _ _ _ H H' E1); auto. Qed.
Lemma idx_ex r c p : (p < r * c)%nat -> exists i j, (i < r)%nat /\ (j < c)%nat /\ p = (i + r * j)%nat.
Proof.
  intros H. assert (r <> 0)%nat by (intros ->; lia). exists (p mod r)%nat, (p / r)%nat. split; [apply Nat.mod_upper_bound; auto|]. split; [apply Nat.div_lt_upper_bound; lia|].
  pose proof (Nat.div_mod p r ltac:(auto)). lia.
Qed.
Lemma stdResize_length n v : length (stdResize n v) = n.
Proof. unfold stdResize. rewrite app_length, firstn_length, repeat_length. lia. Qed.
Lemma nth_repeat0 n k : nth k (repeat 0 n) 0 = 0.
Proof. revert k; induction n as [|n IH]; intros [|k]; cbn; auto. Qed.
Lemma stdResize_nth n v k : (k < n)%nat -> nth k (stdResize n v) 0 = nth k v 0.
Proof.
  intros H. unfold stdResize. destruct (Nat.lt_ge_cases k (length v)) as [L|L].
  - rewrite app_nth1 by (rewrite firstn_length; lia). apply nth_firstn_lt. auto.
  - rewrite app_nth2 by (rewrite firstn_length; lia). rewrite nth_repeat0. rewrite nth_overflow; auto.
Qed.
Lemma vresize_length n c r v : length (vresize n c r v) = n.
Proof. unfold vresize. destruct (Nat.eqb_spec n (length v)); [destruct c; rewrite ?repeat_length; auto|apply stdResize_length]. Qed.
Lemma vresize_nth n v k : (k < n)%nat -> nth k (vresize n false true v) 0 = nth k v 0.
Proof. intros H. unfold vresize. destruct (Nat.eqb_spec n (length v)); [reflexivity|]. apply stdResize_nth; auto. Qed.
Lemma memcpy_ok {A} (d : A) n so (src : list A) t dst : (so + n <= length src)%nat -> (t + n <= length dst)%nat ->
  exists r, memcpy n so src t dst = Some r /\ length r = length dst /\
    (forall k, (k < n)%nat -> nth (t + k) r d = nth (so + k) src d) /\
    (forall p, (p < t \/ t + n <= p)%nat -> nth p r d = nth p dst d).
Proof.
  intros H1 H2. unfold memcpy. destruct (Nat.eqb_spec n 0) as [->|N].
  - exists dst. split; [auto|]. split; [auto|]. split; [intros; lia|auto].
  - apply Nat.leb_le in H1 as E1. apply Nat.leb_le in H2 as E2. rewrite E1, E2. cbn [andb]. eexists. split; [reflexivity|].
    assert (L1 : length (firstn t dst) = t) by (rewrite firstn_length; lia).
    assert (L2 : length (firstn n (skipn so src)) = n) by (rewrite firstn_length, skipn_length; lia).
    split; [rewrite !app_length, L1, L2, skipn_length; lia|]. split.
    + intros k Hk. rewrite app_nth2 by lia. rewrite L1. replace (t + k - t)%nat with k by lia. rewrite app_nth1 by lia. rewrite nth_firstn_lt by auto. apply nth_skipn.
    + intros p [Hp|Hp].
      * rewrite app_nth1 by lia. apply nth_firstn_lt. auto.
      * rewrite app_nth2 by lia. rewrite app_nth2 by lia. rewrite nth_skipn. f_equal. lia.
Qed.
Lemma memcpy_none {A} n so (src : list A) t dst : (n <> 0)%nat -> (length src < so + n)%nat -> memcpy n so src t dst = None.
Proof. intros N H. unfold memcpy. destruct (Nat.eqb_spec n 0); [contradiction|]. destruct (Nat.leb_spec (so + n) (length src)); [lia|reflexivity]. Qed.
Lemma wr_ok p x v : (p < length v)%nat -> wr p x v = Some (upd p x v).
Proof. intros H. unfold wr. apply Nat.ltb_lt in H. rewrite H. reflexivity. Qed.
Lemma rd_ok v p : (p < length v)%nat -> rd v p = Some (nth p v 0).
Proof. intros H. unfold rd. apply nth_error_nth'. auto. Qed.
Lemma rdw_ok p h v : (p < length v)%nat -> bind (rd v p) (fun x => wr p (h x) v) = Some (upd p (h (nth p v 0)) v).
Proof. intros H. rewrite rd_ok by auto. cbn [bind]. apply wr_ok. auto. Qed.

(** loops that change one entry per step *)
Lemma loop1 (pos : nat -> nat) (h : nat -> Qc -> Qc) (body : nat -> list Qc -> option (list Qc)) L a v0 :
  (forall i v, (i < a)%nat -> length v = L -> body i v = Some (upd (pos i) (h i (nth (pos i) v 0)) v)) ->
  length v0 = L -> (forall i, (i < a)%nat -> (pos i < L)%nat) ->
  (forall i i', (i < a)%nat -> (i' < a)%nat -> pos i = pos i' -> i = i') ->
  exists v, forN a body v0 = Some v /\ length v = L /\
    (forall i, (i < a)%nat -> nth (pos i) v 0 = h i (nth (pos i) v0 0)) /\
    (forall p, (forall i, (i < a)%nat -> pos i <> p) -> nth p v 0 = nth p v0 0).
Proof.
  intros B L0 R I.
  destruct (forN_inv (fun k v => length v = L /\ (forall i, (i < k)%nat -> nth (pos i) v 0 = h i (nth (pos i) v0 0)) /\
     (forall p, (forall i, (i < k)%nat -> pos i <> p) -> nth p v 0 = nth p v0 0)) body a v0) as (v & E1 & E2 & E3 & E4).
  - split; [auto|]. split; [intros; lia|auto].
  - intros k v Hk (P1 & P2 & P3). eexists. split; [apply B; auto|]. split; [rewrite upd_length; auto|]. split.
    + intros i Hi. destruct (Nat.eq_dec i k) as [->|N].
      * rewrite upd_nth_same by (rewrite P1; apply R; auto). f_equal. apply P3. intros i Hi' E0. apply I in E0; lia.
      * rewrite upd_nth_other by (intros E0; apply I in E0; lia). apply P2. lia.
    + intros p Hp. rewrite upd_nth_other by (intros E0; apply (Hp k); [lia|auto]). apply P3. intros i Hi. apply Hp. lia.
  - exists v. auto.
Qed.
Lemma loop2 (pos : nat -> nat -> nat) (h : nat -> nat -> Qc -> Qc) (body : nat -> nat -> list Qc -> option (list Qc)) L a b v0 :
  (forall i j v, (i < a)%nat -> (j < b)%nat -> length v = L -> body i j v = Some (upd (pos i j) (h i j (nth (pos i j) v 0)) v)) ->
  length v0 = L -> (forall i j, (i < a)%nat -> (j < b)%nat -> (pos i j < L)%nat) ->
  (forall i j i' j', (i < a)%nat -> (j < b)%nat -> (i' < a)%nat -> (j' < b)%nat -> pos i j = pos i' j' -> i = i' /\ j = j') ->
  exists v, forN a (fun i v => forN b (fun j v => body i j v) v) v0 = Some v /\ length v = L /\
    (forall i j, (i < a)%nat -> (j < b)%nat -> nth (pos i j) v 0 = h i j (nth (pos i j) v0 0)) /\
    (forall p, (forall i j, (i < a)%nat -> (j < b)%nat -> pos i j <> p) -> nth p v 0 = nth p v0 0).
Proof.
  intros B L0 R I.
  destruct (forN_inv (fun k v => length v = L /\ (forall i j, (i < k)%nat -> (j < b)%nat -> nth (pos i j) v 0 = h i j (nth (pos i j) v0 0)) /\
     (forall p, (forall i j, (i < k)%nat -> (j < b)%nat -> pos i j <> p) -> nth p v 0 = nth p v0 0)) (fun i v => forN b (fun j v => body i j v) v) a v0) as (v & E1 & E2 & E3 & E4).
  - split; [auto|]. split; [intros; lia|auto].
  - intros k v Hk (P1 & P2 & P3).
    destruct (loop1 (pos k) (h k) (body k) L b v) as (w & W1 & W2 & W3 & W4); auto.
    { intros i i' Hi Hi' E0. apply I in E0; auto. tauto. }
    exists w. split; [auto|]. split; [auto|]. split.
    + intros i j Hi Hj. destruct (Nat.eq_dec i k) as [->|N].
      * rewrite W3 by auto. f_equal. apply P3. intros i' j' Hi' Hj' E0. apply I in E0; lia.
      * rewrite W4 by (intros j' Hj' E0; apply I in E0; lia). apply P2; auto. lia.
    + intros p Hp. rewrite W4 by (intros; apply Hp; auto). apply P3. intros; apply Hp; auto. 
  - exists v. auto.
Qed.
(** accumulation in one entry *)
Lemma upd_id {A} p (d : A) v : upd p (nth p v d) v = v.
Proof. revert p; induction v as [|x v IH]; intros [|p]; cbn; auto. f_equal. auto. Qed.
Lemma upd_upd {A} p (x y : A) v : upd p x (upd p y v) = upd p x v.
Proof. revert p; induction v as [|z v IH]; intros [|p]; cbn; auto. f_equal. auto. Qed.
Lemma loopAcc p (g : nat -> Qc) (body : nat -> list Qc -> option (list Qc)) K v : (p < length v)%nat ->
  (forall k w, (k < K)%nat -> length w = length v -> body k w = Some (upd p (nth p w 0 + g k) w)) ->
  forN K body v = Some (upd p (nth p v 0 + sumTo K g) v).
Proof.
  intros H B. induction K as [|K IH]; cbn [forN].
  - unfold sumTo. cbn. rewrite Qcplus_0_r, upd_id. reflexivity.
  - rewrite IH by (intros; apply B; [lia|auto]). cbn [bind]. rewrite B by (rewrite ?upd_length; auto). rewrite upd_nth_same by auto. rewrite upd_upd. do 2 f_equal.
    unfold sumTo. rewrite seq_S, qs_app. cbn [plus]. rewrite qs_cons, qs_nil. ring.
Qed.
(** *** [isMat] *)
Lemma isMat_ext r c f g m : (forall i j, (i < r)%nat -> (j < c)%nat -> f i j = g i j) -> isMat r c f m -> isMat r c g m.
Proof. intros H (A & B & C & D & F). repeat split; auto. intros i j Hi Hj. rewrite <- H by auto. auto. Qed.
Lemma isMat_size r c f m : isMat r c f m -> msize m = (r * c)%nat.
Proof. intros (A & B & C & D & F). unfold msize. rewrite A, B. destruct C as [[-> ->]|[-> ->]]; lia. Qed.
Lemma isMat_rd2 r c f m i j : isMat r c f m -> (i < r)%nat -> (j < c)%nat -> rd2 m i j = Some (f i j).
Proof. intros (A & B & C & D & F) Hi Hj. unfold rd2. rewrite A. rewrite rd_ok by (rewrite D; apply idx_lt; auto). rewrite F; auto. Qed.
Lemma isMat_rdT r c f m (t : bool) i j : isMat r c f m -> (i < if t then c else r)%nat -> (j < if t then r else c)%nat ->
  (if t then rd2 m j i else rd2 m i j) = Some (flip t f i j).
Proof. intros M Hi Hj. unfold flip. destruct t; apply (isMat_rd2 _ _ _ _ _ _ M); auto. Qed.
Lemma mkIsMat (r c : nat) (f : nat -> nat -> Qc) (k l : nat) (v : list Qc) : ((k = 1 /\ l = 1)%nat \/ (r = 0 /\ c = 0)%nat) -> length v = (r * c)%nat ->
  (forall i j, (i < r)%nat -> (j < c)%nat -> nth (i + r * j) v 0 = f i j) -> isMat r c f (mkMat r c k l v).
Proof. intros. repeat split; auto. Qed.
