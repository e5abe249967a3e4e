(** Three- and four-dimensional matrices. *)
From Coq Require Import List Arith ZArith QArith Qcanon Bool Lia.
From Verif Require Import Base QcLra Mat_model Mat_spec Mat_proofs Mat_proofs2 Mat_proofs4 Mat_proofs5 Mat_proofs6.
Import ListNotations.
Local Open Scope Qc_scope.

Lemma idx3_lt n1 n2 n3 i j k : (i < n1)%nat -> (j < n2)%nat -> (k < n3)%nat -> (i + n1 * (j + n2 * k) < n1 * n2 * n3)%nat.
Proof. intros. rewrite <- Nat.mul_assoc. apply idx_lt; auto. apply idx_lt; auto. Qed.
Lemma idx3_inj n1 n2 i j k i' j' k' : (i < n1)%nat -> (j < n2)%nat -> (i' < n1)%nat -> (j' < n2)%nat -> (i + n1 * (j + n2 * k) = i' + n1 * (j' + n2 * k'))%nat -> i = i' /\ j = j' /\ k = k'.
Proof. intros Hi Hj Hi' Hj' E0. apply idx_inj in E0 as [-> E0]; auto. apply idx_inj in E0 as [-> ->]; auto. Qed.
Lemma idx3_decode n1 n2 i j k : (i < n1)%nat -> (j < n2)%nat -> let p := (i + n1 * (j + n2 * k))%nat in (p mod n1 = i /\ (p / n1) mod n2 = j /\ p / n1 / n2 = k)%nat.
Proof.
  intros Hi Hj p. unfold p. assert (E1 : ((i + n1 * (j + n2 * k)) / n1 = j + n2 * k)%nat) by (rewrite Nat.mul_comm, Nat.div_add by lia; rewrite Nat.div_small by lia; lia).
  rewrite E1. split; [rewrite Nat.mul_comm, Nat.mod_add by lia; apply Nat.mod_small; auto|]. split.
  - rewrite Nat.mul_comm, Nat.mod_add by lia. apply Nat.mod_small; auto.
  - rewrite Nat.mul_comm, Nat.div_add by lia. rewrite Nat.div_small by lia. lia.
Qed.
Lemma idx3_ex n1 n2 n3 p : (p < n1 * n2 * n3)%nat -> let i := (p mod n1)%nat in let j := ((p / n1) mod n2)%nat in let k := (p / n1 / n2)%nat in
  (i < n1 /\ j < n2 /\ k < n3 /\ p = i + n1 * (j + n2 * k))%nat.
Proof.
  intros H i j k. assert (N1 : n1 <> 0%nat) by (intros ->; lia). assert (N2 : n2 <> 0%nat) by (intros ->; lia).
  pose proof (Nat.div_mod p n1 N1). pose proof (Nat.div_mod (p / n1) n2 N2). pose proof (Nat.mod_upper_bound p n1 N1). pose proof (Nat.mod_upper_bound (p / n1) n2 N2).
  split; [auto|]. split; [auto|]. split; [|unfold i, j, k; lia]. unfold k. apply Nat.div_lt_upper_bound; auto. apply Nat.div_lt_upper_bound; auto. nia.
Qed.
Lemma redim_force k n1 n2 n3 n4 m : length (elem m) = msize m -> let m' := redim k n1 n2 n3 n4 true m in
  d1 m' = n1 /\ d2 m' = n2 /\ d3 m' = n3 /\ d4 m' = n4 /\ length (elem m') = (n1 * n2 * n3 * n4)%nat /\ forall p, nth p (elem m') 0 = 0.
Proof.
  intros Sz. cbv zeta. unfold redim. destruct (Nat.eqb_spec (msize m) (n1 * n2 * n3 * n4)) as [Eq|N]; cbn [d1 d2 d3 d4 elem negb andb].
  - destruct ((d1 m =? n1)%nat && (d2 m =? n2)%nat && (d3 m =? n3)%nat && (d4 m =? n4)%nat) eqn:E0.
    + apply andb_prop in E0 as [E0 E4]. apply andb_prop in E0 as [E0 E3]. apply andb_prop in E0 as [E1 E2]. apply Nat.eqb_eq in E1, E2, E3, E4.
      cbn [d1 d2 d3 d4 elem]. rewrite repeat_length. repeat split; auto; [congruence|]. intros. apply nth_repeat0.
    + unfold msize in *. cbn [d1 d2 d3 d4 elem]. destruct (Nat.eqb_spec (n1 * n2 * n3 * n4) (d1 m * d2 m * d3 m * d4 m)) as [_|K]; [|lia].
      cbn [d1 d2 d3 d4 elem]. rewrite repeat_length. repeat split; auto; [lia|]. intros. apply nth_repeat0.
  - change (msize mclear) with 0%nat. cbn [mclear d1 d2 d3 d4 elem].
    destruct ((0 =? n1)%nat && (0 =? n2)%nat && (0 =? n3)%nat && (0 =? n4)%nat) eqn:E0.
    + apply andb_prop in E0 as [E0 E4]. apply andb_prop in E0 as [E0 E3]. apply andb_prop in E0 as [E1 E2]. apply Nat.eqb_eq in E1, E2, E3, E4. subst. repeat split; auto. intros [|]; reflexivity.
    + destruct (Nat.eqb_spec (n1 * n2 * n3 * n4) 0) as [K|K]; cbn [d1 d2 d3 d4 elem].
      * repeat split; auto. intros [|]; reflexivity.
      * rewrite vresize_length. repeat split; auto. intros p. destruct (Nat.lt_ge_cases p (n1 * n2 * n3 * n4)) as [L|L].
        -- rewrite vresize_nth by auto. destruct p; reflexivity.
        -- apply nth_overflow. rewrite vresize_length. auto.
Qed.
Lemma isMat3_size n1 n2 n3 f m : isMat3 n1 n2 n3 f m -> length (elem m) = msize m.
Proof. intros (A & B & C & D & L & F). unfold msize. rewrite A, B, C, D, L. lia. Qed.
Lemma isMat3_ext n1 n2 n3 f g m : (forall i j k, (i < n1)%nat -> (j < n2)%nat -> (k < n3)%nat -> f i j k = g i j k) -> isMat3 n1 n2 n3 f m -> isMat3 n1 n2 n3 g m.
Proof. intros H (A & B & C & D & L & F). repeat split; auto. intros. rewrite <- H by auto. auto. Qed.
Lemma resize3_force n1 n2 n3 f r c d m : isMat3 n1 n2 n3 f m -> isMat3 r c d (fun _ _ _ => 0) (redim 2 r c d 1 true m).
Proof.
  intros M. destruct (redim_force 2 r c d 1 m (isMat3_size _ _ _ _ _ M)) as (A & B & C & D & L & F). repeat split; auto. rewrite L. lia.
Qed.
(** *** columns *)
Lemma getColumn3_ok n1 n2 n3 f m i2 i3 : isMat3 n1 n2 n3 f m -> (1 <= i2 <= n2)%nat -> (1 <= i3 <= n3)%nat ->
  exists v, getColumn3 i2 i3 m = Some v /\ isVec n1 (fun i => f i (i2 - 1)%nat (i3 - 1)%nat) v.
Proof.
  intros (A & B & C & D & L & F) H2 H3. unfold getColumn3. rewrite A, B, C. destruct ((n2 <? 2)%nat && (n3 <? 2)%nat) eqn:E0.
  - apply andb_prop in E0 as [E2 E3]. apply Nat.ltb_lt in E2, E3. assert (n2 = 1 /\ n3 = 1)%nat as (K2 & K3) by lia. rewrite K2, K3 in *. exists (elem m). split; [auto|]. split; [rewrite L; lia|]. intros i Hi. rewrite <- F by lia. f_equal. lia.
  - destruct (Nat.eqb_spec n1 0) as [Z0|N]; [exists []; split; [auto|]; split; [auto|intros; lia]|].
    set (q := (i2 - 1 + n2 * (i3 - 1))%nat). assert (Q1 : (q < n2 * n3)%nat) by (apply idx_lt; lia). assert (Q2 : (n1 * q + n1 <= n1 * n2 * n3)%nat) by (rewrite <- Nat.mul_assoc; replace (n1 * q + n1)%nat with (n1 * S q)%nat by lia; apply Nat.mul_le_mono_l; lia).
    unfold ptr. rewrite A, L. destruct (Nat.ltb_spec (n1 * q) (n1 * n2 * n3)); [|lia]. cbn [bind].
    destruct (memcpy_ok 0 n1 (n1 * q) (elem m) 0 (repeat 0 n1)) as (w & W1 & W2 & W3 & W4); [lia|rewrite repeat_length; lia|].
    exists w. split; [auto|]. split; [rewrite W2; apply repeat_length|]. intros i Hi. change i with (0 + i)%nat. rewrite W3 by auto. rewrite <- F by lia. f_equal. fold q. lia.
Qed.
Lemma fillColumn3_ok n1 n2 n3 f m i2 i3 data : isMat3 n1 n2 n3 f m -> (1 <= i2 <= n2)%nat -> (1 <= i3 <= n3)%nat ->
  exists m', fillColumn3 i2 i3 data m = Some m' /\
    isMat3 n1 n2 n3 (fun i j k => if (j =? i2 - 1)%nat && (k =? i3 - 1)%nat && (i <? length data)%nat then nth i data 0 else f i j k) m'.
Proof.
  intros (A & B & C & D & L & F) H2 H3. unfold fillColumn3. rewrite A, B. set (nd := if (length data <? n1)%nat then length data else n1).
  assert (Hnd : nd = Nat.min (length data) n1) by (unfold nd; destruct (Nat.ltb_spec (length data) n1); lia). destruct (Nat.eqb_spec nd 0) as [N|N].
  - exists m. split; [auto|]. repeat split; auto. intros i j k Hi Hj Hk. destruct (Nat.ltb_spec i (length data)); [lia|]. rewrite andb_false_r. auto.
  - set (q := (i2 - 1 + n2 * (i3 - 1))%nat). assert (Q1 : (q < n2 * n3)%nat) by (apply idx_lt; lia). assert (Q2 : (n1 * q + n1 <= n1 * n2 * n3)%nat) by (rewrite <- Nat.mul_assoc; replace (n1 * q + n1)%nat with (n1 * S q)%nat by lia; apply Nat.mul_le_mono_l; lia).
    unfold ptr. rewrite A, L. destruct (Nat.ltb_spec (n1 * q) (n1 * n2 * n3)); [|lia]. cbn [bind].
    destruct (memcpy_ok 0 nd 0 data (n1 * q) (elem m)) as (w & W1 & W2 & W3 & W4); [lia|lia|]. rewrite W1. cbn [bind]. eexists. split; [reflexivity|].
    unfold setElem. repeat split; cbn [d1 d2 d3 d4 elem]; auto; [lia|]. intros i j k Hi Hj Hk.
    destruct (Nat.eqb_spec j (i2 - 1)) as [->|Nj]; [destruct (Nat.eqb_spec k (i3 - 1)) as [->|Nk]|]; cbn [andb].
    + destruct (Nat.ltb_spec i (length data)) as [Li|Li].
      * fold q. replace (i + n1 * q)%nat with (n1 * q + i)%nat by lia. apply W3; lia.
      * rewrite W4 by (fold q; lia). auto.
    + rewrite W4; [auto|]. assert (Nq : (i2 - 1 + n2 * k <> q)%nat) by (unfold q; intros E0; apply idx_inj in E0; [destruct E0; lia|lia|lia]). nia.
    + rewrite W4; [auto|]. assert (Nq : (j + n2 * k <> q)%nat) by (unfold q; intros E0; apply idx_inj in E0; [destruct E0; lia|lia|lia]). nia.
Qed.
Lemma trace3_ok n1 n2 n3 f m i1 : isMat3 n1 n2 n3 f m -> (1 <= i1 <= n1)%nat -> (n3 <= n2 + 1)%nat -> trace3 i1 m = sumTo (Nat.min n2 n3) (fun i => f (i1 - 1)%nat i i).
Proof.
  intros (A & B & C & D & L & F) H1 H3. unfold trace3. rewrite A, B. destruct (Nat.eq_dec (n1 * n2 * n3) 0) as [Z0|N].
  - assert (E0 : elem m = []) by (apply length_zero_iff_nil; lia). rewrite E0. unfold vsum. cbn [length]. rewrite orb_true_r. apply Nat.eq_mul_0 in Z0 as [Z0|Z0]; [apply Nat.eq_mul_0 in Z0 as [Z0|Z0]; [lia|]|]; replace (Nat.min n2 n3) with 0%nat by lia; reflexivity.
  - assert (K : (Nat.min n2 n3 <= n1 * n2 * n3)%nat). { assert (n2 <> 0 /\ n3 <> 0)%nat by nia. transitivity n3; [lia|]. rewrite <- (Nat.mul_1_l n3) at 1. apply Nat.mul_le_mono_r. nia. }
    rewrite (vsum_strided (Nat.min n2 n3)); cbn [Nat.eqb orb].
    + apply sumTo_ext. intros i Hi. rewrite <- F by lia. f_equal. nia.
    + nia.
    + intros E0. apply (f_equal (@length Qc)) in E0. cbn [length] in E0. lia.
    + lia.
    + intros j Hj. rewrite L. replace (i1 - 1 + n1 * (n2 + 1) * j)%nat with (i1 - 1 + n1 * (j + n2 * j))%nat by nia. apply idx3_lt; lia.
    + rewrite L. destruct (Nat.le_gt_cases n3 n2); [rewrite Nat.min_r by lia|].
      * assert (n1 * n2 * n3 <= n1 * (n2 + 1) * n3)%nat by (apply Nat.mul_le_mono_r; nia). lia.
      * replace n3 with (n2 + 1)%nat by lia. rewrite Nat.min_l by lia. nia.
Qed.
Lemma getColumn4_ok n1 n2 n3 n4 f m i2 i3 i4 : isMat4 n1 n2 n3 n4 f m -> (1 <= i2 <= n2)%nat -> (1 <= i3 <= n3)%nat -> (1 <= i4 <= n4)%nat ->
  exists v, getColumn4 i2 i3 i4 m = Some v /\ isVec n1 (fun i => f i (i2 - 1)%nat (i3 - 1)%nat (i4 - 1)%nat) v.
Proof.
  intros (A & B & C & D & L & F) H2 H3 H4. unfold getColumn4. rewrite A, B, C, D. destruct ((n2 <? 2)%nat && (n3 <? 2)%nat && (n4 <? 2)%nat) eqn:E0.
  - apply andb_prop in E0 as [E0 E4]. apply andb_prop in E0 as [E2 E3]. apply Nat.ltb_lt in E2, E3, E4. assert (n2 = 1 /\ n3 = 1 /\ n4 = 1)%nat as (K2 & K3 & K4) by lia. rewrite K2, K3, K4 in *.
    exists (elem m). split; [auto|]. split; [rewrite L; lia|]. intros i Hi. rewrite <- F by lia. f_equal. lia.
  - destruct (Nat.eqb_spec n1 0) as [Z0|N]; [exists []; split; [auto|]; split; [auto|intros; lia]|].
    set (q := (i2 - 1 + n2 * (i3 - 1 + n3 * (i4 - 1)))%nat). assert (Q1 : (q < n2 * n3 * n4)%nat) by (apply idx3_lt; lia).
    assert (Q2 : (n1 * q + n1 <= n1 * n2 * n3 * n4)%nat) by (replace (n1 * n2 * n3 * n4)%nat with (n1 * (n2 * n3 * n4))%nat by (rewrite !Nat.mul_assoc; reflexivity); replace (n1 * q + n1)%nat with (n1 * S q)%nat by lia; apply Nat.mul_le_mono_l; lia).
    unfold ptr. rewrite A, L. destruct (Nat.ltb_spec (n1 * q) (n1 * n2 * n3 * n4)); [|lia]. cbn [bind].
    destruct (memcpy_ok 0 n1 (n1 * q) (elem m) 0 (repeat 0 n1)) as (w & W1 & W2 & W3 & W4); [lia|rewrite repeat_length; lia|].
    exists w. split; [auto|]. split; [rewrite W2; apply repeat_length|]. intros i Hi. change i with (0 + i)%nat. rewrite W3 by auto. rewrite <- F by lia. f_equal. fold q. lia.
Qed.
(** fillColumn of a 4D matrix is right when the last index is 1 or the second dimension is 1 *)
Lemma fillColumn4_ok n1 n2 n3 n4 f m i2 i3 i4 data : isMat4 n1 n2 n3 n4 f m -> (1 <= i2 <= n2)%nat -> (1 <= i3 <= n3)%nat -> (1 <= i4 <= n4)%nat -> (i4 = 1 \/ n2 = 1)%nat ->
  exists m', fillColumn4 i2 i3 i4 data m = Some m' /\
    isMat4 n1 n2 n3 n4 (fun i j k l => if (j =? i2 - 1)%nat && (k =? i3 - 1)%nat && (l =? i4 - 1)%nat && (i <? length data)%nat then nth i data 0 else f i j k l) m'.
Proof.
  intros (A & B & C & D & L & F) H2 H3 H4 HX. unfold fillColumn4. rewrite A, B, C. set (nd := if (length data <? n1)%nat then length data else n1).
  assert (Hnd : nd = Nat.min (length data) n1) by (unfold nd; destruct (Nat.ltb_spec (length data) n1); lia). destruct (Nat.eqb_spec nd 0) as [N|N].
  - exists m. split; [auto|]. repeat split; auto. intros i j k l Hi Hj Hk Hl. destruct (Nat.ltb_spec i (length data)); [lia|]. rewrite andb_false_r. auto.
  - replace (i2 - 1 + n2 * (i3 - 1) + n3 * (i4 - 1))%nat with (i2 - 1 + n2 * (i3 - 1 + n3 * (i4 - 1)))%nat by (destruct HX as [-> | ->]; lia).
    set (q := (i2 - 1 + n2 * (i3 - 1 + n3 * (i4 - 1)))%nat). assert (Q1 : (q < n2 * n3 * n4)%nat) by (apply idx3_lt; lia).
    assert (Q2 : (n1 * q + n1 <= n1 * n2 * n3 * n4)%nat) by (replace (n1 * n2 * n3 * n4)%nat with (n1 * (n2 * n3 * n4))%nat by (rewrite !Nat.mul_assoc; reflexivity); replace (n1 * q + n1)%nat with (n1 * S q)%nat by lia; apply Nat.mul_le_mono_l; lia).
    unfold ptr. rewrite A, L. destruct (Nat.ltb_spec (n1 * q) (n1 * n2 * n3 * n4)); [|lia]. cbn [bind].
    destruct (memcpy_ok 0 nd 0 data (n1 * q) (elem m)) as (w & W1 & W2 & W3 & W4); [lia|lia|]. rewrite W1. cbn [bind]. eexists. split; [reflexivity|].
    unfold setElem. repeat split; cbn [d1 d2 d3 d4 elem]; auto; [lia|]. intros i j k l Hi Hj Hk Hl. set (q' := (j + n2 * (k + n3 * l))%nat).
    destruct (Nat.eq_dec q' q) as [Eq|Nq].
    + unfold q', q in Eq. apply idx3_inj in Eq as (-> & -> & ->); [|lia|lia|lia|lia]. rewrite !Nat.eqb_refl. cbn [andb]. fold q in q'.
      destruct (Nat.ltb_spec i (length data)) as [Li|Li].
      * unfold q'. replace (i + n1 * q)%nat with (n1 * q + i)%nat by lia. apply W3; lia.
      * unfold q'. rewrite W4 by lia. rewrite <- F by lia. reflexivity.
    + replace ((j =? i2 - 1)%nat && (k =? i3 - 1)%nat && (l =? i4 - 1)%nat) with false.
      2:{ symmetry. destruct (Nat.eqb_spec j (i2 - 1)) as [->|]; [|reflexivity]. destruct (Nat.eqb_spec k (i3 - 1)) as [->|]; [|reflexivity]. destruct (Nat.eqb_spec l (i4 - 1)) as [->|]; [|reflexivity]. exfalso. apply Nq. reflexivity. }
      cbn [andb]. rewrite W4 by nia. apply F; auto.
Qed.
(** *** products *)
Lemma loopE n L (dom : nat -> nat -> Prop) (h : nat -> Qc -> Qc) (body : nat -> list Qc -> option (list Qc)) v0 : length v0 = L ->
  (forall i v, (i < n)%nat -> length v = L -> exists v', body i v = Some v' /\ length v' = L /\ (forall p, dom i p -> nth p v' 0 = h p (nth p v 0)) /\ (forall p, ~ dom i p -> nth p v' 0 = nth p v 0)) ->
  (forall i i' p, (i < n)%nat -> (i' < n)%nat -> dom i p -> dom i' p -> i = i') -> (forall i p, dom i p \/ ~ dom i p) ->
  exists v, forN n body v0 = Some v /\ length v = L /\ (forall i p, (i < n)%nat -> dom i p -> nth p v 0 = h p (nth p v0 0)) /\ (forall p, (forall i, (i < n)%nat -> ~ dom i p) -> nth p v 0 = nth p v0 0).
Proof.
  intros L0 Hb Hd Dec.
  destruct (forN_inv (fun k v => length v = L /\ (forall i p, (i < k)%nat -> dom i p -> nth p v 0 = h p (nth p v0 0)) /\ (forall p, (forall i, (i < k)%nat -> ~ dom i p) -> nth p v 0 = nth p v0 0)) body n v0) as (v & E1 & V).
  - split; [auto|]. split; [intros; lia|auto].
  - intros k v Hk (P1 & P2 & P3). destruct (Hb k v Hk P1) as (w & W1 & W2 & W3 & W4). exists w. split; [auto|]. split; [auto|]. split.
    + intros i p Hi Hp. destruct (Dec k p) as [Dk|Dk].
      * rewrite W3 by auto. f_equal. apply P3. intros i' Hi' D'. pose proof (Hd i' k p ltac:(lia) Hk D' Dk). lia.
      * rewrite W4 by auto. apply (P2 i); auto. assert (i <> k) by (intros ->; contradiction). lia.
    + intros p Hp. rewrite W4 by (apply Hp; lia). apply P3. intros i Hi. apply Hp. lia.
  - exists v. tauto.
Qed.
Lemma prod3_ok n1 n2 n3 K h C (a : nat -> nat -> Qc) (b : nat -> nat -> nat -> Qc) (ra : nat -> nat -> option Qc) (rb : nat -> nat -> nat -> option Qc) : isMat3 n1 n2 n3 h C ->
  (forall i k, (i < n1)%nat -> (k < K)%nat -> ra i k = Some (a i k)) -> (forall k j l, (k < K)%nat -> (j < n2)%nat -> (l < n3)%nat -> rb k j l = Some (b k j l)) ->
  exists v, forN n1 (fun i v => forN n2 (fun j v => forN K (fun k v => forN n3 (fun l v =>
            bind (ra i k) (fun a => bind (rb k j l) (fun b =>
            bind (rd v (i + n1 * (j + n2 * l))) (fun x => wr (i + n1 * (j + n2 * l)) (x + a * b) v)))) v) v) v) (elem C) = Some v /\
    isMat3 n1 n2 n3 (fun i j l => h i j l + sumTo K (fun k => a i k * b k j l)) (setElem C v).
Proof.
  intros (A & B & Cc & D & L & F) Ha Hb. set (LL := (n1 * n2 * n3)%nat) in *.
  set (H := fun (p : nat) (x : Qc) => x + sumTo K (fun k => a (p mod n1)%nat k * b k ((p / n1) mod n2)%nat (p / n1 / n2)%nat)).
  destruct (loopE n1 LL (fun i p => (p < LL /\ p mod n1 = i)%nat) H (fun i v => forN n2 (fun j v => forN K (fun k v => forN n3 (fun l v =>
            bind (ra i k) (fun a => bind (rb k j l) (fun b =>
            bind (rd v (i + n1 * (j + n2 * l))) (fun x => wr (i + n1 * (j + n2 * l)) (x + a * b) v)))) v) v) v) (elem C) L) as (v & E1 & V1 & V2 & V3).
  - intros i v Hi Hv.
    destruct (loopE n2 LL (fun j p => (p < LL /\ p mod n1 = i /\ (p / n1) mod n2 = j)%nat) H (fun j v => forN K (fun k v => forN n3 (fun l v =>
            bind (ra i k) (fun a => bind (rb k j l) (fun b =>
            bind (rd v (i + n1 * (j + n2 * l))) (fun x => wr (i + n1 * (j + n2 * l)) (x + a * b) v)))) v) v) v Hv) as (w & W1 & W2 & W3 & W4).
    + intros j u Hj Hu.
      destruct (forN_inv (fun k w => length w = LL /\ (forall l, (l < n3)%nat -> nth (i + n1 * (j + n2 * l)) w 0 = nth (i + n1 * (j + n2 * l)) u 0 + sumTo k (fun k => a i k * b k j l)) /\
          (forall p, (forall l, (l < n3)%nat -> (i + n1 * (j + n2 * l) <> p)%nat) -> nth p w 0 = nth p u 0)) (fun k v => forN n3 (fun l v =>
            bind (ra i k) (fun a => bind (rb k j l) (fun b =>
            bind (rd v (i + n1 * (j + n2 * l))) (fun x => wr (i + n1 * (j + n2 * l)) (x + a * b) v)))) v) K u) as (w & W1 & W2 & W3 & W4).
      * split; [auto|]. split; [intros; rewrite sumTo_0, Qcplus_0_r; reflexivity|auto].
      * intros k w Hk (P1 & P2 & P3).
        destruct (loop1 (fun l => (i + n1 * (j + n2 * l))%nat) (fun l x => x + a i k * b k j l) (fun l v =>
            bind (ra i k) (fun a => bind (rb k j l) (fun b =>
            bind (rd v (i + n1 * (j + n2 * l))) (fun x => wr (i + n1 * (j + n2 * l)) (x + a * b) v)))) LL n3 w) as (x & X1 & X2 & X3 & X4); auto.
        { intros l y Hl Hy. rewrite Ha by auto. cbn [bind]. rewrite Hb by auto. cbn [bind]. apply (rdw_ok _ (fun x => x + a i k * b k j l)). rewrite Hy. apply idx3_lt; auto. }
        { intros l Hl. apply idx3_lt; auto. } { intros l l' Hl Hl' E0. apply idx3_inj in E0; tauto. }
        exists x. split; [auto|]. split; [auto|]. split.
        -- intros l Hl. rewrite X3, P2 by auto. unfold sumTo. rewrite seq_S, qs_app, qs_cons, qs_nil. cbn [plus]. ring.
        -- intros p Hp. rewrite X4 by auto. apply P3; auto.
      * exists w. split; [auto|]. split; [auto|]. split.
        -- intros p (Hp & E1 & E2). destruct (idx3_ex n1 n2 n3 p Hp) as (Q1 & Q2 & Q3 & Q4). unfold H. rewrite E1, E2 in *. rewrite Q4 at 1 2. rewrite W3 by auto. reflexivity.
        -- intros p Hp. apply W4. intros l Hl E0. apply Hp. subst p. destruct (idx3_decode n1 n2 i j l Hi Hj) as (Q1 & Q2 & Q3). split; [apply idx3_lt; auto|]. auto.
    + intros j j' p Hj Hj' (_ & _ & E1) (_ & _ & E2). congruence.
    + intros j p. destruct (Nat.lt_ge_cases p LL); [|right; lia]. destruct (Nat.eq_dec (p mod n1) i); [|right; tauto]. destruct (Nat.eq_dec ((p / n1) mod n2) j); [left; auto|right; tauto].
    + exists w. split; [auto|]. split; [auto|]. split.
      * intros p (Hp & E1). destruct (idx3_ex n1 n2 n3 p Hp) as (Q1 & Q2 & Q3 & Q4). apply (W3 ((p / n1) mod n2)%nat); auto.
      * intros p Hp. apply W4. intros j Hj (Q1 & Q2 & Q3). apply Hp. auto.
  - intros i i' p Hi Hi' (_ & E1) (_ & E2). congruence.
  - intros i p. destruct (Nat.lt_ge_cases p LL); [|right; lia]. destruct (Nat.eq_dec (p mod n1) i); [left; auto|right; tauto].
  - exists v. split; [exact E1|]. unfold setElem. repeat split; cbn [d1 d2 d3 d4 elem]; auto. intros i j l Hi Hj Hl.
    destruct (idx3_decode n1 n2 i j l Hi Hj) as (Q1 & Q2 & Q3). rewrite (V2 i _ Hi) by (split; [apply idx3_lt; auto|auto]). unfold H. rewrite Q1, Q2, Q3. rewrite F by auto. reflexivity.
Qed.
Lemma acc3 (addTo : bool) M n2 n3 r c d h C : isMat3 r c d h C -> (addTo = false \/ (r = M /\ c = n2 /\ d = n3)) ->
  isMat3 M n2 n3 (fun i j l => if addTo then h i j l else 0) (if addTo then C else redim 2 M n2 n3 1 true C).
Proof. intros MC HC. destruct addTo; [destruct HC as [HC|(-> & -> & ->)]; [discriminate|exact MC]|]. apply (resize3_force _ _ _ _ _ _ _ _ MC). Qed.
Lemma mulMat3_ok ra ca f A k1 n2 n3 g B (ta addTo : bool) r c d h C : isMat ra ca f A -> isMat3 k1 n2 n3 g B -> isMat3 r c d h C -> (if ta then ra else ca) = k1 ->
  (addTo = false \/ (r = (if ta then ca else ra) /\ c = n2 /\ d = n3)) ->
  exists C', mulMat3 A B ta addTo C = Some (true, C') /\
    isMat3 (if ta then ca else ra) n2 n3 (fun i j l => (if addTo then h i j l else 0) + sumTo k1 (fun k => flip ta f i k * g k j l)) C'.
Proof.
  intros MA MB MC HK HC. pose proof MA as (A1 & A2 & _). pose proof MB as (B1 & B2 & B3 & B4 & B5 & B6). unfold mulMat3. rewrite A1, A2, B1, HK, Nat.eqb_refl. cbn [negb].
  set (M := if ta then ca else ra) in *. cbv zeta. rewrite B2, B3. pose proof (acc3 addTo M n2 n3 r c d h C MC HC) as MI.
  set (C1 := if addTo then C else redim 2 M n2 n3 1 true C) in *. pose proof MI as (D1 & D2 & D3 & _). unfold pos3d. rewrite D1, D2, D3, B1, B2.
  edestruct (prod3_ok M n2 n3 k1 _ C1 (flip ta f) g (fun i k => if ta then rd2 A k i else rd2 A i k) (fun k j l => rd (elem B) (k + k1 * (j + n2 * l))) MI) as (v & E1 & E2).
  - intros i k Hi Hk. apply (isMat_rdT _ _ _ _ ta i k MA); unfold M in *; destruct ta; subst; auto.
  - intros k j l Hk Hj Hl. rewrite rd_ok by (rewrite B5; apply idx3_lt; auto). rewrite B6 by auto. reflexivity.
  - rewrite E1. cbn [bind]. eexists. split; [reflexivity|]. exact E2.
Qed.
Lemma mulVec3_ok A k1 n2 n3 g B (addTo : bool) M r c d h C : isMat3 k1 n2 n3 g B -> isMat3 r c d h C -> length A = (M * k1)%nat -> length A <> 0%nat ->
  (addTo = false \/ (r = M /\ c = n2 /\ d = n3)) ->
  exists C', mulVec3 A B addTo C = Some (true, C') /\
    isMat3 M n2 n3 (fun i j l => (if addTo then h i j l else 0) + sumTo k1 (fun k => nth (i + M * k) A 0 * g k j l)) C'.
Proof.
  intros MB MC HA HA0 HC. pose proof MB as (B1 & B2 & B3 & B4 & B5 & B6). unfold mulVec3. rewrite B1, B2, B3. cbv zeta.
  assert (EM : (if (0 <? k1)%nat then (length A / k1)%nat else 0%nat) = M).
  { assert (k1 <> 0)%nat by nia. destruct (Nat.ltb_spec 0 k1); [|lia]. rewrite HA. apply Nat.div_mul. auto. }
  rewrite EM, HA, Nat.eqb_refl. destruct (Nat.eqb_spec (M * k1) 0); [lia|]. cbn [negb andb]. pose proof (acc3 addTo M n2 n3 r c d h C MC HC) as MI.
  set (C1 := if addTo then C else redim 2 M n2 n3 1 true C) in *. pose proof MI as (D1 & D2 & D3 & _). unfold pos3d. rewrite D1, D2, D3, B1, B2.
  edestruct (prod3_ok M n2 n3 k1 _ C1 (fun i k => nth (i + M * k) A 0) g (fun i k => rd A (i + M * k)) (fun k j l => rd (elem B) (k + k1 * (j + n2 * l))) MI) as (v & E1 & E2).
  - intros i k Hi Hk. apply rd_ok. rewrite HA. apply idx_lt; auto.
  - intros k j l Hk Hj Hl. rewrite rd_ok by (rewrite B5; apply idx3_lt; auto). rewrite B6 by auto. reflexivity.
  - rewrite E1. cbn [bind]. eexists. split; [reflexivity|]. exact E2.
Qed.
