(** Transposing, rows, columns, blocks and diagonals of dense matrices. *)
From Coq Require Import List Arith ZArith QArith Qcanon Bool Lia.
From Verif Require Import Base QcLra Mat_model Mat_spec Mat_proofs.
Import ListNotations.
Local Open Scope Qc_scope.

Lemma transpose_ok r c f m : isMat r c f m -> exists m', transpose m = Some m' /\ isMat c r (fun i j => f j i) m'.
Proof.
  intros (A & B & C & D & F). unfold transpose. rewrite A, B.
  destruct (loop2 (fun i j => (j + c * i)%nat) (fun i j _ => f i j)
    (fun i j v => bind (rd (elem m) (i + r * j)) (fun x => wr (j + c * i) x v)) (r * c) r c (elem m)) as (v & E1 & V1 & V2 & V3).
  - intros i j v Hi Hj Hv. rewrite rd_ok by (rewrite D; apply idx_lt; auto). cbn [bind]. rewrite F by auto. apply wr_ok. rewrite Hv, (Nat.mul_comm r c). apply idx_lt; auto.
  - auto.
  - intros i j Hi Hj. rewrite (Nat.mul_comm r c). apply idx_lt; auto.
  - intros i j i' j' Hi Hj Hi' Hj' E0. apply idx_inj in E0; tauto.
  - rewrite E1. cbn [bind]. eexists. split; [reflexivity|]. apply mkIsMat; [tauto|lia|]. intros i j Hi Hj. apply V2; auto.
Qed.
Lemma copyTransposed_ok r c f m : isMat r c f m -> exists m', copyTransposed m = Some m' /\ isMat c r (fun i j => f j i) m'.
Proof.
  intros M. pose proof (isMat_size _ _ _ _ M) as Sz. destruct M as (A & B & C & D & F). unfold copyTransposed. rewrite A, B, Sz.
  destruct (loop2 (fun i j => (j + c * i)%nat) (fun i j _ => f i j)
    (fun i j v => bind (rd (elem m) (i + r * j)) (fun x => wr (j + c * i) x v)) (r * c) r c (repeat 0 (r * c))) as (v & E1 & V1 & V2 & V3).
  - intros i j v Hi Hj Hv. rewrite rd_ok by (rewrite D; apply idx_lt; auto). cbn [bind]. rewrite F by auto. apply wr_ok. rewrite Hv, (Nat.mul_comm r c). apply idx_lt; auto.
  - apply repeat_length.
  - intros i j Hi Hj. rewrite (Nat.mul_comm r c). apply idx_lt; auto.
  - intros i j i' j' Hi Hj Hi' Hj' E0. apply idx_inj in E0; tauto.
  - rewrite E1. cbn [bind]. eexists. split; [reflexivity|]. apply mkIsMat; [tauto|lia|]. intros i j Hi Hj. apply V2; auto.
Qed.
Lemma augmentCols_ok r c s f g m B : isMat r c f m -> isMat r s g B -> (1 <= r)%nat ->
  fst (augmentCols B m) = true /\ isMat r (c + s) (fun i j => if (j <? c)%nat then f i j else g i (j - c)%nat) (snd (augmentCols B m)).
Proof.
  intros (A & A2 & C & D & F) (B1 & B2 & BC & BD & BF) Hr. unfold augmentCols. rewrite A, B1, Nat.eqb_refl. cbn [negb fst snd]. split; [reflexivity|].
  rewrite A2, B2. apply mkIsMat; [left; destruct C as [C|[C _]]; [auto|lia]|rewrite app_length, D, BD; lia|].
  intros i j Hi Hj. destruct (Nat.ltb_spec j c) as [L|L].
  - rewrite app_nth1 by (rewrite D; apply idx_lt; auto). auto.
  - rewrite app_nth2 by (rewrite D; nia). rewrite D. replace (i + r * j - r * c)%nat with (i + r * (j - c))%nat by nia. apply BF; auto. lia.
Qed.
(** *** Rows and columns *)
Lemma getRow_ok r c f m k : isMat r c f m -> (1 <= k <= r)%nat -> exists v, getRow k m = Some v /\ isVec c (f (k - 1)%nat) v.
Proof.
  intros (A & B & C & D & F) Hk. unfold getRow. rewrite A, B. destruct (Nat.ltb_spec r 2) as [L|L].
  - destruct r as [|[|r]]; [lia| |lia]. exists (elem m). split; [auto|]. split; [lia|]. intros i Hi. replace (k - 1)%nat with 0%nat by lia. rewrite <- F by lia. f_equal. lia.
  - destruct (loop1 (fun i => i) (fun i _ => f (k - 1)%nat i) (fun i row => bind (rd (elem m) (k - 1 + r * i)) (fun x => wr i x row)) c c (repeat 0 c)) as (v & E1 & V1 & V2 & V3); auto.
    + intros i v Hi Hv. rewrite rd_ok by (rewrite D; apply idx_lt; lia). cbn [bind]. rewrite F by lia. apply wr_ok. lia.
    + apply repeat_length.
    + exists v. split; [auto|]. split; auto.
Qed.
Lemma getColumn_ok r c f m k : isMat r c f m -> (1 <= k <= c)%nat -> exists v, getColumn k m = Some v /\ isVec r (fun i => f i (k - 1)%nat) v.
Proof.
  intros (A & B & C & D & F) Hk. unfold getColumn. rewrite A, B. destruct (Nat.ltb_spec c 2) as [L|L].
  - destruct c as [|[|c]]; [lia| |lia]. exists (elem m). split; [auto|]. split; [lia|]. intros i Hi. replace (k - 1)%nat with 0%nat by lia. rewrite <- F by lia. f_equal. lia.
  - destruct (Nat.eqb_spec r 0) as [->|N].
    + exists []. split; [auto|]. split; [auto|]. intros; lia.
    + assert (K : (r * (k - 1) + r <= r * c)%nat) by nia. unfold ptr. rewrite A, D. destruct (Nat.ltb_spec (r * (k - 1)) (r * c)); [|lia]. cbn [bind].
      destruct (memcpy_ok 0 r (r * (k - 1)) (elem m) 0 (repeat 0 r)) as (w & W1 & W2 & W3 & W4); [lia|rewrite repeat_length; lia|].
      exists w. split; [auto|]. split; [rewrite W2; apply repeat_length|]. intros i Hi. change i with (0 + i)%nat. rewrite W3 by auto. rewrite <- F by lia. f_equal. lia.
Qed.
Lemma fillColumnPtr_ok r c f m k data o : isMat r c f m -> (1 <= k <= c)%nat -> (o + r <= length data)%nat ->
  exists m', fillColumnPtr k data o m = Some m' /\ isMat r c (fun i j => if (j =? k - 1)%nat then nth (o + i) data 0 else f i j) m'.
Proof.
  intros (A & B & C & D & F) Hk Ho. unfold fillColumnPtr. rewrite A. destruct (Nat.eqb_spec r 0) as [->|N].
  - exists m. split; [auto|]. repeat split; auto. intros; lia.
  - assert (K : (r * (k - 1) + r <= r * c)%nat) by nia. unfold ptr. rewrite A, D. destruct (Nat.ltb_spec (r * (k - 1)) (r * c)); [|lia]. cbn [bind].
    destruct (memcpy_ok 0 r o data (r * (k - 1)) (elem m)) as (w & W1 & W2 & W3 & W4); [lia|lia|]. rewrite W1. cbn [bind]. eexists. split; [reflexivity|].
    unfold setElem. rewrite A, B. apply mkIsMat; [auto|lia|]. intros i j Hi Hj. destruct (Nat.eqb_spec j (k - 1)) as [->|Nj].
    + replace (i + r * (k - 1))%nat with (r * (k - 1) + i)%nat by lia. apply W3; auto.
    + rewrite W4 by nia. auto.
Qed.
Lemma fillColumn_ok r c f m k data : isMat r c f m -> (1 <= k <= c)%nat ->
  exists m', fillColumn k data m = Some m' /\ isMat r c (fun i j => if (j =? k - 1)%nat && (i <? length data)%nat then nth i data 0 else f i j) m'.
Proof.
  intros (A & B & C & D & F) Hk. unfold fillColumn. rewrite A. set (nd := if (length data <? r)%nat then length data else r).
  assert (Hnd : nd = Nat.min (length data) r) by (unfold nd; destruct (Nat.ltb_spec (length data) r); lia). destruct (Nat.eqb_spec nd 0) as [N|N].
  - exists m. split; [auto|]. repeat split; auto. intros i j Hi Hj. destruct (Nat.ltb_spec i (length data)); [lia|]. rewrite andb_false_r. auto.
  - assert (K : (r * (k - 1) + r <= r * c)%nat) by nia. unfold ptr. rewrite A, D. destruct (Nat.ltb_spec (r * (k - 1)) (r * c)); [|lia]. cbn [bind].
    destruct (memcpy_ok 0 nd 0 data (r * (k - 1)) (elem m)) as (w & W1 & W2 & W3 & W4); [lia|lia|]. rewrite W1. cbn [bind]. eexists. split; [reflexivity|].
    unfold setElem. rewrite A, B. apply mkIsMat; [auto|lia|]. intros i j Hi Hj. destruct (Nat.eqb_spec j (k - 1)) as [->|Nj]; cbn [andb].
    + destruct (Nat.ltb_spec i (length data)) as [L|L].
      * replace (i + r * (k - 1))%nat with (r * (k - 1) + i)%nat by lia. apply W3; lia.
      * rewrite W4 by lia. auto.
    + rewrite W4 by nia. auto.
Qed.
Lemma fillRow_ok r c f m k data : isMat r c f m -> (1 <= k <= r)%nat -> (c <= length data)%nat ->
  exists m', fillRow k data m = Some m' /\ isMat r c (fun i j => if (i =? k - 1)%nat then nth j data 0 else f i j) m'.
Proof.
  intros (A & B & C & D & F) Hk Ho. unfold fillRow. rewrite A, B. destruct (Nat.ltb_spec r 2) as [L|L].
  - destruct r as [|[|r]]; [lia| |lia]. unfold vfill. cbn [Nat.ltb Nat.leb]. replace (length (elem m) <? 0)%nat with false by (destruct (length (elem m)); reflexivity).
    destruct (memcpy_ok 0 (length (elem m)) 0 data 0 (elem m)) as (w & W1 & W2 & W3 & W4); [lia|lia|]. rewrite W1. cbn [bind]. eexists. split; [reflexivity|].
    unfold setElem. rewrite A, B. apply mkIsMat; [auto|lia|]. intros i j Hi Hj. replace i with 0%nat by lia. replace (k - 1)%nat with 0%nat by lia. cbn [Nat.eqb].
    replace (0 + 1 * j)%nat with (0 + j)%nat by lia. apply W3. lia.
  - destruct (loop1 (fun i => (k - 1 + r * i)%nat) (fun i _ => nth i data 0) (fun i v => bind (rd data i) (fun x => wr (k - 1 + r * i) x v)) (r * c) c (elem m)) as (v & E1 & V1 & V2 & V3); auto.
    + intros i v Hi Hv. rewrite rd_ok by lia. cbn [bind]. apply wr_ok. rewrite Hv. apply idx_lt; lia.
    + intros i Hi. apply idx_lt; lia.
    + intros i i' Hi Hi' E0. apply idx_inj in E0; [tauto|lia|lia].
    + rewrite E1. cbn [bind]. eexists. split; [reflexivity|]. unfold setElem. rewrite A, B. apply mkIsMat; [auto|lia|]. intros i j Hi Hj.
      destruct (Nat.eqb_spec i (k - 1)) as [->|N]; [apply V2; auto|]. rewrite V3; [auto|]. intros i' Hi' E0. apply idx_inj in E0; lia.
Qed.
(** *** Blocks *)
Definition inBlock (r0 c0 nr nc i j : nat) : bool := ((r0 <=? i) && (i <? r0 + nr) && (c0 <=? j) && (j <? c0 + nc))%nat.
Lemma blockLoop_ok op r c s t f g m B r0 c0 (tr : bool) : isMat r c f m -> isMat s t g B -> (1 <= r0)%nat -> (1 <= c0)%nat ->
  exists m', blockLoop op B r0 c0 tr m = Some m' /\
    isMat r c (fun i j => if inBlock (r0 - 1) (c0 - 1) (if tr then t else s) (if tr then s else t) i j
                          then op (f i j) (flip tr g (i - (r0 - 1))%nat (j - (c0 - 1))%nat) else f i j) m'.
Proof.
  intros (A & A2 & C & D & F) MB Hr Hc. pose proof MB as MB0. destruct MB as (B1 & B2 & BC & BD & BF). unfold blockLoop. rewrite A, A2, B1, B2.
  set (nr := if tr then t else s). set (nc := if tr then s else t).
  assert (Pos : forall i j, (i + 1 + r0 - 2 + r * (c0 - 1) + j * r = (r0 - 1 + i) + r * (c0 - 1 + j))%nat) by (intros; nia).
  destruct (loop2 (fun i j => ((r0 - 1 + i) + r * (c0 - 1 + j))%nat) (fun i j x => op x (flip tr g i j))
    (fun i0 j0 v => bind (if tr then rd2 B j0 i0 else rd2 B i0 j0) (fun b =>
       bind (rd v (i0 + 1 + r0 - 2 + r * (c0 - 1) + j0 * r)) (fun x => wr (i0 + 1 + r0 - 2 + r * (c0 - 1) + j0 * r) (op x b) v)))
    (r * c) (passes nr r0 r) (passes nc c0 c) (elem m)) as (v & E1 & V1 & V2 & V3).
  - unfold passes. intros i j v Hi Hj Hv. rewrite (isMat_rdT _ _ _ _ tr i j MB0) by (unfold nr, nc in *; destruct tr; lia). cbn [bind]. rewrite Pos.
    apply (rdw_ok _ (fun x => op x (flip tr g i j))). rewrite Hv. apply idx_lt; lia.
  - auto.
  - unfold passes. intros i j Hi Hj. apply idx_lt; lia.
  - unfold passes. intros i j i' j' Hi Hj Hi' Hj' E0. apply idx_inj in E0; lia.
  - cbv zeta in *. rewrite E1. cbn [bind]. eexists. split; [reflexivity|]. unfold setElem. rewrite A, A2. apply mkIsMat; [auto|auto|].
    intros i j Hi Hj. fold nr nc. unfold inBlock.
    destruct (Nat.leb_spec (r0 - 1) i); cbn [andb]. 2:{ rewrite V3; [auto|]. intros i' j' Hi' Hj' E0. unfold passes in *. apply idx_inj in E0; lia. }
    destruct (Nat.ltb_spec i (r0 - 1 + nr)); cbn [andb]. 2:{ rewrite V3; [auto|]. intros i' j' Hi' Hj' E0. unfold passes in *. apply idx_inj in E0; lia. }
    destruct (Nat.leb_spec (c0 - 1) j); cbn [andb]. 2:{ rewrite V3; [auto|]. intros i' j' Hi' Hj' E0. unfold passes in *. apply idx_inj in E0; lia. }
    destruct (Nat.ltb_spec j (c0 - 1 + nc)); cbn [andb]. 2:{ rewrite V3; [auto|]. intros i' j' Hi' Hj' E0. unfold passes in *. apply idx_inj in E0; lia. }
    specialize (V2 (i - (r0 - 1))%nat (j - (c0 - 1))%nat). unfold passes in V2. specialize (V2 ltac:(lia) ltac:(lia)).
    replace (r0 - 1 + (i - (r0 - 1)))%nat with i in V2 by lia. replace (c0 - 1 + (j - (c0 - 1)))%nat with j in V2 by lia. rewrite V2, F by auto. reflexivity.
Qed.
Lemma extractBlock_ok r c s t f g m B r0 c0 (add tr : bool) : isMat r c f m -> isMat s t g B -> (1 <= r0)%nat -> (1 <= c0)%nat ->
  exists B', extractBlock B r0 c0 add tr m = Some B' /\
    isMat s t (fun a b => let i := (if tr then b else a) in let j := (if tr then a else b) in
       if (r0 - 1 + i <? r)%nat && (c0 - 1 + j <? c)%nat
       then (if add then g a b + f (r0 - 1 + i)%nat (c0 - 1 + j)%nat else f (r0 - 1 + i)%nat (c0 - 1 + j)%nat) else g a b) B'.
Proof.
  intros (A & A2 & C & D & F) (B1 & B2 & BC & BD & BF) Hr Hc. unfold extractBlock. rewrite A, A2, B1, B2.
  set (nr := if tr then t else s). set (nc := if tr then s else t).
  assert (Pos : forall i j, (i + 1 + r0 - 2 + r * (c0 - 1) + j * r = (r0 - 1 + i) + r * (c0 - 1 + j))%nat) by (intros; nia).
  destruct (loop2 (fun i j => if tr then (j + s * i)%nat else (i + s * j)%nat) (fun i j b => if add then b + f (r0 - 1 + i)%nat (c0 - 1 + j)%nat else f (r0 - 1 + i)%nat (c0 - 1 + j)%nat)
    (fun i0 j0 v => bind (rd (elem m) (i0 + 1 + r0 - 2 + r * (c0 - 1) + j0 * r)) (fun x =>
       bind (rd v (if tr then (j0 + s * i0)%nat else (i0 + s * j0)%nat)) (fun b => wr (if tr then (j0 + s * i0)%nat else (i0 + s * j0)%nat) (if add then b + x else x) v)))
    (s * t) (passes nr r0 r) (passes nc c0 c) (elem B)) as (v & E1 & V1 & V2 & V3).
  - unfold passes, nr, nc. intros i j v Hi Hj Hv. rewrite Pos. rewrite rd_ok by (rewrite D; apply idx_lt; lia). cbn [bind]. rewrite F by lia.
    apply (rdw_ok _ (fun b => if add then b + f (r0 - 1 + i)%nat (c0 - 1 + j)%nat else f (r0 - 1 + i)%nat (c0 - 1 + j)%nat)). rewrite Hv. destruct tr; apply idx_lt; lia.
  - auto.
  - unfold passes, nr, nc. intros i j Hi Hj. destruct tr; apply idx_lt; lia.
  - unfold passes, nr, nc. intros i j i' j' Hi Hj Hi' Hj' E0. destruct tr; apply idx_inj in E0; lia.
  - cbv zeta in *. rewrite E1. cbn [bind]. eexists. split; [reflexivity|]. unfold setElem. rewrite B1, B2. apply mkIsMat; [auto|auto|].
    intros a b Ha Hb. set (i := if tr then b else a). set (j := if tr then a else b).
    assert (Ep : (a + s * b = if tr then (j + s * i) else (i + s * j))%nat) by (unfold i, j; destruct tr; reflexivity).
    assert (Hi : (i < nr)%nat) by (unfold i, nr; destruct tr; auto). assert (Hj : (j < nc)%nat) by (unfold j, nc; destruct tr; auto).
    destruct (Nat.ltb_spec (r0 - 1 + i) r); cbn [andb]; [destruct (Nat.ltb_spec (c0 - 1 + j) c); cbn [andb]|].
    + rewrite Ep, V2 by (unfold passes; lia). rewrite <- Ep, BF by auto. reflexivity.
    + rewrite V3; [auto|]. intros i' j' Hi' Hj' E0. unfold passes, i, j, nr, nc in *. destruct tr; apply idx_inj in E0; lia.
    + rewrite V3; [auto|]. intros i' j' Hi' Hj' E0. unfold passes, i, j, nr, nc in *. destruct tr; apply idx_inj in E0; lia.
Qed.
