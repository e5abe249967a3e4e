(** Reshaping of dense matrices. *)
From Coq Require Import List Arith ZArith QArith Qcanon Bool Lia.
From Verif Require Import Base QcLra Mat_model Mat_spec Mat_proofs.
Import ListNotations.
Local Open Scope Qc_scope.

(** *** resize *)
Lemma resize_force r c r' c' f m : isMat r c f m -> isMat r' c' (fun _ _ => 0) (mresize r' c' true m).
Proof.
  intros M. pose proof (isMat_size _ _ _ _ M) as Sz. destruct M as (A & B & C & D & F).
  unfold mresize, redim. destruct (Nat.eqb_spec (msize m) (r' * c' * 1 * 1)) as [Eq|N]; cbn [d1 d2 d3 d4 elem negb andb].
  - assert (L : length (repeat 0 (length (elem m))) = (r' * c')%nat) by (rewrite repeat_length, D; lia).
    destruct ((d1 m =? r')%nat && (d2 m =? c')%nat && (d3 m =? 1)%nat && (d4 m =? 1)%nat) eqn:E0.
    + apply andb_prop in E0 as [E0 E4]. apply andb_prop in E0 as [E0 E3]. apply andb_prop in E0 as [E1 E2].
      apply Nat.eqb_eq in E1, E2, E3, E4. repeat split; cbn [d1 d2 d3 d4 elem]; auto. intros. apply nth_repeat0.
    + unfold msize in *. cbn [d1 d2 d3 d4 elem]. destruct (Nat.eqb_spec (r' * c' * 1 * 1) (d1 m * d2 m * d3 m * d4 m)) as [_|K]; [|lia].
      apply mkIsMat; auto. intros. apply nth_repeat0.
  - change (msize mclear) with 0%nat. cbn [mclear d1 d2 d3 d4 elem].
    destruct r' as [|r']; cbn [Nat.eqb andb].
    + destruct c' as [|c']; cbn [Nat.eqb andb Nat.mul]; apply mkIsMat; auto; intros; lia.
    + destruct c' as [|c'].
      * replace (S r' * 0 * 1 * 1)%nat with 0%nat by lia. cbn [Nat.eqb]. apply mkIsMat; [auto|cbn [length]; lia|intros; lia].
      * destruct (Nat.eqb_spec (S r' * S c' * 1 * 1) 0) as [K|_]; [lia|]. apply mkIsMat; auto.
        -- rewrite vresize_length. lia.
        -- intros i j Hi Hj. rewrite vresize_nth by (pose proof (idx_lt _ _ _ _ Hi Hj); lia). destruct (i + S r' * j)%nat; reflexivity.
Qed.
Lemma resize_keep r c r' c' f m : isMat r c f m -> (r' * c' <> r * c)%nat ->
  isMat r' c' (fun i j => if (r' =? r)%nat && (j <? c)%nat then f i j else 0) (mresize r' c' false m).
Proof.
  intros M N. pose proof (isMat_size _ _ _ _ M) as Sz. destruct M as (A & B & C & D & F).
  unfold mresize, redim. rewrite A, B.
  replace ((r =? r')%nat && (c =? c')%nat && (d3 m =? 1)%nat && (d4 m =? 1)%nat) with false.
  2:{ symmetry. destruct (Nat.eqb_spec r r') as [->|]; [|reflexivity]. destruct (Nat.eqb_spec c c') as [->|]; [exfalso; auto|reflexivity]. }
  rewrite Sz. destruct (Nat.eqb_spec (r' * c' * 1 * 1) (r * c)) as [K|_]; [lia|]. cbn [Nat.leb andb orb negb].
  rewrite !orb_false_r. apply mkIsMat; auto.
  - rewrite vresize_length. lia.
  - intros i j Hi Hj. pose proof (idx_lt _ _ _ _ Hi Hj). rewrite vresize_nth by lia. rewrite (Nat.eqb_sym r r'). destruct (Nat.eqb_spec r' r) as [->|]; cbn [negb andb].
    + destruct (Nat.ltb_spec j c) as [L|L]; [apply F; auto|]. apply nth_overflow. rewrite D. nia.
    + destruct (i + r' * j)%nat; reflexivity.
Qed.
Lemma resize_same r c r' c' f m : isMat r c f m -> (r' * c' = r * c)%nat ->
  let m' := mresize r' c' false m in elem m' = elem m /\ d1 m' = r' /\ d2 m' = c' /\ d3 m' = 1%nat /\ d4 m' = 1%nat.
Proof.
  intros M N. pose proof (isMat_size _ _ _ _ M) as Sz. destruct M as (A & B & C & D & F).
  unfold mresize, redim. rewrite A, B. cbv zeta.
  destruct ((r =? r')%nat && (c =? c')%nat && (d3 m =? 1)%nat && (d4 m =? 1)%nat) eqn:E0.
  - apply andb_prop in E0 as [E0 E4]. apply andb_prop in E0 as [E0 E3]. apply andb_prop in E0 as [E1 E2]. apply Nat.eqb_eq in E1, E2, E3, E4. subst. auto.
  - rewrite Sz. destruct (Nat.eqb_spec (r' * c' * 1 * 1) (r * c)) as [_|K]; [|lia]. cbn. auto.
Qed.

(** *** expandRows *)
Lemma shrink_ok r c f m r' : isMat r c f m -> (1 <= r' < r)%nat -> (1 <= c)%nat ->
  exists m', expandRows (Z.of_nat r' - Z.of_nat r) false m = Some m' /\ isMat r' c f m'.
Proof.
  intros M Hr Hc. pose proof M as M0. destruct M as (A & B & C & D & F). unfold expandRows. rewrite A.
  replace (Z.of_nat r + (Z.of_nat r' - Z.of_nat r))%Z with (Z.of_nat r') by lia. rewrite B.
  destruct (Z.ltb_spec (Z.of_nat r') 1); [lia|]. destruct (Nat.ltb_spec c 1); [lia|]. cbn [orb].
  destruct (Z.ltb_spec (Z.of_nat r' - Z.of_nat r) 0); [|lia]. rewrite Nat2Z.id.
  destruct (forN_inv (fun k v => length v = (r * c)%nat /\ (forall i j, (i < r')%nat -> (j <= k)%nat -> (j < c)%nat -> nth (i + r' * j) v 0 = f i j) /\
      (forall p, (r * S k <= p)%nat -> nth p v 0 = nth p (elem m) 0)) 
      (fun c0 v => bind (ptr (setElem m v) (S c0)) (fun p => memcpy r' p v (r' * S c0) v)) (c - 1) (elem m)) as (v & E1 & V1 & V2 & V3).
  - split; [auto|]. split; [|auto]. intros i j Hi Hj Hj'. replace j with 0%nat by lia. rewrite <- F by lia. f_equal. lia.
  - intros k v Hk (P1 & P2 & P3). unfold ptr. cbn [setElem d1 elem]. rewrite P1, A.
    assert (K1 : (r * S k + r <= r * c)%nat) by (replace (r * S k + r)%nat with (r * (S (S k)))%nat by lia; apply Nat.mul_le_mono_l; lia).
    destruct (Nat.ltb_spec (r * S k) (r * c)); [|lia]. cbn [bind].
    assert (K2 : (r' * S k + r' <= r * S k + r)%nat) by nia.
    destruct (memcpy_ok 0 r' (r * S k) v (r' * S k) v) as (w & W1 & W2 & W3 & W4); [lia|lia|].
    exists w. split; [auto|]. split; [congruence|]. split.
    + intros i j Hi Hj Hj'. destruct (Nat.eq_dec j (S k)) as [->|N].
      * replace (i + r' * S k)%nat with (r' * S k + i)%nat by lia. rewrite W3 by auto. rewrite P3 by lia. rewrite <- F by lia. f_equal. lia.
      * rewrite W4; [apply P2; auto; lia|]. left. assert (r' * j <= r' * k)%nat by (apply Nat.mul_le_mono_l; lia). lia.
    + intros p Hp. rewrite W4 by nia. apply P3. nia.
  - rewrite E1. cbn [bind]. eexists. split; [reflexivity|]. unfold setElem, setRows. cbn [d1 d2 d3 d4]. rewrite B. apply mkIsMat.
    + destruct C as [C|[C _]]; [left; auto|lia].
    + apply vresize_length.
    + intros i j Hi Hj. rewrite vresize_nth by (apply idx_lt; auto). apply V2; auto. lia.
Qed.
Lemma grow_ok r c f m r' : isMat r c f m -> (1 <= r < r')%nat -> (1 <= c)%nat ->
  exists m', expandRows (Z.of_nat r' - Z.of_nat r) false m = Some m' /\ isMat r' c (fun i j => if (i <? r)%nat then f i j else 0) m'.
Proof.
  intros M Hr Hc. pose proof M as M0. destruct M as (A & B & C & D & F). unfold expandRows. rewrite A.
  replace (Z.of_nat r + (Z.of_nat r' - Z.of_nat r))%Z with (Z.of_nat r') by lia. rewrite B.
  destruct (Z.ltb_spec (Z.of_nat r') 1); [lia|]. destruct (Nat.ltb_spec c 1); [lia|]. cbn [orb].
  destruct (Z.ltb_spec (Z.of_nat r' - Z.of_nat r) 0); [lia|]. destruct (Z.ltb_spec 0 (Z.of_nat r' - Z.of_nat r)); [|lia]. rewrite Nat2Z.id.
  cbn [setRows d1 d2 elem]. rewrite B. set (v0 := vresize (r' * c) false true (elem m)).
  assert (L0 : length v0 = (r' * c)%nat) by apply vresize_length.
  assert (Z0 : forall p, (r * c <= p)%nat -> nth p v0 0 = 0).
  { intros p Hp. destruct (Nat.lt_ge_cases p (r' * c)) as [L|L]; [|apply nth_overflow; lia]. unfold v0. rewrite vresize_nth by auto. apply nth_overflow. lia. }
  match goal with |- context [forN (c - 1) ?b v0] => destruct (forN_inv (fun k v => length v = (r' * c)%nat /\
      (forall i j, (i < r')%nat -> (j < c)%nat -> (c - 1 - k < j)%nat -> nth (i + r' * j) v 0 = if (i <? r)%nat then f i j else 0) /\
      (forall i, (r <= i < r')%nat -> nth (i + r' * (c - 1 - k)) v 0 = 0) /\
      (forall p, (p < r * (c - k))%nat -> nth p v 0 = nth p (elem m) 0)) b (c - 1) v0) as (v & E1 & V1 & V2 & V3 & V4) end.
  - split; [auto|]. split; [intros; lia|]. split.
    + intros i Hi. apply Z0. assert (c = S (c - 1)) by lia. nia.
    + intros p Hp. unfold v0. apply vresize_nth. nia.
  - intros k v Hk (P1 & P2 & P3 & P4). cbv beta zeta. set (j0 := (c - 1 - k)%nat) in *. replace (c - k)%nat with (S j0) in P4 by lia.
    unfold ptr. cbn [setElem setRows d1 elem]. rewrite P1. assert (J : (1 <= j0 < c)%nat) by lia.
    assert (K1 : (r' * j0 + r' <= r' * c)%nat) by (replace (r' * j0 + r')%nat with (r' * S j0)%nat by lia; apply Nat.mul_le_mono_l; lia).
    destruct (Nat.ltb_spec (r' * j0) (r' * c)); [|lia]. cbn [bind].
    assert (K2 : (r * j0 + r <= r' * j0 + r')%nat) by nia.
    destruct (memcpy_ok 0 r (r * j0) v (r' * j0) v) as (w & W1 & W2 & W3 & W4); [lia|lia|]. rewrite W1. cbn [bind]. destruct (Nat.eqb_spec r 0); [lia|].
    assert (K3 : (r' * (j0 - 1) + r' = r' * j0)%nat) by (destruct j0; [lia|]; cbn [Nat.sub]; rewrite Nat.sub_0_r; lia).
    destruct (loop1 (fun s => (r' - 1 - s + r' * (j0 - 1))%nat) (fun _ _ => 0) (fun s v => wr (r' - 1 - s + r' * (j0 - 1)) 0 v) (length v) (r' - r) w) as (u & U1 & U2 & U3 & U4).
    { intros i u Hi Hu. apply wr_ok. rewrite Hu, P1. lia. } { auto. } { intros i Hi. rewrite P1. lia. } { intros. lia. }
    exists u. split; [exact U1|]. split; [lia|]. replace (c - 1 - S k)%nat with (j0 - 1)%nat by lia. replace (c - S k)%nat with j0 by lia.
    assert (U5 : forall p, (r' * j0 <= p \/ p < r + r' * (j0 - 1))%nat -> nth p u 0 = nth p w 0) by (intros p Hp; apply U4; intros; lia).
    split; [|split].
    + intros i j Hi Hj Hj'. assert (Hp : (r' * j0 <= r' * j)%nat) by (apply Nat.mul_le_mono_l; lia). rewrite U5 by lia. destruct (Nat.eq_dec j j0) as [->|N].
      * destruct (Nat.ltb_spec i r) as [L|L].
        -- replace (i + r' * j0)%nat with (r' * j0 + i)%nat by lia. rewrite W3 by auto. rewrite P4 by nia. rewrite <- F by lia. f_equal. lia.
        -- rewrite W4 by lia. apply P3. lia.
      * rewrite W4; [apply P2; auto; lia|]. right. assert (r' * S j0 <= r' * j)%nat by (apply Nat.mul_le_mono_l; lia). lia.
    + intros i Hi. replace (i + r' * (j0 - 1))%nat with (r' - 1 - (r' - 1 - i) + r' * (j0 - 1))%nat by lia. rewrite (U3 (r' - 1 - i)%nat) by lia. reflexivity.
    + intros p Hp. assert (r * (j0 - 1) + r = r * j0)%nat by (destruct j0; [lia|]; cbn [Nat.sub]; rewrite Nat.sub_0_r; lia). rewrite U5 by nia. rewrite W4 by nia. apply P4. nia.
  - rewrite E1. cbn [bind]. eexists. split; [reflexivity|]. unfold setElem, setRows. cbn [d1 d2 d3 d4]. rewrite B. apply mkIsMat.
    + destruct C as [C|[C _]]; [left; auto|lia].
    + auto.
    + intros i j Hi Hj. destruct (Nat.eq_dec j 0) as [->|N]; [|apply V2; auto; lia].
      destruct (Nat.ltb_spec i r) as [L|L].
      * rewrite V4 by (replace (c - (c - 1))%nat with 1%nat by lia; lia). rewrite <- F by lia. f_equal. lia.
      * specialize (V3 i ltac:(lia)). replace (c - 1 - (c - 1))%nat with 0%nat in V3 by lia. auto.
Qed.
