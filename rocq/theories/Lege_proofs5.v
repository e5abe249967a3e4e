(** The Legendre polynomial of degree n has n distinct roots. *)
From Coq Require Import List Arith Lia ZArith Bool Reals Lra FinFun Permutation.
From Verif Require Import RPoly Lagr_model Lagr_spec Lagr_proofs Cheb_proofs Lege_model Lege_spec Lege_proofs Lege_proofs2.
Import ListNotations.
Open Scope R_scope.

Lemma rprod_pos t l : (forall a, In a l -> a < t) -> 0 < rprod (map (fun a => t - a) l).
Proof.
  induction l as [|a l IH]; intros H; simpl; [lra|]. apply Rmult_lt_0_compat; [specialize (H a (or_introl eq_refl)); lra|].
  apply IH. intros; apply H; now right.
Qed.
Lemma rprod_neg t l : (forall a, In a l -> t < a) -> 0 < (-1) ^ length l * rprod (map (fun a => t - a) l).
Proof.
  induction l as [|a l IH]; intros H; simpl; [lra|].
  replace (-1 * (-1) ^ length l * ((t - a) * rprod (map (fun a0 => t - a0) l))) with ((a - t) * ((-1) ^ length l * rprod (map (fun a0 => t - a0) l))) by ring.
  apply Rmult_lt_0_compat; [specialize (H a (or_introl eq_refl)); lra|]. apply IH. intros; apply H; now right.
Qed.

Lemma leg_root_between m a b : a < b -> leg m a * leg m b < 0 -> exists z, a < z < b /\ leg m z = 0.
Proof.
  intros Hab Hs. destruct (IVT_cor (leg m) a b) as (z & Hz & E).
  - intro y. apply derivable_continuous_pt. exists (dleg m y). apply leg_deriv.
  - lra.
  - lra.
  - exists z. split; [|assumption]. split.
    + destruct (Req_dec a z) as [<-|]; [rewrite E in Hs; lra|lra].
    + destruct (Req_dec z b) as [->|]; [rewrite E in Hs; lra|lra].
Qed.

Lemma pm1_cases k : (-1) ^ k = 1 \/ (-1) ^ k = -1.
Proof. induction k as [|k [IH|IH]]; simpl; [now left | rewrite IH; right; ring | rewrite IH; left; ring]. Qed.

Lemma step_incr (s : nat -> R) n : (forall i, (i < n)%nat -> s i < s (S i)) -> forall i j, (i < j <= n)%nat -> s i < s j.
Proof.
  intros H i j [Hij Hj]. induction Hij as [|j Hij IH]; [apply H; lia|].
  apply Rlt_trans with (s j); [apply IH; lia | apply H; lia].
Qed.

Lemma map_nodup_in {A B} (f : A -> B) l : (forall x y, In x l -> In y l -> f x = f y -> x = y) -> NoDup l -> NoDup (map f l).
Proof.
  intros Hf. induction 1 as [|a l Ha Hl IH]; simpl; constructor.
  - intro Hin. apply in_map_iff in Hin. destruct Hin as (b & E & Hb). apply Ha.
    rewrite (Hf a b); [assumption | now left | now right | now symmetry].
  - apply IH. intros x y Hx Hy. apply Hf; now right.
Qed.

Lemma leg_interlace n : exists s : nat -> R,
  (forall i, (i < n)%nat -> s i < s (S i)) /\ (forall i, (i <= n)%nat -> leg (S n) (s i) = 0 /\ 0 < (-1) ^ (n - i) * leg n (s i)).
Proof.
  induction n as [|n (s & Hs & Hr)].
  - exists (fun _ => 0). split; [intros; lia|]. intros i Hi. simpl. split; [ring|lra].
  - pose proof (step_incr s n Hs) as Inc.
    assert (Ins : forall i, (i <= n)%nat -> -1 < s i < 1) by (intros i Hi; apply (leg_root_inside (S n)), Hr, Hi).
    (* sign of P_{n+2} at the s_i *)
    assert (Sg : forall i, (i <= n)%nat -> (-1) ^ (n - i) * leg (S (S n)) (s i) < 0).
    { intros i Hi. destruct (Hr i Hi) as [E P]. pose proof (leg_SS n (s i)) as L. rewrite E in L. pose proof (pos_INR n).
      assert (X : (INR n + 2) * ((-1) ^ (n - i) * leg (S (S n)) (s i)) = - (INR n + 1) * ((-1) ^ (n - i) * leg n (s i))).
      { transitivity ((-1) ^ (n - i) * ((INR n + 2) * leg (S (S n)) (s i))); [ring|]. rewrite L. ring. }
      assert (Y : (INR n + 2) * ((-1) ^ (n - i) * leg (S (S n)) (s i)) < 0).
      { rewrite X. assert (0 < (INR n + 1) * ((-1) ^ (n - i) * leg n (s i))) by (apply Rmult_lt_0_compat; lra). lra. }
      destruct (Rlt_dec ((-1) ^ (n - i) * leg (S (S n)) (s i)) 0) as [|C]; [assumption|]. exfalso.
      assert (0 <= (INR n + 2) * ((-1) ^ (n - i) * leg (S (S n)) (s i))) by (apply Rmult_le_pos; lra). lra. }
    (* left and right neighbours *)
    set (lo := fun i => match i with O => -1 | S k => s k end). set (hi := fun i => if (i <=? n)%nat then s i else 1).
    assert (T : forall i, (i < S (S n))%nat -> exists z, (lo i < z < hi i) /\ leg (S (S n)) z = 0).
    { intros i Hi. apply leg_root_between.
      - unfold lo, hi. destruct i as [|k]; simpl.
        + apply (Ins 0%nat). lia.
        + destruct n as [|n']; [apply (Ins k); lia|]. destruct (Nat.leb_spec k n'); [apply Hs; lia | apply (Ins k); lia].
      - assert (Plo : 0 < (-1) ^ (n - i) * (if (i <=? n)%nat then 1 else -1) * leg (S (S n)) (lo i)).
        { unfold lo. destruct i as [|k].
          - cbn [Nat.leb]. rewrite leg_mone, Nat.sub_0_r. simpl pow. pose proof (pow_m1_sq n). nra.
          - specialize (Sg k ltac:(lia)). destruct (Nat.leb_spec (S k) n).
            + replace (n - k)%nat with (S (n - S k)) in Sg by lia. simpl pow in Sg. nra.
            + replace (n - S k)%nat with 0%nat by lia. replace (n - k)%nat with 0%nat in Sg by lia. simpl pow in *. lra. }
        assert (Phi : (-1) ^ (n - i) * (if (i <=? n)%nat then 1 else -1) * leg (S (S n)) (hi i) < 0).
        { unfold hi. destruct (Nat.leb_spec i n); [specialize (Sg i ltac:(lia)); nra|].
          replace (n - i)%nat with 0%nat by lia. rewrite leg_one. simpl. lra. }
        destruct (pm1_cases (n - i)) as [E|E]; rewrite E in Plo, Phi; destruct (i <=? n)%nat; nra. }
    destruct (finite_choice (fun i z => (lo i < z < hi i) /\ leg (S (S n)) z = 0) (S (S n)) T) as [t Ht].
    exists t. split.
    + intros i Hi. destruct (Ht i ltac:(lia)) as [[_ A] _]. destruct (Ht (S i) ltac:(lia)) as [[B _] _].
      unfold hi in A. unfold lo in B. destruct (Nat.leb_spec i n); [lra|lia].
    + intros i Hi. destruct (Ht i ltac:(lia)) as [[A B] E]. split; [assumption|].
      set (xs := map s (seq 0 (S n))).
      assert (Hl : length xs = S n) by (unfold xs; now rewrite map_length, seq_length).
      assert (Hnd : NoDup xs).
      { apply map_nodup_in; [|apply seq_NoDup]. intros x y Hx Hy Exy. apply in_seq in Hx, Hy.
        destruct (Nat.lt_trichotomy x y) as [C|[C|C]]; [pose proof (Inc x y ltac:(lia)); lra|assumption|pose proof (Inc y x ltac:(lia)); lra]. }
      destruct (const_factor (S n) (leg (S n)) xs Hl Hnd (leg_poly _)) as (k & Hk & Ek).
      { intros a Ha. apply in_map_iff in Ha. destruct Ha as (j & <- & Hj). apply in_seq in Hj. apply Hr. lia. }
      { exists 1. rewrite leg_one. lra. }
      assert (Kpos : 0 < k).
      { pose proof (Ek 1) as E1. rewrite leg_one in E1.
        assert (0 < rprod (map (fun a => 1 - a) xs)).
        { apply rprod_pos. intros a Ha. apply in_map_iff in Ha. destruct Ha as (j & <- & Hj). apply in_seq in Hj. apply Ins. lia. }
        destruct (Rlt_dec 0 k) as [|C]; [assumption|]. exfalso. nra. }
      rewrite Ek. assert (Split : xs = map s (seq 0 i) ++ map s (seq i (S n - i))).
      { unfold xs. rewrite <- map_app. f_equal. change (seq i (S n - i)) with (seq (0 + i) (S n - i)). rewrite <- seq_app. f_equal. lia. }
      rewrite Split, map_app, rprod_app.
      assert (P1 : 0 < rprod (map (fun a => t i - a) (map s (seq 0 i)))).
      { apply rprod_pos. intros a Ha. apply in_map_iff in Ha. destruct Ha as (j & <- & Hj). apply in_seq in Hj.
        destruct i as [|i']; [lia|]. simpl in A. destruct (Nat.eq_dec j i') as [-> | Hne]; [assumption|].
        pose proof (Inc j i' ltac:(lia)). lra. }
      assert (P2 : 0 < (-1) ^ length (map s (seq i (S n - i))) * rprod (map (fun a => t i - a) (map s (seq i (S n - i))))).
      { apply rprod_neg. intros a Ha. apply in_map_iff in Ha. destruct Ha as (j & <- & Hj). apply in_seq in Hj.
        unfold hi in B. destruct (Nat.leb_spec i n); [|lia]. destruct (Nat.eq_dec j i) as [-> | Hne]; [assumption|].
        pose proof (Inc i j ltac:(lia)). lra. }
      rewrite map_length, seq_length in P2.
      set (u := rprod (map (fun a => t i - a) (map s (seq 0 i)))) in *. set (w := rprod (map (fun a => t i - a) (map s (seq i (S n - i))))) in *.
      replace ((-1) ^ (S n - i) * (k * (u * w))) with (k * u * ((-1) ^ (S n - i) * w)) by ring.
      apply Rmult_lt_0_compat; [apply Rmult_lt_0_compat|]; assumption.
Qed.

Lemma leg_roots n : exists xs, length xs = n /\ NoDup xs /\ forall a, In a xs -> leg n a = 0.
Proof.
  destruct n as [|n]; [exists []; repeat split; [constructor | intros a []]|].
  destruct (leg_interlace n) as (s & Hs & Hr). pose proof (step_incr s n Hs) as Inc.
  exists (map s (seq 0 (S n))). split; [now rewrite map_length, seq_length|]. split.
  - apply map_nodup_in; [|apply seq_NoDup]. intros x y Hx Hy Exy. apply in_seq in Hx, Hy.
    destruct (Nat.lt_trichotomy x y) as [C|[C|C]]; [pose proof (Inc x y ltac:(lia)); lra|assumption|pose proof (Inc y x ltac:(lia)); lra].
  - intros a Ha. apply in_map_iff in Ha. destruct Ha as (j & <- & Hj). apply in_seq in Hj. apply Hr. lia.
Qed.

(** a list of n numbers that contains all roots has no duplicates *)
Lemma leg_roots_nodup n ev : length ev = n -> (forall a, leg n a = 0 -> In a ev) -> NoDup ev.
Proof.
  intros Hl H. destruct (leg_roots n) as (xs & Hlx & Hnd & Hx).
  apply (NoDup_incl_NoDup Hnd); [lia |]. intros a Ha. apply H, Hx, Ha.
Qed.
