(** Diagonals, sums, symmetry, determinants and inverses of dense matrices. *)
From Coq Require Import List Arith ZArith QArith Qcanon Bool Lia.
From Verif Require Import Base QcLra Mat_model Mat_spec Mat_proofs Mat_proofs2 Mat_proofs4.
Import ListNotations.
Local Open Scope Qc_scope.

(** *** sums *)
Lemma strided_seq n fuel off inc max : (n <= fuel)%nat -> (forall j, (j < n)%nat -> (off + inc * j < max)%nat) -> (max <= off + inc * n)%nat ->
  strided fuel off inc max = map (fun j => (off + inc * j)%nat) (seq 0 n).
Proof.
  revert fuel off. induction n as [|n IH]; intros fuel off Hf Hlt Hge.
  - cbn [seq map]. destruct fuel; [reflexivity|]. cbn [strided]. destruct (Nat.ltb_spec off max); [lia|reflexivity].
  - destruct fuel as [|fuel]; [lia|]. cbn [strided seq map]. pose proof (Hlt 0%nat ltac:(lia)). destruct (Nat.ltb_spec off max); [|lia]. f_equal; [lia|].
    rewrite IH; [|lia| |lia].
    + rewrite <- seq_shift, map_map. apply map_ext. intros. lia.
    + intros j Hj. specialize (Hlt (S j) ltac:(lia)). lia.
Qed.
Lemma vsum_strided n off inc max v : (1 <= inc)%nat -> v <> [] -> let mx := if (max =? 0)%nat || (length v <? max)%nat then length v else max in
  (n <= mx)%nat -> (forall j, (j < n)%nat -> (off + inc * j < mx)%nat) -> (mx <= off + inc * n)%nat ->
  vsum off (Z.of_nat inc) max v = sumTo n (fun j => nth (off + inc * j) v 0).
Proof.
  intros Hi Hv mx Hn Hlt Hge. unfold vsum. destruct (Z.ltb_spec (Z.of_nat inc) 1); [lia|]. destruct (Nat.eqb_spec (length v) 0) as [E0|_]; [apply length_zero_iff_nil in E0; contradiction|].
  cbn [orb]. fold mx. cbv zeta. rewrite Nat2Z.id. rewrite (strided_seq n) by auto. rewrite fold_left_plus, Qcplus_0_l, qs_map. reflexivity.
Qed.
Lemma sumTo_ext n f g : (forall i, (i < n)%nat -> f i = g i) -> sumTo n f = sumTo n g.
Proof. intros H. apply qs_ext. intros x Hx. apply in_seq in Hx. apply H. lia. Qed.
Lemma sumTo_0 f : sumTo 0 f = 0. Proof. reflexivity. Qed.
Lemma rowsum_ok r c f m k : isMat r c f m -> (1 <= k <= r)%nat -> rowsum k m = sumTo c (fun j => f (k - 1)%nat j).
Proof.
  intros (A & B & C & D & F) Hk. unfold rowsum. rewrite A. destruct (Nat.eq_dec c 0) as [->|N].
  - assert (E0 : elem m = []) by (apply length_zero_iff_nil; lia). rewrite E0. unfold vsum. cbn [length]. rewrite orb_true_r. reflexivity.
  - rewrite (vsum_strided c); cbn [Nat.eqb orb].
    + apply sumTo_ext. intros. apply F; lia.
    + lia.
    + intros E0. apply (f_equal (@length Qc)) in E0. cbn [length] in E0. nia.
    + nia.
    + intros j Hj. rewrite D. apply idx_lt; lia.
    + nia.
Qed.
Lemma colsum_ok r c f m k : isMat r c f m -> (1 <= k <= c)%nat -> colsum k m = sumTo r (fun i => f i (k - 1)%nat).
Proof.
  intros (A & B & C & D & F) Hk. unfold colsum. rewrite A. destruct (Nat.eq_dec r 0) as [->|N].
  - assert (E0 : elem m = []) by (apply length_zero_iff_nil; lia). rewrite E0. reflexivity.
  - assert (K : (r * (k - 1) + r = r * k)%nat) by nia. assert (K2 : (r * k <= r * c)%nat) by (apply Nat.mul_le_mono_l; lia).
    assert (K3 : (if (r * k =? 0)%nat || (length (elem m) <? r * k)%nat then length (elem m) else (r * k)%nat) = (r * k)%nat).
    { rewrite D. destruct (Nat.eqb_spec (r * k) 0); [nia|]. destruct (Nat.ltb_spec (r * c) (r * k)); [lia|reflexivity]. }
    change 1%Z with (Z.of_nat 1). rewrite (vsum_strided r); rewrite ?K3.
    + apply sumTo_ext. intros i Hi. rewrite <- F by lia. f_equal. lia.
    + lia.
    + intros E0. apply (f_equal (@length Qc)) in E0. cbn [length] in E0. nia.
    + nia.
    + intros j Hj. lia.
    + lia.
Qed.
Lemma trace_ok r c f m : isMat r c f m -> (c <= r + 1)%nat -> trace m = sumTo (Nat.min r c) (fun i => f i i).
Proof.
  intros (A & B & C & D & F) Hk. unfold trace. rewrite A. destruct (Nat.eq_dec (r * c) 0) as [Z0|N].
  - assert (E0 : elem m = []) by (apply length_zero_iff_nil; lia). rewrite E0. unfold vsum. cbn [length]. rewrite orb_true_r. replace (Nat.min r c) with 0%nat by nia. reflexivity.
  - rewrite (vsum_strided (Nat.min r c)); cbn [Nat.eqb orb].
    + apply sumTo_ext. intros i Hi. rewrite <- F by lia. f_equal. lia.
    + lia.
    + intros E0. apply (f_equal (@length Qc)) in E0. cbn [length] in E0. nia.
    + nia.
    + intros j Hj. rewrite D. replace (0 + (r + 1) * j)%nat with (j + r * j)%nat by lia. apply idx_lt; lia.
    + rewrite D. destruct (Nat.le_gt_cases c r); [rewrite Nat.min_r by lia; nia|]. replace c with (r + 1)%nat by lia. rewrite Nat.min_l by lia. nia.
Qed.
Lemma trace_wide r f m : isMat r (r + 2) f m -> (1 <= r)%nat -> trace m = sumTo r (fun i => f i i) + f 0%nat (r + 1)%nat.
Proof.
  intros (A & B & C & D & F) Hk. unfold trace. rewrite A. rewrite (vsum_strided (S r)); cbn [Nat.eqb orb].
  - unfold sumTo. rewrite seq_S, qs_app, qs_cons, qs_nil. cbn [plus]. rewrite Qcplus_0_r. f_equal.
    + apply qs_ext. intros i Hi. apply in_seq in Hi. rewrite <- F by lia. f_equal. lia.
    + rewrite <- F by lia. f_equal. lia.
  - lia.
  - intros E0. apply (f_equal (@length Qc)) in E0. cbn [length] in E0. nia.
  - nia.
  - intros j Hj. rewrite D. nia.
  - rewrite D. nia.
Qed.
(** *** diagonal and scaling *)
Lemma diagLoop_ok r c f m d dim n : isMat r c f m -> (if (0 <? dim)%nat then dim else Nat.min r c) = n -> (forall i, (i < n)%nat -> d i <> None) ->
  exists m', diagLoop d dim m = Some m' /\
    isMat (if (0 <? dim)%nat then dim else r) (if (0 <? dim)%nat then dim else c) (fun i j => if (i =? j)%nat then match d i with Some x => x | None => 0 end else 0) m'.
Proof.
  intros M Hn Hd. unfold diagLoop. set (R := if (0 <? dim)%nat then dim else r). set (C := if (0 <? dim)%nat then dim else c).
  assert (M1 : isMat R C (fun _ _ => 0) (if (0 <? dim)%nat then mresize dim dim true m else mresize (d1 m) (d2 m) true m)).
  { unfold R, C. destruct (0 <? dim)%nat; [apply (resize_force _ _ _ _ _ _ M)|]. pose proof M as (A & B & _). rewrite A, B. apply (resize_force _ _ _ _ _ _ M). }
  assert (Hn' : Nat.min R C = n) by (unfold R, C; destruct (0 <? dim)%nat; lia).
  destruct M1 as (A & B & Cc & D & F). set (m1 := if (0 <? dim)%nat then mresize dim dim true m else mresize (d1 m) (d2 m) true m) in *. rewrite A, B, Hn'.
  destruct (loop1 (fun i => (i + R * i)%nat) (fun i _ => match d i with Some x => x | None => 0 end) (fun r v => bind (d r) (fun x => wr (r + R * r) x v)) (R * C) n (elem m1)) as (v & E1 & V1 & V2 & V3); auto.
  - intros i v Hi Hv. destruct (d i) eqn:Ed; [|exfalso; apply (Hd i); auto]. cbn [bind]. apply wr_ok. rewrite Hv. apply idx_lt; lia.
  - intros i Hi. apply idx_lt; lia.
  - intros i i' Hi Hi' E0. apply idx_inj in E0; lia.
  - cbv zeta. rewrite E1. cbn [bind]. eexists. split; [reflexivity|]. unfold setElem. rewrite A, B. apply mkIsMat; [auto|auto|]. intros i j Hi Hj.
    destruct (Nat.eqb_spec i j) as [<-|Nij]; [apply V2; lia|]. rewrite V3; [auto|]. intros i' Hi' E0. apply idx_inj in E0; lia.
Qed.
Lemma diagConst_ok r c f m d dim : isMat r c f m ->
  exists m', diagConst d dim m = Some m' /\ isMat (if (0 <? dim)%nat then dim else r) (if (0 <? dim)%nat then dim else c) (fun i j => if (i =? j)%nat then d else 0) m'.
Proof. intros M. apply (diagLoop_ok r c f m (fun _ => Some d) dim _ M eq_refl). discriminate. Qed.
Lemma diagVec_ok r c f m d : isMat r c f m ->
  exists m', diagVec d m = Some m' /\ isMat (length d) (length d) (fun i j => if (i =? j)%nat then nth i d 0 else 0) m'.
Proof.
  intros M. unfold diagVec. destruct d as [|x d].
  - exists mclear. split; [auto|]. repeat split; auto. cbn [length]; intros; lia.
  - destruct (diagLoop_ok r c f m (rd (x :: d)) (length (x :: d)) (length (x :: d)) M) as (m' & E1 & E2); [reflexivity|intros i Hi; rewrite rd_ok by auto; discriminate|].
    exists m'. split; [exact E1|]. cbn [length Nat.ltb Nat.leb] in E2. revert E2. apply isMat_ext. intros i j Hi Hj. rewrite rd_ok by auto. reflexivity.
Qed.
Lemma scaleCols_ok r c f m d : isMat r c f m ->
  exists m', scaleCols d m = Some m' /\ isMat r c (fun i j => if (j <? length d)%nat then f i j * nth j d 0 else f i j) m'.
Proof.
  intros (A & B & C & D & F). unfold scaleCols. rewrite A, B. set (n := Nat.min (length d) c).
  destruct (loop2 (fun j i => (i + r * j)%nat) (fun j _ x => x * nth j d 0) (fun c r0 v =>
          bind (rd d c) (fun s => bind (rd v (r0 + r * c)) (fun x => wr (r0 + r * c) (x * s) v))) (r * c) n r (elem m)) as (v & E1 & V1 & V2 & V3); auto.
  - intros j i v Hj Hi Hv. rewrite rd_ok by lia. cbn [bind]. apply (rdw_ok _ (fun x => x * nth j d 0)). rewrite Hv. apply idx_lt; lia.
  - intros j i Hj Hi. apply idx_lt; lia.
  - intros j i j' i' Hj Hi Hj' Hi' E0. apply idx_inj in E0; lia.
  - rewrite E1. cbn [bind]. eexists. split; [reflexivity|]. unfold setElem. rewrite A, B. apply mkIsMat; [auto|auto|]. intros i j Hi Hj.
    destruct (Nat.ltb_spec j (length d)).
    + rewrite V2 by lia. rewrite F by auto. reflexivity.
    + rewrite V3; [auto|]. intros j' i' Hj' Hi' E0. apply idx_inj in E0; lia.
Qed.
(** *** symmetry *)
Lemma isSymmetric_ok r c f m tol : isMat r c f m -> (isSymmetric tol m = true <-> r = c /\ forall i j, (j < i)%nat -> (i < r)%nat -> - tol <= f i j - f j i /\ f i j - f j i <= tol).
Proof.
  intros (A & B & C & D & F). unfold isSymmetric. rewrite A, B. rewrite andb_true_iff, Nat.eqb_eq, forallb_forall. split.
  - intros [<- H]. split; [auto|]. intros i j Hj Hi. specialize (H i). rewrite forallb_forall in H. specialize (H ltac:(apply in_seq; lia) j ltac:(apply in_seq; lia)).
    cbv zeta in H. rewrite !F in H by lia. apply negb_true_iff, orb_false_iff in H as [H1 H2]. apply qltb_false in H1, H2. auto.
  - intros [<- H]. split; [auto|]. intros i Hi. apply in_seq in Hi. apply forallb_forall. intros j Hj. apply in_seq in Hj. cbv zeta. rewrite !F by lia.
    destruct (H i j) as [H1 H2]; [lia|lia|]. apply negb_true_iff, orb_false_iff. rewrite !qltb_false. auto.
Qed.
(** *** determinant and inverse *)
Lemma E_ok r c f m i j : isMat r c f m -> (1 <= i <= r)%nat -> (1 <= j <= c)%nat -> E m i j = f (i - 1)%nat (j - 1)%nat.
Proof. intros (A & B & C & D & F) Hi Hj. unfold E. rewrite A. apply F; lia. Qed.
Lemma det_ok n f m : isMat n n f m -> (1 <= n <= 3)%nat -> det m = detOf n f.
Proof.
  intros M Hn. pose proof M as (A & B & _). unfold det. rewrite A, B.
  assert (K : (n = 1 \/ n = 2 \/ n = 3)%nat) by lia. destruct K as [-> | [-> | ->]]; cbn [Nat.eqb Nat.leb andb]; rewrite !(E_ok _ _ _ _ _ _ M) by lia; unfold detOf, sumTo, qs;
    cbn [seq fold_right Nat.even Nat.ltb Nat.leb Nat.sub]; ring.
Qed.
Lemma inverse_ok n f m tol : isMat n n f m -> (1 <= n <= 3)%nat -> 0 <= tol -> (detOf n f < - tol \/ tol < detOf n f) -> detOf n f <> Q2Qc (-999 # 1) ->
  fst (inverse tol m) = detOf n f /\ exists g, isMat n n g (snd (inverse tol m)) /\
    (forall i j, (i < n)%nat -> (j < n)%nat -> prodOf n f g i j = delta i j) /\ (forall i j, (i < n)%nat -> (j < n)%nat -> prodOf n g f i j = delta i j).
Proof.
  intros M Hn Ht Hd H9. assert (Dz : detOf n f <> 0) by (intros E0; rewrite E0 in Hd; destruct Hd; qclra).
  unfold inverse. rewrite (det_ok _ _ _ M Hn). destruct (Qc_eq_dec (detOf n f) (Q2Qc (-999 # 1))) as [E9|_]; [contradiction|].
  replace (qleb (detOf n f) tol && qleb (- tol) (detOf n f)) with false.
  2:{ symmetry. apply andb_false_iff. destruct Hd as [Hd|Hd]; [right|left]; apply qleb_false; auto. }
  pose proof M as (A & B & C & D & F). rewrite B.
  assert (K : (n = 1 \/ n = 2 \/ n = 3)%nat) by lia. destruct K as [-> | [-> | ->]]; cbn [Nat.eqb fst snd]; (split; [reflexivity|]).
  - exists (fun _ _ => 1 / detOf 1 f). assert (Ed : detOf 1 f = f 0%nat 0%nat) by (unfold detOf, sumTo, qs; cbn; ring). rewrite Ed in *. split.
    + unfold setElem. rewrite A, B. apply mkIsMat; [auto|rewrite upd_length; auto|]. intros i j Hi Hj. replace i with 0%nat by lia. replace j with 0%nat by lia. cbn [Nat.mul Nat.add]. rewrite upd_nth_same by lia. reflexivity.
    + split; intros i j Hi Hj; replace i with 0%nat by lia; replace j with 0%nat by lia; unfold prodOf, sumTo, qs, delta; cbn [seq fold_right Nat.eqb]; field; auto.
  - set (l := [E m 2 2 / detOf 2 f; _; _; _]). exists (fun i j => nth (i + 2 * j) l 0). split; [apply mkIsMat; auto|].
    assert (Ed : detOf 2 f = f 0%nat 0%nat * f 1%nat 1%nat - f 0%nat 1%nat * f 1%nat 0%nat) by (unfold detOf, sumTo, qs; cbn; ring). 
    unfold l. rewrite !(E_ok _ _ _ _ _ _ M) by lia. cbn [Nat.sub]. rewrite Ed in *.
    split; intros i j Hi Hj; (assert (Ki : (i = 0 \/ i = 1)%nat) by lia; assert (Kj : (j = 0 \/ j = 1)%nat) by lia; destruct Ki as [-> | ->]; destruct Kj as [-> | ->]);
      unfold prodOf, sumTo, qs, delta; cbn [seq fold_right Nat.eqb nth Nat.add Nat.mul]; field; auto.
  - set (l := [(E m 2 2 * E m 3 3 - E m 3 2 * E m 2 3) / detOf 3 f; _; _; _; _; _; _; _; _]). exists (fun i j => nth (i + 3 * j) l 0). split; [apply mkIsMat; auto|].
    assert (Ed : detOf 3 f = f 0%nat 0%nat * (f 1%nat 1%nat * f 2%nat 2%nat - f 1%nat 2%nat * f 2%nat 1%nat)
        - f 0%nat 1%nat * (f 1%nat 0%nat * f 2%nat 2%nat - f 1%nat 2%nat * f 2%nat 0%nat) + f 0%nat 2%nat * (f 1%nat 0%nat * f 2%nat 1%nat - f 1%nat 1%nat * f 2%nat 0%nat)) by (unfold detOf, sumTo, qs; cbn; ring).
    unfold l. rewrite !(E_ok _ _ _ _ _ _ M) by lia. cbn [Nat.sub]. rewrite Ed in *.
    split; intros i j Hi Hj; (assert (Ki : (i = 0 \/ i = 1 \/ i = 2)%nat) by lia; assert (Kj : (j = 0 \/ j = 1 \/ j = 2)%nat) by lia; destruct Ki as [-> | [-> | ->]]; destruct Kj as [-> | [-> | ->]]);
      unfold prodOf, sumTo, qs, delta; cbn [seq fold_right Nat.eqb nth Nat.add Nat.mul]; field; auto.
Qed.
