(** Filling from vectors, and products of dense matrices. *)
From Coq Require Import List Arith ZArith QArith Qcanon Bool Lia.
From Verif Require Import Base QcLra Mat_model Mat_spec Mat_proofs Mat_proofs2 Mat_proofs4 Mat_proofs5.
Import ListNotations.
Local Open Scope Qc_scope.

Lemma nth_map_lt {A B} (h : A -> B) l k (d : A) (d' : B) : (k < length l)%nat -> nth k (map h l) d' = h (nth k l d).
Proof. revert k; induction l as [|x l IH]; intros [|k] H; cbn in *; try lia; auto. apply IH. lia. Qed.
(** *** fill(v,n,m) *)
Lemma mfill_ok r c f A v n mm : isMat r c f A -> (1 <= n <= length v)%nat ->
  let M := if (mm =? 0)%nat then (length v / n)%nat else mm in let K := (length v / M)%nat in
  exists A', mfill v n mm A = Some A' /\ isMat n M (fun i j => if (i <? K)%nat then nth (i + j * K) v 0 else 0) A'.
Proof.
  intros MA Hn M K. unfold mfill. destruct (Nat.eqb_spec n 0); [lia|]. destruct (Nat.ltb_spec (length v) n); [lia|]. cbn [orb]. fold M. cbv zeta.
  assert (M1 : (1 <= M)%nat). { unfold M. destruct (Nat.eqb_spec mm 0); [|lia]. apply (Nat.div_le_lower_bound (length v) n 1); lia. }
  pose proof (resize_force r c n M f A MA) as MR. set (A1 := mresize n M true A) in *. pose proof MR as (B1 & B2 & B3 & B4 & B5). fold K.
  assert (KM : (K * M <= length v)%nat) by (unfold K; rewrite Nat.mul_comm; apply Nat.mul_div_le; lia).
  destruct (Nat.eqb_spec (n * M) (length v)) as [Ev|Nv].
  - assert (Kn : K = n) by (unfold K; rewrite <- Ev; apply Nat.div_mul; lia). rewrite Kn in *.
    unfold vfill. replace (length (elem A1) <? 0)%nat with false by (destruct (length (elem A1)); reflexivity).
    destruct (memcpy_ok 0 (length (elem A1)) 0 v 0 (elem A1)) as (w & W1 & W2 & W3 & W4); [lia|lia|]. rewrite W1. cbn [bind]. eexists. split; [reflexivity|].
    unfold setElem. rewrite B1, B2. apply mkIsMat; [auto|lia|]. intros i j Hi Hj. destruct (Nat.ltb_spec i n); [|lia].
    replace (i + n * j)%nat with (0 + (i + n * j))%nat by lia. rewrite W3 by (rewrite B4; apply idx_lt; auto). f_equal. lia.
  - rewrite B1, B2. destruct (Nat.ltb_spec n K) as [L|L].
    + destruct (forN_inv (fun k A => isMat n M (fun i j => if (j <? k)%nat then nth (i + j * K) v 0 else 0) A) (fun c A => fillColumnPtr (c + 1) v (c * K) A) M A1) as (A2 & E1 & E2).
      * revert MR. apply isMat_ext. intros i j Hi Hj. destruct (Nat.ltb_spec j 0); [lia|reflexivity].
      * intros k A2 Hk HA. destruct (fillColumnPtr_ok n M _ A2 (k + 1) v (k * K) HA ltac:(lia)) as (A3 & F1 & F2).
        { assert (k * K + K <= K * M)%nat by nia. lia. }
        exists A3. split; [auto|]. revert F2. apply isMat_ext. intros i j Hi Hj. replace (k + 1 - 1)%nat with k by lia.
        destruct (Nat.eqb_spec j k) as [->|N].
        -- destruct (Nat.ltb_spec k (S k)); [|lia]. f_equal. lia.
        -- destruct (Nat.ltb_spec j k); destruct (Nat.ltb_spec j (S k)); auto; lia.
      * exists A2. split; [auto|]. revert E2. apply isMat_ext. intros i j Hi Hj. destruct (Nat.ltb_spec j M); [|lia]. destruct (Nat.ltb_spec i K); [reflexivity|lia].
    + destruct (loop2 (fun j i => (i + j * n)%nat) (fun j i _ => nth (i + j * K) v 0) (fun c r w => bind (rd v (r + c * K)) (fun x => wr (r + c * n) x w)) (n * M) M K (elem A1)) as (w & E1 & V1 & V2 & V3); auto.
      * intros j i w Hj Hi Hw. rewrite rd_ok by (pose proof (idx_lt K M i j Hi Hj); lia). cbn [bind]. apply wr_ok. rewrite Hw, (Nat.mul_comm j). apply idx_lt; lia.
      * intros j i Hj Hi. rewrite (Nat.mul_comm j). apply idx_lt; lia.
      * intros j i j' i' Hj Hi Hj' Hi' E0. rewrite (Nat.mul_comm j), (Nat.mul_comm j') in E0. apply idx_inj in E0; lia.
      * rewrite E1. cbn [bind]. eexists. split; [reflexivity|]. unfold setElem. rewrite B1, B2. apply mkIsMat; [auto|auto|]. intros i j Hi Hj. destruct (Nat.ltb_spec i K).
        -- rewrite (Nat.mul_comm n). apply V2; auto.
        -- rewrite V3; [auto|]. intros j' i' Hj' Hi' E0. rewrite (Nat.mul_comm j') in E0. apply idx_inj in E0; lia.
Qed.
Lemma mfill_noop v n mm A : (n = 0 \/ length v < n)%nat -> mfill v n mm A = Some A.
Proof. intros H. unfold mfill. destruct (Nat.eqb_spec n 0); [reflexivity|]. destruct (Nat.ltb_spec (length v) n); [reflexivity|lia]. Qed.

(** *** matrix times vector *)
Lemma mulVec_ok r c f A X Y (tr : bool) (add : Z) : isMat r c f A -> (1 <= r)%nat -> (1 <= c)%nat -> length X = (if tr then r else c) ->
  (add = 0%Z \/ Y = [] \/ length Y = (if tr then c else r)) ->
  exists Y', mulVec A X Y tr add = Some (true, Y') /\
    isVec (if tr then c else r) (fun i => (if (add =? 0)%Z then 0 else nth i Y 0) + (if (add <? 0)%Z then - (1) else 1) * sumTo (if tr then r else c) (fun j => flip tr f i j * nth j X 0)) Y'.
Proof.
  intros M Hr Hc HX HY. pose proof M as (A1 & A2 & _). unfold mulVec. rewrite A1, A2, HX.
  replace (negb ((0 <? r)%nat && (0 <? c)%nat && ((if tr then r else c) =? (if tr then r else c))%nat)) with false.
  2:{ rewrite Nat.eqb_refl, andb_true_r. destruct (Nat.ltb_spec 0 r); [|lia]. destruct (Nat.ltb_spec 0 c); [reflexivity|lia]. }
  set (n := if tr then c else r) in *. set (k := if tr then r else c) in *.
  set (Y0 := if (add =? 0)%Z || (length Y =? 0)%nat then repeat 0 n else Y).
  assert (LY : length Y0 = n /\ forall i, (i < n)%nat -> nth i Y0 0 = (if (add =? 0)%Z then 0 else nth i Y 0)).
  { unfold Y0. destruct (Z.eqb_spec add 0) as [Ez|Nz]; cbn [orb].
    - split; [apply repeat_length|intros; apply nth_repeat0].
    - destruct (Nat.eqb_spec (length Y) 0) as [E0|N0].
      + apply length_zero_iff_nil in E0. subst Y. split; [apply repeat_length|]. intros. rewrite nth_repeat0. destruct i; reflexivity.
      + destruct HY as [HY|[HY|HY]]; [contradiction|subst Y; contradiction|]. auto. }
  destruct LY as [LY1 LY2]. rewrite LY1. set (sg := if (add <? 0)%Z then - (1) else 1).
  destruct (loop1 (fun i => i) (fun i y => y + sumTo k (fun j => sg * (flip tr f i j * nth j X 0))) (fun i Y => forN k (fun j Y =>
            bind (if tr then rd2 A j i else rd2 A i j) (fun a => bind (rd X j) (fun x => bind (rd Y i) (fun y =>
            wr i (y + a * (if (add <? 0)%Z then - x else x)) Y)))) Y) n n Y0) as (v & E1 & V1 & V2 & V3); auto.
  - intros i v Hi Hv. apply loopAcc; [lia|]. intros j w Hj Hw. rewrite (isMat_rdT r c f A tr i j M) by (unfold n, k in *; destruct tr; auto). cbn [bind]. rewrite rd_ok by lia. cbn [bind].
    rewrite (rdw_ok i (fun y => y + flip tr f i j * (if (add <? 0)%Z then - nth j X 0 else nth j X 0))) by lia. do 3 f_equal. unfold sg. destruct (add <? 0)%Z; ring.
  - rewrite E1. cbn [bind]. exists v. split; [reflexivity|]. split; [auto|]. intros i Hi. rewrite V2 by auto. rewrite LY2 by auto. f_equal. unfold sumTo. apply qs_scal.
Qed.
Lemma mulVec_reject r c f A X Y (tr : bool) (add : Z) : isMat r c f A -> (r = 0 \/ c = 0 \/ length X <> (if tr then r else c))%nat -> mulVec A X Y tr add = Some (false, Y).
Proof.
  intros (A1 & A2 & _) H. unfold mulVec. rewrite A1, A2. destruct (Nat.ltb_spec 0 r); [|reflexivity]. destruct (Nat.ltb_spec 0 c); [|reflexivity].
  destruct (Nat.eqb_spec (if tr then r else c) (length X)) as [E0|N]; [|reflexivity]. destruct H as [H|[H|H]]; [lia|lia|]. congruence.
Qed.

(** *** matrix times matrix *)
Lemma prodLoop M N K (t : nat -> nat -> nat -> Qc) (body : nat -> nat -> nat -> list Qc -> option (list Qc)) h C : isMat M N h C ->
  (forall i j k v, (i < M)%nat -> (j < N)%nat -> (k < K)%nat -> length v = (M * N)%nat -> body i j k v = Some (upd (i + M * j) (nth (i + M * j) v 0 + t i j k) v)) ->
  exists v, forN M (fun i v => forN N (fun j v => forN K (fun k v => body i j k v) v) v) (elem C) = Some v /\ isMat M N (fun i j => h i j + sumTo K (t i j)) (setElem C v).
Proof.
  intros (A & B & Cc & D & F) Hb.
  destruct (loop2 (fun i j => (i + M * j)%nat) (fun i j x => x + sumTo K (t i j)) (fun i j v => forN K (fun k v => body i j k v) v) (M * N) M N (elem C)) as (v & E1 & V1 & V2 & V3); auto.
  - intros i j v Hi Hj Hv. apply loopAcc; [rewrite Hv; apply idx_lt; auto|]. intros k w Hk Hw. apply Hb; auto. lia.
  - intros. apply idx_lt; auto.
  - intros i j i' j' Hi Hj Hi' Hj' E0. apply idx_inj in E0; lia.
  - exists v. split; [exact E1|]. unfold setElem. rewrite A, B. apply mkIsMat; auto. intros i j Hi Hj. rewrite V2, F by auto. reflexivity.
Qed.
Lemma accInit (addTo : bool) M N r c h C : isMat r c h C -> (addTo = false \/ (r = M /\ c = N) \/ (r * c = 0)%nat) ->
  isMat M N (fun i j => if addTo && negb (r * c =? 0)%nat then h i j else 0) (if negb addTo || (length (elem C) =? 0)%nat then mresize M N true C else C).
Proof.
  intros MC H. pose proof MC as (A & B & Cc & D & F). rewrite D. destruct addTo; cbn [negb orb andb].
  - destruct (Nat.eqb_spec (r * c) 0) as [E0|N0]; cbn [negb]; [apply (resize_force _ _ _ _ _ _ MC)|]. destruct H as [H|[H|H]]; [discriminate| |contradiction]. destruct H as [-> ->]. exact MC.
  - apply (resize_force _ _ _ _ _ _ MC).
Qed.
Lemma mulMat_ok ra ca f A rb cb g B (ta tb addTo : bool) alpha r c h C : isMat ra ca f A -> isMat rb cb g B -> isMat r c h C ->
  (if ta then ra else ca) = (if tb then cb else rb) ->
  (addTo = false \/ (r = (if ta then ca else ra) /\ c = (if tb then rb else cb)) \/ (r * c = 0)%nat) ->
  exists C', mulMat A B ta tb addTo alpha C = Some C' /\
    isMat (if ta then ca else ra) (if tb then rb else cb)
      (fun i j => (if addTo && negb (r * c =? 0)%nat then h i j else 0) + alpha * prodOf (if ta then ra else ca) (flip ta f) (flip tb g) i j) C'.
Proof.
  intros MA MB MC HK HC. pose proof MA as (A1 & A2 & _). pose proof MB as (B1 & B2 & _). unfold mulMat. rewrite A1, A2, B1, B2. rewrite <- HK, Nat.eqb_refl. cbn [negb].
  set (M := if ta then ca else ra) in *. set (N := if tb then rb else cb) in *. set (K := if ta then ra else ca) in *.
  pose proof (accInit addTo M N r c h C MC HC) as MI. set (C1 := if negb addTo || (length (elem C) =? 0)%nat then mresize M N true C else C) in *.
  pose proof MI as (D1 & D2 & _). cbv zeta. rewrite D1.
  edestruct (prodLoop M N K (fun i j k => alpha * flip ta f i k * flip tb g k j)) as (v & E1 & E2); [exact MI| |rewrite E1; cbn [bind]; eexists; split; [reflexivity|]; revert E2; apply isMat_ext].
  - intros i j k v Hi Hj Hk Hv. cbv beta. rewrite (isMat_rdT _ _ _ _ ta i k MA) by (unfold M, K in *; destruct ta; auto). cbn [bind].
    rewrite (isMat_rdT _ _ _ _ tb k j MB) by (unfold N, K in *; destruct tb; congruence || auto; rewrite <- HK; auto). cbn [bind].
    apply (rdw_ok _ (fun x => x + alpha * flip ta f i k * flip tb g k j)). rewrite Hv. apply idx_lt; auto.
  - intros i j Hi Hj. cbv beta. f_equal. unfold prodOf, sumTo. rewrite <- qs_scal. apply qs_ext. intros. ring.
Qed.
Lemma mulMat_reject ra ca f A rb cb g B (ta tb addTo : bool) alpha C : isMat ra ca f A -> isMat rb cb g B -> (if ta then ra else ca) <> (if tb then cb else rb) ->
  mulMat A B ta tb addTo alpha C = Some mclear.
Proof.
  intros (A1 & A2 & _) (B1 & B2 & _) H. unfold mulMat. rewrite A1, A2, B1, B2. destruct (Nat.eqb_spec (if ta then ra else ca) (if tb then cb else rb)); [contradiction|reflexivity].
Qed.
(** with the second factor as a vector: it is read as a matrix with [K] rows *)
Lemma mulMatVec_ok ra ca f A B (ta addTo : bool) N r c h C : isMat ra ca f A -> isMat r c h C -> length B = (N * if ta then ra else ca)%nat -> length B <> 0%nat ->
  (addTo = false \/ (r = (if ta then ca else ra) /\ c = N) \/ (r * c = 0)%nat) ->
  exists C', mulMatVec A B ta addTo C = Some (true, C') /\
    isMat (if ta then ca else ra) N (fun i j => (if addTo && negb (r * c =? 0)%nat then h i j else 0) +
       prodOf (if ta then ra else ca) (flip ta f) (fun k j => nth (k + (if ta then ra else ca) * j) B 0) i j) C'.
Proof.
  intros MA MC HB HB0 HC. pose proof MA as (A1 & A2 & _). unfold mulMatVec. rewrite A1, A2.
  set (M := if ta then ca else ra) in *. set (K := if ta then ra else ca) in *.
  assert (K0 : (K <> 0)%nat) by nia. assert (EN : (if (0 <? K)%nat then (length B / K)%nat else 0%nat) = N).
  { destruct (Nat.ltb_spec 0 K); [|lia]. rewrite HB. apply Nat.div_mul. auto. }
  rewrite EN. cbv zeta. rewrite HB, Nat.eqb_refl. destruct (Nat.eqb_spec (N * K) 0); [lia|]. cbn [negb andb].
  pose proof (accInit addTo M N r c h C MC HC) as MI. set (C1 := if negb addTo || (length (elem C) =? 0)%nat then mresize M N true C else C) in *.
  pose proof MI as (D1 & D2 & _). rewrite D1.
  edestruct (prodLoop M N K (fun i j k => flip ta f i k * nth (k + K * j) B 0)) as (v & E1 & E2); [exact MI| |rewrite E1; cbn [bind]; eexists; split; [reflexivity|]; revert E2; apply isMat_ext].
  - intros i j k v Hi Hj Hk Hv. cbv beta. rewrite (isMat_rdT _ _ _ _ ta i k MA) by (unfold M, K in *; destruct ta; auto). cbn [bind].
    rewrite rd_ok by (rewrite HB, (Nat.mul_comm N); apply idx_lt; auto). cbn [bind].
    apply (rdw_ok _ (fun x => x + flip ta f i k * nth (k + K * j) B 0)). rewrite Hv. apply idx_lt; auto.
  - intros i j Hi Hj. reflexivity.
Qed.
Lemma mulVecMat_ok A rb cb g B (tb addTo : bool) M r c h C : isMat rb cb g B -> isMat r c h C -> length A = (M * if tb then cb else rb)%nat -> length A <> 0%nat ->
  (addTo = false \/ (r = M /\ c = (if tb then rb else cb)) \/ (r * c = 0)%nat) ->
  exists C', mulVecMat A B tb addTo C = Some (true, C') /\
    isMat M (if tb then rb else cb) (fun i j => (if addTo && negb (r * c =? 0)%nat then h i j else 0) +
       prodOf (if tb then cb else rb) (fun i k => nth (i + M * k) A 0) (flip tb g) i j) C'.
Proof.
  intros MB MC HA HA0 HC. pose proof MB as (B1 & B2 & _). unfold mulVecMat. rewrite B1, B2.
  set (N := if tb then rb else cb) in *. set (K := if tb then cb else rb) in *.
  assert (K0 : (K <> 0)%nat) by nia. assert (EN : (if (0 <? K)%nat then (length A / K)%nat else 0%nat) = M).
  { destruct (Nat.ltb_spec 0 K); [|lia]. rewrite HA. apply Nat.div_mul. auto. }
  rewrite EN. cbv zeta. rewrite HA, Nat.eqb_refl. destruct (Nat.eqb_spec (M * K) 0); [lia|]. cbn [negb andb].
  pose proof (accInit addTo M N r c h C MC HC) as MI. set (C1 := if negb addTo || (length (elem C) =? 0)%nat then mresize M N true C else C) in *.
  pose proof MI as (D1 & D2 & _). rewrite D1.
  edestruct (prodLoop M N K (fun i j k => nth (i + M * k) A 0 * flip tb g k j)) as (v & E1 & E2); [exact MI| |rewrite E1; cbn [bind]; eexists; split; [reflexivity|]; revert E2; apply isMat_ext].
  - intros i j k v Hi Hj Hk Hv. cbv beta. rewrite rd_ok by (rewrite HA; apply idx_lt; auto). cbn [bind].
    rewrite (isMat_rdT _ _ _ _ tb k j MB) by (unfold N, K in *; destruct tb; auto). cbn [bind].
    apply (rdw_ok _ (fun x => x + nth (i + M * k) A 0 * flip tb g k j)). rewrite Hv. apply idx_lt; auto.
  - intros i j Hi Hj. reflexivity.
Qed.
Lemma resize_any r c r' c' f m : isMat r c f m -> exists g, isMat r' c' g (mresize r' c' false m).
Proof.
  intros M. destruct (Nat.eq_dec (r' * c') (r * c)) as [E0|N].
  - destruct (resize_same r c r' c' f m M E0) as (R1 & R2 & R3 & R4 & R5). exists (fun i j => nth (i + r' * j) (elem m) 0). pose proof M as (_ & _ & _ & D & _).
    repeat split; auto; [rewrite R1; lia|]. intros. rewrite R1. reflexivity.
  - eexists. apply (resize_keep r c r' c' f m M N).
Qed.
Lemma outerProduct_ok X Y (addTo : bool) alpha r c h A : isMat r c h A -> (addTo = false \/ (r = length X /\ c = length Y)) ->
  exists A', outerProduct X Y addTo alpha A = Some (true, A') /\
    isMat (length X) (length Y) (fun i j => (if addTo then h i j else 0) + alpha * nth i X 0 * nth j Y 0) A'.
Proof.
  intros MA H. unfold outerProduct. pose proof MA as (D1 & D2 & _).
  assert (HA : exists h', isMat (length X) (length Y) h' (if addTo then A else mresize (length X) (length Y) false A) /\ (addTo = true -> h' = h)).
  { destruct addTo. - destruct H as [H|[-> ->]]; [discriminate|]. exists h. auto. - destruct (resize_any r c (length X) (length Y) h A MA) as (g & Hg). exists g. split; [auto|discriminate]. }
  destruct HA as (h' & MI & Hh). cbv zeta. replace (addTo && negb ((length X =? d1 A)%nat && (length Y =? d2 A)%nat)) with false.
  2:{ destruct addTo; [|reflexivity]. destruct H as [H|[-> ->]]; [discriminate|]. rewrite D1, D2, !Nat.eqb_refl. reflexivity. }
  set (A1 := if addTo then A else mresize (length X) (length Y) false A) in *. destruct MI as (E1 & E2 & E3 & E4 & E5). rewrite E1, E2.
  destruct (loop2 (fun j i => (i + length X * j)%nat) (fun j i a => if addTo then a + alpha * nth i X 0 * nth j Y 0 else alpha * nth i X 0 * nth j Y 0) (fun j i v =>
            bind (rd X i) (fun x => bind (rd Y j) (fun y => bind (rd v (i + length X * j)) (fun a =>
            wr (i + length X * j) (if addTo then a + alpha * x * y else alpha * x * y) v)))) (length X * length Y) (length Y) (length X) (elem A1)) as (v & L1 & V1 & V2 & V3); auto.
  - intros j i v Hj Hi Hv. rewrite (rd_ok X) by auto. cbn [bind]. rewrite (rd_ok Y) by auto. cbn [bind].
    apply (rdw_ok _ (fun a => if addTo then a + alpha * nth i X 0 * nth j Y 0 else alpha * nth i X 0 * nth j Y 0)). rewrite Hv. apply idx_lt; auto.
  - intros. apply idx_lt; auto.
  - intros j i j' i' Hj Hi Hj' Hi' E0. apply idx_inj in E0; lia.
  - rewrite L1. cbn [bind]. eexists. split; [reflexivity|]. unfold setElem. rewrite E1, E2. apply mkIsMat; auto. intros i j Hi Hj. rewrite V2 by auto.
    destruct addTo; [rewrite E5, Hh by auto; reflexivity|ring].
Qed.
Lemma madd_ok r c f A g m alfa : isMat r c f A -> isMat r c g m -> isMat r c (fun i j => g i j + alfa * f i j) (madd A alfa m).
Proof.
  intros (A1 & A2 & A3 & A4 & A5) (B1 & B2 & B3 & B4 & B5). unfold madd, setElem. rewrite B1, B2. apply mkIsMat; auto.
  - rewrite app_length, map_length, combine_length, skipn_length. lia.
  - intros i j Hi Hj. pose proof (idx_lt r c i j Hi Hj) as L. rewrite app_nth1 by (rewrite map_length, combine_length; lia).
    rewrite (nth_map_lt _ _ _ (0, 0)) by (rewrite combine_length; lia). rewrite combine_nth by lia. cbn [fst snd]. rewrite A5, B5 by auto. reflexivity.
Qed.
Lemma mscale_ok r c f m a : isMat r c f m -> isMat r c (fun i j => f i j * a) (mscale a m).
Proof.
  intros (A & B & C & D & F). unfold mscale, setElem. rewrite A, B. apply mkIsMat; auto; [unfold vscale; rewrite map_length; auto|].
  intros i j Hi Hj. unfold vscale. rewrite (nth_map_lt _ _ _ 0) by (rewrite D; apply idx_lt; auto). rewrite F by auto. reflexivity.
Qed.
