(** Vector kernels. *)
From Coq Require Import List Arith ZArith QArith Qcanon Bool Lia.
From Verif Require Import Base QcLra Mat_model Mat_spec Mat_proofs Mat_proofs5 Mat_proofs6.
Import ListNotations.
Local Open Scope Qc_scope.

Lemma axpy_length fuel X a ox sx oy sy Y : length (axpy fuel X a ox sx oy sy Y) = length Y.
Proof. revert ox oy Y; induction fuel as [|f IH]; intros; cbn [axpy]; [auto|]. destruct ((ox <? length X)%nat && (oy <? length Y)%nat); [|auto]. rewrite IH. apply upd_length. Qed.
(** a position that is not visited is not changed *)
Lemma axpy_other fuel X a ox sx oy sy Y p : (forall k, (oy + k * sy <> p)%nat) -> nth p (axpy fuel X a ox sx oy sy Y) 0 = nth p Y 0.
Proof.
  revert ox oy Y; induction fuel as [|f IH]; intros ox oy Y H; cbn [axpy]; [auto|]. destruct ((ox <? length X)%nat && (oy <? length Y)%nat); [|auto].
  rewrite IH by (intros k E0; apply (H (S k)); lia). apply upd_nth_other. intros E0. apply (H 0%nat). lia.
Qed.
Lemma axpy_pos fuel X a ox sx oy sy Y k : (1 <= sy)%nat -> (length Y <= fuel + oy)%nat -> (oy + k * sy < length Y)%nat ->
  nth (oy + k * sy) (axpy fuel X a ox sx oy sy Y) 0 = nth (oy + k * sy) Y 0 + (if (ox + k * sx <? length X)%nat then a * nth (ox + k * sx) X 0 else 0).
Proof.
  intros Hs. revert ox oy Y k; induction fuel as [|f IH]; intros ox oy Y k Hf Hk; [lia|]. cbn [axpy].
  destruct (Nat.ltb_spec ox (length X)) as [L|L]; cbn [andb].
  - destruct (Nat.ltb_spec oy (length Y)); [|lia]. destruct k as [|k].
    + cbn [Nat.mul]. rewrite !Nat.add_0_r. rewrite axpy_other by (intros; nia). rewrite upd_nth_same by auto. apply Nat.ltb_lt in L. rewrite L. reflexivity.
    + replace (oy + S k * sy)%nat with (oy + sy + k * sy)%nat by lia. rewrite IH by (rewrite upd_length; lia). rewrite upd_nth_other by lia. replace (ox + S k * sx)%nat with (ox + sx + k * sx)%nat by lia. reflexivity.
  - replace (ox + k * sx <? length X)%nat with false by (symmetry; apply Nat.ltb_ge; lia). ring.
Qed.
Lemma vadd_nonempty X a ox sx oy sy Y : (0 <= sx)%Z -> (1 <= sy)%Z -> Y <> [] ->
  let Y' := vadd X a ox sx oy sy Y in
  length Y' = length Y /\
  (forall k, (oy + k * Z.to_nat sy < length Y)%nat -> nth (oy + k * Z.to_nat sy) Y' 0 = nth (oy + k * Z.to_nat sy) Y 0 + (if (ox + k * Z.to_nat sx <? length X)%nat then a * nth (ox + k * Z.to_nat sx) X 0 else 0)) /\
  (forall p, (forall k, (oy + k * Z.to_nat sy <> p)%nat) -> nth p Y' 0 = nth p Y 0).
Proof.
  intros Hx Hy HY. cbv zeta. unfold vadd. destruct (Z.ltb_spec sx 0); [lia|]. destruct (Z.ltb_spec sy 0); [lia|]. destruct (Z.eqb_spec (sx + sy) 0); [lia|]. cbn [orb].
  destruct Y as [|y Y]; [contradiction|]. split; [apply axpy_length|]. split.
  - intros k Hk. apply axpy_pos; auto; lia.
  - intros p Hp. apply axpy_other. auto.
Qed.
(** accumulation of a strided vector in one position *)
Lemma axpy_acc fuel X a ox sx oy Y n : (n <= fuel)%nat -> (oy < length Y)%nat -> (forall j, (j < n)%nat -> (ox + sx * j < length X)%nat) -> (length X <= ox + sx * n)%nat ->
  axpy fuel X a ox sx oy 0 Y = upd oy (nth oy Y 0 + a * sumTo n (fun j => nth (ox + sx * j) X 0)) Y.
Proof.
  revert fuel ox Y. induction n as [|n IH]; intros fuel ox Y Hf Hy Hlt Hge.
  - rewrite sumTo_0. replace (nth oy Y 0 + a * 0) with (nth oy Y 0) by ring. rewrite upd_id. destruct fuel; [reflexivity|]. cbn [axpy]. destruct (Nat.ltb_spec ox (length X)); [lia|reflexivity].
  - destruct fuel as [|fuel]; [lia|]. cbn [axpy]. pose proof (Hlt 0%nat ltac:(lia)). destruct (Nat.ltb_spec ox (length X)); [|lia]. destruct (Nat.ltb_spec oy (length Y)); [|lia]. cbn [andb].
    rewrite Nat.add_0_r. rewrite IH; [|lia|rewrite upd_length; auto| |lia].
    + rewrite upd_nth_same by auto. rewrite upd_upd. f_equal. unfold sumTo. cbn [seq]. rewrite qs_cons. rewrite <- seq_shift, qs_map. rewrite Nat.mul_0_r, Nat.add_0_r.
      rewrite (qs_ext (fun x => nth (ox + sx * S x) X 0) (fun j => nth (ox + sx + sx * j) X 0)) by (intros; f_equal; lia). ring.
    + intros j Hj. specialize (Hlt (S j) ltac:(lia)). lia.
Qed.
Lemma vadd_acc X a ox sx oy Y n : (1 <= sx)%nat -> (oy < length Y)%nat -> (forall j, (j < n)%nat -> (ox + sx * j < length X)%nat) -> (length X <= ox + sx * n)%nat ->
  vadd X a ox (Z.of_nat sx) oy 0 Y = upd oy (nth oy Y 0 + a * sumTo n (fun j => nth (ox + sx * j) X 0)) Y.
Proof.
  intros Hx HY Hlt Hge. unfold vadd. destruct (Z.ltb_spec (Z.of_nat sx) 0); [lia|]. cbn [Z.ltb Z.compare orb]. destruct (Z.eqb_spec (Z.of_nat sx + 0) 0); [lia|].
  destruct Y as [|y Y]; [cbn in HY; lia|]. rewrite Nat2Z.id. change (Z.to_nat 0) with 0%nat. apply axpy_acc; auto.
  destruct n as [|n]; [lia|]. specialize (Hlt n ltac:(lia)). nia.
Qed.
Lemma vadd_empty X a ox oy : (ox <= length X)%nat ->
  isVec (oy + (length X - ox))%nat (fun p => if (p <? oy)%nat then 0 else a * nth (ox + (p - oy)) X 0) (vadd X a ox 1 oy 1 []).
Proof.
  intros Hx. unfold vadd. cbn [Z.ltb Z.compare orb Z.add Z.eqb]. change (Z.to_nat 1) with 1%nat. change (0 <? 1)%nat with true. cbv iota. rewrite Nat.div_1_r, Nat.mul_1_l. set (n := (oy + (length X - ox))%nat).
  split; [rewrite axpy_length; apply repeat_length|]. intros p Hp. destruct (Nat.ltb_spec p oy).
  - rewrite axpy_other by (intros; lia). apply nth_repeat0.
  - replace p with (oy + (p - oy) * 1)%nat at 1 by lia. rewrite axpy_pos by (rewrite ?repeat_length; lia). rewrite nth_repeat0, Nat.mul_1_r.
    destruct (Nat.ltb_spec (ox + (p - oy)) (length X)); [ring|lia].
Qed.
Lemma vrelax_ok a X Y n f g : isVec n f X -> isVec n g Y -> isVec n (fun i => a * g i + (1 - a) * f i) (vrelax a X Y).
Proof.
  intros [LX FX] [LY FY]. unfold vrelax. destruct (Qc_eq_dec a 1) as [->|Na].
  - split; [auto|]. intros i Hi. rewrite FY by auto. ring.
  - assert (LS : length (vscale a Y) = n) by (unfold vscale; rewrite map_length; auto). destruct (vscale a Y) as [|y Y'] eqn:EY.
    + cbn in LS. subst n. destruct X; [|discriminate]. split; [reflexivity|intros; lia].
    + destruct (vadd_nonempty X (1 - a) 0 1 0 1 (y :: Y')) as (V1 & V2 & V3); [lia|lia|discriminate|]. split; [lia|]. intros i Hi.
      specialize (V2 i). change (Z.to_nat 1) with 1%nat in V2. rewrite Nat.mul_1_r in V2. cbn [Nat.add] in V2. rewrite V2 by lia. rewrite LX. apply Nat.ltb_lt in Hi as Hi'. rewrite Hi'.
      rewrite <- EY. unfold vscale. rewrite (nth_map_lt _ _ _ 0) by lia. rewrite FX, FY by auto. ring.
Qed.
Lemma vdot_ok n fuel o1 i1 o2 i2 v w : (n <= fuel)%nat -> (forall k, (k < n)%nat -> (o1 + i1 * k < length v)%nat /\ (o2 + i2 * k < length w)%nat) -> (length v <= o1 + i1 * n \/ length w <= o2 + i2 * n)%nat ->
  vdot fuel o1 i1 o2 i2 v w = sumTo n (fun k => nth (o1 + i1 * k) v 0 * nth (o2 + i2 * k) w 0).
Proof.
  revert fuel o1 o2. induction n as [|n IH]; intros fuel o1 o2 Hf Hlt Hge.
  - rewrite sumTo_0. destruct fuel; [reflexivity|]. cbn [vdot]. destruct (Nat.ltb_spec o1 (length v)); [|reflexivity]. destruct (Nat.ltb_spec o2 (length w)); [lia|reflexivity].
  - destruct fuel as [|fuel]; [lia|]. cbn [vdot]. destruct (Hlt 0%nat ltac:(lia)). destruct (Nat.ltb_spec o1 (length v)); [|lia]. destruct (Nat.ltb_spec o2 (length w)); [|lia]. cbn [andb].
    unfold sumTo. cbn [seq]. rewrite qs_cons, !Nat.mul_0_r, !Nat.add_0_r. f_equal. rewrite IH; [|lia| |lia].
    + unfold sumTo. rewrite <- seq_shift, qs_map. apply qs_ext. intros. f_equal; f_equal; lia.
    + intros k Hk. destruct (Hlt (S k) ltac:(lia)). lia.
Qed.
Lemma vasum_ok n off inc v : (1 <= inc)%nat -> (off < length v)%nat -> (forall j, (j < n)%nat -> (off + inc * j < length v)%nat) -> (length v <= off + inc * n)%nat ->
  vasum off (Z.of_nat inc) v = sumTo n (fun j => qabs (nth (off + inc * j) v 0)).
Proof.
  intros Hi Ho Hlt Hge. unfold vasum. destruct (Z.ltb_spec (Z.of_nat inc) 1); [lia|]. destruct (Nat.leb_spec (length v) off); [lia|]. cbn [orb]. rewrite Nat2Z.id.
  rewrite (strided_seq n); auto. 2:{ destruct n as [|n]; [lia|]. specialize (Hlt n ltac:(lia)). nia. }
  rewrite fold_left_plus, Qcplus_0_l, qs_map. reflexivity.
Qed.
Lemma strided_in fuel off inc mx i : (1 <= inc)%nat -> (mx <= fuel + off)%nat -> (In i (strided fuel off inc mx) <-> (i < mx)%nat /\ exists k, i = (off + inc * k)%nat).
Proof.
  intros Hi. revert off. induction fuel as [|f IH]; intros off Hf; cbn [strided].
  - split; [intros []|]. intros (H & k & ->). lia.
  - destruct (Nat.ltb_spec off mx) as [L|L].
    + cbn [In]. rewrite IH by lia. split.
      * intros [<-|(H & k & ->)]; [split; [auto|exists 0%nat; lia]|split; [auto|exists (S k); lia]].
      * intros (H & k & ->). destruct k as [|k]; [left; lia|right]. split; [auto|exists k; lia].
    + split; [intros []|]. intros (H & k & ->). lia.
Qed.
(** normInf: the largest absolute value among the visited entries *)
Lemma normInf_loop v inc l (xmax amax : Qc) (o : nat) : 0 <= amax -> qabs xmax = amax ->
  let '(xm, am, o') := fold_left (fun st i => let '(xmax, amax, o) := st in let x := nth i v 0 in
            if qltb amax x then (x, x, (1 + i / inc)%nat) else if qltb x (- amax) then (x, - x, (1 + i / inc)%nat) else st) l (xmax, amax, o) in
  amax <= am /\ qabs xm = am /\ (forall i, In i l -> qabs (nth i v 0) <= am) /\
  ((xm = xmax /\ am = amax /\ o' = o) \/ exists i, In i l /\ xm = nth i v 0 /\ o' = (1 + i / inc)%nat).
Proof.
  revert xmax amax o. induction l as [|i l IH]; intros xmax amax o H0 Hx; cbn [fold_left].
  - split; [apply Qcle_refl|]. split; [auto|]. split; [intros ? []|]. left. auto.
  - set (x := nth i v 0).
    assert (St : exists xm1 am1 o1, (if qltb amax x then (x, x, (1 + i / inc)%nat) else if qltb x (- amax) then (x, - x, (1 + i / inc)%nat) else (xmax, amax, o)) = (xm1, am1, o1) /\
       amax <= am1 /\ qabs xm1 = am1 /\ qabs x <= am1 /\ ((xm1 = xmax /\ am1 = amax /\ o1 = o) \/ (xm1 = x /\ o1 = (1 + i / inc)%nat))).
    { destruct (qltb amax x) eqn:E1; [|destruct (qltb x (- amax)) eqn:E2].
      - apply qltb_true in E1. exists x, x, (1 + i / inc)%nat. split; [reflexivity|]. assert (Q : qabs x = x). { unfold qabs. destruct (qltb x 0) eqn:E2; [|reflexivity]. apply qltb_true in E2. exfalso. qclra. }
        split; [apply Qclt_le_weak; auto|]. split; [auto|]. split; [rewrite Q; apply Qcle_refl|]. right. auto.
      - apply qltb_true in E2. apply qltb_false in E1. exists x, (- x), (1 + i / inc)%nat. split; [reflexivity|]. assert (Q : qabs x = - x). { unfold qabs. destruct (qltb x 0) eqn:E3; [reflexivity|]. apply qltb_false in E3. exfalso. qclra. }
        split; [qclra|]. split; [auto|]. split; [rewrite Q; apply Qcle_refl|]. right. auto.
      - apply qltb_false in E1, E2. exists xmax, amax, o. split; [reflexivity|]. split; [apply Qcle_refl|]. split; [auto|]. split; [|left; auto]. unfold qabs. destruct (qltb x 0); qclra. }
    destruct St as (xm1 & am1 & o1 & E1 & S1 & S2 & S3 & S4). rewrite E1.
    assert (H1 : 0 <= am1) by (eapply Qcle_trans; eauto). specialize (IH xm1 am1 o1 H1 S2). destruct (fold_left _ l (xm1, am1, o1)) as [[xm am] o'].
    destruct IH as (I1 & I2 & I3 & I4). split; [eapply Qcle_trans; eauto|]. split; [auto|]. split.
    + intros i' [<-|Hi']; [eapply Qcle_trans; eauto|auto].
    + destruct I4 as [(-> & -> & ->)|(i' & Hi' & -> & ->)]; [|right; exists i'; cbn; auto]. destruct S4 as [(-> & -> & ->)|(-> & ->)]; [left; auto|right; exists i; cbn; auto].
Qed.
Lemma vnormInf_ok off inc (sign : bool) v : (1 <= inc)%nat -> (off < length v)%nat ->
  let '(x, o) := vnormInf off (Z.of_nat inc) sign v in
  exists xm, x = (if sign then xm else qabs xm) /\
    (forall k, (off + inc * k < length v)%nat -> qabs (nth (off + inc * k) v 0) <= qabs xm) /\
    ((xm = 0 /\ o = off) \/ exists k, (off + inc * k < length v)%nat /\ xm = nth (off + inc * k) v 0 /\ o = (1 + (off + inc * k) / inc)%nat).
Proof.
  intros Hi Ho. unfold vnormInf. destruct (Z.ltb_spec (Z.of_nat inc) 1); [lia|]. destruct (Nat.leb_spec (length v) off); [lia|]. cbn [orb]. rewrite Nat2Z.id.
  pose proof (normInf_loop v inc (strided (length v) off inc (length v)) 0 0 off (Qcle_refl 0) ltac:(reflexivity)) as H1.
  destruct (fold_left _ (strided (length v) off inc (length v)) (0, 0, off)) as [[xm am] o']. destruct H1 as (I1 & I2 & I3 & I4). exists xm. split; [destruct sign; auto|]. split.
  - intros k Hk. rewrite I2. apply I3. apply strided_in; [auto|lia|]. split; [auto|exists k; auto].
  - destruct I4 as [(-> & _ & ->)|(i & Hin & -> & ->)]; [left; auto|right]. apply strided_in in Hin as (Hl & k & ->); [|auto|lia]. exists k. auto.
Qed.
(** BLAS looks at the same entries only when the stride divides the length *)
Lemma blas_same len off inc q : (1 <= inc)%nat -> (len = inc * q)%nat -> (off < inc)%nat \/ inc = 1%nat -> (off <= len)%nat -> blasIdx (blasCount len off inc) off inc = strided len off inc len.
Proof.
  intros Hi Hq Ho Hl. unfold blasIdx, blasCount. rewrite (strided_seq (if (1 <? inc)%nat then q else (len - off)%nat)).
  - destruct (Nat.ltb_spec 1 inc) as [L|L].
    + replace (len / inc)%nat with q by (rewrite Hq, Nat.mul_comm, Nat.div_mul by lia; reflexivity). apply map_ext. intros. lia.
    + apply map_ext. intros. replace inc with 1%nat by lia. lia.
  - destruct (Nat.ltb_spec 1 inc); [nia|]. replace inc with 1%nat in * by lia. lia.
  - intros j Hj. destruct (Nat.ltb_spec 1 inc) as [L|L]; [|replace inc with 1%nat in * by lia; lia]. destruct Ho as [Ho|Ho]; [|lia]. rewrite Hq. apply idx_lt; auto.
  - destruct (Nat.ltb_spec 1 inc); [nia|]. replace inc with 1%nat in * by lia. lia.
Qed.
Lemma vscale_ok n f c v : isVec n f v -> isVec n (fun i => f i * c) (vscale c v).
Proof. intros [L F]. split; [unfold vscale; rewrite map_length; auto|]. intros i Hi. unfold vscale. rewrite (nth_map_lt _ _ _ 0) by lia. rewrite F by auto. reflexivity. Qed.
Lemma vfill_ok a n v : (Nat.max n (length v) <= length a)%nat -> vfill a n v = Some (firstn (Nat.max n (length v)) a).
Proof.
  intros H. unfold vfill. set (v' := if (length v <? n)%nat then stdResize n v else v).
  assert (L : length v' = Nat.max n (length v)) by (unfold v'; destruct (Nat.ltb_spec (length v) n); [rewrite stdResize_length; lia|lia]).
  unfold memcpy. rewrite L. destruct (Nat.eqb_spec (Nat.max n (length v)) 0) as [Z0|N].
  - rewrite Z0. cbn [firstn]. f_equal. apply length_zero_iff_nil. lia.
  - cbn [Nat.add]. apply Nat.leb_le in H as H'. rewrite H'. rewrite Nat.leb_refl. cbn [andb firstn skipn app]. f_equal. rewrite skipn_all2 by lia. apply app_nil_r.
Qed.
