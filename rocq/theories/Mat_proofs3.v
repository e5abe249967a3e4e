(** More reshaping: augmenting, transposing, rows, columns and blocks of dense matrices. *)
From Coq Require Import List Arith ZArith QArith Qcanon Bool Lia.
From Verif Require Import Base QcLra Mat_model Mat_spec Mat_proofs Mat_proofs2.
Import ListNotations.
Local Open Scope Qc_scope.

(** *** expandRows: the remaining cases *)
Lemma expandRows_set n m : expandRows n true m = expandRows (n - Z.of_nat (d1 m)) false m.
Proof. unfold expandRows. reflexivity. Qed.
Lemma expandRows_empty inc m : (Z.of_nat (d1 m) + inc < 1)%Z \/ d2 m = 0%nat -> expandRows inc false m = Some mclear.
Proof.
  intros H. unfold expandRows. destruct (Z.ltb_spec (Z.of_nat (d1 m) + inc) 1); [reflexivity|]. destruct H as [H|H]; [lia|]. rewrite H. reflexivity.
Qed.
Lemma expandRows_id m : (1 <= d1 m)%nat -> (1 <= d2 m)%nat -> expandRows 0 false m = Some m.
Proof.
  intros H1 H2. unfold expandRows. rewrite Z.add_0_r. destruct (Z.ltb_spec (Z.of_nat (d1 m)) 1); [lia|]. destruct (Nat.ltb_spec (d2 m) 1); [lia|]. reflexivity.
Qed.
Lemma expandRows_hang inc c m : isMat 0 c (fun _ _ => 0) m -> (2 <= c)%nat -> (1 <= inc)%Z -> expandRows inc false m = None.
Proof.
  intros (A & B & C & D & F) Hc Hi. unfold expandRows. rewrite A, B. cbn [Z.of_nat]. rewrite Z.add_0_l.
  destruct (Z.ltb_spec inc 1); [lia|]. destruct (Nat.ltb_spec c 1); [lia|]. cbn [orb]. destruct (Z.ltb_spec inc 0); [lia|]. destruct (Z.ltb_spec 0 inc); [|lia].
  cbn [setRows d1 d2 elem]. rewrite B. set (v1 := vresize _ _ _ _).
  assert (K : forall n, (0 < n)%nat -> forN n (fun t v => bind (ptr (setElem (setRows (Z.to_nat inc) m) v) (c - 1 - t)) (fun p => bind (memcpy 0 (0 * (c - 1 - t)) v p v)
     (fun v2 => if (0 =? 0)%nat then None else forN (Z.to_nat inc - 0) (fun s v3 => wr (Z.to_nat inc - 1 - s + Z.to_nat inc * (c - 1 - t - 1)) 0 v3) v2))) v1 = None).
  { intros n Hn. destruct n as [|n]; [lia|]. clear Hn. induction n as [|n IH].
    - cbn [forN bind]. destruct (ptr _ _); reflexivity.
    - cbn [forN]. cbn [forN] in IH. rewrite IH. reflexivity. }
  rewrite K by lia. reflexivity.
Qed.

(** *** augmentRows *)
Lemma augmentRows_ok r s c f g m B (pre : bool) : isMat r c f m -> isMat s c g B -> (1 <= c)%nat ->
  exists m', augmentRows B pre m = Some (true, m') /\
    isMat (r + s) c (fun i j => if pre then (if (i <? s)%nat then g i j else f (i - s)%nat j) else (if (i <? r)%nat then f i j else g (i - r)%nat j)) m'.
Proof.
  intros M MB Hc. pose proof MB as MB0. destruct M as (A & A2 & C & D & F). destruct MB as (B1 & B2 & BC & BD & BF).
  unfold augmentRows. rewrite A, A2, B1, B2, Nat.eqb_refl. cbn [negb setRows d1 d2 elem]. rewrite A2.
  set (R := (r + s)%nat). set (v0 := vresize (R * c) false true (elem m)).
  set (h := fun i j => if pre then (if (i <? s)%nat then g i j else f (i - s)%nat j) else (if (i <? r)%nat then f i j else g (i - r)%nat j)).
  assert (L0 : length v0 = (R * c)%nat) by apply vresize_length.
  match goal with |- context [forN c ?b v0] => destruct (forN_inv (fun k v => length v = (R * c)%nat /\
      (forall i j, (i < R)%nat -> (j < c)%nat -> (c <= j + k)%nat -> nth (i + R * j) v 0 = h i j) /\
      (forall p, (p < r * (c - k))%nat -> nth p v 0 = nth p (elem m) 0)) b c v0) as (v & E1 & V1 & V2 & V3) end.
  - split; [auto|]. split; [intros; lia|]. intros p Hp. apply vresize_nth. unfold R. nia.
  - intros k v Hk (P1 & P2 & P3). cbv beta zeta. set (j0 := (c - k - 1)%nat) in *. replace (c - k)%nat with (S j0) in * by lia.
    assert (J : (j0 < c)%nat) by lia. assert (K0 : (R * j0 + R <= R * c)%nat) by (replace (R * j0 + R)%nat with (R * S j0)%nat by lia; apply Nat.mul_le_mono_l; lia).
    assert (K1 : (r * j0 <= R * j0)%nat) by (apply Nat.mul_le_mono_r; lia). replace (S j0 - 1)%nat with j0 in * by lia.
    (* after the move of the old column *)
    set (off := if pre then s else 0%nat).
    assert (W : exists w, (if (1 <? S j0)%nat || pre then (if (r =? 0)%nat then Some v else bind (ptr (setElem (setRows R m) v) j0) (fun p => memcpy r (r * j0) v (p + off) v)) else Some v) = Some w /\
        length w = (R * c)%nat /\ (forall i, (i < r)%nat -> nth (R * j0 + off + i) w 0 = f i j0) /\
        (forall p, (p < R * j0 + off \/ R * j0 + off + r <= p)%nat -> nth p w 0 = nth p v 0)).
    { destruct ((1 <? S j0)%nat || pre) eqn:Eg.
      - destruct (Nat.eqb_spec r 0) as [Er|Nr].
        + exists v. split; [auto|]. split; [auto|]. split; [intros; lia|auto].
        + unfold ptr. cbn [setElem setRows d1 elem]. rewrite P1. destruct (Nat.ltb_spec (R * j0) (R * c)); [|unfold R in *; lia]. cbn [bind].
          destruct (memcpy_ok 0 r (r * j0) v (R * j0 + off) v) as (w & W1 & W2 & W3 & W4); [unfold R in *; lia|unfold R, off in *; destruct pre; lia|].
          exists w. split; [auto|]. split; [congruence|]. split; [|auto]. intros i Hi. rewrite W3 by auto. rewrite P3 by lia. rewrite <- F by lia. f_equal. lia.
      - apply orb_false_iff in Eg as [Eg Ep]. apply Nat.ltb_ge in Eg. assert (j0 = 0)%nat by lia. exists v. split; [auto|]. split; [auto|]. split; [|auto].
        intros i Hi. unfold off. rewrite Ep, H. rewrite P3 by lia. rewrite <- F by lia. f_equal. lia. }
    destruct W as (w & W1 & W2 & W3 & W4). rewrite W1. cbn [bind].
    assert (U : exists u, (if pre
        then forN s (fun r0 v => bind (rd2 B r0 j0) (fun x => wr (r0 + R * j0) x v)) w
        else forN (R - r) (fun s v => bind (rd2 B (R - s - r - 1) j0) (fun x => wr (R - s - 1 + R * j0) x v)) w) = Some u /\ length u = (R * c)%nat /\
        (forall i, (i < R)%nat -> nth (i + R * j0) u 0 = h i j0) /\ (forall p, (p < R * j0 \/ R * j0 + R <= p)%nat -> nth p u 0 = nth p w 0)).
    { destruct pre eqn:Ep.
      - destruct (loop1 (fun i => (i + R * j0)%nat) (fun i _ => g i j0) (fun r0 v => bind (rd2 B r0 j0) (fun x => wr (r0 + R * j0) x v)) (R * c) s w) as (u & U1 & U2 & U3 & U4); auto.
        { intros i x Hi Hx. rewrite (isMat_rd2 _ _ _ _ _ _ MB0) by auto. cbn [bind]. apply wr_ok. unfold R in *. lia. }
        { intros i Hi. unfold R in *. lia. } { intros; lia. }
        exists u. split; [auto|]. split; [auto|]. split.
        + intros i Hi. unfold h. destruct (Nat.ltb_spec i s) as [L|L]; [apply U3; auto|]. rewrite U4 by (intros; lia).
          replace (i + R * j0)%nat with (R * j0 + off + (i - s))%nat by (unfold off; lia). apply W3. unfold R in *. lia.
        + intros p Hp. apply U4. unfold R in *. intros. lia.
      - destruct (loop1 (fun i => (R - i - 1 + R * j0)%nat) (fun i _ => g (R - i - r - 1)%nat j0) (fun s v => bind (rd2 B (R - s - r - 1) j0) (fun x => wr (R - s - 1 + R * j0) x v)) (R * c) (R - r) w) as (u & U1 & U2 & U3 & U4); auto.
        { intros i x Hi Hx. rewrite (isMat_rd2 _ _ _ _ _ _ MB0) by (unfold R in *; lia). cbn [bind]. apply wr_ok. unfold R in *. lia. }
        { intros i Hi. unfold R in *. lia. } { unfold R in *. intros; lia. }
        exists u. split; [auto|]. split; [auto|]. split.
        + intros i Hi. unfold h. destruct (Nat.ltb_spec i r) as [L|L].
          * rewrite U4 by (unfold R; intros; lia). replace (i + R * j0)%nat with (R * j0 + off + i)%nat by (unfold off; lia). apply W3. auto.
          * replace (i + R * j0)%nat with (R - (R - i - 1) - 1 + R * j0)%nat by lia. rewrite (U3 (R - i - 1)%nat) by lia. f_equal. lia.
        + intros p Hp. apply U4. unfold R in *. intros. lia. }
    destruct U as (u & U1 & U2 & U3 & U4). exists u. split; [exact U1|]. split; [auto|]. split.
    + intros i j Hi Hj Hk'. destruct (Nat.eq_dec j j0) as [->|N]; [apply U3; auto|].
      assert (R * S j0 <= R * j)%nat by (apply Nat.mul_le_mono_l; lia).
      rewrite U4 by lia. rewrite W4; [apply P2; auto; lia|]. right. unfold off, R in *. destruct pre; lia.
    + intros p Hp. replace (c - S k)%nat with j0 in Hp by lia. rewrite U4 by lia. rewrite W4 by lia. apply P3. lia.
  - rewrite E1. cbn [bind]. eexists. split; [reflexivity|]. unfold setElem, setRows. cbn [d1 d2 d3 d4]. rewrite A2. apply mkIsMat.
    + left. destruct C as [C|[_ C]]; [auto|lia].
    + auto.
    + intros i j Hi Hj. apply V2; auto. lia.
Qed.
