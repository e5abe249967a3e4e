(** Proofs about gather. *)
From Coq Require Import List Sorted Arith ZArith QArith Qcanon Bool Lia Ascii.
From Verif Require Import Base QcLra Mat_model Mat_spec Mat_proofs Mat_proofs4 Vec_model Vec_spec.
Import ListNotations.
Local Open Scope Z_scope.

Lemma count_snoc {A} (P : A -> Prop) l n x : countOf P l n -> (P x -> countOf P (l ++ [x]) (S n)) /\ (~ P x -> countOf P (l ++ [x]) n).
Proof.
  induction 1 as [|y l n Hy C IH|y l n Hy C IH]; cbn [app].
  - split; intros H; repeat constructor; auto.
  - destruct IH as [I1 I2]. split; intros H; apply count_yes; auto.
  - destruct IH as [I1 I2]. split; intros H; apply count_no; auto.
Qed.
Lemma countOf_fun {A} (P : A -> Prop) l n : countOf P l n -> forall m, countOf P l m -> n = m.
Proof.
  induction 1 as [|y l n Hy C IH|y l n Hy C IH]; intros m H; inversion H; subst; try contradiction; auto.
Qed.
Lemma firstn_snoc {A} (d : A) l k : (k < length l)%nat -> firstn (S k) l = firstn k l ++ [nth k l d].
Proof. revert k. induction l as [|x l IH]; intros [|k] H; cbn in *; try lia; auto. f_equal. apply IH. lia. Qed.
Lemma forN_none {S} n (f : nat -> S -> option S) s k : (k < n)%nat -> (forall s, f k s = None) -> forN n f s = None.
Proof.
  induction n as [|n IH]; intros H F; [lia|]. cbn [forN]. destruct (Nat.eq_dec k n) as [->|N].
  - destruct (forN n f s); cbn [bind]; auto.
  - rewrite IH by (auto; lia). reflexivity.
Qed.
Lemma within_b off nr inp ix : (0 <=? ix) && (off + nr * Z.to_nat ix <? length inp)%nat = true <-> within off nr inp ix.
Proof.
  unfold within. rewrite andb_true_iff, Z.leb_le, Nat.ltb_lt. split; intros [A B]; (split; [exact A|]).
  - apply Nat2Z.inj_lt in B. rewrite Nat2Z.inj_add, Nat2Z.inj_mul, Z2Nat.id in B by exact A. exact B.
  - apply Nat2Z.inj_lt. rewrite Nat2Z.inj_add, Nat2Z.inj_mul, Z2Nat.id by exact A. exact B.
Qed.
Lemma whole_end off nr inp ix : (length inp <= off)%nat \/ wholeBlocks off nr inp -> within off nr inp ix -> (off + nr * Z.to_nat ix + nr <= length inp)%nat.
Proof.
  intros H W. apply within_b in W. apply andb_true_iff in W. destruct W as [_ W]. apply Nat.ltb_lt in W. destruct H as [H|[k H]]; [lia|].
  rewrite H in *. assert (Z.to_nat ix < k)%nat by nia. nia.
Qed.
Lemma nout_eq (a b : nat) : (if (b <? a)%nat then (a - b)%nat else O) = (a - b)%nat.
Proof. destruct (Nat.ltb_spec b a); lia. Qed.

Lemma gather1_ok index nr inp out off nskip : (length inp <= off)%nat \/ wholeBlocks off nr inp ->
  let n := (length index - nskip)%nat in
  exists cnt out', gather1 index nr inp out off nskip = Some (cnt, out') /\ length out' = (nr * n)%nat /\
    countOf (outsideOf off nr inp) (firstn n index) cnt /\
    forall i r, (i < n)%nat -> (r < nr)%nat -> let ix := nth i index 0 in
      (within off nr inp ix -> nth (i * nr + r) out' 0%Qc = nth (off + nr * Z.to_nat ix + r) inp 0%Qc) /\
      (~ within off nr inp ix -> nth (i * nr + r) out' 0%Qc = nth (i * nr + r) out 0%Qc).
Proof.
  intros WB n. unfold gather1. rewrite nout_eq. fold n.
  assert (B : forall i r, (i < n)%nat -> (r < nr)%nat -> (i * nr + r < nr * n)%nat) by (intros; nia).
  set (f := fun (i : nat) (s : nat * list Qc) => _).
  destruct (forN_inv (fun k s => length (snd s) = (nr * n)%nat /\ countOf (outsideOf off nr inp) (firstn k index) (fst s) /\
    forall i r, (i < n)%nat -> (r < nr)%nat -> let ix := nth i index 0 in
      ((i < k)%nat /\ within off nr inp ix -> nth (i * nr + r) (snd s) 0%Qc = nth (off + nr * Z.to_nat ix + r) inp 0%Qc) /\
      (~ ((i < k)%nat /\ within off nr inp ix) -> nth (i * nr + r) (snd s) 0%Qc = nth (i * nr + r) out 0%Qc)) f n (O, stdResize (nr * n) out)) as ([c o] & E & L & C & F).
  - cbn [fst snd firstn]. split; [apply stdResize_length|]. split; [constructor|]. intros i r Hi Hr. cbn zeta. split; [intros []; lia|]. intros _. apply stdResize_nth. auto.
  - intros k [c o] Hk (L & C & F). cbn [fst snd] in *. unfold f. cbn [fst snd].
    assert (KL : (k < length index)%nat) by (unfold n in Hk; lia). rewrite (firstn_snoc 0 index k KL).
    destruct (count_snoc _ _ _ (nth k index 0%Z) C) as [CY CN].
    destruct ((0 <=? nth k index 0) && (off + nr * Z.to_nat (nth k index 0%Z) <? length inp)%nat) eqn:W.
    + apply within_b in W. destruct (memcpy_ok 0%Qc nr (off + nr * Z.to_nat (nth k index 0%Z)) inp (k * nr) o) as (o' & E' & L' & F1 & F2).
      * apply whole_end; auto.
      * rewrite L. nia.
      * rewrite E'. cbn [bind]. eexists. split; [reflexivity|]. cbn [fst snd]. split; [lia|]. split; [apply CN; intros [_ Q]; contradiction|].
        intros i r Hi Hr. cbn zeta. destruct (F i r Hi Hr) as [G1 G2]. cbn zeta in G1, G2.
        destruct (Nat.eq_dec i k) as [->|N].
        -- split; [intros _; apply F1; auto|]. intros Q. exfalso. apply Q. split; [lia|auto].
        -- assert (P : (i * nr + r < k * nr \/ k * nr + nr <= i * nr + r)%nat) by (destruct (Nat.lt_total i k) as [Q|[Q|Q]]; [left; nia|lia|right; nia]).
           rewrite (F2 _ P). split; intros Q; [apply G1; split; [lia|apply Q]|apply G2; intros [Q1 Q2]; apply Q; split; [lia|auto]].
    + assert (NW : ~ within off nr inp (nth k index 0%Z)) by (intros Q; apply within_b in Q; congruence).
      exists (if 0 <=? nth k index 0 then (S c, o) else (c, o)). split; [destruct (0 <=? nth k index 0); reflexivity|].
      split; [destruct (0 <=? nth k index 0); exact L|]. split.
      * destruct (Z.leb_spec 0 (nth k index 0%Z)); cbn [fst]; [apply CY; split; auto|apply CN; intros [Q _]; lia].
      * intros i r Hi Hr. cbn zeta. replace (snd (if 0 <=? nth k index 0 then (S c, o) else (c, o))) with o by (destruct (0 <=? nth k index 0); reflexivity).
        destruct (F i r Hi Hr) as [G1 G2]. cbn zeta in G1, G2. destruct (Nat.eq_dec i k) as [->|N].
        -- split; [intros [_ Q]; contradiction|]. intros _. apply G2. intros []; lia.
        -- split; intros Q; [apply G1; split; [lia|apply Q]|apply G2; intros [Q1 Q2]; apply Q; split; [lia|auto]].
  - exists c, o. cbn [fst snd] in *. split; [exact E|]. split; [exact L|]. split; [exact C|]. intros i r Hi Hr. cbn zeta. destruct (F i r Hi Hr) as [G1 G2]. split; intros Q; [apply G1; auto|apply G2; intros []; contradiction].
Qed.
(** a selected block that is cut off by the end of the input is read past the end *)
Lemma gather1_partial index nr inp out off nskip i : (i < length index - nskip)%nat -> within off nr inp (nth i index 0%Z) ->
  (length inp < off + nr * Z.to_nat (nth i index 0%Z) + nr)%nat -> gather1 index nr inp out off nskip = None.
Proof.
  intros Hi W H. unfold gather1. rewrite nout_eq. eapply forN_none; [exact Hi|]. intros s. cbn zeta. apply within_b in W. rewrite W. apply within_b in W.
  rewrite memcpy_none; [reflexivity| |exact H]. intros ->. apply within_b in W. apply andb_true_iff in W. destruct W as [_ W]. apply Nat.ltb_lt in W. lia.
Qed.
(** the matrix variant *)
Lemma gather2_ok index nr inp out off nskip c0 f0 : (length inp <= off)%nat \/ wholeBlocks off nr inp ->
  let n := (length index - nskip)%nat in isMat nr c0 f0 (mresize nr n false out) -> c0 = n ->
  exists cnt out', gather2 index nr inp out off nskip = Some (cnt, out') /\
    countOf (outsideOf off nr inp) (firstn n index) cnt /\
    exists g, isMat nr n g out' /\
    forall i r, (i < n)%nat -> (r < nr)%nat -> let ix := nth i index 0 in
      (within off nr inp ix -> g r i = nth (off + nr * Z.to_nat ix + r) inp 0%Qc) /\
      (~ within off nr inp ix -> g r i = f0 r i).
Proof.
  intros WB n M ->. unfold gather2. rewrite nout_eq. fold n. fold n in M.
  set (f := fun (i : nat) (s : nat * mat) => _).
  destruct (forN_inv (fun k s => countOf (outsideOf off nr inp) (firstn k index) (fst s) /\ exists g, isMat nr n g (snd s) /\
    forall i r, (i < n)%nat -> (r < nr)%nat -> let ix := nth i index 0 in
      ((i < k)%nat /\ within off nr inp ix -> g r i = nth (off + nr * Z.to_nat ix + r) inp 0%Qc) /\
      (~ ((i < k)%nat /\ within off nr inp ix) -> g r i = f0 r i)) f n (O, mresize nr n false out)) as ([c o] & E & C & g & L & F).
  - cbn [fst snd firstn]. split; [constructor|]. exists f0. split; [exact M|]. intros i r Hi Hr. cbn zeta. split; [intros []; lia|auto].
  - intros k [c o] Hk (C & g & L & F). cbn [fst snd] in *. unfold f. cbn [fst snd].
    assert (KL : (k < length index)%nat) by (unfold n in Hk; lia). rewrite (firstn_snoc 0 index k KL).
    destruct (count_snoc _ _ _ (nth k index 0%Z) C) as [CY CN].
    destruct ((0 <=? nth k index 0) && (off + nr * Z.to_nat (nth k index 0%Z) <? length inp)%nat) eqn:W.
    + apply within_b in W. destruct (fillColumnPtr_ok nr n g o (1 + k) inp (off + nr * Z.to_nat (nth k index 0%Z)) L) as (o' & E' & L'); [lia|apply whole_end; auto|].
      rewrite E'. cbn [bind]. eexists. split; [reflexivity|]. cbn [fst snd]. split; [apply CN; intros [_ Q]; contradiction|].
      eexists. split; [exact L'|]. intros i r Hi Hr. cbn zeta. destruct (F i r Hi Hr) as [G1 G2]. cbn zeta in G1, G2.
      replace (1 + k - 1)%nat with k by lia. destruct (Nat.eqb_spec i k) as [->|N].
      * split; [auto|]. intros Q. exfalso. apply Q. split; [lia|auto].
      * split; intros Q; [apply G1; split; [lia|apply Q]|apply G2; intros [Q1 Q2]; apply Q; split; [lia|auto]].
    + assert (NW : ~ within off nr inp (nth k index 0%Z)) by (intros Q; apply within_b in Q; congruence).
      exists (if 0 <=? nth k index 0 then (S c, o) else (c, o)). split; [destruct (0 <=? nth k index 0); reflexivity|].
      split.
      * destruct (Z.leb_spec 0 (nth k index 0%Z)); cbn [fst]; [apply CY; split; auto|apply CN; intros [Q _]; lia].
      * exists g. replace (snd (if 0 <=? nth k index 0 then (S c, o) else (c, o))) with o by (destruct (0 <=? nth k index 0); reflexivity). split; [exact L|].
        intros i r Hi Hr. cbn zeta. 
        destruct (F i r Hi Hr) as [G1 G2]. cbn zeta in G1, G2. destruct (Nat.eq_dec i k) as [->|N].
        -- split; [intros [_ Q]; contradiction|]. intros _. apply G2. intros []; lia.
        -- split; intros Q; [apply G1; split; [lia|apply Q]|apply G2; intros [Q1 Q2]; apply Q; split; [lia|auto]].
  - exists c, o. cbn [fst snd] in *. split; [exact E|]. split; [exact C|]. exists g. split; [exact L|]. intros i r Hi Hr. cbn zeta. destruct (F i r Hi Hr) as [G1 G2]. split; intros Q; [apply G1; auto|apply G2; intros []; contradiction].
Qed.
(** one row; never out of bounds *)
Lemma gather3_ok index ir nr inp out off shift nskip : (ir < nr)%nat ->
  let n := (length index - nskip)%nat in
  exists cnt out', gather3 index ir nr inp out off shift nskip = Some (cnt, out') /\ length out' = n /\
    countOf (outside3 off ir nr inp shift) (firstn n index) cnt /\
    forall i, (i < n)%nat -> let ix := nth i index 0 in
      (within3 off ir nr inp shift ix -> nth i out' 0%Qc = nth (off + ir + nr * Z.to_nat (ix - shift)) inp 0%Qc) /\
      (~ within3 off ir nr inp shift ix -> nth i out' 0%Qc = nth i out 0%Qc).
Proof.
  intros IR n. unfold gather3. destruct (Nat.leb_spec nr ir); [lia|]. rewrite nout_eq. fold n. cbn zeta.
  set (f := fun (i : nat) (s : nat * list Qc) => _).
  destruct (forN_inv (fun k s => length (snd s) = n /\ countOf (outside3 off ir nr inp shift) (firstn k index) (fst s) /\
    forall i, (i < n)%nat -> let ix := nth i index 0 in
      ((i < k)%nat /\ within3 off ir nr inp shift ix -> nth i (snd s) 0%Qc = nth (off + ir + nr * Z.to_nat (ix - shift)) inp 0%Qc) /\
      (~ ((i < k)%nat /\ within3 off ir nr inp shift ix) -> nth i (snd s) 0%Qc = nth i out 0%Qc)) f n (O, stdResize n out)) as ([c o] & E & L & C & F).
  - cbn [fst snd firstn]. split; [apply stdResize_length|]. split; [constructor|]. intros i Hi. cbn zeta. split; [intros []; lia|]. intros _. apply stdResize_nth. auto.
  - intros k [c o] Hk (L & C & F). cbn [fst snd] in *. unfold f. cbn [fst snd].
    assert (KL : (k < length index)%nat) by (unfold n in Hk; lia). rewrite (firstn_snoc 0 index k KL).
    destruct (count_snoc _ _ _ (nth k index 0%Z) C) as [CY CN]. set (ix := nth k index 0) in *.
    assert (Keep : ~ within3 off ir nr inp shift ix -> forall c',
       length o = n /\ forall i, (i < n)%nat -> ((i < S k)%nat /\ within3 off ir nr inp shift (nth i index 0%Z) -> nth i (snd (c' : nat, o)) 0%Qc = nth (off + ir + nr * Z.to_nat (nth i index 0 - shift)) inp 0%Qc) /\
        (~ ((i < S k)%nat /\ within3 off ir nr inp shift (nth i index 0%Z)) -> nth i (snd (c', o)) 0%Qc = nth i out 0%Qc)).
    { intros NW c'. split; [exact L|]. intros i Hi. destruct (F i Hi) as [G1 G2]. cbn zeta in G1, G2. destruct (Nat.eq_dec i k) as [->|N].
      - split; [intros [_ Q]; contradiction|]. intros _. apply G2. intros []; lia.
      - split; intros Q; [apply G1; split; [lia|apply Q]|apply G2; intros [Q1 Q2]; apply Q; split; [lia|auto]]. }
    destruct (Z.leb_spec shift ix) as [HS|HS].
    + assert (EQ : (off + ir + nr * Z.to_nat (ix - shift) < length inp)%nat <-> Z.of_nat off + Z.of_nat ir + Z.of_nat nr * (ix - shift) < Z.of_nat (length inp)).
      { rewrite Nat2Z.inj_lt. rewrite !Nat2Z.inj_add, Nat2Z.inj_mul, Z2Nat.id by lia. reflexivity. }
      destruct (Nat.ltb_spec (off + ir + nr * Z.to_nat (ix - shift)) (length inp)) as [HI|HI].
      * assert (W : within3 off ir nr inp shift ix) by (split; [exact HS|apply EQ, HI]).
        rewrite rd_ok by exact HI. cbn [bind]. rewrite wr_ok by lia. cbn [bind]. eexists. split; [reflexivity|]. cbn [fst snd]. split; [rewrite upd_length; exact L|].
        split; [apply CN; intros [Q _]; contradiction|]. intros i Hi. cbn zeta. destruct (F i Hi) as [G1 G2]. cbn zeta in G1, G2. destruct (Nat.eq_dec i k) as [->|N].
        -- rewrite upd_nth_same by lia. split; [auto|]. intros Q. exfalso. apply Q. split; [lia|auto].
        -- rewrite upd_nth_other by exact N. split; intros Q; [apply G1; split; [lia|apply Q]|apply G2; intros [Q1 Q2]; apply Q; split; [lia|auto]].
      * assert (NW : ~ within3 off ir nr inp shift ix) by (intros [_ Q]; apply EQ in Q; lia).
        eexists. split; [reflexivity|]. destruct (Keep NW (S c)) as [K1 K2]. split; [exact K1|]. split; [apply CY; split; auto|exact K2].
    + assert (NW : ~ within3 off ir nr inp shift ix) by (intros [Q _]; lia).
      destruct (Z.leb_spec 0 ix) as [H0|H0]; eexists; (split; [reflexivity|]); cbn [fst].
      * destruct (Keep NW (S c)) as [K1 K2]. split; [exact K1|]. split; [apply CY; split; auto|exact K2].
      * destruct (Keep NW c) as [K1 K2]. split; [exact K1|]. split; [apply CN; intros [_ [Q|Q]]; lia|exact K2].
  - exists c, o. cbn [fst snd] in *. split; [exact E|]. split; [exact L|]. split; [exact C|]. intros i Hi. cbn zeta. destruct (F i Hi) as [G1 G2]. split; intros Q; [apply G1; auto|apply G2; intros []; contradiction].
Qed.
