(** Proofs about the thread group model. *)
From Coq Require Import List Arith Bool Lia Permutation ZArith.
Require Import ZifyBool ZifyNat.
From Verif Require Import ThreadGroups_model ThreadGroups_spec.
Import ListNotations.
Ltac Zify.zify_post_hook ::= Z.div_mod_to_equations.

(** ** Lists *)
Lemma NoDup_flat_map {A B} (f : A -> list B) (l : list A) :
  NoDup l -> (forall x, In x l -> NoDup (f x)) ->
  (forall x y z, In x l -> In y l -> In z (f x) -> In z (f y) -> x = y) ->
  NoDup (flat_map f l).
Proof.
  induction l as [|a l IH]; intros Hl Hf Hd; simpl; [constructor|].
  inversion Hl as [|? ? Hna Hl']; subst.
  assert (Happ : forall (l1 l2 : list B), NoDup l1 -> NoDup l2 ->
            (forall z, In z l1 -> ~ In z l2) -> NoDup (l1 ++ l2)).
  { intros l1; induction l1 as [|b l1 IH1]; intros l2 H1 H2 H3; simpl; [exact H2|].
    inversion H1; subst. constructor.
    - rewrite in_app_iff. intros [H|H]; [contradiction|]. apply (H3 b); simpl; auto.
    - apply IH1; auto. intros z Hz. apply H3. simpl; auto. }
  apply Happ.
  - apply Hf. simpl; auto.
  - apply IH; auto.
    + intros x Hx. apply Hf. simpl; auto.
    + intros x y z Hx Hy. apply Hd; simpl; auto.
  - intros z Hz Hz'. apply in_flat_map in Hz'. destruct Hz' as [y [Hy Hzy]].
    apply Hna. rewrite (Hd a y z); simpl; auto.
Qed.

Lemma NoDup_map_seq (f : nat -> nat) n :
  (forall i j, i < n -> j < n -> f i = f j -> i = j) -> NoDup (map f (seq 0 n)).
Proof.
  intros H.
  assert (G : forall k s, s + k <= n -> NoDup (map f (seq s k))).
  { induction k as [|k IH]; intros s Hs; simpl; constructor.
    - rewrite in_map_iff. intros [x [Hx Hin]]. apply in_seq in Hin.
      assert (x = s) by (apply H; try lia; auto). lia.
    - apply IH. lia. }
  apply G. lia.
Qed.

Lemma count_occ_b (l : list nat) e (b : bool) :
  NoDup l -> (In e l <-> b = true) -> count_occ Nat.eq_dec l e = Nat.b2n b.
Proof.
  intros Hn Hi. destruct b; simpl.
  - rewrite (NoDup_count_occ' Nat.eq_dec) in Hn. apply Hn. apply Hi. reflexivity.
  - apply count_occ_not_In. intros H. apply Hi in H. discriminate.
Qed.

(** ** Boxes *)
Lemma in_box3 start mx my mz n1 n2 e :
  In e (box3 start mx my mz n1 n2) <->
  exists i1 i2 i3, i1 < mx /\ i2 < my /\ i3 < mz /\ e = start + i1 + n1*(i2+n2*i3).
Proof.
  unfold box3. rewrite in_flat_map. split.
  - intros [i3 [H3 H]]. apply in_flat_map in H. destruct H as [i2 [H2 H]].
    apply in_map_iff in H. destruct H as [i1 [He H1]].
    rewrite in_seq in *. exists i1, i2, i3. repeat split; lia.
  - intros (i1 & i2 & i3 & H1 & H2 & H3 & He).
    exists i3. split; [apply in_seq; lia|]. apply in_flat_map.
    exists i2. split; [apply in_seq; lia|]. apply in_map_iff.
    exists i1. split; [lia|apply in_seq; lia].
Qed.

(** unique mixed-radix representation *)
Lemma radix_inj n a b c d : a < n -> c < n -> a + n*b = c + n*d -> a = c /\ b = d.
Proof. intros Ha Hc H.
  assert (b = d). { assert (b < d \/ b = d \/ d < b) as [L|[L|L]] by lia; auto; exfalso; nia. }
  subst. lia.
Qed.

Lemma box3_NoDup start mx my mz n1 n2 :
  mx <= n1 -> my <= n2 -> NoDup (box3 start mx my mz n1 n2).
Proof.
  intros Hx Hy. unfold box3. apply NoDup_flat_map.
  - apply seq_NoDup.
  - intros i3 _. apply NoDup_flat_map.
    + apply seq_NoDup.
    + intros i2 _. apply NoDup_map_seq. intros; lia.
    + intros i j z Hi Hj Hzi Hzj. rewrite in_map_iff in *.
      destruct Hzi as [a [Ha Ha']], Hzj as [b [Hb Hb']]. rewrite in_seq in *.
      destruct (radix_inj n1 a (i+n2*i3) b (j+n2*i3)); lia.
  - intros i j z Hi Hj Hzi Hzj. rewrite in_flat_map in *.
    destruct Hzi as [i2 [Hi2 Hzi]], Hzj as [j2 [Hj2 Hzj]]. rewrite in_map_iff in *.
    destruct Hzi as [a [Ha Ha']], Hzj as [b [Hb Hb']]. rewrite in_seq in *.
    destruct (radix_inj n1 a (i2+n2*i) b (j2+n2*j)) as [_ E]; try lia.
    destruct (radix_inj n2 i2 i j2 j); lia.
Qed.

Lemma div_unique_nat n a b : a < n -> (a + n*b) / n = b.
Proof. intros H. symmetry. apply (Nat.div_unique _ n b a); lia. Qed.
Lemma mod_unique_nat n a b : a < n -> (a + n*b) mod n = a.
Proof. intros H. symmetry. apply (Nat.mod_unique _ n b a); lia. Qed.

(** decomposition of an element index *)
Lemma elm_split n1 n2 n3 e : e < n1*n2*n3 ->
  exists x y z, x < n1 /\ y < n2 /\ z < n3 /\ e = x + n1*(y+n2*z).
Proof.
  intros H.
  assert (H1 : 0 < n1) by (destruct n1; simpl in H; lia).
  assert (H2 : 0 < n2) by (destruct n2; [rewrite Nat.mul_0_r in H; simpl in H|]; lia).
  exists (e mod n1), ((e/n1) mod n2), ((e/n1)/n2).
  pose proof (Nat.div_mod e n1 ltac:(lia)).
  pose proof (Nat.div_mod (e/n1) n2 ltac:(lia)).
  repeat split; try (apply Nat.mod_upper_bound; lia).
  - rewrite Nat.div_div by lia. apply Nat.div_lt_upper_bound; lia.
  - rewrite (Nat.add_comm ((e/n1) mod n2)), <- H3. lia.
Qed.
Lemma coord_U n1 n2 x y z : x < n1 -> y < n2 -> coord U n1 n2 (x + n1*(y+n2*z)) = x.
Proof. intros; simpl. apply mod_unique_nat; lia. Qed.
Lemma coord_V n1 n2 x y z : x < n1 -> y < n2 -> coord V n1 n2 (x + n1*(y+n2*z)) = y.
Proof. intros; cbn [coord]. rewrite div_unique_nat by lia. apply mod_unique_nat; lia. Qed.
Lemma coord_W n1 n2 x y z : x < n1 -> y < n2 -> coord W n1 n2 (x + n1*(y+n2*z)) = z.
Proof. intros; cbn [coord]. rewrite <- Nat.div_div by lia. rewrite div_unique_nat by lia.
  apply div_unique_nat; lia. Qed.

Definition UVW (d : dir) : Prop := d = U \/ d = V \/ d = W.

(** the strip of width w at offset o, as the code builds it *)
Definition strip3 (sd : dir) (n1 n2 n3 : nat) (p : nat * nat) : list nat :=
  let '(o, w) := p in
  box3 (o * (if is_U sd then 1 else n1*(if is_V sd then 1 else n2)))
       (if is_U sd then w else n1) (if is_V sd then w else n2)
       (if is_W sd then w else n3) n1 n2.

Lemma in_strip3 sd n1 n2 n3 o w e : UVW sd -> o + w <= size_in sd n1 n2 n3 ->
  In e (strip3 sd n1 n2 n3 (o,w)) <->
  e < n1*n2*n3 /\ o <= coord sd n1 n2 e < o + w.
Proof.
  intros Hd Hw. unfold strip3. rewrite in_box3.
  destruct Hd as [-> | [-> | ->]]; simpl is_U; simpl is_V; simpl is_W; cbn [size_in] in Hw; cbv iota; split.
  - intros (i1&i2&i3&H1&H2&H3&->).
    replace (o*1+i1+n1*(i2+n2*i3)) with ((o+i1)+n1*(i2+n2*i3)) by lia.
    rewrite coord_U by lia. split; [|lia].
    assert (n1*(i2+n2*i3) + n1 <= n1*(n2*n3)).
    { replace (n1*(i2+n2*i3)+n1) with (n1*(i2+n2*i3+1)) by lia. apply Nat.mul_le_mono_l. nia. }
    lia.
  - intros [He Hc]. destruct (elm_split _ _ _ _ He) as (x&y&z&Hx&Hy&Hz&->).
    rewrite coord_U in Hc by lia. exists (x-o), y, z. repeat split; lia.
  - intros (i1&i2&i3&H1&H2&H3&->).
    replace (o*(n1*1)+i1+n1*(i2+n2*i3)) with (i1+n1*((o+i2)+n2*i3)) by lia.
    rewrite coord_V by lia. split; [|lia].
    assert (n1*((o+i2)+n2*i3) + n1 <= n1*(n2*n3)).
    { replace (n1*((o+i2)+n2*i3)+n1) with (n1*((o+i2)+n2*i3+1)) by lia. apply Nat.mul_le_mono_l. nia. }
    lia.
  - intros [He Hc]. destruct (elm_split _ _ _ _ He) as (x&y&z&Hx&Hy&Hz&->).
    rewrite coord_V in Hc by lia. exists x, (y-o), z. repeat split; try lia.
    replace y with (o+(y-o)) at 1 by lia. lia.
  - intros (i1&i2&i3&H1&H2&H3&->).
    replace (o*(n1*n2)+i1+n1*(i2+n2*i3)) with (i1+n1*(i2+n2*(o+i3))) by lia.
    rewrite coord_W by lia. split; [|lia].
    assert (n1*(i2+n2*(o+i3)) + n1 <= n1*(n2*n3)).
    { replace (n1*(i2+n2*(o+i3))+n1) with (n1*(i2+n2*(o+i3)+1)) by lia. apply Nat.mul_le_mono_l. nia. }
    lia.
  - intros [He Hc]. destruct (elm_split _ _ _ _ He) as (x&y&z&Hx&Hy&Hz&->).
    rewrite coord_W in Hc by lia. exists x, y, (z-o). repeat split; try lia.
    replace z with (o+(z-o)) at 1 by lia. lia.
Qed.

Lemma strip3_NoDup sd n1 n2 n3 o w : UVW sd -> o + w <= size_in sd n1 n2 n3 ->
  NoDup (strip3 sd n1 n2 n3 (o,w)).
Proof.
  intros Hd Hw. unfold strip3. apply box3_NoDup;
  destruct Hd as [-> | [-> | ->]]; simpl in *; lia.
Qed.

Lemma box2_box3 s mx my n1 n2 : box2 s mx my n1 = box3 s mx my 1 n1 n2.
Proof.
  unfold box2, box3. simpl. rewrite app_nil_r.
  apply flat_map_ext. intros i2. apply map_ext. intros i1. lia.
Qed.

(** ** Number of threads and strip widths *)
Lemma reduceThreads_spec thr minsize els t s :
  reduceThreads thr minsize els = (t, s) ->
  (t = 1 /\ s = els) \/ (1 < t /\ t <= thr /\ s = els / (2*t) /\ minsize <= s).
Proof.
  induction thr as [|thr IH]; cbn [reduceThreads].
  - intros [= <- <-]. auto.
  - destruct thr as [|k].
    + intros [= <- <-]. auto.
    + cbv zeta. destruct (Nat.ltb_spec (els / (2 * S (S k))) minsize) as [Hl|Hl]; intros E.
      * destruct (IH E) as [H|H]; [left; exact H|right]. lia.
      * injection E as <- <-. right. repeat split; first [reflexivity | lia | exact Hl].
Qed.

(** it is the largest usable thread count *)
Lemma reduceThreads_max thr minsize els t s k :
  reduceThreads thr minsize els = (t, s) -> t < k <= thr -> els / (2*k) < minsize.
Proof.
  induction thr as [|thr IH]; cbn [reduceThreads].
  - intros [= <- <-]. lia.
  - destruct thr as [|q].
    + intros [= <- <-]. lia.
    + cbv zeta. destruct (Nat.ltb_spec (els / (2 * S (S q))) minsize) as [Hl|Hl]; intros E Hk.
      * destruct (Nat.eq_dec k (S (S q))) as [->|]; [exact Hl|]. apply (IH E). lia.
      * injection E as <- <-. lia.
Qed.

Definition sum (l : list nat) := fold_right Nat.add 0 l.
Lemma sum_repeat s n : sum (repeat s n) = n*s.
Proof. induction n; simpl; lia. Qed.
Lemma length_incrAt k l : length (incrAt k l) = length l.
Proof. revert k; induction l as [|x l IH]; intros [|k]; simpl; auto. Qed.
Lemma sum_incrAt k l : k < length l -> sum (incrAt k l) = S (sum l).
Proof. revert k; induction l as [|x l IH]; intros [|k]; simpl; intros H; try lia. rewrite IH; lia. Qed.
Lemma Forall_incrAt s k l : Forall (fun w => s <= w) l -> Forall (fun w => s <= w) (incrAt k l).
Proof. intros H. revert k; induction H as [|x l Hx Hl IH]; intros [|k]; simpl; constructor; auto. Qed.

Lemma distribute_inv threads s rem s0 s1 : 0 < threads ->
  distribute threads s rem = (s0, s1) ->
  length s0 = threads /\ length s1 = threads /\
  Forall (fun w => s <= w) s0 /\ Forall (fun w => s <= w) s1 /\
  sum s0 + sum s1 = 2*threads*s + rem.
Proof.
  intros Ht. unfold distribute. revert s0 s1.
  assert (G : forall l a b, Forall (fun i => 1 <= i) l ->
    length a = threads -> length b = threads ->
    Forall (fun w => s <= w) a -> Forall (fun w => s <= w) b ->
    forall s0 s1,
    fold_left (fun (st : list nat * list nat) i =>
               let k := threads - (i+1)/2 in
               if i mod 2 =? 0 then (incrAt k (fst st), snd st)
               else (fst st, incrAt k (snd st))) l (a, b) = (s0, s1) ->
    length s0 = threads /\ length s1 = threads /\
    Forall (fun w => s <= w) s0 /\ Forall (fun w => s <= w) s1 /\
    sum s0 + sum s1 = sum a + sum b + length l).
  { induction l as [|i l IH]; intros a b Hl Ha Hb Fa Fb s0 s1; cbn [fold_left].
    - intros [= <- <-]. simpl. repeat split; auto; lia.
    - inversion Hl as [|? ? Hi Hl']; subst. cbv zeta. cbn [fst snd].
      assert (Hk : length b - (i+1)/2 < length b) by lia.
      destruct (i mod 2 =? 0); intros E; apply IH in E; auto;
      rewrite ?length_incrAt; auto using Forall_incrAt;
      destruct E as (E1&E2&E3&E4&E5); repeat split; auto;
      rewrite E5, sum_incrAt; cbn [length]; lia. }
  intros s0 s1 E. apply G in E; rewrite ?repeat_length; auto.
  - rewrite !sum_repeat, seq_length in E. destruct E as (E1&E2&E3&E4&E5). repeat split; auto; nia.
  - apply Forall_forall. intros x Hx. apply in_seq in Hx. lia.
  - apply Forall_forall. intros x Hx. apply repeat_spec in Hx. lia.
  - apply Forall_forall. intros x Hx. apply repeat_spec in Hx. lia.
Qed.

(** ** Offsets *)
Lemma offsets_length offs s0 s1 : length s0 = length s1 ->
  length (fst (offsets offs s0 s1)) = length s0 /\ length (snd (offsets offs s0 s1)) = length s0.
Proof.
  revert offs s1; induction s0 as [|a s0 IH]; intros offs [|b s1] H; simpl in *; try lia; auto.
  destruct (offsets (offs+a+b) s0 s1) as [o0 o1] eqn:E.
  destruct (IH (offs+a+b) s1) as [H1 H2]; [lia|]. rewrite E in *. simpl in *. lia.
Qed.

(** prefix sum of the first t strip pairs *)
Definition before (s0 s1 : list nat) (t : nat) := sum (firstn t s0) + sum (firstn t s1).

Lemma offsets_nth offs s0 s1 t : length s0 = length s1 -> t < length s0 ->
  nth t (fst (offsets offs s0 s1)) 0 = offs + before s0 s1 t /\
  nth t (snd (offsets offs s0 s1)) 0 = offs + before s0 s1 t + nth t s0 0.
Proof.
  revert offs s1 t; induction s0 as [|a s0 IH]; intros offs [|b s1] t H Ht; cbn [length] in *; try lia.
  cbn [offsets]. destruct (offsets (offs+a+b) s0 s1) as [o0 o1] eqn:E.
  destruct t as [|t]; unfold before in *.
  - simpl. lia.
  - destruct (IH (offs+a+b) s1 t) as [H1 H2]; try lia. rewrite E in *. cbn [fst snd] in *.
    cbn [nth firstn sum fold_right]. unfold sum in *. cbn [fold_right] in *. lia.
Qed.

Lemma sum_firstn_le l t : sum (firstn t l) <= sum l.
Proof. revert t; induction l as [|a l IH]; intros [|t]; simpl; try lia. specialize (IH t). unfold sum in *. lia. Qed.
Lemma sum_firstn_S l t : t < length l -> sum (firstn (S t) l) = sum (firstn t l) + nth t l 0.
Proof.
  revert t; induction l as [|a l IH]; intros [|t] H; cbn [length] in H; try lia.
  - simpl. lia.
  - change (firstn (S (S t)) (a::l)) with (a :: firstn (S t) l).
    change (firstn (S t) (a::l)) with (a :: firstn t l). cbn [sum fold_right nth] in *.
    fold (sum (firstn (S t) l)). fold (sum (firstn t l)). rewrite IH; lia.
Qed.
Lemma sum_firstn_mono l t u : t <= u -> sum (firstn t l) <= sum (firstn u l).
Proof.
  intros H. rewrite <- (firstn_firstn l t u) || idtac.
  replace (firstn t l) with (firstn t (firstn u l)) by (rewrite firstn_firstn; f_equal; lia).
  apply sum_firstn_le.
Qed.

Definition ind (c o w : nat) : nat := Nat.b2n ((o <=? c) && (c <? o + w)).
(** every coordinate below the total width lies in exactly one strip *)
Lemma offsets_cover c s0 : forall offs s1 o0 o1, length s0 = length s1 ->
  offsets offs s0 s1 = (o0, o1) ->
  sum (map (fun p => ind c (fst p) (snd p)) (combine o0 s0)) +
  sum (map (fun p => ind c (fst p) (snd p)) (combine o1 s1)) =
  ind c offs (sum s0 + sum s1).
Proof.
  induction s0 as [|a s0 IH]; intros offs [|b s1] o0 o1 Hl; cbn [length] in Hl; try lia; cbn [offsets].
  - intros [= <- <-]. simpl. unfold ind.
    destruct (offs <=? c) eqn:E1, (c <? offs + 0) eqn:E2; simpl; lia.
  - destruct (offsets (offs+a+b) s0 s1) as [p0 p1] eqn:E. intros [= <- <-].
    cbn [combine map sum fold_right fst snd].
    fold (sum (map (fun p => ind c (fst p) (snd p)) (combine p0 s0))).
    fold (sum (map (fun p => ind c (fst p) (snd p)) (combine p1 s1))).
    fold (sum s0). fold (sum s1).
    specialize (IH (offs+a+b) s1 p0 p1 ltac:(lia) E).
    enough (ind c offs (a + sum s0 + (b + sum s1)) =
            ind c offs a + ind c (offs + a) b + ind c (offs+a+b) (sum s0 + sum s1)) by lia.
    unfold ind.
    destruct (offs <=? c) eqn:E1, (c <? offs+a) eqn:E2, (offs+a <=? c) eqn:E3,
             (c <? offs+a+b) eqn:E4, (offs+a+b <=? c) eqn:E5,
             (c <? offs + a + b + (sum s0 + sum s1)) eqn:E6,
             (c <? offs + (a + sum s0 + (b + sum s1))) eqn:E7; simpl; lia.
Qed.

(** bounds: all strips stay inside the total width *)
Lemma offsets_bound s0 : forall offs s1 o0 o1, length s0 = length s1 ->
  offsets offs s0 s1 = (o0, o1) ->
  Forall (fun p => fst p + snd p <= offs + (sum s0 + sum s1)) (combine o0 s0) /\
  Forall (fun p => fst p + snd p <= offs + (sum s0 + sum s1)) (combine o1 s1).
Proof.
  induction s0 as [|a s0 IH]; intros offs [|b s1] o0 o1 Hl; cbn [length] in Hl; try lia; cbn [offsets].
  - intros [= <- <-]. simpl. auto.
  - destruct (offsets (offs+a+b) s0 s1) as [p0 p1] eqn:E. intros [= <- <-].
    specialize (IH (offs+a+b) s1 p0 p1 ltac:(lia) E). destruct IH as [I0 I1].
    cbn [combine sum fold_right]. fold (sum s0). fold (sum s1).
    split; constructor; cbn [fst snd]; try lia;
    (eapply Forall_impl; [|eassumption]; cbv beta; intros; lia).
Qed.

(** ** Building the groups *)
Lemma count_concat (l : list (list nat)) e :
  count_occ Nat.eq_dec (concat l) e = sum (map (fun x => count_occ Nat.eq_dec x e) l).
Proof. induction l as [|x l IH]; simpl; [reflexivity|]. rewrite count_occ_app, IH. reflexivity. Qed.

Lemma appendGroups_fresh n (new : imat) : length new = n -> appendGroups [] n new = new.
Proof.
  intros <-. unfold appendGroups, vresize. rewrite firstn_nil. cbn [app length].
  rewrite Nat.sub_0_r. induction new as [|x l IH]; simpl; [reflexivity|]. f_equal. exact IH.
Qed.

Lemma before_step w0 w1 (Hlen : length w0 = length w1) t u : t < u -> u < length w0 ->
  before w0 w1 t + nth t w0 0 + nth t w1 0 <= before w0 w1 u.
Proof.
  intros H Hu. unfold before.
  pose proof (sum_firstn_mono w0 (S t) u ltac:(lia)).
  pose proof (sum_firstn_mono w1 (S t) u ltac:(lia)).
  rewrite sum_firstn_S in * by lia. lia.
Qed.

(** common core of all overloads: strips of widths (w0,w1), laid out by [offsets] *)
Section Core.
Variables (sd : dir) (n1 n2 n3 : nat) (w0 w1 o0 o1 : list nat).
Hypothesis Hsd : UVW sd.
Hypothesis Hlen : length w0 = length w1.
Hypothesis Hoff : offsets 0 w0 w1 = (o0, o1).
Hypothesis Hsum : sum w0 + sum w1 <= size_in sd n1 n2 n3.

Local Notation g0 := (map (strip3 sd n1 n2 n3) (combine o0 w0)).
Local Notation g1 := (map (strip3 sd n1 n2 n3) (combine o1 w1)).

Lemma core_strip_bounds :
  Forall (fun p => fst p + snd p <= size_in sd n1 n2 n3) (combine o0 w0) /\
  Forall (fun p => fst p + snd p <= size_in sd n1 n2 n3) (combine o1 w1).
Proof.
  destruct (offsets_bound w0 0 w1 o0 o1 Hlen Hoff) as [A B].
  split; (eapply Forall_impl; [|eassumption]; cbv beta; intros; lia).
Qed.

Lemma core_count_strips e c l : coord sd n1 n2 e = c ->
  Forall (fun p => fst p + snd p <= size_in sd n1 n2 n3) l ->
  sum (map (fun x => count_occ Nat.eq_dec x e) (map (strip3 sd n1 n2 n3) l)) =
  if e <? n1*n2*n3 then sum (map (fun p => ind c (fst p) (snd p)) l) else 0.
Proof.
  intros Hc Hl. induction Hl as [|[o w] l Hp Hl IH]; cbn [map sum fold_right].
  - destruct (_ <? _); reflexivity.
  - fold (sum (map (fun x => count_occ Nat.eq_dec x e) (map (strip3 sd n1 n2 n3) l))).
    rewrite IH. cbn [fst snd] in *.
    rewrite (count_occ_b _ e ((e <? n1*n2*n3) && ((o <=? c) && (c <? o+w)))).
    + destruct (e <? n1*n2*n3); simpl; reflexivity.
    + apply strip3_NoDup; auto.
    + rewrite in_strip3 by auto. rewrite Hc. rewrite !andb_true_iff, Nat.leb_le, !Nat.ltb_lt. tauto.
Qed.

Lemma core_count e :
  count_occ Nat.eq_dec (concat g0 ++ concat g1) e =
  Nat.b2n ((e <? n1*n2*n3) && (coord sd n1 n2 e <? sum w0 + sum w1)).
Proof.
  rewrite count_occ_app, !count_concat.
  destruct core_strip_bounds as [B0 B1]. rewrite !(core_count_strips e _ _ eq_refl) by assumption.
  destruct (e <? n1*n2*n3); simpl; [|reflexivity].
  rewrite (offsets_cover _ w0 0 w1 o0 o1 Hlen Hoff). unfold ind. simpl. reflexivity.
Qed.

Lemma core_nth0 t e : t < length w0 ->
  In e (nth t g0 []) -> e < n1*n2*n3 /\
    before w0 w1 t <= coord sd n1 n2 e < before w0 w1 t + nth t w0 0.
Proof.
  intros Ht. destruct (offsets_length 0 w0 w1 Hlen) as [L0 L1]. rewrite Hoff in L0, L1. cbn [fst snd] in *.
  rewrite (nth_indep _ [] (strip3 sd n1 n2 n3 (0,0))) by (rewrite map_length, combine_length; lia).
  rewrite map_nth, combine_nth by lia.
  destruct (offsets_nth 0 w0 w1 t Hlen Ht) as [E0 _]. rewrite Hoff in E0. cbn [fst] in E0. rewrite E0.
  destruct core_strip_bounds as [B0 _]. rewrite Forall_forall in B0.
  assert (In (nth t o0 0, nth t w0 0) (combine o0 w0)).
  { rewrite <- combine_nth by lia. apply nth_In. rewrite combine_length. lia. }
  specialize (B0 _ H). cbn [fst snd] in B0. rewrite E0 in B0.
  rewrite in_strip3; auto.
Qed.
Lemma core_nth1 t e : t < length w0 ->
  In e (nth t g1 []) -> e < n1*n2*n3 /\
    before w0 w1 t + nth t w0 0 <= coord sd n1 n2 e < before w0 w1 t + nth t w0 0 + nth t w1 0.
Proof.
  intros Ht. destruct (offsets_length 0 w0 w1 Hlen) as [L0 L1]. rewrite Hoff in L0, L1. cbn [fst snd] in *.
  rewrite (nth_indep _ [] (strip3 sd n1 n2 n3 (0,0))) by (rewrite map_length, combine_length; lia).
  rewrite map_nth, combine_nth by lia.
  destruct (offsets_nth 0 w0 w1 t Hlen Ht) as [_ E0]. rewrite Hoff in E0. cbn [snd] in E0. rewrite E0.
  destruct core_strip_bounds as [_ B0]. rewrite Forall_forall in B0.
  assert (In (nth t o1 0, nth t w1 0) (combine o1 w1)).
  { rewrite <- combine_nth by lia. apply nth_In. rewrite combine_length. lia. }
  specialize (B0 _ H). cbn [fst snd] in B0. rewrite E0 in B0.
  rewrite in_strip3; auto.
Qed.
Lemma core_len : length g0 = length w0 /\ length g1 = length w0.
Proof.
  destruct (offsets_length 0 w0 w1 Hlen) as [L0 L1]. rewrite Hoff in L0, L1. cbn [fst snd] in *.
  rewrite !map_length, !combine_length. lia.
Qed.
End Core.

Lemma nth_ge (m : nat) l t : Forall (fun w => m <= w) l -> t < length l -> m <= nth t l 0.
Proof. intros H Ht. rewrite Forall_forall in H. apply H. apply nth_In. exact Ht. Qed.

Lemma core_sep sd n1 n2 n3 w0 w1 o0 o1 m :
  UVW sd -> length w0 = length w1 -> offsets 0 w0 w1 = (o0, o1) ->
  sum w0 + sum w1 = size_in sd n1 n2 n3 ->
  Forall (fun w => m <= w) w0 -> Forall (fun w => m <= w) w1 ->
  forall grp, grp = map (strip3 sd n1 n2 n3) (combine o0 w0) \/
              grp = map (strip3 sd n1 n2 n3) (combine o1 w1) ->
  forall t1 t2 e1 e2, t1 <> t2 -> In e1 (nth t1 grp []) -> In e2 (nth t2 grp []) ->
  sep (size_in sd n1 n2 n3) m (coord sd n1 n2 e1) (coord sd n1 n2 e2).
Proof.
  intros Hsd Hlen Hoff Hsum F0 F1 grp Hg.
  assert (Hlt : forall t1 t2 e1 e2, t1 < t2 -> In e1 (nth t1 grp []) -> In e2 (nth t2 grp []) ->
     let c1 := coord sd n1 n2 e1 in let c2 := coord sd n1 n2 e2 in
     c1 < c2 /\ m < c2 - c1 /\ c2 - c1 + m < size_in sd n1 n2 n3).
  { intros t1 t2 e1 e2 Ht H1 H2.
    assert (Hle : sum w0 + sum w1 <= size_in sd n1 n2 n3) by lia.
    pose proof (core_len sd n1 n2 n3 w0 w1 o0 o1 Hlen Hoff Hle) as HL. destruct HL as [L0 L1].
    assert (Hl : length grp = length w0) by (destruct Hg as [Hg|Hg]; rewrite Hg; assumption).
    assert (T2 : t2 < length w0).
    { destruct (Nat.lt_ge_cases t2 (length grp)) as [?|Hge]; [lia|].
      rewrite nth_overflow in H2 by lia. destruct H2. }
    assert (T1 : t1 < length w0) by lia.
    pose proof (before_step w0 w1 Hlen t1 t2 Ht T2) as Hb.
    pose proof (nth_ge m w0 t1 F0 T1). pose proof (nth_ge m w1 t1 F1 ltac:(lia)).
    pose proof (nth_ge m w0 t2 F0 T2). pose proof (nth_ge m w1 t2 F1 ltac:(lia)).
    assert (Hs : before w0 w1 t2 + nth t2 w0 0 + nth t2 w1 0 <= sum w0 + sum w1).
    { unfold before. pose proof (sum_firstn_le w0 (S t2)). pose proof (sum_firstn_le w1 (S t2)).
      rewrite sum_firstn_S in * by lia. lia. }
    destruct Hg as [-> | ->].
    - destruct (core_nth0 sd n1 n2 n3 w0 w1 o0 o1 Hsd Hlen Hoff ltac:(lia) t1 e1 T1 H1).
      destruct (core_nth0 sd n1 n2 n3 w0 w1 o0 o1 Hsd Hlen Hoff ltac:(lia) t2 e2 T2 H2).
      cbv zeta. lia.
    - destruct (core_nth1 sd n1 n2 n3 w0 w1 o0 o1 Hsd Hlen Hoff ltac:(lia) t1 e1 T1 H1).
      destruct (core_nth1 sd n1 n2 n3 w0 w1 o0 o1 Hsd Hlen Hoff ltac:(lia) t2 e2 T2 H2).
      cbv zeta. lia. }
  intros t1 t2 e1 e2 Hne H1 H2. unfold sep.
  destruct (Nat.lt_ge_cases t1 t2) as [L|L].
  - specialize (Hlt t1 t2 e1 e2 L H1 H2). cbv zeta in Hlt. repeat split; lia.
  - specialize (Hlt t2 t1 e2 e1 ltac:(lia) H2 H1). cbv zeta in Hlt. repeat split; lia.
Qed.
