(** Proofs about the thread group model, part 2: the four calcGroups overloads. *)
From Coq Require Import List Arith Bool Lia Permutation ZArith.
Require Import ZifyBool ZifyNat.
From Verif Require Import ThreadGroups_model ThreadGroups_spec ThreadGroups_proofs.
Import ListNotations.
Ltac Zify.zify_post_hook ::= Z.div_mod_to_equations.

Lemma gsd2 a b p : getStripDirection2 a b p = U \/ getStripDirection2 a b p = V.
Proof. unfold getStripDirection2. repeat destruct (_ <? _); auto. Qed.
Lemma gsd3 a b c p : UVW (getStripDirection3 a b c p).
Proof. unfold getStripDirection3, UVW. repeat destruct (_ && _); repeat destruct (_ <? _); auto. Qed.

(** The shape of the result, common to all overloads with element counts. *)
Definition striped (g : groups) (maxthr n1 n2 n3 m : nat) : Prop :=
  UVW (stripDir g) /\
  ((tg0 g = [seq 0 (n1*n2*n3)] /\ tg1 g = []) \/
   exists w0 w1 o0 o1,
     1 < length w0 <= maxthr /\ length w0 = length w1 /\ offsets 0 w0 w1 = (o0, o1) /\
     sum w0 + sum w1 = size_in (stripDir g) n1 n2 n3 /\
     Forall (fun w => m <= w) w0 /\ Forall (fun w => m <= w) w1 /\
     tg0 g = map (strip3 (stripDir g) n1 n2 n3) (combine o0 w0) /\
     tg1 g = map (strip3 (stripDir g) n1 n2 n3) (combine o1 w1)).

Lemma strips_sum els thr s s0 s1 : 0 < thr -> s = els / (2*thr) ->
  distribute thr s (els - s*(2*thr)) = (s0, s1) -> sum s0 + sum s1 = els.
Proof.
  intros Ht -> E. apply distribute_inv in E; auto. destruct E as (_&_&_&_&->).
  assert (els / (2*thr) * (2*thr) <= els); [|nia].
  rewrite Nat.mul_comm. apply Nat.mul_div_le. lia.
Qed.

Lemma combine_len_eq {A B} (a : list A) (b : list B) n : length a = n -> length b = n ->
  length (combine a b) = n.
Proof. intros. rewrite combine_length. lia. Qed.

Lemma calcGroups3_striped d maxthr n1 n2 n3 m : d <> NONE ->
  striped (calcGroups3 (fresh d) maxthr n1 n2 n3 m) maxthr n1 n2 n3 m.
Proof.
  intros Hd. unfold calcGroups3.
  set (sd := if is_ANY (stripDir (fresh d)) then _ else _).
  assert (Hsd : UVW sd).
  { unfold sd, fresh; cbn [stripDir]. destruct d; simpl; try apply gsd3; unfold UVW; auto. congruence. }
  cbv zeta. clearbody sd.
  set (els := if is_U sd then n1 else if is_V sd then n2 else n3).
  assert (Hels : els = size_in sd n1 n2 n3).
  { unfold els. destruct Hsd as [-> | [-> | ->]]; reflexivity. }
  destruct (reduceThreads maxthr m els) as [thr s] eqn:Er.
  destruct (Nat.eqb_spec thr 1) as [->|Hthr].
  - split; [exact Hsd|]. left. split; reflexivity.
  - destruct (reduceThreads_spec _ _ _ _ _ Er) as [[? ?]|(H1&H2&H3&H4)]; [lia|].
    destruct (Nat.ltb_spec 1 thr) as [_|]; [|lia].
    destruct (distribute thr s _) as [s0 s1] eqn:Ed.
    assert (Ht0 : 0 < thr) by lia; pose proof (strips_sum _ _ _ _ _ Ht0 H3 Ed) as Hsum.
    apply distribute_inv in Ed; [|lia]. destruct Ed as (L0&L1&F0&F1&_).
    destruct (offsets 0 s0 s1) as [o0 o1] eqn:Eo.
    pose proof (offsets_length 0 s0 s1 ltac:(lia)) as [P0 P1]. rewrite Eo in P0, P1. cbn [fst snd] in P0, P1.
    split; [exact Hsd|]. right. exists s0, s1, o0, o1. cbn [stripDir tg0 tg1 fresh].
    rewrite !appendGroups_fresh by (rewrite map_length; apply combine_len_eq; lia).
    repeat split; auto; try lia;
    (eapply Forall_impl; [|eassumption]; cbv beta; intros; lia).
Qed.

Lemma calcGroups2_striped d maxthr n1 n2 m : d = ANY \/ d = U \/ d = V ->
  striped (calcGroups2 (fresh d) maxthr n1 n2 m) maxthr n1 n2 1 m /\
  (stripDir (calcGroups2 (fresh d) maxthr n1 n2 m) = U \/
   stripDir (calcGroups2 (fresh d) maxthr n1 n2 m) = V).
Proof.
  intros Hd. unfold calcGroups2.
  set (sd := if is_ANY (stripDir (fresh d)) then _ else _).
  assert (Hsd : sd = U \/ sd = V).
  { unfold sd, fresh; cbn [stripDir]. destruct Hd as [-> | [-> | ->]]; simpl; try apply gsd2; auto. }
  cbv zeta. clearbody sd.
  set (els := if is_U sd then n1 else n2).
  assert (Hels : els = size_in sd n1 n2 1).
  { unfold els. destruct Hsd as [-> | ->]; reflexivity. }
  assert (Hu : UVW sd) by (unfold UVW; tauto).
  destruct (reduceThreads maxthr m els) as [thr s] eqn:Er.
  destruct (Nat.eqb_spec thr 1) as [->|Hthr].
  - split; [|exact Hsd]. split; [exact Hu|]. left. unfold oneGroup. cbn [tg0 tg1].
    rewrite Nat.mul_1_r. split; reflexivity.
  - destruct (reduceThreads_spec _ _ _ _ _ Er) as [[? ?]|(H1&H2&H3&H4)]; [lia|].
    destruct (Nat.ltb_spec 1 thr) as [_|]; [|lia].
    destruct (distribute thr s _) as [s0 s1] eqn:Ed.
    assert (Ht0 : 0 < thr) by lia; pose proof (strips_sum _ _ _ _ _ Ht0 H3 Ed) as Hsum.
    apply distribute_inv in Ed; [|lia]. destruct Ed as (L0&L1&F0&F1&_).
    destruct (offsets 0 s0 s1) as [o0 o1] eqn:Eo.
    pose proof (offsets_length 0 s0 s1 ltac:(lia)) as [P0 P1]. rewrite Eo in P0, P1. cbn [fst snd] in P0, P1.
    split; [|exact Hsd]. split; [exact Hu|]. right. exists s0, s1, o0, o1. cbn [stripDir tg0 tg1 fresh].
    rewrite !appendGroups_fresh by (rewrite map_length; apply combine_len_eq; lia).
    assert (Hmk : forall p : nat * nat,
      (let '(o, w) := p in
       box2 (o * (if is_U sd then 1 else n1)) (if is_U sd then w else n1) (if is_V sd then w else n2) n1) =
      strip3 sd n1 n2 1 p).
    { intros [o w]. unfold strip3. rewrite (box2_box3 _ _ _ _ n2).
      destruct Hsd as [-> | ->]; simpl; f_equal; lia. }
    rewrite !(map_ext _ _ Hmk).
    repeat split; auto; try lia;
    (eapply Forall_impl; [|eassumption]; cbv beta; intros; lia).
Qed.

Lemma coord_lt sd n1 n2 n3 e : UVW sd -> e < n1*n2*n3 -> coord sd n1 n2 e < size_in sd n1 n2 n3.
Proof.
  intros Hd He. destruct (elm_split _ _ _ _ He) as (x&y&z&Hx&Hy&Hz&->).
  destruct Hd as [-> | [-> | ->]]; [rewrite coord_U|rewrite coord_V|rewrite coord_W]; auto.
Qed.

Lemma count_seq n e : count_occ Nat.eq_dec (seq 0 n) e = Nat.b2n (e <? n).
Proof.
  apply count_occ_b; [apply seq_NoDup|]. rewrite in_seq. lia.
Qed.

Lemma striped_partition g maxthr n1 n2 n3 m : striped g maxthr n1 n2 n3 m ->
  Permutation (allElms g) (seq 0 (n1*n2*n3)).
Proof.
  intros [Hd H]. apply (Permutation_count_occ Nat.eq_dec). intros e. rewrite count_seq. unfold allElms.
  destruct H as [[-> ->]|(w0&w1&o0&o1&Hl&Hlen&Ho&Hs&F0&F1&->&->)].
  - simpl. rewrite !app_nil_r. apply count_seq.
  - rewrite core_count by (auto; lia). rewrite Hs.
    destruct (Nat.ltb_spec e (n1*n2*n3)) as [He|He]; [|reflexivity].
    pose proof (coord_lt _ _ _ _ _ Hd He). simpl. destruct (Nat.ltb_spec (coord (stripDir g) n1 n2 e) (size_in (stripDir g) n1 n2 n3)); simpl; lia.
Qed.

Lemma striped_sep g maxthr n1 n2 n3 m : striped g maxthr n1 n2 n3 m ->
  forall grp, grp = tg0 g \/ grp = tg1 g ->
  forall t1 t2 e1 e2, t1 <> t2 -> In e1 (nth t1 grp []) -> In e2 (nth t2 grp []) ->
  sep (size_in (stripDir g) n1 n2 n3) m (coord (stripDir g) n1 n2 e1) (coord (stripDir g) n1 n2 e2).
Proof.
  intros [Hd H] grp Hg t1 t2 e1 e2 Hne H1 H2.
  destruct H as [[E0 E1]|(w0&w1&o0&o1&Hl&Hlen&Ho&Hs&F0&F1&E0&E1)].
  - exfalso. rewrite E0, E1 in Hg.
    destruct Hg as [-> | ->]; destruct t1 as [|[|?]], t2 as [|[|?]]; simpl in *; try contradiction; lia.
  - rewrite E0, E1 in Hg. eapply core_sep; eauto.
Qed.

(** ** Masks of non-zero knot spans *)
Lemma countTrue_app a b : countTrue (a ++ b) = countTrue a + countTrue b.
Proof. unfold countTrue. rewrite filter_app, app_length. reflexivity. Qed.
Lemma countTrue_cons b l : countTrue (b :: l) = Nat.b2n b + countTrue l.
Proof. unfold countTrue. destruct b; reflexivity. Qed.
Lemma countTrue_le l : countTrue l <= length l.
Proof. unfold countTrue. induction l as [|[] l IH]; simpl; lia. Qed.

Lemma scan_spec need m w r : scan need m = Some (w, r) ->
  w <= length m /\ r = skipn w m /\ countTrue (firstn w m) = need.
Proof.
  revert need w r; induction m as [|b m IH]; intros [|need] w r; simpl;
  try (intros [= <- <-]; simpl; repeat split; auto; lia); try discriminate.
  destruct (scan (if b then need else S need) m) as [[w' r']|] eqn:E; [|discriminate].
  intros [= <- <-]. apply IH in E. destruct E as (H1&H2&H3). simpl. repeat split; auto; [lia|].
  rewrite countTrue_cons. destruct b; simpl; lia.
Qed.
Lemma scan_some need m : need <= countTrue m -> exists w r, scan need m = Some (w, r).
Proof.
  revert need; induction m as [|b m IH]; intros [|need] H; simpl; eauto.
  - unfold countTrue in H; simpl in H; lia.
  - rewrite countTrue_cons in H.
    destruct (IH (if b then need else S need)) as (w&r&->); [destruct b; simpl in *; lia|]. eauto.
Qed.

Lemma countTrue_split k m : countTrue m = countTrue (firstn k m) + countTrue (skipn k m).
Proof. rewrite <- countTrue_app, firstn_skipn. reflexivity. Qed.

Lemma skipn_skipn {A} (l : list A) a b : skipn a (skipn b l) = skipn (b+a) l.
Proof. revert l; induction b as [|b IH]; intros l; simpl; [reflexivity|]. destruct l; [apply skipn_nil|apply IH]. Qed.

(** main invariant of the scanning loop *)
Lemma scanStrips_spec M s0 : forall s1 offs m o0 o1 t0 t1,
  length s0 = length s1 -> m = skipn offs M -> offs <= length M ->
  scanStrips offs s0 s1 m = Some ((o0, o1), (t0, t1)) ->
  offsets offs t0 t1 = (o0, o1) /\ length t0 = length s0 /\ length t1 = length s0 /\
  offs + (sum t0 + sum t1) <= length M /\
  countTrue (skipn (offs + (sum t0 + sum t1)) M) + (sum s0 + sum s1) = countTrue m /\
  (forall t, t < length s0 ->
     countTrue (firstn (nth t t0 0) (skipn (nth t o0 0) M)) = nth t s0 0 /\
     countTrue (firstn (nth t t1 0) (skipn (nth t o1 0) M)) = nth t s1 0).
Proof.
  induction s0 as [|a s0 IH]; intros [|b s1] offs m o0 o1 t0 t1 Hl Hm Ho; cbn [length] in Hl; try lia; cbn [scanStrips].
  - intros [= <- <- <- <-]. simpl. rewrite !Nat.add_0_r. subst m. repeat split; auto; try lia.
  - destruct (scan a m) as [[z0 m1]|] eqn:E0; [|discriminate].
    destruct (scan b m1) as [[z1 m2]|] eqn:E1; [|discriminate].
    apply scan_spec in E0. destruct E0 as (A1&A2&A3).
    apply scan_spec in E1. destruct E1 as (B1&B2&B3).
    destruct (scanStrips (offs+z0+z1) s0 s1 m2) as [[[p0 p1] [q0 q1]]|] eqn:E; [|discriminate].
    intros [= <- <- <- <-].
    assert (Hm2 : m2 = skipn (offs+z0+z1) M) by (subst; rewrite !skipn_skipn; f_equal; lia).
    assert (Hm1 : m1 = skipn (offs+z0) M) by (subst; rewrite !skipn_skipn; f_equal; lia).
    clear A2 B2. subst m1 m m2. rewrite skipn_length in A1. rewrite skipn_length in B1.
    apply IH in E; try lia; [|reflexivity].
    destruct E as (F1&F2&F3&F4&F5&F6).
    cbn [sum fold_right]. fold (sum q0) (sum q1) (sum s0) (sum s1).
    repeat apply conj.
    + cbn [offsets]. rewrite F1. reflexivity.
    + simpl; lia.
    + simpl; lia.
    + lia.
    + replace (offs + (z0 + sum q0 + (z1 + sum q1))) with (offs + z0 + z1 + (sum q0 + sum q1)) by lia.
      pose proof (countTrue_split z0 (skipn offs M)) as C1. rewrite skipn_skipn, A3 in C1.
      pose proof (countTrue_split z1 (skipn (offs+z0) M)) as C2. rewrite skipn_skipn, B3 in C2.
      rewrite <- A3, <- B3 in *. lia.
    + intros [|t] Ht; cbn [nth]; [auto|]. apply F6. cbn [length] in Ht. lia.
Qed.

Lemma scanStrips_some M s0 : forall s1 offs,
  length s0 = length s1 -> sum s0 + sum s1 <= countTrue (skipn offs M) ->
  exists o0 o1 t0 t1, scanStrips offs s0 s1 (skipn offs M) = Some ((o0,o1),(t0,t1)).
Proof.
  induction s0 as [|a s0 IH]; intros [|b s1] offs Hl Hs; cbn [length] in Hl; try lia; cbn [scanStrips].
  - do 4 eexists. reflexivity.
  - cbn [sum fold_right] in Hs. fold (sum s0) (sum s1) in Hs.
    destruct (scan_some a (skipn offs M)) as (z0&m1&E0); [lia|]. rewrite E0.
    apply scan_spec in E0. destruct E0 as (A1&A2&A3).
    pose proof (countTrue_split z0 (skipn offs M)) as C1. rewrite A3 in C1. rewrite <- A2 in C1.
    destruct (scan_some b m1) as (z1&m2&E1); [lia|]. rewrite E1.
    apply scan_spec in E1. destruct E1 as (B1&B2&B3).
    pose proof (countTrue_split z1 m1) as C2. rewrite B3, <- B2 in C2.
    assert (Hm2 : m2 = skipn (offs+z0+z1) M) by (subst; rewrite !skipn_skipn; f_equal; lia).
    destruct (IH s1 (offs+z0+z1)) as (o0&o1&t0&t1&Ei); try lia; [rewrite <- Hm2; lia|].
    rewrite <- Hm2 in Ei. rewrite Ei.
    do 4 eexists. reflexivity.
Qed.

(** the shape of the result for the overloads with knot span flags *)
Definition stripedB (g : groups) (el1 el2 el3 : list bool) (m : nat) : Prop :=
  let n1 := length el1 in let n2 := length el2 in let n3 := length el3 in
  let M := mask_in (stripDir g) el1 el2 el3 in
  UVW (stripDir g) /\
  ((tg0 g = [seq 0 (n1*n2*n3)] /\ tg1 g = []) \/
   exists w0 w1 o0 o1,
     length w0 = length w1 /\ offsets 0 w0 w1 = (o0, o1) /\
     sum w0 + sum w1 <= length M /\ countTrue (skipn (sum w0 + sum w1) M) = 0 /\
     (forall t, t < length w0 ->
        m <= countTrue (firstn (nth t w0 0) (skipn (nth t o0 0) M)) /\
        m <= countTrue (firstn (nth t w1 0) (skipn (nth t o1 0) M))) /\
     tg0 g = map (strip3 (stripDir g) n1 n2 n3) (combine o0 w0) /\
     tg1 g = map (strip3 (stripDir g) n1 n2 n3) (combine o1 w1)).

Lemma calcGroupsB3_striped d maxthr el1 el2 el3 p1 p2 p3 : d <> NONE ->
  exists g, calcGroupsB3 (fresh d) maxthr el1 el2 el3 p1 p2 p3 = Some g /\
  stripedB g el1 el2 el3 (match stripDir g with U => p1 | V => p2 | _ => p3 end).
Proof.
  intros Hd. unfold calcGroupsB3.
  set (sd := if is_ANY (stripDir (fresh d)) then _ else _).
  assert (Hsd : UVW sd).
  { unfold sd, fresh; cbn [stripDir]. destruct d; simpl; try apply gsd3; unfold UVW; auto. congruence. }
  cbv zeta. clearbody sd.
  set (els := if is_U sd then countTrue el1 else if is_V sd then countTrue el2 else countTrue el3).
  set (M := if is_U sd then el1 else if is_V sd then el2 else el3).
  set (m := if is_U sd then p1 else if is_V sd then p2 else p3).
  assert (Hels : els = countTrue M). { unfold els, M. destruct (is_U sd), (is_V sd); reflexivity. }
  assert (HM : M = mask_in sd el1 el2 el3). { unfold M. destruct Hsd as [-> | [-> | ->]]; reflexivity. }
  assert (Hm : m = match sd with U => p1 | V => p2 | _ => p3 end). { unfold m. destruct Hsd as [-> | [-> | ->]]; reflexivity. }
  clearbody M els m.
  destruct (reduceThreads maxthr m els) as [thr s] eqn:Er.
  destruct (Nat.eqb_spec thr 1) as [->|Hthr].
  - eexists. split; [reflexivity|]. split; [exact Hsd|]. left. split; reflexivity.
  - destruct (reduceThreads_spec _ _ _ _ _ Er) as [[? ?]|(H1&H2&H3&H4)]; [lia|].
    destruct (Nat.ltb_spec 1 thr) as [_|]; [|lia].
    destruct (distribute thr s _) as [s0 s1] eqn:Ed.
    assert (Ht0 : 0 < thr) by lia; pose proof (strips_sum _ _ _ _ _ Ht0 H3 Ed) as Hsum.
    apply distribute_inv in Ed; [|lia]. destruct Ed as (L0&L1&F0&F1&_).
    destruct (scanStrips_some M s0 s1 0 ltac:(lia) ltac:(simpl; lia)) as (o0&o1&t0&t1&Es).
    simpl in Es. rewrite Es.
    apply (scanStrips_spec M) in Es; [|lia|reflexivity|lia]. destruct Es as (A1&A2&A3&A4&A5&A6).
    pose proof (offsets_length 0 t0 t1 ltac:(lia)) as [P0 P1]. rewrite A1 in P0, P1. cbn [fst snd] in P0, P1.
    eexists. split; [reflexivity|]. split; [exact Hsd|]. right. exists t0, t1, o0, o1. cbn [stripDir tg0 tg1 fresh].
    rewrite !appendGroups_fresh by (rewrite map_length; apply combine_len_eq; lia).
    rewrite <- HM, <- Hm. repeat apply conj; auto; try lia.
    + simpl in A5. lia.
    + intros t Ht. destruct (A6 t ltac:(lia)) as [-> ->].
      pose proof (nth_ge _ _ t F0 ltac:(lia)). pose proof (nth_ge _ _ t F1 ltac:(lia)). lia.
Qed.

Lemma calcGroupsB2_striped d maxthr el1 el2 p1 p2 : d = ANY \/ d = U \/ d = V ->
  exists g, calcGroupsB2 (fresh d) maxthr el1 el2 p1 p2 = Some g /\
  stripedB g el1 el2 [true] (match stripDir g with U => p1 | _ => p2 end) /\
  (stripDir g = U \/ stripDir g = V).
Proof.
  intros Hd. unfold calcGroupsB2.
  set (sd := if is_ANY (stripDir (fresh d)) then _ else _).
  assert (Hsd : sd = U \/ sd = V).
  { unfold sd, fresh; cbn [stripDir]. destruct Hd as [-> | [-> | ->]]; simpl; try apply gsd2; auto. }
  cbv zeta. clearbody sd.
  assert (Hu : UVW sd) by (unfold UVW; tauto).
  set (els := if is_U sd then countTrue el1 else countTrue el2).
  set (M := if is_U sd then el1 else el2).
  set (m := if is_U sd then p1 else p2).
  assert (Hels : els = countTrue M). { unfold els, M. destruct (is_U sd); reflexivity. }
  assert (HM : M = mask_in sd el1 el2 [true]). { unfold M. destruct Hsd as [-> | ->]; reflexivity. }
  assert (Hm : m = match sd with U => p1 | _ => p2 end). { unfold m. destruct Hsd as [-> | ->]; reflexivity. }
  clearbody M els m.
  destruct (reduceThreads maxthr m els) as [thr s] eqn:Er.
  destruct (Nat.eqb_spec thr 1) as [->|Hthr].
  - eexists. split; [reflexivity|]. split; [|exact Hsd]. split; [exact Hu|]. left.
    unfold oneGroup. cbn [tg0 tg1 length]. rewrite Nat.mul_1_r. split; reflexivity.
  - destruct (reduceThreads_spec _ _ _ _ _ Er) as [[? ?]|(H1&H2&H3&H4)]; [lia|].
    destruct (Nat.ltb_spec 1 thr) as [_|]; [|lia].
    destruct (distribute thr s _) as [s0 s1] eqn:Ed.
    assert (Ht0 : 0 < thr) by lia; pose proof (strips_sum _ _ _ _ _ Ht0 H3 Ed) as Hsum.
    apply distribute_inv in Ed; [|lia]. destruct Ed as (L0&L1&F0&F1&_).
    destruct (scanStrips_some M s0 s1 0 ltac:(lia) ltac:(simpl; lia)) as (o0&o1&t0&t1&Es).
    simpl in Es. rewrite Es.
    apply (scanStrips_spec M) in Es; [|lia|reflexivity|lia]. destruct Es as (A1&A2&A3&A4&A5&A6).
    pose proof (offsets_length 0 t0 t1 ltac:(lia)) as [P0 P1]. rewrite A1 in P0, P1. cbn [fst snd] in P0, P1.
    eexists. split; [reflexivity|]. split; [|exact Hsd]. split; [exact Hu|]. right.
    exists t0, t1, o0, o1. cbn [stripDir tg0 tg1 fresh].
    rewrite !appendGroups_fresh by (rewrite map_length; apply combine_len_eq; lia).
    assert (Hmk : forall p : nat * nat,
      (let '(o, w) := p in
       box2 (o * (if is_U sd then 1 else length el1)) (if is_U sd then w else length el1)
            (if is_V sd then w else length el2) (length el1)) =
      strip3 sd (length el1) (length el2) (length [true]) p).
    { intros [o w]. unfold strip3. rewrite (box2_box3 _ _ _ _ (length el2)).
      destruct Hsd as [-> | ->]; simpl; f_equal; lia. }
    rewrite !(map_ext _ _ Hmk).
    rewrite <- HM, <- Hm. repeat apply conj; auto; try lia.
    + simpl in A5. lia.
    + intros t Ht. destruct (A6 t ltac:(lia)) as [-> ->].
      pose proof (nth_ge _ _ t F0 ltac:(lia)). pose proof (nth_ge _ _ t F1 ltac:(lia)). lia.
Qed.

Lemma mask_size sd el1 el2 el3 : UVW sd ->
  length (mask_in sd el1 el2 el3) = size_in sd (length el1) (length el2) (length el3).
Proof. intros [-> | [-> | ->]]; reflexivity. Qed.

Lemma countTrue_0_nth l i : countTrue l = 0 -> nth i l false = false.
Proof.
  revert i; induction l as [|b l IH]; intros [|i] H; simpl; auto; rewrite countTrue_cons in H.
  - destruct b; simpl in H; [lia|auto].
  - apply IH. lia.
Qed.
Lemma nth_skipn {A} (l : list A) k i d : nth i (skipn k l) d = nth (k+i) l d.
Proof. revert l; induction k as [|k IH]; intros l; simpl; [reflexivity|]. destruct l; [destruct i; reflexivity|apply IH]. Qed.

Lemma stripedB_count g el1 el2 el3 m : stripedB g el1 el2 el3 m ->
  (forall e, count_occ Nat.eq_dec (allElms g) e <= 1) /\
  (forall e, In e (allElms g) -> e < length el1 * length el2 * length el3) /\
  (forall e, e < length el1 * length el2 * length el3 ->
     nth (coord (stripDir g) (length el1) (length el2) e) (mask_in (stripDir g) el1 el2 el3) false = true ->
     count_occ Nat.eq_dec (allElms g) e = 1).
Proof.
  intros [Hd H]. unfold allElms.
  destruct H as [[-> ->]|(w0&w1&o0&o1&Hlen&Ho&Hs&Hc&Hw&->&->)].
  - simpl. rewrite !app_nil_r. repeat split.
    + intros e. rewrite count_seq. destruct (_ <? _); simpl; lia.
    + intros e. rewrite in_seq. lia.
    + intros e He _. rewrite count_seq. destruct (Nat.ltb_spec e (length el1 * length el2 * length el3)); simpl; lia.
  - assert (Hs' : sum w0 + sum w1 <= size_in (stripDir g) (length el1) (length el2) (length el3)).
    { rewrite <- mask_size by auto. exact Hs. }
    repeat split.
    + intros e. rewrite core_count by auto. destruct (_ && _); simpl; lia.
    + intros e He. apply (count_occ_In Nat.eq_dec) in He. rewrite core_count in He by auto.
      destruct (Nat.ltb_spec e (length el1 * length el2 * length el3)); simpl in He; lia.
    + intros e He Ht. rewrite core_count by auto.
      destruct (Nat.ltb_spec e (length el1 * length el2 * length el3)); [|lia].
      destruct (Nat.ltb_spec (coord (stripDir g) (length el1) (length el2) e) (sum w0 + sum w1)) as [|Hge]; [reflexivity|].
      exfalso. pose proof (countTrue_0_nth _ (coord (stripDir g) (length el1) (length el2) e - (sum w0 + sum w1)) Hc) as Hn.
      rewrite nth_skipn in Hn. 
      replace (sum w0 + sum w1 + (coord (stripDir g) (length el1) (length el2) e - (sum w0 + sum w1)))
        with (coord (stripDir g) (length el1) (length el2) e) in Hn by lia. congruence.
Qed.

Lemma countTrue_sub M o w c1 c2 : c1 < o -> o + w <= c2 ->
  countTrue (firstn w (skipn o M)) <= nonzero_between M c1 c2.
Proof.
  intros H1 H2. unfold nonzero_between.
  rewrite (countTrue_split (o - S c1) (firstn _ (skipn (S c1) M))).
  rewrite skipn_firstn_comm, skipn_skipn.
  replace (S c1 + (o - S c1)) with o by lia.
  rewrite (countTrue_split w (firstn (c2 - S c1 - (o - S c1)) (skipn o M))).
  rewrite (firstn_firstn (skipn o M)). replace (Nat.min w (c2 - S c1 - (o - S c1))) with w by lia. lia.
Qed.

Lemma stripedB_sep g el1 el2 el3 m : stripedB g el1 el2 el3 m ->
  let n1 := length el1 in let n2 := length el2 in
  forall grp, grp = tg0 g \/ grp = tg1 g ->
  forall t1 t2 e1 e2, t1 <> t2 -> In e1 (nth t1 grp []) -> In e2 (nth t2 grp []) ->
  let c1 := coord (stripDir g) n1 n2 e1 in let c2 := coord (stripDir g) n1 n2 e2 in
  c1 <> c2 /\ m <= nonzero_between (mask_in (stripDir g) el1 el2 el3) (Nat.min c1 c2) (Nat.max c1 c2).
Proof.
  intros [Hd H] n1 n2 grp Hg.
  destruct H as [[E0 E1]|(w0&w1&o0&o1&Hlen&Ho&Hs&Hc&Hw&E0&E1)].
  - intros t1 t2 e1 e2 Hne H1 H2. exfalso. rewrite E0, E1 in Hg.
    destruct Hg as [-> | ->]; destruct t1 as [|[|?]], t2 as [|[|?]]; simpl in *; try contradiction; lia.
  - assert (Hs' : sum w0 + sum w1 <= size_in (stripDir g) (length el1) (length el2) (length el3)).
    { rewrite <- mask_size by auto. exact Hs. }
    assert (Hlt : forall t1 t2 e1 e2, t1 < t2 -> In e1 (nth t1 grp []) -> In e2 (nth t2 grp []) ->
       coord (stripDir g) n1 n2 e1 < coord (stripDir g) n1 n2 e2 /\
       m <= nonzero_between (mask_in (stripDir g) el1 el2 el3) (coord (stripDir g) n1 n2 e1) (coord (stripDir g) n1 n2 e2)).
    { intros t1 t2 e1 e2 Ht H1 H2.
      destruct (core_len (stripDir g) (length el1) (length el2) (length el3) w0 w1 o0 o1 Hlen Ho Hs') as [L0 L1].
      assert (Hl : length grp = length w0) by (destruct Hg as [Hg|Hg]; rewrite Hg, ?E0, ?E1; auto).
      assert (T2 : t2 < length w0).
      { destruct (Nat.lt_ge_cases t2 (length grp)) as [?|Hge]; [lia|].
        rewrite nth_overflow in H2 by lia. destruct H2. }
      assert (T1 : t1 < length w0) by lia.
      destruct (Hw t1 T1) as [_ W1]. destruct (Hw (S t1) ltac:(lia)) as [W0 _].
      destruct (offsets_nth 0 w0 w1 t1 Hlen T1) as [Q0 Q1].
      destruct (offsets_nth 0 w0 w1 (S t1) Hlen ltac:(lia)) as [R0 R1].
      rewrite Ho in Q0, Q1, R0, R1. cbn [fst snd] in Q0, Q1, R0, R1.
      pose proof (before_step w0 w1 Hlen t1 (S t1) ltac:(lia) ltac:(lia)) as Hb1.
      assert (Hb2 : before w0 w1 (S t1) <= before w0 w1 t2).
      { unfold before. pose proof (sum_firstn_mono w0 (S t1) t2 ltac:(lia)).
        pose proof (sum_firstn_mono w1 (S t1) t2 ltac:(lia)). lia. }
      assert (Hb2' : S t1 = t2 \/ before w0 w1 (S t1) + nth (S t1) w0 0 <= before w0 w1 t2).
      { destruct (Nat.eq_dec (S t1) t2); [auto|right].
        pose proof (before_step w0 w1 Hlen (S t1) t2 ltac:(lia) ltac:(lia)). lia. }
      destruct Hg as [-> | ->]; rewrite ?E0, ?E1 in *.
      - destruct (core_nth0 _ _ _ _ w0 w1 o0 o1 Hd Hlen Ho Hs' t1 e1 T1 H1) as [_ C1].
        destruct (core_nth0 _ _ _ _ w0 w1 o0 o1 Hd Hlen Ho Hs' t2 e2 T2 H2) as [_ C2].
        fold n1 n2 in C1, C2. split; [lia|].
        eapply Nat.le_trans; [exact W1|]. apply countTrue_sub; rewrite Q1; lia.
      - destruct (core_nth1 _ _ _ _ w0 w1 o0 o1 Hd Hlen Ho Hs' t1 e1 T1 H1) as [_ C1].
        destruct (core_nth1 _ _ _ _ w0 w1 o0 o1 Hd Hlen Ho Hs' t2 e2 T2 H2) as [_ C2].
        fold n1 n2 in C1, C2. split; [lia|].
        eapply Nat.le_trans; [exact W0|]. apply countTrue_sub; rewrite R0; [lia|].
        destruct Hb2' as [<-|]; lia. }
    intros t1 t2 e1 e2 Hne H1 H2. cbv zeta.
    destruct (Nat.lt_ge_cases t1 t2) as [L|L].
    + destruct (Hlt t1 t2 e1 e2 L H1 H2) as [Q1 Q2].
      rewrite Nat.min_l, Nat.max_r by lia. split; [lia|auto].
    + destruct (Hlt t2 t1 e2 e1 ltac:(lia) H2 H1) as [Q1 Q2].
      rewrite Nat.min_r, Nat.max_l by lia. split; [lia|auto].
Qed.
