(** Proofs about the Runge-Kutta methods. *)
From Coq Require Import QArith Reals Qreals List Bool Lia Lra FunctionalExtensionality.
From Verif Require Import Tin_model Tin_spec.
Import ListNotations.

(** * The conditions of order, by all trees up to a size. *)
Fixpoint gen (N n : nat) : list tree :=
  match n with
  | O => []
  | S k => let g := gen N k in
           Dot :: filter (fun t => Nat.leb (size t) N) (flat_map (fun t => map (Graft t) g) g)
  end.
Lemma size_pos t : (1 <= size t)%nat.
Proof. induction t; simpl; lia. Qed.
Lemma gen_all N n t : (size t <= N)%nat -> (size t <= n)%nat -> In t (gen N n).
Proof.
  revert t. induction n as [|n IH]; intros t HN Hn.
  - pose proof (size_pos t). lia.
  - destruct t as [|t s]; cbn [gen]; [left; reflexivity|right].
    simpl in HN, Hn. pose proof (size_pos t). pose proof (size_pos s).
    apply filter_In. split; [|simpl; apply Nat.leb_le; lia].
    apply in_flat_map. exists t. split; [apply IH; lia|].
    apply in_map. apply IH; lia.
Qed.
(** The weights with reduced fractions. *)
Fixpoint sumQr (n : nat) (f : nat -> Q) : Q := match n with O => 0%Q | S m => Qred (sumQr m f + f m)%Q end.
Fixpoint phir (s : nat) (A : nat -> nat -> Q) (t : tree) (i : nat) : Q :=
  match t with
  | Dot => 1%Q
  | Graft t u => Qred (phir s A t i * sumQr s (fun j => if Qeq_bool (A i (S j)) 0 then 0%Q else A i (S j) * phir s A u (S j)))%Q
  end.
Lemma sumQr_eq n f g : (forall i, f i == g i)%Q -> (sumQr n f == sumQ n g)%Q.
Proof.
  intros H. induction n as [|n IH]; cbn [sumQr sumQ]; [reflexivity|].
  rewrite Qred_correct, IH, H. reflexivity.
Qed.
Lemma phir_eq s A t : forall i, (phir s A t i == phi s A t i)%Q.
Proof.
  induction t as [|t IHt u IHu]; intro i; cbn [phir phi]; [reflexivity|].
  rewrite Qred_correct, IHt. apply Qmult_comp; [reflexivity|].
  apply sumQr_eq. intro j. destruct (Qeq_bool (A i (S j)) 0) eqn:E.
  - apply Qeq_bool_eq in E. rewrite E. ring.
  - rewrite IHu. reflexivity.
Qed.
Definition cond (T : tableau) (b : list Q) (t : tree) : bool :=
  Qeq_bool (sumQr (length b) (fun i => if Qeq_bool (nth i b 0) 0 then 0 else nth i b 0 * phir (length b) (entry (tA T)) t (S i))%Q)
           (1 / inject_Z (Z.of_nat (density t)))%Q.
Lemma cond_eq T b t :
  (sumQr (length b) (fun i => if Qeq_bool (nth i b 0) 0 then 0 else nth i b 0 * phir (length b) (entry (tA T)) t (S i)) ==
   sumQ (length b) (fun i => nth i b 0 * phi (length b) (entry (tA T)) t (S i)))%Q.
Proof.
  apply sumQr_eq. intro i. destruct (Qeq_bool (nth i b 0) 0) eqn:E.
  - apply Qeq_bool_eq in E. rewrite E. ring.
  - rewrite phir_eq. reflexivity.
Qed.
Lemma order_check p T b : forallb (cond T b) (gen p p) = true -> has_order p T b.
Proof.
  intros H t Ht. rewrite forallb_forall in H.
  specialize (H t (gen_all p p t Ht Ht)). apply Qeq_bool_eq in H. rewrite cond_eq in H. exact H.
Qed.
Lemma order_refute p T b t : (size t <= p)%nat -> cond T b t = false -> ~ has_order p T b.
Proof.
  intros Ht Hc H. specialize (H t Ht). rewrite <- cond_eq in H. apply Qeq_bool_iff in H. unfold cond in Hc.
  rewrite H in Hc. discriminate.
Qed.

(** * The stages. *)
Local Open Scope R_scope.

Lemma stageState_eq T dt st i j todo tmp d :
  stageState T dt st i j todo tmp d =
  tmp d + dt * sumR todo (fun r => Q2R (entry (tA T) (S i) (S (j + r))) * nthV st (j + r) d).
Proof.
  revert j tmp. induction todo as [|r IH]; intros j tmp; cbn [stageState sumR].
  - lra.
  - rewrite IH. unfold vadd.
    assert (E : forall n (g : nat -> R), sumR (S n) g = g O + sumR n (fun x => g (S x))).
    { induction n as [|n IHn]; intros g; cbn [sumR] in *; [lra|]. rewrite IHn. lra. }
    change (sumR r (fun r0 => Q2R (entry (tA T) (S i) (S (j + r0))) * nthV st (j + r0) d)
      + Q2R (entry (tA T) (S i) (S (j + r))) * nthV st (j + r) d)
     with (sumR (S r) (fun r0 => Q2R (entry (tA T) (S i) (S (j + r0))) * nthV st (j + r0) d)).
    rewrite E. replace (j + 0)%nat with j by lia.
    replace (sumR r (fun x => Q2R (entry (tA T) (S i) (S (j + S x))) * nthV st (j + S x) d))
      with (sumR r (fun r0 => Q2R (entry (tA T) (S i) (S (S j + r0))) * nthV st (S j + r0) d)).
    + ring.
    + f_equal. apply functional_extensionality. intro x.
      replace (j + S x)%nat with (S j + x)%nat by lia. reflexivity.
Qed.

Lemma sumR_ext n f g : (forall i, (i < n)%nat -> f i = g i) -> sumR n f = sumR n g.
Proof. induction n as [|n IH]; intros H; cbn [sumR]; [reflexivity|]. rewrite IH by (intros; apply H; lia). rewrite (H n) by lia. reflexivity. Qed.
Lemma sumR_trunc n m f : (n <= m)%nat -> (forall i, (n <= i < m)%nat -> f i = 0) -> sumR m f = sumR n f.
Proof.
  induction m as [|m IH]; intros Hn H.
  - replace n with O by lia. reflexivity.
  - destruct (Nat.eq_dec n (S m)) as [->|]; [reflexivity|].
    cbn [sumR]. rewrite IH by (try lia; intros; apply H; lia). rewrite (H m) by lia. lra.
Qed.

Lemma weighted_eq b dt st u d : length st = length b ->
  weighted b dt st u d = u d + dt * sumR (length b) (fun i => Q2R (nth i b 0%Q) * nthV st i d).
Proof.
  revert st u. induction b as [|q b IH]; intros [|k st] u Hl; simpl in Hl; try discriminate.
  - cbn [weighted sumR length]. lra.
  - cbn [weighted]. rewrite IH by lia. unfold vadd.
    assert (E : forall n (g : nat -> R), sumR (S n) g = g O + sumR n (fun x => g (S x))).
    { induction n as [|n IHn]; intros g; cbn [sumR] in *; [lra|]. rewrite IHn. lra. }
    cbn [length]. rewrite E. cbn [nth nthV]. unfold nthV. cbn [nth]. ring.
Qed.

Lemma nthV_app1 a b i : (i < length a)%nat -> nthV (a ++ b) i = nthV a i.
Proof. intros. unfold nthV. apply app_nth1. assumption. Qed.

Section Run.
Variable f : R -> V -> V.
Variable bc : R -> V -> V.
Variable lin : bool.
Let solve := fun t v => Some (f t v).
Definition stime (T : tableau) (t dt : R) (i : nat) := t + dt * (Q2R (nth i (tc T) 0%Q) - 1).

Lemma stageLoop_ok T u t dt step todo : forall lhs i st,
  length st = i ->
  (lin = true -> lhs = true \/ (step = 1 /\ i = 0)%nat) ->
  exists st', stageLoop solve bc lin T u t dt step lhs i todo st
     = Ok (st ++ st', match todo with O => lhs | S _ => true end) /\ length st' = todo /\
    forall m, (i <= m < i + todo)%nat ->
      nthV (st ++ st') m = f (stime T t dt m) (bc (stime T t dt m) (stageState T dt (st ++ st') m 0 m u)).
Proof.
  induction todo as [|r IH]; intros lhs i st Hl Hlin; cbn [stageLoop].
  - exists []. rewrite app_nil_r. split; [reflexivity|]. split; [reflexivity|]. intros; lia.
  - assert (E : lhs || (negb lin || ((step =? 1)%nat && (i =? 0)%nat)) = true).
    { destruct lin; [|destruct lhs; reflexivity]. destruct (Hlin eq_refl) as [-> | [-> ->]]; [reflexivity|].
      destruct lhs; reflexivity. }
    rewrite E. cbn [negb]. unfold solve at 1.
    fold (stime T t dt i).
    set (k := f (stime T t dt i) (bc (stime T t dt i) (stageState T dt st i 0 i u))).
    destruct (IH true (S i) (st ++ [k])) as (st' & H1 & H2 & H3).
    { rewrite app_length. simpl. lia. }
    { intros; left; reflexivity. }
    exists (k :: st'). rewrite <- app_assoc in H1, H3. cbn [app] in H1, H3.
    split; [|split].
    + rewrite H1. destruct r; reflexivity.
    + simpl. lia.
    + intros m Hm. destruct (Nat.eq_dec m i) as [->|].
      * assert (Es : stageState T dt (st ++ k :: st') i 0 i u = stageState T dt st i 0 i u).
        { apply functional_extensionality. intro d. rewrite !stageState_eq. f_equal. f_equal.
          apply sumR_ext. intros q Hq. simpl. rewrite nthV_app1 by lia. reflexivity. }
        rewrite Es. unfold nthV at 1. rewrite app_nth2 by lia. rewrite Hl, Nat.sub_diag. reflexivity.
      * apply H3. lia.
Qed.

Lemma solveRK_ok T u t dt step lhs :
  explicit T ->
  (lin = true -> lhs = true \/ step = 1%nat) ->
  exists st, solveRK solve bc lin T u t dt step lhs
     = Ok (bc t (weighted (tb T) dt st u), st, match tb T with [] => lhs | _ => true end) /\
   length st = length (tb T) /\
   (forall i, (i < length (tb T))%nat ->
       nthV st i = f (t - dt + Q2R (nth i (tc T) 0%Q) * dt)
               (bc (t - dt + Q2R (nth i (tc T) 0%Q) * dt)
                  (fun d => u d + dt * sumR (length (tb T)) (fun j => Q2R (entry (tA T) (S i) (S j)) * nthV st j d)))).
Proof.
  intros He Hl.
  destruct (stageLoop_ok T u t dt step (length (tb T)) lhs 0 []) as (st & H1 & H2 & H3).
  { reflexivity. }
  { intros E. destruct (Hl E); [left; assumption|right; split; [assumption|reflexivity]]. }
  cbn [app] in *. exists st. split; [|split; [assumption|]].
  - unfold solveRK. rewrite H1. destruct (tb T); reflexivity.
  - intros i Hi. rewrite H3 by lia.
    assert (Et : stime T t dt i = t - dt + Q2R (nth i (tc T) 0%Q) * dt) by (unfold stime; ring).
    rewrite Et. f_equal. f_equal. apply functional_extensionality. intro d.
    rewrite stageState_eq. f_equal. f_equal. symmetry. apply sumR_trunc; [lia|].
    intros j Hj. assert (E0 : Q2R (entry (tA T) (S i) (S j)) = 0).
    { rewrite (Qeq_eqR _ 0%Q). { unfold Q2R; simpl; lra. } apply He; lia. }
    simpl. rewrite E0. ring.
Qed.

Lemma solveRK_step T u t dt step lhs :
  explicit T ->
  (lin = true -> lhs = true \/ step = 1%nat) ->
  exists st u', solveRK solve bc lin T u t dt step lhs
     = Ok (u', st, match tb T with [] => lhs | _ => true end) /\
     is_rk_step T f bc u (t - dt) dt u' /\
     (forall bs, length bs = length (tb T) -> is_rk_pair T bs f bc u (t - dt) dt u' (bc t (weighted bs dt st u))).
Proof.
  intros He Hl. destruct (solveRK_ok T u t dt step lhs He Hl) as (st & H1 & H2 & H3).
  exists st, (bc t (weighted (tb T) dt st u)). split; [exact H1|].
  assert (Eu : bc t (weighted (tb T) dt st u) = bc (t - dt + dt) (fun d => u d + dt * sumR (length (tb T)) (fun i => Q2R (nth i (tb T) 0%Q) * nthV st i d))).
  { replace (t - dt + dt) with t by ring. f_equal. apply functional_extensionality. intro d.
    apply weighted_eq. exact H2. }
  split.
  - exists (nthV st). split; assumption.
  - intros bs Hb. exists (nthV st). split; [assumption|]. split; [assumption|].
    replace (t - dt + dt) with t by ring. f_equal. apply functional_extensionality. intro d.
    rewrite weighted_eq by congruence. rewrite Hb. reflexivity.
Qed.
End Run.

Lemma rk_stage_unique T (f bc : R -> V -> V) (u : V) t0 h (k k' : nat -> V) :
  explicit T ->
  (forall i, (i < length (tb T))%nat ->
       k i = f (t0 + Q2R (nth i (tc T) 0%Q) * h)
               (bc (t0 + Q2R (nth i (tc T) 0%Q) * h)
                  (fun d => u d + h * sumR (length (tb T)) (fun j => Q2R (entry (tA T) (S i) (S j)) * k j d)))) ->
  (forall i, (i < length (tb T))%nat ->
       k' i = f (t0 + Q2R (nth i (tc T) 0%Q) * h)
               (bc (t0 + Q2R (nth i (tc T) 0%Q) * h)
                  (fun d => u d + h * sumR (length (tb T)) (fun j => Q2R (entry (tA T) (S i) (S j)) * k' j d)))) ->
  forall i, (i < length (tb T))%nat -> k i = k' i :> V.
Proof.
  intros He Hk Hk'. induction i as [i IH] using (well_founded_induction Nat.lt_wf_0). intros Hi.
  rewrite Hk, Hk' by assumption. f_equal. f_equal. apply functional_extensionality. intro d.
  f_equal. f_equal. apply sumR_ext. intros j Hj.
  destruct (Nat.lt_ge_cases j i) as [Hji|Hji].
  - rewrite IH by assumption. reflexivity.
  - assert (E0 : Q2R (entry (tA T) (S i) (S j)) = 0).
    { rewrite (Qeq_eqR _ 0%Q). { unfold Q2R; simpl; lra. } apply He; lia. }
    rewrite E0. ring.
Qed.
Lemma rk_unique T f bc u t0 h v w :
  explicit T -> is_rk_step T f bc u t0 h v -> is_rk_step T f bc u t0 h w -> v = w.
Proof.
  intros He (k & Hk & ->) (k' & Hk' & ->). f_equal. apply functional_extensionality. intro d.
  f_equal. f_equal. apply sumR_ext. intros j Hj.
  rewrite (rk_stage_unique T f bc u t0 h k k' He Hk Hk' j Hj). reflexivity.
Qed.

(** * The loop of the embedded methods. *)
Section Loop.
Variable f : R -> V -> V.
Variable bc : R -> V -> V.
Variable lin : bool.
Variable norm : V -> R.
Variables (dtMin fac tol : R).
Let solve := fun t v => Some (f t v).

Lemma cutback_spec t dt t1 dt1 : 0 < dt -> 0 < fac < 1 ->
  cutback dtMin fac t dt = Some (t1, dt1) ->
  t1 - dt1 = t - dt /\ 0 < dt1 < dt /\ dtMin <= dt1 /\ (dt1 = dt * fac \/ dt1 = dtMin).
Proof.
  intros Hp Hf Ec. unfold cutback in Ec. destruct (Rle_dec dt dtMin) as [|Hnm]; [discriminate|].
  assert (0 < dt * fac) by (apply Rmult_lt_0_compat; lra).
  assert (dt * fac < dt * 1) by (apply Rmult_lt_compat_l; lra).
  destruct (Rlt_dec (dt * fac) dtMin) as [Hlt|Hge]; injection Ec as <- <-.
  - repeat split; try lra; right; reflexivity.
  - repeat split; try lra; left; reflexivity.
Qed.

Lemma rkeLoop_inv T bs prev step t0 h0 : explicit T -> tb T <> [] -> length bs = length (tb T) -> 0 < fac < 1 ->
  forall fuel u st t dt est u' t' dt' est',
  t - dt = t0 -> 0 < dt <= h0 -> (dt = h0 \/ dtMin <= dt) ->
  is_rk_pair T bs f bc prev t0 dt u (bc t (weighted bs dt st prev)) ->
  (est <= tol -> est = 1 /\ dt = h0) ->
  rkeLoop solve bc lin norm dtMin fac tol fuel T bs prev step true u st t dt est = Some (Ok (u', t', dt', est')) ->
  exists v', t' - dt' = t0 /\ 0 < dt' <= h0 /\ (dt' = h0 \/ dtMin <= dt') /\
     is_rk_pair T bs f bc prev t0 dt' u' v' /\ est' <= tol /\
     (est' = norm (vadd v' u' (-1)) \/ (est' = 1 /\ dt' = h0 /\ est <= tol)).
Proof.
  intros He Hne Hb Hf. induction fuel as [|fuel IH]; intros u st t dt est u' t' dt' est' Ht Hd Hm Hp Hest H.
  - discriminate.
  - cbn [rkeLoop] in H. destruct (Rle_dec est tol) as [Hle|Hgt].
    + injection H as <- <- <- <-. exists (bc t (weighted bs dt st prev)).
      split; [assumption|]. split; [assumption|]. split; [assumption|]. split; [assumption|]. split; [assumption|].
      destruct (Hest Hle) as [-> ->]; right; auto.
    + destruct (Rle_dec (norm (vadd (bc t (weighted bs dt st prev)) u (-1))) tol) as [Hle|Hgt2].
      * destruct fuel as [|fuel]; [discriminate H|].
        cbn [rkeLoop] in H. destruct (Rle_dec (norm (vadd (bc t (weighted bs dt st prev)) u (-1))) tol) as [_|C]; [|contradiction].
        injection H as <- <- <- <-. exists (bc t (weighted bs dt st prev)).
        repeat (split; [assumption|]). left; reflexivity.
      * destruct (cutback dtMin fac t dt) as [[t1 dt1]|] eqn:Ec; [|discriminate].
        destruct (cutback_spec t dt t1 dt1 (proj1 Hd) Hf Ec) as (C1 & C2 & C3 & C4).
        destruct (solveRK_step f bc lin T prev t1 dt1 step true He (fun _ => or_introl eq_refl)) as (st1 & u1 & S1 & S2 & S3).
        unfold solve in H. rewrite S1 in H. fold solve in H.
        assert (El : match tb T with [] => true | _ :: _ => true end = true) by (destruct (tb T); reflexivity).
        rewrite El in H.
        set (est1 := norm (vadd (bc t (weighted bs dt st prev)) u (-1))) in *.
        destruct (IH u1 st1 t1 dt1 est1 u' t' dt' est' ltac:(lra) ltac:(lra) (or_intror C3)) as (v' & A1 & A2 & A3 & A4 & A5 & A6).
        { specialize (S3 bs Hb). replace (t1 - dt1) with t0 in S3 by lra. exact S3. }
        { intros; lra. }
        { exact H. }
        exists v'. repeat (split; [assumption|]). destruct A6 as [A6|(A6 & A7 & A8)]; [left; assumption|].
        exfalso. lra.
Qed.
End Loop.

Section Term.
Variable solve : R -> V -> option V.
Variable bc : R -> V -> V.
Variable lin : bool.
Variable norm : V -> R.
Variables (dtMin fac tol : R).

Lemma rkeLoop_term T bs prev step : 0 < fac < 1 -> 
  forall N lhs u st t dt est, 0 < dt -> dt * fac ^ N <= dtMin ->
  rkeLoop solve bc lin norm dtMin fac tol (N + 2) T bs prev step lhs u st t dt est <> None.
Proof.
  intros Hf. induction N as [|N IH]; intros lhs u st t dt est Hp Hd.
  - cbn [plus rkeLoop]. destruct (Rle_dec est tol); [discriminate|].
    set (e := norm _). destruct (Rle_dec e tol) as [Hle|Hgt].
    + destruct (Rle_dec e tol); [discriminate|contradiction].
    + unfold cutback. destruct (Rle_dec dt dtMin); [discriminate|]. simpl in Hd. lra.
  - replace (S N + 2)%nat with (S (N + 2)) by lia. cbn [rkeLoop].
    destruct (Rle_dec est tol); [discriminate|].
    set (e := norm _). destruct (Rle_dec e tol) as [Hle|Hgt].
    + replace (N + 2)%nat with (S (N + 1)) by lia. cbn [rkeLoop]. destruct (Rle_dec e tol); [discriminate|contradiction].
    + destruct (cutback dtMin fac t dt) as [[t1 dt1]|] eqn:Ec; [|discriminate].
      destruct (cutback_spec dtMin fac t dt t1 dt1 Hp Hf Ec) as (C1 & C2 & C3 & C4).
      destruct (solveRK solve bc lin T prev t1 dt1 step lhs) as [[[u1 st1] l1]| |]; try discriminate.
      apply IH; [lra|]. destruct C4 as [-> | ->].
      * simpl in Hd. lra.
      * assert (0 < fac ^ N <= 1).
        { split; [apply pow_lt; lra|]. clear - Hf. induction N as [|N IHN]; simpl; [lra|].
          assert (0 < fac ^ N) by (apply pow_lt; lra).
          assert (fac * fac ^ N <= 1 * fac ^ N) by (apply Rmult_le_compat_r; lra). lra. }
        assert (dtMin * fac ^ N <= dtMin * 1) by (apply Rmult_le_compat_l; lra). lra.
Qed.

Lemma rkeLoop_mono T bs prev step k : forall fuel lhs u st t dt est r,
  rkeLoop solve bc lin norm dtMin fac tol fuel T bs prev step lhs u st t dt est = Some r ->
  rkeLoop solve bc lin norm dtMin fac tol (fuel + k) T bs prev step lhs u st t dt est = Some r.
Proof.
  induction fuel as [|fuel IH]; intros lhs u st t dt est r H; [discriminate|].
  cbn [plus rkeLoop] in *. destruct (Rle_dec est tol); [assumption|].
  destruct (Rle_dec _ tol); [apply IH; assumption|].
  destruct (cutback dtMin fac t dt) as [[t1 dt1]|]; [|assumption].
  destruct (solveRK solve bc lin T prev t1 dt1 step lhs) as [[[u1 st1] l1]| |]; try assumption.
  apply IH; assumption.
Qed.

Lemma fac_pow dt : 0 < dtMin -> 0 < fac < 1 -> 0 < dt -> exists N, dt * fac ^ N <= dtMin.
Proof.
  intros Hm Hf Hd. destruct (pow_lt_1_zero fac) with (y := dtMin / dt) as (N & HN).
  - rewrite Rabs_right; lra.
  - apply Rdiv_lt_0_compat; lra.
  - exists N. specialize (HN N (Nat.le_refl _)). rewrite Rabs_right in HN by (left; apply pow_lt; lra).
    assert (dt * fac ^ N < dt * (dtMin / dt)) by (apply Rmult_lt_compat_l; lra).
    replace (dt * (dtMin / dt)) with dtMin in H by (field; lra). lra.
Qed.
End Term.
