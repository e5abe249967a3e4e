(** Proofs about the scalar functions of Functions.C: second derivatives, isZero, isConstant, points from files. *)
From Coq Require Import List Arith ZArith Bool Reals Lia Lra.
From Verif Require Import Lagr_model RPoly Fun_model Fun_spec Fun_proofs.
Import ListNotations.
Open Scope bool_scope.
Open Scope R_scope.

Local Arguments sf_eval : simpl never.
Local Arguments sf_deriv : simpl never.

(** ** second derivatives *)
Lemma fmul_none_r a : fmul a None = None.
Proof. destruct a; reflexivity. Qed.

Lemma simple_time_free g X s d : (match g with RConst _ | RLin _ _ _ | RQuad _ _ _ _ | RStepX _ _ _ _ | RStepXY _ _ _ _ _ | RStepXYZ _ _ _ _ => True | _ => False end) ->
  rf_deriv g (setc X 4 s) d = rf_deriv g X d.
Proof. destruct g; simpl; intros H; try contradiction; reflexivity. Qed.

Lemma simple_dderiv g X d1 d2 V : LegalDirs g -> (1 <= d1 <= 4)%nat -> (1 <= d2 <= 4)%nat -> (d2 = 4%nat -> at_ X <> None) ->
  (match g with RConst _ | RLin _ _ _ | RQuad _ _ _ _ | RStepX _ _ _ _ | RStepXY _ _ _ _ _ | RStepXYZ _ _ _ _ => True | _ => False end) ->
  Near (getc X d2) (fun s => rf_deriv g (setc X d2 s) d1 = Some (V s)) ->
  exists v, rf_dderiv g X d1 d2 = Some v /\ derivable_pt_lim V (getc X d2) v.
Proof.
  intros LD H1 H2 T Hg HV.
  destruct g as [c | h | g h | i a b | i mx a b | rX A x0 y0 | c x0 x1 i | c x0 y0 x1 y1 | c X0 X1 eps | pts i time]; try contradiction.
  - exists 0. split; [reflexivity |]. apply (dpl_const_near _ _ _ 0 HV). apply near_all. reflexivity.
  - exists 0. split; [reflexivity |]. simpl in HV. destruct (d1 =? i)%nat.
    + apply (dpl_const_near _ _ _ a HV). apply near_all. reflexivity.
    + apply (dpl_const_near _ _ _ 0 HV). apply near_all. reflexivity.
  - cbn [rf_dderiv]. cbn [rf_deriv] in HV. simpl in LD. destruct (Nat.eqb_spec d1 i) as [->|N]; simpl negb in *; cbv iota in *.
    + simpl orb. pose proof (near_at _ _ HV) as H0. cbv beta in H0. cbv zeta in H0. apply fdiv_inv in H0. destruct H0 as [N0 _].
      destruct (Nat.eqb_spec d2 i) as [->|N2]; simpl negb; cbv iota.
      * eexists. split; [apply fdiv_ok, N0 |].
        eapply (dpl_some _ _ (fun s => - mx * 2 / ((a - b) / 2 * ((a - b) / 2)) * s + mx * (a + b) / ((a - b) / 2 * ((a - b) / 2))) _ _ HV).
        -- apply near_all. intros s. rewrite coord_setc_same by lia. etransitivity; [apply fdiv_ok, N0 |]. f_equal. field.
           intros Q. apply N0. replace (a - b) with 0 by lra. lra.
        -- apply dpl_affine.
      * exists 0. split; [reflexivity |]. eapply (dpl_const_near _ _ _ _ HV). apply near_all. intros s.
        rewrite coord_setc_other by lia. apply fdiv_ok, N0.
    + exists 0. split; [reflexivity |]. apply (dpl_const_near _ _ _ 0 HV). apply near_all. reflexivity.
  - exists 0. split; [reflexivity |]. apply (dpl_const_near _ _ _ 0 HV). apply near_all. reflexivity.
  - exists 0. split; [reflexivity |]. apply (dpl_const_near _ _ _ 0 HV). apply near_all. reflexivity.
  - exists 0. split; [reflexivity |]. apply (dpl_const_near _ _ _ 0 HV). apply near_all. reflexivity.
Qed.

Lemma rf_dderiv_ok f X d1 d2 V : LegalDirs f -> (1 <= d1 <= 4)%nat -> (1 <= d2 <= 4)%nat -> (d1 = 4%nat \/ d2 = 4%nat -> at_ X <> None) ->
  Smooth2 f X d1 d2 -> Near (getc X d2) (fun s => rf_deriv f (setc X d2 s) d1 = Some (V s)) ->
  (d1 = 4%nat -> rf_eval f X <> None) ->
  exists v, rf_dderiv f X d1 d2 = Some v /\ derivable_pt_lim V (getc X d2) v.
Proof.
  intros LD H1 H2 T Sm HV NE.
  destruct f as [c | h | g h | i a b | i mx a b | rX A x0 y0 | c x0 x1 i | c x0 y0 x1 y1 | c X0 X1 eps | pts i time];
    try (apply simple_dderiv; auto; fail); try contradiction.
  - destruct Sm as (Hg & N44 & S1 & S2). simpl in LD. cbn [rf_dderiv]. cbn [rf_deriv] in HV.
    destruct (Nat.ltb_spec d1 4) as [L1|L1]; simpl andb in *; cbv iota in *.
    + destruct (Nat.ltb_spec d2 4) as [L2|L2].
      * assert (Et : forall s, tm (setc X d2 s) = tm X) by (intros; unfold tm; rewrite at_setc by lia; reflexivity).
        set (G := fun s => match rf_deriv g (setc X d2 s) d1 with Some a => a | None => 0 end).
        assert (HG : Near (getc X d2) (fun s => rf_deriv g (setc X d2 s) d1 = Some (G s))).
        { eapply near_imp; [| apply HV]. cbv beta. intros z E. apply fmul_inv in E. destruct E as (u & w & E1 & E2 & E3).
          unfold G. rewrite E1. reflexivity. }
        pose proof (near_at _ _ HV) as H0. cbv beta in H0. rewrite Et in H0. apply fmul_inv in H0.
        destruct H0 as (u & w & _ & Ew & _).
        destruct (simple_dderiv g X d1 d2 G LD H1 H2 ltac:(lia) Hg HG) as (v & Ev & Dv).
        rewrite Ev, Ew. eexists. split; [reflexivity |].
        apply dpl_near with (W := fun s => w * G s).
        { eapply near_imp; [| apply (near_and _ _ _ HV HG)]. cbv beta. intros z [E1 E2]. rewrite Et, Ew, E2 in E1.
          simpl in E1. injection E1 as E1. rewrite <- E1. ring. }
        apply dpl_val with (l := w * v); [ring |]. apply (derivable_pt_lim_scal G). exact Dv.
      * assert (d2 = 4)%nat by lia. subst d2. specialize (S2 eq_refl).
        set (H := fun s => match sf_eval h s with Some a => a | None => 0 end).
        assert (HH : Near (getc X 4) (fun s => sf_eval h s = Some (H s))).
        { eapply near_imp; [| apply HV]. cbv beta. intros z E. apply fmul_inv in E. destruct E as (u & w & E1 & E2 & E3).
          unfold H. unfold tm in E2. simpl in E2. rewrite E2. reflexivity. }
        destruct (sf_deriv_ok h (getc X 4) H S2 HH) as (v & Ev & Dv).
        pose proof (near_at _ _ HV) as H0. cbv beta in H0. rewrite simple_time_free in H0 by exact Hg. apply fmul_inv in H0.
        destruct H0 as (u & w & Eu & _ & _).
        rewrite tm_getc, Ev, Eu. eexists. split; [reflexivity |].
        apply dpl_near with (W := fun s => u * H s).
        { eapply near_imp; [| apply (near_and _ _ _ HV HH)]. cbv beta. intros z [E1 E2].
          rewrite simple_time_free in E1 by exact Hg. unfold tm in E1. simpl at_ in E1. cbv iota in E1. rewrite Eu, E2 in E1.
          simpl in E1. congruence. }
        apply (derivable_pt_lim_scal H). exact Dv.
    + assert (d1 = 4)%nat by lia. subst d1. destruct (S1 eq_refl) as [Sg Sh].
      destruct (Nat.ltb_spec d2 4) as [L2|L2]; [|exfalso; apply N44; split; lia].
      assert (Et : forall s, tm (setc X d2 s) = tm X) by (intros; unfold tm; rewrite at_setc by lia; reflexivity).
      set (G := fun s => match rf_eval g (setc X d2 s) with Some a => a | None => 0 end).
      assert (HG : Near (getc X d2) (fun s => rf_eval g (setc X d2 s) = Some (G s))).
      { eapply near_imp; [| apply HV]. cbv beta. intros z E. apply fmul_inv in E. destruct E as (u & w & E1 & E2 & E3).
        unfold G. rewrite E1. reflexivity. }
      destruct (rf_deriv_ok g X d2 G LD H2 ltac:(lia) Sg HG) as (v & Ev & Dv).
      pose proof (near_at _ _ HV) as H0. cbv beta in H0. rewrite Et in H0. apply fmul_inv in H0.
      destruct H0 as (u & w & _ & Ew & _). rewrite Ev, Ew. eexists. split; [reflexivity |].
      apply dpl_near with (W := fun s => w * G s).
      { eapply near_imp; [| apply (near_and _ _ _ HV HG)]. cbv beta. intros z [E1 E2]. rewrite Et, Ew, E2 in E1.
        simpl in E1. injection E1 as E1. rewrite <- E1. ring. }
      apply dpl_val with (l := w * v); [ring |]. apply (derivable_pt_lim_scal G). exact Dv.
  - destruct Sm as [L1 L2]. exists 0. split; [reflexivity |]. cbn [rf_deriv] in HV.
    pose proof (near_at _ _ HV) as H0. cbv beta in H0.
    apply (dpl_const_near _ _ _ (V (getc X d2)) HV). apply near_all. intros z. rewrite <- H0.
    rewrite !at_setc by lia. reflexivity.
Qed.

(** ** the quadratic functions *)
Lemma quad_shape d mx a b X : (1 <= d <= 3)%nat -> a <> b ->
  exists v, rf_eval (RQuad d mx a b) X = Some v /\
    ((getc X d = a \/ getc X d = b) -> v = 0) /\ (getc X d = (a + b) / 2 -> v = mx) /\ (0 <= mx -> v <= mx).
Proof.
  intros Hd N. assert (N0 : (a - b) / 2 * ((a - b) / 2) <> 0).
  { intros Q. apply Rmult_integral in Q. lra. }
  eexists. split; [apply fdiv_ok, N0 |]. rewrite coord_getc by exact Hd. set (x := getc X d).
  repeat split.
  - intros [-> | ->]; field; lra.
  - intros ->. field. lra.
  - intros Hm. assert (P : 0 < (a - b) / 2 * ((a - b) / 2)).
    { pose proof (Rle_0_sqr ((a - b) / 2)) as Q. unfold Rsqr in Q. lra. }
    apply Rmult_le_reg_r with ((a - b) / 2 * ((a - b) / 2)); [exact P |].
    replace (mx * (a - x) * (x - b) / ((a - b) / 2 * ((a - b) / 2)) * ((a - b) / 2 * ((a - b) / 2))) with (mx * ((a - x) * (x - b))) by (field; lra).
    apply Rmult_le_compat_l; [exact Hm |].
    pose proof (Rle_0_sqr (x - (a + b) / 2)) as Q. unfold Rsqr in Q. lra.
Qed.

(** ** isZero *)
Lemma lin_zero pts s x v : sf_isZero (SLinear pts s) = true -> SortedPts pts -> sf_eval (SLinear pts s) x = Some v ->
  Rabs v <= zTol * (if pts then Rabs x else zTol).
Proof.
  intros Z So E. cbn [sf_isZero] in Z. apply andb_true_iff in Z. destruct Z as [Z Z3]. apply andb_true_iff in Z. destruct Z as [Z1 Z2].
  apply rleb_iff in Z2, Z3. assert (HS : Rabs s <= zTol) by (apply Rabs_le; lra).
  assert (Hp : forall p, In p pts -> Rabs (snd p) <= zTol).
  { rewrite forallb_forall in Z1. intros p Hp. specialize (Z1 p Hp). apply negb_true_iff, orb_false_iff in Z1.
    destruct Z1 as [A B]. apply rltb_nf in A, B. apply Rabs_le. lra. }
  destruct pts as [|p0 l].
  - unfold sf_eval in E. injection E as E. subst v. rewrite Rabs_mult. apply Rmult_le_compat_r; [apply Rabs_pos | exact HS].
  - set (pts := p0 :: l) in *. rewrite sf_eval_lin in E by discriminate. injection E as E.
    pose proof (locate_gap pts x) as G. cbv zeta in G. set (ix := locate pts x) in *.
    assert (K : exists y, v = s * y /\ Rabs y <= zTol).
    { unfold lin_val in E. destruct (Nat.eqb_spec ix 0) as [E0|E0].
      { eexists. split; [symmetry; exact E |]. apply Hp. left. reflexivity. }
      destruct (Nat.leb_spec (length pts) ix) as [L|L].
      { eexists. split; [symmetry; exact E |]. apply Hp. rewrite last_nth. apply nth_In. simpl. lia. }
      cbv zeta in E. specialize (G E0 L).
      set (x1 := fst (nth (ix - 1) pts (0, 0))) in *. set (x2 := fst (nth ix pts (0, 0))) in *.
      assert (B1 : Rabs (snd (nth (ix - 1) pts (0, 0))) <= zTol) by (apply Hp, nth_In; lia).
      assert (B2 : Rabs (snd (nth ix pts (0, 0))) <= zTol) by (apply Hp, nth_In; lia).
      set (f1 := snd (nth (ix - 1) pts (0, 0))) in *. set (f2 := snd (nth ix pts (0, 0))) in *.
      eexists. split; [symmetry; exact E |].
      set (th := (x - x1) / (x2 - x1)). assert (Th : 0 <= th <= 1).
      { unfold th. split; [apply Rmult_le_pos; [lra | left; apply Rinv_0_lt_compat; lra] |].
        apply Rmult_le_reg_r with (x2 - x1); [lra |]. unfold Rdiv. rewrite Rmult_assoc, Rinv_l by lra. lra. }
      replace (f1 + (f2 - f1) * (x - x1) / (x2 - x1)) with ((1 - th) * f1 + th * f2) by (unfold th; field; lra).
      eapply Rle_trans; [apply Rabs_triang |]. rewrite !Rabs_mult, (Rabs_right (1 - th)), (Rabs_right th) by lra.
      assert ((1 - th) * Rabs f1 <= (1 - th) * zTol) by (apply Rmult_le_compat_l; lra).
      assert (th * Rabs f2 <= th * zTol) by (apply Rmult_le_compat_l; lra). lra. }
    destruct K as (y & -> & Hy). rewrite Rabs_mult. apply Rmult_le_compat; auto; apply Rabs_pos.
Qed.

Lemma sf_zero h x v : sf_isZero h = true -> ~ IsLinear h -> sf_eval h x = Some v -> v = 0.
Proof.
  intros Z N E. destruct h; unfold sf_eval in E; cbn [sf_isZero] in Z; try (apply reqb_iff in Z; subst).
  - congruence.
  - exfalso. apply N. exact I.
  - destruct (rltb x xmax); [|congruence]. apply fdiv_inv in E. destruct E as [N0 ->]. field. exact N0.
  - destruct (rltb _ _); congruence.
  - destruct (rleb _ _); congruence.
  - assert (v = 0 * sin (freq * x + phase)) by congruence. lra.
  - discriminate.
Qed.

Lemma zTol_pos : 0 < zTol < 1.
Proof. unfold zTol. split; lra. Qed.

Lemma interp_never_zero pts i time : rf_isZero (RInterp pts i time) = false.
Proof.
  cbn [rf_isZero sf_isZero]. assert (E : rleb 1 zTol = false) by (apply rleb_nf; apply zTol_pos).
  rewrite E, andb_false_r. reflexivity.
Qed.

Lemma rf_zero f : forall X v, rf_isZero f = true -> ~ UsesLinear f -> rf_eval f X = Some v -> v = 0.
Proof.
  induction f as [c | h | g IH h | i a b | i mx a b | rX A x0 y0 | c x0 x1 i | c x0 y0 x1 y1 | c X0 X1 eps | pts i time];
    intros X v Z N E; try (rewrite interp_never_zero in Z; discriminate); cbn [rf_isZero] in Z; cbn [rf_eval] in E.
  - apply reqb_iff in Z. congruence.
  - eapply sf_zero; eauto.
  - simpl in N. apply fmul_inv in E. destruct E as (u & w & E1 & E2 & ->). apply orb_true_iff in Z. destruct Z as [Z|Z].
    + assert (u = 0) by (apply (IH X u Z); tauto). subst. ring.
    + assert (w = 0) by (apply (sf_zero h (tm X) w Z); tauto). subst. ring.
  - apply andb_true_iff in Z. destruct Z as [Z1 Z2]. apply reqb_iff in Z1, Z2. subst.
    assert (v = 0 * coord X (i - 1) + 0) by congruence. lra.
  - apply reqb_iff in Z. subst. apply fdiv_inv in E. destruct E as [N0 ->]. unfold Rdiv. ring.
  - apply reqb_iff in Z. subst. destruct (at_ X) as [t|]; [|congruence].
    rewrite Rmult_0_l, cos_0, sin_0 in E. destruct rX; injection E as <-; ring.
  - apply reqb_iff in Z. subst. destruct (_ || _); congruence.
  - apply reqb_iff in Z. subst. destruct (rltb (ax X) x0 || rltb x1 (ax X) || rltb (ay X) y0 || rltb y1 (ay X)); congruence.
  - apply reqb_iff in Z. subst. destruct (inside _ _ _ _); congruence.
Qed.

(** ** isConstant *)
Lemma sf_const h t1 t2 : sf_isConstant h = true -> NoTimeJump h -> 0 <= t1 -> 0 <= t2 -> sf_eval h t1 = sf_eval h t2.
Proof.
  intros C N H1 H2. destruct h; cbn [sf_isConstant] in C; unfold sf_eval; try contradiction; try discriminate.
  - reflexivity.
  - destruct fvals as [|p [|q l]]; simpl in C; try discriminate. reflexivity.
  - apply rleb_iff in C. assert (A1 : rltb t1 xmax = false) by (apply rltb_nf; lra).
    assert (A2 : rltb t2 xmax = false) by (apply rltb_nf; lra). rewrite A1, A2. reflexivity.
  - apply reqb_iff in C. subst. f_equal. ring.
Qed.

Lemma rf_const f X Y : rf_isConstant f = true -> SamePlace X Y -> 0 <= TimeOf X -> 0 <= TimeOf Y ->
  (match f with RTime h => NoTimeJump h | RSpaceTime g h => TimeFree g /\ NoTimeJump h | _ => True end) ->
  rf_eval f X = rf_eval f Y.
Proof.
  intros C (Ex & Ey & Ez) HX HY N.
  assert (Ec : forall i, coord X i = coord Y i) by (intros [|[|[|i]]]; simpl; assumption).
  assert (TF : forall g, TimeFree g -> rf_eval g X = rf_eval g Y).
  { intros g Hg. destruct g; simpl in Hg; try contradiction; cbn [rf_eval]; try rewrite !Ec; try rewrite Ex, Ey; try reflexivity.
    - unfold inside. cbn [forallb]. rewrite !Ec. reflexivity.
    - assert (E0 : rltb 0 time = false) by (apply rltb_nf; exact Hg). rewrite E0. simpl andb.
      destruct (at_ X), (at_ Y); reflexivity. }
  destruct f as [c | h | g h | i a b | i mx a b | rX A x0 y0 | c x0 x1 i | c x0 y0 x1 y1 | c X0 X1 eps | pts i time];
    cbn [rf_isConstant] in C; try (apply TF; exact I).
  - cbn [rf_eval]. apply sf_const; assumption.
  - cbn [rf_eval]. destruct N as [N1 N2]. rewrite (TF g N1). f_equal. apply sf_const; assumption.
  - apply reqb_iff in C. subst. cbn [rf_eval].
    assert (E : forall Z, match at_ Z with
        | Some t => Some (if rX then (ax Z - x0) * cos (0 * t) - (ay Z - y0) * sin (0 * t) - (ax Z - x0)
                          else (ax Z - x0) * sin (0 * t) + (ay Z - y0) * cos (0 * t) - (ay Z - y0))
        | None => Some 0 end = Some 0).
    { intros Z. destruct (at_ Z); [|reflexivity]. rewrite Rmult_0_l, cos_0, sin_0. f_equal. destruct rX; ring. }
    cbv zeta. rewrite !E. reflexivity.
  - apply TF. simpl. apply rleb_iff in C. exact C.
Qed.

(** ** points from a file *)
Lemma read_points_prefix lines : forall p acc,
  (forall i, (i < length lines)%nat -> let x := fst (nth i (p :: lines) (0, 0)) in let y := fst (nth i lines (0, 0)) in x <= y \/ zTol * x <= x - y) ->
  exists k, (k <= length lines)%nat /\ read_points (p :: acc) lines = rev (firstn k lines) ++ p :: acc /\
    (forall i, (i < k)%nat -> fst (nth i (p :: lines) (0, 0)) <= fst (nth i lines (0, 0))) /\
    (k = length lines \/ ((k < length lines)%nat /\ fst (nth k lines (0, 0)) < fst (nth k (p :: lines) (0, 0)))).
Proof.
  induction lines as [|[x v] r IH]; intros [x' v'] acc H.
  - exists O. repeat split; auto. intros; lia.
  - pose proof (H O ltac:(simpl; lia)) as H0. simpl in H0. cbn [read_points].
    destruct (rleb x' x) eqn:E.
    + destruct (IH (x, v) ((x', v') :: acc)) as (k & K1 & K2 & K3 & K4).
      { intros i Hi. specialize (H (S i) ltac:(simpl; lia)). exact H. }
      exists (S k). split; [simpl; lia |]. split; [rewrite K2; simpl; rewrite <- app_assoc; reflexivity |]. split.
      * intros [|i] Hi; [simpl; apply rleb_iff in E; exact E |]. apply (K3 i). lia.
      * destruct K4 as [-> | [K4 K5]]; [left; reflexivity | right; split; [simpl; lia | exact K5]].
    + apply rleb_nf in E. destruct H0 as [H0|H0]; [lra |].
      assert (E2 : rltb (x' - x) (zTol * x') = false) by (apply rltb_nf; exact H0). rewrite E2.
      exists O. repeat split; [lia | intros; lia |]. right. simpl. split; [lia | exact E].
Qed.

Lemma linear_read_prefix lines : NoSmallStep lines ->
  exists k, (k <= length lines)%nat /\ linear_read lines = firstn k lines /\ SortedPts (firstn k lines) /\
    (k = length lines \/ ((0 < k < length lines)%nat /\ fst (nth k lines (0, 0)) < fst (nth (k - 1) lines (0, 0)))).
Proof.
  intros H. destruct lines as [|[x v] r].
  - exists O. repeat split; auto. intros i j Hij. simpl in Hij. lia.
  - unfold linear_read. cbn [read_points].
    destruct (read_points_prefix r (x, v) []) as (k & K1 & K2 & K3 & K4).
    { intros i Hi. apply (H i). simpl. lia. }
    exists (S k). split; [simpl; lia |]. split.
    { rewrite K2, rev_app_distr, rev_involutive. reflexivity. }
    split.
    + assert (L : length (firstn (S k) ((x, v) :: r)) = S k) by (rewrite firstn_length; simpl; lia).
      intros i j [Hij Hj]. rewrite L in Hj.
      assert (Nt : forall m, (m < S k)%nat -> nth m (firstn (S k) ((x, v) :: r)) (0, 0) = nth m ((x, v) :: r) (0, 0)).
      { intros m Hm. rewrite <- (firstn_skipn (S k) ((x, v) :: r)) at 2. rewrite app_nth1 by (rewrite L; exact Hm). reflexivity. }
      rewrite !Nt by lia. clear L Nt. induction Hij as [|j Hij IHj]; [lra |].
      eapply Rle_trans; [apply IHj; lia |]. apply (K3 j). lia.
    + destruct K4 as [-> | [K4 K5]]; [left; reflexivity | right; split; [simpl; lia |]].
      replace (S k - 1)%nat with k by lia. exact K5.
Qed.
