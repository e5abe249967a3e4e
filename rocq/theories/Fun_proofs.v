(** Proofs about the scalar functions of Functions.C: values and derivatives. *)
From Coq Require Import List Arith ZArith Bool Reals Lia Lra.
From Verif Require Import Lagr_model RPoly Fun_model Fun_spec.
Import ListNotations.
Open Scope bool_scope.
Open Scope R_scope.

Lemma rltb_iff x y : rltb x y = true <-> x < y.
Proof. unfold rltb. destruct (Rlt_dec x y); split; intros; auto; discriminate. Qed.
Lemma rltb_nf x y : rltb x y = false <-> y <= x.
Proof. unfold rltb. destruct (Rlt_dec x y); split; intros; try discriminate; auto; lra. Qed.
Lemma rleb_iff x y : rleb x y = true <-> x <= y.
Proof. unfold rleb. destruct (Rle_dec x y); split; intros; auto; discriminate. Qed.
Lemma rleb_nf x y : rleb x y = false <-> y < x.
Proof. unfold rleb. destruct (Rle_dec x y); split; intros; try discriminate; auto; lra. Qed.
Lemma reqb_iff x y : reqb x y = true <-> x = y.
Proof. unfold reqb. destruct (Req_EM_T x y); split; intros; auto; discriminate. Qed.

Lemma rltb_eq a b c e : rltb a b = rltb c e <-> (a < b <-> c < e).
Proof.
  rewrite <- !rltb_iff. split; [intros ->; tauto |]. intros H. apply eq_true_iff_eq, H.
Qed.

Lemma fdiv_ok a b : b <> 0 -> fdiv (Some a) (Some b) = Some (a / b).
Proof. intros H. unfold fdiv. destruct (Req_EM_T b 0); [contradiction | reflexivity]. Qed.
Lemma fdiv_inv a b v : fdiv (Some a) (Some b) = Some v -> b <> 0 /\ v = a / b.
Proof. unfold fdiv. destruct (Req_EM_T b 0); [discriminate |]. intros E. split; [assumption | congruence]. Qed.
Lemma fmul_inv a b v : fmul a b = Some v -> exists x y, a = Some x /\ b = Some y /\ v = x * y.
Proof. destruct a, b; simpl; try discriminate. intros E. exists r, r0. repeat split; congruence. Qed.

(** ** the location of an argument *)
Lemma lb_lt pts x : forall i, (i < lower_bound pts x)%nat -> fst (nth i pts (0, 0)) < x.
Proof.
  induction pts as [|p l IH]; simpl; intros i H; [lia |].
  destruct (rltb (fst p) x) eqn:E; [|lia]. apply rltb_iff in E.
  destruct i; [exact E |]. apply IH. lia.
Qed.
Lemma lb_ge pts x : (lower_bound pts x < length pts)%nat -> x <= fst (nth (lower_bound pts x) pts (0, 0)).
Proof.
  induction pts as [|p l IH]; simpl; intros H; [lia |].
  destruct (rltb (fst p) x) eqn:E; [apply IH; lia |]. apply rltb_nf in E. exact E.
Qed.
Lemma lb_le pts x : (lower_bound pts x <= length pts)%nat.
Proof. induction pts as [|p l IH]; simpl; [lia |]. destruct (rltb _ _); lia. Qed.
Lemma lb_unique pts x k : SortedPts pts -> (k <= length pts)%nat ->
  ((0 < k)%nat -> fst (nth (k - 1) pts (0, 0)) < x) -> ((k < length pts)%nat -> x <= fst (nth k pts (0, 0))) ->
  lower_bound pts x = k.
Proof.
  intros S Hk H1 H2. set (m := lower_bound pts x).
  pose proof (lb_le pts x) as Hm. fold m in Hm.
  destruct (Nat.lt_trichotomy m k) as [L | [E | L]]; [|exact E|].
  - assert (B : x <= fst (nth m pts (0, 0))) by (apply lb_ge; fold m; lia).
    assert (C : fst (nth m pts (0, 0)) <= fst (nth (k - 1) pts (0, 0))) by (apply S; lia).
    specialize (H1 ltac:(lia)). lra.
  - assert (B : fst (nth k pts (0, 0)) < x) by (apply lb_lt; exact L).
    specialize (H2 ltac:(lia)). lra.
Qed.

Lemma last_nth {A} (l : list A) d : last l d = nth (length l - 1) l d.
Proof.
  induction l as [|a l IH]; [reflexivity |]. destruct l as [|b l]; [reflexivity |].
  change (last (a :: b :: l) d) with (last (b :: l) d). rewrite IH. simpl. rewrite Nat.sub_0_r. reflexivity.
Qed.

Lemma nth_in_pts (pts : list (R * R)) i : (i < length pts)%nat -> In (nth i pts (0, 0)) pts.
Proof. intros. apply nth_In. assumption. Qed.

(** the evaluation of the function through points, by the location *)
Definition lin_val (pts : list (R * R)) (s : R) (ix : nat) (x : R) : R :=
  if (ix =? 0)%nat then s * snd (nth 0 pts (0, 0))
  else if (length pts <=? ix)%nat then s * snd (last pts (0, 0))
  else let x1 := fst (nth (ix - 1) pts (0, 0)) in let x2 := fst (nth ix pts (0, 0)) in
       let f1 := snd (nth (ix - 1) pts (0, 0)) in let f2 := snd (nth ix pts (0, 0)) in
       s * (f1 + (f2 - f1) * (x - x1) / (x2 - x1)).

Lemma locate_gap pts x : let ix := locate pts x in (ix <> 0)%nat -> (ix < length pts)%nat ->
  fst (nth (ix - 1) pts (0, 0)) < x <= fst (nth ix pts (0, 0)).
Proof.
  intros ix H1 H2. unfold ix, locate in *. destruct (length pts <? 2)%nat eqn:E; [lia |].
  split; [apply lb_lt; lia | apply lb_ge; exact H2].
Qed.

Lemma sf_eval_lin pts s x : pts <> [] -> sf_eval (SLinear pts s) x = Some (lin_val pts s (locate pts x) x).
Proof.
  intros N. destruct pts as [|p l]; [contradiction |]. set (pts := p :: l) in *.
  pose proof (locate_gap pts x) as G. cbv zeta in G.
  change (sf_eval (SLinear pts s) x) with
    (let ix := locate pts x in
     if (ix =? 0)%nat then Some (s * snd (nth 0 pts (0, 0)))
     else if (length pts <=? ix)%nat then Some (s * snd (last pts (0, 0)))
     else let x1 := fst (nth (ix - 1) pts (0, 0)) in let x2 := fst (nth ix pts (0, 0)) in
          let f1 := snd (nth (ix - 1) pts (0, 0)) in let f2 := snd (nth ix pts (0, 0)) in
          fmul (Some s) (fadd (Some f1) (fdiv (Some ((f2 - f1) * (x - x1))) (Some (x2 - x1))))).
  cbv zeta. unfold lin_val. set (ix := locate pts x) in *.
  destruct (Nat.eqb_spec ix 0) as [E|E]; [reflexivity |].
  destruct (Nat.leb_spec (length pts) ix) as [L|L]; [reflexivity |].
  specialize (G E L). rewrite fdiv_ok by lra. reflexivity.
Qed.

Lemma lin_piecewise pts : pts <> [] -> SortedPts pts -> exists f, (forall s x, sf_eval (SLinear pts s) x = Some (s * f x)) /\ PiecewiseLinear pts f.
Proof.
  intros N S. exists (fun x => lin_val pts 1 (locate pts x) x). split.
  - intros s x. rewrite sf_eval_lin by assumption. f_equal. unfold lin_val.
    destruct (_ =? _)%nat; [ring |]. destruct (_ <=? _)%nat; [ring |]. cbv zeta. ring.
  - assert (L0 : (0 < length pts)%nat) by (destruct pts; [contradiction | simpl; lia]).
    unfold PiecewiseLinear, locate. split; [| split].
    + intros x Hx. unfold lin_val. destruct (length pts <? 2)%nat; [simpl; ring |].
      rewrite (lb_unique pts x 0 S) by (try lia; intros; assumption). simpl. ring.
    + intros x Hx. rewrite last_nth in *. unfold lin_val. rewrite last_nth.
      destruct (Nat.ltb_spec (length pts) 2) as [E|E].
      * replace (length pts - 1)%nat with 0%nat by lia. simpl. ring.
      * rewrite (lb_unique pts x (length pts) S); [| lia | intros; exact Hx | lia].
        destruct (Nat.eqb_spec (length pts) 0) as [E0|E0]; [lia |].
        rewrite Nat.leb_refl. ring.
    + intros i x Hi Hx. destruct (Nat.ltb_spec (length pts) 2) as [E|E]; [lia |].
      rewrite (lb_unique pts x (Datatypes.S i) S); [| lia | | intros; apply Hx].
      2:{ intros _. simpl. rewrite Nat.sub_0_r. apply Hx. }
      unfold lin_val. simpl (_ =? 0)%nat. destruct (Nat.leb_spec (length pts) (Datatypes.S i)); [lia |].
      cbv zeta. replace (Datatypes.S i - 1)%nat with i by lia. field. lra.
Qed.

(** ** neighbourhoods *)
Lemma near_and x P Q : Near x P -> Near x Q -> Near x (fun z => P z /\ Q z).
Proof.
  intros (a & b & H & HP) (c & d & K & HQ). exists (Rmax a c), (Rmin b d). split.
  - split; [apply Rmax_lub_lt | apply Rmin_glb_lt]; lra.
  - intros z Hz. pose proof (Rmax_l a c). pose proof (Rmax_r a c). pose proof (Rmin_l b d). pose proof (Rmin_r b d).
    split; [apply HP | apply HQ]; lra.
Qed.
Lemma near_imp x (P Q : R -> Prop) : (forall z, P z -> Q z) -> Near x P -> Near x Q.
Proof. intros I (a & b & H & HP). exists a, b. split; [exact H |]. intros z Hz. apply I, HP, Hz. Qed.
Lemma near_all x (P : R -> Prop) : (forall z, P z) -> Near x P.
Proof. intros H. exists (x - 1), (x + 1). split; [lra |]. intros; apply H. Qed.
Lemma near_at x P : Near x P -> P x.
Proof. intros (a & b & H & HP). apply HP, H. Qed.
Lemma near_lt x c : x < c -> Near x (fun z => z < c).
Proof. intros H. exists (x - 1), c. split; [lra |]. intros; lra. Qed.
Lemma near_gt x c : c < x -> Near x (fun z => c < z).
Proof. intros H. exists c, (x + 1). split; [lra |]. intros; lra. Qed.
Lemma near_ne_lt x c : x <> c -> Near x (fun z => rltb z c = rltb x c).
Proof.
  intros H. destruct (Rlt_dec x c) as [L|L].
  - eapply near_imp; [| apply near_lt, L]. intros z Hz. apply rltb_iff in L, Hz. congruence.
  - assert (L' : c < x) by lra. eapply near_imp; [| apply near_gt, L']. cbv beta. intros z Hz.
    assert (rltb z c = false) by (apply rltb_nf; lra). assert (rltb x c = false) by (apply rltb_nf; lra). congruence.
Qed.
Lemma near_ne_gt x c : x <> c -> Near x (fun z => rltb c z = rltb c x).
Proof.
  intros H. destruct (Rlt_dec c x) as [L|L].
  - eapply near_imp; [| apply near_gt, L]. intros z Hz. apply rltb_iff in L, Hz. congruence.
  - assert (L' : x < c) by lra. eapply near_imp; [| apply near_lt, L']. cbv beta. intros z Hz.
    assert (rltb c z = false) by (apply rltb_nf; lra). assert (rltb c x = false) by (apply rltb_nf; lra). congruence.
Qed.

Lemma dpl_near V W x v : Near x (fun z => W z = V z) -> derivable_pt_lim W x v -> derivable_pt_lim V x v.
Proof. intros (a & b & H & E) D. eapply derivable_pt_lim_locally_ext; eauto. Qed.
Lemma dpl_some (F : R -> fl) V W x v : Near x (fun z => F z = Some (V z)) -> Near x (fun z => F z = Some (W z)) ->
  derivable_pt_lim W x v -> derivable_pt_lim V x v.
Proof.
  intros A B D. eapply dpl_near; [| exact D]. eapply near_imp; [| apply (near_and _ _ _ A B)].
  cbv beta. intros z [E1 E2]. congruence.
Qed.
Lemma dpl_const_near (F : R -> fl) V x c : Near x (fun z => F z = Some (V z)) -> Near x (fun z => F z = Some c) ->
  derivable_pt_lim V x 0.
Proof. intros A B. apply (dpl_some F V (fun _ => c) x 0 A B). apply derivable_pt_lim_const. Qed.

(** ** derivatives of the time functions *)
Lemma dpl_affine a b x : derivable_pt_lim (fun z => a * z + b) x a.
Proof.
  apply dpl_val with (l := a * 1 + 0); [ring |].
  apply (derivable_pt_lim_plus (fun z => a * z) (fun _ => b)); [|apply derivable_pt_lim_const].
  apply (derivable_pt_lim_scal (fun z => z)). apply derivable_pt_lim_id.
Qed.

Lemma dpl_affine' a b (W : R -> R) x : (forall z, W z = a * z + b) -> derivable_pt_lim W x a.
Proof. intros H. eapply dpl_ext; [| apply (dpl_affine a b)]. intros; symmetry; apply H. Qed.

Lemma sf_deriv_ok f x V : SmoothS f x -> Near x (fun y => sf_eval f y = Some (V y)) ->
  exists v, sf_deriv f x = Some v /\ derivable_pt_lim V x v.
Proof.
  intros Sm HV. destruct f as [c | pts s | c xm | c xm | c xm | s w p | h d].
  - exists 0. split; [reflexivity |]. apply (dpl_const_near _ _ _ c HV). apply near_all. reflexivity.
  - destruct pts as [|p0 l].
    { exists s. split; [reflexivity |]. eapply (dpl_some _ _ (fun z => s * z) _ _ HV); [apply near_all; reflexivity |].
      apply (dpl_affine' s 0). intros; ring. }
    destruct Sm as [So Ne]. set (pts := p0 :: l) in *.
    assert (N : pts <> []) by discriminate.
    set (ix := locate pts x).
    assert (K : Near x (fun z => locate pts z = ix)).
    { unfold ix, locate. destruct (Nat.ltb_spec (length pts) 2) as [E|E]; [apply near_all; reflexivity |].
      set (m := lower_bound pts x). pose proof (lb_le pts x) as Hm. fold m in Hm.
      assert (A1 : Near x (fun z => (0 < m)%nat -> fst (nth (m - 1) pts (0, 0)) < z)).
      { destruct (Nat.eq_dec m 0) as [E0|E0]; [apply near_all; intros; lia |].
        eapply near_imp; [| apply near_gt, (lb_lt pts x (m - 1)); fold m; lia]. intros; assumption. }
      assert (A2 : Near x (fun z => (m < length pts)%nat -> z <= fst (nth m pts (0, 0)))).
      { destruct (Nat.eq_dec m (length pts)) as [E0|E0]; [apply near_all; intros; lia |].
        assert (B : x <= fst (nth m pts (0, 0))) by (apply lb_ge; fold m; lia).
        assert (C : x <> fst (nth m pts (0, 0))) by (apply Ne, nth_in_pts; lia).
        assert (Hlt : x < fst (nth m pts (0, 0))) by lra.
        eapply near_imp; [| apply near_lt, Hlt]. cbv beta. intros; lra. }
      eapply near_imp; [| apply (near_and _ _ _ A1 A2)]. cbv beta. intros z [B1 B2].
      apply lb_unique; assumption. }
    assert (HW : Near x (fun z => sf_eval (SLinear pts s) z = Some (lin_val pts s ix z))).
    { eapply near_imp; [| apply K]. cbv beta. intros z E. rewrite sf_eval_lin by assumption. rewrite E. reflexivity. }
    pose proof (locate_gap pts x) as G. cbv zeta in G. fold ix in G.
    change (sf_deriv (SLinear pts s) x) with
      (if ((ix =? 0) || (length pts <=? ix))%nat then Some 0
       else fdiv (Some (s * (snd (nth ix pts (0, 0)) - snd (nth (ix - 1) pts (0, 0)))))
                 (Some (fst (nth ix pts (0, 0)) - fst (nth (ix - 1) pts (0, 0))))).
    destruct (Nat.eqb_spec ix 0) as [E|E].
    { exists 0. split; [reflexivity |]. apply (dpl_some _ _ _ _ _ HV HW). unfold lin_val. rewrite E. simpl.
      apply derivable_pt_lim_const. }
    destruct (Nat.leb_spec (length pts) ix) as [L|L].
    { exists 0. split; [reflexivity |]. apply (dpl_some _ _ _ _ _ HV HW).
      apply (dpl_affine' 0 (s * snd (last pts (0, 0)))). intros z. unfold lin_val.
      apply Nat.eqb_neq in E. apply Nat.leb_le in L. rewrite E, L. ring. }
    specialize (G E L). eexists. split; [apply fdiv_ok; lra |].
    apply (dpl_some _ _ _ _ _ HV HW).
    set (x1 := fst (nth (ix - 1) pts (0, 0))) in *. set (x2 := fst (nth ix pts (0, 0))) in *.
    set (f1 := snd (nth (ix - 1) pts (0, 0))) in *. set (f2 := snd (nth ix pts (0, 0))) in *.
    apply (dpl_affine' (s * (f2 - f1) / (x2 - x1)) (s * (f1 - (f2 - f1) * x1 / (x2 - x1)))).
    intros z. unfold lin_val. apply Nat.eqb_neq in E. apply Nat.leb_gt in L. rewrite E, L. cbv zeta.
    fold x1 x2 f1 f2. field. lra.
  - simpl in *. pose proof (near_ne_lt x xm Sm) as K. destruct (rltb x xm) eqn:E.
    + pose proof (near_at _ _ HV) as H. cbv beta in H. rewrite E in H. apply fdiv_inv in H. destruct H as [N _].
      exists (c / xm). split; [apply fdiv_ok, N |].
      eapply (dpl_some _ _ (fun z => c * z / xm) _ _ HV).
      * eapply near_imp; [| apply K]. cbv beta. intros z ->. apply fdiv_ok, N.
      * apply (dpl_affine' (c / xm) 0). intros. field. exact N.
    + exists 0. split; [reflexivity |]. apply (dpl_const_near _ _ _ c HV).
      eapply near_imp; [| apply K]. cbv beta. intros z ->. reflexivity.
  - exists 0. split; [reflexivity |]. simpl in *. destruct Sm as [S1 S2].
    assert (K : Near x (fun z => rltb (Rabs (z - xm)) (/ 10000) = rltb (Rabs (x - xm)) (/ 10000))).
    { eapply near_imp; [| apply (near_and _ _ _ (near_ne_gt x _ S1) (near_ne_lt x _ S2))]. cbv beta.
      assert (A : forall y, rltb (Rabs (y - xm)) (/ 10000) = rltb (xm - / 10000) y && rltb y (xm + / 10000)).
      { intros y. apply eq_true_iff_eq. rewrite andb_true_iff, !rltb_iff.
        split; [intros H; apply Rabs_def2 in H; lra | intros H; apply Rabs_def1; lra]. }
      intros z [B1 B2]. rewrite !A. congruence. }
    destruct (rltb (Rabs (x - xm)) (/ 10000)).
    + apply (dpl_const_near _ _ _ c HV). eapply near_imp; [| apply K]. cbv beta. intros z ->. reflexivity.
    + apply (dpl_const_near _ _ _ 0 HV). eapply near_imp; [| apply K]. cbv beta. intros z ->. reflexivity.
  - exists 0. split; [reflexivity |]. simpl in *.
    pose proof (near_ne_lt x xm Sm) as K.
    assert (A : forall y, rleb xm y = negb (rltb y xm)).
    { intros y. destruct (rltb y xm) eqn:E; simpl.
      - apply rltb_iff in E. apply rleb_nf. lra.
      - apply rltb_nf in E. apply rleb_iff. lra. }
    destruct (rltb x xm).
    + apply (dpl_const_near _ _ _ 0 HV). eapply near_imp; [| apply K]. cbv beta. intros z E. rewrite A, E. reflexivity.
    + apply (dpl_const_near _ _ _ c HV). eapply near_imp; [| apply K]. cbv beta. intros z E. rewrite A, E. reflexivity.
  - eexists. split; [reflexivity |]. simpl in HV.
    eapply (dpl_some _ _ (fun z => s * sin (w * z + p)) _ _ HV); [apply near_all; reflexivity |].
    apply dpl_val with (l := s * (cos (w * x + p) * w)); [ring |].
    apply (derivable_pt_lim_scal (fun z => sin (w * z + p))).
    apply (derivable_pt_lim_comp (fun z => w * z + p) sin); [apply dpl_affine | apply derivable_pt_lim_sin].
  - apply Sm, HV.
Qed.

(** ** derivatives of the functions in space and time *)
Lemma time_free_eval g X s : TimeFree g -> rf_eval g (setc X 4 s) = rf_eval g X.
Proof.
  destruct g; simpl; intros H; try reflexivity; try contradiction.
  assert (E : rltb 0 time = false) by (apply rltb_nf; lra). rewrite E. simpl.
  unfold coord. simpl. destruct (at_ X); reflexivity.
Qed.

Lemma setc_self X d : (1 <= d <= 4)%nat -> (d = 4%nat -> at_ X <> None) -> setc X d (getc X d) = X.
Proof.
  intros H T. destruct X as [x y z t]. destruct d as [|[|[|[|[|d]]]]]; try lia; try reflexivity.
  simpl in *. destruct t; [reflexivity | exfalso; now apply T].
Qed.

Lemma coord_setc_same X d s : (1 <= d <= 3)%nat -> coord (setc X d s) (d - 1) = s.
Proof. intros. destruct d as [|[|[|[|d]]]]; try lia; reflexivity. Qed.
Lemma coord_setc_other X d s i : (1 <= d <= 4)%nat -> (i <= 2)%nat -> d <> S i -> coord (setc X d s) i = coord X i.
Proof. intros. destruct d as [|[|[|[|[|d]]]]]; try lia; destruct i as [|[|[|i]]]; try lia; reflexivity. Qed.
Lemma coord_getc X d : (1 <= d <= 3)%nat -> coord X (d - 1) = getc X d.
Proof. intros. destruct d as [|[|[|[|d]]]]; try lia; reflexivity. Qed.
Lemma at_setc X d s : (1 <= d <= 3)%nat -> at_ (setc X d s) = at_ X.
Proof. intros. destruct d as [|[|[|[|d]]]]; try lia; reflexivity. Qed.
Lemma tm_getc X : tm X = getc X 4.
Proof. reflexivity. Qed.

Lemma near_inside X X0 X1 eps d : (1 <= d <= 4)%nat ->
  ((d <= 3)%nat -> getc X d + eps <> getc X0 d /\ getc X d - eps <> getc X1 d) -> (d = 4%nat -> at_ X <> None) ->
  Near (getc X d) (fun s => inside (setc X d s) X0 X1 eps = inside X X0 X1 eps).
Proof.
  intros Hd Hs T. destruct (Nat.eq_dec d 4) as [->|N4].
  { apply near_all. intros s. reflexivity. }
  destruct (Hs ltac:(lia)) as [N0 N1].
  assert (A : Near (getc X d) (fun s => rltb s (getc X0 d - eps) = rltb (getc X d) (getc X0 d - eps))) by (apply near_ne_lt; lra).
  assert (B : Near (getc X d) (fun s => rltb (getc X1 d + eps) s = rltb (getc X1 d + eps) (getc X d))) by (apply near_ne_gt; lra).
  eapply near_imp; [| apply (near_and _ _ _ A B)]. cbv beta. intros s [E1 E2].
  apply rltb_eq in E1, E2.
  assert (E1' : rltb (s + eps) (getc X0 d) = rltb (getc X d + eps) (getc X0 d)).
  { apply rltb_eq. split; intros Q.
    - assert (s < getc X0 d - eps) as Q' by lra. apply E1 in Q'. lra.
    - assert (getc X d < getc X0 d - eps) as Q' by lra. apply E1 in Q'. lra. }
  assert (E2' : rltb (getc X1 d) (s - eps) = rltb (getc X1 d) (getc X d - eps)).
  { apply rltb_eq. split; intros Q.
    - assert (getc X1 d + eps < s) as Q' by lra. apply E2 in Q'. lra.
    - assert (getc X1 d + eps < getc X d) as Q' by lra. apply E2 in Q'. lra. }
  destruct d as [|[|[|[|d]]]]; try lia; unfold inside, coord; simpl in *; rewrite E1', E2'; reflexivity.
Qed.

Local Arguments sf_eval : simpl never.
Local Arguments sf_deriv : simpl never.
Lemma rf_deriv_ok f : forall X d V, LegalDirs f -> (1 <= d <= 4)%nat -> (d = 4%nat -> at_ X <> None) -> Smooth f X d ->
  Near (getc X d) (fun s => rf_eval f (setc X d s) = Some (V s)) ->
  exists v, rf_deriv f X d = Some v /\ derivable_pt_lim V (getc X d) v.
Proof.
  induction f as [c | h | g IH h | i a b | i mx a b | rX A x0 y0 | c x0 x1 i | c x0 y0 x1 y1 | c X0 X1 eps | pts i time];
    intros X d V LD Hd T Sm HV.
  - exists 0. split; [reflexivity |]. apply (dpl_const_near _ _ _ c HV). apply near_all. reflexivity.
  - simpl in *. destruct (Nat.ltb_spec d 4) as [L|L].
    + exists 0. split; [reflexivity |]. pose proof (near_at _ _ HV) as H0. cbv beta in H0.
      rewrite setc_self in H0 by (try assumption; lia).
      apply (dpl_const_near _ _ _ (V (getc X d)) HV). apply near_all. intros z. rewrite <- H0.
      unfold tm. rewrite at_setc by lia. reflexivity.
    + assert (d = 4)%nat by lia. subst d. apply (sf_deriv_ok h (getc X 4) V); [apply Sm; reflexivity | exact HV].
  - simpl rf_eval in HV. simpl rf_deriv. simpl in Sm, LD.
    set (G := fun s => match rf_eval g (setc X d s) with Some a => a | None => 0 end).
    set (H := fun s => match sf_eval h (tm (setc X d s)) with Some a => a | None => 0 end).
    assert (HG : Near (getc X d) (fun s => rf_eval g (setc X d s) = Some (G s))).
    { eapply near_imp; [| apply HV]. cbv beta. intros z E. apply fmul_inv in E. destruct E as (u & w & E1 & E2 & E3).
      unfold G. rewrite E1. reflexivity. }
    assert (HH : Near (getc X d) (fun s => sf_eval h (tm (setc X d s)) = Some (H s))).
    { eapply near_imp; [| apply HV]. cbv beta. intros z E. apply fmul_inv in E. destruct E as (u & w & E1 & E2 & E3).
      unfold H. rewrite E2. reflexivity. }
    assert (HP : Near (getc X d) (fun s => fmul (rf_eval g (setc X d s)) (sf_eval h (tm (setc X d s))) = Some (G s * H s))).
    { eapply near_imp; [| apply (near_and _ _ _ HG HH)]. cbv beta. intros z [-> ->]. reflexivity. }
    destruct (Nat.ltb_spec d 4) as [L|L].
    + assert (E4 : (d =? 4)%nat = false) by (apply Nat.eqb_neq; lia). rewrite E4 in Sm.
      destruct (IH X d G LD Hd T Sm HG) as (v & Ev & Dv).
      pose proof (near_at _ _ HH) as H0. cbv beta in H0.
      assert (Et : forall s, tm (setc X d s) = tm X) by (intros; unfold tm; rewrite at_setc by lia; reflexivity).
      rewrite Et in H0. rewrite Ev, H0. eexists. split; [reflexivity |].
      apply (dpl_some _ _ _ _ _ HV HP). apply dpl_ext with (f := fun s => H (getc X d) * G s).
      * intros s. unfold H. rewrite !Et. ring.
      * apply dpl_val with (l := H (getc X d) * v); [ring |]. apply (derivable_pt_lim_scal G). exact Dv.
    + assert (d = 4)%nat by lia. subst d. rewrite Nat.eqb_refl in Sm. destruct Sm as [TF SS].
      destruct (sf_deriv_ok h (getc X 4) H SS HH) as (v & Ev & Dv).
      pose proof (near_at _ _ HG) as G0. cbv beta in G0. rewrite time_free_eval in G0 by exact TF.
      rewrite tm_getc, Ev, G0. eexists. split; [reflexivity |].
      apply (dpl_some _ _ _ _ _ HV HP). apply dpl_ext with (f := fun s => G (getc X 4) * H s).
      * intros s. unfold G. rewrite !time_free_eval by exact TF. reflexivity.
      * apply (derivable_pt_lim_scal H). exact Dv.
  - simpl in *. destruct (Nat.eqb_spec d i) as [->|N].
    + exists a. split; [reflexivity |]. eapply (dpl_some _ _ (fun s => a * s + b) _ _ HV); [|apply dpl_affine].
      apply near_all. intros s. rewrite coord_setc_same by lia. reflexivity.
    + exists 0. split; [reflexivity |]. eapply (dpl_const_near _ _ _ _ HV). apply near_all. intros s.
      rewrite coord_setc_other by lia. reflexivity.
  - simpl in *. pose proof (near_at _ _ HV) as H0. cbv beta in H0. apply fdiv_inv in H0. destruct H0 as [N0 _].
    destruct (Nat.eqb_spec d i) as [->|N]; simpl.
    + eexists. split; [apply fdiv_ok, N0 |].
      eapply (dpl_some _ _ (fun s => mx / ((a - b) / 2 * ((a - b) / 2)) * ((a - s) * (s - b))) _ _ HV).
      * apply near_all. intros s. rewrite coord_setc_same by lia. etransitivity; [apply fdiv_ok, N0 |]. f_equal. field.
        intros Q. apply N0. replace (a - b) with 0 by lra. lra.
      * rewrite coord_getc by lia. set (s := getc X i).
        apply dpl_val with (l := mx / ((a - b) / 2 * ((a - b) / 2)) * ((0 - 1) * (s - b) + (a - s) * (1 - 0))).
        { field. intros Q. apply N0. replace (a - b) with 0 by lra. lra. }
        apply (derivable_pt_lim_scal (fun s => (a - s) * (s - b))).
        apply (derivable_pt_lim_mult (fun s => a - s) (fun s => s - b)).
        -- apply (derivable_pt_lim_minus (fun _ => a) (fun s => s)); [apply derivable_pt_lim_const | apply derivable_pt_lim_id].
        -- apply (derivable_pt_lim_minus (fun s => s) (fun _ => b)); [apply derivable_pt_lim_id | apply derivable_pt_lim_const].
    + exists 0. split; [reflexivity |]. eapply (dpl_const_near _ _ _ _ HV). apply near_all. intros s.
      rewrite coord_setc_other by lia. apply fdiv_ok, N0.
  - simpl in Sm. simpl rf_deriv. simpl rf_eval in HV. destruct (Nat.ltb_spec 2 d) as [L|L].
    + assert (d = 3)%nat by lia. subst d. exists 0. split; [reflexivity |]. simpl in HV.
      destruct (at_ X) as [t|]; [|eapply (dpl_const_near _ _ _ _ HV); apply near_all; reflexivity].
      eapply (dpl_const_near _ _ _ _ HV). apply near_all. reflexivity.
    + destruct (at_ X) as [t|] eqn:ET.
      2:{ exists 0. split; [reflexivity |]. apply (dpl_const_near _ _ _ 0 HV). apply near_all. intros s.
          rewrite at_setc by lia. rewrite ET. reflexivity. }
      assert (d = 1 \/ d = 2)%nat as [-> | ->] by lia; simpl in *; rewrite ET in HV.
      * eexists. split; [reflexivity |]. eapply (dpl_some _ _ _ _ _ HV); [apply near_all; reflexivity |]. cbv beta.
        destruct rX.
        -- apply (dpl_affine' (cos (A * t) - 1) (- x0 * cos (A * t) - (ay X - y0) * sin (A * t) + x0)). intros; ring.
        -- apply (dpl_affine' (sin (A * t)) (- x0 * sin (A * t) + (ay X - y0) * cos (A * t) - (ay X - y0))). intros; ring.
      * eexists. split; [reflexivity |]. eapply (dpl_some _ _ _ _ _ HV); [apply near_all; reflexivity |]. cbv beta.
        destruct rX.
        -- apply (dpl_affine' (- sin (A * t)) ((ax X - x0) * cos (A * t) + y0 * sin (A * t) - (ax X - x0))). intros; ring.
        -- apply (dpl_affine' (cos (A * t) - 1) ((ax X - x0) * sin (A * t) - y0 * cos (A * t) + y0)). intros; ring.
  - exists 0. split; [reflexivity |]. simpl in *. pose proof (near_at _ _ HV) as H0. cbv beta in H0.
    destruct (Nat.eq_dec d (S i)) as [->|N].
    + destruct (Sm eq_refl) as [N0 N1]. apply (dpl_const_near _ _ _ (V (getc X (S i))) HV).
      eapply near_imp; [| apply (near_and _ _ _ (near_ne_lt _ _ N0) (near_ne_gt _ _ N1))]. cbv beta. intros z [E1 E2].
      rewrite <- H0. replace i with (S i - 1)%nat by lia. replace (S (S i - 1)) with (S i) by lia.
      rewrite !coord_setc_same by lia. rewrite E1, E2. reflexivity.
    + apply (dpl_const_near _ _ _ (V (getc X d)) HV). apply near_all. intros z. rewrite <- H0.
      rewrite !coord_setc_other by lia. reflexivity.
  - exists 0. split; [reflexivity |]. simpl in Sm. pose proof (near_at _ _ HV) as H0. cbv beta in H0.
    destruct Sm as [S1 S2]. apply (dpl_const_near _ _ _ (V (getc X d)) HV).
    assert (d = 1 \/ d = 2 \/ d = 3 \/ d = 4)%nat as [-> | [-> | [-> | ->]]] by lia.
    + destruct (S1 eq_refl) as [N0 N1].
      eapply near_imp; [| apply (near_and _ _ _ (near_ne_lt _ _ N0) (near_ne_gt _ _ N1))]. cbv beta. intros z [E1 E2].
      rewrite <- H0. simpl in *. rewrite E1, E2. reflexivity.
    + destruct (S2 eq_refl) as [N0 N1].
      eapply near_imp; [| apply (near_and _ _ _ (near_ne_lt _ _ N0) (near_ne_gt _ _ N1))]. cbv beta. intros z [E1 E2].
      rewrite <- H0. simpl in *. rewrite E1, E2. reflexivity.
    + apply near_all. intros z. rewrite <- H0. reflexivity.
    + apply near_all. intros z. rewrite <- H0. reflexivity.
  - exists 0. split; [reflexivity |]. simpl in Sm. pose proof (near_at _ _ HV) as H0. cbv beta in H0.
    apply (dpl_const_near _ _ _ (V (getc X d)) HV).
    eapply near_imp; [| apply (near_inside X X0 X1 eps d Hd Sm T)]. cbv beta. intros z E. rewrite <- H0.
    simpl. rewrite E. rewrite setc_self by assumption. reflexivity.
  - simpl in LD. cbn [Smooth] in Sm. destruct Sm as [Sm1 Sm2]. simpl rf_eval in HV. simpl rf_deriv. rewrite Nat.add_1_r.
    destruct (Nat.eqb_spec d (S i)) as [E|E].
    + subst d. specialize (Sm1 eq_refl). clear Sm2.
      set (F := fun s => match sf_eval (SLinear pts 1) s with Some a => a | None => 0 end).
      assert (Hc : forall s, coord (setc X (S i) s) i = s).
      { intros s. pose proof (coord_setc_same X (S i) s ltac:(lia)) as Q. replace (S i - 1)%nat with i in Q by lia. exact Q. }
      assert (Hg : coord X i = getc X (S i)).
      { pose proof (coord_getc X (S i) ltac:(lia)) as Q. replace (S i - 1)%nat with i in Q by lia. exact Q. }
      assert (HF : Near (getc X (S i)) (fun s => sf_eval (SLinear pts 1) s = Some (F s))).
      { eapply near_imp; [| apply HV]. cbv beta. intros z. rewrite Hc. unfold F.
        destruct (sf_eval (SLinear pts 1) z); [reflexivity |]. intros K.
        destruct (at_ (setc X (S i) z)); [destruct (_ && _)|]; discriminate. }
      destruct (sf_deriv_ok (SLinear pts 1) (getc X (S i)) F Sm1 HF) as (v & Ev & Dv).
      rewrite Hg, Ev. assert (L4 : (S i <? 4)%nat = true) by (apply Nat.ltb_lt; lia).
      assert (L3 : (3 <? S i)%nat = false) by (apply Nat.ltb_ge; lia). rewrite L4, L3.
      assert (HV' : Near (getc X (S i)) (fun s => match at_ X with
         | Some t => if rltb 0 time && rltb t time then fmul (Some (F s)) (Some (t / time)) else Some (F s)
         | None => Some (F s) end = Some (V s))).
      { eapply near_imp; [| apply (near_and _ _ _ HV HF)]. cbv beta. intros z [K1 K2]. rewrite Hc, K2 in K1.
        rewrite at_setc in K1 by lia. exact K1. }
      destruct (at_ X) as [t|]; [destruct (rltb 0 time && rltb t time)|].
      * eexists. split; [reflexivity |]. apply dpl_near with (W := fun s => (t / time) * F s).
        { eapply near_imp; [| apply HV']. cbv beta. simpl. intros z Q. injection Q as Q. rewrite <- Q. ring. }
        apply dpl_val with (l := t / time * v); [ring |]. apply (derivable_pt_lim_scal F). exact Dv.
      * eexists. split; [reflexivity |]. apply dpl_near with (W := F); [|exact Dv].
        eapply near_imp; [| apply HV']. cbv beta. intros z Q. congruence.
      * eexists. split; [reflexivity |]. apply dpl_near with (W := F); [|exact Dv].
        eapply near_imp; [| apply HV']. cbv beta. intros z Q. congruence.
    + destruct (Nat.ltb_spec 3 d) as [L|L].
      * assert (d = 4)%nat by lia. subst d. specialize (T eq_refl). destruct (at_ X) as [t|] eqn:ET; [|contradiction].
        assert (G4 : getc X 4 = t) by (simpl; rewrite ET; reflexivity).
        assert (Hc : forall s, coord (setc X 4 s) i = coord X i) by (intros; apply coord_setc_other; lia).
        change (4 <? 4)%nat with false. cbv iota.
        pose proof (near_at _ _ HV) as H0. cbv beta in H0. rewrite Hc in H0.
        destruct (sf_eval (SLinear pts 1) (coord X i)) as [r|] eqn:Er.
        2:{ exfalso. simpl in H0. match goal with H : (if ?b then _ else _) = _ |- _ => destruct b end; discriminate. }
        assert (HV' : Near (getc X 4) (fun s => (if rltb 0 time && rltb s time then fmul (Some r) (Some (s / time)) else Some r) = Some (V s))).
        { eapply near_imp; [| apply HV]. cbv beta. intros z K. rewrite Hc, Er in K. exact K. }
        destruct (rltb 0 time) eqn:E0; simpl andb in *.
        -- apply rltb_iff in E0. specialize (Sm2 eq_refl E0). pose proof (near_ne_lt _ _ Sm2) as K. rewrite G4 in *.
           destruct (rltb t time) eqn:E1.
           ++ eexists. split; [reflexivity |]. eapply (dpl_some _ _ (fun s => r / time * s) _ _ HV').
              ** eapply near_imp; [| apply K]. cbv beta. intros z ->. simpl. f_equal. field. lra.
              ** apply (dpl_affine' (r * (1 / time)) 0). intros. field. lra.
           ++ exists 0. split; [reflexivity |]. apply (dpl_const_near _ _ _ r HV').
              eapply near_imp; [| apply K]. cbv beta. intros z ->. reflexivity.
        -- exists 0. split; [reflexivity |]. apply (dpl_const_near _ _ _ r HV'). apply near_all. reflexivity.
      * exists 0. split; [reflexivity |]. pose proof (near_at _ _ HV) as H0. cbv beta in H0.
        apply (dpl_const_near _ _ _ (V (getc X d)) HV). apply near_all. intros z. rewrite <- H0.
        rewrite !coord_setc_other by lia. rewrite !at_setc by lia. reflexivity.
Qed.
