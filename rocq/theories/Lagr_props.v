(** C69: Lagrange basis functions and Lagrange interpolation. *)
From Coq Require Import List Arith Lia ZArith Bool Reals Lra.
From Verif Require Import RPoly Lagr_model Lagr_spec Lagr_proofs.
Import ListNotations.
Open Scope R_scope.

(** For distinct points there is exactly one [k]-th Lagrange polynomial (the statements below speak about it). *)
Theorem lagrange_polynomial_exists xs k : NoDup xs -> (k < length xs)%nat ->
  (exists f, IsLagrange xs k f) /\
  (forall f g, IsLagrange xs k f -> IsLagrange xs k g -> forall x, f x = g x).
Proof.
  intros Hn Hk. split; [exists (lagp xs k); now apply lagp_is | intros f g Hf Hg; now apply (lagrange_unique xs k)].
Qed.
Print Assumptions lagrange_polynomial_exists.

(** Lagrange1D::eval returns the value of that polynomial at every coordinate ... *)
Theorem lagrange1d_eval_value xs k f x : NoDup xs -> (k < length xs)%nat -> IsLagrange xs k f ->
  lag_eval (map Some xs) (Z.of_nat k) x false = Some (Some (f x)).
Proof.
  intros Hn Hk Hf. rewrite lag_eval_val by assumption. do 2 f_equal.
  apply (lagrange_unique xs k); [assumption | now apply lagp_is | assumption].
Qed.
Print Assumptions lagrange1d_eval_value.

(** ... and its derivative at every coordinate between the first and the last point. *)
Theorem lagrange1d_eval_derivative xs k f x : NoDup xs -> (k < length xs)%nat -> IsLagrange xs k f ->
  nth 0 xs 0 <= x <= last xs 0 ->
  exists d, lag_eval (map Some xs) (Z.of_nat k) x true = Some (Some d) /\ derivable_pt_lim f x d.
Proof.
  intros Hn Hk Hf Hx. destruct (lag_eval_der xs k x Hn Hk Hx) as (d & Ed & D). exists d. split; [assumption|].
  apply (dpl_ext (lagp xs k)); [|assumption].
  apply (lagrange_unique xs k); [assumption | now apply lagp_is | assumption].
Qed.
Print Assumptions lagrange1d_eval_derivative.

(** It refuses exactly the polynomial numbers out of range, and derivatives outside the range of the points. *)
Theorem lagrange1d_eval_refused xs k x :
  (lag_eval (map Some xs) k x false = None <-> (k < 0)%Z \/ (Z.of_nat (length xs) <= k)%Z) /\
  (xs <> [] ->
   (lag_eval (map Some xs) k x true = None <->
    (k < 0)%Z \/ (Z.of_nat (length xs) <= k)%Z \/ x < nth 0 xs 0 \/ last xs 0 < x)).
Proof. split; [apply lag_eval_refused_val | apply lag_eval_refused]. Qed.
Print Assumptions lagrange1d_eval_refused.

(** computeBasis stores the products of the one-dimensional polynomials, the first direction
    running fastest, whatever the size of the array it is given; it writes nothing else. *)
Theorem compute_basis_values val derval xs1 xs2 xs3 x1 x2 x3 f1 f2 f3 :
  NoDup xs1 -> NoDup xs2 -> NoDup xs3 -> IsBasis xs1 f1 -> IsBasis xs2 f2 -> IsBasis xs3 f3 ->
  let n1 := nfun xs1 in let n2 := nfun xs2 in let n3 := nfun xs3 in
  let '(ok, val', der') := compute_basis val derval (map Some xs1) x1 (map Some xs2) x2 (map Some xs3) x3 in
  (derval = None -> ok = true /\ der' = None) /\
  length val' = Nat.max (n1 * n2 * n3) (length val) /\
  (forall i j k, (i < n1)%nat -> (j < n2)%nat -> (k < n3)%nat ->
     nth (npos n1 n2 i j k) val' None = Some (f1 i x1 * f2 j x2 * f3 k x3)) /\
  (forall c, (n1 * n2 * n3 <= c)%nat -> nth c val' None = nth c val None).
Proof.
  intros Hn1 Hn2 Hn3 B1 B2 B3 n1 n2 n3.
  pose proof (cb_values val derval xs1 xs2 xs3 x1 x2 x3 Hn1 Hn2 Hn3) as H. cbv zeta in H. fold n1 n2 n3 in H.
  destruct (compute_basis _ _ _ _ _ _ _ _) as [[ok val'] der']. destruct H as (H1 & H2 & H3 & H4).
  split; [exact H1 | split; [exact H2 | split; [|exact H4]]].
  intros i j k Hi Hj Hk. rewrite H3 by assumption.
  rewrite (basis_unique xs1 f1 (bas xs1) Hn1 B1 (bas_is xs1 Hn1)) by assumption.
  rewrite (basis_unique xs2 f2 (bas xs2) Hn2 B2 (bas_is xs2 Hn2)) by assumption.
  rewrite (basis_unique xs3 f3 (bas xs3) Hn3 B3 (bas_is xs3 Hn3)) by assumption. reflexivity.
Qed.
Print Assumptions compute_basis_values.

(** computeBasis with derivatives stores the partial derivatives of these products. *)
Theorem compute_basis_derivatives val D xs1 xs2 xs3 x1 x2 x3 f1 f2 f3 :
  NoDup xs1 -> NoDup xs2 -> NoDup xs3 -> IsBasis xs1 f1 -> IsBasis xs2 f2 -> IsBasis xs3 f3 ->
  InRange xs1 x1 -> InRange xs2 x2 -> InRange xs3 x3 ->
  let n1 := nfun xs1 in let n2 := nfun xs2 in let n3 := nfun xs3 in
  exists val' D', compute_basis val (Some D) (map Some xs1) x1 (map Some xs2) x2 (map Some xs3) x3 = (true, val', Some D') /\
  forall i j k, (i < n1)%nat -> (j < n2)%nat -> (k < n3)%nat ->
    (xs1 <> [] -> exists d, delem D' (S (npos n1 n2 i j k)) 1 = Some (Some d) /\
       derivable_pt_lim (fun t => f1 i t * f2 j x2 * f3 k x3) x1 d) /\
    (xs2 <> [] -> exists d, delem D' (S (npos n1 n2 i j k)) 2 = Some (Some d) /\
       derivable_pt_lim (fun t => f1 i x1 * f2 j t * f3 k x3) x2 d) /\
    (xs3 <> [] -> exists d, delem D' (S (npos n1 n2 i j k)) 3 = Some (Some d) /\
       derivable_pt_lim (fun t => f1 i x1 * f2 j x2 * f3 k t) x3 d).
Proof.
  intros Hn1 Hn2 Hn3 B1 B2 B3 R1 R2 R3 n1 n2 n3.
  destruct (cb_derivs val D xs1 xs2 xs3 x1 x2 x3 Hn1 Hn2 Hn3 R1 R2 R3) as (val' & D' & EQ & H).
  exists val', D'. split; [exact EQ|]. intros i j k Hi Hj Hk.
  destruct (H i j k Hi Hj Hk) as (H1 & H2 & H3). 
  assert (U1 : forall t, bas xs1 i t = f1 i t) by (intro; symmetry; now apply (basis_unique xs1 f1 (bas xs1) Hn1 B1 (bas_is xs1 Hn1))).
  assert (U2 : forall t, bas xs2 j t = f2 j t) by (intro; symmetry; now apply (basis_unique xs2 f2 (bas xs2) Hn2 B2 (bas_is xs2 Hn2))).
  assert (U3 : forall t, bas xs3 k t = f3 k t) by (intro; symmetry; now apply (basis_unique xs3 f3 (bas xs3) Hn3 B3 (bas_is xs3 Hn3))).
  split; [|split]; intro Hne.
  - destruct (H1 Hne) as (d & Ed & Dd). exists d. split; [assumption|]. eapply dpl_ext; [|exact Dd].
    intro t. cbv beta. now rewrite U1, U2, U3.
  - destruct (H2 Hne) as (d & Ed & Dd). exists d. split; [assumption|]. eapply dpl_ext; [|exact Dd].
    intro t. cbv beta. now rewrite U1, U2, U3.
  - destruct (H3 Hne) as (d & Ed & Dd). exists d. split; [assumption|]. eapply dpl_ext; [|exact Dd].
    intro t. cbv beta. now rewrite U1, U2, U3.
Qed.
Print Assumptions compute_basis_derivatives.

(** The matrix of derivatives is large enough for all functions and directions afterwards, whatever its size before. *)
Theorem compute_basis_derivatives_size val D xs1 xs2 xs3 x1 x2 x3 val' D' :
  compute_basis val (Some D) (map Some xs1) x1 (map Some xs2) x2 (map Some xs3) x3 = (true, val', Some D') ->
  (nfun xs1 * nfun xs2 * nfun xs3 <= drows D')%nat /\
  (xs1 <> [] -> 1 <= dcols D')%nat /\ (xs2 <> [] -> 2 <= dcols D')%nat /\ (xs3 <> [] -> 3 <= dcols D')%nat.
Proof.
  unfold compute_basis. rewrite !n_of_nfun.
  destruct (tempval _ x1); [|discriminate]. destruct (tempval _ x2); [|discriminate]. destruct (tempval _ x3); [|discriminate].
  destruct (tempder _ x1); [|discriminate]. destruct (tempder _ x2); [|discriminate]. destruct (tempder _ x3); [|discriminate].
  intros E. match type of E with (_, _, Some ?t) = _ => assert (ED : D' = t) by congruence end. rewrite ED. cbn [drows dcols]. clear E ED.
  rewrite !map_length.
  match goal with |- context [if ?c then mkDmat _ _ _ else D] => destruct c eqn:C end; cbn [drows dcols].
  - split; [lia|]. destruct xs1, xs2, xs3; simpl; repeat split; intros; try congruence; lia.
  - apply orb_false_iff in C. destruct C as [C1 C2]. apply Nat.ltb_ge in C1, C2. split; [lia|].
    destruct xs1, xs2, xs3; simpl in C2 |- *; repeat split; intros; try congruence; lia.
Qed.
Print Assumptions compute_basis_derivatives_size.

(** Derivatives are refused exactly outside the box spanned by the points (the values are stored all the
    same, by [compute_basis_values]). *)
Theorem compute_basis_derivatives_accepted val D xs1 xs2 xs3 x1 x2 x3 : NoDup xs1 -> NoDup xs2 -> NoDup xs3 ->
  (fst (fst (compute_basis val (Some D) (map Some xs1) x1 (map Some xs2) x2 (map Some xs3) x3)) = true <->
   InRange xs1 x1 /\ InRange xs2 x2 /\ InRange xs3 x3).
Proof. exact (cb_accepts val D xs1 xs2 xs3 x1 x2 x3). Qed.
Print Assumptions compute_basis_derivatives_accepted.

(** The stored values interpolate: every polynomial of degree less than the number of points in each
    direction is recovered from its nodal values, at every evaluation point. *)
Theorem compute_basis_reproduces val derval xs1 xs2 xs3 x1 x2 x3 :
  NoDup xs1 -> NoDup xs2 -> NoDup xs3 ->
  let n1 := nfun xs1 in let n2 := nfun xs2 in let n3 := nfun xs3 in
  let val' := snd (fst (compute_basis val derval (map Some xs1) x1 (map Some xs2) x2 (map Some xs3) x3)) in
  exists shp : nat -> nat -> nat -> R,
  (forall i j k, (i < n1)%nat -> (j < n2)%nat -> (k < n3)%nat -> nth (npos n1 n2 i j k) val' None = Some (shp i j k)) /\
  forall q, PolyFn3 n1 n2 n3 q ->
    sum3 n1 n2 n3 (fun i j k => q (nth i xs1 0) (nth j xs2 0) (nth k xs3 0) * shp i j k) = q x1 x2 x3.
Proof.
  intros Hn1 Hn2 Hn3 n1 n2 n3 val'. exists (fun i j k => bas xs1 i x1 * bas xs2 j x2 * bas xs3 k x3). split.
  - pose proof (cb_values val derval xs1 xs2 xs3 x1 x2 x3 Hn1 Hn2 Hn3) as H. cbv zeta in H. fold n1 n2 n3 in H.
    unfold val'. destruct (compute_basis _ _ _ _ _ _ _ _) as [[ok v] der']. simpl. apply H.
  - intros q Hq. now apply sum3_interp.
Qed.
Print Assumptions compute_basis_reproduces.

(** Equidistant points, any numbers of points: as above, with the points -1 ... 1. *)
Theorem compute_basis_equidistant val derval p1 x1 p2 x2 p3 x3 :
  compute_basis_n val derval p1 x1 p2 x2 p3 x3 =
    compute_basis val derval (map Some (ipts p1 x1)) x1 (map Some (ipts p2 x2)) x2 (map Some (ipts p3 x3)) x3 /\
  (forall p x, NoDup (ipts p x) /\ length (ipts p x) = p /\ (InRange (ipts p x) x <-> (p < 2)%nat \/ -1 <= x <= 1)) /\
  (forall p, (2 <= p)%nat -> nth 0 (equidistant p) 0 = -1 /\ last (equidistant p) 0 = 1).
Proof.
  split; [apply compute_basis_n_ipts | split; [|exact equidistant_range]].
  intros p x. split; [apply ipts_nodup | split; [apply ipts_length | apply ipts_range]].
Qed.
Print Assumptions compute_basis_equidistant.

(** In particular the basis functions always add up to one. *)
Theorem compute_basis_partition_of_unity val derval p1 x1 p2 x2 p3 x3 :
  let n1 := Nat.max 1 p1 in let n2 := Nat.max 1 p2 in let n3 := Nat.max 1 p3 in
  let val' := snd (fst (compute_basis_n val derval p1 x1 p2 x2 p3 x3)) in
  exists shp : nat -> nat -> nat -> R,
  (forall i j k, (i < n1)%nat -> (j < n2)%nat -> (k < n3)%nat -> nth (npos n1 n2 i j k) val' None = Some (shp i j k)) /\
  sum3 n1 n2 n3 shp = 1.
Proof.
  intros n1 n2 n3 val'. unfold val'. rewrite compute_basis_n_ipts.
  destruct (compute_basis_reproduces val derval (ipts p1 x1) (ipts p2 x2) (ipts p3 x3) x1 x2 x3
     (ipts_nodup _ _) (ipts_nodup _ _) (ipts_nodup _ _)) as (shp & H1 & H2).
  unfold nfun in H1, H2. rewrite !ipts_length in H1, H2. fold n1 n2 n3 in H1, H2.
  exists shp. split; [exact H1|]. specialize (H2 (fun _ _ _ => 1)). cbv beta in H2. rewrite <- H2.
  - unfold sum3. apply rsum_ext. intros k _. apply rsum_ext. intros j _. apply rsum_ext. intros i _. ring.
  - split; [|split]; intros; apply (PolyFn_weaken 1); try apply PolyFn_const; unfold n1, n2, n3; lia.
Qed.
Print Assumptions compute_basis_partition_of_unity.

(** LagrangeInterpolator: the interpolant is the polynomial of degree less than the number of grid points
    through the data, ... *)
Theorem interpolator_interpolates grid data : NoDup grid -> length data = length grid ->
  exists f, PolyFn (length grid) f /\ (forall j, (j < length grid)%nat -> f (nth j grid 0) = nth j data 0) /\
    forall x, li_interpolate grid x data = Some (Some (f x)).
Proof. exact (li_interpolant grid data). Qed.
Print Assumptions interpolator_interpolates.

(** ... polynomials of that degree are recovered exactly, ... *)
Theorem interpolator_reproduces grid q x : NoDup grid -> PolyFn (length grid) q ->
  li_interpolate grid x (map q grid) = Some (Some (q x)).
Proof. exact (li_reproduce grid q x). Qed.
Print Assumptions interpolator_reproduces.

(** ... and the matrix of [get] applied to the data gives the interpolated values at the requested points. *)
Theorem interpolator_matrix grid xg data : NoDup grid -> length data = length grid ->
  fst (li_get grid xg) = (length xg, length grid) /\
  forall r, (1 <= r <= length xg)%nat ->
  exists row : nat -> R,
    (forall c, (1 <= c <= length grid)%nat -> snd (li_get grid xg) r c = Some (Some (row c))) /\
    li_interpolate grid (nth (r - 1) xg 0) data
      = Some (Some (rsum (map (fun c => row c * nth (c - 1) data 0) (seq 1 (length grid))))).
Proof. intros Hn Hl. split; [reflexivity | now apply li_get_rows]. Qed.
Print Assumptions interpolator_matrix.

(** More data than grid points: the grid is read out of bounds (undefined behaviour). *)
Theorem interpolator_too_much_data_refuted grid x data : grid <> [] -> (length grid < length data)%nat ->
  li_interpolate grid x data = None.
Proof. exact (li_interpolate_oob grid x data). Qed.
Print Assumptions interpolator_too_much_data_refuted.

(** ** Concrete cases *)
Lemma nodup3 : NoDup [-1; 0; 1].
Proof. repeat constructor; simpl; lra. Qed.

Example ex_is_lagrange : IsLagrange [-1; 0; 1] 1 (fun x => 1 - x * x).
Proof.
  split.
  - exists [1; 0; -1]. split; [simpl; lia | intro x; simpl; ring].
  - intros j Hj. destruct j as [|[|[|j]]]; simpl in *; try lra. lia.
Qed.

(** eval(1, 1/2) on three points is 3/4, and the derivative there is -1 *)
Example ex_eval : lag_eval (map Some [-1; 0; 1]) (Z.of_nat 1) (1/2) false = Some (Some (3/4)) /\
  exists d, lag_eval (map Some [-1; 0; 1]) (Z.of_nat 1) (1/2) true = Some (Some d) /\ derivable_pt_lim (fun x => 1 - x * x) (1/2) d.
Proof.
  split.
  - rewrite (lagrange1d_eval_value [-1; 0; 1] 1 _ (1/2) nodup3 ltac:(simpl; lia) ex_is_lagrange). do 2 f_equal. lra.
  - apply (lagrange1d_eval_derivative [-1; 0; 1] 1 _ (1/2) nodup3 ltac:(simpl; lia) ex_is_lagrange). simpl. lra.
Qed.

(** a 2D basis on 3 x 2 points satisfies the hypotheses of the theorems above *)
Example ex_basis2 : exists f1 f2 f3, IsBasis [-1; 0; 1] f1 /\ IsBasis [-1; 1] f2 /\ IsBasis [] f3 /\
  InRange [-1; 0; 1] (1/2) /\ InRange [-1; 1] (-1/3) /\ InRange [] 0 /\ NoDup [-1; 1].
Proof.
  assert (N2 : NoDup [-1; 1]) by (repeat constructor; simpl; lra).
  exists (bas [-1; 0; 1]), (bas [-1; 1]), (bas []).
  split; [apply bas_is, nodup3 | split; [apply bas_is, N2 | split; [apply bas_is; constructor|]]].
  split; [right; simpl; lra | split; [right; simpl; lra | split; [now left | exact N2]]].
Qed.

(** derivatives outside [-1,1] are refused, values are not *)
Example ex_refused : lag_eval (map Some [-1; 0; 1]) (Z.of_nat 1) 2 true = None /\ lag_eval (map Some [-1; 0; 1]) (Z.of_nat 1) 2 false = Some (Some (-3)).
Proof.
  split.
  - apply lagrange1d_eval_refused; [discriminate|]. right; right; right. simpl. lra.
  - rewrite (lagrange1d_eval_value [-1; 0; 1] 1 _ 2 nodup3 ltac:(simpl; lia) ex_is_lagrange). do 2 f_equal. lra.
Qed.
