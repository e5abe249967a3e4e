(** Theorems about the text definitions of scalar functions (C75). *)
From Coq Require Import List Arith ZArith Bool Reals String Ascii Lia Lra.
From Verif Require Import Lagr_model Fun_model Fun_spec Fun_proofs Fun_parse_model Fun_parse_spec.
Import ListNotations.
Open Scope bool_scope.
Open Scope R_scope.

Local Arguments sf_eval : simpl never.

Section Props.
Variable atof : string -> R.
Variable atoi : string -> Z.
Variable file : string -> Z -> option (list (R * R)).
Variable expr : list string -> R -> option sfun.
Notation parse_real := (parse_real atof atoi file expr).
Notation parse_function := (parse_function atof atoi file expr).
Notation file_pts := (file_pts file).

(** amplitude of time functions *)
Lemma fdiv_scale a b c v : fdiv (Some b) (Some c) = Some v -> fdiv (Some (a * b)) (Some c) = Some (a * v).
Proof. intros E. apply fdiv_inv in E. destruct E as [N ->]. rewrite fdiv_ok by exact N. f_equal. unfold Rdiv. ring. Qed.

Lemma sf_scale_lin pts C x v : sf_eval (SLinear pts 1) x = Some v -> sf_eval (SLinear pts C) x = Some (C * v).
Proof.
  destruct pts as [|p l].
  - unfold sf_eval. intros E. injection E as <-. f_equal. ring.
  - rewrite !sf_eval_lin by discriminate. intros E. injection E as <-. f_equal. unfold lin_val.
    destruct (_ =? _)%nat; [ring |]. destruct (_ <=? _)%nat; [ring |]. cbv zeta. ring.
Qed.

Lemma time_scale type toks C s : ipfx "expr" type = false -> parse_function type (Strtok toks) C false = Some (Some s) ->
  exists s1, parse_function type (Strtok toks) 1 false = Some (Some s1) /\
    forall x v, sf_eval s1 x = Some v -> sf_eval s x = Some (C * v).
Proof.
  intros NE H. unfold Fun_parse_model.parse_function in *. rewrite NE in *. cbn [toks_of] in *.
  destruct (ipfx "Ramp" type || String.eqb type "Tinit").
  { destruct (param atof toks 1) as [xm r]. injection H as <-. eexists. split; [reflexivity |]. intros x v. unfold sf_eval, get_constant.
    destruct (rltb x xm); intros E.
    - replace (C * x) with (C * (1 * x)) by ring. apply fdiv_scale, E.
    - injection E as <-. f_equal. ring. }
  destruct (ipfx "Dirac" type).
  { destruct (param atof toks 1) as [xm r]. injection H as <-. eexists. split; [reflexivity |]. intros x v. unfold sf_eval, get_constant.
    destruct (rltb _ _); intros E; injection E as <-; f_equal; ring. }
  destruct (ipfx "Step" type).
  { destruct (param atof toks 1) as [xm r]. injection H as <-. eexists. split; [reflexivity |]. intros x v. unfold sf_eval, get_constant.
    destruct (rleb _ _); intros E; injection E as <-; f_equal; ring. }
  destruct (ieq type "sin").
  { destruct (param atof toks 1) as [w r]. destruct r as [|t r']; injection H as <-; (eexists; split; [reflexivity |]);
      intros x v E; unfold sf_eval, get_constant in *; injection E as <-; f_equal; ring. }
  destruct (ipfx "PiecewiseLin" type).
  { destruct toks as [|fname r]; [discriminate |].
    destruct (match r with t :: r' => (atoi t, r') | [] => (2%Z, []) end) as [col r'] eqn:E0.
    injection H as <-. eexists. split; [reflexivity |]. intros x v. unfold get_constant. apply sf_scale_lin. }
  injection H as <-. eexists. split; [reflexivity |]. intros x v E. unfold sf_eval in *. injection E as <-. f_equal. ring.
Qed.

Lemma with_time_scale g g1 toks A f : (forall X v, rf_eval g1 X = Some v -> rf_eval g X = Some (A * v)) ->
  with_time atof atoi file expr (Some g) toks 1 = Some (Some f) ->
  exists f1, with_time atof atoi file expr (Some g1) toks 1 = Some (Some f1) /\ Scaled A f f1.
Proof.
  intros Hg H. destruct toks as [|t r]; cbn [with_time] in *.
  - injection H as <-. eexists. split; [reflexivity |]. exact Hg.
  - destruct (parse_function t (Strtok r) 1 false) as [[s|]|]; try discriminate. injection H as <-.
    eexists. split; [reflexivity |]. intros X v E. cbn [rf_eval] in *. apply fmul_inv in E. destruct E as (u & w & E1 & E2 & ->).
    rewrite (Hg X u E1), E2. cbn. f_equal. ring.
Qed.

(** C75: the amplitude multiplies the function for step functions, quadratic functions and functions of the time
    (other than expressions), with or without a time variation *)
Theorem amplitude_scales : forall name toks A f,
  In (lc name) ["stepx"; "stepy"; "stepz"; "stepxy"; "quadx"; "quady"; "quadz"]%string \/ (kind_of name = KNone /\ ipfx "expr" name = false) ->
  parse_real (Some name) toks A = Some (Some f) ->
  exists f1, parse_real (Some name) toks 1 = Some (Some f1) /\ Scaled A f f1.
Proof.
  intros name toks A f Hn H. unfold Fun_parse_model.parse_real in *.
  assert (Q : forall d a b X v, rf_eval (RQuad d 1 a b) X = Some v -> rf_eval (RQuad d A a b) X = Some (A * v)).
  { intros d a b X v E. cbn [rf_eval] in *. cbv zeta in *. set (x := coord X (d - 1)) in *.
    replace (A * (a - x) * (x - b)) with (A * (1 * (a - x) * (x - b))) by ring. apply fdiv_scale, E. }
  assert (P : forall a b d X v, rf_eval (RStepX 1 a b d) X = Some v -> rf_eval (RStepX A a b d) X = Some (A * v)).
  { intros a b d X v. cbn [rf_eval]. destruct (_ || _); intros E; injection E as <-; f_equal; ring. }
  assert (PXY : forall a b c d X v, rf_eval (RStepXY 1 a b c d) X = Some v -> rf_eval (RStepXY A a b c d) X = Some (A * v)).
  { intros a b c d X v. cbn [rf_eval]. destruct (rltb (ax X) a || rltb c (ax X) || rltb (ay X) b || rltb d (ay X)); intros E; injection E as <-; f_equal; ring. }
  destruct Hn as [Hn | [Hk NE]].
  - assert (K : (exists d, kind_of name = KStep d) \/ kind_of name = KStepXY \/ (exists d, kind_of name = KQuad d)).
    { unfold kind_of, ieq.
      destruct Hn as [<- | [<- | [<- | [<- | [<- | [<- | [<- | []]]]]]]]; vm_compute;
        [left | left | left | right; left | right; right | right; right | right; right]; try reflexivity; eexists; reflexivity. }
    destruct K as [[d K] | [K | [d K]]]; rewrite K in *.
    + destruct toks as [|a [|b r]]; try discriminate. eapply with_time_scale; [|exact H]. intros; now apply P.
    + destruct toks as [|a [|b r]]; try discriminate. cbv zeta in *. destruct r as [|c r'].
      * eapply with_time_scale; [|exact H]. intros; now apply PXY.
      * destruct (head_is "t" c).
        -- destruct r' as [|x1 [|y1 r'']]; try discriminate. eapply with_time_scale; [|exact H]. intros; now apply PXY.
        -- eapply with_time_scale; [|exact H]. intros; now apply PXY.
    + destruct toks as [|a [|b r]]; try discriminate. eapply with_time_scale; [|exact H]. intros; now apply Q.
  - rewrite Hk in *. cbn [with_time] in *. destruct (parse_function name (Strtok toks) A false) as [[s|]|] eqn:Es; try discriminate.
    injection H as <-. destruct (time_scale name toks A s NE Es) as (s1 & E1 & S1). rewrite E1.
    eexists. split; [reflexivity |]. intros X v E. cbn [rf_eval] in *. apply S1, E.
Qed.

(** without a name the function is the constant A *)
Theorem no_name_is_constant : forall toks A, parse_real None toks A = Some (Some (RConst A)).
Proof. reflexivity. Qed.

Lemma lc_kind n1 n2 : lc n1 = lc n2 -> kind_of n1 = kind_of n2.
Proof. intros E. unfold kind_of, ieq. rewrite E. reflexivity. Qed.

Lemma not_ok1 (P : Prop) (b : bool) : (b = true <-> ~ P) -> (P -> b = false) /\ (~ P -> b = true).
Proof. intros H. split; intros HP; [|tauto]. destruct b; [|reflexivity]. exfalso. apply H; auto. Qed.

(** the documented forms, names in any case: values *)
Theorem step_form : forall name d a b A, lc name = (match d with 1%nat => "stepx" | 2%nat => "stepy" | _ => "stepz" end)%string ->
  (1 <= d <= 3)%nat ->
  exists f, parse_real (Some name) [a; b] A = Some (Some f) /\ BoxFun f A (bound1 d (atof a)) (bound1 d (atof b)).
Proof.
  intros name d a b A Hn Hd.
  assert (K : kind_of name = KStep (d - 1)).
  { unfold kind_of, ieq. rewrite Hn. destruct d as [|[|[|[|d]]]]; try lia; reflexivity. }
  unfold Fun_parse_model.parse_real. rewrite K. eexists. split; [reflexivity |].
  intros X. cbn [rf_eval]. rewrite coord_getc by exact Hd. cbv zeta.
  set (ok := forall d0, (1 <= d0 <= 3)%nat -> _).
  assert (E : ok <-> atof a <= getc X d <= atof b).
  { split.
    - intros H. destruct (H d Hd) as [H1 H2]. unfold bound1 in *. rewrite Nat.eqb_refl in *. split; [now apply H1 | now apply H2].
    - intros H d0 Hd0. unfold bound1. destruct (Nat.eqb_spec d0 d) as [->|]; split; intros b0 E; try discriminate; injection E as <-; lra. }
  split; intros H.
  - apply E in H. assert (E1 : rltb (getc X d) (atof a) = false) by (apply rltb_nf; lra).
    assert (E2 : rltb (atof b) (getc X d) = false) by (apply rltb_nf; lra). rewrite E1, E2. reflexivity.
  - destruct (rltb (getc X d) (atof a) || rltb (atof b) (getc X d)) eqn:Eb; [reflexivity |].
    exfalso. apply H, E. apply orb_false_iff in Eb. destruct Eb as [E1 E2]. apply rltb_nf in E1, E2. lra.
Qed.

Theorem step_xy_form : forall name x0 y0 to x1 y1 A, lc name = "stepxy"%string -> head_is "t" to = true ->
  exists f, parse_real (Some name) [x0; y0; to; x1; y1] A = Some (Some f) /\
    BoxFun f A (bound12 (atof x0) (atof y0)) (bound12 (atof x1) (atof y1)).
Proof.
  intros name x0 y0 to x1 y1 A Hn Ht.
  assert (K : kind_of name = KStepXY) by (unfold kind_of, ieq; rewrite Hn; reflexivity).
  unfold Fun_parse_model.parse_real. rewrite K, Ht. eexists. split; [reflexivity |].
  intros X. cbn [rf_eval]. cbv zeta. set (ok := forall d0, (1 <= d0 <= 3)%nat -> _).
  assert (E : ok <-> (atof x0 <= ax X <= atof x1) /\ (atof y0 <= ay X <= atof y1)).
  { split.
    - intros H. destruct (H 1%nat ltac:(lia)) as [H1 H2]. destruct (H 2%nat ltac:(lia)) as [H3 H4]. cbn in *.
      repeat split; auto.
    - intros H d0 Hd0. destruct d0 as [|[|[|[|d0]]]]; try lia; cbn; split; intros b0 E; try discriminate; injection E as <-; lra. }
  split; intros H.
  - apply E in H. assert (E1 : rltb (ax X) (atof x0) = false) by (apply rltb_nf; lra).
    assert (E2 : rltb (atof x1) (ax X) = false) by (apply rltb_nf; lra).
    assert (E3 : rltb (ay X) (atof y0) = false) by (apply rltb_nf; lra).
    assert (E4 : rltb (atof y1) (ay X) = false) by (apply rltb_nf; lra). rewrite E1, E2, E3, E4. reflexivity.
  - destruct (rltb (ax X) (atof x0) || rltb (atof x1) (ax X) || rltb (ay X) (atof y0) || rltb (atof y1) (ay X)) eqn:Eb; [reflexivity |].
    exfalso. apply H, E. rewrite !orb_false_iff in Eb. destruct Eb as [[[E1 E2] E3] E4]. apply rltb_nf in E1, E2, E3, E4. lra.
Qed.

Theorem linear_form : forall name d b A X, lc name = (match d with 1%nat => "x" | 2%nat => "y" | _ => "z" end)%string -> (1 <= d <= 3)%nat ->
  exists f, parse_real (Some name) [b] A = Some (Some f) /\ rf_eval f X = Some (A * getc X d + atof b).
Proof.
  intros name d b A X Hn Hd.
  assert (K : kind_of name = KLin d) by (unfold kind_of, ieq; rewrite Hn; destruct d as [|[|[|[|d]]]]; try lia; reflexivity).
  unfold Fun_parse_model.parse_real. rewrite K. eexists. split; [reflexivity |]. cbn [rf_eval]. rewrite coord_getc by exact Hd. reflexivity.
Qed.

Theorem quadratic_form : forall name d a b A X, lc name = (match d with 1%nat => "quadx" | 2%nat => "quady" | _ => "quadz" end)%string -> (1 <= d <= 3)%nat ->
  atof a <> atof b ->
  exists f, parse_real (Some name) [a; b] A = Some (Some f) /\
    rf_eval f X = Some (A * ((atof a - getc X d) * (getc X d - atof b)) / (((atof a - atof b) / 2) * ((atof a - atof b) / 2))).
Proof.
  intros name d a b A X Hn Hd N.
  assert (K : kind_of name = KQuad d) by (unfold kind_of, ieq; rewrite Hn; destruct d as [|[|[|[|d]]]]; try lia; reflexivity).
  unfold Fun_parse_model.parse_real. rewrite K. eexists. split; [reflexivity |]. cbn [rf_eval]. rewrite coord_getc by exact Hd. cbv zeta.
  rewrite fdiv_ok. { f_equal. unfold Rdiv. ring. } intros Q. apply Rmult_integral in Q. lra.
Qed.

Theorem rotation_form : forall name (rX : bool) x y A, lc name = (if rX then "xrotz" else "yrotz")%string ->
  parse_real (Some name) [x; y] A = Some (Some (RRotZ rX A (atof x) (atof y))).
Proof.
  intros name rX x y A Hn. assert (K : kind_of name = KRot rX) by (unfold kind_of, ieq; rewrite Hn; destruct rX; reflexivity).
  unfold Fun_parse_model.parse_real. rewrite K. reflexivity.
Qed.

Theorem time_forms : forall A p q t x,
  (forall f, parse_real (Some "Ramp"%string) [p] A = Some (Some f) -> atof p <> 0 -> x < atof p -> rf_eval f (mkArg 0 0 0 (Some x)) = Some (A * (x / atof p))) /\
  (forall f, parse_real (Some "Ramp"%string) [p] A = Some (Some f) -> atof p <= x -> rf_eval f (mkArg 0 0 0 (Some x)) = Some A) /\
  (forall f, parse_real (Some "Step"%string) [p] A = Some (Some f) -> atof p <= x -> rf_eval f (mkArg 0 0 0 (Some x)) = Some A) /\
  (forall f, parse_real (Some "Step"%string) [p] A = Some (Some f) -> x < atof p -> rf_eval f (mkArg 0 0 0 (Some x)) = Some 0) /\
  (forall f, parse_real (Some "sin"%string) [p] A = Some (Some f) -> rf_eval f (mkArg 0 0 0 (Some x)) = Some (A * sin (atof p * x))) /\
  (forall f, parse_real (Some "sin"%string) [p; q] A = Some (Some f) -> rf_eval f (mkArg 0 0 0 (Some x)) = Some (A * sin (atof p * x + atof q))) /\
  (forall f, parse_real (Some "PiecewiseLin"%string) [t; q] A = Some (Some f) -> file_pts t (atoi q) <> [] -> SortedPts (file_pts t (atoi q)) ->
     exists g, PiecewiseLinear (file_pts t (atoi q)) g /\ rf_eval f (mkArg 0 0 0 (Some x)) = Some (A * g x)) /\
  (forall f, parse_real (Some "PiecewiseLin"%string) [t] A = Some (Some f) -> file_pts t 2 <> [] -> SortedPts (file_pts t 2) ->
     exists g, PiecewiseLinear (file_pts t 2) g /\ rf_eval f (mkArg 0 0 0 (Some x)) = Some (A * g x)).
Proof.
  intros A p q t x. repeat apply conj; intros f H; cbn in H; injection H as <-; cbn [rf_eval tm at_].
  - intros N L. unfold sf_eval. apply rltb_iff in L. rewrite L, fdiv_ok by exact N. f_equal. unfold Rdiv. ring.
  - intros L. unfold sf_eval. apply rltb_nf in L. rewrite L. reflexivity.
  - intros L. unfold sf_eval. apply rleb_iff in L. rewrite L. reflexivity.
  - intros L. unfold sf_eval. apply rleb_nf in L. rewrite L. reflexivity.
  - unfold sf_eval. rewrite Rplus_0_r. reflexivity.
  - reflexivity.
  - intros N So. destruct (lin_piecewise _ N So) as (g & E & P). exists g. split; [exact P | apply E].
  - intros N So. destruct (lin_piecewise _ N So) as (g & E & P). exists g. split; [exact P | apply E].
Qed.

(** a spatial form followed by a time function: the product of the two *)
Theorem space_times_time : forall name (params : list string) t r A g h,
  (match kind_of name with KLin _ => List.length params = 1 | KRot _ | KStep _ | KQuad _ => List.length params = 2
   | KStepXY => List.length params = 5 /\ head_is "t" (nth 2 params ""%string) = true | _ => False end)%nat ->
  parse_real (Some name) params A = Some (Some g) -> parse_function t (Strtok r) 1 false = Some (Some h) ->
  exists f, parse_real (Some name) (params ++ t :: r) A = Some (Some f) /\
    forall X, rf_eval f X = fmul (rf_eval g X) (sf_eval h (TimeOf X)).
Proof.
  intros name params t r A g h Hk Hg Hh. unfold Fun_parse_model.parse_real in *.
  destruct (kind_of name) eqn:K; try contradiction.
  - destruct params as [|a [|b l]]; try discriminate. cbn [app with_time] in *. rewrite Hh. injection Hg as <-.
    eexists. split; reflexivity.
  - destruct params as [|a [|b [|c l]]]; try discriminate. cbn [app with_time] in *. rewrite Hh. injection Hg as <-.
    eexists. split; reflexivity.
  - destruct params as [|a [|b [|c l]]]; try discriminate. cbn [app with_time] in *. rewrite Hh. injection Hg as <-.
    eexists. split; reflexivity.
  - destruct Hk as [Hl Ht]. destruct params as [|a [|b [|c [|e [|k [|? ?]]]]]]; try discriminate. cbn [app nth with_time] in *.
    rewrite Ht in *. rewrite Hh. injection Hg as <-. eexists. split; reflexivity.
  - destruct params as [|a [|b [|c l]]]; try discriminate. cbn [app with_time] in *. rewrite Hh. injection Hg as <-.
    eexists. split; reflexivity.
Qed.

(** names are not case sensitive *)
Theorem names_ignore_case : forall n1 n2 toks A, lc n1 = lc n2 -> kind_of n1 <> KNone ->
  parse_real (Some n1) toks A = parse_real (Some n2) toks A.
Proof.
  intros n1 n2 toks A E N. unfold Fun_parse_model.parse_real. rewrite <- (lc_kind n1 n2 E). destruct (kind_of n1); try reflexivity. contradiction.
Qed.

(** the amplitude is dropped for interpolated functions: any two amplitudes give the same function *)
Theorem interpolation_amplitude_refuted : forall toks A B,
  parse_real (Some "Interpolate1D"%string) toks A = parse_real (Some "Interpolate1D"%string) toks B.
Proof. reflexivity. Qed.

(** the amplitude of an expression is used as the increment of the numerical derivative, not as a factor *)
Theorem expression_amplitude_refuted : forall toks A, toks <> [] ->
  parse_real (Some "expression"%string) toks A =
    match expr toks A with Some s => Some (Some (RTime s)) | None => None end.
Proof. intros toks A N. destruct toks as [|t r]; [contradiction |]. unfold Fun_parse_model.parse_real. change (kind_of "expression") with KNone. cbn [with_time]. unfold Fun_parse_model.parse_function.
  change (ipfx "expr" "expression") with true. cbn [toks_of]. destruct (expr (t :: r) A); reflexivity. Qed.

(** the slope given to a linear time function, and the value of a constant one, are ignored *)
Theorem linear_slope_refuted : forall toks A, parse_real (Some "Linear"%string) toks A = Some (Some (RTime (SLinear [] (A * 1)))).
Proof. reflexivity. Qed.
Theorem constant_value_refuted : forall toks A, parse_real (Some "Constant"%string) toks A = Some (Some (RTime (SLinear [] (A * 1)))).
Proof. reflexivity. Qed.

(** without lower bounds the step in x and y starts at -1, not at minus infinity *)
Theorem step_xy_unbounded_refuted : forall x1 y1 A, A <> 0 -> 0 <= atof x1 -> 0 <= atof y1 ->
  exists f X, parse_real (Some "StepXY"%string) [x1; y1] A = Some (Some f) /\ ax X <= atof x1 /\ ay X <= atof y1 /\ rf_eval f X = Some 0 /\ A <> 0.
Proof.
  intros x1 y1 A N H1 H2. eexists. exists (mkArg (-2) (-2) 0 None). split; [reflexivity |]. cbn [ax ay]. repeat split; try lra; auto.
  cbn [rf_eval ax ay]. assert (E : rltb (-2) (-1) = true) by (apply rltb_iff; lra). rewrite E. reflexivity.
Qed.

(** missing parameters: undefined behaviour (a null pointer is converted) or a null pointer is returned *)
Theorem missing_parameters_refuted : forall p A,
  parse_real (Some "StepX"%string) [p] A = None /\ parse_real (Some "quadY"%string) [p] A = None /\
  parse_real (Some "XrotZ"%string) [p] A = None /\ parse_real (Some "StepXY"%string) [p] A = None /\
  parse_real (Some "X"%string) [] A = Some None /\ parse_real (Some "PiecewiseLin"%string) [] A = None.
Proof. intros. repeat split. Qed.
End Props.
Print Assumptions amplitude_scales.
Print Assumptions no_name_is_constant.
Print Assumptions step_form.
Print Assumptions step_xy_form.
Print Assumptions linear_form.
Print Assumptions quadratic_form.
Print Assumptions rotation_form.
Print Assumptions time_forms.
Print Assumptions space_times_time.
Print Assumptions names_ignore_case.
Print Assumptions interpolation_amplitude_refuted.
Print Assumptions expression_amplitude_refuted.
Print Assumptions linear_slope_refuted.
Print Assumptions constant_value_refuted.
Print Assumptions step_xy_unbounded_refuted.
Print Assumptions missing_parameters_refuted.

(** ** non-vacuity *)
Example parse_case : forall atof atoi file expr,
  parse_real atof atoi file expr (Some "quadY"%string) ["0"; "2"; "sin"; "3"]%string 5 =
    Some (Some (RSpaceTime (RQuad 2 5 (atof "0"%string) (atof "2"%string)) (SSine 1 (atof "3"%string) 0))).
Proof. reflexivity. Qed.
Example scaling_name : In (lc "StepXY") ["stepx"; "stepy"; "stepz"; "stepxy"; "quadx"; "quady"; "quadz"]%string /\ kind_of "Ramp" = KNone /\ ipfx "expr" "Ramp" = false.
Proof. cbn. tauto. Qed.
