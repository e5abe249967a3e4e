(** Proofs about the trigonometric principal values. *)
From Coq Require Import Reals List Bool ZArith Lia Lra Arith Psatz.
From Verif Require Import Ten_model Ten_spec Ten_proofs Ten_proofs2.
Import ListNotations.
Local Open Scope R_scope.

Lemma sqn : forall x, 0 <= x * x.
Proof. intros x. apply Rle_0_sqr. Qed.
Lemma quad_nonneg : forall u w s4 s5 s6, 0 <= u -> 0 <= w -> u * w = s4 * s4 ->
  0 <= u * (s5 * s5) + w * (s6 * s6) + 2 * s4 * s5 * s6.
Proof.
  intros u w s4 s5 s6 Hu Hw E.
  destruct (Req_dec u 0) as [-> | Hn].
  - assert (s4 = 0) as ->. { rewrite Rmult_0_l in E. symmetry in E. apply Rmult_integral in E. tauto. }
    pose proof (Rmult_le_pos _ _ Hw (sqn s6)). lra.
  - assert (0 < u) by lra. apply Rmult_le_reg_l with u; [assumption|].
    rewrite Rmult_0_r.
    replace (u * (u * (s5 * s5) + w * (s6 * s6) + 2 * s4 * s5 * s6))
      with ((u * s5 + s4 * s6) * (u * s5 + s4 * s6) + (u * w - s4 * s4) * (s6 * s6)) by ring.
    rewrite E. pose proof (sqn (u * s5 + s4 * s6)). lra.
Qed.

Lemma abs_le_of_sq : forall b k, 0 <= k -> b * b <= k * k -> - k <= b <= k.
Proof. intros b k Hk H. split; nra. Qed.

Lemma disc : forall s1 s2 s3 s4 s5 s6 b2 b3 r, s1 + s2 + s3 = 0 ->
  b2 = (s1 * s1 + s2 * s2 + s3 * s3) / 2 + s4 * s4 + s5 * s5 + s6 * s6 ->
  b3 = s1 * s2 * s3 + (s4 + s4) * s5 * s6 + s1 * (s4 * s4 - s5 * s5) + s2 * (s4 * s4 - s6 * s6) ->
  0 <= r -> r * r = b2 / 3 -> - (2 * (r * r * r)) <= b3 <= 2 * (r * r * r).
Proof.
  intros s1 s2 s3 s4 s5 s6 b2 b3 r E3 Eb2 Eb3 Hr Er.
  set (q := sqrt ((s1 - s2) * (s1 - s2) + 4 * (s4 * s4))).
  assert (Hq : q * q = (s1 - s2) * (s1 - s2) + 4 * (s4 * s4)).
  { apply sqrt_sqrt. pose proof (sqn (s1 - s2)). pose proof (sqn s4). lra. }
  assert (Hq0 : 0 <= q) by apply sqrt_pos. clearbody q.
  assert (Hd : - q <= s1 - s2 <= q).
  { apply abs_le_of_sq; [assumption|]. rewrite Hq. pose proof (sqn s4). lra. }
  set (b := (s1 + s2 + q) / 2). set (a := (s1 + s2 - q) / 2).
  assert (Hb : (b - s1) * (b - s2) = s4 * s4).
  { unfold b. replace (((s1 + s2 + q) / 2 - s1) * ((s1 + s2 + q) / 2 - s2))
      with ((q * q - (s1 - s2) * (s1 - s2)) / 4) by field. rewrite Hq. field. }
  assert (Ha : (s1 - a) * (s2 - a) = s4 * s4).
  { unfold a. replace ((s1 - (s1 + s2 - q) / 2) * (s2 - (s1 + s2 - q) / 2))
      with ((q * q - (s1 - s2) * (s1 - s2)) / 4) by field. rewrite Hq. field. }
  assert (Hb1 : 0 <= b - s1) by (unfold b; lra).
  assert (Hb2 : 0 <= b - s2) by (unfold b; lra).
  assert (Ha1 : 0 <= s1 - a) by (unfold a; lra).
  assert (Ha2 : 0 <= s2 - a) by (unfold a; lra).
  assert (Es3 : s3 = - s1 - s2) by lra.
  assert (Poly : forall x, x * x * x - b2 * x - b3 =
     (x - s3) * ((x - s1) * (x - s2) - s4 * s4)
     - ((x - s1) * (s5 * s5) + (x - s2) * (s6 * s6) + 2 * s4 * s5 * s6)).
  { intros x. rewrite Eb2, Eb3, Es3. field. }
  assert (Pb : b * b * b - b2 * b - b3 <= 0).
  { rewrite Poly, Hb. pose proof (quad_nonneg _ _ s4 s5 s6 Hb1 Hb2 Hb). lra. }
  assert (Pa : 0 <= a * a * a - b2 * a - b3).
  { rewrite Poly. replace ((a - s1) * (a - s2)) with (s4 * s4) by (rewrite <- Ha; ring).
    pose proof (quad_nonneg _ _ (- s4) s5 s6 Ha1 Ha2 ltac:(rewrite Ha; ring)). lra. }
  assert (Hab : s1 * s1 + s2 * s2 + 2 * (s4 * s4) = a * a + b * b).
  { unfold a, b. replace ((s1 + s2 - q) / 2 * ((s1 + s2 - q) / 2) + (s1 + s2 + q) / 2 * ((s1 + s2 + q) / 2))
      with (((s1 + s2) * (s1 + s2) + q * q) / 2) by field. rewrite Hq. field. }
  assert (Hs : s3 * s3 = (a + b) * (a + b)).
  { rewrite Es3. unfold a, b. field. }
  assert (B2 : a * a + a * b + b * b <= b2).
  { pose proof (sqn s5). pose proof (sqn s6).
    assert (s1 * s1 + s2 * s2 + s3 * s3 + 2 * (s4 * s4) = 2 * (a * a + a * b + b * b)).
    { rewrite Hs. replace (s1 * s1 + s2 * s2 + (a + b) * (a + b) + 2 * (s4 * s4))
        with (s1 * s1 + s2 * s2 + 2 * (s4 * s4) + (a + b) * (a + b)) by ring.
      rewrite Hab. ring. }
    lra. }
  assert (Bb : - (2 * r) <= b <= 2 * r).
  { apply abs_le_of_sq; [lra|]. replace (2 * r * (2 * r)) with (4 * (r * r)) by ring. rewrite Er.
    pose proof (sqn (a + b / 2)) as Q.
    replace ((a + b / 2) * (a + b / 2)) with (a * a + a * b + b * b - 3 / 4 * (b * b)) in Q by field.
    lra. }
  assert (Ba : - (2 * r) <= a <= 2 * r).
  { apply abs_le_of_sq; [lra|]. replace (2 * r * (2 * r)) with (4 * (r * r)) by ring. rewrite Er.
    pose proof (sqn (b + a / 2)) as Q.
    replace ((b + a / 2) * (b + a / 2)) with (a * a + a * b + b * b - 3 / 4 * (a * a)) in Q by field.
    lra. }
  assert (E2 : b2 = 3 * (r * r)) by lra.
  rewrite E2 in Pa, Pb. clear - Pa Pb Ba Bb. split.
  - assert (0 <= (b - r) * (b - r) * (b + 2 * r)) as K.
    { apply Rmult_le_pos; [apply sqn | lra]. }
    replace ((b - r) * (b - r) * (b + 2 * r))
      with (b * b * b - 3 * (r * r) * b - b3 + (2 * (r * r * r) + b3)) in K by ring. lra.
  - assert (0 <= (a + r) * (a + r) * (2 * r - a)) as K.
    { apply Rmult_le_pos; [apply sqn | lra]. }
    replace ((a + r) * (a + r) * (2 * r - a))
      with (- (a * a * a - 3 * (r * r) * a - b3) + (2 * (r * r * r) - b3)) in K by ring. lra.
Qed.

Lemma cos_atan2_ok : forall x y k, 0 <= y -> 0 < k -> x * x + y * y = k * k ->
  cos (atan2 y x) = x / k.
Proof.
  intros x y k Hy Hk E. unfold atan2.
  assert (S : forall m, m <> 0 -> 0 < k / m -> (m = x \/ m = - x) ->
    sqrt (1 + (y / x)²) = k / m).
  { intros m Hm Hp Hx. apply sqrt_lem_1; [|lra|].
    - pose proof (Rle_0_sqr (y / x)). lra.
    - unfold Rsqr. destruct Hx as [-> | ->].
      + replace (k / x * (k / x)) with (k * k / (x * x)) by (field; assumption).
        rewrite <- E. field. assumption.
      + assert (x <> 0) by lra.
        replace (k / - x * (k / - x)) with (k * k / (x * x)) by (field; assumption).
        rewrite <- E. field. assumption. }
  destruct (Rlt_dec 0 x) as [L | L].
  - rewrite cos_atan, (S x); [field; lra | lra | | now left].
    apply Rdiv_lt_0_compat; lra.
  - destruct (Rlt_dec x 0) as [L2 | L2].
    + destruct (Rle_dec 0 y); [|lra].
      rewrite neg_cos, cos_atan, (S (- x)); [field; lra | lra | | now right].
      apply Rdiv_lt_0_compat; lra.
    + assert (x = 0) as -> by lra.
      destruct (Rlt_dec 0 y).
      * rewrite cos_PI2. field. lra.
      * exfalso. assert (y = 0) as -> by lra.
        pose proof (Rmult_lt_0_compat _ _ Hk Hk). lra.
Qed.

Lemma cos_triple : forall x, cos (3 * x) = 4 * (cos x * cos x * cos x) - 3 * cos x.
Proof.
  intros x. replace (3 * x) with (2 * x + x) by ring. rewrite cos_plus, cos_2a_cos, sin_2a.
  pose proof (sin2_cos2 x) as E. unfold Rsqr in E.
  replace ((2 * cos x * cos x - 1) * cos x - 2 * sin x * cos x * sin x)
    with (2 * (cos x * cos x * cos x) - cos x - 2 * cos x * (sin x * sin x)) by ring.
  replace (sin x * sin x) with (1 - cos x * cos x) by lra. ring.
Qed.

Lemma trig_product : forall al k1 y,
  (y - k1 * cos al) * (y - k1 * cos (al - PI * 2 / 3)) * (y - k1 * cos (al + PI * 2 / 3))
  = y * y * y - 3 / 4 * (k1 * k1) * y - k1 * k1 * k1 * cos (3 * al) / 4.
Proof.
  intros al k1 y.
  replace (PI * 2 / 3) with (2 * (PI / 3)) by field.
  rewrite cos_minus, cos_plus, cos_2PI3, sin_2PI3, cos_triple.
  pose proof (sqrt_sqrt 3 ltac:(lra)) as E3. pose proof (sin2_cos2 al) as E. unfold Rsqr in E.
  generalize dependent (cos al). generalize dependent (sin al). generalize dependent (sqrt 3).
  intros t Et s c Es.
  transitivity ((y - k1 * c) * ((y + k1 * c / 2) * (y + k1 * c / 2)
                 - k1 * k1 * (t * t) * (s * s) / 4)); [field|].
  rewrite Et. replace (s * s) with (1 - c * c) by lra. field.
Qed.

Lemma core : forall b1 s1 s2 s3 s4 s5 s6 b2 b3, s1 + s2 + s3 = 0 ->
  b2 = (s1 * s1 + s2 * s2 + s3 * s3) / 2 + s4 * s4 + s5 * s5 + s6 * s6 ->
  b3 = s1 * s2 * s3 + (s4 + s4) * s5 * s6 + s1 * (s4 * s4 - s5 * s5) + s2 * (s4 * s4 - s6 * s6) ->
  0 < b2 ->
  let k1 := 2 * sqrt (b2 / 3) in let k2 := 4 * b3 in let k3 := k1 * k1 * k1 in
  let al := atan2 (sqrt (Rabs (k3 * k3 - k2 * k2))) k2 / 3 in
  forall x, (x - (b1 + k1 * cos al)) * (x - (b1 + k1 * cos (al - PI * 2 / 3))) *
            (x - (b1 + k1 * cos (al + PI * 2 / 3)))
          = (x - b1) * (x - b1) * (x - b1) - b2 * (x - b1) - b3.
Proof.
  intros b1 s1 s2 s3 s4 s5 s6 b2 b3 H3 Eb2 Eb3 Hpos k1 k2 k3 al x.
  assert (Hr : 0 < sqrt (b2 / 3)) by (apply sqrt_lt_R0; lra).
  pose proof (sqrt_sqrt (b2 / 3) ltac:(lra)) as Er.
  pose proof (disc s1 s2 s3 s4 s5 s6 b2 b3 _ H3 Eb2 Eb3 (Rlt_le _ _ Hr) Er) as D.
  unfold al, k3, k2, k1. clear al k3 k2 k1. set (r := sqrt (b2 / 3)) in *. clearbody r.
  set (k3 := 2 * r * (2 * r) * (2 * r)).
  assert (Ek3 : k3 = 8 * (r * r * r)) by (unfold k3; ring).
  assert (Hk3 : 0 < k3).
  { rewrite Ek3. pose proof (Rmult_lt_0_compat _ _ (Rmult_lt_0_compat _ _ Hr Hr) Hr). lra. }
  assert (Hd : 0 <= k3 * k3 - 4 * b3 * (4 * b3)).
  { replace (k3 * k3 - 4 * b3 * (4 * b3)) with ((k3 - 4 * b3) * (k3 + 4 * b3)) by ring.
    apply Rmult_le_pos; lra. }
  rewrite (Rabs_pos_eq _ Hd).
  set (A := atan2 (sqrt (k3 * k3 - 4 * b3 * (4 * b3))) (4 * b3)).
  assert (EA : cos A = 4 * b3 / k3).
  { apply cos_atan2_ok; [apply sqrt_pos | assumption |]. rewrite (sqrt_sqrt _ Hd). ring. }
  clearbody A.
  replace (x - (b1 + 2 * r * cos (A / 3))) with ((x - b1) - 2 * r * cos (A / 3)) by ring.
  replace (x - (b1 + 2 * r * cos (A / 3 - PI * 2 / 3)))
    with ((x - b1) - 2 * r * cos (A / 3 - PI * 2 / 3)) by ring.
  replace (x - (b1 + 2 * r * cos (A / 3 + PI * 2 / 3)))
    with ((x - b1) - 2 * r * cos (A / 3 + PI * 2 / 3)) by ring.
  rewrite trig_product. replace (3 * (A / 3)) with A by field. rewrite EA.
  fold k3. replace (2 * r * (2 * r)) with (4 * (r * r)) by ring. rewrite Er.
  field. lra.
Qed.

Lemma sort3_ok : forall p, vz (sort3 p) <= vy (sort3 p) <= vx (sort3 p) /\
  forall x, (x - vx (sort3 p)) * (x - vy (sort3 p)) * (x - vz (sort3 p))
          = (x - vx p) * (x - vy p) * (x - vz p).
Proof.
  assert (G12 : forall q, (vy (swap12 q) <= vx (swap12 q)) /\ vz (swap12 q) = vz q /\
     (vx (swap12 q) = vx q /\ vy (swap12 q) = vy q \/ vx (swap12 q) = vy q /\ vy (swap12 q) = vx q)).
  { intros [a b c]. unfold swap12. cbn [vx vy vz]. destruct (Rlt_dec a b); cbn [vx vy vz];
    repeat split; try lra; tauto. }
  assert (G23 : forall q, (vz (swap23 q) <= vy (swap23 q)) /\ vx (swap23 q) = vx q /\
     (vy (swap23 q) = vy q /\ vz (swap23 q) = vz q \/ vy (swap23 q) = vz q /\ vz (swap23 q) = vy q)).
  { intros [a b c]. unfold swap23. cbn [vx vy vz]. destruct (Rlt_dec b c); cbn [vx vy vz];
    repeat split; try lra; tauto. }
  intros p. unfold sort3.
  destruct (G12 p) as (L1 & E1 & C1). set (p1 := swap12 p) in *.
  destruct (G23 p1) as (L2 & E2 & C2). set (p2 := swap23 p1) in *.
  destruct (G12 p2) as (L3 & E3 & C3). set (p3 := swap12 p2) in *.
  split.
  - destruct C2 as [[? ?] | [? ?]], C3 as [[? ?] | [? ?]]; split; lra.
  - intros x.
    destruct C1 as [[A1 B1] | [A1 B1]], C2 as [[A2 B2] | [A2 B2]], C3 as [[A3 B3] | [A3 B3]];
    rewrite ?E3, ?A3, ?B3, ?E2, ?A2, ?B2, ?E1, ?A1, ?B1; ring.
Qed.

Definition big (T : tensor) : Prop :=
  / 10 ^ 12 * (mtrace 3 (M T) / 3) * (mtrace 3 (M T) / 3) < frob2 3 (dev (M T)) / 2.

Lemma principal3_ok : forall T sorted, symmT 3 T \/ symm33 T -> big T ->
  exists p, principal T sorted = Some p /\
    (forall x, mdet 3 (shiftm x (M T)) = (x - vx p) * (x - vy p) * (x - vz p)) /\
    (sorted = true -> vz p <= vy p <= vx p).
Proof.
  intros T sorted HT HB.
  assert (0 < / 10 ^ 12) as He by (apply Rinv_0_lt_compat; apply pow_lt; lra).
  destruct HT as [H | H].
  - scase H; try discriminate.
    match goal with |- context [mkT 3 true [?a; ?b; ?c; ?d; ?e; ?f]] =>
      rename a into A; rename b into B; rename c into C; rename d into D; rename e into E; rename f into F end.
    set (b1 := (A + B + C) / 3).
    assert (Hb : (A - b1) + (B - b1) + (C - b1) = 0) by (unfold b1; field).
    assert (E1 : mtrace 3 (M (mkT 3 true [A; B; C; D; E; F])) / 3 = b1) by (unfold b1; ev; field).
    assert (E2 : frob2 3 (dev (M (mkT 3 true [A; B; C; D; E; F]))) / 2 =
      ((A - b1) * (A - b1) + (B - b1) * (B - b1) + (C - b1) * (C - b1)) / 2 + D * D + E * E + F * F)
      by (unfold b1; ev; field).
    unfold big in HB. rewrite E1, E2 in HB.
    pose proof (core b1 (A - b1) (B - b1) (C - b1) D E F _ _ Hb eq_refl eq_refl) as K.
    unfold principal, trace. cbn [tdim tsymm tv length Nat.ltb Nat.leb Nat.eqb v_ nth orb].
    fold b1. destruct (Rle_dec _ _) as [L | L]; [lra|].
    match type of K with 0 < ?z -> _ => assert (0 < z) as Hp end.
    { pose proof (Rmult_le_pos _ _ (Rlt_le _ _ He) (sqn b1)) as Q. rewrite <- Rmult_assoc in Q. lra. }
    specialize (K Hp). cbv zeta in K.
    assert (Det : forall x, mdet 3 (shiftm x (M (mkT 3 true [A; B; C; D; E; F]))) =
      (x - b1) * (x - b1) * (x - b1) - (((A - b1) * (A - b1) + (B - b1) * (B - b1) + (C - b1) * (C - b1)) / 2
        + D * D + E * E + F * F) * (x - b1)
      - ((A - b1) * (B - b1) * (C - b1) + (D + D) * E * F + (A - b1) * (D * D - E * E)
         + (B - b1) * (D * D - F * F))).
    { intros x. unfold b1. clear. ev. field. }
    cbv zeta. destruct sorted.
    + eexists. split; [reflexivity|]. 
      match goal with |- context [sort3 ?q] => destruct (sort3_ok q) as [S1 S2] end.
      split; [|intros _; exact S1]. intros x. rewrite S2. cbn [vx vy vz]. rewrite K. apply Det.
    + eexists. split; [reflexivity|]. split; [|discriminate].
      intros x. cbn [vx vy vz]. rewrite K. apply Det.
  - s33case H.
    match goal with |- context [mkT 2 true [?a; ?b; ?c; ?d]] =>
      rename a into A; rename b into B; rename c into C; rename d into D end.
    set (b1 := (A + B + C) / 3).
    assert (Hb : (A - b1) + (B - b1) + (C - b1) = 0) by (unfold b1; field).
    assert (E1 : mtrace 3 (M (mkT 2 true [A; B; C; D])) / 3 = b1) by (unfold b1; ev; field).
    assert (E2 : frob2 3 (dev (M (mkT 2 true [A; B; C; D]))) / 2 =
      ((A - b1) * (A - b1) + (B - b1) * (B - b1) + (C - b1) * (C - b1)) / 2 + D * D + 0 * 0 + 0 * 0)
      by (unfold b1; ev; field).
    unfold big in HB. rewrite E1, E2 in HB.
    pose proof (core b1 (A - b1) (B - b1) (C - b1) D 0 0 _ _ Hb eq_refl eq_refl) as K.
    unfold principal, trace. cbn [tdim tsymm tv length Nat.ltb Nat.leb Nat.eqb v_ nth orb back last].
    fold b1. destruct (Rle_dec _ _) as [L | L]; [lra|].
    match type of K with 0 < ?z -> _ => assert (0 < z) as Hp end.
    { pose proof (Rmult_le_pos _ _ (Rlt_le _ _ He) (sqn b1)) as Q. rewrite <- Rmult_assoc in Q. lra. }
    specialize (K Hp). cbv zeta in K.
    assert (Det : forall x, mdet 3 (shiftm x (M (mkT 2 true [A; B; C; D]))) =
      (x - b1) * (x - b1) * (x - b1) - (((A - b1) * (A - b1) + (B - b1) * (B - b1) + (C - b1) * (C - b1)) / 2
        + D * D + 0 * 0 + 0 * 0) * (x - b1)
      - ((A - b1) * (B - b1) * (C - b1) + (D + D) * 0 * 0 + (A - b1) * (D * D - 0 * 0)
         + (B - b1) * (D * D - 0 * 0))).
    { intros x. unfold b1. clear. ev. field. }
    cbv zeta. destruct sorted.
    + eexists. split; [reflexivity|]. 
      match goal with |- context [sort3 ?q] => destruct (sort3_ok q) as [S1 S2] end.
      split; [|intros _; exact S1]. intros x. rewrite S2. cbn [vx vy vz]. rewrite K. apply Det.
    + eexists. split; [reflexivity|]. split; [|discriminate].
      intros x. cbn [vx vy vz]. rewrite K. apply Det.
Qed.
