(** Newmark, generalized alpha and HHT: the Newmark relations. *)
From Coq Require Import List Arith ZArith QArith Qcanon Bool Lia Ascii.
From Verif Require Import Base QcLra Mat_model Mat_spec Mat_proofs Mat_proofs8 Dyn_model Dyn_spec.
Import ListNotations.
Local Open Scope Qc_scope.

Lemma half_eq : q_half = 1 / (1 + 1). Proof. apply Qc_is_canon. reflexivity. Qed.
Lemma two_eq : q_2 = 1 + 1. Proof. apply Qc_is_canon. reflexivity. Qed.
Lemma h3_eq : q_3h = (1 + 1 + 1) / (1 + 1). Proof. apply Qc_is_canon. reflexivity. Qed.
Lemma quart_eq : q_quart = 1 / (1 + 1) / (1 + 1). Proof. apply Qc_is_canon. reflexivity. Qed.
Lemma two_neq : 1 + 1 <> 0 :> Qc. Proof. intros H. apply (f_equal this) in H. discriminate. Qed.
Ltac lits := rewrite ?half_eq, ?two_eq, ?h3_eq, ?quart_eq.
Ltac qfield := lits; field; repeat split; auto using two_neq.

Lemma isVec_self n v : length v = n -> isVec n (fun k => nth k v 0) v. Proof. split; auto. Qed.
Lemma add1_ok n f g Y X a : isVec n f Y -> isVec n g X -> isVec n (fun i => f i + a * g i) (add1 Y X a).
Proof.
  intros [LY HY] [LX HX]. destruct n as [|n].
  { destruct Y; [|discriminate]. destruct X; [|discriminate]. split; [reflexivity|]. intros; lia. }
  assert (NE : Y <> []) by (intros ->; discriminate).
  destruct (vadd_nonempty X a 0 1%Z 0 1%Z Y ltac:(lia) ltac:(lia) NE) as (A1 & A2 & A3). unfold add1. split; [rewrite A1; auto|].
  intros i Hi. rewrite <- HY, <- HX by auto. specialize (A2 i). change (Z.to_nat 1) with 1%nat in A2. rewrite !Nat.mul_1_r, !Nat.add_0_l in A2.
  rewrite A2 by lia. destruct (Nat.ltb_spec i (length X)); [reflexivity|lia].
Qed.
Lemma add1_len n Y X a : length Y = n -> length X = n -> length (add1 Y X a) = n.
Proof. intros. destruct (add1_ok n _ _ Y X a (isVec_self _ _ H) (isVec_self _ _ H0)); auto. Qed.
Lemma add1_nth n Y X a k : length Y = n -> length X = n -> (k < n)%nat -> nth k (add1 Y X a) 0 = nth k Y 0 + a * nth k X 0.
Proof. intros H H0 Hk. destruct (add1_ok n _ _ Y X a (isVec_self _ _ H) (isVec_self _ _ H0)) as [_ P]. apply P; auto. Qed.
Lemma vscale_len c v : length (vscale c v) = length v. Proof. apply map_length. Qed.
Lemma vscale_nth n c v k : length v = n -> (k < n)%nat -> nth k (vscale c v) 0 = nth k v 0 * c.
Proof. intros H Hk. destruct (vscale_ok n _ c v (isVec_self _ _ H)) as [_ P]. apply P; auto. Qed.
Lemma zeroed_len v : length (zeroed v) = length v. Proof. apply map_length. Qed.
Lemma zeroed_nth v k : nth k (zeroed v) 0 = 0.
Proof. unfold zeroed. revert k. induction v as [|x v IH]; intros [|k]; cbn; auto. Qed.
Lemma vrelax_nth n a X Y k : length X = n -> length Y = n -> (k < n)%nat -> nth k (vrelax a X Y) 0 = (1 - a) * nth k X 0 + a * nth k Y 0.
Proof. intros H H0 Hk. destruct (vrelax_ok a X Y n _ _ (isVec_self _ _ H) (isVec_self _ _ H0)) as [_ P]. rewrite P by auto. ring. Qed.
Lemma vrelax_len n a X Y : length X = n -> length Y = n -> length (vrelax a X Y) = n.
Proof. intros H H0. destruct (vrelax_ok a X Y n _ _ (isVec_self _ _ H) (isVec_self _ _ H0)); auto. Qed.
Ltac lens := repeat first [apply add1_len | apply vrelax_len | rewrite vscale_len | rewrite zeroed_len | assumption | reflexivity].
Ltac nths n := repeat first [rewrite (add1_nth n) by (lens; auto) | rewrite (vscale_nth n) by (lens; auto) | rewrite (vrelax_nth n) by (lens; auto) | rewrite zeroed_nth].

(** *** Newmark *)
Lemma newmarkPredict_ok p dt n s : usable p dt -> sized n s ->
  exists s', newmarkPredict p dt s = Some s' /\ sized n s' /\ newmarkRel (beta p) (gamma p) dt n s s' /\
    (predictor p = "a"%char -> forall k, nth k (acc s') 0 = 0) /\ (predictor p = "v"%char -> vel s' = vel s) /\ (predictor p = "d"%char -> dis s' = dis s).
Proof.
  intros [U _] (L1 & L2 & L3). unfold newmarkPredict.
  destruct U as [E | [[E G] | [E [B D]]]]; rewrite E; cbn [Ascii.eqb Bool.eqb]; eexists; (split; [reflexivity|]); (split; [repeat split; cbn [dis vel acc]; lens|]).
  - split; [|repeat split; try discriminate; intros; cbn [acc]; apply zeroed_nth].
    intros k Hk. cbn [dis vel acc]. nths n. split; ring.
  - split; [|repeat split; try discriminate]. intros k Hk. cbn [dis vel acc]. nths n. split; qfield.
  - split; [|repeat split; try discriminate]. intros k Hk. cbn [dis vel acc]. nths n. split; qfield.
Qed.
Lemma newmarkCorrect_ok p dt n lin old s : usable p dt -> sized n s -> length lin = n -> newmarkRel (beta p) (gamma p) dt n old s ->
  sized n (newmarkCorrect p dt lin s) /\ newmarkRel (beta p) (gamma p) dt n old (newmarkCorrect p dt lin s).
Proof.
  intros [_ U] (L1 & L2 & L3) L R. split; [repeat split; cbn [dis vel acc newmarkCorrect]; lens|].
  intros k Hk. destruct (R k Hk) as [R1 R2]. unfold newmarkCorrect. cbn [dis vel acc]. nths n. rewrite R1, R2.
  destruct (solveDisp p); [destruct (U eq_refl) as [B D]|]; split; qfield.
Qed.

(** *** the iteration loop *)
Lemma solveLoop_inv ST correct p nl first last norms lin (I : ST -> Prop) :
  (forall it cv k s, I s -> I (correct it cv (lin k) s)) ->
  forall fuel it c s, I s -> I (snd (fst (fst (solveLoop ST correct p nl first last norms lin fuel it c s)))).
Proof.
  intros H fuel. induction fuel as [|f IH]; intros it c s Hs; cbn [solveLoop]; [auto|].
  destruct (checkConv p nl first it (fst (norms it)) (snd (norms it)) c) as [st c']. destruct st; cbn [fst snd]; auto.
Qed.

(** *** Generalized alpha *)
Definition genInv p am af dt n (g : gstate) : Prop :=
  sized n (gprev g) /\ sized n (gtemp g) /\ newmarkRel (beta p) (gamma p) dt n (gprev g) (gtemp g) /\
  mixed af n (dis (gsol g)) (dis (gprev g)) (dis (gtemp g)) /\ mixed af n (vel (gsol g)) (vel (gprev g)) (vel (gtemp g)) /\
  mixed am n (acc (gsol g)) (acc (gprev g)) (acc (gtemp g)).
Lemma genMix_ok am af n s t : sized n s -> sized n t ->
  mixed af n (dis (genMix am af s t)) (dis s) (dis t) /\ mixed af n (vel (genMix am af s t)) (vel s) (vel t) /\ mixed am n (acc (genMix am af s t)) (acc s) (acc t).
Proof.
  intros (A1 & A2 & A3) (B1 & B2 & B3). unfold genMix; cbn [dis vel acc].
  repeat split; try (apply vrelax_len; auto); intros k Hk; apply (vrelax_nth n); auto.
Qed.
Lemma genPredict_ok p am af dt n g : usable p dt -> sized n (gsol g) ->
  exists g', genPredict p am af dt (genAdvance g) = Some g' /\ gprev g' = gsol g /\ genInv p am af dt n g'.
Proof.
  intros U S0. unfold genPredict, genAdvance; cbn [gsol gprev gtemp].
  destruct (newmarkPredict_ok p dt n (gsol g) U S0) as (s' & E & S1 & R & _). rewrite E. eexists. split; [reflexivity|]. split; [reflexivity|].
  unfold genInv; cbn [gsol gprev gtemp]. split; [auto|]. split; [auto|]. split; [auto|]. apply genMix_ok; auto.
Qed.
Lemma genCorrect_ok p am af dt n lin g cv : usable p dt -> genInv p am af dt n g -> length lin = n ->
  let g' := genCorrect p am af dt cv lin g in
  gprev g' = gprev g /\ sized n (gtemp g') /\ newmarkRel (beta p) (gamma p) dt n (gprev g) (gtemp g') /\
  (cv = true -> gsol g' = gtemp g') /\ (cv = false -> genInv p am af dt n g').
Proof.
  intros U (S0 & S1 & R & _) L. 
  assert (ET : gtemp (genCorrect p am af dt cv lin g) = newmarkCorrect p dt lin (gtemp g)) by (unfold genCorrect, newmarkCorrect; destruct cv; reflexivity).
  assert (EP : gprev (genCorrect p am af dt cv lin g) = gprev g) by (unfold genCorrect; destruct cv; reflexivity).
  destruct (newmarkCorrect_ok p dt n lin (gprev g) (gtemp g) U S1 L R) as [S2 R2].
  cbv zeta. rewrite ET, EP. split; [auto|]. split; [auto|]. split; [auto|]. split.
  - intros ->. rewrite <- ET. reflexivity.
  - intros ->. unfold genInv. rewrite ET, EP. split; [auto|]. split; [auto|]. split; [auto|].
    assert (EM : gsol (genCorrect p am af dt false lin g) = genMix am af (gprev g) (newmarkCorrect p dt lin (gtemp g))) by reflexivity.
    rewrite EM. apply genMix_ok; auto.
Qed.

(** *** HHT *)
(** after the first correction *)
Definition hhtInv b g dt n (old : state) (h : hstate) : Prop :=
  sized n (hsol h) /\ length (pV h) = n /\ length (pA h) = n /\ length (incDis h) = n /\
  (forall k, (k < n)%nat ->
    nth k (pV h) 0 = nth k (vel old) 0 * (1 - g / b) - dt * (g / b - q_2) * q_half * nth k (acc old) 0 /\
    nth k (pA h) 0 = nth k (acc old) 0 * (1 - q_half / b) - 1 / (b * dt) * nth k (vel old) 0 /\
    nth k (incDis h) 0 = nth k (dis (hsol h)) 0 - nth k (dis old) 0).
Definition hhtInv1 b g dt n old h := hhtInv b g dt n old h /\ newmarkRel b g dt n old (hsol h).
(** after the prediction: the vectors hold v - V and a - A *)
Definition hhtInv0 b g dt n (old : state) (h : hstate) : Prop :=
  hsol h = old /\ sized n old /\ length (pV h) = n /\ length (pA h) = n /\ length (incDis h) = n /\
  (forall k, (k < n)%nat ->
    nth k (pV h) 0 = nth k (vel old) 0 * (g / b) + dt * (g / b - q_2) * q_half * nth k (acc old) 0 /\
    nth k (pA h) 0 = nth k (acc old) 0 * (q_half / b) + 1 / (b * dt) * nth k (vel old) 0 /\
    nth k (incDis h) 0 = 0).
Lemma hhtPredict_ok b g dt n h : sized n (hsol h) -> length (incDis h) = n -> hhtInv0 b g dt n (hsol h) (hhtPredict b g dt h).
Proof.
  intros (L1 & L2 & L3) L4. unfold hhtPredict. unfold hhtInv0; cbn [hsol pV pA incDis]. split; [auto|]. split; [repeat split; auto|].
  split; [lens|]. split; [lens|]. split; [lens|]. intros k Hk. nths n. repeat split; ring.
Qed.
(* the common tail of a correction *)
Lemma hht_tail b g dt n old u v a inc lin : b <> 0 -> dt <> 0 -> length u = n -> length v = n -> length a = n -> length inc = n -> length lin = n ->
  (forall k, (k < n)%nat ->
    nth k v 0 = nth k (vel old) 0 * (1 - g / b) - dt * (g / b - q_2) * q_half * nth k (acc old) 0 /\
    nth k a 0 = nth k (acc old) 0 * (1 - q_half / b) - 1 / (b * dt) * nth k (vel old) 0 /\
    nth k inc 0 = nth k u 0 - nth k (dis old) 0) ->
  hhtInv1 b g dt n old (mkH (mkS (add1 u lin 1) (add1 v (add1 inc lin 1) (g / (b * dt))) (add1 a (add1 inc lin 1) (1 / (b * dt * dt)))) v a (add1 inc lin 1)).
Proof.
  intros B D Lu Lv La Li Ll H. unfold hhtInv1, hhtInv; cbn [hsol pV pA incDis]. split.
  - split; [repeat split; cbn [dis vel acc]; lens|]. split; [lens|]. split; [lens|]. split; [lens|]. intros k Hk. destruct (H k Hk) as (H1 & H2 & H3).
    split; [auto|]. split; [auto|]. cbn [dis]. nths n. rewrite H3. ring.
  - intros k Hk. destruct (H k Hk) as (H1 & H2 & H3). cbn [dis vel acc]. nths n. rewrite H1, H2, H3. split; qfield.
Qed.
Lemma hhtCorrect_first b g dt n old lin h : b <> 0 -> dt <> 0 -> hhtInv0 b g dt n old h -> length lin = n ->
  hhtInv1 b g dt n old (hhtCorrect b g dt 1 false lin h).
Proof.
  intros B D (E & (L1 & L2 & L3) & L4 & L5 & L6 & H) L. unfold hhtCorrect. cbn [Nat.eqb negb andb]. rewrite E.
  apply (hht_tail b g dt n old (dis old) (add1 (vel old) (pV h) (- (1))) (add1 (acc old) (pA h) (- (1))) (incDis h)); auto; try (lens; fail).
  intros k Hk. destruct (H k Hk) as (H1 & H2 & H3). nths n. rewrite H1, H2, H3. repeat split; ring.
Qed.
Lemma hhtCorrect_next b g dt n old it cv lin h : b <> 0 -> dt <> 0 -> hhtInv b g dt n old h -> length lin = n -> it <> 1%nat \/ cv = true ->
  hhtInv1 b g dt n old (hhtCorrect b g dt it cv lin h).
Proof.
  intros B D ((L1 & L2 & L3) & L4 & L5 & L6 & H) L C. unfold hhtCorrect.
  assert (EC : (it =? 1)%nat && negb cv = false) by (destruct C as [C| ->]; [apply Nat.eqb_neq in C; rewrite C; auto|apply andb_false_r]). rewrite EC.
  apply (hht_tail b g dt n old (dis (hsol h)) (pV h) (pA h) (incDis h)); auto.
Qed.
Lemma hhtSetSolution_ok b g dt n old new h : hhtInv b g dt n old h -> length new = n -> hhtInv b g dt n old (hhtSetSolution new h).
Proof.
  intros ((L1 & L2 & L3) & L4 & L5 & L6 & H) L. unfold hhtSetSolution, hhtInv; cbn [hsol pV pA incDis dis]. split; [repeat split; auto|].
  split; [auto|]. split; [auto|]. split; [lens|]. intros k Hk. destruct (H k Hk) as (H1 & H2 & H3). split; [auto|]. split; [auto|]. nths n. rewrite H3. ring.
Qed.
(** the loop for HHT *)
Lemma hht_loop b g dt n old p nl first norms lin : b <> 0 -> dt <> 0 -> (forall k, length (lin k) = n) ->
  forall fuel it c h, (1 <= it)%nat -> hhtInv1 b g dt n old h ->
  hhtInv1 b g dt n old (snd (fst (fst (solveLoop hstate (fun it cv => hhtCorrect b g dt it cv) p nl first true norms lin fuel it c h)))).
Proof.
  intros B D L fuel. induction fuel as [|f IH]; intros it c h Hit Hh; cbn [solveLoop]; [auto|].
  destruct (checkConv p nl first it (fst (norms it)) (snd (norms it)) c) as [st c']. destruct st; cbn [fst snd]; auto.
  - apply IH; [lia|]. apply hhtCorrect_next; auto; [apply Hh|left; lia].
  - apply IH; [lia|]. apply hhtCorrect_next; auto; [apply Hh|left; lia].
  - apply hhtCorrect_next; auto. apply Hh.
Qed.
Lemma solveLoop_iters ST correct p nl first last norms lin fuel : forall it c s,
  (it <= snd (solveLoop ST correct p nl first last norms lin fuel it c s) <= it + fuel)%nat /\
  (fst (fst (fst (solveLoop ST correct p nl first last norms lin fuel it c s))) = CONVERGED -> (snd (solveLoop ST correct p nl first last norms lin fuel it c s) < it + fuel)%nat).
Proof.
  induction fuel as [|f IH]; intros it c s; cbn [solveLoop]; [cbn; split; [lia|discriminate]|].
  destruct (checkConv p nl first it (fst (norms it)) (snd (norms it)) c) as [st c']. destruct st; cbn [fst snd]; try (split; [lia|intros; try discriminate; lia]).
  - destruct (IH (S it) c' (correct (S it) false (lin it) s)) as [A B]. split; [lia|]. intros H. specialize (B H). lia.
  - destruct (IH (S it) c' (correct (S it) false (lin it) s)) as [A B]. split; [lia|]. intros H. specialize (B H). lia.
Qed.
(** *** the nonlinear Newmark *)
Lemma nlPredict_ok b g dt n h : sized n (hsol h) -> length (incDis h) = n -> hhtInv b g dt n (hsol h) (nlPredict b g dt h).
Proof.
  intros (L1 & L2 & L3) L4. unfold nlPredict, hhtInv; cbn [hsol pV pA incDis dis vel acc]. split; [repeat split; cbn [dis vel acc]; lens|].
  split; [lens|]. split; [lens|]. split; [lens|]. intros k Hk. nths n. repeat split; ring.
Qed.
Lemma nlCorrect_ok b g dt n old lin h : b <> 0 -> dt <> 0 -> hhtInv b g dt n old h -> length lin = n -> hhtInv1 b g dt n old (nlCorrect b g dt lin h).
Proof. intros B D ((L1 & L2 & L3) & L4 & L5 & L6 & H) L. unfold nlCorrect. apply (hht_tail b g dt n old (dis (hsol h)) (pV h) (pA h) (incDis h)); auto. Qed.
