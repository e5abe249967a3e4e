(** The numbering over all processes (C93). *)
From Coq Require Import ZArith List Bool Lia Relations.
From Verif Require Import Ddp_model Ddp_proofs Ddg_model Ddg_spec Ddg_proofs.
Import ListNotations.
Local Open Scope Z_scope.

Lemma pairsOf_in : forall it e q f, length (ord it) = length (slist it) ->
  (forall i o, nth_error (ord it) i = Some o -> (o < length (mlist it))%nat) ->
  (In (e, (q, f)) (pairsOf it) <->
   exists i o, nth_error (ord it) i = Some o /\ nth_error (slist it) i = Some e /\
     nth_error (mlist it) o = Some f /\ 0 < e /\ q = mproc it).
Proof.
  intros it e q f HL HO. unfold pairsOf. rewrite filter_In, in_map_iff. cbn [fst]. split.
  - intros [((s & o) & E & H) P]. apply Z.ltb_lt in P. cbn [fst snd] in E. injection E as E1 E2 E3. subst s q.
    apply In_nth with (d := (0, O)) in H. destruct H as (i & Hi & EI).
    rewrite combine_length in Hi. rewrite combine_nth in EI by lia. injection EI as EA EB.
    assert (NO : nth_error (ord it) i = Some o) by (rewrite (nth_error_nth' _ O) by lia; congruence).
    exists i, o. split; [exact NO|]. split; [rewrite (nth_error_nth' _ 0) by lia; congruence|].
    split; [rewrite (nth_error_nth' _ 0) by (eapply HO; exact NO); congruence|]. auto.
  - intros (i & o & H1 & H2 & H3 & P & ->). split; [|apply Z.ltb_lt; exact P].
    exists (e, o). cbn [fst snd]. split.
    + rewrite (nth_error_nth _ _ 0 H3). reflexivity.
    + assert (LI : (i < length (slist it))%nat) by (apply nth_error_Some; congruence).
      rewrite <- (nth_error_nth _ _ 0 H2), <- (nth_error_nth _ _ O H1), <- combine_nth by lia.
      apply nth_In. rewrite combine_length. lia.
Qed.

Definition d0 : pres := {| ml := []; mn := 0; mx := 0 |}.

Record inv (procs : list (nat * list iface)) (done : list pres) : Prop := {
  i_len : (0 < length done <= length procs)%nat;
  i_ml : forall p, (p < length done)%nat -> Z.of_nat (length (ml (nth p done d0))) = size_of procs p;
  i_own : forall x, (fst x < length done)%nat -> owned procs x ->
            lo done (fst x) <= num done x <= hi done (fst x);
  i_link : forall x, (fst x < length done)%nat -> is_eq procs x -> ~ owned procs x ->
            exists y, link procs x y /\ num done x = num done y;
  i_inj : forall x y, (fst x < length done)%nat -> owned procs x -> owned procs y -> fst x = fst y ->
            num done x = num done y -> x = y;
  i_sur : forall p n, (p < length done)%nat -> lo done p <= n <= hi done p ->
            exists e, owned procs (p, e) /\ num done (p, e) = n;
  i_lo0 : lo done 0 = 1;
  i_loS : forall p, (S p < length done)%nat -> lo done (S p) = hi done p + 1;
  i_le : forall p, (p < length done)%nat -> lo done p <= hi done p + 1 }.

Lemma link_is_eq : forall procs x y, wf procs -> (fst x < length procs)%nat -> link procs x y ->
  is_eq procs x /\ is_eq procs y /\ (fst y < fst x)%nat.
Proof.
  intros procs [p e] [q f] HW HP (it & i & o & HI & H1 & H2 & H3 & P & Q). cbn [fst snd] in *.
  destruct (HW p it HP HI) as (W1 & W2 & W3 & W4 & W5 & W6 & W7).
  assert (IE : In e (slist it)) by (eapply nth_error_In; exact H2).
  assert (IF : In f (mlist it)) by (eapply nth_error_In; exact H3).
  assert (PF : 0 < f) by (apply (W7 i o e f H1 H2 H3); exact P).
  specialize (W4 e IE). specialize (W5 f IF). subst q.
  unfold is_eq; cbn [fst snd]. repeat split; try lia.
Qed.

Lemma hi_mono : forall procs done, inv procs done -> forall p q, (p <= q)%nat -> (q < length done)%nat ->
  hi done p <= hi done q.
Proof.
  intros procs done I p q H. induction H; intros HL; [lia|].
  specialize (IHle ltac:(lia)). assert (A := i_loS _ _ I m HL). assert (B := i_le _ _ I (S m) HL). lia.
Qed.
Lemma lo_pos : forall procs done, inv procs done -> forall p, (p < length done)%nat -> 1 <= lo done p.
Proof.
  intros procs done I. induction p; intros HL; [rewrite (i_lo0 _ _ I); lia|].
  rewrite (i_loS _ _ I p HL). specialize (IHp ltac:(lia)). assert (B := i_le _ _ I p ltac:(lia)). lia.
Qed.

(* every equation has the number of an owned one it is joined with *)
Lemma rep : forall procs done, wf procs -> inv procs done -> forall n x, (fst x < n)%nat ->
  (fst x < length done)%nat -> is_eq procs x ->
  exists y, owned procs y /\ (fst y <= fst x)%nat /\ same procs x y /\ num done x = num done y.
Proof.
  intros procs done HW I. assert (LD := i_len _ _ I). induction n; intros x Hn Hx Hi; [lia|].
  assert (D : owned procs x \/ ~ owned procs x).
  { (* decidable: by the interfaces of the process *)
    destruct (existsb (fun it => existsb (fun pr => fst pr =? snd x) (pairsOf it)) (slave_ifs procs (fst x))) eqn:E.
    - right. intros [_ O]. apply existsb_exists in E. destruct E as (it & HI & E).
      apply existsb_exists in E. destruct E as ((e & (q & f)) & HP & E). apply Z.eqb_eq in E. cbn in E.
      destruct (HW (fst x) it ltac:(lia) HI) as (W1 & W2 & W3 & W4 & W5 & W6 & W7).
      apply pairsOf_in in HP; [|assumption|assumption]. destruct HP as (i & o & A & B & C & P & Q).
      apply (O (q, f)). exists it, i, o. cbn [fst snd]. subst e. repeat split; assumption.
    - left. split; [exact Hi|]. intros [q f] (it & i & o & HI & A & B & C & P & Q). cbn [fst snd] in *.
      destruct (HW (fst x) it ltac:(lia) HI) as (W1 & W2 & W3 & W4 & W5 & W6 & W7).
      assert (T : existsb (fun it => existsb (fun pr => fst pr =? snd x) (pairsOf it)) (slave_ifs procs (fst x)) = true); [|congruence].
      apply existsb_exists. exists it. split; [exact HI|]. apply existsb_exists.
      exists (snd x, (q, f)). split; [|apply Z.eqb_refl]. apply pairsOf_in; [assumption|assumption|].
      exists i, o. repeat split; assumption. }
  destruct D as [O | O].
  - exists x. split; [exact O|]. split; [lia|]. split; [apply rst_refl | reflexivity].
  - destruct (i_link _ _ I x Hx Hi O) as (y & L & E).
    destruct (link_is_eq procs x y HW ltac:(lia) L) as (_ & Iy & LT).
    destruct (IHn y ltac:(lia) ltac:(lia) Iy) as (z & Z1 & Z2 & Z3 & Z4).
    exists z. split; [exact Z1|]. split; [lia|]. split; [|congruence].
    eapply rst_trans; [apply rst_step; exact L | exact Z3].
Qed.

Lemma num_range : forall procs done, wf procs -> inv procs done -> forall x, (fst x < length done)%nat ->
  is_eq procs x -> 1 <= num done x <= hi done (fst x).
Proof.
  intros procs done HW I x Hx Hi.
  destruct (rep procs done HW I (S (fst x)) x ltac:(lia) Hx Hi) as (y & O & L & _ & E).
  assert (A := i_own _ _ I y ltac:(lia) O). assert (B := lo_pos _ _ I (fst y) ltac:(lia)).
  assert (C := hi_mono _ _ I (fst y) (fst x) L Hx). lia.
Qed.

Lemma nth_app_l : forall (done : list pres) r p, (p < length done)%nat -> nth p (done ++ [r]) d0 = nth p done d0.
Proof. intros. apply app_nth1. assumption. Qed.
Lemma nth_app_e : forall (done : list pres) r, nth (length done) (done ++ [r]) d0 = r.
Proof. intros. rewrite app_nth2, Nat.sub_diag by lia. reflexivity. Qed.

Lemma inv0 : forall neq its rest, wf ((neq, its) :: rest) -> inv ((neq, its) :: rest) [eqProc0 neq].
Proof.
  intros neq its rest HW.
  assert (OWN : forall e, 1 <= e <= Z.of_nat neq -> owned ((neq, its) :: rest) (O, e)).
  { intros e He. split; [split; [simpl; lia | exact He]|]. intros y (it & i & o & HI & _). destruct HI. }
  assert (NUM : forall e, 1 <= e <= Z.of_nat neq -> num [eqProc0 neq] (O, e) = e).
  { intros e He. unfold num. cbn [fst snd nth eqProc0 ml]. rewrite iotaZ_nth by lia. lia. }
  constructor; cbn [length]; unfold lo, hi.
  - lia.
  - intros p Hp. assert (p = 0)%nat by lia. subst p. cbn. rewrite iotaZ_len. reflexivity.
  - intros [p e] Hp O. cbn [fst] in *. assert (p = 0)%nat by lia. subst p.
    destruct O as [[_ B] _]. cbn [fst snd] in B. unfold size_of in B. cbn in B.
    rewrite NUM by exact B. cbn. exact B.
  - intros [p e] Hp Hi NO. cbn [fst] in *. assert (p = 0)%nat by lia. subst p.
    exfalso. apply NO. apply OWN. destruct Hi as [_ B]. exact B.
  - intros [p e] [q f] Hp O1 O2 E EQ. cbn [fst] in *. assert (p = 0)%nat by lia. subst p q.
    destruct O1 as [[_ B1] _]. destruct O2 as [[_ B2] _].
    rewrite !NUM in EQ by assumption. congruence.
  - intros p n Hp Hn. assert (p = 0)%nat by lia. subst p. cbn in Hn. exists n.
    split; [apply OWN; exact Hn | apply NUM; exact Hn].
  - reflexivity.
  - intros; lia.
  - intros p Hp. assert (p = 0)%nat by lia. subst p. cbn. lia.
Qed.

Lemma inv_step : forall procs done neq its, wf procs -> inv procs done ->
  (length done < length procs)%nat -> nth (length done) procs (O, []) = (neq, its) ->
  exists r, eqProc (map ml done) (hi done (length done - 1)) neq its = Ok r /\ inv procs (done ++ [r]) /\
    mx r = hi (done ++ [r]) (length (done ++ [r]) - 1).
Proof.
  intros procs done neq its HW I HL HE.
  assert (LD := i_len _ _ I). set (k := length done) in *. set (nEqs := hi done (k - 1)).
  assert (SIF : slave_ifs procs k = its).
  { unfold slave_ifs. destruct k; [lia|]. rewrite HE. reflexivity. }
  assert (SZ : size_of procs k = Z.of_nat neq) by (unfold size_of; rewrite HE; reflexivity).
  assert (MLN : forall q, (q < k)%nat -> nth q (map ml done) [] = ml (nth q done d0)).
  { intros q Hq. change (@nil Z) with (ml d0). apply map_nth. }
  assert (PN : 0 <= nEqs).
  { assert (A := lo_pos _ _ I (k - 1) ltac:(lia)). assert (B := i_le _ _ I (k - 1)%nat ltac:(lia)).
    unfold nEqs. lia. }
  destruct (eqProc_ok (map ml done) nEqs neq its PN) as (r & fl & ER & LM & LF & MN & MX & FLG & FREE & LNK).
  { intros it Hit. rewrite <- SIF in Hit.
    destruct (HW k it HL Hit) as (W1 & W2 & W3 & W4 & W5 & W6 & W7).
    unfold okIf. rewrite map_length. split; [exact W1|]. split; [exact W2|]. split; [exact W3|].
    split; [rewrite <- SZ; exact W4|].
    split; [intros f Hf; rewrite MLN, (i_ml _ _ I) by (exact W1); apply W5; exact Hf|].
    split; [|exact W7]. intros o Ho. apply In_nth_error in Ho. destruct Ho as (i & Hi). eapply W6; exact Hi. }
  { intros v g Hv Hg. apply in_map_iff in Hv. destruct Hv as (pr & <- & Hpr).
    apply In_nth with (d := d0) in Hpr. destruct Hpr as (q & Hq & <-).
    apply In_nth with (d := 0) in Hg. destruct Hg as (j & Hj & <-).
    assert (R := num_range procs done HW I (q, Z.of_nat j + 1) Hq).
    unfold num in R. cbn [fst snd] in R. replace (Z.to_nat (Z.of_nat j + 1 - 1)) with j in R by lia.
    fold d0 in R. assert (S := i_ml _ _ I q Hq).
    assert (M := hi_mono _ _ I q (k - 1) ltac:(unfold k in *; lia) ltac:(unfold k in *; lia)).
    unfold nEqs. specialize (R ltac:(split; cbn [fst snd]; lia)). lia. }
  exists r. split; [exact ER|].
  assert (NUMO : forall x, (fst x < k)%nat -> num (done ++ [r]) x = num done x).
  { intros x Hx. unfold num. fold d0. rewrite nth_app_l by exact Hx. reflexivity. }
  assert (LOO : forall p, (p < k)%nat -> lo (done ++ [r]) p = lo done p).
  { intros p Hp. unfold lo. fold d0. rewrite nth_app_l by exact Hp. reflexivity. }
  assert (HIO : forall p, (p < k)%nat -> hi (done ++ [r]) p = hi done p).
  { intros p Hp. unfold hi. fold d0. rewrite nth_app_l by exact Hp. reflexivity. }
  assert (LOE : lo (done ++ [r]) k = nEqs + 1) by (unfold lo; fold d0; unfold k; rewrite nth_app_e; exact MN).
  assert (HIE : hi (done ++ [r]) k = nEqs + cnt fl neq) by (unfold hi; fold d0; unfold k; rewrite nth_app_e; exact MX).
  assert (NUME : forall e, num (done ++ [r]) (k, e) = nth (Z.to_nat (e - 1)) (ml r) 0).
  { intros e. unfold num. cbn [fst snd]. fold d0. unfold k. rewrite nth_app_e. reflexivity. }
  assert (FL : forall e, 1 <= e <= Z.of_nat neq ->
    (nth (Z.to_nat (e - 1)) fl true = true <-> exists y, link procs (k, e) y)).
  { intros e He. rewrite FLG by lia. replace (Z.of_nat (Z.to_nat (e - 1)) + 1) with e by lia. split.
    - intros ((e' & (q & f)) & Hp & E). cbn in E. subst e'. apply in_flat_map in Hp. destruct Hp as (it & Hit & Hp).
      rewrite <- SIF in Hit. destruct (HW k it HL Hit) as (W1 & W2 & W3 & W4 & W5 & W6 & W7).
      apply pairsOf_in in Hp; [|assumption|assumption]. destruct Hp as (i & o & A & B & C & P & Q).
      exists (q, f), it, i, o. cbn [fst snd]. repeat split; assumption.
    - intros ((q & f) & it & i & o & Hit & A & B & C & P & Q). cbn [fst snd] in *.
      destruct (HW k it HL Hit) as (W1 & W2 & W3 & W4 & W5 & W6 & W7).
      exists (e, (q, f)). split; [|reflexivity]. apply in_flat_map. exists it.
      split; [rewrite <- SIF; exact Hit|]. apply pairsOf_in; [assumption|assumption|].
      exists i, o. repeat split; assumption. }
  assert (OF : forall e, owned procs (k, e) -> 1 <= e <= Z.of_nat neq /\ nth (Z.to_nat (e - 1)) fl true = false).
  { intros e [[_ B] O]. cbn [fst snd] in B. rewrite SZ in B. split; [exact B|].
    destruct (nth (Z.to_nat (e - 1)) fl true) eqn:F; [|reflexivity].
    apply FL in F; [|exact B]. destruct F as (y & L). exfalso. apply (O y L). }
  assert (CB := cnt_bounds fl neq).
  split.
  2:{ rewrite app_length. cbn [length]. replace (length done + 1 - 1)%nat with k by (unfold k; lia).
      rewrite HIE. exact MX. }
  constructor.
  - rewrite app_length. cbn [length]. fold k. lia.
  - intros p Hp. rewrite app_length in Hp. cbn [length] in Hp. fold k in Hp.
    destruct (Nat.eq_dec p k) as [-> | NE].
    + unfold k. rewrite nth_app_e. fold k. rewrite LM, SZ. reflexivity.
    + rewrite nth_app_l by (fold k; lia). apply (i_ml _ _ I). fold k; lia.
  - intros [p e] Hp O. rewrite app_length in Hp. cbn [length fst] in Hp. fold k in Hp. cbn [fst].
    destruct (Nat.eq_dec p k) as [-> | NE].
    + destruct (OF e O) as [B F]. rewrite LOE, HIE, NUME, FREE by (lia || assumption).
      assert (C1 := cnt_bounds fl (Z.to_nat (e - 1))).
      assert (C2 : cnt fl (S (Z.to_nat (e - 1))) <= cnt fl neq) by (apply cnt_mono; lia).
      rewrite cnt_S, F in C2 by lia. lia.
    + rewrite LOO, HIO, NUMO by (cbn; lia). apply (i_own _ _ I (p, e)); [cbn; fold k; lia | exact O].
  - intros [p e] Hp Hi NO. rewrite app_length in Hp. cbn [length fst] in Hp. fold k in Hp.
    destruct (Nat.eq_dec p k) as [-> | NE].
    + assert (B : 1 <= e <= Z.of_nat neq) by (destruct Hi as [_ B]; cbn [fst snd] in B; rewrite SZ in B; exact B).
      destruct (nth (Z.to_nat (e - 1)) fl true) eqn:F.
      2:{ exfalso. apply NO. split; [exact Hi|]. intros y L.
          assert (T : nth (Z.to_nat (e - 1)) fl true = true) by (apply FL; [exact B | exists y; exact L]). congruence. }
      destruct (LNK (Z.to_nat (e - 1)) ltac:(lia) F) as ((e' & (q & f)) & Hpr & E & V).
      cbn [fst] in E. replace (Z.of_nat (Z.to_nat (e - 1)) + 1) with e in E by lia. subst e'.
      apply in_flat_map in Hpr. destruct Hpr as (it & Hit & Hpr).
      rewrite <- SIF in Hit. destruct (HW k it HL Hit) as (W1 & W2 & W3 & W4 & W5 & W6 & W7).
      apply pairsOf_in in Hpr; [|assumption|assumption]. destruct Hpr as (i & o & A & B' & C & P & Q).
      exists (q, f). split.
      * exists it, i, o. cbn [fst snd]. split; [exact Hit|]. split; [exact A|]. split; [exact B'|].
        split; [exact C|]. split; [exact P | exact Q].
      * rewrite NUME, V. unfold keyed. cbn [fst snd]. subst q. rewrite MLN by exact W1.
        rewrite NUMO by exact W1. reflexivity.
    + destruct (i_link _ _ I (p, e)) as (y & L & E); [cbn; fold k; lia | exact Hi | exact NO|].
      exists y. split; [exact L|].
      destruct (link_is_eq procs (p, e) y HW ltac:(cbn; lia) L) as (_ & _ & LT). cbn [fst] in LT.
      rewrite !NUMO by (cbn; lia). exact E.
  - intros [p e] [q f] Hp O1 O2 E EQ. rewrite app_length in Hp. cbn [length fst] in *. fold k in Hp. subst q.
    destruct (Nat.eq_dec p k) as [-> | NE].
    + destruct (OF e O1) as [B1 F1]. destruct (OF f O2) as [B2 F2].
      rewrite !NUME, !FREE in EQ by (lia || assumption).
      assert (X : Z.to_nat (e - 1) = Z.to_nat (f - 1)) by (apply (cnt_inj fl); try assumption; lia).
      f_equal. lia.
    + rewrite !NUMO in EQ by (cbn; lia). apply (i_inj _ _ I (p, e) (p, f)); try assumption; cbn; try lia; fold k; lia.
  - intros p n Hp Hn. rewrite app_length in Hp. cbn [length] in Hp. fold k in Hp.
    destruct (Nat.eq_dec p k) as [-> | NE].
    + rewrite LOE, HIE in Hn. destruct (cnt_surj fl (n - nEqs - 1)) as (a & A & B & C).
      { rewrite LF. lia. }
      exists (Z.of_nat a + 1). rewrite LF in A. split.
      * split; [split; cbn [fst snd]; [exact HL | rewrite SZ; lia]|].
        intros y L. assert (T : nth (Z.to_nat (Z.of_nat a + 1 - 1)) fl true = true) by (apply FL; [lia | exists y; exact L]).
        replace (Z.to_nat (Z.of_nat a + 1 - 1)) with a in T by lia. congruence.
      * rewrite NUME. replace (Z.to_nat (Z.of_nat a + 1 - 1)) with a by lia.
        rewrite FREE by assumption. lia.
    + rewrite LOO, HIO in Hn by lia. destruct (i_sur _ _ I p n ltac:(fold k; lia) Hn) as (e & O & E).
      exists e. split; [exact O|]. rewrite NUMO by (cbn; lia). exact E.
  - rewrite LOO by lia. apply (i_lo0 _ _ I).
  - intros p Hp. rewrite app_length in Hp. cbn [length] in Hp. fold k in Hp.
    destruct (Nat.eq_dec (S p) k) as [E | NE].
    + rewrite E, LOE, HIO by lia. unfold nEqs. f_equal. f_equal. lia.
    + rewrite LOO, HIO by lia. apply (i_loS _ _ I). fold k; lia.
  - intros p Hp. rewrite app_length in Hp. cbn [length] in Hp. fold k in Hp.
    destruct (Nat.eq_dec p k) as [-> | NE]; [rewrite LOE, HIE; lia|].
    rewrite LOO, HIO by lia. apply (i_le _ _ I). fold k; lia.
Qed.

Lemma eqRest_ok : forall procs rest done, wf procs -> inv procs done ->
  (forall j, (j < length rest)%nat -> nth (length done + j) procs (O, []) = nth j rest (O, [])) ->
  (length done + length rest = length procs)%nat ->
  exists res, eqRest done (hi done (length done - 1)) rest = Ok res /\ length res = length procs /\ inv procs res.
Proof.
  intros procs. induction rest as [|[neq its] rest IH]; intros done HW I HR HL.
  - exists done. simpl in HL. split; [reflexivity|]. split; [lia | exact I].
  - cbn [eqRest]. assert (E0 := HR 0%nat ltac:(simpl; lia)). rewrite Nat.add_0_r in E0. cbn in E0.
    simpl in HL. destruct (inv_step procs done neq its HW I ltac:(lia) E0) as (r & ER & IR & MX).
    rewrite ER, MX. apply IH; [exact HW | exact IR | |].
    + intros j Hj. rewrite app_length. cbn [length]. specialize (HR (S j) ltac:(simpl; lia)).
      cbn [nth] in HR. rewrite <- HR. f_equal. lia.
    + rewrite app_length. cbn [length]. lia.
Qed.

Lemma eqNumbers_inv : forall procs, wf procs -> procs <> [] ->
  exists res, eqNumbers procs = Ok res /\ length res = length procs /\ inv procs res.
Proof.
  intros [|[neq its] rest] HW HN; [congruence|].
  unfold eqNumbers. change (Z.of_nat neq) with (hi [eqProc0 neq] (length [eqProc0 neq] - 1)).
  apply eqRest_ok; [exact HW | apply inv0; exact HW | | reflexivity].
  intros j Hj. reflexivity.
Qed.

(* ---- errors are detected ---- *)
Lemma linkLoop_conv : forall nEqs loc glb os i st st', linkLoop nEqs loc glb i os st = Ok st' ->
  forall j o l g, nth_error os j = Some o -> nth_error loc (i + j) = Some l -> nth_error glb o = Some g ->
  (0 < l <-> 0 < g).
Proof.
  intros nEqs loc glb. induction os as [|x os IH]; intros i st st' H j o l g H1 H2 H3; [destruct j; discriminate|].
  cbn [linkLoop] in H. destruct (nth_error loc i) as [leq|] eqn:EL; [|discriminate].
  destruct (nth_error glb x) as [geq|] eqn:EG; [|discriminate].
  destruct (((leq <? 1) && (0 <? geq)) || ((0 <? leq) && (geq <? 1))) eqn:C; [discriminate|].
  destruct j.
  - inversion H1; subst x. rewrite Nat.add_0_r in H2. rewrite EL in H2. rewrite EG in H3.
    inversion H2; inversion H3; subst. apply orb_false_iff in C. destruct C as [C1 C2].
    destruct (l <? 1) eqn:A1; destruct (0 <? g) eqn:A2; destruct (0 <? l) eqn:A3; destruct (g <? 1) eqn:A4;
      rewrite ?Z.ltb_lt, ?Z.ltb_ge in *; cbn in *; try discriminate; lia.
  - cbn [nth_error] in H1. replace (i + S j)%nat with (S i + j)%nat in H2 by lia.
    destruct (leq <? 1); [eapply IH; [exact H | exact H1 | exact H2 | exact H3]|
                          eapply IH; [exact H | exact H1 | exact H2 | exact H3]].
Qed.

Lemma linkAll_conv : forall mls nEqs neq its st st', 0 <= nEqs ->
  (forall v g, In v mls -> In g v -> 0 < g) ->
  linkAll mls nEqs (iotaZ (nEqs + 1) neq) its st = Ok st' -> forall it, In it its ->
  length (mlist it) = length (slist it) /\
  (forall i o e f, nth_error (ord it) i = Some o -> nth_error (slist it) i = Some e ->
     nth_error (mlist it) o = Some f -> (0 < e <-> 0 < f)).
Proof.
  intros mls nEqs neq. induction its as [|x its IH]; intros st st' HN HP H it Hit; [destruct Hit|].
  cbn [linkAll] in H. destruct (linkIface mls nEqs _ x st) as [st1| |] eqn:E; try discriminate.
  destruct Hit as [-> | Hit]; [|eapply IH; eassumption].
  unfold linkIface in E. destruct (setupEqs (iotaZ (nEqs + 1) neq) (slist it)) as [loc|] eqn:E1; [|discriminate].
  destruct (setupEqs (nth (mproc it) mls []) (mlist it)) as [glb|] eqn:E2; [|discriminate].
  assert (L1 := setupEqs_len _ _ _ E1). assert (L2 := setupEqs_len _ _ _ E2).
  destruct (length glb =? length loc)%nat eqn:EQ; [|discriminate]. apply Nat.eqb_eq in EQ. cbn in E.
  split; [congruence|]. intros i o e f H1 H2 H3.
  destruct (setupEqs_nth _ _ _ E1 i e H2) as [A1 B1]. destruct (setupEqs_nth _ _ _ E2 o f H3) as [A2 B2].
  assert (C := linkLoop_conv _ _ _ _ _ _ _ E i o _ _ H1 A1 A2).
  rewrite iotaZ_len in B1. unfold val in C.
  destruct (0 <? e) eqn:PE; destruct (0 <? f) eqn:PF; rewrite ?Z.ltb_lt, ?Z.ltb_ge in *; try lia.
  - rewrite iotaZ_nth in C by lia. lia.
  - assert (G : In (nth (Z.to_nat (f - 1)) (nth (mproc it) mls []) 0) (nth (mproc it) mls [])) by (apply nth_In; lia).
    assert (MI : In (nth (mproc it) mls []) mls \/ nth (mproc it) mls [] = []).
    { destruct (nth_in_or_default (mproc it) mls []) as [X | X]; [left | right]; exact X. }
    destruct MI as [MI | MI]; [|rewrite MI in B2; simpl in B2; lia].
    specialize (HP _ _ MI G). lia.
Qed.
