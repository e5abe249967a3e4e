(** The node numbers are computed like the equation numbers (C93). *)
From Coq Require Import ZArith List Bool Lia Relations.
From Verif Require Import Ddp_model Ddp_proofs Ddg_model Ddg_spec Ddg_proofs Ddg_proofs2.
Import ListNotations.
Local Open Scope Z_scope.

Lemma nodeLoop_link : forall nEqs loc glb os i m fl m' fl', (forall l, In l loc -> 0 < l) ->
  linkLoop nEqs loc glb i os (m, fl) = Ok (m', fl') -> nodeLoop loc glb i os m = Ok m'.
Proof.
  intros nEqs loc glb. induction os as [|o os IH]; intros i m fl m' fl' HP H.
  - simpl in *. inversion H; subst. reflexivity.
  - cbn [linkLoop nodeLoop] in *. destruct (nth_error loc i) as [l|] eqn:E1; [|discriminate].
    destruct (nth_error glb o) as [g|] eqn:E2; [|discriminate].
    assert (P : 0 < l) by (apply HP; eapply nth_error_In; exact E1).
    destruct (_ || _); [discriminate|].
    replace (l <? 1) with false in H by (symmetry; apply Z.ltb_ge; lia).
    cbn [fst snd] in H. eapply IH; [exact HP | exact H].
Qed.

Definition node_if (it : iface) : Prop := slist it <> [] /\ (forall e, In e (slist it) -> 0 < e).

Lemma nodeIface_link : forall mls nEqs neq it m fl m' fl', 0 <= nEqs -> node_if it ->
  linkIface mls nEqs (iotaZ (nEqs + 1) neq) it (m, fl) = Ok (m', fl') ->
  nodeIface mls (iotaZ (nEqs + 1) neq) it m = Ok m'.
Proof.
  intros mls nEqs neq it m fl m' fl' HN [NE HP] H. unfold linkIface, nodeIface in *.
  destruct (setupEqs (iotaZ (nEqs + 1) neq) (slist it)) as [loc|] eqn:E1; [|discriminate].
  destruct (setupEqs (nth (mproc it) mls []) (mlist it)) as [glb|] eqn:E2; [|discriminate].
  destruct (length glb =? length loc)%nat eqn:EQ; [|discriminate]. apply Nat.eqb_eq in EQ. cbn in H.
  assert (L1 := setupEqs_len _ _ _ E1). unfold recvNodes.
  destruct (length (slist it) =? 0)%nat eqn:Z0.
  { apply Nat.eqb_eq in Z0. destruct (slist it); [congruence | discriminate]. }
  replace (length (slist it) <? length glb)%nat with false by (symmetry; apply Nat.ltb_ge; lia).
  replace (length (slist it) - length glb)%nat with 0%nat by lia. simpl. rewrite app_nil_r.
  eapply nodeLoop_link; [|exact H].
  intros l Hl. apply In_nth_error in Hl. destruct Hl as (i & Hi).
  assert (LI : (i < length (slist it))%nat) by (rewrite <- L1; apply nth_error_Some; congruence).
  destruct (setupEqs_nth _ _ _ E1 i (nth i (slist it) 0) (nth_error_nth' _ 0 LI)) as [A B].
  rewrite Hi in A. inversion A; subst l. rewrite iotaZ_len in B.
  assert (P : 0 < nth i (slist it) 0) by (apply HP, nth_In; exact LI).
  unfold val. replace (0 <? nth i (slist it) 0) with true by (symmetry; apply Z.ltb_lt; exact P).
  rewrite iotaZ_nth by lia. lia.
Qed.

Lemma nodeAll_link : forall mls nEqs neq its m fl m' fl', 0 <= nEqs ->
  (forall it, In it its -> node_if it) ->
  linkAll mls nEqs (iotaZ (nEqs + 1) neq) its (m, fl) = Ok (m', fl') ->
  nodeAll mls (iotaZ (nEqs + 1) neq) its m = Ok m'.
Proof.
  intros mls nEqs neq. induction its as [|it its IH]; intros m fl m' fl' HN HI H.
  - simpl in *. inversion H; subst. reflexivity.
  - cbn [linkAll nodeAll] in *. destruct (linkIface mls nEqs _ it (m, fl)) as [[m1 fl1]| |] eqn:E; try discriminate.
    rewrite (nodeIface_link _ _ _ _ _ _ _ _ HN (HI it (or_introl eq_refl)) E).
    eapply IH; [exact HN | intros; apply HI; right; assumption | exact H].
Qed.

(* the vector while the nodes before i have been renumbered *)
Definition hfun (nP : Z) (m : list (Z * Z)) (fl : list bool) (i j : nat) : Z :=
  if nth j fl true then renum m (nP + 1 + Z.of_nat j)
  else if (j <? i)%nat then nP + cnt fl j + 1 else nP + 1 + Z.of_nat j.

Lemma nodeRest_ok : forall nP m fl nn, length fl = nn -> 
  (forall j, (j < nn)%nat -> (nth j fl true = true <-> lookup (nP + 1 + Z.of_nat j) m <> None)) ->
  (forall j, (j < nn)%nat -> nth j fl true = true -> renum m (nP + 1 + Z.of_nat j) <= nP) ->
  forall todo i, (i + todo = nn)%nat ->
  nodeRest i todo (nP + 1) m (nP + cnt fl i) (map (hfun nP m fl i) (seq 0 nn)) =
  (map (hfun nP m fl nn) (seq 0 nn), nP + cnt fl nn).
Proof.
  intros nP m fl nn LF FLG VAL. induction todo as [|todo IH]; intros i Hi.
  - simpl. replace i with nn by lia. reflexivity.
  - cbn [nodeRest]. replace (Z.of_nat i + (nP + 1)) with (nP + 1 + Z.of_nat i) by lia.
    assert (F := FLG i ltac:(lia)). destruct (lookup (nP + 1 + Z.of_nat i) m) as [g|] eqn:E.
    + assert (T : nth i fl true = true) by (apply F; discriminate).
      rewrite <- (IH (S i)) by lia. f_equal.
      * rewrite cnt_S, T by lia. lia.
      * apply map_ext_in. intros j Hj. apply in_seq in Hj. unfold hfun.
        destruct (nth j fl true) eqn:FJ; [reflexivity|].
        assert (j <> i) by congruence.
        destruct (Nat.ltb_spec j i) as [L1 | L1]; destruct (Nat.ltb_spec j (S i)) as [L2 | L2]; try reflexivity; lia.
    + assert (T : nth i fl true = false).
      { destruct (nth i fl true) eqn:T; [|reflexivity]. exfalso. apply F; reflexivity. }
      replace (nP + cnt fl i + 1) with (nP + cnt fl (S i)) by (rewrite cnt_S, T by lia; lia).
      rewrite <- (IH (S i)) by lia. f_equal. rewrite map_map. apply map_ext_in. intros j Hj. apply in_seq in Hj.
      assert (K : forall v, v <> nP + 1 + Z.of_nat i -> renum [(nP + 1 + Z.of_nat i, nP + cnt fl (S i))] v = v).
      { intros v Hv. unfold renum. simpl. replace (nP + 1 + Z.of_nat i =? v) with false by (symmetry; apply Z.eqb_neq; lia). reflexivity. }
      unfold hfun. destruct (nth j fl true) eqn:FJ.
      * rewrite K; [reflexivity|]. specialize (VAL j ltac:(lia) FJ). lia.
      * destruct (Nat.ltb_spec j i) as [L1 | L1]; destruct (Nat.ltb_spec j (S i)) as [L2 | L2]; try lia.
        -- apply K. assert (C := cnt_bounds fl j). lia.
        -- assert (j = i) by lia. subst j. unfold renum. simpl. rewrite Z.eqb_refl.
           rewrite cnt_S, T by lia. lia.
        -- apply K. lia.
Qed.

Lemma nth_ext0 : forall (a b : list Z), length a = length b -> (forall j, (j < length a)%nat -> nth j a 0 = nth j b 0) -> a = b.
Proof. intros a b L H. apply (nth_ext a b 0 0 L H). Qed.

Lemma nodeProc_eq : forall mls nP nn its, 0 <= nP ->
  (forall it, In it its -> okIf mls nn it) -> (forall it, In it its -> node_if it) ->
  (forall v g, In v mls -> In g v -> 0 < g <= nP) ->
  nodeProc mls nP nn its = eqProc mls nP nn its.
Proof.
  intros mls nP nn its HN HI HD HP.
  destruct (eqProc_ok mls nP nn its HN HI HP) as (r & fl0 & ER & LM & LF0 & MN & MX & FLG & FREE & LNK).
  unfold eqProc in ER |- *. unfold nodeProc.
  destruct (linkAll mls nP (iotaZ (nP + 1) nn) its ([], repeat false nn)) as [[m fl]| |] eqn:EL; try discriminate.
  rewrite (nodeAll_link _ _ _ _ _ _ _ _ HN HD EL).
  assert (EL2 := EL). rewrite linkAll_ok in EL2; [|assumption | assumption | intros v g A B; specialize (HP v g A B); lia].
  cbn [fst snd] in EL2. rewrite app_nil_r in EL2. injection EL2 as Em Efl.
  set (prs := flat_map pairsOf its) in *.
  assert (LF : length fl = nn) by (rewrite <- Efl, addFlags_len, repeat_length; reflexivity).
  assert (POS : forall pr, In pr prs -> 0 < fst pr).
  { intros pr Hp. apply in_flat_map in Hp. destruct Hp as (it & _ & Hp).
    unfold pairsOf in Hp. apply filter_In in Hp. apply Z.ltb_lt. apply Hp. }
  assert (FL : forall j, (j < nn)%nat -> (nth j fl true = true <-> exists pr, In pr prs /\ fst pr = Z.of_nat j + 1)).
  { intros j Hj. rewrite <- Efl, addFlags_nth.
    - rewrite (nth_indep _ true false) by (rewrite repeat_length; exact Hj). rewrite nth_repeat.
      rewrite in_map_iff. split.
      + intros [(pr & A & B) | A]; [exists pr; auto | discriminate].
      + intros (pr & A & B). left. exists pr. auto.
    - rewrite repeat_length. exact Hj.
    - intros k Hk. apply in_map_iff in Hk. destruct Hk as (pr & <- & Hp). apply POS. exact Hp. }
  assert (LKP : forall j, (j < nn)%nat -> (nth j fl true = true <-> lookup (nP + 1 + Z.of_nat j) m <> None)).
  { intros j Hj. rewrite (FL j Hj). split.
    - intros (pr & A & B) C. apply (proj1 (lookup_none m _) C (snd (keyed nP mls pr))).
      rewrite <- Em, <- in_rev. apply in_map_iff. exists pr. split; [|exact A].
      unfold keyed. cbn. f_equal. lia.
    - intros C. destruct (lookup (nP + 1 + Z.of_nat j) m) as [g|] eqn:E; [|congruence].
      apply lookup_some in E. rewrite <- Em, <- in_rev in E. apply in_map_iff in E.
      destruct E as (pr & E & A). exists pr. split; [exact A|]. unfold keyed in E. injection E as E1 E2. lia. }
  destruct (restLoop_ok fl 1 nP nP []) as [S1 S2].
  destruct (restLoop 1 fl nP nP []) as [m2 mxe] eqn:ERL. cbn [fst snd] in S1, S2.
  inversion ER as [ER']. clear ER.
  assert (ENT : forall j, (j < nn)%nat -> nth j (ml r) 0 = renum m2 (renum m (nP + 1 + Z.of_nat j))).
  { intros j Hj. rewrite <- ER'. cbn [ml]. rewrite map_map.
    rewrite (nth_indep _ 0 (renum m2 (renum m 0))) by (rewrite map_length, iotaZ_len; exact Hj).
    rewrite map_nth with (f := fun x => renum m2 (renum m x)). rewrite iotaZ_nth by exact Hj. reflexivity. }
  assert (VAL : forall j, (j < nn)%nat -> nth j fl true = true -> renum m (nP + 1 + Z.of_nat j) <= nP).
  { intros j Hj F. assert (F2 := proj1 (LKP j Hj) F).
    destruct (lookup (nP + 1 + Z.of_nat j) m) as [g|] eqn:E; [|congruence].
    unfold renum. rewrite E. apply lookup_some in E. rewrite <- Em, <- in_rev in E. apply in_map_iff in E.
    destruct E as (pr & E & A). unfold keyed in E. injection E as E1 E2. rewrite <- E2.
    destruct (nth_in_or_default (Z.to_nat (snd (snd pr) - 1)) (nth (fst (snd pr)) mls []) 0) as [G | G]; [|rewrite G; lia].
    destruct (nth_in_or_default (fst (snd pr)) mls []) as [X | X].
    - specialize (HP _ _ X G). lia.
    - rewrite X in G. destruct G. }
  assert (START : map (renum m) (iotaZ (nP + 1) nn) = map (hfun nP m fl 0) (seq 0 nn)).
  { apply nth_ext0; [rewrite !map_length, iotaZ_len, seq_length; reflexivity|].
    intros j Hj. rewrite map_length, iotaZ_len in Hj.
    rewrite (nth_indep (map (renum m) _) 0 (renum m 0)) by (rewrite map_length, iotaZ_len; exact Hj).
    rewrite (nth_indep (map (hfun nP m fl 0) _) 0 (hfun nP m fl 0 O)) by (rewrite map_length, seq_length; exact Hj).
    rewrite !map_nth, iotaZ_nth, seq_nth by exact Hj. cbn [plus]. unfold hfun.
    destruct (nth j fl true) eqn:F; [reflexivity|]. simpl. unfold renum.
    destruct (lookup (nP + 1 + Z.of_nat j) m) eqn:E; [|reflexivity].
    exfalso. assert (nth j fl true = true) by (apply LKP; [exact Hj | congruence]). congruence. }
  rewrite ER', START. assert (NR := nodeRest_ok nP m fl nn LF LKP VAL nn 0%nat ltac:(lia)).
  replace (nP + cnt fl 0) with nP in NR by (destruct fl; simpl; lia). rewrite NR.
  f_equal. destruct r as [rml rmn rmx]. cbn [ml mn mx] in *. f_equal.
  - apply nth_ext0; [rewrite map_length, seq_length; congruence|].
    intros j Hj. rewrite map_length, seq_length in Hj.
    rewrite (nth_indep (map (hfun nP m fl nn) _) 0 (hfun nP m fl nn O)) by (rewrite map_length, seq_length; exact Hj).
    rewrite map_nth, seq_nth by exact Hj. cbn [plus]. rewrite ENT by exact Hj.
    unfold hfun. destruct (nth j fl true) eqn:F.
    + specialize (VAL j Hj F). unfold renum at 2. destruct (S2 (renum m (nP + 1 + Z.of_nat j))) as [_ B].
      rewrite B by lia. reflexivity.
    + replace (j <? nn)%nat with true by (symmetry; apply Nat.ltb_lt; exact Hj).
      assert (E1 : renum m (nP + 1 + Z.of_nat j) = nP + 1 + Z.of_nat j).
      { unfold renum. destruct (lookup (nP + 1 + Z.of_nat j) m) eqn:E; [|reflexivity].
        exfalso. assert (nth j fl true = true) by (apply LKP; [exact Hj | congruence]). congruence. }
      rewrite E1. unfold renum. destruct (S2 (nP + 1 + Z.of_nat j)) as [A _].
      rewrite (A j) by (rewrite ?LF; lia). rewrite F. reflexivity.
  - symmetry. exact MN.
  - injection ER' as _ _ E3. rewrite <- E3, S1, LF. reflexivity.
Qed.

Lemma nodesRest_eq : forall procs rest done, wf procs -> inv procs done ->
  (forall p it, In it (slave_ifs procs p) -> node_if it) ->
  (forall j, (j < length rest)%nat -> nth (length done + j) procs (O, []) = nth j rest (O, [])) ->
  (length done + length rest = length procs)%nat ->
  nodesRest done (hi done (length done - 1)) rest = eqRest done (hi done (length done - 1)) rest.
Proof.
  intros procs. induction rest as [|[neq its] rest IH]; intros done HW I HD HR HL; [reflexivity|].
  cbn [nodesRest eqRest]. assert (E0 := HR 0%nat ltac:(simpl; lia)). rewrite Nat.add_0_r in E0. cbn in E0.
  simpl in HL. destruct (inv_step procs done neq its HW I ltac:(lia) E0) as (r & ER & IR & MX).
  assert (LD := i_len _ _ I).
  assert (SIF : slave_ifs procs (length done) = its).
  { unfold slave_ifs. destruct (length done) eqn:K; [lia|]. rewrite E0. reflexivity. }
  assert (SZ : size_of procs (length done) = Z.of_nat neq) by (unfold size_of; rewrite E0; reflexivity).
  rewrite nodeProc_eq.
  - rewrite ER, MX. apply IH; [exact HW | exact IR | exact HD | |].
    + intros j Hj. rewrite app_length. cbn [length]. specialize (HR (S j) ltac:(simpl; lia)).
      cbn [nth] in HR. rewrite <- HR. f_equal. lia.
    + rewrite app_length. cbn [length]. lia.
  - assert (A := lo_pos _ _ I (length done - 1) ltac:(lia)).
    assert (B := i_le _ _ I (length done - 1)%nat ltac:(lia)). lia.
  - intros it Hit. rewrite <- SIF in Hit.
    destruct (HW (length done) it ltac:(lia) Hit) as (W1 & W2 & W3 & W4 & W5 & W6 & W7).
    unfold okIf. rewrite map_length. split; [exact W1|]. split; [exact W2|]. split; [exact W3|].
    split; [rewrite <- SZ; exact W4|].
    split.
    { intros f Hf. change (@nil Z) with (ml d0). rewrite map_nth, (i_ml _ _ I) by exact W1. apply W5; exact Hf. }
    split; [|exact W7]. intros o Ho. apply In_nth_error in Ho. destruct Ho as (i & Hi). eapply W6; exact Hi.
  - intros it Hit. rewrite <- SIF in Hit. eapply HD; exact Hit.
  - intros v g Hv Hg. apply in_map_iff in Hv. destruct Hv as (pr & <- & Hpr).
    apply In_nth with (d := d0) in Hpr. destruct Hpr as (q & Hq & <-).
    apply In_nth with (d := 0) in Hg. destruct Hg as (j & Hj & <-).
    assert (R := num_range procs done HW I (q, Z.of_nat j + 1) Hq).
    unfold num in R. cbn [fst snd] in R. replace (Z.to_nat (Z.of_nat j + 1 - 1)) with j in R by lia.
    fold d0 in R. assert (S := i_ml _ _ I q Hq).
    assert (M := hi_mono _ _ I q (length done - 1) ltac:(lia) ltac:(lia)).
    specialize (R ltac:(split; cbn [fst snd]; lia)). lia.
Qed.

(* ---- the set of ghost connections ---- *)
Definition key (own : Z -> Z) (c : conn) : list Z :=
  [own (master c); own (slave c); slave c; dim c; basis c; midx c].
Fixpoint lexlt (a b : list Z) : bool :=
  match a, b with
  | x :: a', y :: b' => if negb (x =? y) then x <? y else lexlt a' b'
  | _, _ => false
  end.
Lemma order_key : forall own a b, slaveOrder own a b = lexlt (key own a) (key own b).
Proof.
  intros. unfold slaveOrder, key. cbn [lexlt].
  destruct (negb (own (master a) =? own (master b))); [reflexivity|].
  destruct (negb (own (slave a) =? own (slave b))); [reflexivity|].
  destruct (negb (slave a =? slave b)); [reflexivity|].
  destruct (negb (dim a =? dim b)); [reflexivity|].
  destruct (negb (basis a =? basis b)); [reflexivity|].
  destruct (midx a =? midx b) eqn:E; [|reflexivity].
  apply Z.eqb_eq in E. rewrite E. simpl. apply Z.ltb_irrefl.
Qed.
Lemma lex_irrefl : forall a, lexlt a a = false.
Proof. induction a; simpl; [reflexivity|]. rewrite Z.eqb_refl. exact IHa. Qed.
Lemma lex_trans : forall a b c, lexlt a b = true -> lexlt b c = true -> lexlt a c = true.
Proof.
  induction a as [|x a IH]; intros [|y b] [|z c] H1 H2; simpl in *; try discriminate.
  destruct (x =? y) eqn:E1; destruct (y =? z) eqn:E2; destruct (x =? z) eqn:E3; cbn in *;
    rewrite ?Z.eqb_eq, ?Z.eqb_neq, ?Z.ltb_lt in *; try lia; try (eapply IH; eassumption); try congruence.
Qed.
Lemma lex_total : forall a b, length a = length b -> lexlt a b = false -> lexlt b a = false -> a = b.
Proof.
  induction a as [|x a IH]; intros [|y b] L H1 H2; simpl in *; try discriminate; [reflexivity|].
  rewrite (Z.eqb_sym y x) in H2. destruct (x =? y) eqn:E; cbn in *.
  - apply Z.eqb_eq in E. subst. f_equal. apply IH; congruence.
  - apply Z.eqb_neq in E. apply Z.ltb_ge in H1, H2. lia.
Qed.

Lemma insert_in : forall own c s d, In d (insertConn own c s) -> d = c \/ In d s.
Proof.
  induction s as [|x s IH]; intros d H; simpl in H; [destruct H as [-> | []]; left; reflexivity|].
  destruct (slaveOrder own c x); [destruct H as [-> | H]; [left; reflexivity | right; exact H]|].
  destruct (slaveOrder own x c); [|right; exact H].
  destruct H as [-> | H]; [right; left; reflexivity|]. destruct (IH d H) as [-> | I]; [left; reflexivity | right; right; exact I].
Qed.
Lemma insert_old : forall own c s d, In d s -> In d (insertConn own c s).
Proof.
  induction s as [|x s IH]; intros d H; [destruct H|]. simpl.
  destruct (slaveOrder own c x); [right; exact H|].
  destruct (slaveOrder own x c); [|exact H].
  destruct H as [-> | H]; [left; reflexivity | right; apply IH; exact H].
Qed.
Lemma insert_new : forall own c s, (forall d, In d s -> key own d <> key own c) -> In c (insertConn own c s).
Proof.
  induction s as [|x s IH]; intros H; [left; reflexivity|]. simpl.
  destruct (slaveOrder own c x) eqn:E1; [left; reflexivity|].
  destruct (slaveOrder own x c) eqn:E2; [right; apply IH; intros; apply H; right; assumption|].
  exfalso. apply (H x (or_introl eq_refl)). rewrite order_key in E1, E2.
  apply lex_total; [reflexivity | exact E2 | exact E1].
Qed.
