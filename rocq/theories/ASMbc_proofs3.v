(** Two- and three-point constraints, prescribed values, couplings and histories. *)
From Coq Require Import List Sorted Permutation Arith ZArith QArith Qcanon Bool Lia.
From Verif Require Import Base MPC_model MPC_spec MPC_proofs MPC_proofs2 ASMbc_model ASMbc_spec ASMbc_proofs ASMbc_proofs2.
Import ListNotations.
Local Open Scope Z_scope.

Lemma slave_dec p n d : {Slave p n d} + {~ Slave p n d}.
Proof. unfold Slave. apply In_dec. decide equality; apply Z.eq_dec. Qed.

(** ** add2PC *)
Lemma add2PC_spec p s d m code : wf p -> 1 <= d <= pnf p -> d < 10 -> s <> m ->
  exists q stat, add2PC p s d m code = Some (q, stat) /\ wf q /\ sameButEQ p q /\
  ((Fixed p s d /\ q = p /\ stat = true) \/
   (Fresh p s d /\ stat = true /\
      (forall e c, In (e, c) (pEQ q) <-> In (e, c) (pEQ p) \/ (e = mkMPC (mkD s d 0 None) [mkD m d 1 None] /\ c = codeOpt code))) \/
   (~ Fixed p s d /\ Slave p s d /\ stat = false /\
      (forall e c, In (e, c) (pEQ q) <-> (In (e, c) (pEQ p) /\ dkey (mslave e) <> (s, d)) \/ (exists e0, In (e0, c) (pEQ p) /\ dkey (mslave e0) = (s, d) /\ e = addM m d 1 e0)))).
Proof.
  intros W R T N. unfold add2PC. destruct (Z.ltb_spec d 1); [lia|]. destruct (Z.ltb_spec (pnf p) d); [lia|]. cbn [orb].
  destruct (Z.eqb_spec s m); [contradiction|].
  destruct (link_spec p s d 0 code (addM m d 1) W T (addM_slave m d 1)) as (p1 & stat & live & E & A & B & _ & _ & C).
  rewrite E. do 2 eexists. split; [reflexivity|]. fold (linkEq p1 live s d (addM m d 1)). split; [exact A|]. split; [exact B|].
  destruct C as [(C1 & C2 & _ & C3 & _)|[(C1 & C2 & _ & C3)|(C1 & C2 & C3 & _ & _ & C4)]].
  - left. auto.
  - right; left. split; [exact C1|]. split; [exact C2|]. intros e c. rewrite C3. reflexivity.
  - right; right. auto.
Qed.
Lemma add2PC_noop p s d m code : d < 1 \/ pnf p < d \/ s = m -> add2PC p s d m code = Some (p, true).
Proof.
  intros H. unfold add2PC. destruct (Z.ltb_spec d 1); [reflexivity|]. destruct (Z.ltb_spec (pnf p) d); [reflexivity|]. cbn [orb].
  destruct (Z.eqb_spec s m); [reflexivity|]. intuition lia.
Qed.
Lemma add2PC_adm p s d m code q stat : wf p -> 1 <= d <= pnf p -> d < 10 -> s <> m -> Fresh p s d -> add2PC p s d m code = Some (q, stat) ->
  stat = true /\ wf q /\ forall u, admissible u q <-> admissible u p /\ u (s, d) = u (m, d).
Proof.
  intros W R T N F E. destruct (add2PC_spec p s d m code W R T N) as (q' & st & E' & A & B & C). rewrite E in E'. injection E' as <- <-.
  destruct C as [(C & _)|[(_ & C2 & C3)|(_ & C & _)]]; [exfalso; destruct F; auto| |exfalso; destruct F; auto].
  split; [exact C2|]. split; [exact A|]. intros u. rewrite (admissible_new u p q _ _ B C3). unfold holds, rhs, dkey, qs. cbn [mslave mmast fold_right dcoef dnode dldof].
  replace (0 + (1 * u (m, d) + 0))%Qc with (u (m, d)) by ring. reflexivity.
Qed.

(** ** add3PC *)
Definition both (s d m1 m2 : Z) (m : mpc) : mpc :=
  let e := if m1 =? s then m else addM m1 d 1 m in if m2 =? s then e else addM m2 d 1 e.
Lemma both_slave s d m1 m2 m : mslave (both s d m1 m2 m) = mslave m.
Proof. unfold both. destruct (m1 =? s), (m2 =? s); rewrite ?addM_slave; reflexivity. Qed.
Lemma add3PC_spec p s d m1 m2 code : wf p -> 1 <= d <= pnf p -> d < 10 -> m1 <> m2 ->
  exists q stat, add3PC p s d m1 m2 code = Some (q, stat) /\ wf q /\ sameButEQ p q /\
  ((Fixed p s d /\ q = p /\ stat = true) \/
   (Fresh p s d /\ stat = true /\
      (forall e c, In (e, c) (pEQ q) <-> In (e, c) (pEQ p) \/ (e = both s d m1 m2 (newMPC s d 0) /\ c = codeOpt code))) \/
   (~ Fixed p s d /\ Slave p s d /\ stat = false /\
      (forall e c, In (e, c) (pEQ q) <-> (In (e, c) (pEQ p) /\ dkey (mslave e) <> (s, d)) \/ (exists e0, In (e0, c) (pEQ p) /\ dkey (mslave e0) = (s, d) /\ e = both s d m1 m2 e0)))).
Proof.
  intros W R T N. unfold add3PC. destruct (Z.eqb_spec m1 m2); [contradiction|]. destruct (Z.ltb_spec d 1); [lia|]. destruct (Z.ltb_spec (pnf p) d); [lia|]. cbn [orb].
  destruct (link_spec p s d 0 code (both s d m1 m2) W T (both_slave s d m1 m2)) as (p1 & stat & live & E & A & B & _ & _ & C).
  rewrite E. do 2 eexists. split; [reflexivity|]. fold (both s d m1 m2). fold (linkEq p1 live s d (both s d m1 m2)). split; [exact A|]. split; [exact B|].
  destruct C as [(C1 & C2 & _ & C3 & _)|[(C1 & C2 & _ & C3)|(C1 & C2 & C3 & _ & _ & C4)]].
  - left. auto.
  - right; left. auto.
  - right; right. auto.
Qed.
Lemma add3PC_adm p s d m1 m2 code q stat : wf p -> 1 <= d <= pnf p -> d < 10 -> m1 <> m2 -> m1 <> s -> m2 <> s -> Fresh p s d ->
  add3PC p s d m1 m2 code = Some (q, stat) ->
  stat = true /\ wf q /\ forall u, admissible u q <-> admissible u p /\ u (s, d) = (u (m1, d) + u (m2, d))%Qc.
Proof.
  intros W R T N N1 N2 F E. destruct (add3PC_spec p s d m1 m2 code W R T N) as (q' & st & E' & A & B & C). rewrite E in E'. injection E' as <- <-.
  destruct C as [(C & _)|[(_ & C2 & C3)|(_ & C & _)]]; [exfalso; destruct F; auto| |exfalso; destruct F; auto].
  split; [exact C2|]. split; [exact A|]. intros u. rewrite (admissible_new u p q _ _ B C3).
  rewrite (newMPC_holds u s d 0) by apply both_slave. unfold both. destruct (Z.eqb_spec m1 s); [contradiction|]. destruct (Z.eqb_spec m2 s); [contradiction|].
  rewrite !addM_rhs, newMPC_rhs, !cut_one. replace (0 + 1 * u (m1, d) + 1 * u (m2, d))%Qc with (u (m1, d) + u (m2, d))%Qc by ring. reflexivity.
Qed.

(** ** addPeriodicity *)
Lemma addPeriodicity_fresh p mi si d gm gs q stat : wf p -> nodeAt p mi gm -> nodeAt p si gs -> 1 <= gm -> 1 <= gs -> gm <> gs ->
  1 <= d <= pnf p -> d < 10 -> Fresh p gm d -> addPeriodicity p mi si d = Some (q, stat) ->
  stat = true /\ wf q /\ forall u, admissible u q <-> admissible u p /\ u (gm, d) = u (gs, d).
Proof.
  intros W A B C D N R T F E. unfold addPeriodicity in E. rewrite (nodeAt_getNodeID _ _ _ A), (nodeAt_getNodeID _ _ _ B) in E.
  destruct (Z.ltb_spec gs 1); [lia|]. destruct (Z.ltb_spec gm 1); [lia|]. cbn [orb] in E.
  destruct (add2PC p gm d gs 0) as [[p1 st]|] eqn:E1; [|discriminate E].
  destruct (add2PC_adm _ _ _ _ _ _ _ W R T N F E1) as (-> & W1 & HH). injection E as <- <-. auto.
Qed.

(** ** prescribe *)
Lemma prescribeLoop_spec g code : forall ds p ign, wf p -> StronglySorted Z.lt ds -> Forall (fun d => 0 < d <= 9) ds -> 0 <= ign -> 0 <= pnf p ->
  exists q r, prescribeLoop p g ds code false ign = Some (q, r) /\ wf q /\ sameButEQ p q /\ 0 <= r /\
  (forall e c, In (e, c) (pEQ q) <-> In (e, c) (pEQ p) \/ (exists d, In d ds /\ d <= pnf p /\ Fresh p g d /\ e = newMPC g d 1 /\ c = codeOpt code)) /\
  (forall d, IsDigit r d <-> IsDigit ign d \/ (In d ds /\ (pnf p < d \/ (Slave p g d /\ ~ Fixed p g d)))).
Proof.
  induction ds as [|d ds IH]; intros p ign W S R P N; cbn [prescribeLoop].
  - exists p, ign. split; [reflexivity|]. split; [exact W|]. split; [unfold sameButEQ; auto|]. split; [exact P|]. split.
    + intros e c. split; [auto|]. intros [H|(d & [] & _)]; exact H.
    + intros d. cbn [In]. intuition.
  - inversion S as [|? ? S1 S2]; subst. inversion R as [|? ? R1 R2]; subst. rewrite Forall_forall in S2.
    assert (DG : forall e, IsDigit (10 * ign + d) e <-> e = d \/ IsDigit ign e).
    { intros e. rewrite isDigit_step by lia.
      replace ((10 * ign + d) mod 10) with d by (rewrite Z.add_comm, Z.mul_comm, Z.mod_add, Z.mod_small; lia).
      replace ((10 * ign + d) / 10) with ign by (rewrite Z.add_comm, Z.mul_comm, Z.div_add, Z.div_small; lia). reflexivity. }
    assert (SK : forall i', 0 <= i' -> (forall e, IsDigit i' e <-> IsDigit ign e \/ (e = d /\ (pnf p < d \/ (Slave p g d /\ ~ Fixed p g d)))) ->
       (~ Fresh p g d \/ pnf p < d) ->
       exists q r, prescribeLoop p g ds code false i' = Some (q, r) /\ wf q /\ sameButEQ p q /\ 0 <= r /\
        (forall e c, In (e, c) (pEQ q) <-> In (e, c) (pEQ p) \/ (exists e0, In e0 (d :: ds) /\ e0 <= pnf p /\ Fresh p g e0 /\ e = newMPC g e0 1 /\ c = codeOpt code)) /\
        (forall e, IsDigit r e <-> IsDigit ign e \/ (In e (d :: ds) /\ (pnf p < e \/ (Slave p g e /\ ~ Fixed p g e))))).
    { intros i' Pi Di NF. destruct (IH p i' W S1 R2 Pi N) as (q & r & E & A & B & C & D & F). exists q, r. split; [exact E|]. split; [exact A|]. split; [exact B|]. split; [exact C|]. split.
      - intros e c. rewrite D. split; (intros [H|(e0 & H1 & H2 & H3 & H4)]; [left; exact H|]).
        + right. exists e0. split; [right; exact H1|auto].
        + destruct H1 as [<-|H1]; [exfalso; destruct NF; [auto|lia]|]. right. exists e0. auto.
      - intros e. rewrite F, Di. cbn [In]. split; [intros [[H|(-> & H)]|(H1 & H2)]; auto|]. intros [H|([->|H1] & H2)]; auto. }
    destruct (Z.leb_spec d (pnf p)) as [L|L].
    + assert (T : d < 10) by lia. destruct (link_spec p g d 1 code (fun m => m) W T (fun m => eq_refl)) as (p1 & stat & live & E & _ & _ & A1 & A2 & C).
      rewrite E. destruct C as [(C1 & _ & -> & -> & ->)|[(C1 & -> & -> & C3)|(C1 & C2 & -> & -> & -> & _)]].
      * apply SK; [exact P| |left; intros (Q & _); auto]. intros e. intuition lia.
      * destruct (IH p1 ign A1 S1 R2 P) as (q & r & Eq & A & B & Pr & D & F); [destruct A2 as (-> & _); exact N|].
        assert (PN : pnf p1 = pnf p) by apply A2. rewrite PN in *.
        assert (E1 : forall m c, In (m, c) (pEQ p1) <-> In (m, c) (pEQ p) \/ (m = newMPC g d 1 /\ c = codeOpt code)).
        { destruct (addMPC_spec p (newMPC g d 1) code W T) as (p1' & st' & lv' & E' & H'). rewrite E in E'. injection E' as <- <- <-.
          cbn [newMPC mslave dnode dldof] in H'. destruct H' as [(Q & _)|[(_ & _ & _ & _ & _ & _ & H')|(_ & Q & _)]]; [exfalso; destruct C1; auto| |exfalso; destruct C1; auto].
          intros m c. rewrite H'. split; [intros [Q|Q]; [right; injection Q as -> ->; auto|left; exact Q]|intros [Q|[-> ->]]; auto]. }
        assert (SL : forall e, e <> d -> (Slave p1 g e <-> Slave p g e)).
        { intros e Ne. rewrite !slave_in. split; intros ([m c] & I & K).
          - apply E1 in I. destruct I as [I|[-> ->]]; [exists (m, c); auto|]. cbn in K. injection K as ->. contradiction.
          - exists (m, c). split; [apply E1; left; exact I|exact K]. }
        assert (FR : forall e, e <> d -> (Fresh p1 g e <-> Fresh p g e)).
        { intros e Ne. unfold Fresh. rewrite (fixed_same p p1 g e A2), SL by exact Ne. reflexivity. }
        assert (NE : forall e, In e ds -> e <> d) by (intros e He Q; apply S2 in He; lia).
        exists q, r. split; [exact Eq|]. split; [exact A|]. split; [|split; [exact Pr|split]].
        -- destruct A2 as (Q1 & Q2 & Q3 & Q4). destruct B as (B1 & B2 & B3 & B4). unfold sameButEQ. rewrite B1, B2, B3, B4. auto.
        -- intros e c. rewrite D, E1. split.
           ++ intros [[H|[-> ->]]|(e0 & H1 & H2 & H3 & H4)]; [left; exact H| |].
              ** right. exists d. split; [left; reflexivity|auto].
              ** right. exists e0. split; [right; exact H1|]. split; [exact H2|]. split; [|exact H4]. apply FR; auto.
           ++ intros [H|(e0 & [<-|H1] & H2 & H3 & -> & ->)]; [left; left; exact H|left; right; auto|].
              right. exists e0. split; [exact H1|]. split; [exact H2|]. split; [|auto]. apply FR; auto.
        -- intros e. rewrite F. cbn [In]. split.
           ++ intros [H|(H1 & H2)]; [left; exact H|right]. split; [right; exact H1|]. rewrite (fixed_same p p1 g e A2), SL in H2 by auto. exact H2.
           ++ intros [H|([<-|H1] & H2)]; [left; exact H| |right; split; [exact H1|rewrite (fixed_same p p1 g e A2), SL by auto; exact H2]].
              exfalso. destruct C1 as (C1 & C2). destruct H2 as [H2|(H2 & _)]; [lia|auto].
      * apply SK; [lia| |left; intros (_ & Q); auto]. intros e. rewrite DG. intuition.
    + apply SK; [lia| |right; exact L]. intros e. rewrite DG. intuition.
Qed.
Lemma prescribe_spec p i g dirs code : wf p -> nodeAt p i g -> 1 <= g -> 1 <= dirs -> 0 <= pnf p -> code <> 0 -> ~ IsDigit dirs 0 ->
  exists q r, prescribe p i dirs code false = Some (q, r) /\ wf q /\ sameButEQ p q /\
  (forall e c, In (e, c) (pEQ q) <-> In (e, c) (pEQ p) \/ (exists d, IsDigit dirs d /\ d <= pnf p /\ Fresh p g d /\ e = newMPC g d 1 /\ c = codeOpt code)) /\
  (forall d, IsDigit r d <-> IsDigit dirs d /\ (pnf p < d \/ (Slave p g d /\ ~ Fixed p g d))).
Proof.
  intros W A G D N C Z0. unfold prescribe. destruct (Z.eqb_spec code 0); [contradiction|].
  rewrite (nodeAt_getNodeID _ _ _ A). destruct (Z.ltb_spec g 1); [lia|]. destruct (Z.ltb_spec dirs 1); [lia|]. cbn [orb].
  destruct (prescribeLoop_spec g code (getDigits dirs) p 0 W (getDigits_sorted dirs)) as (q & r & E & W' & B & _ & H1 & H2); [|lia|exact N|].
  - apply Forall_forall. intros d Hd. apply getDigits_in in Hd; [|lia]. assert (d <> 0) by (intros ->; contradiction). apply isDigit_range in Hd; lia.
  - exists q, r. split; [exact E|]. split; [exact W'|]. split; [exact B|]. split.
    + intros e c. rewrite H1. split; (intros [HH|(d & Q1 & Q2)]; [left; exact HH|right; exists d; split; [|exact Q2]]); apply getDigits_in in Q1 || apply getDigits_in; auto; lia.
    + intros d. rewrite H2, getDigits_in by lia. pose proof (isDigit_zero d). intuition.
Qed.

(** ** addMPC with override *)
Lemma freeFirst_fixed n d : 0 <= d <= 9 -> forall l, NoDup (map bnode l) ->
  NoDup (map bnode (freeFirst n d l)) /\
  (forall b, In b (freeFirst n d l) -> exists a, In a l /\ bnode a = bnode b) /\
  (forall m e, (exists b, In b (freeFirst n d l) /\ bnode b = m /\ fixedIn b e) <-> ((exists b, In b l /\ bnode b = m /\ fixedIn b e) /\ ~ (m = n /\ e = d))).
Proof.
  intros R. induction l as [|a l IH]; intros N; cbn [freeFirst].
  - split; [constructor|]. split; [intros b []|]. intros m e. split; [intros (b & [] & _)|intros ((b & [] & _) & _)].
  - cbn [map] in N. inversion N as [|? ? N1 N2]; subst. destruct (IH N2) as (A & B & C).
    assert (U : forall b, In b l -> bnode b <> bnode a) by (intros b Hb Q; apply N1; rewrite <- Q; apply in_map; exact Hb).
    destruct (fixedBC n d a) eqn:E.
    + apply fixedBC_one in E; [|exact R]. destruct E as (E1 & E2). destruct (allFree (bcSet true d a)) eqn:F.
      * rewrite allFree_in in F. split; [exact N2|]. split; [intros b Hb; exists b; split; [right; exact Hb|reflexivity]|].
        intros m e. split.
        -- intros (b & Hb & Q1 & Q2). split; [exists b; split; [right; exact Hb|auto]|]. intros (-> & _). apply (U b Hb). congruence.
        -- intros ((b & [<-|Hb] & Q1 & Q2) & Q3); [|exists b; auto]. exfalso. apply (F e). apply free_in. split; [exact Q2|]. intros ->. apply Q3. split; congruence.
      * split; [cbn [map]; rewrite bcSet_node; constructor; auto|]. split; [intros b [<-|Hb]; [exists a; split; [left; reflexivity|symmetry; apply bcSet_node]|exists b; split; [right; exact Hb|reflexivity]]|].
        intros m e. split.
        -- intros (b & [<-|Hb] & Q1 & Q2).
           ++ rewrite bcSet_node in Q1. apply free_in in Q2. destruct Q2 as (Q2 & Q3). split; [exists a; split; [left; reflexivity|auto]|]. intros (_ & Q4). contradiction.
           ++ split; [exists b; split; [right; exact Hb|auto]|]. intros (-> & _). apply (U b Hb). congruence.
        -- intros ((b & [<-|Hb] & Q1 & Q2) & Q3).
           ++ exists (bcSet true d a). split; [left; reflexivity|]. rewrite bcSet_node. split; [exact Q1|]. apply free_in. split; [exact Q2|]. intros ->. apply Q3. split; congruence.
           ++ exists b. split; [right; exact Hb|auto].
    + split; [|split].
      * cbn [map]. constructor; [|exact A]. intros Q. apply in_map_iff in Q. destruct Q as (b & Q & Hb). apply B in Hb. destruct Hb as (a' & Ha & Q'). apply (U a' Ha). congruence.
      * intros b [<-|Hb]; [exists a; split; [left; reflexivity|reflexivity]|]. apply B in Hb. destruct Hb as (a' & Ha & Q). exists a'. split; [right; exact Ha|exact Q].
      * intros m e. split.
        -- intros (b & [<-|Hb] & Q1 & Q2).
           ++ split; [exists a; split; [left; reflexivity|auto]|]. intros (Q3 & Q4). rewrite <- not_true_iff_false in E. apply E. apply fixedBC_one; [exact R|]. subst. auto.
           ++ assert (Q : exists b, In b (freeFirst n d l) /\ bnode b = m /\ fixedIn b e) by (exists b; auto). apply C in Q. destruct Q as ((b' & Hb' & Q4) & Q5). split; [exists b'; split; [right; exact Hb'|exact Q4]|exact Q5].
        -- intros ((b & [<-|Hb] & Q1 & Q2) & Q3); [exists a; split; [left; reflexivity|auto]|].
           assert (Q : exists b, In b (freeFirst n d l) /\ bnode b = m /\ fixedIn b e) by (apply C; split; [exists b; auto|exact Q3]). destruct Q as (b' & Hb' & Q4). exists b'. split; [right; exact Hb'|exact Q4].
Qed.
Lemma addMPC_override p m code : wf p -> 0 <= dldof (mslave m) <= 9 ->
  let n := dnode (mslave m) in let d := dldof (mslave m) in
  (Slave p n d -> ((exists e c, In (e, c) (pEQ p) /\ dkey (mslave e) = (n, d) /\ mmast e = []) <-> addMPC p m code true = None)) /\
  (~ Slave p n d -> exists q, addMPC p m code true = Some (q, true, true) /\ wf q /\
      (forall k e, Fixed q k e <-> Fixed p k e /\ ~ (k = n /\ e = d)) /\
      (forall x, In x (pEQ q) <-> x = (m, codeOpt code) \/ In x (pEQ p)) /\ pnf q = pnf p /\ pMLGN q = pMLGN p /\ pnnod q = pnnod p).
Proof.
  intros W R n d. pose proof W as (W1 & W2). pose proof (wf_nodup p W) as ND. unfold addMPC. fold n d. cbn [negb]. rewrite andb_false_r.
  set (p1 := if existsb (fixedBC n d) (pBC p) then setBC p (freeFirst n d (pBC p)) else p).
  assert (EQ1 : pEQ p1 = pEQ p) by (unfold p1; destruct (existsb _ _); reflexivity).
  assert (FX : forall k e, Fixed p1 k e <-> Fixed p k e /\ ~ (k = n /\ e = d)).
  { intros k e. unfold p1. destruct (existsb (fixedBC n d) (pBC p)) eqn:E.
    - unfold Fixed. cbn [pBC setBC]. apply (freeFirst_fixed n d R (pBC p) W1).
    - split; [|tauto]. intros H. split; [exact H|]. intros (-> & ->). apply existsb_fixed in H; [congruence|exact R]. }
  assert (N1 : NoDup (map bnode (pBC p1))).
  { unfold p1. destruct (existsb _ _); [|exact W1]. cbn [pBC setBC]. apply (freeFirst_fixed n d R (pBC p) W1). }
  assert (SP : pnf p1 = pnf p /\ pMLGN p1 = pMLGN p /\ pnnod p1 = pnnod p) by (unfold p1; destruct (existsb _ _); cbn; auto).
  rewrite EQ1. fold (codeOpt code). destruct (insertEq m (codeOpt code) (pEQ p)) as [new l] eqn:I.
  destruct (insertEq_spec _ _ _ _ _ I W2) as (S & N). pose proof (insertEq_in _ _ _ _ _ I) as J.
  assert (SK : Slave p n d <-> In (dkey (mslave m)) (map (fun x => key x) (pEQ p))).
  { rewrite slave_in, in_map_iff. split; intros (x & A & B); exists x; auto. }
  split.
  - intros SL. destruct new; [exfalso; apply (proj1 N eq_refl); apply SK; exact SL|].
    assert (SL1 : Slave p1 n d) by (unfold Slave, eqns in *; rewrite EQ1; exact SL).
    destruct (proj2 (findMPC_some p1 n d) SL1) as (x & Q & Qi & Qk). rewrite Q. cbn [andb]. rewrite EQ1 in Qi. split.
    + intros (e & c & H1 & H2 & H3). assert (x = (e, c)).
      { clear - ND Qi Qk H1 H2. induction (pEQ p) as [|y r IHr]; [destruct Qi|]. cbn [map] in ND. inversion ND as [|? ? D1 D2]; subst.
        destruct Qi as [->|Qi], H1 as [->|H1]; auto.
        - exfalso. apply D1. rewrite Qk, <- H2. apply (in_map (fun x : eqn => key x) r (e, c)). exact H1.
        - exfalso. apply D1. cbn [fst]. rewrite H2, <- Qk. apply (in_map (fun x : eqn => key x)). exact Qi. }
      subst x. cbn [fst]. rewrite H3. reflexivity.
    + destruct (mmast (fst x)) eqn:M; [|intros H; discriminate H]. intros _. destruct x as [e c]. exists e, c. auto.
  - intros NS. destruct new; [|exfalso; rewrite SK in NS; apply N in NS; discriminate NS].
    eexists. split; [reflexivity|]. split; [split; [exact N1|exact S]|]. split; [exact FX|]. split; [exact J|]. exact SP.
Qed.
