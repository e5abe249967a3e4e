(** Proofs about SAM: diagonal matrices, other right-hand-side assembly entry points. *)
From Coq Require Import List Arith ZArith QArith Qcanon Bool Permutation Lia.
Require Import ZifyBool ZifyNat.
From Verif Require Import Base SAM_model SAM_spec SAM_proofs SAM_proofs2 SAM_proofs3.
Import ListNotations.
Local Open Scope Z_scope.

(** ** DiagMatrix *)
Lemma entryV_flat_map {A} r (g : A -> list (Z*Qc)) l : entryV r (flat_map g l) = qs (fun x => entryV r (g x)) l.
Proof. apply qs_flat_map. Qed.
Lemma entryV_cons r u l : entryV r (u :: l) = ((if fst u =? r then snd u else 0) + entryV r l)%Qc. Proof. reflexivity. Qed.
Lemma entryV_nil r : entryV r [] = 0%Qc. Proof. reflexivity. Qed.

Lemma diag_entry s K meen r : consistent s -> eqsOK s meen -> 1 <= r ->
  entryV r (diagUpd s K meen) =
  (qs (fun j => F (me meen j) r * K j j) (seq 0 (length meen)) +
   qs2 (length meen) (fun j i => Cc s (me meen j) r * F (me meen i) r * (K i j + K j i)
                               + Cc s (me meen i) r * K i j * Cc s (me meen j) r))%Qc.
Proof.
  intros C R Hr. unfold diagUpd, qs2. rewrite entryV_flat_map, <- qs_plus. apply qs_ext. intros j _.
  pose proof (me_range s meen j R) as Rj.
  destruct (0 <? me meen j) eqn:E.
  - rewrite entryV_cons, entryV_nil. cbn [fst snd]. rewrite (qs_zero _ (seq 0 (length meen))).
    + unfold F. rewrite E. destruct (me meen j =? r); unfold b2q; ring.
    + intros i _. unfold Cc. destruct (me meen j <? 0) eqn:E2; [lia|]. ring.
  - destruct (me meen j <? 0) eqn:E2.
    + unfold F at 1. rewrite E. rewrite entryV_flat_map.
      rewrite (qs_ext _ (fun jp => qs (fun i =>
         (if fst jp =? r then snd jp else 0) * F (me meen i) r * (K i j + K j i)
         + Cc s (me meen i) r * K i j * (if fst jp =? r then snd jp else 0))%Qc (seq 0 (length meen)))).
      * rewrite qs_swap. transitivity (qs (fun y => qs (fun x : Z * Qc => (if fst x =? r then snd x else 0) * F (me meen y) r * (K y j + K j y) + Cc s (me meen y) r * K y j * (if fst x =? r then snd x else 0))%Qc (masters s (ceqno (me meen j)))) (seq 0 (length meen))); [reflexivity|].
        rewrite Qcmult_0_l, Qcplus_0_l. apply qs_ext. intros i _.
        unfold Cc at 2 4. rewrite E2. rewrite qs_plus, qs_scal. f_equal.
        rewrite (qs_ext _ (fun x : Z * Qc => (if fst x =? r then snd x else 0) * (F (me meen i) r * (K i j + K j i)))%Qc) by (intros; ring).
        rewrite qs_scal_r. ring.
      * intros [q t] Hq. cbn [fst snd].
        assert (Rq : 1 <= q <= Z.of_nat (neq s)). { eapply masters_range; eauto. unfold ceqno; lia. }
        destruct (0 <? q) eqn:Eq; [|lia]. rewrite entryV_flat_map. apply qs_ext. intros i _.
        destruct (me meen i =? q) eqn:Ei.
        -- rewrite entryV_cons, entryV_nil. cbn [fst snd]. unfold F, Cc. destruct (0 <? me meen i) eqn:Ep; [|lia].
           destruct (me meen i <? 0) eqn:En; [lia|].
           destruct (q =? r) eqn:Er; destruct (me meen i =? r) eqn:Eir; try lia; unfold b2q; ring.
        -- destruct (me meen i <? 0) eqn:En.
           ++ rewrite entryV_flat_map. unfold F, Cc. destruct (0 <? me meen i) eqn:Ep; [lia|]. rewrite En.
              rewrite (qs_ext _ (fun ip : Z * Qc => (if fst ip =? r then snd ip else 0) * (K i j * (if q =? r then t else 0)))%Qc).
              ** rewrite qs_scal_r. ring.
              ** intros [q' t'] _. cbn [fst snd]. destruct (q' =? q) eqn:E5.
                 --- rewrite entryV_cons, entryV_nil. cbn [fst snd].
                     destruct (q =? r) eqn:E6; destruct (q' =? r) eqn:E7; try lia; ring.
                 --- rewrite entryV_nil. destruct (q =? r) eqn:E6; destruct (q' =? r) eqn:E7; try lia; ring.
           ++ rewrite entryV_nil. unfold F, Cc. rewrite En. destruct (0 <? me meen i) eqn:Ep; [|ring].
              destruct (q =? r) eqn:Er; destruct (me meen i =? r) eqn:Eir; try lia; unfold b2q; ring.
    + rewrite entryV_nil. unfold F at 1. rewrite E. rewrite (qs_zero _ (seq 0 (length meen))); [ring|].
      intros i _. unfold Cc. rewrite E2. ring.
Qed.

Lemma diag_is_diagonal_partial s K meen r : consistent s -> eqsOK s meen -> 1 <= r ->
  (forall i j, (i < length meen)%nat -> (j < length meen)%nat -> me meen i = me meen j -> 0 < me meen i -> i = j) ->
  entryV r (diagUpd s K meen) = entry r r (fst (assemSparse s K meen)).
Proof.
  intros C R Hr U. rewrite diag_entry by auto. unfold assemSparse; cbn [fst].
  rewrite entry_app, entry_free, entry_cons_upd. f_equal.
  - unfold qs2. apply qs_ext. intros i Hi. apply in_seq in Hi. symmetry.
    rewrite (qs_single _ _ i).
    + unfold F. destruct (0 <? me meen i); [|ring]. destruct (me meen i =? r); unfold b2q; ring.
    + apply seq_NoDup.
    + apply in_seq; lia.
    + intros j Hj Hne. apply in_seq in Hj. unfold F.
      destruct (0 <? me meen i) eqn:Ei; [|ring]. destruct (0 <? me meen j) eqn:Ej; [|ring].
      destruct (me meen i =? r) eqn:E1; [|unfold b2q; ring]. destruct (me meen j =? r) eqn:E2; [|unfold b2q; ring].
      exfalso. apply Hne. symmetry. apply U; lia.
  - apply qs2_ext. intros j i _ _. ring.
Qed.

(** ** right-hand sides *)
Lemma assembleRHS_nth s rhs v m p : consistent s -> length rhs = neq s ->
  - Z.of_nat (nceq s) <= m <= Z.of_nat (neq s) ->
  nth p (assembleRHS s rhs v m) 0%Qc = (nth p rhs 0 + v * Tcoef s m (Z.of_nat (S p)))%Qc.
Proof.
  intros C L Hm. rewrite T_split. unfold assembleRHS, F, Cc. destruct (0 <? m) eqn:E.
  - destruct (m <? 0) eqn:E2; [lia|]. rewrite addAt_nth by lia.
    destruct (Nat.eqb_spec p (Z.to_nat (m-1))); destruct (m =? Z.of_nat (S p)) eqn:E3; try lia; unfold b2q; ring.
  - destruct (m <? 0) eqn:E2; [|ring].
    assert (G : forall l r, (forall q, In q l -> 1 <= fst q <= Z.of_nat (neq s)) -> length r = neq s ->
      nth p (fold_left (fun r p => addAt (Z.to_nat (fst p - 1)) (snd p * v)%Qc r) l r) 0%Qc =
      (nth p r 0 + v * qs (fun q => if (fst q =? Z.of_nat (S p))%Z then snd q else 0) l)%Qc).
    { induction l as [|q l IH]; intros r H Lr; cbn [fold_left].
      - rewrite qs_nil. ring.
      - pose proof (H q (or_introl eq_refl)). rewrite IH.
        + rewrite addAt_nth by lia. rewrite qs_cons.
          destruct (Nat.eqb_spec p (Z.to_nat (fst q - 1))); destruct (fst q =? Z.of_nat (S p)) eqn:E3; try lia; ring.
        + intros q' Hq'. apply H. right; exact Hq'.
        + rewrite addAt_length. exact Lr. }
    rewrite G; [ring| |exact L]. intros [q c] Hq. eapply masters_range; eauto. unfold ceqno; lia.
Qed.

Lemma addToRHSloop_nth s p : forall meen S rhs, consistent s -> length rhs = neq s -> eqsOK s meen ->
  nth p (addToRHSloop s meen S rhs) 0%Qc =
  (nth p rhs 0 + qs (fun q => snd q * Tcoef s (fst q) (Z.of_nat (Datatypes.S p))) (combine meen S))%Qc.
Proof.
  induction meen as [|m q IH]; intros [|a S] rhs C L R; cbn [addToRHSloop combine]; rewrite ?qs_nil; try ring.
  rewrite IH; auto.
  - rewrite assembleRHS_nth; auto; [rewrite qs_cons; cbn [fst snd]; ring|]. apply R. left; reflexivity.
  - rewrite assembleRHS_len. exact L.
  - intros m' Hm'. apply R. right; exact Hm'.
Qed.

Lemma assembleElmVec_spec s eS iel rhs : consistent s -> length rhs = neq s ->
  (eS = [] /\ assembleElmVec s eS iel rhs = (true, rhs)) \/
  (eS <> [] /\ getElmEqnsN s iel (length eS) = None /\ assembleElmVec s eS iel rhs = (false, rhs)) \/
  (eS <> [] /\ exists meen rhs', getElmEqnsN s iel (length eS) = Some meen /\
     assembleElmVec s eS iel rhs = (true, rhs') /\
     forall p, nth p rhs' 0%Qc = (nth p rhs 0 + qs (fun i => nth i eS 0 * Tcoef s (me meen i) (Z.of_nat (S p))) (seq 0 (length meen)))%Qc).
Proof.
  intros C L. unfold assembleElmVec. destruct eS as [|a eS]; [left; auto|]. right.
  set (S0 := a :: eS).
  destruct (getElmEqnsN s iel (length S0)) as [meen|] eqn:G; [right|left; repeat split; discriminate].
  split; [discriminate|]. exists meen, (addToRHSloop s meen S0 rhs). repeat split.
  intros p.
  assert (G2 : exists nodes, elmNodes s iel = Some nodes /\ meen = flat_map (nodeEqs s) nodes /\ (length meen = length S0 \/ meen = [])).
  { unfold getElmEqnsN in G. destruct (elmNodes s iel) as [[|n nodes]|]; [|..]; try discriminate.
    - injection G as <-. exists []. auto.
    - cbv zeta in G. destruct ((length S0 =? 0)%nat || (length (flat_map (nodeEqs s) (n :: nodes)) =? length S0)%nat) eqn:E; [|discriminate].
      injection G as <-. exists (n :: nodes). repeat split. left. apply orb_true_iff in E. destruct E as [E|E]; [discriminate E|]. apply Nat.eqb_eq in E. exact E. }
  destruct G2 as (nodes&N1&N2&N3).
  rewrite addToRHSloop_nth; auto.
  - f_equal. destruct N3 as [N3|N3].
    + clear - N3. unfold me. clearbody S0. revert S0 N3. induction meen as [|m q IH]; intros [|b S0] N3; cbn [length] in *; try lia; [reflexivity|].
      cbn [combine seq]. rewrite !qs_cons. cbn [fst snd nth]. f_equal. rewrite IH by lia.
      rewrite <- seq_shift, qs_map. apply qs_ext. intros i _. reflexivity.
    + rewrite N3. reflexivity.
  - apply (getElmEqns_range s iel); auto. unfold getElmEqns. rewrite N1, N2. reflexivity.
Qed.

Lemma assembleKRHS_inner s K meen j p : consistent s -> eqsOK s meen -> forall is r, length r = neq s ->
  (forall i, In i is -> (i < length meen)%nat) ->
  let r' := fold_left (fun r' i => assembleRHS s r' (- (coff s (ceqno (me meen j)) * K i j))%Qc (me meen i)) is r in
  length r' = neq s /\
  nth p r' 0%Qc = (nth p r 0 + qs (fun i => - (coff s (ceqno (me meen j)) * K i j) * Tcoef s (me meen i) (Z.of_nat (S p))) is)%Qc.
Proof.
  intros C R. induction is as [|i is IH]; intros r L Hi; cbn [fold_left].
  - rewrite qs_nil. split; [exact L|ring].
  - destruct (IH (assembleRHS s r (- (coff s (ceqno (me meen j)) * K i j))%Qc (me meen i))) as [L2 V2].
    + rewrite assembleRHS_len. exact L.
    + intros k Hk. apply Hi. right; exact Hk.
    + split; [exact L2|]. rewrite V2. rewrite assembleRHS_nth by (auto using me_range). rewrite qs_cons. ring.
Qed.
Lemma assembleKRHS_spec s K meen rhs p : consistent s -> eqsOK s meen -> length rhs = neq s ->
  nth p (assembleKRHS s K meen rhs) 0%Qc = (nth p rhs 0 + entryV (Z.of_nat (S p)) (snd (assemSparse s K meen)))%Qc.
Proof.
  intros C R L. rewrite assemSparse_rhs. unfold assembleKRHS.
  assert (G : forall js r, length r = neq s -> 
    let r' := fold_left (fun r j => if - me meen j <? 1 then r else
      fold_left (fun r' i => assembleRHS s r' (- (coff s (ceqno (me meen j)) * K i j))%Qc (me meen i))
                (seq 0 (length meen)) r) js r in
    length r' = neq s /\
    nth p r' 0%Qc = (nth p r 0 - qs (fun j => qs (fun i => Tcoef s (me meen i) (Z.of_nat (S p)) * K i j * c0 s (me meen j)) (seq 0 (length meen))) js)%Qc).
  { induction js as [|j js IH]; intros r Lr; cbn [fold_left].
    - rewrite qs_nil. split; [exact Lr|ring].
    - destruct (- me meen j <? 1) eqn:E.
      + destruct (IH r Lr) as [L2 V2]. split; [exact L2|]. rewrite V2, qs_cons.
        rewrite (qs_zero _ (seq 0 (length meen))); [ring|]. intros i _. rewrite !c0_eq. destruct (me meen j <? 0) eqn:E2; [lia|]. ring.
      + destruct (assembleKRHS_inner s K meen j p C R (seq 0 (length meen)) r Lr) as [L1 V1].
        { intros i Hi. apply in_seq in Hi. lia. }
        destruct (IH _ L1) as [L2 V2]. split; [exact L2|]. rewrite V2, V1, qs_cons.
        rewrite (qs_ext _ (fun i => - (Tcoef s (me meen i) (Z.of_nat (S p)) * K i j * c0 s (me meen j)))%Qc).
        * rewrite qs_opp. ring.
        * intros i _. rewrite !c0_eq. destruct (me meen j <? 0) eqn:E2; [|lia]. ring. }
  destruct (G (seq 0 (length meen)) rhs L) as [_ V]. rewrite V. unfold Qcminus. f_equal. f_equal.
  rewrite <- qs2_swap. reflexivity.
Qed.

(** ** vectors into matrix columns *)
Definition colVal (V : list Qc) (d : nat) : Qc := if (d <? length V)%nat then nth d V 0%Qc else last V 0%Qc.

Lemma colUpd_far s V : forall mnen d col l r c, colUpd s V col d mnen = Some l -> c < col -> entry r c l = 0%Qc.
Proof.
  induction mnen as [|m q IH]; intros d col l r c H Hc; cbn [colUpd] in H; [injection H as <-; reflexivity|].
  destruct (colUpd s V (col+1) (S d) q) as [b|] eqn:Eb.
  2:{ destruct (if 0 <? m then _ else _); discriminate. }
  pose proof (IH (S d) (col+1) b r c Eb ltac:(lia)) as Z0.
  revert H. match goal with |- match ?x with _ => _ end = _ -> _ => remember x as h eqn:Eh end.
  destruct h as [a|]; [|discriminate]. intros [= <-]. rewrite entry_app, Z0, Qcplus_0_r.
  destruct (0 <? m).
  - injection Eh as ->. rewrite entry_cons, entry_nil. cbn [fst snd]. destruct (col =? c) eqn:E; [lia|]. rewrite andb_false_r. ring.
  - destruct (m <? 0); [|injection Eh as ->; reflexivity].
    revert a Eh. generalize (seq (cbeg s (ceqno m)) (cend s (ceqno m) - cbeg s (ceqno m))) as ks.
    induction ks as [|k ks IHk]; intros a Ha; cbn [fold_right] in Ha; [injection Ha as ->; reflexivity|].
    destruct (fold_right _ (Some []) ks) as [l0|]; [|discriminate]. destruct (mm s k <? 1); [discriminate|].
    injection Ha as ->. rewrite entry_cons. cbn [fst snd]. rewrite (IHk l0 eq_refl). destruct (col =? c) eqn:E; [lia|].
    rewrite andb_false_r. ring.
Qed.

Lemma colUpd_unit_partial s V : forall mnen d col l r i, colUpd s V col d mnen = Some l ->
  (forall m p, In m mnen -> m < 0 -> In p (masterTerms s (ceqno m)) -> snd p = 1%Qc) ->
  (i < length mnen)%nat ->
  entry r (col + Z.of_nat i) l = (colVal V (d+i) * Tcoef s (nth i mnen 0%Z) r)%Qc.
Proof.
  induction mnen as [|m q IH]; intros d col l r i H Hu Hi; cbn [length] in Hi; [lia|].
  cbn [colUpd] in H.
  destruct (colUpd s V (col+1) (S d) q) as [b|] eqn:Eb.
  2:{ destruct (if 0 <? m then _ else _); discriminate. }
  revert H. match goal with |- match ?x with _ => _ end = _ -> _ => remember x as h eqn:Eh end.
  destruct h as [a|]; [|discriminate]. intros [= <-]. rewrite entry_app.
  assert (A : forall c, entry r c a = if c =? col then (colVal V d * Tcoef s m r)%Qc else 0%Qc).
  { intros c. fold (colVal V d) in Eh. rewrite Tcoef_eq. destruct (0 <? m) eqn:Em.
    - injection Eh as ->. rewrite entry_cons, entry_nil. cbn [fst snd].
      destruct (m =? r), (c =? col) eqn:E; destruct (col =? c) eqn:E'; try lia; cbn [andb]; unfold b2q; ring.
    - destruct (m <? 0) eqn:Em2.
      + specialize (Hu m). revert a Eh Hu. change (Z.to_nat (- m)) with (ceqno m). rewrite masterTerms_eq. change (eqn s) with (eqnOf s).
        generalize (seq (cbeg s (ceqno m)) (cend s (ceqno m) - cbeg s (ceqno m))) as ks.
        induction ks as [|k ks IHk]; intros a Ha Hu; cbn [fold_right] in Ha.
        * injection Ha as ->. cbn [map]. rewrite qs_nil, entry_nil. destruct (c =? col); ring.
        * destruct (fold_right _ (Some []) ks) as [l0|] eqn:El; [|discriminate]. destruct (mm s k <? 1) eqn:Ek; [discriminate|].
          injection Ha as ->. rewrite entry_cons. cbn [fst snd map]. rewrite qs_cons. cbn [fst snd].
          assert (Ec : cc s k = 1%Qc). { apply (Hu (mm s k, cc s k)); [left; reflexivity|lia|]. cbn [map]. left. reflexivity. }
          rewrite (IHk l0 eq_refl).
          -- rewrite Ec. destruct (0 <? mm s k) eqn:Ek2; [|lia]. cbn [andb].
             destruct (eqnOf s (mm s k) =? r), (c =? col) eqn:E; destruct (col =? c) eqn:E'; try lia; cbn [andb]; ring.
          -- intros p Hm Hl Hp. apply Hu; auto. cbn [map]. right. exact Hp.
      + injection Eh as ->. rewrite entry_nil. destruct (c =? col); ring. }
  rewrite A. destruct i as [|i].
  - rewrite (colUpd_far s V q (S d) (col+1) b r (col + Z.of_nat 0) Eb) by lia.
    destruct (col + Z.of_nat 0 =? col) eqn:E; [|lia]. cbn [nth]. rewrite Nat.add_0_r. ring.
  - destruct (col + Z.of_nat (S i) =? col) eqn:E; [lia|].
    replace (col + Z.of_nat (S i)) with (col + 1 + Z.of_nat i) by lia.
    rewrite (IH (S d) (col+1) b r i Eb); [|intros m' p Hm'; apply Hu; right; exact Hm'|lia].
    cbn [nth]. replace (S d + i)%nat with (d + S i)%nat by lia. ring.
Qed.
