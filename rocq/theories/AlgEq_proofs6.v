(** assemble and finalize of one system: totality, ownership and contents. *)
From Coq Require Import List Arith ZArith QArith Qcanon Bool Lia Permutation.
From Verif Require Import Base SAM_model SAM_spec SAM_proofs SAM_proofs2 SAM_proofs3 SAM_proofs4 Sparse_model Sparse_spec Sparse_proofs Sparse_proofs2 Sparse_proofs3 Sparse_proofs4 Sparse_proofs5 Sparse_proofs6 Sparse_proofs8 AlgEq_model AlgEq_spec AlgEq_proofs AlgEq_proofs2 AlgEq_proofs3 AlgEq_proofs4 AlgEq_proofs5.
Import ListNotations.
Local Open Scope nat_scope.

Definition optb (a z : option nat) : bool := match a, z with Some u, Some v => u =? v | None, None => true | _, _ => false end.
Definition assocB (y : sys) (j k : nat) : bool :=
  match nth_error (A y) k, nth_error (b y) j with
  | Some a, Some p => if length (A y) =? 1 then j =? 0 else optb (snd a) p
  | _, _ => false
  end.
Definition assocKs (y : sys) (j : nat) : list nat := filter (assocB y j) (seq 0 (length (A y))).

Lemma combine_filter {X Y} (f : X -> bool) (g : Y -> Qc) : forall (ps : list X) (es : list Y),
  qs (fun t => if f (fst t) then g (snd t) else 0%Qc) (combine ps es) =
  qs (fun k => match nth_error es k with Some E => g E | None => 0%Qc end) (filter (fun k => match nth_error ps k with Some a => f a | None => false end) (seq 0 (length ps))).
Proof.
  induction ps as [|a ps IH]; intros es; [reflexivity|]. cbn [length seq filter nth_error]. rewrite <- seq_shift.
  assert (Fm : forall (p : nat -> bool) l, filter p (map S l) = map S (filter (fun k => p (S k)) l)).
  { intros p l. induction l as [|x l IHl]; [reflexivity|]. cbn. destruct (p (S x)); cbn; rewrite IHl; reflexivity. }
  destruct es as [|e es]; cbn [combine].
  - rewrite qs_nil. symmetry. apply qs_zero. intros [|k] _; reflexivity.
  - rewrite qs_cons, IH. cbn [fst snd]. rewrite Fm. destruct (f a); cbn [nth_error]; rewrite ?qs_cons, qs_map; cbn [nth_error]; ring.
Qed.
Lemma combine_one {Y} (g : list Y -> Qc) : forall (ps : list nat) (es : list (list Y)) j q, NoDup ps -> nth_error ps j = Some q -> g [] = 0%Qc ->
  qs (fun t => if fst t =? q then g (snd t) else 0%Qc) (combine ps es) = g (nth j es []).
Proof.
  induction ps as [|a ps IH]; intros es j q Nd Hj G0; [destruct j; discriminate|]. inversion Nd as [|? ? Na Nd']; subst. destruct es as [|e es]; cbn [combine].
  - rewrite qs_nil. destruct j; cbn; symmetry; exact G0.
  - rewrite qs_cons. cbn [fst snd]. destruct j as [|j]; cbn [nth_error nth] in *.
    + injection Hj as ->. rewrite Nat.eqb_refl. rewrite qs_zero; [ring|]. intros [u w] Hu. cbn [fst snd]. destruct (Nat.eqb_spec u q) as [->|]; [|reflexivity]. exfalso. apply Na. eapply in_combine_l. exact Hu.
    + destruct (Nat.eqb_spec a q) as [->|_]; [exfalso; apply Na; eapply nth_error_In; exact Hj|]. rewrite (IH es j q Nd' Hj G0). ring.
Qed.
Lemma vecTerm_nil s meen r : vecTerm s meen [] r = 0%Qc.
Proof. unfold vecTerm. apply qs_zero. intros [|i] _; cbn [nth]; ring. Qed.

Definition addsTo (s : tables) (it : nat) (e : elm) (iel : nat) (h : heap) (y : sys) (h' : heap) (y' : sys) : Prop :=
  (forall k q M, nth_error (aM y) k = Some q -> nth_error (hM h) q = Some (Some M) -> exists M', assembleElms s (matList s [(it, e, iel)] k) M = Some M' /\ nth_error (hM h') q = Some (Some M')) /\
  (forall j q p, nth_error (aV y) j = Some q -> vval (hV h') q p = (vval (hV h) q p + vecContrib s e iel (assocKs y j) j (S p))%Qc) /\
  (forall p, p < length (R y) -> nth p (R y') 0%Qc = (nth p (R y) 0 + reactContrib s e iel p)%Qc) /\
  (forall j, j < length (c y) -> sclSum h' y' j = (sclSum h y j + sclContrib e j)%Qc).

Lemma sizes_eq s sh y y' : A y' = A y -> b y' = b y -> length (c y') = length (c y) -> length (R y') = length (R y) -> sizes s sh y -> sizes s sh y'.
Proof. unfold sizes. intros -> -> -> ->. auto. Qed.
Lemma matList_em1 s it e iel meen k : getElmEqns s iel = Some meen -> matList s [(it, e, iel)] k = if withLHS e then em1 (rhsOnly e) meen (nth_error (eA e) k) else [].
Proof. intros G. cbn. rewrite G, app_nil_r. destruct (nth_error (eA e) k) as [E|]; cbn; destruct (withLHS e); cbn; try reflexivity. Qed.
Lemma loc_parts s sl h y h' y' rM rV rD : loc s sl h y rM rV rD -> A y' = A y -> b y' = b y -> d y' = d y ->
  own (hM h') (aM y ++ rM) -> own (hV h') (aV y ++ rV) -> own (hD h') (aD y ++ rD) -> allv (ready s sl) (hM h') -> allv (lenV s) (hV h') -> loc s sl h' y' rM rV rD.
Proof. intros _ HA HB HD. unfold loc, aM, aV, aD. rewrite HA, HB, HD. auto. Qed.
Lemma strOK_eq y y' : A y' = A y -> b y' = b y -> strOK y -> strOK y'.
Proof. unfold strOK, aM, aV. intros -> ->. auto. Qed.
Lemma sclSum_eq h y h' y' j : c y' = c y -> d y' = d y -> hD h' = hD h -> sclSum h' y' j = sclSum h y j.
Proof. unfold sclSum. intros -> -> ->. reflexivity. Qed.

Lemma assemble_ok nthr s sl it e iel h y rM rV rD sh : consistent s -> strOK y -> loc s sl h y rM rV rD -> phaseOK nthr s (hD h) y (Busy sh) -> it < nthr ->
  (hasReact sh = true -> 1 <= iel <= nel s) ->
  exists ok h' y', assemble s it e iel h y = Some (ok, h', y') /\ loc s sl h' y' rM rV rD /\ strOK y' /\ fr rM rV rD h h' /\ phaseOK nthr s (hD h') y' (Busy sh) /\
    A y' = A y /\ b y' = b y /\ (forall meen, elmFits s e iel meen -> ok = true /\ addsTo s it e iel h y h' y').
Proof.
  intros C SO LO PO Hit HR. pose proof SO as (SA & SB & SS). pose proof LO as (OM & OV & OD & VM & VV). pose proof PO as [Sz Bf]. unfold assemble.
  assert (Emp : (eA e = [] /\ eB e = []) \/ forall X (u v : X), match eA e, eB e with [], [] => u | _, _ => v end = v).
  { destruct (eA e), (eB e); [left; auto|right; reflexivity..]. }
  destruct Emp as [[EA EB]|NE].
  { rewrite EA, EB. exists true, h, y. split; [reflexivity|]. split; [exact LO|]. split; [exact SO|]. split; [repeat split; apply same_refl|]. split; [exact PO|]. split; [reflexivity|]. split; [reflexivity|].
    intros meen (G & _). split; [reflexivity|]. destruct (elmEqns_nodes s iel meen G) as (nodes & En). split; [|split; [|split]].
    - intros k q M _ HM. exists M. split; [|exact HM]. rewrite (matList_em1 s it e iel meen k G), EA. destruct k, (withLHS e); reflexivity.
    - intros j q p _. unfold vecContrib. rewrite G, EA, EB. assert (nth j (@nil (list Qc)) [] = []) as -> by (destruct j; reflexivity). rewrite vecTerm_nil.
      destruct (withLHS e); [rewrite qs_zero; [ring|intros [|k] _; reflexivity]|ring].
    - intros p _. unfold reactContrib. rewrite G, En. unfold reactAt, reactTerm. rewrite EA, EB. rewrite qs_zero; [ring|]. intros i _.
      destruct (nth_error _ i) as [[dd|]|]; try reflexivity. destruct (_ =? _)%Z; [|reflexivity]. cbn [nth_error]. destruct i; cbn [nth]; ring.
    - intros j _. unfold sclContrib. rewrite EA, EB. ring. }
  rewrite NE.
  assert (LA : length (A y) = length (aM y)) by (rewrite <- (map_length fst), SA, map_length; reflexivity).
  assert (LB : length (b y) = length (aV y)) by (rewrite SB at 1; rewrite map_length; reflexivity).
  (* the part with matrices and vectors *)
  assert (Part : exists ok1 h1 y1, (match A y, b y with
           | [(pA, _)], p0 :: bt =>
             match asmSingle s e iel pA p0 bt h (R y) with
             | None => None
             | Some (ok, h1, R1) => Some (ok, h1, mkY (A y) (b y) (c y) (d y) R1)
             end
           | _, _ =>
             match asmVecs s iel (b y) (eB e) true (hV h) with
             | None => None
             | Some (ok, v1) =>
               let h1 := mkH (hM h) v1 (hD h) in
               if withLHS e then
                 match asmMats s iel (rhsOnly e) (A y) (eA e) ok h1 with
                 | None => None
                 | Some (ok2, h2) => Some (ok2, h2, y)
                 end
               else Some (ok, h1, y)
             end
           end) = Some (ok1, h1, y1) /\ own (hM h1) (aM y ++ rM) /\ own (hV h1) (aV y ++ rV) /\ hD h1 = hD h /\ allv (ready s sl) (hM h1) /\ allv (lenV s) (hV h1) /\
      same rM (hM h) (hM h1) /\ same rV (hV h) (hV h1) /\ A y1 = A y /\ b y1 = b y /\ c y1 = c y /\ d y1 = d y /\ length (R y1) = length (R y) /\
      (forall meen, elmFits s e iel meen -> ok1 = true /\
        (forall k q M, nth_error (aM y) k = Some q -> nth_error (hM h) q = Some (Some M) -> exists M', assembleElms s (matList s [(it, e, iel)] k) M = Some M' /\ nth_error (hM h1) q = Some (Some M')) /\
        (forall j q p, nth_error (aV y) j = Some q -> vval (hV h1) q p = (vval (hV h) q p + vecContrib s e iel (assocKs y j) j (S p))%Qc) /\
        (forall p, p < length (R y) -> nth p (R y1) 0%Qc = (nth p (R y) 0 + reactContrib s e iel p)%Qc))).
  { assert (Cases : (exists ka z k0 bt, A y = [(Some ka, z)] /\ aM y = [ka] /\ b y = Some k0 :: map Some bt /\ aV y = k0 :: bt) \/
       ((length (A y) <> 1 \/ b y = []) /\ forall X (F : option nat -> option nat -> list (option nat) -> X) (G : X), (match A y, b y with [(pA, _)], p0 :: bt => F pA p0 bt | _, _ => G end) = G)).
    { destruct (A y) as [|[pa z] [|a2 A']] eqn:Ey; [right; split; [left; cbn; lia|reflexivity]| |right; split; [left; cbn; lia|reflexivity]].
      destruct (aM y) as [|ka [|k2 am]]; cbn in LA; try lia. cbn in SA. injection SA as ->.
      destruct (b y) as [|p0 bt] eqn:Eb; [right; split; [right; reflexivity|reflexivity]|]. left.
      destruct (aV y) as [|k0 av]; [discriminate|]. cbn in SB. injection SB as -> ->. exists ka, z, k0, av. auto. }
    destruct Cases as [(ka & z & k0 & bt & EA & EaM & EB & EaV)|[Hm ->]].
    - rewrite EA, EB. rewrite EaM in OM. rewrite EaV in OV.
      destruct (asmSingle_ok s sl e iel ka k0 bt h (R y) (ka :: rM) ((k0 :: bt) ++ rV) C OM OV VM VV) as (ok1 & h1 & R1 & -> & OM1 & OV1 & VM1 & VV1 & HD1 & F1 & F2 & LR & W).
      { left; reflexivity. } { left; reflexivity. } { intros p Hp. right. apply in_or_app. left. exact Hp. }
      { intros Hne. destruct Sz as (_ & _ & _ & Z4). destruct (hasReact sh) eqn:Er; [|apply length_zero_iff_nil in Z4; contradiction]. destruct (HR eq_refl) as [H1 H2].
        unfold elmNodes. apply Nat.leb_le in H1, H2. rewrite H1, H2. cbn. eauto. }
      eexists. eexists. eexists. split; [reflexivity|]. rewrite EaM, EaV. split; [exact OM1|]. split; [exact OV1|]. split; [exact HD1|]. split; [exact VM1|]. split; [exact VV1|].
      split; [intros p Hp; apply F1; intros ->; exact (own_disj (hM h) [ka] rM ka OM Hp (or_introl eq_refl))|].
      split; [apply F2; intros p Hp; exact (own_disj (hV h) (k0 :: bt) rV p OV Hp)|]. cbn [A b c d R]. do 4 (split; [reflexivity || (symmetry; assumption)|]). split; [exact LR|].
      intros meen Fi. pose proof Fi as (G & FA & FB). destruct (elmEqns_nodes s iel meen G) as (nodes & En). destruct (W meen nodes Fi En) as (-> & X1 & X2 & X3). split; [reflexivity|].
      assert (Nt : forall k : nat, nth_error (eA e) 0 = Some (newtonMat e) \/ (nth_error (eA e) 0 = None /\ fst (newtonMat e) = 0)).
      { intros _. unfold newtonMat. destruct (eA e); cbn; auto. }
      split; [|split].
      + intros [|[|k]] q M Hq HM; try discriminate Hq. injection Hq as <-. destruct (X2 M HM) as (M' & Y1 & Y2). exists M'. split; [|exact Y2]. rewrite (matList_em1 s it e iel meen 0 G).
        destruct (withLHS e); [|exact Y1]. destruct (Nt 0) as [->|[-> Ez]]; [exact Y1|]. cbn in Y1. rewrite Ez, andb_false_r in Y1. exact Y1.
      + intros j q p Hq. rewrite X1. unfold vecContrib. rewrite G.
        assert (Nd : NoDup (k0 :: bt)) by (apply (own_nodup_l (hV h) _ rV OV)).
        rewrite (combine_one (fun v => vecTerm s meen v (S p)) (k0 :: bt) (rhsVec e :: tl (eB e)) j q Nd Hq (vecTerm_nil s meen (S p))).
        assert (Ej : nth j (rhsVec e :: tl (eB e)) [] = nth j (eB e) []) by (unfold rhsVec; destruct (eB e), j as [|[|j]]; reflexivity). rewrite Ej.
        assert (Ek : assocKs y j = if j =? 0 then [0] else []).
        { unfold assocKs, assocB. rewrite EA, EB. cbn [length seq filter nth_error]. assert (nth_error (Some k0 :: map Some bt) j = Some (Some q)) as ->; [|reflexivity].
          change (Some k0 :: map Some bt) with (map Some (k0 :: bt)). rewrite nth_error_map, Hq. reflexivity. }
        rewrite Ek. assert (Eq0 : (q =? k0) = (j =? 0)).
        { destruct j as [|j]; [injection Hq as <-; apply Nat.eqb_refl|]. apply Nat.eqb_neq. intros ->. inversion Nd; subst. apply H1. eapply nth_error_In. exact Hq. }
        rewrite Eq0. destruct (j =? 0); cbn [andb]; [|destruct (withLHS e); rewrite ?qs_nil; ring]. destruct (withLHS e); [|ring]. rewrite qs_cons, qs_nil.
        destruct (Nt 0) as [->|[-> Ez]]; [ring|]. unfold prescTerm. rewrite Ez. cbn [Nat.eqb]. ring.
      + intros p Hp. rewrite X3 by exact Hp. f_equal. unfold reactContrib. rewrite G, En. unfold reactAt. apply qs_ext. intros i _.
        destruct (nth_error (elmDofs s nodes) i) as [[dd|]|]; try reflexivity. destruct (_ =? _)%Z; [|reflexivity]. unfold reactTerm, matReact.
        assert (nth 0 (eB e) [] = rhsVec e) as -> by (unfold rhsVec; destruct (eB e); reflexivity). f_equal.
        destruct (Nt 0) as [->|[-> Ez]]; [|destruct (withLHS e); [|reflexivity]; rewrite Ez; destruct (lastPresc meen); reflexivity].
        destruct (lastPresc meen); destruct (withLHS e); cbn [andb]; reflexivity.
    - pose proof (asmVecs_ok s iel (aV y) (eB e) true (hV h) (aV y ++ rV) C OV VV) as AV. rewrite <- SB in AV.
      destruct AV as (ok1 & v1 & -> & OV1 & VV1 & S1 & W1); [intros; apply in_or_app; auto|]. cbv zeta.
      assert (Rnil : length (R y) = 0).
      { destruct Sz as (Z1 & Z2 & _ & ->). unfold hasReact. destruct Hm as [Hm|Hm]; [rewrite Z1 in Hm; apply Nat.eqb_neq in Hm; rewrite Hm, andb_false_r; reflexivity|].
        rewrite <- Z2, Hm, andb_false_r. reflexivity. }
      assert (Va : forall meen, elmFits s e iel meen -> forall j q p, nth_error (aV y) j = Some q ->
          qs (fun t => if fst t =? q then vecTerm s meen (snd t) (S p) else 0%Qc) (combine (aV y) (eB e)) = vecTerm s meen (nth j (eB e) []) (S p)).
      { intros meen _ j q p Hq. apply (combine_one (fun v => vecTerm s meen v (S p))); [apply (own_nodup_l (hV h) _ rV OV)|exact Hq|apply vecTerm_nil]. }
      destruct (withLHS e) eqn:Ew.
      + destruct (asmMats_ok s sl iel (rhsOnly e) (A y) (eA e) ok1 (mkH (hM h) v1 (hD h)) (aM y ++ rM) (aV y ++ rV) C OM OV1 VM VV1) as (ok2 & h2 & -> & OM2 & OV2 & VM2 & VV2 & HD2 & F1 & F2 & W2).
        { intros a Ha. apply (in_map fst) in Ha. rewrite SA in Ha. apply in_map_iff in Ha. destruct Ha as (k & <- & Hk). exists k. split; [reflexivity|]. apply in_or_app. auto. }
        { intros a k Ha Hk. destruct (SS a Ha) as [H|H]; [congruence|]. rewrite Hk, SB in H. apply in_map_iff in H. destruct H as (k' & [= ->] & H). apply in_or_app. auto. }
        { rewrite SA. apply FinFun.Injective_map_NoDup; [intros u w [= ->]; reflexivity|]. apply (own_nodup_l (hM h) _ rM OM). }
        cbn [hM hV hD] in *.
        eexists. eexists. eexists. split; [reflexivity|]. split; [exact OM2|]. split; [exact OV2|]. split; [exact HD2|]. split; [exact VM2|]. split; [exact VV2|].
        split; [apply F1; intros p Hp Hi; rewrite SA in Hi; apply in_map_iff in Hi; destruct Hi as (k & [= ->] & Hk); exact (own_disj (hM h) (aM y) rM p OM Hp Hk)|].
        assert (Asc : forall p, In (Some p) (map snd (A y)) -> In p (aV y)).
        { intros p Hi. apply in_map_iff in Hi. destruct Hi as (a & Ea & Ha). destruct (SS a Ha) as [H|H]; [congruence|]. rewrite Ea, SB in H. apply in_map_iff in H. destruct H as (k' & [= ->] & H). exact H. }
        split; [eapply same_trans; [apply S1; intros p Hp; exact (own_disj (hV h) (aV y) rV p OV Hp)|]; apply F2; intros p Hp Hi; exact (own_disj (hV h) (aV y) rV p OV Hp (Asc p Hi))|].
        do 5 (split; [reflexivity|]). intros meen Fi. pose proof Fi as (G & FA & FB). destruct (W1 meen G FB eq_refl) as (-> & X1). destruct (W2 meen G FA eq_refl) as (-> & X2 & X3). split; [reflexivity|].
        split; [|split; [|intros p Hp; lia]].
        * intros k q M Hq HM. rewrite (matList_em1 s it e iel meen k G), Ew. assert (Hk : nth_error (map fst (A y)) k = Some (Some q)) by (rewrite SA, nth_error_map, Hq; reflexivity).
          rewrite nth_error_map in Hk. destruct (nth_error (A y) k) as [[u1 u2]|] eqn:Ek; [|discriminate]. cbn in Hk. injection Hk as ->. exact (X3 k q u2 M Ek HM).
        * intros j q p Hq. rewrite X2, X1, (Va meen Fi j q p Hq). unfold vecContrib. rewrite G, Ew.
          rewrite (combine_filter (fun a => assocV a q) (fun E => prescTerm s meen E (S p)) (A y) (eA e)).
          assert (Fe : filter (fun k => match nth_error (A y) k with Some a => assocV a q | None => false end) (seq 0 (length (A y))) = assocKs y j).
          { unfold assocKs. apply filter_ext. intros k. unfold assocB. destruct (nth_error (A y) k) as [a|]; [|reflexivity].
            assert (Hb : nth_error (b y) j = Some (Some q)) by (rewrite SB, nth_error_map, Hq; reflexivity). rewrite Hb.
            destruct Hm as [Hm|Hm]; [|rewrite Hm in Hb; destruct j; discriminate]. apply Nat.eqb_neq in Hm. rewrite Hm. unfold assocV, optb. destruct (snd a); reflexivity. }
          rewrite Fe. ring.
      + eexists. eexists. eexists. split; [reflexivity|]. cbn [hM hV hD]. split; [exact OM|]. split; [exact OV1|]. split; [reflexivity|]. split; [exact VM|]. split; [exact VV1|].
        split; [apply same_refl|]. split; [apply S1; intros p Hp; exact (own_disj (hV h) (aV y) rV p OV Hp)|]. do 5 (split; [reflexivity|]).
        intros meen Fi. pose proof Fi as (G & FA & FB). destruct (W1 meen G FB eq_refl) as (-> & X1). split; [reflexivity|]. split; [|split; [|intros p Hp; lia]].
        * intros k q M _ HM. exists M. split; [|exact HM]. rewrite (matList_em1 s it e iel meen k G), Ew. reflexivity.
        * intros j q p Hq. rewrite X1, (Va meen Fi j q p Hq). unfold vecContrib. rewrite G, Ew. ring. }
  cbv zeta in Part |- *. destruct Part as (ok1 & h1 & y1 & -> & OM1 & OV1 & HD1 & VM1 & VV1 & S1 & S2 & YA & YB & YC & YD & YR & W).
  assert (D1 : aD y1 = aD y) by (unfold aD; rewrite YD; reflexivity).
  destruct (asmScalars_ok nthr it (eC e) h1 y1 rD) as (h2 & y2 & -> & HM2 & HV2 & YA2 & YB2 & YR2 & YD2 & YC2 & OD2 & S3 & Bf2 & W2).
  { rewrite D1, HD1. exact OD. } { unfold bufOK, noArr in *. rewrite YC, YD, HD1. exact Bf. } { exact Hit. }
  rewrite HD1, D1 in *. exists ok1, h2, y2. split; [reflexivity|].
  split; [apply (loc_parts s sl h y h2 y2); try congruence; rewrite ?HM2, ?HV2; auto|]. split; [apply (strOK_eq y); congruence|].
  split; [split; [rewrite HM2; exact S1|]; split; [rewrite HV2; exact S2|exact S3]|]. split; [split; [apply (sizes_eq s sh y); try congruence; exact Sz|exact Bf2]|].
  split; [congruence|]. split; [congruence|]. intros meen Fi. destruct (W meen Fi) as (Z & X1 & X2 & X3). split; [exact Z|]. unfold addsTo. rewrite HM2, HV2, YR2.
  split; [exact X1|]. split; [exact X2|]. split; [exact X3|]. intros j Hj. rewrite W2 by (rewrite YC; exact Hj). unfold sclContrib. rewrite NE. f_equal. apply sclSum_eq; auto.
Qed.

(** ** finalize *)
Lemma endAll_ok s sl sg : forall qs ok m ow, own m ow -> allv (ready s sl) m -> NoDup qs -> (forall q, In q qs -> In q ow) ->
  exists m', endAll sg (map Some qs) ok m = Some (ok, m') /\ own m' ow /\ allv (ready s sl) m' /\ (forall q, ~ In q qs -> nth_error m' q = nth_error m q) /\
    forall q M, In q qs -> nth_error m q = Some (Some M) -> exists M', endAssembly sg M = Some (true, M') /\ nth_error m' q = Some (Some M').
Proof.
  induction qs as [|q qs IH]; intros ok m ow Ho Hv Nd Hi; cbn [map endAll].
  - exists m. split; [reflexivity|]. split; [exact Ho|]. split; [exact Hv|]. split; [auto|]. intros q M [].
  - pose proof (own_live _ _ _ Ho (Hi q (or_introl eq_refl))) as Lq. destruct (getp_live _ _ Lq) as (M & -> & EM). destruct (endAssembly_ready s sl sg M (Hv _ _ EM)) as (M' & EE & RM'). rewrite EE, andb_true_r.
    inversion Nd as [|? ? Nq Nd']; subst.
    destruct (IH ok (setp m (Some q) M') ow (setp_own _ _ _ _ Ho Lq) (setp_allv _ _ _ _ Lq Hv RM') Nd') as (m' & E & O & V & F & W); [intros; apply Hi; right; auto|].
    exists m'. split; [exact E|]. split; [exact O|]. split; [exact V|]. split.
    + intros u Hu. rewrite F by (intros H; apply Hu; right; exact H). rewrite setp_get by exact Lq. destruct (Nat.eqb_spec u q); [subst; exfalso; apply Hu; left; reflexivity|reflexivity].
    + intros u M0 [<-|Hu] HM.
      * rewrite EM in HM. injection HM as <-. exists M'. split; [exact EE|]. rewrite F by exact Nq. rewrite setp_get, Nat.eqb_refl by exact Lq. reflexivity.
      * apply (W u M0 Hu). rewrite setp_get by exact Lq. destruct (Nat.eqb_spec u q); [subst; contradiction|exact HM].
Qed.
Lemma mapAll_id {X} (qs : list nat) : forall (l : list (option X)) ps, own l ps -> (forall q, In q qs -> In q ps) -> exists l', mapAll (fun x => x) (map Some qs) l = Some l' /\ l' = l.
Proof.
  induction qs as [|q qs IH]; intros l ps Ho Hi; cbn [map mapAll]; [eauto|].
  pose proof (own_live _ _ _ Ho (Hi q (or_introl eq_refl))) as Lq. destruct (getp_live _ _ Lq) as (x & -> & Ex).
  assert (E : setp l (Some q) x = l). { cbn [setp]. clear - Ex. revert q Ex. induction l as [|z l IHl]; intros [|q] H; cbn in *; try discriminate; [injection H as ->; reflexivity|]. f_equal. apply IHl, H. }
  rewrite E. eapply IH; [exact Ho|]. intros; apply Hi; right; auto.
Qed.
Lemma reduce_ok : forall bufs cs, Forall (fun u => length u = length cs) bufs -> exists c', reduce (length bufs) bufs cs = Some c' /\ length c' = length cs /\
  forall j, j < length cs -> nth j c' 0%Qc = (nth j cs 0 + qs (fun u => nth j u 0) bufs)%Qc.
Proof.
  induction bufs as [|u bufs IH]; intros cs F; cbn [length reduce].
  - exists cs. split; [reflexivity|]. split; [reflexivity|]. intros. rewrite qs_nil. ring.
  - inversion F as [|? ? Hu F']; subst. rewrite Hu, Nat.ltb_irrefl. destruct (IH (addPre u cs)) as (c' & E & L & V). { rewrite addPre_length. exact F'. }
    exists c'. split; [exact E|]. rewrite addPre_length in *. split; [exact L|]. intros j Hj. rewrite V, addPre_nth, qs_cons by exact Hj. ring.
Qed.
Lemma finalize_ok nthr s sl sg nl h y rM rV rD sh : strOK y -> loc s sl h y rM rV rD -> phaseOK nthr s (hD h) y (Busy sh) ->
  exists h' y', finalize nthr sg nl h y = Some (true, h', y') /\ loc s sl h' y' rM rV rD /\ strOK y' /\ fr rM rV rD h h' /\ phaseOK nthr s (hD h') y' (Ready sh) /\
    A y' = A y /\ b y' = b y /\ R y' = R y /\ hV h' = hV h /\ length (c y') = length (c y) /\ (forall j, j < length (c y) -> nth j (c y') 0%Qc = sclSum h y j) /\
    (nl = true -> forall k q M, nth_error (aM y) k = Some q -> nth_error (hM h) q = Some (Some M) -> exists M', endAssembly sg M = Some (true, M') /\ nth_error (hM h') q = Some (Some M')) /\
    (nl = false -> hM h' = hM h).
Proof.
  intros SO LO PO. pose proof SO as (SA & SB & SS). pose proof LO as (OM & OV & OD & VM & VV). pose proof PO as [Sz Bf]. unfold finalize.
  assert (P1 : exists m, (if nl then endAll sg (map fst (A y)) true (hM h) else Some (true, hM h)) = Some (true, m) /\ own m (aM y ++ rM) /\ allv (ready s sl) m /\ same rM (hM h) m /\
    (nl = true -> forall k q M, nth_error (aM y) k = Some q -> nth_error (hM h) q = Some (Some M) -> exists M', endAssembly sg M = Some (true, M') /\ nth_error m q = Some (Some M')) /\ (nl = false -> m = hM h)).
  { destruct nl.
    - rewrite SA. destruct (endAll_ok s sl sg (aM y) true (hM h) (aM y ++ rM) OM VM (own_nodup_l _ _ _ OM)) as (m & E & O & V & F & W); [intros; apply in_or_app; auto|].
      exists m. split; [exact E|]. split; [exact O|]. split; [exact V|]. split; [intros p Hp; apply F; eapply own_disj; eauto|]. split; [|discriminate]. intros _ k q M Hq HM. apply (W q M); [eapply nth_error_In; exact Hq|exact HM].
    - exists (hM h). split; [reflexivity|]. split; [exact OM|]. split; [exact VM|]. split; [apply same_refl|]. split; [discriminate|reflexivity]. }
  destruct P1 as (m & -> & OM' & VM' & SM & W1 & W2).
  assert ((match b y with [] => Some (hV h) | _ => mapAll (fun x => x) (b y) (hV h) end) = Some (hV h)) as ->.
  { destruct (mapAll_id (aV y) (hV h) _ OV) as (v & E & ->); [intros; apply in_or_app; auto|]. rewrite <- SB in E. destruct (b y); [reflexivity|exact E]. }
  destruct (c y) as [|c1 cs] eqn:Ec.
  - unfold bufOK in Bf. rewrite Ec in Bf. eexists. eexists. split; [reflexivity|]. cbn [hM hV hD]. split; [apply (loc_parts s sl h y); auto|]. split; [exact SO|].
    split; [split; [exact SM|split; apply same_refl]|]. split; [split; [exact Sz|exact Bf]|]. do 4 (split; [reflexivity|]). split; [rewrite Ec; reflexivity|]. split; [cbn; intros; lia|]. split; [exact W1|exact W2].
  - rewrite <- Ec. unfold bufOK in Bf. rewrite Ec in Bf. rewrite <- Ec in Bf. destruct (1 <? nthr) eqn:En.
    + destruct Bf as (p & bufs & Dy & Gp & Lb & Fb). rewrite Dy. cbn [getp]. rewrite Gp. rewrite <- Lb. destruct (reduce_ok bufs (c y) Fb) as (c' & -> & Lc & Vc).
      assert (Da : aD y = [p]) by (unfold aD; rewrite Dy; reflexivity). rewrite Da in OD. destruct (freeAll_own [p] (hD h) rD OD) as (hd' & Ef & Of & Sf & _).
      cbn [map] in Ef. rewrite Ef. eexists. eexists. split; [reflexivity|]. cbn [hM hV hD].
      split; [unfold loc, aM, aV, aD; cbn [A b d hM hV hD]; split; [exact OM'|]; split; [exact OV|]; split; [exact Of|]; split; [exact VM'|exact VV]|].
      split; [apply (strOK_eq y); auto|]. split; [split; [exact SM|split; [apply same_refl|exact Sf]]|].
      split; [split; [apply (sizes_eq s sh y); auto|discriminate]|]. do 4 (split; [reflexivity|]). cbn [c]. split; [exact Lc|]. split; [|split; [exact W1|exact W2]].
      intros j Hj. rewrite Vc by exact Hj. unfold sclSum. rewrite Dy, Gp. reflexivity.
    + eexists. eexists. split; [reflexivity|]. cbn [hM hV hD]. split; [apply (loc_parts s sl h y); auto|]. split; [exact SO|].
      split; [split; [exact SM|split; apply same_refl]|]. split; [split; [exact Sz|unfold noArr; rewrite Bf; discriminate]|]. do 5 (split; [reflexivity|]).
      split; [|split; [exact W1|exact W2]]. intros j Hj. unfold sclSum. rewrite Bf. ring.
Qed.
