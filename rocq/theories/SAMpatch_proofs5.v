(** Updating the constraint coefficients (updateConstraintEqs). *)
From Coq Require Import List Sorted Permutation Arith ZArith QArith Qcanon Bool Lia.
From Verif Require Import Base SAM_model SAM_spec SAM_proofs SAM_proofs2 SAM_proofs3 MPC_model MPC_spec SAMpatch_model SAMpatch_spec SAMpatch_proofs SAMpatch_proofs2 SAMpatch_proofs3 SAMpatch_proofs4.
Import ListNotations.
Local Open Scope Z_scope.

Lemma flatFold_acc f h md sc s : forall l acc r, flatFold md h f sc s l acc = Some r ->
  exists t o, flatFold md h f sc s l ([], 0%Qc) = Some (t, o) /\ r = (fst acc ++ t, snd acc + o)%Qc.
Proof.
  unfold flatFold. induction l as [|d l IH]; intros acc r H; cbn [foldO] in *.
  - exists [], 0%Qc. split; [reflexivity|]. inversion H. subst. destruct r. cbn. rewrite app_nil_r. f_equal. ring.
  - destruct (flat f h md sc d s) as [[t1 o1]|]; [|discriminate]. destruct (IH _ _ H) as (t & o & H1 & ->).
    cbn [fst snd app]. destruct (foldO _ l (t1, 0 + o1)%Qc) as [r2|] eqn:E.
    + destruct (IH _ _ E) as (t' & o' & H2 & ->). cbn [fst snd] in *. exists (t1 ++ t'), (0 + o1 + o')%Qc. split; [reflexivity|]. rewrite H1 in H2. inversion H2. subst. rewrite app_assoc. f_equal. ring.
    + exfalso. revert E H1. clear. generalize (t1, 0 + o1)%Qc. generalize (@nil (Z*Qc), 0%Qc). induction l as [|d l IH]; intros a b E H; [discriminate|]. cbn [foldO] in *. destruct (flat f h md sc d s) as [[t' o']|]; [|discriminate]. exact (IH _ _ E H).
Qed.
Lemma flatFold_cons f h md sc s d l t o : flatFold md h f sc s (d :: l) ([], 0%Qc) = Some (t, o) ->
  exists t1 o1 t2 o2, flat f h md sc d s = Some (t1, o1) /\ flatFold md h f sc s l ([], 0%Qc) = Some (t2, o2) /\ t = t1 ++ t2 /\ o = (o1 + o2)%Qc.
Proof.
  intros H. unfold flatFold in H. cbn [foldO] in H. destruct (flat f h md sc d s) as [[t1 o1]|] eqn:E; [|discriminate].
  destruct (flatFold_acc f h md sc s l _ _ H) as (t2 & o2 & E2 & Q). cbn [fst snd app] in Q. exists t1, o1, t2, o2. split; [reflexivity|]. split; [exact E2|].
  inversion Q. split; [reflexivity|]. ring.
Qed.

Lemma upd_app {X} (x b : X) C : forall A n, length A = n -> upd n x (A ++ b :: C) = A ++ x :: C.
Proof. induction A as [|a A IH]; intros n L; cbn in L; subst n; [reflexivity|]. cbn [app upd]. f_equal. apply IH. reflexivity. Qed.

(** ** one equation *)
Section Upd.
Variables (md : list nat) (h : list mpc) (ks : list nat) (rank : nat -> nat) (sc0 : list Z) (T : tables).
Hypothesis DT : dofTable md sc0.
Hypothesis KEY : forall k, In k ks -> (k < length h)%nat /\ isKey md (dkey (mslave (nthM h k))) /\ Forall (fun d => isKey md (dkey d)) (mmast (nthM h k)).
Hypothesis LNK : forall k d, In k ks -> In d (mmast (nthM h k)) ->
    match dnext d with
    | None => ~ In (dkey d) (slavesOf h ks)
    | Some j => In j ks /\ dkey (mslave (nthM h j)) = dkey d /\ code sc0 (dofOf md (dkey d)) <> 0 /\ (rank j < rank k)%nat
    end.
Hypothesis MD : madof T = md.
Hypothesis LEN : length (msc T) = length sc0.
Hypothesis LEAF : forall j, 1 <= j <= Z.of_nat (length sc0) -> (forall k, In k ks -> j <> dofOf md (dkey (mslave (nthM h k)))) -> (0 <? code (msc T) j) = (0 <? code sc0 j).
Hypothesis SLV : forall k, In k ks -> code sc0 (dofOf md (dkey (mslave (nthM h k)))) <> 0 -> code (msc T) (dofOf md (dkey (mslave (nthM h k)))) <= 0.

Definition updOK (f : nat) (d : dofT) (s : Qc) : Prop := forall A B C P R ip off t o,
  flat f h md sc0 d s = Some (t, o) -> mmceq T = P ++ map fst t ++ R -> length P = S ip -> length A = S ip -> length B = length t ->
  updTerm f h T d (A ++ B ++ C) ip off s = Some (A ++ map snd t ++ C, (ip + length t)%nat, (off + o)%Qc).
Lemma updFold_ok f s : forall l, (forall d, In d l -> updOK f d s) -> forall A B C P R ip off t o,
  flatFold md h f sc0 s l ([], 0%Qc) = Some (t, o) -> mmceq T = P ++ map fst t ++ R -> length P = S ip -> length A = S ip -> length B = length t ->
  foldO (fun acc x => let '(t, i, o) := acc in updTerm f h T x t i o s) l (A ++ B ++ C, ip, off) = Some (A ++ map snd t ++ C, (ip + length t)%nat, (off + o)%Qc).
Proof.
  induction l as [|d l IH]; intros H A B C P R ip off t o E M LP LA LB.
  - inversion E. subst. destruct B; [|discriminate]. cbn. do 2 f_equal; [f_equal; lia|ring].
  - destruct (flatFold_cons _ _ _ _ _ _ _ _ _ E) as (t1 & o1 & t2 & o2 & E1 & E2 & -> & ->). cbn [foldO].
    rewrite map_app in M. rewrite app_length in LB.
    assert (EB : B = firstn (length t1) B ++ skipn (length t1) B) by (symmetry; apply firstn_skipn).
    set (B1 := firstn (length t1) B) in *. set (B2 := skipn (length t1) B) in *.
    assert (L1 : length B1 = length t1) by (unfold B1; rewrite firstn_length; lia). assert (L2 : length B2 = length t2) by (unfold B2; rewrite skipn_length; lia).
    rewrite EB. rewrite <- app_assoc.
    rewrite (H d (or_introl eq_refl) A B1 (B2 ++ C) P (map fst t2 ++ R) ip off t1 o1 E1); [|rewrite M, <- app_assoc; reflexivity|assumption|assumption|assumption].
    rewrite (app_assoc A (map snd t1)).
    rewrite (IH (fun x Hx => H x (or_intror Hx)) (A ++ map snd t1) B2 C (P ++ map fst t1) R _ _ t2 o2 E2); [|rewrite M, <- !app_assoc; reflexivity| | |exact L2].
    + rewrite map_app, app_length, <- !app_assoc. do 2 f_equal; [f_equal; lia|ring].
    + rewrite app_length, map_length. lia.
    + rewrite app_length, map_length. lia.
Qed.
Lemma upd_ok : forall f k d s, In k ks -> In d (mmast (nthM h k)) -> (rank k < f)%nat -> updOK f d s.
Proof.
  induction f as [|f IH]; intros k d s Hk Hd Hr; [lia|]. intros A B C P R ip off t o E M LP LA LB.
  rewrite flat_S in E. cbn [updTerm]. destruct (KEY k Hk) as (_ & _ & KM). rewrite Forall_forall in KM. specialize (KM d Hd).
  rewrite MD. rewrite (dofNo_key md d KM) in *. pose proof (isKey_range md sc0 DT _ KM) as RG.
  rewrite (rdMsc_code sc0 (msc T) _ LEN RG). rewrite (rdMsc_code sc0 sc0 _ eq_refl RG) in E.
  pose proof (LNK k d Hk Hd) as LK. destruct (dnext d) as [j|] eqn:En.
  - destruct LK as (Hj & Kj & Cj & Rj). rewrite <- Kj in *. pose proof (SLV j Hj Cj) as SJ.
    destruct (Z.ltb_spec 0 (code (msc T) (dofOf md (dkey (mslave (nthM h j)))))); [lia|].
    destruct (flatFold_acc _ _ _ _ _ _ _ _ E) as (t' & o' & E' & Q). cbn [fst snd app] in Q. inversion Q. subst t' o.
    rewrite (updFold_ok f (s * dcoef d)%Qc (mmast (nthM h j)) (fun x Hx => IH j x _ Hj Hx ltac:(lia)) A B C P R ip _ t o' E' M LP LA LB).
    do 2 f_equal. ring.
  - assert (NS : forall k', In k' ks -> dofOf md (dkey d) <> dofOf md (dkey (mslave (nthM h k')))).
    { intros k' Hk' Q. apply LK. apply in_map_iff. exists k'. split; [|exact Hk']. symmetry. apply (isKey_inj md sc0 DT); [exact KM|apply KEY; exact Hk'|exact Q]. }
    rewrite (LEAF _ RG NS). destruct (0 <? code sc0 (dofOf md (dkey d))).
    + inversion E. subst t o. cbn [map fst snd length app] in *. destruct B as [|b [|]]; [discriminate| |discriminate].
      assert (N : nth_error (mmceq T) (S ip) = Some (dofOf md (dkey d))) by (rewrite M, <- LP, nth_error_app2, Nat.sub_diag by lia; reflexivity).
      rewrite N, Z.eqb_refl. do 2 f_equal; [f_equal; [|lia]|ring].
      apply upd_app. exact LA.
    + inversion E. subst t o. destruct B; [|discriminate]. cbn. do 2 f_equal; [f_equal; lia|ring].
Qed.
End Upd.

(** ** equal shapes *)
Lemma dofNo_same md d d2 : dkey d = dkey d2 -> dofNo md d = dofNo md d2.
Proof. unfold dkey, dofNo. intros H. inversion H. reflexivity. Qed.
Lemma flat_shape h h2 md sc : sameHeap h h2 -> forall f d d2 s s2 t o, dkey d = dkey d2 -> dnext d = dnext d2 -> flat f h md sc d s = Some (t, o) ->
  exists t2 o2, flat f h2 md sc d2 s2 = Some (t2, o2) /\ map fst t2 = map fst t.
Proof.
  intros [_ SH]. induction f as [|f IH]; intros d d2 s s2 t o K N E; [discriminate|]. rewrite flat_S in *. rewrite <- (dofNo_same md d d2 K), <- N.
  destruct (dofNo md d) as [idof|]; [|discriminate]. destruct (dnext d) as [j|].
  - destruct (flatFold_acc _ _ _ _ _ _ _ _ E) as (t' & o' & E' & Q). cbn [fst snd app] in Q. inversion Q. subst t' o. clear E Q.
    destruct (SH j) as [_ SM].
    assert (G : forall l l2 s s2 t o acc, map (fun d => (dkey d, dnext d)) l = map (fun d => (dkey d, dnext d)) l2 -> flatFold md h f sc s l ([], 0%Qc) = Some (t, o) ->
       exists t2 o2, flatFold md h2 f sc s2 l2 acc = Some (fst acc ++ t2, o2) /\ map fst t2 = map fst t).
    { clear -IH. induction l as [|x l IHl]; intros [|x2 l2] s s2 t o acc M E; try discriminate M.
      - inversion E. subst. exists [], (snd acc). split; [destruct acc; cbn; rewrite app_nil_r; reflexivity|reflexivity].
      - destruct (flatFold_cons _ _ _ _ _ _ _ _ _ E) as (t1 & o1 & t3 & o3 & E1 & E2 & -> & ->). cbn [map] in M.
        assert (M1 : dkey x = dkey x2) by congruence. assert (M2 : dnext x = dnext x2) by congruence. assert (M3 : map (fun d => (dkey d, dnext d)) l = map (fun d => (dkey d, dnext d)) l2) by congruence.
        destruct (IH x x2 s s2 t1 o1 M1 M2 E1) as (t1' & o1' & F1 & G1). unfold flatFold. cbn [foldO]. rewrite F1.
        destruct (IHl l2 s s2 t3 o3 (fst acc ++ t1', snd acc + o1')%Qc M3 E2) as (t3' & o3' & F2 & G2). unfold flatFold in F2. rewrite F2. cbn [fst].
        exists (t1' ++ t3'), o3'. rewrite !map_app, G1, G2, app_assoc. split; reflexivity. }
    destruct (G _ _ _ (s2 * dcoef d2)%Qc _ _ ([], (dcoef (mslave (nthM h2 j)) * (s2 * dcoef d2))%Qc) SM E') as (t2 & o2 & E2 & Q2). exists t2, o2. split; [exact E2|exact Q2].
  - destruct (rdMsc sc idof) as [c|]; [|discriminate]. inversion E. subst. exists (if 0 <? c then [(idof, (dcoef d2 * s2)%Qc)] else []), 0%Qc. split; [reflexivity|]. destruct (0 <? c); reflexivity.
Qed.
Lemma flatFold_shape h h2 md sc f : sameHeap h h2 -> forall l l2 s s2 t o acc, map (fun d => (dkey d, dnext d)) l = map (fun d => (dkey d, dnext d)) l2 -> flatFold md h f sc s l ([], 0%Qc) = Some (t, o) ->
       exists t2 o2, flatFold md h2 f sc s2 l2 acc = Some (fst acc ++ t2, o2) /\ map fst t2 = map fst t.
Proof.
  intros SH. induction l as [|x l IHl]; intros [|x2 l2] s s2 t o acc M E; try discriminate M.
  - inversion E. subst. exists [], (snd acc). split; [destruct acc; cbn; rewrite app_nil_r; reflexivity|reflexivity].
  - destruct (flatFold_cons _ _ _ _ _ _ _ _ _ E) as (t1 & o1 & t3 & o3 & E1 & E2 & -> & ->). cbn [map] in M.
    assert (M1 : dkey x = dkey x2) by congruence. assert (M2 : dnext x = dnext x2) by congruence. assert (M3 : map (fun d => (dkey d, dnext d)) l = map (fun d => (dkey d, dnext d)) l2) by congruence.
    destruct (flat_shape h h2 md sc SH f x x2 s s2 t1 o1 M1 M2 E1) as (t1' & o1' & F1 & G1). unfold flatFold. cbn [foldO]. rewrite F1.
    destruct (IHl l2 s s2 t3 o3 (fst acc ++ t1', snd acc + o1')%Qc M3 E2) as (t3' & o3' & F2 & G2). unfold flatFold in F2. rewrite F2. cbn [fst].
    exists (t1' ++ t3'), o3'. rewrite !map_app, G1, G2, app_assoc. split; reflexivity.
Qed.
Lemma row_shape h h2 md sc f k r : sameHeap h h2 -> flatFold md h f sc 1%Qc (mmast (nthM h k)) ([], dcoef (mslave (nthM h k))) = Some r ->
  map fst (fst (row md h2 sc f k)) = map fst (fst (row md h sc f k)).
Proof.
  intros SH E. unfold row at 2. rewrite E. destruct (flatFold_acc _ _ _ _ _ _ _ _ E) as (t & o & E' & ->). cbn [fst snd app].
  destruct SH as [SL SS]. destruct (SS k) as [_ SM]. destruct (flatFold_shape h h2 md sc f (conj SL SS) _ _ _ 1%Qc _ _ ([], dcoef (mslave (nthM h2 k))) SM E') as (t2 & o2 & E2 & Q). unfold row. rewrite E2. cbn [fst app]. exact Q.
Qed.
Lemma sameHeap_sym h h2 : sameHeap h h2 -> sameHeap h2 h.
Proof. intros [A B]. split; [auto|]. intros k. destruct (B k) as [B1 B2]. split; auto. Qed.
Lemma chainsIn_shape nn ps h h2 : sameHeap h h2 -> chainsIn nn ps h -> chainsIn nn ps h2.
Proof.
  intros [SL SS] (A & B & rank & C).
  assert (SK : forall k, dkey (mslave (nthM h2 k)) = dkey (mslave (nthM h k))) by (intros k; symmetry; apply SS).
  assert (SO : slavesOf h2 (flat_map pMPC ps) = slavesOf h (flat_map pMPC ps)) by (unfold slavesOf; apply map_ext; exact SK).
  assert (MM : forall k d2, In d2 (mmast (nthM h2 k)) -> exists d, In d (mmast (nthM h k)) /\ dkey d = dkey d2 /\ dnext d = dnext d2).
  { intros k d2 Hd. destruct (SS k) as [_ M]. assert (Q : In (dkey d2, dnext d2) (map (fun d => (dkey d, dnext d)) (mmast (nthM h k)))) by (rewrite M; apply in_map_iff; eauto).
    apply in_map_iff in Q. destruct Q as (d & Q & Hd'). exists d. split; [exact Hd'|]. split; congruence. }
  unfold chainsIn. cbv zeta. rewrite SO. split; [exact A|]. split.
  - intros k Hk. destruct (B k Hk) as (B1 & B2 & B3). rewrite <- SL, SK. split; [exact B1|]. split; [exact B2|]. rewrite Forall_forall in *. intros d2 Hd. destruct (MM k d2 Hd) as (d & Hd' & <- & _). auto.
  - exists rank. intros k d2 Hk Hd. destruct (MM k d2 Hd) as (d & Hd' & <- & <-). specialize (C k d Hk Hd'). destruct (dnext d); [|exact C]. rewrite SK. exact C.
Qed.

(** ** the loop over all equations *)
Section Loop.
Variables (md : list nat) (h : list mpc) (ks : list nat) (rank : nat -> nat) (sc0 : list Z) (T : tables) (f : nat) (icq : list Z).
Hypothesis DT : dofTable md sc0.
Hypothesis ND : NoDup (slavesOf h ks).
Hypothesis KEY : forall k, In k ks -> (k < length h)%nat /\ isKey md (dkey (mslave (nthM h k))) /\ Forall (fun d => isKey md (dkey d)) (mmast (nthM h k)).
Hypothesis LNK : forall k d, In k ks -> In d (mmast (nthM h k)) ->
    match dnext d with
    | None => ~ In (dkey d) (slavesOf h ks)
    | Some j => In j ks /\ dkey (mslave (nthM h j)) = dkey d /\ code sc0 (dofOf md (dkey d)) <> 0 /\ (rank j < rank k)%nat
    end.
Hypothesis FUEL : forall k, In k ks -> (rank k < f)%nat.
Hypothesis MD : madof T = md.
Hypothesis LEN : length (msc T) = length sc0.
Hypothesis LEAF : forall j, 1 <= j <= Z.of_nat (length sc0) -> (forall k, In k ks -> j <> dofOf md (dkey (mslave (nthM h k)))) -> (0 <? code (msc T) j) = (0 <? code sc0 j).
Hypothesis SLV : forall k, In k ks -> code sc0 (dofOf md (dkey (mslave (nthM h k)))) <> 0 -> code (msc T) (dofOf md (dkey (mslave (nthM h k)))) <= 0.
Notation sdof k := (dofOf md (dkey (mslave (nthM h k)))).
Notation acc := (accepted md h ks sc0).
Hypothesis MP : mpmceq T = psum 1 (map (rlen md h sc0 f) acc).
Hypothesis MM : mmceq T = flat_map (fun k => sdof k :: map fst (fst (row md h sc0 f k))) acc.
Hypothesis IC : forall i k, nth_error acc i = Some k -> nth k icq (-1) = Z.of_nat i.
Hypothesis ICN : forall k, ~ In k acc -> nth k icq (-1) = -1.

(** the segments of equation [k] in ttcc: before, and after the update *)
Variable old : nat -> list Qc.
Hypothesis OLD : forall k, length (old k) = rlen md h sc0 f k.
Definition newSeg (prev : option (list Qc)) (k : nat) : list Qc :=
  match prev with
  | None => 0%Qc :: tl (old k)
  | Some v => incOffset v (snd (row md h sc0 f k)) (sdof k) :: map snd (fst (row md h sc0 f k))
  end.
Lemma seg_len {X} (g : nat -> list X) l : (forall k, length (g k) = rlen md h sc0 f k) -> length (flat_map g l) = list_sum (map (rlen md h sc0 f) l).
Proof. intros H. induction l as [|x l IH]; [reflexivity|]. cbn. rewrite app_length, IH, H. reflexivity. Qed.
Lemma updCeq_ok prev acc1 k acc2 : acc = acc1 ++ k :: acc2 ->
  updCeq f h T icq prev (true, flat_map (newSeg prev) acc1 ++ old k ++ flat_map old acc2) k = Some (true, flat_map (newSeg prev) acc1 ++ newSeg prev k ++ flat_map old acc2).
Proof.
  intros EA. assert (Ha : In k acc) by (rewrite EA; apply in_elt). pose proof Ha as Hk. apply (accepted_in md h ks sc0 DT KEY) in Hk. destruct Hk as [Hk Hc].
  assert (NS : forall j, length (newSeg prev j) = rlen md h sc0 f j).
  { intros j. unfold newSeg. destruct prev; cbn [length]; [rewrite map_length; reflexivity|]. specialize (OLD j). unfold rlen in *. destruct (old j); cbn in *; lia. }
  destruct (KEY k Hk) as (K1 & K2 & K3). pose proof (isKey_range md sc0 DT _ K2) as RG.
  unfold updCeq. cbn [fst snd negb]. assert (Ei : nth k icq (-1) = Z.of_nat (length acc1)).
  { apply IC. rewrite EA, nth_error_app2, Nat.sub_diag by lia. reflexivity. }
  rewrite Ei. destruct (Z.ltb_spec (Z.of_nat (length acc1)) 0); [lia|]. rewrite Nat2Z.id, MD, (dofNo_key md _ K2).
  assert (EP : nth_error (mpmceq T) (length acc1) = Some (S (length (flat_map (newSeg prev) acc1)))).
  { rewrite MP, (nth_error_nth' _ 0%nat) by (rewrite psum_length, map_length, EA, app_length; cbn; lia). f_equal.
    rewrite psum_nth by (rewrite map_length, EA, app_length; lia). rewrite EA, map_app, firstn_app, map_length, Nat.sub_diag, firstn_O, app_nil_r, firstn_all2 by (rewrite map_length; lia).
    rewrite (seg_len _ _ NS). reflexivity. }
  rewrite EP. rewrite (rdMsc_code sc0 (msc T) _ LEN RG).
  set (P := flat_map (fun k => sdof k :: map fst (fst (row md h sc0 f k))) acc1).
  assert (LP : length P = length (flat_map (newSeg prev) acc1)).
  { unfold P. rewrite (seg_len _ _ NS). apply seg_len. intros j. cbn. rewrite map_length. reflexivity. }
  assert (EM : mmceq T = P ++ sdof k :: map fst (fst (row md h sc0 f k)) ++ flat_map (fun k => sdof k :: map fst (fst (row md h sc0 f k))) acc2).
  { rewrite MM, EA, flat_map_app. reflexivity. }
  assert (N : nth_error (mmceq T) (length (flat_map (newSeg prev) acc1)) = Some (sdof k)) by (rewrite EM, <- LP, nth_error_app2, Nat.sub_diag by lia; reflexivity).
  rewrite N, Z.eqb_refl. cbn [negb]. rewrite orb_false_r. destruct (Z.ltb_spec 0 (code (msc T) (sdof k))) as [Q|Q]; [specialize (SLV k Hk Hc); lia|].
  pose proof (OLD k) as OK. unfold rlen in OK. destruct (old k) as [|o0 B] eqn:EB; [discriminate OK|].
  destruct prev as [v|].
  - destruct (row_ok md h ks rank sc0 DT KEY LNK f k Hk (FUEL k Hk)) as (R1 & _). specialize (R1 sc0 (agree0 md h ks sc0)).
    destruct (flatFold_acc _ _ _ _ _ _ _ _ R1) as (t & o & E' & ER). cbn [fst snd app] in ER.
    set (A := flat_map (newSeg (Some v)) acc1 ++ [o0]).
    assert (Ebase : flat_map (newSeg (Some v)) acc1 ++ (o0 :: B) ++ flat_map old acc2 = A ++ B ++ flat_map old acc2) by (unfold A; rewrite <- app_assoc; reflexivity).
    rewrite Ebase.
    rewrite (updFold_ok md h ks rank sc0 T KEY LNK LEN LEAF SLV f 1%Qc (mmast (nthM h k)) (fun x Hx => upd_ok md h ks rank sc0 T DT KEY LNK MD LEN LEAF SLV f k x 1%Qc Hk Hx (FUEL k Hk)) A B (flat_map old acc2)
       (P ++ [sdof k]) (flat_map (fun k => sdof k :: map fst (fst (row md h sc0 f k))) acc2) _ _ t o E').
    + cbv beta iota. f_equal. f_equal. unfold newSeg at 3. rewrite ER. cbn [fst snd]. unfold A. rewrite <- app_assoc. cbn [app]. rewrite upd_app by reflexivity. reflexivity.
    + rewrite EM, ER. cbn [fst]. rewrite <- app_assoc. reflexivity.
    + rewrite app_length. cbn. lia.
    + unfold A. rewrite app_length. cbn. lia.
    + rewrite ER in OK. cbn [fst] in OK. cbn in OK. lia.
  - unfold newSeg. rewrite EB. cbn [app tl]. rewrite upd_app by reflexivity. reflexivity.
Qed.
Lemma updLoop_ok prev : forall ks2 ks1, ks = ks1 ++ ks2 ->
  foldO (updCeq f h T icq prev) ks2 (true, flat_map (newSeg prev) (filter (unfixed md h sc0) ks1) ++ flat_map old (filter (unfixed md h sc0) ks2)) = Some (true, flat_map (newSeg prev) acc).
Proof.
  induction ks2 as [|k ks2 IH]; intros ks1 E; [rewrite app_nil_r in E; subst ks1; cbn; rewrite app_nil_r; reflexivity|].
  cbn [foldO filter]. specialize (IH (ks1 ++ [k])). rewrite <- app_assoc in IH. specialize (IH E). rewrite filter_app in IH. cbn [filter] in IH.
  destruct (unfixed md h sc0 k) eqn:U.
  - assert (EA : acc = filter (unfixed md h sc0) ks1 ++ k :: filter (unfixed md h sc0) ks2) by (unfold accepted; rewrite E, filter_app; cbn [filter]; rewrite U; reflexivity).
    cbn [flat_map]. rewrite (updCeq_ok prev _ _ _ EA). rewrite flat_map_app in IH. cbn [flat_map] in IH. rewrite app_nil_r, <- app_assoc in IH. exact IH.
  - assert (NI : ~ In k acc) by (unfold accepted; rewrite filter_In; intros [_ Q]; congruence).
    unfold updCeq at 1. cbn [fst negb]. rewrite (ICN k NI). cbn. rewrite app_nil_r in IH. exact IH.
Qed.
End Loop.

(** rows of tables made of segments *)
Lemma seg_nth' {X Y} (g : X -> list Y) (d : Y) : forall l i x q, nth_error l i = Some x -> (q < length (g x))%nat ->
  nth (list_sum (map (fun x => length (g x)) (firstn i l)) + q) (flat_map g l) d = nth q (g x) d.
Proof.
  induction l as [|y l IH]; intros [|i] x q H Hq; try discriminate.
  - cbn in H. injection H as ->. cbn. rewrite app_nth1 by exact Hq. reflexivity.
  - cbn in H. cbn [firstn map flat_map]. change (list_sum (length (g y) :: map (fun x => length (g x)) (firstn i l))) with (length (g y) + list_sum (map (fun x => length (g x)) (firstn i l)))%nat.
    rewrite app_nth2 by lia. replace (_ + _ + q - _)%nat with (list_sum (map (fun x => length (g x)) (firstn i l)) + q)%nat by lia. apply IH; assumption.
Qed.
Lemma rows_gen (T : tables) (sd : nat -> Z) (rw : nat -> list (Z * Qc) * Qc) acc i k : mpmceq T = psum 1 (map (fun k => S (length (fst (rw k)))) acc) ->
  mmceq T = flat_map (fun k => sd k :: map fst (fst (rw k))) acc ->
  ttcc T = flat_map (fun k => snd (rw k) :: map snd (fst (rw k))) acc ->
  nth_error acc i = Some k ->
  slaveDof T (S i) = sd k /\ offset T (S i) = snd (rw k) /\ masterTerms T (S i) = fst (rw k).
Proof.
  intros E1 E2 E3 Hi. assert (Li : (i < length acc)%nat) by (apply nth_error_Some; congruence).
  set (rl := fun k => S (length (fst (rw k)))) in *.
  set (p := list_sum (map rl (firstn i acc))).
  assert (F1 : firstPos T (S i) = S p).
  { unfold firstPos. replace (S i - 1)%nat with i by lia. rewrite E1, psum_nth by (rewrite map_length; lia). unfold p. rewrite firstn_map. lia. }
  assert (F2 : afterPos T (S i) = (S p + rl k)%nat).
  { unfold afterPos. rewrite E1, psum_step by (rewrite map_length; lia). unfold firstPos in F1. rewrite E1 in F1. replace (S i - 1)%nat with i in F1 by lia. rewrite F1. f_equal.
    rewrite nth_indep with (d' := rl 0%nat) by (rewrite map_length; lia). rewrite map_nth. f_equal. apply nth_error_nth. exact Hi. }
  assert (P1 : p = list_sum (map (fun x => length (sd x :: map fst (fst (rw x)))) (firstn i acc))).
  { unfold p. f_equal. apply map_ext. intros x. cbn [length]. rewrite map_length. reflexivity. }
  assert (P2 : p = list_sum (map (fun x => length (snd (rw x) :: map snd (fst (rw x)))) (firstn i acc))).
  { unfold p. f_equal. apply map_ext. intros x. cbn [length]. rewrite map_length. reflexivity. }
  assert (N1 : forall q, (q <= length (fst (rw k)))%nat -> nth (p + q) (mmceq T) 0 = nth q (sd k :: map fst (fst (rw k))) 0).
  { intros q Hq. rewrite E2, P1. apply (seg_nth' (fun k => sd k :: map fst (fst (rw k)))); [exact Hi|]. cbn [length]. rewrite map_length. lia. }
  assert (N2 : forall q, (q <= length (fst (rw k)))%nat -> nth (p + q) (ttcc T) 0%Qc = nth q (snd (rw k) :: map snd (fst (rw k))) 0%Qc).
  { intros q Hq. rewrite E3, P2. apply (seg_nth' (fun k => snd (rw k) :: map snd (fst (rw k)))); [exact Hi|]. cbn [length]. rewrite map_length. lia. }
  split; [|split].
  - unfold slaveDof. rewrite F1. replace (S p - 1)%nat with (p + 0)%nat by lia. rewrite N1 by lia. reflexivity.
  - unfold offset. rewrite F1. replace (S p - 1)%nat with (p + 0)%nat by lia. rewrite N2 by lia. reflexivity.
  - unfold masterTerms. rewrite F1, F2. replace (S p + rl k - 1 - S p)%nat with (length (fst (rw k))) by (unfold rl; lia).
    rewrite <- (combine_seq (fst (rw k))) at 2. 
    assert (SQ : seq (S p) (length (fst (rw k))) = map (fun q => S p + q)%nat (seq 0 (length (fst (rw k))))).
    { generalize (length (fst (rw k))). intros n. generalize (S p). clear. intros a. rewrite <- (Nat.add_0_r a) at 1. generalize 0%nat. induction n as [|n IH]; intros b; [reflexivity|]. cbn [seq map]. f_equal. rewrite <- IH. f_equal. lia. }
    rewrite SQ, map_map. apply map_ext_in. intros q Hq. apply in_seq in Hq. replace (S p + q)%nat with (p + S q)%nat by lia. rewrite N1, N2 by lia. reflexivity.
Qed.

Lemma samUpdate_ok nn ps h h2 : modelOK nn ps -> chainsIn nn ps h -> sameHeap h h2 ->
  exists n0, forall fuel junk, (n0 <= fuel)%nat -> exists sp sp2,
    samInit fuel junk h ps nn = Some (true, sp) /\ samInit fuel junk h2 ps nn = Some (true, sp2) /\ nceq (spTab sp) = nceq (spTab sp2) /\
    forall prev, exists tc, updateConstraintEqs fuel h2 sp prev =
      Some (true, mkSP (spModel sp) (spNnod sp) (spNel sp) (spNceq sp) (spNmm sp)
        (mkS (madof (spTab sp)) (msc (spTab sp)) (mpmnpc (spTab sp)) (mmnpc (spTab sp)) (mpmceq (spTab sp)) (mmceq (spTab sp)) tc (meqn (spTab sp)) (neq (spTab sp)) (nspdof (spTab sp))) (spIceq sp)) /\
      let T' := mkS (madof (spTab sp)) (msc (spTab sp)) (mpmnpc (spTab sp)) (mmnpc (spTab sp)) (mpmceq (spTab sp)) (mmceq (spTab sp)) tc (meqn (spTab sp)) (neq (spTab sp)) (nspdof (spTab sp)) in
      forall i, (1 <= i <= nceq (spTab sp))%nat ->
        slaveDof (spTab sp) i = slaveDof (spTab sp2) i /\
        masterTerms T' i = masterTerms (match prev with Some _ => spTab sp2 | None => spTab sp end) i /\
        offset T' i = match prev with Some v => incOffset v (offset (spTab sp2) i) (slaveDof (spTab sp2) i) | None => 0%Qc end.
Proof.
  intros MOK C1 SH. pose proof (chainsIn_shape nn ps h h2 SH C1) as C2.
  destruct (rebuild_ok nn ps h MOK C1) as (n1 & H1).
  destruct (rebuild_ok nn ps h2 MOK C2) as (n2 & H2). exists (Nat.max n1 n2). intros fuel junk Hf.
  destruct (H1 fuel junk _ _ 0 0 (repeat (-1) (length h)) ltac:(lia) eq_refl eq_refl (Z.le_refl 0) (repeat_length _ _)) as (md & sc & rank & pn & mn & s & T & E1 & DT & L & K & F & SJ & E2 & FUEL & LNK & KEY & S2 & S3 & S4 & S5 & S6 & S7 & S9 & S10 & S11 & E4 & nmm & _ & ES). clear H1.
  destruct (H2 fuel junk _ _ 0 0 (repeat (-1) (length h2)) ltac:(lia) eq_refl eq_refl (Z.le_refl 0) (repeat_length _ _)) as (md' & sc' & rank2 & pn' & mn' & s2 & T2 & E1' & DT' & L' & K' & F' & SJ' & E2' & FUEL2 & LNK2 & KEY2 & R2 & R3 & R4 & R5 & R6 & R7 & R9 & R10 & R11 & E4' & nmm2 & _ & ES2). clear H2.
  rewrite E1 in E1'. assert (md' = md) by congruence. assert (sc' = sc) by congruence. subst md' sc'. clear E1' DT' L' K' F' SJ'.
  rewrite E2 in E2'. assert (pn' = pn) by congruence. assert (mn' = mn) by congruence. subst pn' mn'. clear E2'.
  rewrite <- samInit_rebuild in ES, ES2 by apply MOK.
  set (ks := flat_map pMPC ps) in *.
  assert (LAC : (length (accepted md h ks sc) <= length ks)%nat).
  { unfold accepted. generalize (unfixed md h sc). generalize ks. intros l g. clear. induction l as [|x l IH]; cbn; [lia|]. destruct (g x); cbn; lia. }
  pose proof SH as [SL SS].
  assert (SK : forall k, dkey (mslave (nthM h2 k)) = dkey (mslave (nthM h k))) by (intros k; symmetry; apply SS).
  assert (AC : accepted md h2 ks sc = accepted md h ks sc) by (unfold accepted; apply filter_ext; intros k; unfold unfixed; rewrite SK; reflexivity).
  assert (RW : forall k, In k (accepted md h ks sc) -> map fst (fst (row md h2 sc fuel k)) = map fst (fst (row md h sc fuel k))).
  { intros k Hk. apply (accepted_in md h ks sc DT KEY) in Hk. destruct Hk as [Hk _].
    destruct (row_ok md h ks rank sc DT KEY LNK fuel k Hk (FUEL k Hk)) as (RR & _). exact (row_shape h h2 md sc fuel k _ SH (RR sc (agree0 md h ks sc))). }
  assert (RL : forall k, In k (accepted md h ks sc) -> rlen md h2 sc fuel k = rlen md h sc fuel k).
  { intros k Hk. unfold rlen. f_equal. rewrite <- (map_length fst), RW by exact Hk. apply map_length. }
  destruct (initEqs_spec _ _ E4) as (I1 & I2 & I3 & I4 & I5 & I6 & I7 & I8 & I9 & I10 & _ & I12 & _). cbn [madof mpmnpc mmnpc mpmceq mmceq ttcc] in I1, I2, I3, I4, I5, I6.
  destruct (initEqs_spec _ _ E4') as (J1 & J2 & J3 & J4 & J5 & J6 & J7 & J8 & _). cbn [madof mpmnpc mmnpc mpmceq mmceq ttcc] in J1, J2, J3, J4, J5, J6.
  set (acc := accepted md h ks sc) in *. rewrite AC in *.
  assert (MP : mpmceq T = psum 1 (map (rlen md h2 sc fuel) acc)) by (rewrite I4, S2; f_equal; apply map_ext_in; intros k Hk; symmetry; apply RL; exact Hk).
  assert (MM : mmceq T = flat_map (fun k => dofOf md (dkey (mslave (nthM h2 k))) :: map fst (fst (row md h2 sc fuel k))) acc).
  { rewrite I5, S3. clear -RW SK. induction acc as [|k l IH]; [reflexivity|]. cbn [flat_map]. rewrite SK, (RW k) by (left; reflexivity). f_equal. apply IH. intros j Hj. apply RW. right. exact Hj. }
  assert (NC : nceq T = length acc) by (unfold nceq; rewrite MP, psum_length, map_length; reflexivity).
  assert (NC2 : nceq T2 = length acc) by (unfold nceq; rewrite J4, R2, psum_length, map_length; reflexivity).
  eexists. eexists. split; [exact ES|]. split; [exact ES2|]. cbn [spTab spModel spNnod spNel spNceq spNmm spIceq].
  split; [congruence|]. intros prev. unfold updateConstraintEqs. cbn [spTab spModel spNnod spNel spNceq spNmm spIceq].
  destruct (Z.ltb_spec (Z.of_nat (length ks) - Z.of_nat (length ks - length acc)) 1) as [Q|Q].
  { exists (ttcc T). split; [destruct T; reflexivity|]. cbv zeta. intros i Hi. exfalso. change (nceq _) with (nceq T) in Hi. lia. }
  set (old := fun k => if in_dec Nat.eq_dec k acc then snd (row md h sc fuel k) :: map snd (fst (row md h sc fuel k)) else repeat 0%Qc (rlen md h2 sc fuel k)).
  assert (TC : ttcc T = flat_map old acc).
  { rewrite I6, S4. assert (G : forall l, (forall k, In k l -> In k acc) -> flat_map (fun k => snd (row md h sc fuel k) :: map snd (fst (row md h sc fuel k))) l = flat_map old l).
    { induction l as [|k l IH]; intros H; [reflexivity|]. cbn [flat_map]. rewrite IH by (intros; apply H; right; assumption). f_equal. unfold old. destruct (in_dec Nat.eq_dec k acc) as [_|N]; [reflexivity|exfalso; apply N, H; left; reflexivity]. }
    apply G. auto. }
  assert (OLD : forall k, length (old k) = rlen md h2 sc fuel k).
  { intros k. unfold old. destruct (in_dec Nat.eq_dec k acc) as [I|N]; [|apply repeat_length]. rewrite RL by exact I. unfold rlen. cbn [length]. rewrite map_length. reflexivity. }
  set (T0 := mkS md (csc s) pn mn (cmp s) (cmm s) (ctt s) [] 0 (Z.to_nat 0)) in *.
  assert (CD : forall j, 1 <= j <= Z.of_nat (length sc) -> code (msc T) j = (if code (csc s) j =? 0 then - Z.of_nat (nspdof T0 + SAM_spec.rank 0 (msc T0) (Z.to_nat (j-1)) + 1) else code (csc s) j)).
  { intros j Hj. destruct (I12 (Z.to_nat (j-1))) as (_ & _ & _ & I0); [unfold ndof, T0; cbn [msc]; lia|]. exact I0. }
  assert (LEN : length (msc T) = length sc) by (unfold ndof in I7; rewrite I7; exact S5).
  assert (ICN : forall k, ~ In k acc -> nth k (icq s) (-1) = -1).
  { intros k Hk. rewrite S10 by exact Hk. destruct (Nat.lt_ge_cases k (length h)); [apply nth_repeat|apply nth_overflow; rewrite repeat_length; assumption]. }
  assert (LP := updLoop_ok md h2 ks rank2 sc T fuel (icq s) DT KEY2 LNK2 FUEL2 (eq_trans I1 eq_refl) LEN).
  assert (LEAF : forall j, 1 <= j <= Z.of_nat (length sc) -> (forall k, In k ks -> j <> dofOf md (dkey (mslave (nthM h2 k)))) -> (0 <? code (msc T) j) = (0 <? code sc j)).
  { intros j Hj NS. rewrite CD by exact Hj. rewrite S7; [|exact Hj|intros k Hk; rewrite <- SK; apply NS; apply (accepted_in md h ks sc DT KEY) in Hk; tauto].
    destruct (Z.eqb_spec (code sc j) 0) as [E|E]; [|reflexivity]. rewrite E. destruct (Z.ltb_spec 0 (- Z.of_nat (nspdof T0 + SAM_spec.rank 0 (msc T0) (Z.to_nat (j - 1)) + 1))); [lia|reflexivity]. }
  assert (SLV : forall k, In k ks -> code sc (dofOf md (dkey (mslave (nthM h2 k)))) <> 0 -> code (msc T) (dofOf md (dkey (mslave (nthM h2 k)))) <= 0).
  { intros k Hk Hc. rewrite SK in *. assert (Ha : In k acc) by (apply (accepted_in md h ks sc DT KEY); split; assumption).
    rewrite CD by (apply (isKey_range md sc DT); apply KEY; exact Hk). rewrite (S6 k Ha). cbn [Z.eqb]. lia. }
  specialize (LP LEAF SLV). fold ks in LP. rewrite AC in LP. specialize (LP MP MM S9 ICN old OLD prev ks [] eq_refl).
  cbn [filter flat_map app] in LP.
  assert (FU : filter (unfixed md h2 sc) ks = acc) by exact AC. rewrite FU, <- TC in LP. fold ks. rewrite LP. eexists. split; [reflexivity|].
  cbv zeta. intros i Hi. destruct i as [|i]; [lia|]. rewrite NC in Hi. destruct (nth_error acc i) as [k|] eqn:Ei; [|apply nth_error_None in Ei; lia].
  assert (Ha : In k acc) by (apply nth_error_In in Ei; exact Ei).
  destruct (rows_gen T (fun k => dofOf md (dkey (mslave (nthM h k)))) (row md h sc fuel) acc i k) as (G1 & G2 & G3); [rewrite I4; exact S2|rewrite I5; exact S3|rewrite I6; exact S4|exact Ei|].
  destruct (rows_gen T2 (fun k => dofOf md (dkey (mslave (nthM h2 k)))) (row md h2 sc fuel) acc i k) as (G4 & G5 & G6); [rewrite J4; exact R2|rewrite J5; exact R3|rewrite J6; exact R4|exact Ei|].
  split; [rewrite G1, G4, SK; reflexivity|].
  set (rw := fun k => match prev with Some v => (fst (row md h2 sc fuel k), incOffset v (snd (row md h2 sc fuel k)) (dofOf md (dkey (mslave (nthM h2 k))))) | None => (fst (row md h sc fuel k), 0%Qc) end).
  match goal with |- masterTerms ?T' _ = _ /\ _ => destruct (rows_gen T' (fun k => dofOf md (dkey (mslave (nthM h2 k)))) rw acc i k) as (_ & G8 & G9) end.
  - cbn [mpmceq]. rewrite MP. f_equal. apply map_ext_in. intros j Hj. unfold rw. destruct prev; cbn [fst]; [reflexivity|]. rewrite (RL j Hj). reflexivity.
  - cbn [mmceq]. rewrite MM. clear -RW. induction acc as [|j l IH]; [reflexivity|]. cbn [flat_map]. rewrite IH by (intros; apply RW; right; assumption). f_equal. f_equal. unfold rw. destruct prev; cbn [fst]; [reflexivity|]. apply RW. left. reflexivity.
  - cbn [ttcc]. assert (G : forall l, (forall k, In k l -> In k acc) -> flat_map (newSeg md h2 sc fuel old prev) l = flat_map (fun k => snd (rw k) :: map snd (fst (rw k))) l).
    { induction l as [|j l IH]; intros H; [reflexivity|]. cbn [flat_map]. rewrite IH by (intros; apply H; right; assumption). f_equal. unfold newSeg, rw, old. destruct prev; cbn [fst snd]; [reflexivity|].
      destruct (in_dec Nat.eq_dec j acc) as [_|N]; [reflexivity|exfalso; apply N, H; left; reflexivity]. }
    apply G. auto.
  - exact Ei.
  - rewrite G8, G9, G4, G5. unfold rw. destruct prev; cbn [fst snd]; [rewrite G6|rewrite G3]; split; reflexivity.
Qed.
