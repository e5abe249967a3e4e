(** Merging two models. *)
From Coq Require Import List Sorted Permutation Arith ZArith QArith Qcanon Bool Lia.
From Verif Require Import Base SAM_model SAM_spec SAM_proofs SAM_proofs2 SAM_proofs3 MPC_model MPC_spec SAMpatch_model SAMpatch_spec SAMpatch_proofs SAMpatch_proofs2 SAMpatch_proofs3 SAMpatch_proofs4.
Import ListNotations.
Local Open Scope Z_scope.

Definition moved (nA : Z) (k : Z * Z) : Z * Z := (fst k + nA, snd k).
Lemma dkey_shift nA d : dkey (shiftDof nA d) = moved nA (dkey d).
Proof. unfold dkey, moved, shiftDof. reflexivity. Qed.

Lemma nth_updB {X} : forall (l : list X) i j x d, (i < length l)%nat -> nth j (upd i x l) d = if (j =? i)%nat then x else nth j l d.
Proof. induction l as [|a l IH]; intros [|i] [|j] x d H; cbn in *; try lia; try reflexivity. apply IH. lia. Qed.

Lemma NoDup_app_parts {X} (a b : list X) : NoDup (a ++ b) -> NoDup a /\ NoDup b.
Proof.
  induction a as [|x a IH]; intros H; [split; [constructor|exact H]|]. cbn in H. inversion H as [|? ? H1 H2]; subst. destruct (IH H2) as [Ha Hb]. split; [|exact Hb]. constructor; [|exact Ha].
  intros Q. apply H1. apply in_or_app. left. exact Q.
Qed.

Lemma filter_all {X} (g : X -> bool) l : (forall x, In x l -> g x = true) -> filter g l = l.
Proof. induction l as [|x l IH]; intros H; [reflexivity|]. cbn. rewrite (H x) by (left; reflexivity). f_equal. apply IH. intros; apply H; right; assumption. Qed.

Section Merge.
Variables (nA nB : nat) (psA psB : list patch) (h : list mpc).
Hypothesis MA : modelOK nA psA.
Hypothesis MB : modelOK nB psB.
Hypothesis NA : nodesIn nA psA.
Hypothesis NB : nodesIn nB psB.
Hypothesis EA : elmsFull psA.
Hypothesis EB : elmsFull psB.
Hypothesis CA : chainsIn nA psA h.
Hypothesis CB : chainsIn nB psB h.
Hypothesis IA : noIgnored psA h.
Hypothesis IB : noIgnored psB h.
Hypothesis DIS : NoDup (flat_map pMPC psA ++ flat_map pMPC psB).
Notation ksA := (flat_map pMPC psA).
Notation ksB := (flat_map pMPC psB).
Notation eA := (Z.of_nat (length (extIds psA))).
Notation zA := (Z.of_nat nA).
Notation psB' := (map (shiftPatch eA zA) psB).
Notation psM := (psA ++ psB').
Notation h' := (fold_left (fun h k => upd k (shiftMPC zA (nthM h k)) h) ksB h).

(** ** the heap *)
Lemma heap_ok : forall l g, NoDup l -> (forall k, In k l -> (k < length g)%nat) ->
  length (fold_left (fun h k => upd k (shiftMPC zA (nthM h k)) h) l g) = length g /\
  forall k, nthM (fold_left (fun h k => upd k (shiftMPC zA (nthM h k)) h) l g) k = if in_dec Nat.eq_dec k l then shiftMPC zA (nthM g k) else nthM g k.
Proof.
  induction l as [|j l IH]; intros g N H; [split; reflexivity|]. cbn [fold_left]. inversion N as [|? ? N1 N2]; subst.
  destruct (IH (upd j (shiftMPC zA (nthM g j)) g) N2) as [L Q].
  - intros k Hk. rewrite upd_length. apply H. right. exact Hk.
  - split; [rewrite L; apply upd_length|]. intros k. rewrite Q. assert (Hj : (j < length g)%nat) by (apply H; left; reflexivity).
    assert (E : forall i, nthM (upd j (shiftMPC zA (nthM g j)) g) i = if (i =? j)%nat then shiftMPC zA (nthM g j) else nthM g i).
    { intros i. unfold nthM. apply nth_updB. exact Hj. }
    rewrite !E. destruct (in_dec Nat.eq_dec k l) as [I|I], (in_dec Nat.eq_dec k (j :: l)) as [I'|I'], (Nat.eqb_spec k j) as [->|D]; try reflexivity; try contradiction; exfalso; cbn in I'; intuition congruence.
Qed.
Lemma NDA : NoDup ksA. Proof. apply (NoDup_app_parts _ _ DIS). Qed.
Lemma NDB : NoDup ksB. Proof. apply (NoDup_app_parts _ _ DIS). Qed.
Lemma disj k : In k ksA -> In k ksB -> False.
Proof. intros H1 H2. revert DIS H1 H2. generalize ksA, ksB. clear. intros a b. induction a as [|x a IH]; intros N H1 H2; [destruct H1|]. cbn in N. inversion N; subst. destruct H1 as [->|H1]; [|auto]. apply H3. apply in_or_app. right. exact H2. Qed.
Lemma heap_len : length h' = length h.
Proof. apply heap_ok; [exact NDB|]. intros k Hk. apply CB. exact Hk. Qed.
Lemma heap_A k : In k ksA -> nthM h' k = nthM h k.
Proof. intros Hk. destruct (heap_ok ksB h NDB) as [_ Q]; [intros j Hj; apply CB; exact Hj|]. rewrite Q. destruct (in_dec Nat.eq_dec k ksB) as [I|_]; [exfalso; exact (disj k Hk I)|reflexivity]. Qed.
Lemma heap_B k : In k ksB -> nthM h' k = shiftMPC zA (nthM h k).
Proof. intros Hk. destruct (heap_ok ksB h NDB) as [_ Q]; [intros j Hj; apply CB; exact Hj|]. rewrite Q. destruct (in_dec Nat.eq_dec k ksB) as [_|N]; [reflexivity|contradiction]. Qed.
Lemma slave_B k : In k ksB -> dkey (mslave (nthM h' k)) = moved zA (dkey (mslave (nthM h k))).
Proof. intros Hk. rewrite heap_B by exact Hk. apply dkey_shift. Qed.

(** ** nodes and boundary conditions *)
Lemma hasNode_M n nd : hasNode psM n nd <-> hasNode psA n nd \/ hasNode psB (n - zA) nd.
Proof.
  unfold hasNode. split.
  - intros (p & j & Hp & H1 & H2). apply in_app_or in Hp. destruct Hp as [Hp|Hp]; [left; exists p, j; auto|]. right. apply in_map_iff in Hp. destruct Hp as (q & <- & Hq).
    cbn [shiftPatch pMLGN pNdof] in *. rewrite nth_error_map in H1. destruct (nth_error (pMLGN q) j) as [m|] eqn:Em; [|discriminate]. cbn in H1. exists q, j. split; [exact Hq|]. split; [|exact H2]. rewrite Em. f_equal. assert (zA + m = n) by congruence. lia.
  - intros [(p & j & Hp & H1 & H2)|(p & j & Hp & H1 & H2)]; [exists p, j; split; [apply in_or_app; left; exact Hp|auto]|].
    exists (shiftPatch eA zA p), j. split; [apply in_or_app; right; apply in_map; exact Hp|]. cbn [shiftPatch pMLGN pNdof]. rewrite nth_error_map, H1. cbn. split; [f_equal; lia|exact H2].
Qed.
Lemma fixedIn_M n l : fixedIn psM n l <-> fixedIn psA n l \/ fixedIn psB (n - zA) l.
Proof.
  unfold fixedIn. split.
  - intros (p & b & Hp & Hb & H1 & H2 & H3). apply in_app_or in Hp. destruct Hp as [Hp|Hp]; [left; exists p, b; auto|]. right. apply in_map_iff in Hp. destruct Hp as (q & <- & Hq).
    cbn [shiftPatch pBC] in Hb. apply in_map_iff in Hb. destruct Hb as (c & <- & Hc). cbn [bnode bcodes] in *. exists q, c. split; [exact Hq|]. split; [exact Hc|]. split; [lia|]. split; assumption.
  - intros [(p & b & Hp & Hb & H1 & H2 & H3)|(p & b & Hp & Hb & H1 & H2 & H3)]; [exists p, b; split; [apply in_or_app; left; exact Hp|auto]|].
    exists (shiftPatch eA zA p), (mkBC (bnode b + zA) (bcodes b)). split; [apply in_or_app; right; apply in_map; exact Hp|]. split; [cbn [shiftPatch pBC]; apply in_map_iff; exists b; auto|]. cbn [bnode bcodes]. split; [lia|]. split; assumption.
Qed.
Lemma dofIn_A k : dofIn nA psA k -> dofIn (nA + nB) psM k.
Proof. intros (H1 & nd & H2 & H3). split; [lia|]. exists nd. split; [apply hasNode_M; left; exact H2|exact H3]. Qed.
Lemma dofIn_B k : dofIn nB psB k -> dofIn (nA + nB) psM (moved zA k).
Proof. intros (H1 & nd & H2 & H3). split; [cbn; lia|]. exists nd. split; [apply hasNode_M; right; cbn; replace (fst k + zA - zA) with (fst k) by lia; exact H2|exact H3]. Qed.
Lemma dofIn_M k : dofIn (nA + nB) psM k -> dofIn nA psA k \/ exists k', dofIn nB psB k' /\ k = moved zA k'.
Proof.
  intros (H1 & nd & H2 & H3). apply hasNode_M in H2. destruct H2 as [H2|H2].
  - left. split; [exact (NA _ _ H2)|]. exists nd. auto.
  - right. exists (fst k - zA, snd k). split; [split; [exact (NB _ _ H2)|exists nd; auto]|]. destruct k. unfold moved. cbn. f_equal. lia.
Qed.
Lemma bc_range nn ps n l : bcOK nn ps -> fixedIn ps n l -> 1 <= n <= Z.of_nat nn.
Proof. intros H (p & b & Hp & Hb & <- & _). apply (H p b Hp Hb). Qed.
Lemma isFixed_A k : 1 <= fst k <= zA -> (isFixed psM k <-> isFixed psA k).
Proof. intros H. unfold isFixed. rewrite fixedIn_M. split; [|tauto]. intros [Q|Q]; [exact Q|]. apply bc_range with (nn := nB) in Q; [lia|apply MB]. Qed.
Lemma isFixed_B k : 1 <= fst k -> (isFixed psM (moved zA k) <-> isFixed psB k).
Proof.
  intros H. unfold isFixed, moved. cbn [fst snd]. rewrite fixedIn_M. replace (fst k + zA - zA) with (fst k) by lia. split; [|tauto]. intros [Q|Q]; [|exact Q]. apply bc_range with (nn := nA) in Q; [lia|apply MA].
Qed.

(** ** elements *)
Lemma ids_pos l : (forall e, In e l -> 0 < e) -> map Z.abs (filter (fun e => negb (e =? 0)) l) = l.
Proof.
  induction l as [|e l IH]; intros H; [reflexivity|]. cbn [filter]. assert (0 < e) by (apply H; left; reflexivity). destruct (Z.eqb_spec e 0); [lia|]. cbn [negb map]. rewrite IH by (intros; apply H; right; assumption). f_equal. lia.
Qed.
Lemma flat_shift : flat_map pMLGE psB' = map (Z.add eA) (flat_map pMLGE psB).
Proof. generalize psB. intros ll. induction ll as [|p l IH]; [reflexivity|]. cbn [map flat_map]. rewrite map_app, IH. reflexivity. Qed.
Lemma extIds_M : extIds psM = extIds psA ++ map (Z.add eA) (extIds psB).
Proof.
  unfold extIds at 1. rewrite flat_map_app, filter_app, map_app. f_equal. rewrite flat_shift.
  destruct EB as [EP _]. assert (P : forall e, In e (flat_map pMLGE psB) -> 0 < e) by (intros e He; apply in_flat_map in He; destruct He as (p & Hp & He); exact (EP p e Hp He)).
  unfold extIds. rewrite (ids_pos (flat_map pMLGE psB) P). rewrite ids_pos; [reflexivity|]. intros e He. apply in_map_iff in He. destruct He as (e' & <- & He). specialize (P e' He). lia.
Qed.
Lemma max_le l x : In x l -> x <= fold_right Z.max 0 l.
Proof. induction l as [|y l IH]; intros H; [destruct H|]. cbn. destruct H as [->|H]; [lia|specialize (IH H); lia]. Qed.
Lemma NoDup_app' {X} (a b : list X) : NoDup a -> NoDup b -> (forall x, In x a -> ~ In x b) -> NoDup (a ++ b).
Proof. induction a as [|x a IH]; intros H1 H2 H3; [exact H2|]. inversion H1; subst. cbn. constructor; [|apply IH; auto; intros y Hy; apply H3; right; exact Hy]. intros Q. apply in_app_or in Q. destruct Q as [Q|Q]; [auto|]. apply (H3 x); [left; reflexivity|exact Q]. Qed.
Lemma NoDup_map_inj' {X Y} (g : X -> Y) l : (forall x y, g x = g y -> x = y) -> NoDup l -> NoDup (map g l).
Proof. intros G. induction 1; cbn; constructor; auto. intros Q. apply in_map_iff in Q. destruct Q as (y & Ey & Hy). apply G in Ey. subst. contradiction. Qed.
Lemma extIds_nodup : NoDup (extIds psM).
Proof.
  rewrite extIds_M. apply NoDup_app'; [apply MA|apply NoDup_map_inj'; [intros; lia|apply MB]|]. intros x H1 H2. apply in_map_iff in H2. destruct H2 as (y & <- & H2). apply extIds_pos in H2.
  destruct EA as [_ E]. apply max_le in H1. lia.
Qed.
Lemma globalNode_shift p n g : g <> 0 -> globalNode p n g -> (forall m, In m (pMLGN p) -> 1 <= m) -> globalNode (shiftPatch eA zA p) n (nodeAfter nA g).
Proof.
  intros Z0 H P. unfold globalNode, nodeAfter in *. cbn [shiftPatch pMLGN]. rewrite !nth_error_map.
  destruct H as [(H1 & H2)|[(H1 & H2 & H3)|(H1 & H2)]]; [left|right; left|right; right].
  - split; [exact H1|]. rewrite H2. cbn. apply nth_error_In, P in H2. destruct (Z.ltb_spec g 0); [lia|]. f_equal. lia.
  - split; [exact H1|]. split; [exact H2|]. rewrite H3. cbn. apply nth_error_In, P in H3. destruct (Z.ltb_spec g 0); [|lia]. f_equal. lia.
  - split; [exact H1|]. rewrite H2. cbn. apply nth_error_In, P in H2. destruct (Z.ltb_spec g 0); [|lia]. f_equal. lia.
Qed.
Lemma patch_pos p m : In p psB -> In m (pMLGN p) -> 1 <= m.
Proof. intros Hp Hm. apply In_nth_error in Hm. destruct Hm as (j & Hj). apply (NB m (nth j (pNdof p) 0%nat)). exists p, j. auto. Qed.
Lemma hasElm_A e ns : hasElm psA e ns -> hasElm psM e ns.
Proof. intros (p & i & id & el & H1 & H2). exists p, i, id, el. split; [apply in_or_app; left; exact H1|exact H2]. Qed.
Lemma hasElm_B e ns : hasElm psB e ns -> hasElm psM (e + eA) (map (nodeAfter nA) ns).
Proof.
  intros (p & i & id & el & H1 & H2 & H3 & H4 & H5 & H6). exists (shiftPatch eA zA p), i, (eA + id), el. split; [apply in_or_app; right; apply in_map; exact H1|].
  cbn [shiftPatch pMLGE pMNPC]. rewrite nth_error_map, H2. destruct EB as [EP _]. assert (0 < id) by (apply (EP p id H1); apply nth_error_In in H2; exact H2).
  split; [reflexivity|]. split; [lia|]. split; [lia|]. split; [exact H5|]. clear H5.
  induction H6 as [|n g el ns Hg _ IH]; [constructor|]. cbn [map]. constructor; [|exact IH]. apply globalNode_shift; [|exact Hg|intros m; apply patch_pos; exact H1].
  intros ->. destruct Hg as [(_ & Q)|[(_ & _ & Q)|(_ & Q)]]; apply nth_error_In in Q; apply (patch_pos p _ H1) in Q; lia.
Qed.

Lemma modelOK_M : modelOK (nA + nB) psM.
Proof.
  destruct MA as (A1 & A2 & A3 & A4 & A5 & A6). destruct MB as (B1 & B2 & B3 & B4 & B5 & B6). split; [lia|]. split; [|split; [|split; [|split]]].
  - intros n nd H. apply hasNode_M in H. destruct H as [H|H]; [exact (A2 _ _ H)|exact (B2 _ _ H)].
  - intros n nd nd' H H' R. apply hasNode_M in H, H'. destruct H as [H|H], H' as [H'|H'].
    + exact (A3 n nd nd' H H' (NA _ _ H)).
    + pose proof (NA _ _ H). pose proof (NB _ _ H'). lia.
    + pose proof (NB _ _ H). pose proof (NA _ _ H'). lia.
    + exact (B3 (n - zA) nd nd' H H' (NB _ _ H)).
  - intros p b Hp Hb. apply in_app_or in Hp. destruct Hp as [Hp|Hp]; [destruct (A4 p b Hp Hb) as (Q1 & Q2); split; [lia|exact Q2]|].
    apply in_map_iff in Hp. destruct Hp as (q & <- & Hq). cbn [shiftPatch pBC] in Hb. apply in_map_iff in Hb. destruct Hb as (c & <- & Hc). destruct (B4 q c Hq Hc) as (Q1 & Q2). cbn [bnode bcodes]. split; [lia|exact Q2].
  - intros p Hp. apply in_app_or in Hp. destruct Hp as [Hp|Hp]; [exact (A5 p Hp)|]. apply in_map_iff in Hp. destruct Hp as (q & <- & Hq). destruct (B5 q Hq) as (Q1 & Q2). cbn [shiftPatch pMLGE pMNPC pMLGN]. rewrite !map_length. split; [exact Q1|].
    intros el n He Hn. destruct (Q2 el n He Hn) as [(Q3 & Q4)|Q3]; [left; split; [exact Q3|]; destruct (pMLGN q); [contradiction|discriminate]|right; exact Q3].
  - exact extIds_nodup.
Qed.

(** ** constraints *)
Lemma ks_M : flat_map pMPC psM = ksA ++ ksB.
Proof. rewrite flat_map_app. f_equal. generalize psB. intros ll. induction ll as [|p l IH]; [reflexivity|]. cbn [map flat_map]. rewrite IH. reflexivity. Qed.
Lemma slaves_M : slavesOf h' (ksA ++ ksB) = slavesOf h ksA ++ map (moved zA) (slavesOf h ksB).
Proof.
  unfold slavesOf. rewrite map_app, map_map. f_equal; apply map_ext_in; intros k Hk; [rewrite heap_A by exact Hk; reflexivity|apply slave_B; exact Hk].
Qed.
Lemma slave_rangeA k : In k (slavesOf h ksA) -> 1 <= fst k <= zA.
Proof. intros H. apply in_map_iff in H. destruct H as (j & <- & Hj). destruct CA as (_ & C & _). destruct (C j Hj) as (_ & (D & _) & _). exact D. Qed.
Lemma slave_rangeB k : In k (slavesOf h ksB) -> 1 <= fst k.
Proof. intros H. apply in_map_iff in H. destruct H as (j & <- & Hj). destruct CB as (_ & C & _). destruct (C j Hj) as (_ & (D & _) & _). lia. Qed.
Lemma moved_inj a b : moved zA a = moved zA b -> a = b.
Proof. destruct a, b. unfold moved. cbn. intros H. assert (z + zA = z1 + zA) by congruence. assert (z0 = z2) by congruence. f_equal; lia. Qed.
Lemma chainsIn_M : chainsIn (nA + nB) psM h'.
Proof.
  unfold chainsIn. cbv zeta. rewrite ks_M, slaves_M. destruct CA as (A1 & A2 & rA & A3). destruct CB as (B1 & B2 & rB & B3). split; [|split].
  - apply NoDup_app'; [exact A1|apply NoDup_map_inj'; [intros x y; apply moved_inj|exact B1]|]. intros x Hx Hy. apply in_map_iff in Hy. destruct Hy as (y & <- & Hy). apply slave_rangeA in Hx. apply slave_rangeB in Hy. unfold moved in Hx. cbn [fst] in Hx. lia.
  - intros k Hk. rewrite heap_len. apply in_app_or in Hk. destruct Hk as [Hk|Hk].
    + rewrite heap_A by exact Hk. destruct (A2 k Hk) as (Q1 & Q2 & Q3). split; [exact Q1|]. split; [apply dofIn_A; exact Q2|]. eapply Forall_impl; [|exact Q3]. intros d. apply dofIn_A.
    + rewrite slave_B by exact Hk. rewrite heap_B by exact Hk. destruct (B2 k Hk) as (Q1 & Q2 & Q3). split; [exact Q1|]. split; [apply dofIn_B; exact Q2|]. cbn [shiftMPC mmast]. rewrite Forall_map. eapply Forall_impl; [|exact Q3]. intros d Hd. rewrite dkey_shift. apply dofIn_B. exact Hd.
  - exists (fun k => if in_dec Nat.eq_dec k ksA then rA k else rB k). intros k d Hk Hd. apply in_app_or in Hk. destruct Hk as [Hk|Hk].
    + rewrite heap_A in Hd by exact Hk. specialize (A3 k d Hk Hd). destruct (A2 k Hk) as (_ & _ & Q3). rewrite Forall_forall in Q3. pose proof (proj1 (Q3 d Hd)) as RD. destruct (dnext d) as [j|].
      * destruct A3 as (Q1 & Q2 & Q4 & Q5). split; [apply in_or_app; left; exact Q1|]. split; [rewrite heap_A by exact Q1; exact Q2|]. split; [rewrite isFixed_A by exact RD; exact Q4|].
        destruct (in_dec Nat.eq_dec j ksA); [|contradiction]. destruct (in_dec Nat.eq_dec k ksA); [exact Q5|contradiction].
      * intros Q. apply in_app_or in Q. destruct Q as [Q|Q]; [contradiction|]. apply in_map_iff in Q. destruct Q as (y & Ey & Hy). apply slave_rangeB in Hy. rewrite <- Ey in RD. unfold moved in RD. cbn [fst] in RD. lia.
    + rewrite heap_B in Hd by exact Hk. cbn [shiftMPC mmast] in Hd. apply in_map_iff in Hd. destruct Hd as (d0 & <- & Hd). specialize (B3 k d0 Hk Hd). destruct (B2 k Hk) as (_ & _ & Q3). rewrite Forall_forall in Q3. pose proof (proj1 (Q3 d0 Hd)) as RD.
      rewrite dkey_shift. change (dnext (shiftDof zA d0)) with (dnext d0). destruct (dnext d0) as [j|].
      * destruct B3 as (Q1 & Q2 & Q4 & Q5). split; [apply in_or_app; right; exact Q1|]. split; [rewrite slave_B, Q2 by exact Q1; reflexivity|]. split; [rewrite isFixed_B by lia; exact Q4|].
        destruct (in_dec Nat.eq_dec j ksA) as [I|_]; [exfalso; exact (disj j I Q1)|]. destruct (in_dec Nat.eq_dec k ksA) as [I|_]; [exfalso; exact (disj k I Hk)|exact Q5].
      * intros Q. apply in_app_or in Q. destruct Q as [Q|Q]; [apply slave_rangeA in Q; unfold moved in Q; cbn [fst] in Q; lia|]. apply in_map_iff in Q. destruct Q as (y & Ey & Hy). apply moved_inj in Ey. subst y. contradiction.
Qed.
Lemma holds_shift u m : holds u (shiftMPC zA m) <-> holds (fun k => u (moved zA k)) m.
Proof.
  unfold holds, rhs. cbn [shiftMPC mslave mmast]. rewrite dkey_shift. assert (E : qs (fun d => (dcoef d * u (dkey d))%Qc) (map (shiftDof zA) (mmast m)) = qs (fun d => (dcoef d * u (moved zA (dkey d)))%Qc) (mmast m)).
  { induction (mmast m) as [|d l IH]; [reflexivity|]. cbn [map]. unfold qs in *. cbn. rewrite IH. rewrite dkey_shift. reflexivity. }
  rewrite E. reflexivity.
Qed.
Lemma fulfils_M u : fulfils (nA + nB) psM h' u <-> fulfils nA psA h u /\ fulfils nB psB h (fun k => u (moved zA k)).
Proof.
  unfold fulfils. rewrite ks_M. destruct CA as (_ & A2 & _). destruct CB as (_ & B2 & _). split.
  - intros [H1 H2]. split; split.
    + intros k Hk Hf. apply H1; [apply dofIn_A; exact Hk|]. apply isFixed_A; [apply Hk|exact Hf].
    + intros j Hj Hf. rewrite <- (heap_A j Hj). apply H2; [apply in_or_app; left; exact Hj|]. rewrite heap_A by exact Hj. rewrite isFixed_A; [exact Hf|]. apply (A2 j Hj).
    + intros k Hk Hf. apply H1; [apply dofIn_B; exact Hk|]. apply isFixed_B; [apply Hk|exact Hf].
    + intros j Hj Hf. apply holds_shift. rewrite <- (heap_B j Hj). apply H2; [apply in_or_app; right; exact Hj|]. rewrite slave_B by exact Hj. rewrite isFixed_B; [exact Hf|]. apply (B2 j Hj).
  - intros [[H1 H2] [H3 H4]]. split.
    + intros k Hk Hf. destruct (dofIn_M k Hk) as [Q|(k' & Q & ->)]; [apply H1; [exact Q|]; apply isFixed_A in Hf; [exact Hf|apply Q]|]. apply H3; [exact Q|]. apply isFixed_B in Hf; [exact Hf|apply Q].
    + intros j Hj Hf. apply in_app_or in Hj. destruct Hj as [Hj|Hj].
      * rewrite heap_A in * by exact Hj. apply H2; [exact Hj|]. rewrite isFixed_A in Hf; [exact Hf|apply (A2 j Hj)].
      * rewrite slave_B in Hf by exact Hj. rewrite heap_B by exact Hj. apply holds_shift. apply H4; [exact Hj|]. rewrite isFixed_B in Hf; [exact Hf|apply (B2 j Hj)].
Qed.

(** ** the merged tables *)
Lemma accepted_all nn ps md sc : modelOK nn ps -> chainsIn nn ps h -> noIgnored ps h ->
  dofTable md sc -> (forall k, isKey md k <-> dofIn nn ps k) -> (forall k, dofIn nn ps k -> (code sc (dofOf md k) = 0 <-> isFixed ps k)) ->
  accepted md h (flat_map pMPC ps) sc = flat_map pMPC ps.
Proof.
  intros M C I DT K F. unfold accepted. apply filter_all. intros k Hk. destruct C as (_ & C & _). destruct (C k Hk) as (_ & C2 & _).
  unfold unfixed. pose proof (code01 md sc DT (dofOf md (dkey (mslave (nthM h k)))) (isKey_range md sc DT _ (proj2 (K _) C2))) as Q.
  destruct Q as [Q|Q]; [apply F in Q; [exfalso; exact (I k Hk Q)|exact C2]|rewrite Q; reflexivity].
Qed.
Lemma noElms_shift p : In p psB -> noElms (shiftPatch eA zA p) = noElms p.
Proof.
  intros Hp. unfold noElms. cbn [shiftPatch pMLGE]. destruct EB as [EP _]. specialize (EP p). assert (G : forall e, In e (pMLGE p) -> 0 < e) by (intros e; apply EP; exact Hp). clear EP.
  induction (pMLGE p) as [|e l IH]; [reflexivity|]. cbn [map filter]. assert (0 < e) by (apply G; left; reflexivity). destruct (Z.eqb_spec (eA + e) 0); [lia|]. destruct (Z.eqb_spec e 0); [lia|]. cbn [negb length]. f_equal. apply IH. intros; apply G; right; assumption.
Qed.
Lemma noElms_M : list_sum (map noElms psM) = (length (extIds psA) + length (extIds psB))%nat.
Proof.
  rewrite map_app, list_sum_app, map_map, (noElms_sum psA). f_equal. rewrite <- (noElms_sum psB). f_equal. apply map_ext_in. exact noElms_shift.
Qed.
Lemma rebuild_parts fuel junk g ps nn ne nq nmm np ic sp : rebuild fuel junk g ps nn ne nq nmm np ic = Some (true, sp) ->
  initElementConn junk ne ps = Some (true, mpmnpc (spTab sp), mmnpc (spTab sp)).
Proof.
  unfold rebuild. intros H. destruct (initNodeDofs nn ps) as [[[[|] md] sc]|]; try discriminate. destruct (initElementConn junk ne ps) as [[[[|] pn] mn]|]; try discriminate.
  destruct (initConstraintEqs fuel g md sc nq nmm (flat_map pMPC ps) ic) as [[s nmm']|]; [|discriminate]. destruct (initEqs _) as [[ok t]|] eqn:E; [|discriminate].
  assert (ok = true) by congruence. subst ok. destruct (initEqs_spec _ _ E) as (_ & I2 & I3 & _). cbn [mpmnpc mmnpc] in I2, I3. inversion H. cbn [spTab]. rewrite I2, I3. reflexivity.
Qed.
Lemma merge_ok : exists n0, forall fuel junk, (n0 <= fuel)%nat -> exists a b m,
  samInit fuel junk h psA nA = Some (true, a) /\ samInit fuel junk h psB nB = Some (true, b) /\
  samMerge fuel junk h a b = Some (true, h', m) /\
  (forall x v, length x = neq (spTab m) -> expandVector (spTab m) 1 x = Some v ->
     let u := valueAt (madof (spTab m)) v in fulfils nA psA h u /\ fulfils nB psB h (fun k => u (moved zA k))) /\
  (forall v, let u := valueAt (madof (spTab m)) v in length v = ndof (spTab m) -> fulfils nA psA h u /\ fulfils nB psB h (fun k => u (moved zA k)) ->
     exists x, length x = neq (spTab m) /\ expandVector (spTab m) 1 x = Some v) /\
  (forall e ns, hasElm psA (Z.of_nat e) ns -> connOf (mpmnpc (spTab m)) (mmnpc (spTab m)) e = ns) /\
  (forall e ns, hasElm psB (Z.of_nat e) ns -> connOf (mpmnpc (spTab m)) (mmnpc (spTab m)) (e + length (extIds psA)) = map (nodeAfter nA) ns) /\
  Z.of_nat (pred (length (mpmnpc (spTab m)))) = fold_right Z.max 0 (extIds psM).
Proof.
  destruct (rebuild_ok nA psA h MA CA) as (n1 & H1). destruct (rebuild_ok nB psB h MB CB) as (n2 & H2). destruct (rebuild_expand (nA + nB) psM h' modelOK_M chainsIn_M) as (n3 & H3).
  exists (n1 + n2 + n3)%nat. intros fuel junk Hf.
  destruct (H1 fuel junk _ _ 0 0 (repeat (-1) (length h)) ltac:(lia) eq_refl eq_refl (Z.le_refl 0) (repeat_length _ _)) as (md & sc & rank & pn & mn & s & T & E1 & DT & L & K & F & _ & E2 & _ & _ & _ & _ & _ & _ & _ & _ & _ & _ & _ & S11 & E4 & nmm & NN & ES). clear H1.
  destruct (H2 fuel junk _ _ 0 0 (repeat (-1) (length h)) ltac:(lia) eq_refl eq_refl (Z.le_refl 0) (repeat_length _ _)) as (md2 & sc2 & rank2 & pn2 & mn2 & s2 & T2 & F1 & DT2 & L2 & K2 & G2 & _ & F2 & _ & _ & _ & _ & _ & _ & _ & _ & _ & _ & _ & R11 & F4 & nmm2 & _ & ES2). clear H2.
  rewrite <- samInit_rebuild in ES, ES2 by (apply MA || apply MB).
  rewrite (accepted_all nA psA md sc MA CA IA DT K F), Nat.sub_diag in ES. rewrite (accepted_all nB psB md2 sc2 MB CB IB DT2 K2 G2), Nat.sub_diag in ES2.
  assert (Q1 : pred (length pn) = length (extIds psA)).
  { destruct (initElementConn_spec junk psA ltac:(apply MA)) as [Q _]. destruct (Q ltac:(apply MA)) as (pn' & mn' & E & EL & _). rewrite E in E2. assert (pn' = pn) by congruence. subst pn'. destruct EA as [_ EE]. lia. }
  assert (Q2 : pred (length pn2) = length (extIds psB)).
  { destruct (initElementConn_spec junk psB ltac:(apply MB)) as [Q _]. destruct (Q ltac:(apply MB)) as (pn' & mn' & E & EL & _). rewrite E in F2. assert (pn' = pn2) by congruence. subst pn'. destruct EB as [_ EE]. lia. }
  rewrite Q1 in ES. rewrite Q2 in ES2.
  set (ic := fold_left (fun l k => upd k (nth k (icq s2) (-1)) l) ksB (icq s)).
  assert (LI : length ic = length h').
  { rewrite heap_len, <- S11. unfold ic. generalize (icq s). generalize ksB. clear. induction l as [|k l IH]; intros g; [reflexivity|]. cbn [fold_left]. rewrite IH. apply upd_length. }
  assert (LK : Z.of_nat (length (flat_map pMPC psM)) = Z.of_nat (length ksA) - Z.of_nat 0 + (Z.of_nat (length ksB) - Z.of_nat 0)) by (rewrite ks_M, app_length; lia).
  destruct (H3 fuel junk _ _ nmm (Z.of_nat (nspdof T)) ic ltac:(lia) (eq_sym noElms_M) (eq_sym LK) NN LI) as (m & EM & X1 & X2). clear H3.
  eexists. eexists. exists m. split; [exact ES|]. split; [exact ES2|].
  split; [unfold samMerge; cbn [spModel spNnod spNel spNceq spNmm spTab spIceq]; fold ic; rewrite EM; reflexivity|].
  split; [intros x v Lx EX; cbv zeta; apply fulfils_M; exact (X1 x v Lx EX)|].
  split; [cbv zeta; intros v Lv HV; apply X2; [exact Lv|apply fulfils_M; exact HV]|].
  pose proof (rebuild_parts _ _ _ _ _ _ _ _ _ _ _ EM) as EC. destruct (initElementConn_spec junk psM ltac:(apply modelOK_M)) as [Q _]. destruct (Q extIds_nodup) as (pn' & mn' & E & EL & C1 & _). rewrite noElms_M in E. rewrite E in EC.
  assert (pn' = mpmnpc (spTab m)) by congruence. assert (mn' = mmnpc (spTab m)) by congruence. subst pn' mn'.
  split; [intros e ns He; apply C1; apply hasElm_A; exact He|]. split; [|exact EL]. intros e ns He. apply C1. rewrite Nat2Z.inj_add. apply hasElm_B. exact He.
Qed.
End Merge.
