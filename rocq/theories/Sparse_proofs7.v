(** Splitting a sparse matrix in four blocks. *)
From Coq Require Import List Arith ZArith QArith Qcanon Bool Lia Sorted Permutation.
From Verif Require Import Base SAM_model SAM_spec Sparse_model Sparse_spec Sparse_proofs Sparse_proofs2 Sparse_proofs3 Sparse_proofs4.
Import ListNotations.
Local Open Scope nat_scope.

Definition cntLe (l : list Z) (e : nat) : nat := length (filter (fun m => m <=? Z.of_nat e)%Z l).
Lemma cntLe_none l e : Forall (fun m => Z.of_nat e < m)%Z l -> cntLe l e = 0.
Proof. unfold cntLe. induction 1 as [|m l H Hl IH]; [reflexivity|]. cbn [filter]. replace (m <=? Z.of_nat e)%Z with false by lia. exact IH. Qed.
Lemma cntLe_cons m l e : cntLe (m :: l) e = (if (m <=? Z.of_nat e)%Z then 1 else 0) + cntLe l e.
Proof. unfold cntLe. cbn [filter]. destruct (m <=? Z.of_nat e)%Z; reflexivity. Qed.
Lemma eqnMap_spec n : forall b l i1 i2, StronglySorted Z.lt l -> Forall (fun m => Z.of_nat b < m)%Z l ->
  length (eqnMap (seq b n) l i1 i2) = n /\
  forall k, k < n -> nth k (eqnMap (seq b n) l i1 i2) 0%Z =
    if existsb (Z.eqb (Z.of_nat (b + k + 1))) l then (- (i2 + Z.of_nat (cntLe l (b+k+1))))%Z
    else (i1 + Z.of_nat (k + 1) - Z.of_nat (cntLe l (b+k+1)))%Z.
Proof.
  induction n as [|n IH]; intros b l i1 i2 Hs Hf; cbn [seq eqnMap]; [split; [reflexivity|lia]|].
  destruct l as [|m q].
  - destruct (IH (S b) [] (i1+1)%Z i2) as [L N]; [constructor|constructor|]. cbn [length]. split; [lia|].
    intros [|k] Hk; cbn [nth]; [cbn [existsb cntLe]; unfold cntLe; cbn; lia|]. rewrite N by lia. cbn [existsb]. unfold cntLe. cbn [filter length]. lia.
  - inversion Hs as [|? ? Hs' Hfm]; subst. inversion Hf as [|? ? Hm Hq]; subst.
    destruct (Z.ltb_spec (Z.of_nat b + 1) m) as [Hlt|Hge].
    + assert (Hf' : Forall (fun m0 => Z.of_nat (S b) < m0)%Z (m :: q)).
      { constructor; [lia|]. eapply Forall_impl; [|exact Hfm]. cbv beta; intros; lia. }
      destruct (IH (S b) (m :: q) (i1+1)%Z i2 Hs Hf') as [L N].
      cbn [length]. split; [lia|]. intros [|k] Hk; cbn [nth].
      * replace (existsb (Z.eqb (Z.of_nat (b + 0 + 1))) (m :: q)) with false.
        { rewrite cntLe_none; [lia|]. eapply Forall_impl; [|exact Hf']. cbv beta; intros; lia. }
        symmetry. apply not_true_is_false. intros H. apply existsb_exists in H. destruct H as (x & Hx & H). apply Z.eqb_eq in H.
        rewrite Forall_forall in Hf'. specialize (Hf' x Hx). lia.
      * rewrite N by lia. replace (S b + k + 1) with (b + S k + 1) by lia. destruct (existsb _ _); lia.
    + assert (m = Z.of_nat (b + 1)) by lia. subst m.
      assert (Hf' : Forall (fun m0 => Z.of_nat (S b) < m0)%Z q) by (eapply Forall_impl; [|exact Hfm]; cbv beta; intros; lia).
      destruct (IH (S b) q i1 (i2+1)%Z Hs' Hf') as [L N].
      cbn [length]. split; [lia|]. intros [|k] Hk; cbn [nth].
      * cbn [existsb]. replace (Z.of_nat (b + 0 + 1) =? Z.of_nat (b + 1))%Z with true by lia. cbn [orb].
        rewrite cntLe_cons. replace (Z.of_nat (b + 1) <=? Z.of_nat (b + 0 + 1))%Z with true by lia.
        rewrite cntLe_none; [lia|]. eapply Forall_impl; [|exact Hf']. cbv beta; intros; lia.
      * rewrite N by lia. replace (S b + k + 1) with (b + S k + 1) by lia. cbn [existsb].
        replace (Z.of_nat (b + S k + 1) =? Z.of_nat (b + 1))%Z with false by lia. cbn [orb].
        rewrite cntLe_cons. replace (Z.of_nat (b + 1) <=? Z.of_nat (b + S k + 1))%Z with true by lia.
        destruct (existsb _ _); lia.
Qed.

(** block 2 membership of equation [e] *)
Definition isB2 (l : list Z) (e : nat) : bool := existsb (Z.eqb (Z.of_nat e)) l.
Definition idx (l : list Z) (e : nat) : nat := if isB2 l e then pos2 l e else pos1 l e.
Lemma cntLe_mono l e e' : e <= e' -> cntLe l e <= cntLe l e'.
Proof. intros H. induction l as [|m l IH]; [reflexivity|]. rewrite !cntLe_cons. destruct (Z.leb_spec m (Z.of_nat e)), (Z.leb_spec m (Z.of_nat e')); lia. Qed.
Lemma cntLe_S l e : StronglySorted Z.lt l -> cntLe l (S e) = cntLe l e + (if isB2 l (S e) then 1 else 0).
Proof.
  unfold isB2. induction 1 as [|m l Hs IH Hf]; [reflexivity|]. rewrite !cntLe_cons, IH. cbn [existsb].
  destruct (Z.eqb_spec (Z.of_nat (S e)) m) as [<-|Hn]; cbn [orb].
  - replace (Z.of_nat (S e) <=? Z.of_nat (S e))%Z with true by lia. replace (Z.of_nat (S e) <=? Z.of_nat e)%Z with false by lia.
    replace (existsb (Z.eqb (Z.of_nat (S e))) l) with false; [lia|]. symmetry. apply not_true_is_false. intros H. apply existsb_exists in H.
    destruct H as (x & Hx & H). apply Z.eqb_eq in H. rewrite Forall_forall in Hf. specialize (Hf x Hx). lia.
  - destruct (Z.leb_spec m (Z.of_nat (S e))), (Z.leb_spec m (Z.of_nat e)); try lia.
Qed.
Lemma cntLe_0 n l : increasing n l -> cntLe l 0 = 0.
Proof. intros [_ Hf]. apply cntLe_none. eapply Forall_impl; [|exact Hf]. cbv beta. lia. Qed.
Lemma cntLe_le n l e : increasing n l -> cntLe l e <= e.
Proof. intros Hi. induction e as [|e IH]; [rewrite (cntLe_0 n) by exact Hi; lia|]. rewrite cntLe_S by apply Hi. destruct (isB2 l (S e)); lia. Qed.
Lemma cntLe_n n l : increasing n l -> cntLe l n = length l.
Proof.
  intros [_ Hf]. unfold cntLe. f_equal. induction Hf as [|m l H Hl IH]; [reflexivity|]. cbn [filter]. replace (m <=? Z.of_nat n)%Z with true by lia. f_equal. exact IH.
Qed.
Lemma cntLe_gap n l e e' : increasing n l -> e <= e' -> cntLe l e' <= cntLe l e + (e' - e).
Proof. intros Hi H. induction H as [|e' H IH]; [lia|]. rewrite cntLe_S by apply Hi. destruct (isB2 l (S e')); lia. Qed.
Lemma idx_range n l e : increasing n l -> 1 <= e <= n ->
  if isB2 l e then 1 <= idx l e <= length l else 1 <= idx l e <= n - length l.
Proof.
  intros Hi He. unfold idx, pos1, pos2. fold (cntLe l e). destruct e as [|e]; [lia|]. pose proof (cntLe_S l e (proj1 Hi)) as HS.
  pose proof (cntLe_le n l e Hi) as H1. pose proof (cntLe_n n l Hi) as H2.
  pose proof (cntLe_mono l (S e) n ltac:(lia)) as H3. pose proof (cntLe_gap n l (S e) n Hi ltac:(lia)) as H4.
  destruct (isB2 l (S e)) eqn:E; lia.
Qed.
Lemma idx_inj n l e e' : increasing n l -> 1 <= e <= n -> 1 <= e' <= n -> isB2 l e = isB2 l e' -> idx l e = idx l e' -> e = e'.
Proof.
  intros Hi. assert (HW : forall e e', 1 <= e -> e < e' -> isB2 l e = isB2 l e' -> idx l e < idx l e').
  { intros a b Ha Hlt Hb. unfold idx, pos1, pos2. fold (cntLe l a) (cntLe l b). rewrite <- Hb. destruct a as [|a]; [lia|]. destruct b as [|b]; [lia|].
    pose proof (cntLe_S l a (proj1 Hi)). pose proof (cntLe_S l b (proj1 Hi)). pose proof (cntLe_mono l (S a) b ltac:(lia)). pose proof (cntLe_gap n l (S a) b Hi ltac:(lia)).
    pose proof (cntLe_le n l (S a) Hi). pose proof (cntLe_le n l (S b) Hi). pose proof (cntLe_le n l b Hi).
    rewrite <- Hb in *. destruct (isB2 l (S a)); lia. }
  intros H1 H2 Hb He. destruct (Nat.lt_trichotomy e e') as [H|[H|H]]; [|exact H|].
  - pose proof (HW e e' ltac:(lia) H Hb). lia.
  - pose proof (HW e' e ltac:(lia) H (eq_sym Hb)). lia.
Qed.
Lemma eqnMap_idx n l e : increasing n l -> 1 <= e <= n ->
  nth_error (eqnMap (seq 0 n) l 0 0) (e-1) = Some (if isB2 l e then - Z.of_nat (idx l e) else Z.of_nat (idx l e))%Z.
Proof.
  intros Hi He. destruct (eqnMap_spec n 0 l 0%Z 0%Z) as [L N]; [apply Hi|eapply Forall_impl; [|apply Hi]; cbv beta; lia|].
  rewrite (nth_error_nth' _ 0%Z) by lia. f_equal. rewrite N by lia. replace (0 + (e-1) + 1) with e by lia. fold (isB2 l e).
  unfold idx, pos1, pos2. fold (cntLe l e). pose proof (cntLe_le n l e Hi). destruct (isB2 l e); lia.
Qed.

(** the four blocks as a function of (row in block 2, column in block 2) *)
Definition blk (Sm : spm * spm * spm * spm) (a b : bool) : spm :=
  let '(S0, S1, S2, S3) := Sm in if a then (if b then S3 else S1) else (if b then S2 else S0).
Definition ednr (n l2 : nat) (a : bool) : nat := if a then l2 else n - l2.
(** legal intermediate state of the blocks *)
Definition blkOK (n l2 : nat) (Sm : spm * spm * spm * spm) : Prop :=
  forall a b, wf (blk Sm a b) /\ st (blk Sm a b) = EdP /\ nrow (blk Sm a b) = ednr n l2 a /\ ncol (blk Sm a b) = ednr n l2 b.

Lemma setTo_EdP S r c v : wf S -> st S = EdP -> 1 <= r <= nrow S -> 1 <= c <= ncol S ->
  exists S', setTo S r c v = Some (true, S') /\ wf S' /\ st S' = EdP /\ nrow S' = nrow S /\ ncol S' = ncol S /\ slv S' = slv S /\
   forall r' c', val (stored S') r' c' = if (r' =? r) && (c' =? c) then v else val (stored S) r' c'.
Proof.
  intros Hwf Hst Hr Hc. destruct (update_spec S r c (fun _ => v) Hwf) as (b & S' & E & W & S1 & R & C & L & N & B & V & P).
  assert (b = true) by (apply B; split; [apply inRange_iff; auto|auto]). subst b.
  exists S'. split; [exact E|]. split; [exact W|]. split; [congruence|]. split; [exact R|]. split; [exact C|]. split; [exact L|]. exact V.
Qed.
Lemma splitOne_spec n l e Sm : increasing n l -> 1 <= fst (fst e) <= n -> 1 <= snd (fst e) <= n -> blkOK n (length l) Sm ->
  exists Sm', splitOne (eqnMap (seq 0 n) l 0 0) e Sm = Some Sm' /\ blkOK n (length l) Sm' /\
    (forall a b, slv (blk Sm' a b) = slv (blk Sm a b)) /\
    forall a b r c, val (stored (blk Sm' a b)) r c =
      if Bool.eqb a (isB2 l (fst (fst e))) && Bool.eqb b (isB2 l (snd (fst e))) && ((r =? idx l (fst (fst e))) && (c =? idx l (snd (fst e))))
      then snd e else val (stored (blk Sm a b)) r c.
Proof.
  intros Hi Hr Hc Hok. destruct Sm as [[[S0 S1] S2] S3]. unfold splitOne.
  rewrite (eqnMap_idx n l _ Hi Hr), (eqnMap_idx n l _ Hi Hc).
  pose proof (idx_range n l _ Hi Hr) as R1. pose proof (idx_range n l _ Hi Hc) as R2.
  set (i := idx l (fst (fst e))) in *. set (j := idx l (snd (fst e))) in *.
  set (a0 := isB2 l (fst (fst e))) in *. set (b0 := isB2 l (snd (fst e))) in *.
  destruct (Hok a0 b0) as (W & St & Rn & Cn). 
  destruct (setTo_EdP (blk (S0,S1,S2,S3) a0 b0) i j (snd e) W St) as (S' & E & W' & St' & R' & C' & L' & V').
  { rewrite Rn. unfold ednr. destruct a0; lia. } { rewrite Cn. unfold ednr. destruct b0; lia. }
  assert (HOK : forall Sm', (forall a b, blk Sm' a b = if Bool.eqb a a0 && Bool.eqb b b0 then S' else blk (S0,S1,S2,S3) a b) ->
     blkOK n (length l) Sm' /\ (forall a b, slv (blk Sm' a b) = slv (blk (S0,S1,S2,S3) a b)) /\
     forall a b r c, val (stored (blk Sm' a b)) r c =
      if Bool.eqb a a0 && Bool.eqb b b0 && ((r =? i) && (c =? j)) then snd e else val (stored (blk (S0,S1,S2,S3) a b)) r c).
  { intros Sm' H. split; [|split].
    - intros a b. rewrite H. destruct (Bool.eqb a a0 && Bool.eqb b b0) eqn:Eb; [|apply Hok].
      apply andb_true_iff in Eb. rewrite !Bool.eqb_true_iff in Eb. destruct Eb as [-> ->]. split; [exact W'|]. split; [exact St'|]. split; congruence.
    - intros a b. rewrite H. destruct (Bool.eqb a a0 && Bool.eqb b b0) eqn:Eb; [|reflexivity].
      apply andb_true_iff in Eb. rewrite !Bool.eqb_true_iff in Eb. destruct Eb as [-> ->]. exact L'.
    - intros a b r c. rewrite H. destruct (Bool.eqb a a0 && Bool.eqb b b0) eqn:Eb; [|reflexivity].
      apply andb_true_iff in Eb. rewrite !Bool.eqb_true_iff in Eb. destruct Eb as [-> ->]. cbn [andb]. apply V'. }
  assert (HI : 1 <= i /\ 1 <= j) by (destruct a0, b0; lia).
  destruct a0, b0; cbn [blk] in E;
    repeat match goal with |- context [(0 <? ?z)%Z] => first [replace (0 <? z)%Z with true by lia | replace (0 <? z)%Z with false by lia] end; cbn [andb];
    rewrite ?Z.opp_involutive, !Nat2Z.id, E; cbn [option_map snd];
    (eexists; split; [reflexivity|]; apply HOK; intros [|] [|]; reflexivity).
Qed.
Lemma splitLoop_spec n l : increasing n l -> forall es Sm, NoDup (map fst es) -> Forall (inR n n) es -> blkOK n (length l) Sm ->
  exists Sm', splitLoop (eqnMap (seq 0 n) l 0 0) es Sm = Some Sm' /\ blkOK n (length l) Sm' /\
    (forall a b, slv (blk Sm' a b) = slv (blk Sm a b)) /\
    forall r c, 1 <= r <= n -> 1 <= c <= n ->
      val (stored (blk Sm' (isB2 l r) (isB2 l c))) (idx l r) (idx l c) =
      match mget (r,c) es with Some v => v | None => val (stored (blk Sm (isB2 l r) (isB2 l c))) (idx l r) (idx l c) end.
Proof.
  intros Hi. induction es as [|e es IH]; intros Sm Hn Hf Hok; cbn [splitLoop].
  - exists Sm. split; [reflexivity|]. split; [exact Hok|]. split; reflexivity.
  - inversion Hn as [|? ? Hx Hl]; subst. inversion Hf as [|? ? H1 H2]; subst. destruct H1 as [Hr Hc].
    destruct (splitOne_spec n l e Sm Hi Hr Hc Hok) as (S1 & E1 & O1 & L1 & V1). rewrite E1.
    destruct (IH S1 Hl H2 O1) as (S2 & E2 & O2 & L2 & V2). exists S2. split; [exact E2|]. split; [exact O2|].
    split; [intros a b; rewrite L2; apply L1|]. intros r c Hrr Hcc. rewrite V2 by auto. destruct e as [[x y] v]. cbn [fst snd] in *. cbn [mget].
    rewrite keq_pair. rewrite V1. destruct (mget (r,c) es) as [w|] eqn:Em.
    + destruct ((r =? x) && (c =? y)) eqn:Eq; [|reflexivity]. exfalso. apply andb_true_iff in Eq. rewrite !Nat.eqb_eq in Eq. destruct Eq as [-> ->].
      apply Hx. apply mget_in in Em; [|exact Hl]. apply in_map_iff. exists ((x,y),w). auto.
    + destruct ((r =? x) && (c =? y)) eqn:Eq.
      * apply andb_true_iff in Eq. rewrite !Nat.eqb_eq in Eq. destruct Eq as [-> ->]. rewrite !Bool.eqb_reflx, !Nat.eqb_refl. reflexivity.
      * match goal with |- (if ?b then _ else _) = _ => destruct b eqn:Eb end; [|reflexivity]. exfalso. rewrite !andb_true_iff, !Bool.eqb_true_iff, !Nat.eqb_eq in Eb.
        destruct Eb as ((B1 & B2) & (I1 & I2)). assert (r = x) by (eapply idx_inj; eauto). assert (c = y) by (eapply idx_inj; eauto). lia.
Qed.
Lemma split_spec2 M l : wf M -> st M <> Compr -> elem M <> [] -> nrow M = ncol M -> increasing (nrow M) l ->
  1 <= length l < nrow M ->
  exists S0 S1 S2 S3, split M l = Some (Some (S0, S1, S2, S3)) /\
    (nrow S0 = nrow M - length l /\ ncol S0 = nrow M - length l) /\ (nrow S1 = length l /\ ncol S1 = nrow M - length l) /\
    (nrow S2 = nrow M - length l /\ ncol S2 = length l) /\ (nrow S3 = length l /\ ncol S3 = length l) /\
    (st S0 = EdP /\ st S1 = EdP /\ st S2 = EdP /\ st S3 = EdP) /\ slv S0 = slv M /\ (wf S0 /\ wf S1 /\ wf S2 /\ wf S3) /\
    forall r c, 1 <= r <= nrow M -> 1 <= c <= nrow M ->
      val (stored (if isB2 l r then (if isB2 l c then S3 else S1) else (if isB2 l c then S2 else S0))) (idx l r) (idx l c) = val (stored M) r c.
Proof.
  intros Hwf Hst He Hsq Hi Hl. pose proof (proj1 (wf_E M Hst) Hwf) as (Hs & HI & Hf). pose proof (sorted_nodup _ Hs) as Hn.
  rewrite <- Hsq in Hf. unfold split.
  replace (match elem M with [] => true | _ => false end) with false by (destruct (elem M); congruence). cbn [orb].
  rewrite Hsq, Nat.eqb_refl, <- Hsq. cbn [negb]. replace ((length l <? 1) || (nrow M <=? length l)) with false by lia.
  set (Sm := (resize (nrow M - length l) (nrow M - length l) false (create 0 0 (slv M)), _, _, _)).
  assert (Hok : blkOK (nrow M) (length l) Sm /\ (forall a b r c, val (stored (blk Sm a b)) r c = 0%Qc) /\ slv (blk Sm false false) = slv M).
  { assert (HR : forall a b s, 1 <= a -> 1 <= b -> let N := resize a b false (create 0 0 s) in
       wf N /\ st N = EdP /\ nrow N = a /\ ncol N = b /\ slv N = s /\ forall r c, val (stored N) r c = 0%Qc).
    { intros a b s Ha Hb N. destruct (resize_spec a b false (create 0 0 s)) as (W & R & C & V & _).
      { unfold wf, create. cbn. repeat constructor. }
      fold N in W, R, C, V. split; [exact W|]. repeat match goal with |- _ /\ _ => split end; auto.
      - unfold N, resize, create. cbn. destruct a; [lia|]. destruct b; reflexivity.
      - rewrite C. destruct b; [lia|reflexivity].
      - unfold N, resize, create. cbn. destruct a; [lia|]. destruct b; reflexivity. }
    split; [|split].
    - intros [|] [|]; unfold Sm; cbn [blk]; unfold ednr;
        match goal with |- context [resize ?a ?b false (create 0 0 ?s)] => destruct (HR a b s) as (Q1 & Q2 & Q3 & Q4 & Q5 & Q6); [lia|lia|] end;
        (split; [exact Q1|]; split; [exact Q2|]; split; [exact Q3|exact Q4]).
    - intros [|] [|]; unfold Sm; cbn [blk];
        match goal with |- context [resize ?a ?b false (create 0 0 ?s)] => destruct (HR a b s) as (Q1 & Q2 & Q3 & Q4 & Q5 & Q6); [lia|lia|] end; exact Q6.
    - unfold Sm; cbn [blk];
        match goal with |- context [resize ?a ?b false (create 0 0 ?s)] => destruct (HR a b s) as (Q1 & Q2 & Q3 & Q4 & Q5 & Q6); [lia|lia|] end; exact Q5. }
  destruct Hok as (Hok & Hz & Hsl).
  destruct (splitLoop_spec (nrow M) l Hi (elem M) Sm Hn Hf Hok) as (Sm' & E & O & L & V). rewrite E.
  destruct Sm' as [[[S0 S1] S2] S3]. exists S0, S1, S2, S3. split; [reflexivity|].
  pose proof (O false false) as O0. pose proof (O true false) as O1. pose proof (O false true) as O2. pose proof (O true true) as O3.
  unfold ednr in *. cbn [blk] in O0, O1, O2, O3.
  split; [tauto|]. split; [tauto|]. split; [tauto|]. split; [tauto|]. split; [tauto|]. split; [rewrite <- Hsl; apply (L false false)|]. split; [tauto|].
  intros r c Hr Hc. specialize (V r c Hr Hc). cbn [blk] in V. rewrite V. rewrite (stored_E M) by exact Hst. rewrite (val_mgetd _ _ _ Hn). unfold mgetd.
  destruct (mget (r,c) (elem M)); [reflexivity|]. apply (Hz (isB2 l r) (isB2 l c)).
Qed.
Lemma split_spec M l : wf M -> st M <> Compr -> elem M <> [] -> nrow M = ncol M -> increasing (nrow M) l ->
  1 <= length l < nrow M ->
  exists S0 S1 S2 S3, split M l = Some (Some (S0, S1, S2, S3)) /\
    (nrow S0 = nrow M - length l /\ ncol S0 = nrow M - length l) /\ (nrow S1 = length l /\ ncol S1 = nrow M - length l) /\
    (nrow S2 = nrow M - length l /\ ncol S2 = length l) /\ (nrow S3 = length l /\ ncol S3 = length l) /\
    slv S0 = slv M /\ (wf S0 /\ wf S1 /\ wf S2 /\ wf S3) /\
    forall r c, 1 <= r <= nrow M -> 1 <= c <= nrow M ->
      val (stored (if isB2 l r then (if isB2 l c then S3 else S1) else (if isB2 l c then S2 else S0))) (idx l r) (idx l c) = val (stored M) r c.
Proof.
  intros Hwf Hst He Hsq Hi Hl. destruct (split_spec2 M l Hwf Hst He Hsq Hi Hl) as (S0 & S1 & S2 & S3 & E & D0 & D1 & D2 & D3 & _ & H).
  exists S0, S1, S2, S3. repeat (split; [assumption|]). exact H.
Qed.
