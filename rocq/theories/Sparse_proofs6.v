(** Sparse matrices: legality of all reachable states, output, splitting, norms. *)
From Coq Require Import List Arith ZArith QArith Qcanon Bool Lia Sorted Permutation.
From Verif Require Import Base SAM_model SAM_spec SAM_proofs SAM_proofs2 SAM_proofs3 Sparse_model Sparse_spec Sparse_proofs Sparse_proofs2 Sparse_proofs3 Sparse_proofs4 Sparse_proofs5.
Import ListNotations.
Local Open Scope nat_scope.

Lemma endAssembly_spec sigma M : wf M -> length (nz M) = nrow M -> 1 < nrow M -> existsb (fun b => b) (nz M) = true ->
  exists M', endAssembly sigma M = Some (true, M') /\ wf M' /\ st M' = st M /\ nrow M' = nrow M /\ ncol M' = ncol M /\ slv M' = slv M /\
    (forall r c, r = c -> 1 <= r <= nrow M -> nth (r-1) (nz M) false = false -> writable M r c -> val (stored M') r c = (val (stored M) r c + sigma)%Qc) /\
    (forall r c, ~ (r = c /\ 1 <= r <= nrow M /\ nth (r-1) (nz M) false = false /\ writable M r c) -> val (stored M') r c = val (stored M) r c).
Proof.
  intros Hwf Hl Hn He. unfold endAssembly. rewrite Hl. replace (1 <? nrow M) with true by lia.
  unfold isZero. rewrite He. replace (0 <? nrow M) with true by lia. cbn [negb andb].
  destruct (endLoop_spec sigma (nrow M) 1 M Hwf Hl) as (M' & E & W & S' & R & C & L & _ & _ & _ & V & U); try lia.
  exists M'. auto 12.
Qed.

(** ** all reachable states are legal *)
Lemma addSigma_wf sg ieq M b M' : wf M -> addSigma sg ieq M = Some (b, M') -> wf M'.
Proof.
  intros Hwf. unfold addSigma. destruct (_ <? _)%Z; [intros [= _ <-]; exact Hwf|].
  destruct (0 <? ieq)%Z.
  - destruct (addTo_spec M (Z.to_nat ieq) (Z.to_nat ieq) sg Hwf) as (b1 & M1 & E & W & _). rewrite E. destruct (flagEq _ _). intros [= _ <-]. exact W.
  - destruct (addAll_spec (map (fun i => (i, i, sg)) (seq 1 (Nat.min (nrow M) (ncol M)))) M Hwf) as (b1 & M1 & E & W & _). rewrite E.
    destruct (flagEq _ _). intros [= _ <-]. exact W.
Qed.
Lemma addSigma_total sg ieq M : wf M -> addSigma sg ieq M <> None.
Proof.
  intros Hwf. unfold addSigma. destruct (_ <? _)%Z; [discriminate|].
  destruct (0 <? ieq)%Z.
  - destruct (addTo_spec M (Z.to_nat ieq) (Z.to_nat ieq) sg Hwf) as (b1 & M1 & E & W & _). rewrite E. destruct (flagEq _ _). discriminate.
  - destruct (addAll_spec (map (fun i => (i, i, sg)) (seq 1 (Nat.min (nrow M) (ncol M)))) M Hwf) as (b1 & M1 & E & W & _). rewrite E.
    destruct (flagEq _ _). discriminate.
Qed.
Lemma endLoop_wf sg eqs : forall M b M', wf M -> endLoop sg eqs M = Some (b, M') -> wf M'.
Proof.
  induction eqs as [|e eqs IH]; intros M b M' Hwf; cbn [endLoop]; [intros [= _ <-]; exact Hwf|].
  destruct (nth _ _ _); [apply IH, Hwf|]. destruct (addSigma sg (Z.of_nat e) M) as [[[|] M1]|] eqn:E; [|intros [= _ <-]|discriminate].
  - apply IH. eapply addSigma_wf; eauto.
  - eapply addSigma_wf; eauto.
Qed.
Lemma endLoop_total sg eqs : forall M, wf M -> endLoop sg eqs M <> None.
Proof.
  induction eqs as [|e eqs IH]; intros M Hwf; cbn [endLoop]; [discriminate|].
  destruct (nth _ _ _); [apply IH, Hwf|]. pose proof (addSigma_total sg (Z.of_nat e) M Hwf). destruct (addSigma sg (Z.of_nat e) M) as [[[|] M1]|] eqn:E; [|discriminate|congruence].
  apply IH. eapply addSigma_wf; eauto.
Qed.
Lemma truncate_wf t M : wf M -> wf (snd (truncate t M)).
Proof.
  intros Hwf. unfold truncate. set (tol := (diagMax (elem M) * t)%Qc). destruct (st M) eqn:Hst; cbn [snd]; [| |exact Hwf].
  - assert (Hne : st M <> Compr) by congruence. pose proof (proj1 (wf_E M Hne) Hwf) as (Hs & HI & Hf). apply wf_E; [exact Hne|].
    unfold wfE. cbn [setElem elem IA nrow ncol]. split; [apply sorted_filter, Hs|]. split; [exact HI|].
    apply Forall_forall. intros e He. apply filter_In in He. rewrite Forall_forall in Hf. apply Hf, He.
  - assert (Hne : st M <> Compr) by congruence. pose proof (proj1 (wf_E M Hne) Hwf) as (Hs & HI & Hf). apply wf_E; [exact Hne|].
    set (pk := fun v : Qc => qle v (- tol)%Qc || qle tol v).
    assert (E : map (fun e : key * Qc => if qle (snd e) (- tol)%Qc || qle tol (snd e) then e else (fst e, 0%Qc)) (elem M) =
                map (fun e => (fst e, if pk (snd e) then snd e else 0%Qc)) (elem M)).
    { apply map_ext. intros [k v]. cbn [fst snd]. fold (pk v). destruct (pk v); reflexivity. }
    unfold wfE. cbn [setElem elem IA nrow ncol]. rewrite E.
    split; [apply (keyLt_map (fun e => if pk (snd e) then snd e else 0%Qc)), Hs|]. split; [exact HI|]. apply (inR_map (fun e => if pk (snd e) then snd e else 0%Qc)), Hf.
Qed.
Lemma add_wf B a M b M' : wf M -> wf B -> colFmt (slv M) = colFmt (slv B) -> add B a M = Some (b, M') -> wf M'.
Proof.
  intros Hwf HwB Hfmt H. pose proof H as H0. unfold add in H. destruct (isZero B) eqn:Hz; [injection H as _ <-; exact Hwf|].
  destruct ((nrow M <? nrow B) || (ncol M <? ncol B)) eqn:Hd; [injection H as _ <-; exact Hwf|].
  destruct (st M) eqn:Hst.
  - destruct (add_spec B a M Hwf HwB Hfmt Hz ltac:(lia) ltac:(lia) (or_introl Hst)) as (M1 & E & W & _). rewrite H0 in E. injection E as _ <-. exact W.
  - destruct (editable B); injection H as _ <-; exact Hwf.
  - destruct (editable B) eqn:HeB; [injection H as _ <-; exact Hwf|].
    destruct ((length (A M) =? length (A B)) && listNatEqb (IA M) (IA B) && listNatEqb (JA M) (JA B)) eqn:E; [|injection H as _ <-; exact Hwf].
    injection H as _ <-. apply wf_setNz. apply andb_true_iff in E. destruct E as [E _]. apply andb_true_iff in E. destruct E as [E _]. apply Nat.eqb_eq in E.
    unfold wf in *. cbn [setA st slv nrow ncol IA JA A]. rewrite Hst in *. unfold segOK in *.
    rewrite map_length, combine_length, E, Nat.min_id. rewrite <- E. exact Hwf.
Qed.
Lemma add_total B a M : wf M -> wf B -> colFmt (slv M) = colFmt (slv B) -> add B a M <> None.
Proof.
  intros Hwf HwB Hfmt H. pose proof H as H0. unfold add in H. destruct (isZero B) eqn:Hz; [discriminate|].
  destruct ((nrow M <? nrow B) || (ncol M <? ncol B)) eqn:Hd; [discriminate|].
  destruct (st M) eqn:Hst.
  - destruct (add_spec B a M Hwf HwB Hfmt Hz ltac:(lia) ltac:(lia) (or_introl Hst)) as (M1 & E & W & _). congruence.
  - destruct (editable B); discriminate.
  - destruct (editable B) eqn:HeB; [discriminate|]. destruct (_ && _); discriminate.
Qed.
Lemma create_wf m n s : wf (create m n s).
Proof. unfold wf, create. cbn. repeat constructor. Qed.
Lemma reachable_wf M : reachable M -> wf M.
Proof.
  induction 1.
  - apply create_wf.
  - apply lock_spec; assumption.
  - apply resize_spec; assumption.
  - destruct (st M) eqn:Hst.
    + destruct (redim_spec r c M IHreachable Hst) as (M' & E & W & _). rewrite E. exact W.
    + unfold redim. rewrite Hst. exact IHreachable.
    + unfold redim. rewrite Hst. exact IHreachable.
  - destruct (update_spec M r c f IHreachable) as (b' & M1 & E & W & _). rewrite E in H0. injection H0 as _ <-. exact W.
  - destruct (st M) eqn:Hst.
    + destruct (editable B) eqn:HB.
      * destruct (augment_spec B r0 c0 M IHreachable1 IHreachable2 Hst (proj1 (editable_iff B) HB)) as (M' & E & W & _). rewrite E. exact W.
      * unfold augment. rewrite Hst, HB. exact IHreachable1.
    + unfold augment. rewrite Hst. exact IHreachable1.
    + unfold augment. rewrite Hst. exact IHreachable1.
  - apply truncate_wf, IHreachable.
  - apply mult_spec, IHreachable.
  - exact (add_wf B a M b M' IHreachable1 IHreachable2 H1 H2).
  - eapply addSigma_wf; eauto.
  - exact IHreachable.
  - destruct (compressPattern_spec M IHreachable) as (M1 & E & W & _). rewrite E in H0. injection H0 as <-. exact W.
  - destruct (initAssembly_spec s mode M IHreachable H0) as (M1 & E & W & _). rewrite E in H1. injection H1 as <-. exact W.
  - unfold assembleElm in H0. destruct (addAll_spec (toN (fst (assemSparse s K meen))) M IHreachable) as (b1 & M1 & E & W & _).
    rewrite E in H0. destruct (flagEqs _ _ _) as [[ok z]|]; [|discriminate]. injection H0 as _ <-. exact W.
  - unfold endAssembly in H0. destruct (_ && _); [eapply endLoop_wf; eauto|]. injection H0 as _ <-. exact IHreachable.
Qed.

(** ** dump *)
Lemma flat_map_seq_cons {X} (f : nat -> list X) n : 1 <= n -> flat_map f (seq 1 n) = f 1 ++ flat_map f (seq 2 (n-1)).
Proof. intros H. destruct n; [lia|]. cbn [seq flat_map]. rewrite Nat.sub_succ, Nat.sub_0_r. reflexivity. Qed.
Lemma flat_map_ext_in {X Y} (f g : X -> list Y) l : (forall x, In x l -> f x = g x) -> flat_map f l = flat_map g l.
Proof. induction l as [|x l IH]; intros H; [reflexivity|]. cbn [flat_map]. rewrite H by (left; auto). rewrite IH; [reflexivity|]. intros y Hy. apply H. right; auto. Qed.
Lemma flat_map_single {X Y} (f : X -> Y) l : flat_map (fun x => [f x]) l = map f l.
Proof. induction l as [|x l IH]; [reflexivity|]. cbn [flat_map map app]. rewrite IH. reflexivity. Qed.
Lemma dump_editable M : st M <> Compr -> dump M = Some (stored M).
Proof. intros H. unfold dump. rewrite (proj2 (editable_iff M) H), stored_E by exact H. reflexivity. Qed.
Lemma dump_cols M : wf M -> st M = Compr -> colFmt (slv M) = true -> (exists r, inPattern M r 1) -> dump M = Some (stored M).
Proof.
  intros Hwf Hst Hf (r & Hp). unfold dump, editable. rewrite Hst, Hf, (colEnts_spec M Hst Hwf Hf).
  pose proof Hp as (v & Hi). pose proof (stored_range M r 1 v Hwf Hi) as Hrc.
  destruct (wf_seg M Hst Hwf) as [Hlen Hseg]. unfold segn, segptr in *. rewrite Hf in *.
  pose proof Hseg as (H0 & Hm & Hn & Hla & _).
  assert (Hp1 : 0 < nth 1 (IA M) 0).
  { unfold stored in Hi. rewrite Hst, Hf in Hi. unfold colStored in Hi. apply in_map_iff in Hi. destruct Hi as (e & He & Hi).
    apply seg_in in Hi. destruct Hi as (k & i & Hk & Hki & ->). cbn [fst snd] in He. injection He as _ He _. assert (k = 0) by lia. subst k.
    rewrite H0 in Hki. cbn [Nat.add] in Hki. lia. }
  assert (HJ : nth 1 (IA M) 0 <= length (JA M)) by (rewrite <- Hn; apply (seg_mono _ _ _ _ Hseg 1 (ncol M)); lia).
  unfold stored. rewrite Hst, Hf. unfold colStored, segEnts. rewrite map_flat_map.
  destruct (JA M) as [|j0 ja] eqn:EJ; [cbn in HJ; lia|]. destruct (A M) as [|a0 a] eqn:EA; [cbn in Hla; lia|].
  f_equal. rewrite <- EJ, <- EA. cbv beta in H0. rewrite H0.
  rewrite (flat_map_seq_cons _ (ncol M)) by lia.
  assert (E1 : seq 0 (ncol M) = 0 :: seq 1 (ncol M - 1)) by (destruct (ncol M); [lia|]; cbn [seq]; rewrite Nat.sub_succ, Nat.sub_0_r; reflexivity).
  rewrite E1. cbn [flat_map]. rewrite app_comm_cons. f_equal.
  - change (1 - 1) with 0. change (0 + 1) with 1. rewrite H0, !Nat.sub_0_r.
    assert (E2 : seq 0 (nth 1 (IA M) 0) = 0 :: seq 1 (nth 1 (IA M) 0 - 1)) by (destruct (nth 1 (IA M) 0); [lia|]; cbn [seq]; rewrite Nat.sub_succ, Nat.sub_0_r; reflexivity).
    rewrite E2. cbn [map flat_map]. cbn [Nat.ltb Nat.leb Nat.eqb negb orb app]. f_equal.
    + rewrite EJ, EA. reflexivity.
    + rewrite map_map. rewrite <- flat_map_single. apply flat_map_ext_in. intros i Hi'. apply in_seq in Hi'.
      destruct i as [|i]; [lia|]. reflexivity.
  - rewrite <- seq_shift. rewrite !flat_map_concat_map, map_map. f_equal. apply map_ext_in. intros k Hk. apply in_seq in Hk.
    rewrite map_map, <- flat_map_single. replace (S k - 1) with k by lia. replace (k + 1) with (S k) by lia.
    apply flat_map_ext_in. intros i _. replace (1 <? S k) with true by lia. cbn [orb fst snd]. f_equal. f_equal. f_equal. lia.
Qed.

(** ** getColumn *)
Lemma getColumn_fold c l : forall y, NoDup (map fst l) -> Forall (fun e => 1 <= fst (fst e) <= length y) l ->
  let y' := fold_left (fun y e => if snd (fst e) =? c then upd (fst (fst e) - 1) (snd e) y else y) l y in
  length y' = length y /\ forall r, 1 <= r -> nth (r-1) y' 0%Qc = match mget (r,c) l with Some v => v | None => nth (r-1) y 0%Qc end.
Proof.
  induction l as [|[[x k] v] l IH]; intros y Hn Hf; cbv zeta; [split; reflexivity|].
  inversion Hn as [|? ? Hx Hl]; subst. inversion Hf as [|? ? H1 H2]; subst. cbn [fold_left fst snd] in *.
  destruct (IH (if k =? c then upd (x - 1) v y else y) Hl) as [L N].
  { destruct (k =? c); [|exact H2]. rewrite upd_length. exact H2. }
  split; [rewrite L; destruct (k =? c); [apply upd_length|reflexivity]|].
  intros r Hr. rewrite N by exact Hr. cbn [mget]. rewrite keq_pair, (Nat.eqb_sym r x), (Nat.eqb_sym c k).
  destruct (Nat.eqb_spec k c) as [->|Hkc]; [|rewrite andb_false_r; reflexivity]. rewrite andb_true_r.
  destruct (Nat.eqb_spec x r) as [->|Hxr].
  - assert (E : mget (r,c) l = None) by (apply mget_keys; exact Hx). rewrite E. apply upd_nth_same. lia.
  - destruct (mget (r,c) l); [reflexivity|]. apply upd_nth_other. lia.
Qed.
Lemma getColumn_spec M c : wf M -> st M <> Compr -> elem M <> [] -> 1 <= c <= ncol M ->
  exists y, getColumn M c = (true, y) /\ length y = nrow M /\ forall r, 1 <= r <= nrow M -> nth (r-1) y 0%Qc = val (stored M) r c.
Proof.
  intros Hwf Hst He Hc. pose proof (proj1 (wf_E M Hst) Hwf) as (Hs & HI & Hf). pose proof (sorted_nodup _ Hs) as Hn.
  destruct (getColumn_fold c (elem M) (repeat 0%Qc (nrow M)) Hn) as [L N].
  { rewrite repeat_length. eapply Forall_impl; [|exact Hf]. unfold inR. intros e H. apply H. }
  unfold getColumn. destruct (elem M) as [|e0 l0] eqn:Ee; [congruence|]. cbn [orb]. replace ((c <? 1) || (ncol M <? c)) with false by lia.
  eexists. split; [reflexivity|]. rewrite <- Ee in *. rewrite repeat_length in L. split; [exact L|].
  intros r Hr. rewrite N by lia. rewrite stored_E by exact Hst. rewrite val_mgetd by exact Hn. unfold mgetd.
  destruct (mget (r,c) (elem M)); [reflexivity|]. apply nth_repeat.
Qed.

(** ** calcCSR *)
Lemma upd_mapS k x l : map S (upd k x l) = upd k (S x) (map S l).
Proof. revert k; induction l as [|y l IH]; intros [|k]; cbn; auto. rewrite IH. reflexivity. Qed.
Lemma csrPtr_rowPtr ks : forall cur ix ia, map S (csrPtr ks cur ix ia) = rowPtr ks cur ix (map S ia).
Proof.
  induction ks as [|[r c] ks IH]; intros cur ix ia; cbn [csrPtr rowPtr]; [reflexivity|]. rewrite IH. f_equal.
  generalize (seq cur (r - cur)) as js. intros js. revert ia. induction js as [|k js IHj]; intros ia; cbn [fold_left]; [reflexivity|].
  rewrite IHj, upd_mapS. replace (ix + 1) with (S ix) by lia. reflexivity.
Qed.
Lemma sorted_rows l : StronglySorted keyLt l -> StronglySorted (fun a b => rowOf a <= rowOf b) l.
Proof.
  induction 1 as [|e l Hs IH Hf]; constructor; [exact IH|]. eapply Forall_impl; [|exact Hf]. unfold keyLt, rowOf. intros; lia.
Qed.
Lemma calcCSR_spec M : wf M -> st M <> Compr ->
  length (fst (calcCSR M)) = nrow M + 1 /\ length (snd (calcCSR M)) = length (stored M) /\
  (forall k, k <= nrow M -> nth k (fst (calcCSR M)) 0 = length (filter (fun e => fst (fst e) <=? k) (stored M))) /\
  (forall i, i < length (stored M) -> nth i (snd (calcCSR M)) 0 + 1 = snd (fst (nth i (stored M) ((0,0),0%Qc)))).
Proof.
  intros Hwf Hst. pose proof (proj1 (wf_E M Hst) Hwf) as (Hs & HI & Hf). rewrite stored_E by exact Hst.
  unfold calcCSR. cbn [fst snd]. set (ia0 := upd 0 0 (repeat (length (elem M)) (nrow M + 1))).
  assert (HR : length (rowPtr (map fst (elem M)) 1 0 (map S ia0)) = nrow M + 1 /\
               forall k, k <= nrow M -> nth k (rowPtr (map fst (elem M)) 1 0 (map S ia0)) 0 = 1 + pre rowOf k (elem M)).
  { apply (rowPtr_spec (nrow M) (elem M) (elem M) [] 1 (map S ia0)); auto.
    - apply sorted_rows, Hs.
    - eapply Forall_impl; [|exact Hf]. unfold inR, rowOf. intros e H; apply H.
    - lia.
    - eapply Forall_impl; [|exact Hf]. unfold inR, rowOf. intros e H; apply H.
    - unfold ia0. rewrite map_length, upd_length, repeat_length. reflexivity.
    - intros k Hk1 Hk2. assert (k = 0) by lia. subst k. rewrite pre_0.
      + unfold ia0. destruct (nrow M + 1) eqn:E; [lia|]. reflexivity.
      + eapply Forall_impl; [|exact Hf]. unfold inR, rowOf. intros e H; apply H.
    - intros k Hk. rewrite (nth_map' S _ 0) by (unfold ia0; rewrite upd_length, repeat_length; lia).
      unfold ia0. rewrite upd_nth_other by lia. rewrite (nth_indep _ 0 (length (elem M))) by (rewrite repeat_length; lia). rewrite nth_repeat. lia. }
  rewrite <- csrPtr_rowPtr in HR. rewrite map_length in HR. destruct HR as [HL HN].
  split; [exact HL|]. split; [apply map_length|]. split.
  - intros k Hk. specialize (HN k Hk). rewrite (nth_map' S _ 0) in HN by lia. unfold pre, rowOf in HN. lia.
  - intros i Hi. rewrite (nth_map' (fun e : key * Qc => snd (fst e) - 1) _ ((0,0),0%Qc)) by exact Hi.
    rewrite Forall_forall in Hf. specialize (Hf (nth i (elem M) ((0,0),0%Qc)) (nth_In _ _ Hi)). unfold inR in Hf. lia.
Qed.

(** ** the maximum norm *)
Lemma qabs_absQ x : qabs x = absQ x.
Proof.
  unfold qabs, absQ. destruct (Qclt_le_dec x 0) as [H|H].
  - rewrite (proj2 (qlt_spec x 0) H). reflexivity.
  - destruct (qlt x 0) eqn:E; [|reflexivity]. apply qlt_spec in E. exfalso. apply (Qclt_not_le _ _ E H).
Qed.
Lemma rowSums_spec l : forall y, Forall (fun e => 1 <= fst (fst e) <= length y) l ->
  exists y', rowSums l y = Some y' /\ length y' = length y /\
    forall r, nth r y' 0%Qc = (nth r y 0 + qs (fun e => if (fst (fst e) =? r + 1)%nat then absQ (snd e) else 0) l)%Qc.
Proof.
  unfold rowSums. induction l as [|e l IH]; intros y Hf; cbn [fold_left].
  - exists y. split; [reflexivity|]. split; [reflexivity|]. intros r. rewrite qs_nil. ring.
  - inversion Hf as [|? ? H1 H2]; subst. replace ((1 <=? fst (fst e)) && (fst (fst e) <=? length y)) with true by lia.
    destruct (IH (upd (fst (fst e) - 1) (nth (fst (fst e) - 1) y 0 + qabs (snd e))%Qc y)) as (y' & E & L & N).
    { rewrite upd_length. exact H2. }
    exists y'. split; [exact E|]. rewrite upd_length in L. split; [exact L|]. intros r. rewrite N, qs_cons, upd_nth, qabs_absQ.
    replace (fst (fst e) - 1 <? length y) with true by lia. rewrite andb_true_r.
    replace (r =? fst (fst e) - 1) with (fst (fst e) =? r + 1) by lia.
    destruct (Nat.eqb_spec (fst (fst e)) (r+1)) as [E1|E1]; [|ring]. replace (fst (fst e) - 1)%nat with r by lia. ring.
Qed.
Lemma maxElm_spec l : forall b, (b <= maxElm l b)%Qc /\ (forall x, In x l -> (x <= maxElm l b)%Qc) /\ (maxElm l b = b \/ In (maxElm l b) l).
Proof.
  induction l as [|x l IH]; intros b; cbn [maxElm]; [split; [apply Qcle_refl|]; split; [intros x []|auto]|].
  destruct (IH (if qlt b x then x else b)) as (I1 & I2 & I3).
  assert (Hb : (b <= (if qlt b x then x else b))%Qc /\ (x <= (if qlt b x then x else b))%Qc).
  { destruct (qlt b x) eqn:E; [apply qlt_spec in E; split; [apply Qclt_le_weak, E|apply Qcle_refl]|].
    split; [apply Qcle_refl|]. apply Qcnot_lt_le. intros H. apply qlt_spec in H. congruence. }
  destruct Hb as [Hb1 Hb2]. split; [eapply Qcle_trans; eauto|]. split.
  - intros y [<-|Hy]; [eapply Qcle_trans; eauto|apply I2, Hy].
  - destruct I3 as [->|H]; [|right; right; exact H]. destruct (qlt b x); [right; left; reflexivity|left; reflexivity].
Qed.
Definition rowAbs (M : spm) (r : nat) : Qc := qs (fun c => absQ (val (stored M) r c)) (seq 1 (ncol M)).
Lemma Linfnorm_spec M : wf M -> 1 <= nrow M ->
  exists n, Linfnorm M = Some n /\ (forall r, 1 <= r <= nrow M -> (rowAbs M r <= n)%Qc) /\ exists r, 1 <= r <= nrow M /\ n = rowAbs M r.
Proof.
  intros Hwf Hn. unfold Linfnorm.
  assert (E : (if editable M then Some (elem M) else if colFmt (slv M) then colEnts (ncol M) M else rowEnts (nrow M) M) = Some (stored M)).
  { destruct (editable M) eqn:He; [rewrite stored_E by (apply editable_iff; exact He); reflexivity|].
    assert (Hst : st M = Compr) by (unfold editable in He; destruct (st M); congruence).
    destruct (colFmt (slv M)) eqn:Ef; [apply colEnts_spec|apply rowEnts_spec]; auto. }
  rewrite E. destruct (rowSums_spec (stored M) (repeat 0%Qc (nrow M))) as (y & Ey & Ly & Ny).
  { rewrite repeat_length. eapply Forall_impl; [|apply stored_inR, Hwf]. unfold inR. intros e H; apply H. }
  rewrite Ey. rewrite repeat_length in Ly.
  assert (HN : forall r, 1 <= r -> nth (r-1) y 0%Qc = rowAbs M r).
  { intros r Hr. rewrite Ny, nth_repeat, Qcplus_0_l. replace (r - 1 + 1) with r by lia.
    pose proof (rowsum_val (map (fun e => (fst e, absQ (snd e))) (stored M)) (nrow M) (ncol M) (repeat 1%Qc (ncol M)) r) as HR.
    rewrite qs_map in HR. cbn [fst snd] in HR.
    assert (HF : Forall (inR (nrow M) (ncol M)) (map (fun e => (fst e, absQ (snd e))) (stored M))) by (apply (inR_map (fun e => absQ (snd e))), stored_inR, Hwf).
    specialize (HR HF). unfold rowAbs. transitivity (qs (fun x : key * Qc => if (fst (fst x) =? r)%nat then (absQ (snd x) * nth (snd (fst x) - 1) (repeat 1 (ncol M)) 0)%Qc else 0%Qc) (stored M)).
    - apply qs_ext. intros e He. destruct (_ =? _); [|reflexivity]. pose proof (stored_inR M Hwf) as Hi. rewrite Forall_forall in Hi. specialize (Hi e He). unfold inR in Hi.
      rewrite (nth_indep _ 0%Qc 1%Qc) by (rewrite repeat_length; lia). rewrite nth_repeat. ring.
    - rewrite HR. apply qs_ext. intros c Hc. apply in_seq in Hc. rewrite (val_map absQ); [|apply stored_nodup, Hwf|reflexivity].
      rewrite (nth_indep _ 0%Qc 1%Qc) by (rewrite repeat_length; lia). rewrite nth_repeat. ring. }
  destruct y as [|x y]; [cbn in Ly; lia|]. exists (maxElm y x). split; [reflexivity|]. destruct (maxElm_spec y x) as (M1 & M2 & M3). split.
  - intros r Hr. rewrite <- HN by lia. destruct r as [|[|r]]; [lia|exact M1|]. apply M2. cbn [Nat.sub nth]. apply nth_In. cbn in Ly. lia.
  - destruct M3 as [->|M3].
    + exists 1. split; [lia|]. rewrite <- HN by lia. reflexivity.
    + apply (In_nth _ _ 0%Qc) in M3. destruct M3 as (k & Hk & E3). exists (k + 2). split; [cbn in Ly; lia|].
      rewrite <- HN by lia. replace (k + 2 - 1) with (S k) by lia. cbn [nth]. auto.
Qed.
