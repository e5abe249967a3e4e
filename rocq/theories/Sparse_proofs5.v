(** Sparse matrices: pre-assembly, element assembly, equation flags. *)
From Coq Require Import List Arith ZArith QArith Qcanon Bool Lia Sorted Permutation.
From Verif Require Import Base SAM_model SAM_spec SAM_proofs SAM_proofs2 SAM_proofs3 Sparse_model Sparse_spec Sparse_proofs Sparse_proofs2 Sparse_proofs3 Sparse_proofs4.
Import ListNotations.
Local Open Scope nat_scope.

(** ** the sets of coupled equations *)
Lemma sinsert_in x l y : In y (sinsert x l) <-> y = x \/ In y l.
Proof.
  induction l as [|z l IH]; cbn [sinsert]; [cbn; intuition|].
  destruct (Nat.eqb_spec x z) as [->|Hn]; [cbn; intuition|]. destruct (x <? z); cbn [In]; [intuition|]. rewrite IH. intuition.
Qed.
Lemma sinsert_sorted x l : StronglySorted lt l -> StronglySorted lt (sinsert x l).
Proof.
  induction 1 as [|z l Hs IH Hf]; cbn [sinsert]; [repeat constructor|].
  destruct (Nat.eqb_spec x z) as [->|Hn]; [constructor; auto|]. destruct (Nat.ltb_spec x z).
  - constructor; [constructor; auto|]. constructor; [lia|]. eapply Forall_impl; [|exact Hf]. intros; lia.
  - constructor; [exact IH|]. apply Forall_forall. intros y Hy. apply sinsert_in in Hy. destruct Hy as [->|Hy]; [lia|].
    rewrite Forall_forall in Hf. apply Hf, Hy.
Qed.
Lemma dofSets_fold n ps : forall d, length d = n ->
  (forall p, In p ps -> (1 <= fst p <= Z.of_nat n)%Z /\ (1 <= snd p <= Z.of_nat n)%Z) ->
  Forall (StronglySorted lt) d ->
  let d' := fold_left (fun d p => upd (Z.to_nat (fst p) - 1) (sinsert (Z.to_nat (snd p)) (nth (Z.to_nat (fst p) - 1) d [])) d) ps d in
  length d' = n /\ Forall (StronglySorted lt) d' /\
  (forall i k, i < n -> (In k (nth i d' []) <-> In k (nth i d []) \/ In (Z.of_nat (i+1), Z.of_nat k) ps)).
Proof.
  induction ps as [|[r c] ps IH]; intros d Hd Hp Hs; cbv zeta.
  - cbn [fold_left]. split; [exact Hd|]. split; [exact Hs|]. intros i k _. cbn [In]. tauto.
  - cbn [fold_left fst snd]. destruct (Hp (r,c) (or_introl eq_refl)) as [Hr Hc]. cbn [fst snd] in *.
    set (d1 := upd (Z.to_nat r - 1) (sinsert (Z.to_nat c) (nth (Z.to_nat r - 1) d [])) d).
    assert (Hsn : StronglySorted lt (sinsert (Z.to_nat c) (nth (Z.to_nat r - 1) d []))).
    { apply sinsert_sorted. rewrite Forall_forall in Hs. apply Hs. apply nth_In. lia. }
    destruct (IH d1) as (I1 & I2 & I3).
    + unfold d1. rewrite upd_length. exact Hd.
    + intros p Hi. apply Hp. right; auto.
    + unfold d1. apply Forall_forall. intros x Hx. apply (In_nth _ _ []) in Hx. destruct Hx as (j & Hj & <-). rewrite upd_length in Hj.
      destruct (Nat.eq_dec j (Z.to_nat r - 1)) as [->|Hn]; [rewrite upd_nth_same by exact Hj; exact Hsn|].
      rewrite upd_nth_other by congruence. rewrite Forall_forall in Hs. apply Hs, nth_In, Hj.
    + split; [exact I1|]. split; [exact I2|]. intros i k Hi. rewrite I3 by exact Hi. unfold d1.
      destruct (Nat.eq_dec i (Z.to_nat r - 1)) as [->|Hn].
      * rewrite upd_nth_same by lia. rewrite sinsert_in. cbn [In]. split.
        -- intros [[->|H]|H]; [|auto|auto]. right. left. f_equal; lia.
        -- intros [H|[[= H1 H2]|H]]; [auto| |auto]. left. left. lia.
      * rewrite upd_nth_other by congruence. cbn [In]. split; [tauto|]. intros [H|[[= H1 H2]|H]]; [auto| |auto]. exfalso. lia.
Qed.
Lemma repeat_forall {X} (P : X -> Prop) x n : P x -> Forall P (repeat x n).
Proof. intros H. apply Forall_forall. intros y Hy. apply repeat_spec in Hy. subst. exact H. Qed.
Lemma dofSets_spec n ps : (forall p, In p ps -> (1 <= fst p <= Z.of_nat n)%Z /\ (1 <= snd p <= Z.of_nat n)%Z) ->
  length (dofSets n ps) = n /\ Forall (StronglySorted lt) (dofSets n ps) /\
  (forall i k, i < n -> (In k (nth i (dofSets n ps) []) <-> In (Z.of_nat (i+1), Z.of_nat k) ps)).
Proof.
  intros Hp. destruct (dofSets_fold n ps (repeat [] n)) as (H1 & H2 & H3); auto.
  - apply repeat_length. - apply repeat_forall. constructor.
  - split; [exact H1|]. split; [exact H2|]. intros i k Hi. unfold dofSets. rewrite H3 by exact Hi.
    rewrite nth_repeat. cbn [In]. tauto.
Qed.
Lemma sorted_lt_nodup l : StronglySorted lt l -> NoDup l.
Proof. induction 1 as [|x l Hs IH Hf]; constructor; auto. intros Hi. rewrite Forall_forall in Hf. specialize (Hf x Hi). lia. Qed.
Lemma combine_seq_in {X} (l : list X) d : forall b i x, In (i,x) (combine (seq b (length l)) l) <-> b <= i < b + length l /\ x = nth (i-b) l d.
Proof.
  induction l as [|y l IH]; intros b i x; cbn [length seq combine In]; [lia|]. rewrite IH. split.
  - intros [[= <- <-]|[H ->]].
    + split; [lia|]. rewrite Nat.sub_diag. reflexivity.
    + split; [lia|]. replace (i-b) with (S (i - S b)) by lia. reflexivity.
  - intros [H ->]. destruct (Nat.eq_dec i b) as [->|Hn].
    + left. rewrite Nat.sub_diag. reflexivity.
    + right. split; [lia|]. replace (i-b) with (S (i - S b)) by lia. reflexivity.
Qed.
Lemma pattern_in d r c v : In ((r,c),v) (pattern d) <-> v = 0%Qc /\ 1 <= r <= length d /\ In c (nth (r-1) d []).
Proof.
  unfold pattern. rewrite in_flat_map. split.
  - intros ([i l] & Hi & Hk). apply (combine_seq_in d []) in Hi. destruct Hi as [Hi ->]. cbn [fst snd] in Hk.
    apply in_map_iff in Hk. destruct Hk as (k & [= <- <- <-] & Hk). split; [reflexivity|]. split; [lia|].
    replace (i + 1 - 1) with (i - 0) by lia. exact Hk.
  - intros (-> & Hr & Hc). exists (r-1, nth (r-1) d []). split; [apply (combine_seq_in d []); split; [lia|f_equal; lia]|].
    cbn [fst snd]. apply in_map_iff. exists c. split; [|exact Hc]. f_equal. f_equal. lia.
Qed.
Lemma combine_fst_nodup {X} (l : list X) b : NoDup (combine (seq b (length l)) l).
Proof.
  revert b. induction l as [|y l IH]; intros b; cbn [length seq combine]; constructor; [|apply IH].
  intros Hi. apply in_combine_l in Hi. apply in_seq in Hi. lia.
Qed.
Lemma pattern_nodup d : Forall (StronglySorted lt) d -> NoDup (map fst (pattern d)).
Proof.
  intros Hs. unfold pattern. rewrite map_flat_map. apply NoDup_flat_map.
  - apply combine_fst_nodup.
  - intros [i l] Hi. cbn [fst snd]. rewrite map_map. cbn [fst]. apply NoDup_map_inj; [|intros x y _ _ [= H]; exact H].
    apply sorted_lt_nodup. apply in_combine_r in Hi. rewrite Forall_forall in Hs. apply Hs, Hi.
  - intros [i l] [j m] z Hi Hj Hz1 Hz2. cbn [fst snd] in *. rewrite map_map in *. apply in_map_iff in Hz1. apply in_map_iff in Hz2.
    destruct Hz1 as (k & <- & _). destruct Hz2 as (k' & [= H _] & _). assert (i = j) by lia. subst j.
    apply (combine_seq_in d []) in Hi. apply (combine_seq_in d []) in Hj. destruct Hi as [_ ->], Hj as [_ ->]. reflexivity.
Qed.

(** the coupling pattern of the model *)
Definition coupled (s : tables) (r c : nat) : Prop := In (Z.of_nat r, Z.of_nat c) (dofCouplings s).
Lemma couplings_pattern s : consistent s ->
  let d := dofSets (neq s) (dofCouplings s) in
  NoDup (map fst (pattern d)) /\ Forall (inR (neq s) (neq s)) (pattern d) /\
  (forall r c v, In ((r,c),v) (pattern d) <-> v = 0%Qc /\ coupled s r c).
Proof.
  intros Hc d. assert (Hr : forall p, In p (dofCouplings s) -> (1 <= fst p <= Z.of_nat (neq s))%Z /\ (1 <= snd p <= Z.of_nat (neq s))%Z).
  { intros [r c] Hi. apply (couplings_range s r c Hc Hi). }
  destruct (dofSets_spec (neq s) (dofCouplings s) Hr) as (H1 & H2 & H3). fold d in H1, H2, H3.
  assert (HI : forall r c v, In ((r,c),v) (pattern d) <-> v = 0%Qc /\ coupled s r c).
  { intros r c v. rewrite pattern_in, H1. unfold coupled. split.
    - intros (-> & Hr' & Hi). split; [reflexivity|]. apply H3 in Hi; [|lia]. replace (r - 1 + 1) with r in Hi by lia. exact Hi.
    - intros (-> & Hi). destruct (Hr _ Hi) as [Hr1 Hr2]. cbn [fst snd] in *. split; [reflexivity|]. split; [lia|].
      apply H3; [lia|]. replace (r - 1 + 1) with r by lia. exact Hi. }
  split; [apply pattern_nodup, H2|]. split; [|exact HI].
  apply Forall_forall. intros [[r c] v] He. apply HI in He. destruct He as [_ He]. destruct (Hr _ He) as [Hr1 Hr2].
  unfold inR. cbn [fst snd] in *. lia.
Qed.

(** setting a list of entries to zero (delayed locking) *)
Lemma setZero_fold l : forall M, wf M -> st M = EdP -> Forall (inR (nrow M) (ncol M)) l ->
  exists M', fold_left (fun acc e => match acc with
                                    | None => None
                                    | Some M => option_map snd (setTo M (fst (fst e)) (snd (fst e)) 0%Qc)
                                    end) l (Some M) = Some M' /\
    wf M' /\ st M' = EdP /\ nrow M' = nrow M /\ ncol M' = ncol M /\ slv M' = slv M /\ nz M' = nz M /\
    (forall r c, inPattern M' r c <-> inPattern M r c \/ In (r,c) (map fst l)) /\
    (forall r c, val (stored M) r c = 0%Qc -> val (stored M') r c = 0%Qc).
Proof.
  induction l as [|[[x y] v] l IH]; intros M Hwf Hst Hf.
  - exists M. cbn [fold_left map In]. repeat match goal with |- _ /\ _ => split end; auto. intros; tauto.
  - inversion Hf as [|? ? H1 H2]; subst. cbn [fold_left fst snd]. unfold setTo.
    destruct (update_spec M x y (fun _ => 0%Qc) Hwf) as (b & M1 & E & W & S1 & R1 & C1 & L1 & N1 & B1 & V1 & P1). rewrite E. cbn [option_map snd].
    assert (Hb : b = true). { apply B1. unfold inR in H1. cbn [fst snd] in H1. split; [apply inRange_iff; exact H1|auto]. }
    destruct (IH M1) as (M' & E' & W' & S' & R' & C' & L' & N' & P' & V'); [exact W|congruence|rewrite R1, C1; exact H2|].
    exists M'. split; [exact E'|]. repeat match goal with |- _ /\ _ => split end; try congruence.
    + intros r c. rewrite P', P1. cbn [map In fst]. split; [intros [[H|(_ & -> & ->)]|H]; auto|].
      intros [H|[[= -> ->]|H]]; auto.
    + intros r c H. apply V'. rewrite V1. destruct (b && _); [reflexivity|exact H].
Qed.

Lemma inPattern_keys M r c : inPattern M r c <-> In (r,c) (map fst (stored M)).
Proof.
  unfold inPattern. rewrite in_map_iff. split.
  - intros (v & H). exists ((r,c),v). auto.
  - intros ([k v] & <- & H). exists v. cbn [fst]. destruct k; exact H.
Qed.
Lemma setSt_wf M s : wf M -> st M <> Compr -> s <> Compr -> wf (setSt M s) /\ stored (setSt M s) = stored M.
Proof.
  intros Hwf H1 H2. split.
  - apply wf_E; [exact H2|]. apply (proj1 (wf_E M H1)) in Hwf. exact Hwf.
  - rewrite !stored_E by auto. reflexivity.
Qed.
Lemma perm_keys (l l' : vmap) (k : key) : Permutation l l' -> (In k (map fst l) <-> In k (map fst l')).
Proof. intros P. split; apply Permutation_in; [apply Permutation_map, P|apply Permutation_map, Permutation_sym, P]. Qed.

(** pre-assembly leaves a legal matrix with all values zero, in every mode *)
Lemma preAssemble_wf s delay M : wf M -> consistent s -> nrow M = neq s -> ncol M = neq s ->
  (forall r c, val (stored M) r c = 0%Qc) ->
  exists M', preAssemble s delay M = Some M' /\ wf M' /\ nrow M' = neq s /\ ncol M' = neq s /\ slv M' = slv M /\ nz M' = nz M /\
    (forall r c, val (stored M') r c = 0%Qc) /\
    (st M = EdP -> delay = true \/ colFmt (slv M) = true -> forall r c, coupled s r c -> inPattern M' r c) /\
    (st M = EdP -> delay = false -> colFmt (slv M) = true -> st M' = Compr /\ forall r c, inPattern M' r c -> coupled s r c) /\
    (st M = EdP -> delay = true -> st M' = EdV) /\ (st M <> EdP -> M' = M).
Proof.
  intros Hwf Hc Hr Hcl Hv. unfold preAssemble. destruct (st M) eqn:Hst.
  2,3: exists M; repeat match goal with |- _ /\ _ => split end; auto; congruence.
  destruct (couplings_pattern s Hc) as (Pn & Pf & Pi). set (dofc := dofSets (neq s) (dofCouplings s)) in *.
  destruct delay.
  - destruct (setZero_fold (pattern dofc) M Hwf Hst) as (M1 & E & W & S1 & R1 & C1 & L1 & N1 & P1 & V1); [rewrite Hr, Hcl; exact Pf|].
    rewrite E. destruct (setSt_wf M1 EdV W) as [W2 S2]; [congruence|discriminate|]. eexists. split; [reflexivity|].
    repeat match goal with |- _ /\ _ => split end; auto; try (cbn; congruence).
    + intros r c. rewrite S2. apply V1, Hv.
    + intros _ _ r c Hi. apply inPattern_keys. rewrite S2. apply inPattern_keys. apply P1. right.
      apply in_map_iff. exists ((r,c),0%Qc). split; [reflexivity|]. apply Pi. auto.
  - destruct (setSt_wf M EdV Hwf) as [W2 S2]; [congruence|discriminate|].
    assert (He : editable (setSt M EdV) = true) by reflexivity.
    destruct (slv M) eqn:Hs.
    + eexists. split; [reflexivity|]. split; [exact W2|]. split; [exact Hr|]. split; [exact Hcl|]. split; [exact Hs|]. split; [reflexivity|].
      split; [intros r c; rewrite S2; apply Hv|]. cbn [colFmt]. split; [intros _ [H|H]; discriminate|].
      split; [intros _ _ H; discriminate|]. split; [discriminate|congruence].
    + destruct (optimiseColsP_spec dofc (setSt M EdV) W2 He) as (M' & E & W & S' & R' & C' & L' & N' & P'); auto.
      { cbn [setSt slv]. rewrite Hs. reflexivity. }
      { cbn [setSt nrow ncol]. rewrite Hr, Hcl. exact Pf. }
      rewrite E. cbn [snd]. exists M'. cbn in R', C', L', N'.
      split; [reflexivity|]. split; [exact W|]. split; [congruence|]. split; [congruence|]. split; [congruence|]. split; [congruence|].
      split; [intros r c; rewrite (val_perm _ _ r c P'); unfold val; apply qs_zero; intros [[x y] v] Hi; apply Pi in Hi; destruct Hi as [-> _]; cbn [snd]; destruct (_ && _); reflexivity|].
      split; [intros _ _ r c Hi; apply inPattern_keys; apply (perm_keys _ _ _ P'); apply in_map_iff; exists ((r,c),0%Qc); split; [reflexivity|]; apply Pi; auto|].
      split; [|split; [discriminate|congruence]].
      intros _ _ _. split; [exact S'|]. intros r c Hi. apply inPattern_keys in Hi. apply (perm_keys _ _ _ P') in Hi.
      apply in_map_iff in Hi. destruct Hi as ([[x y] v] & [= -> ->] & Hi). apply Pi in Hi. apply Hi.
    + destruct (optimiseRows_spec false (setSt M EdV) W2 He) as (M' & E & W & S' & R' & C' & L' & N' & V' & P').
      { cbn [setSt slv]. rewrite Hs. reflexivity. }
      rewrite E. cbn [option_map snd]. exists M'. cbn in R', C', L', N'.
      split; [reflexivity|]. split; [exact W|]. split; [congruence|]. split; [congruence|]. split; [congruence|]. split; [congruence|].
      split; [intros r c; rewrite V'; rewrite S2; apply Hv|]. cbn [colFmt]. split; [intros _ [H|H]; discriminate|].
      split; [intros _ _ H; discriminate|]. split; [discriminate|congruence].
    + destruct (optimiseColsP_spec dofc (setSt M EdV) W2 He) as (M' & E & W & S' & R' & C' & L' & N' & P'); auto.
      { cbn [setSt slv]. rewrite Hs. reflexivity. }
      { cbn [setSt nrow ncol]. rewrite Hr, Hcl. exact Pf. }
      rewrite E. cbn [snd]. exists M'. cbn in R', C', L', N'.
      split; [reflexivity|]. split; [exact W|]. split; [congruence|]. split; [congruence|]. split; [congruence|]. split; [congruence|].
      split; [intros r c; rewrite (val_perm _ _ r c P'); unfold val; apply qs_zero; intros [[x y] v] Hi; apply Pi in Hi; destruct Hi as [-> _]; cbn [snd]; destruct (_ && _); reflexivity|].
      split; [intros _ _ r c Hi; apply inPattern_keys; apply (perm_keys _ _ _ P'); apply in_map_iff; exists ((r,c),0%Qc); split; [reflexivity|]; apply Pi; auto|].
      split; [|split; [discriminate|congruence]].
      intros _ _ _. split; [exact S'|]. intros r c Hi. apply inPattern_keys in Hi. apply (perm_keys _ _ _ P') in Hi.
      apply in_map_iff in Hi. destruct Hi as ([[x y] v] & [= -> ->] & Hi). apply Pi in Hi. apply Hi.
Qed.

Lemma initAssembly_spec s mode M : wf M -> consistent s ->
  exists M', initAssembly s mode M = Some M' /\ wf M' /\ nrow M' = neq s /\ ncol M' = neq s /\ slv M' = slv M /\ nz M' = nz M /\
    (forall r c, val (stored M') r c = 0%Qc) /\
    ((st M = EdP \/ nrow M <> neq s \/ ncol M <> neq s) -> mode <> Some false \/ colFmt (slv M) = true ->
       forall r c, coupled s r c -> writable M' r c) /\
    ((st M = EdP \/ nrow M <> neq s \/ ncol M <> neq s) -> mode = Some false -> colFmt (slv M) = true ->
       st M' = Compr /\ forall r c, inPattern M' r c <-> coupled s r c) /\
    (st M <> EdP -> nrow M = neq s -> ncol M = neq s -> forall r c, inPattern M' r c <-> inPattern M r c).
Proof.
  intros Hwf Hc. unfold initAssembly. set (M1 := resize (neq s) (neq s) false M).
  destruct (resize_spec (neq s) (neq s) false M Hwf) as (W1 & R1 & C1 & V1 & K1). fold M1 in W1, R1, C1, V1, K1.
  assert (C1' : ncol M1 = neq s) by (rewrite C1; destruct (neq s); reflexivity). clear C1.
  assert (Ec : (if neq s =? 0 then neq s else neq s) = neq s) by (destruct (neq s); reflexivity). rewrite Ec in K1.
  assert (L1 : slv M1 = slv M /\ nz M1 = nz M).
  { unfold M1, resize. destruct (_ && _); split; reflexivity. }
  assert (S1 : (st M = EdP \/ nrow M <> neq s \/ ncol M <> neq s) -> st M1 = EdP).
  { intros H. unfold M1, resize. rewrite Ec. destruct ((neq s =? nrow M) && (neq s =? ncol M) && negb false) eqn:E; [|reflexivity].
    cbn [setA setElem st]. destruct H as [H|H]; [exact H|]. lia. }
  assert (Hcr : forall r c, coupled s r c -> 1 <= r <= neq s /\ 1 <= c <= neq s).
  { intros r c H. apply (couplings_range s _ _ Hc) in H. lia. }
  destruct mode as [delay|].
  - destruct (preAssemble_wf s delay M1 W1 Hc R1 C1' V1) as (M' & E & W & R & C & L & N & V & P1 & P2 & P3 & P4).
    exists M'. split; [exact E|]. split; [exact W|]. split; [exact R|]. split; [exact C|]. split; [destruct L1; congruence|]. split; [destruct L1; congruence|].
    split; [exact V|]. split; [|split].
    + intros H1 H2 r c Hi. unfold writable. rewrite R, C. destruct (Hcr r c Hi) as [Hr1 Hr2]. split; [exact Hr1|]. split; [exact Hr2|].
      right. apply P1; auto. destruct delay; [auto|]. right. destruct L1 as [-> _]. destruct H2 as [H2|H2]; [congruence|exact H2].
    + intros H1 [= ->] H2. rewrite <- (proj1 L1) in H2. destruct (P2 (S1 H1) eq_refl H2) as [Q1 Q2]. split; [exact Q1|].
      intros r c. split; [apply Q2|]. apply P1; auto.
    + intros H1 H2 H3 r c. destruct (K1 (eq_sym H2) (eq_sym H3) eq_refl) as [K2 K3].
      rewrite (P4 ltac:(congruence)). rewrite !inPattern_keys, K3. tauto.
  - exists M1. split; [reflexivity|]. split; [exact W1|]. split; [exact R1|]. split; [exact C1'|]. split; [apply L1|]. split; [apply L1|].
    split; [exact V1|]. split; [|split].
    + intros H1 _ r c Hi. unfold writable. rewrite R1, C1'. destruct (Hcr r c Hi) as [Hr1 Hr2]. split; [exact Hr1|]. split; [exact Hr2|]. left. apply S1, H1.
    + discriminate.
    + intros H1 H2 H3 r c. destruct (K1 (eq_sym H2) (eq_sym H3) eq_refl) as [K2 K3]. rewrite !inPattern_keys, K3. tauto.
Qed.

(** ** equation flags *)
Lemma flagMasters_spec eqs : forall z, (forall q c, In (q,c) eqs -> (1 <= q <= Z.of_nat (length z))%Z) ->
  exists z', flagMasters eqs z = Some z' /\ length z' = length z /\
    forall k, nth k z' false = true <-> nth k z false = true \/ exists c, In (Z.of_nat (S k), c) eqs.
Proof.
  induction eqs as [|[q c] eqs IH]; intros z Hq; cbn [flagMasters].
  - exists z. split; [reflexivity|]. split; [reflexivity|]. intros k. split; [auto|]. intros [H|(c & [])]. exact H.
  - pose proof (Hq q c (or_introl eq_refl)) as Hr.
    replace ((1 <=? q)%Z && (q <=? Z.of_nat (length z))%Z) with true by lia.
    destruct (IH (upd (Z.to_nat q - 1) true z)) as (z' & E & L & N).
    { intros q' c' Hi. rewrite upd_length. apply (Hq q' c'). right; auto. }
    exists z'. split; [exact E|]. rewrite upd_length in L. split; [exact L|]. intros k. rewrite N.
    destruct (Nat.eq_dec k (Z.to_nat q - 1)) as [->|Hn].
    + rewrite upd_nth_same by lia. split; [intros _; right|auto]. exists c. left. f_equal. lia.
    + rewrite upd_nth_other by exact Hn. split; [intros [H|(c' & H)]; [auto|right; exists c'; right; auto]|].
      intros [H|(c' & [[= H _]|H])]; [auto| |right; eauto]. exfalso. lia.
Qed.
Lemma flagLoop_spec s : forall meq z, consistent s -> eqsOK s meq -> length z = neq s ->
  exists z', flagLoop s meq z = Some (true, z') /\ length z' = length z /\
    forall k, nth k z' false = true <-> nth k z false = true \/ In (Z.of_nat (S k)) (uniqueEqns s meq).
Proof.
  induction meq as [|m meq IH]; intros z Hc Ho Hl; cbn [flagLoop].
  - exists z. split; [reflexivity|]. split; [reflexivity|]. intros k. cbn [uniqueEqns flat_map In]. tauto.
  - assert (Hm : (- Z.of_nat (nceq s) <= m <= Z.of_nat (neq s))%Z) by (apply Ho; left; auto).
    assert (Ho' : eqsOK s meq) by (intros x Hx; apply Ho; right; auto).
    replace (Z.of_nat (length z) <? m)%Z with false by lia.
    unfold uniqueEqns. cbn [flat_map]. fold (uniqueEqns s meq).
    destruct (Z.ltb_spec m 0) as [Hlt|Hge].
    + destruct (flagMasters_spec (masters s (ceqno m)) z) as (z1 & E1 & L1 & N1).
      { intros q c Hi. rewrite Hl. eapply masters_range; [exact Hc| |exact Hi]. unfold ceqno. lia. }
      rewrite E1. destruct (IH z1 Hc Ho') as (z' & E & L & N); [congruence|]. exists z'. split; [exact E|]. split; [congruence|].
      intros k. rewrite N, N1, in_app_iff, in_map_iff. split.
      * intros [[H|(c & H)]|H]; [auto| |auto]. right. left. exists (Z.of_nat (S k), c). auto.
      * intros [H|[([q c] & H1 & H)|H]]; [auto| |auto]. left. right. exists c. cbn [fst] in H1. congruence.
    + destruct (Z.ltb_spec 0 m) as [Hgt|Hle].
      * destruct (IH (upd (Z.to_nat m - 1) true z) Hc Ho') as (z' & E & L & N); [rewrite upd_length; exact Hl|].
        exists z'. rewrite upd_length in L. split; [exact E|]. split; [exact L|]. intros k. rewrite N. cbn [app In].
        destruct (Nat.eq_dec k (Z.to_nat m - 1)) as [->|Hn].
        -- rewrite upd_nth_same by lia. split; [intros _; right; left; lia|auto].
        -- rewrite upd_nth_other by exact Hn. split; [tauto|]. intros [H|[H|H]]; auto. exfalso. lia.
      * destruct (IH z Hc Ho' Hl) as (z' & E & L & N). exists z'. split; [exact E|]. split; [exact L|]. exact N.
Qed.
Lemma flagEqs_spec s meq z : consistent s -> eqsOK s meq -> length z = neq s \/ length z = 1 ->
  exists z', flagEqs s meq z = Some (true, z') /\ length z' = length z /\
    (length z = 1 -> z' = [true]) /\
    (length z <> 1 -> forall k, nth k z' false = true <-> nth k z false = true \/ eqInElm s meq (Z.of_nat (S k))).
Proof.
  intros Hc Ho Hl. unfold flagEqs. destruct (Nat.eqb_spec (length z) 1) as [H1|H1].
  - exists [true]. split; [reflexivity|]. split; [auto|]. split; [auto|congruence].
  - destruct Hl as [Hl|Hl]; [|congruence]. destruct (flagLoop_spec s meq z Hc Ho Hl) as (z' & E & L & N).
    exists z'. split; [exact E|]. split; [exact L|]. split; [congruence|]. intros _ k. rewrite N, uniqueEqns_iff. tauto.
Qed.

(** ** element assembly *)
Lemma entry_toN l r c : (forall u, In u l -> (0 <= fst (fst u))%Z /\ (0 <= snd (fst u))%Z) ->
  val (toN l) r c = entry (Z.of_nat r) (Z.of_nat c) l.
Proof.
  intros H. unfold val, entry, toN. rewrite qs_map. apply qs_ext. intros [[x y] v] Hi. cbn [fst snd]. destruct (H _ Hi) as [H1 H2]. cbn [fst snd] in *.
  replace ((Z.to_nat x =? r) && (Z.to_nat y =? c)) with ((x =? Z.of_nat r)%Z && (y =? Z.of_nat c)%Z) by lia. reflexivity.
Qed.
Lemma assem_range s K meen r c v : consistent s -> eqsOK s meen -> In (r,c,v) (fst (assemSparse s K meen)) ->
  (1 <= r <= Z.of_nat (neq s))%Z /\ (1 <= c <= Z.of_nat (neq s))%Z.
Proof.
  intros Hc Ho Hi. apply assem_in_couplings in Hi. apply elmCouplings_iff in Hi. destruct Hi as (i & j & Hi & Hj & H1 & H2).
  assert (Hs : forall k, k < length meen -> eqsOK s [me meen k]).
  { intros k Hk m [<-|[]]. apply Ho. apply nth_In, Hk. }
  split; [exact (uniqueEqns_range s _ _ Hc (Hs i Hi) H1)|exact (uniqueEqns_range s _ _ Hc (Hs j Hj) H2)].
Qed.
Definition flagsOK (s : tables) (M : spm) : Prop := length (nz M) = neq s \/ length (nz M) = 1.
Lemma assembleElm_spec s K meen M : wf M -> consistent s -> eqsOK s meen -> flagsOK s M -> nrow M = neq s -> ncol M = neq s ->
  exists M', assembleElm s K meen M = Some (true, M') /\ wf M' /\ st M' = st M /\ nrow M' = nrow M /\ ncol M' = ncol M /\ slv M' = slv M /\
    length (nz M') = length (nz M) /\ (length (nz M) = 1 -> nz M' = [true]) /\
    (length (nz M) <> 1 -> forall k, nth k (nz M') false = true <-> nth k (nz M) false = true \/ eqInElm s meen (Z.of_nat (S k))) /\
    (forall r c, writable M' r c <-> writable M r c) /\
    (forall r c, writable M r c -> val (stored M') r c = (val (stored M) r c + entry (Z.of_nat r) (Z.of_nat c) (fst (assemSparse s K meen)))%Qc) /\
    (forall r c, ~ writable M r c -> val (stored M') r c = val (stored M) r c).
Proof.
  intros Hwf Hc Ho Hf Hr Hcl. unfold assembleElm.
  destruct (addAll_spec (toN (fst (assemSparse s K meen))) M Hwf) as (b & M1 & E1 & W1 & S1 & R1 & C1 & L1 & N1 & B1 & V1 & U1 & P1 & T1). rewrite E1.
  destruct (flagEqs_spec s meen (nz M1) Hc Ho) as (z' & E2 & L2 & O2 & N2); [rewrite N1; exact Hf|]. rewrite E2.
  eexists. split; [reflexivity|]. rewrite N1 in *.
  split; [apply wf_setNz, W1|]. split; [exact S1|]. split; [exact R1|]. split; [exact C1|]. split; [exact L1|].
  split; [exact L2|]. split; [exact O2|]. split; [exact N2|]. split; [exact T1|]. split.
  - intros r c Hw. rewrite val_setNz, V1 by exact Hw. f_equal. apply entry_toN. intros [[x y] v] Hi. cbn [fst snd].
    destruct (assem_range s K meen x y v Hc Ho Hi). lia.
  - intros r c Hw. rewrite val_setNz. apply U1, Hw.
Qed.
(** every element of a list is assembled *)
Definition elmsOK (s : tables) (l : list (emat * list Z)) : Prop := forall K meen, In (K, meen) l -> eqsOK s meen.
Lemma assembleElms_spec s l : forall M, wf M -> consistent s -> elmsOK s l -> flagsOK s M -> nrow M = neq s -> ncol M = neq s ->
  exists M', assembleElms s l M = Some M' /\ wf M' /\ st M' = st M /\ nrow M' = nrow M /\ ncol M' = ncol M /\ slv M' = slv M /\
    length (nz M') = length (nz M) /\ (length (nz M) = 1 -> l <> [] -> nz M' = [true]) /\
    (length (nz M) <> 1 -> forall k, nth k (nz M') false = true <-> nth k (nz M) false = true \/ exists K meen, In (K, meen) l /\ eqInElm s meen (Z.of_nat (S k))) /\
    (forall r c, writable M' r c <-> writable M r c) /\
    (forall r c, writable M r c -> val (stored M') r c = (val (stored M) r c + qs (fun p => entry (Z.of_nat r) (Z.of_nat c) (fst (assemSparse s (fst p) (snd p)))) l)%Qc) /\
    (forall r c, ~ writable M r c -> val (stored M') r c = val (stored M) r c).
Proof.
  induction l as [|[K meen] l IH]; intros M Hwf Hc Ho Hf Hr Hcl; cbn [assembleElms].
  - exists M. repeat match goal with |- _ /\ _ => split end; auto; try congruence.
    + intros _ k. split; [auto|]. intros [H|(K & meen & [] & _)]. exact H.
    + intros; tauto.
    + intros r c _. rewrite qs_nil. ring.
  - destruct (assembleElm_spec s K meen M Hwf Hc (Ho K meen (or_introl eq_refl)) Hf Hr Hcl)
      as (M1 & E1 & W1 & S1 & R1 & C1 & L1 & N1 & O1 & F1 & T1 & V1 & U1). rewrite E1.
    destruct (IH M1 W1 Hc) as (M2 & E2 & W2 & S2 & R2 & C2 & L2 & N2 & O2 & F2 & T2 & V2 & U2); try congruence.
    { intros K' m' Hi. apply (Ho K' m'). right; auto. }
    { unfold flagsOK in *. rewrite N1. exact Hf. }
    exists M2. split; [exact E2|]. split; [exact W2|]. repeat (split; [congruence|]).
    split; [intros H1 _; destruct l; [cbn in E2; injection E2 as <-; auto|apply O2; [congruence|discriminate]]|].
    split; [|split; [|split]].
    + intros H1 k. rewrite F2 by congruence. rewrite F1 by exact H1. split.
      * intros [[H|H]|(K' & m' & Hi & H)]; [auto| |].
        -- right. exists K, meen. split; [left; auto|exact H].
        -- right. exists K', m'. split; [right; auto|exact H].
      * intros [H|(K' & m' & [Eq|Hi] & H)]; [auto| |right; eauto]. injection Eq as _ <-. auto.
    + intros r c. rewrite T2. apply T1.
    + intros r c Hw. rewrite V2 by (apply T1, Hw). rewrite V1 by exact Hw. rewrite qs_cons. cbn [fst snd]. ring.
    + intros r c Hw. rewrite U2 by (rewrite T1; exact Hw). apply U1, Hw.
Qed.

(** ** regularisation *)
Lemma addSigma_eq sigma ieq M : wf M -> 1 <= ieq <= nrow M -> ieq <= length (nz M) -> length (nz M) <> 1 ->
  exists b M1, addTo M ieq ieq sigma = Some (b, M1) /\
    addSigma sigma (Z.of_nat ieq) M = Some (true, setNz M1 (upd (ieq - 1) true (nz M))).
Proof.
  intros Hwf Hi Hl H1. destruct (addTo_spec M ieq ieq sigma Hwf) as (b & M1 & E & W & S1 & R1 & C1 & L1 & N1 & _).
  exists b, M1. split; [exact E|]. unfold addSigma. replace (Z.of_nat (nrow M) <? Z.of_nat ieq)%Z with false by lia.
  replace (0 <? Z.of_nat ieq)%Z with true by lia. rewrite Nat2Z.id, E, N1. unfold flagEq.
  replace (length (nz M) =? 1) with false by lia. replace (Z.of_nat ieq =? 0)%Z with false by lia.
  replace ((Z.of_nat ieq <? 0)%Z || (Z.of_nat (length (nz M)) <? Z.of_nat ieq)%Z) with false by lia.
  rewrite Nat2Z.id. reflexivity.
Qed.
Lemma endLoop_spec sigma n : forall b M, wf M -> length (nz M) = nrow M -> length (nz M) <> 1 -> 1 <= b -> b + n = S (nrow M) ->
  exists M', endLoop sigma (seq b n) M = Some (true, M') /\ wf M' /\ st M' = st M /\ nrow M' = nrow M /\ ncol M' = ncol M /\ slv M' = slv M /\
    length (nz M') = length (nz M) /\
    (forall k, k < nrow M -> nth k (nz M') false = (b - 1 <=? k) || nth k (nz M) false) /\
    (forall r c, writable M' r c <-> writable M r c) /\
    (forall r c, r = c -> b <= r <= nrow M -> nth (r-1) (nz M) false = false -> writable M r c -> val (stored M') r c = (val (stored M) r c + sigma)%Qc) /\
    (forall r c, ~ (r = c /\ b <= r <= nrow M /\ nth (r-1) (nz M) false = false /\ writable M r c) -> val (stored M') r c = val (stored M) r c).
Proof.
  induction n as [|n IH]; intros b M Hwf Hl H1 Hb Hn; cbn [seq endLoop].
  - exists M. split; [reflexivity|]. split; [exact Hwf|]. repeat (split; [reflexivity|]). split; [|split; [|split]].
    + intros k Hk. replace (b - 1 <=? k) with false by lia. reflexivity.
    + intros; tauto.
    + intros r c _ Hr. lia.
    + reflexivity.
  - destruct (nth (b-1) (nz M) false) eqn:E.
    + destruct (IH (S b) M Hwf Hl H1) as (M' & E' & W & S' & R & C & L & N & F & T & V & U); try lia.
      exists M'. split; [exact E'|]. split; [exact W|]. repeat (split; [assumption|]). split; [|split; [|split]].
      * intros k Hk. rewrite F by exact Hk. destruct (Nat.eq_dec k (b-1)) as [->|Hne].
        -- rewrite E. rewrite !orb_true_r. reflexivity.
        -- f_equal. lia.
      * exact T.
      * intros r c Hrc Hr Hz Hw. destruct (Nat.eq_dec r b) as [->|Hne]; [congruence|]. apply V; auto. lia.
      * intros r c H. apply U. intros (A1 & A2 & A3). apply H. split; [exact A1|]. split; [lia|exact A3].
    + destruct (addSigma_eq sigma b M Hwf) as (fl & M1 & E1 & E2); [lia|lia|exact H1|]. rewrite E2.
      destruct (addTo_spec M b b sigma Hwf) as (fl' & M1' & E1' & W1 & S1 & R1 & C1 & L1 & N1 & B1 & V1 & P1 & T1).
      rewrite E1 in E1'. injection E1' as <- <-.
      set (M2 := setNz M1 (upd (b - 1) true (nz M))).
      destruct (IH (S b) M2) as (M' & E' & W & S' & R & C & L & N & F & T & V & U).
      { apply wf_setNz, W1. }
      { cbn [M2 setNz nz nrow]. rewrite upd_length. congruence. }
      { cbn [M2 setNz nz]. rewrite upd_length. exact H1. }
      { lia. } { cbn [M2 setNz nrow]. rewrite R1. lia. }
      exists M'. assert (Hz2 : forall k, nth k (nz M2) false = if k =? b-1 then true else nth k (nz M) false).
      { intros k. cbn [M2 setNz nz]. rewrite upd_nth. replace (b - 1 <? length (nz M)) with true by lia. rewrite andb_true_r. reflexivity. }
      assert (HV2 : forall r c, val (stored M2) r c = val (stored M1) r c) by reflexivity.
      assert (HT2 : forall r c, writable M2 r c <-> writable M r c) by (intros r c; exact (T1 r c)).
      cbn [M2 setNz st nrow ncol slv nz] in S', R, C, L, N, V, U. rewrite upd_length in N.
      split; [exact E'|]. split; [exact W|]. split; [congruence|]. split; [congruence|]. split; [congruence|]. split; [congruence|].
      split; [exact N|]. split; [|split; [|split]].
      * intros k Hk. rewrite F by (cbn; lia). rewrite Hz2. destruct (Nat.eqb_spec k (b-1)) as [->|Hne].
        -- rewrite orb_true_r. replace (b - 1 <=? b - 1) with true by lia. reflexivity.
        -- f_equal. lia.
      * intros r c. rewrite T. apply HT2.
      * intros r c <- Hr Hz Hw. destruct (Nat.eq_dec r b) as [->|Hne].
        -- rewrite U; [|intros (_ & A2 & _); lia]. rewrite HV2, V1. rewrite (proj2 B1 Hw), Nat.eqb_refl. reflexivity.
        -- rewrite V; [|reflexivity|cbn; lia| |apply HT2, Hw].
           ++ rewrite HV2, V1. replace (b =? r) with false by lia. rewrite andb_false_r. ring.
           ++ fold (nz M2). rewrite Hz2. replace (r - 1 =? b - 1) with false by lia. exact Hz.
      * intros r c H. rewrite U.
        -- rewrite HV2, V1. destruct (fl && ((b =? r) && (b =? c))) eqn:Eb; [|ring]. exfalso.
           apply andb_true_iff in Eb. destruct Eb as [Efl Eb]. apply andb_true_iff in Eb. rewrite !Nat.eqb_eq in Eb. destruct Eb as [<- <-].
           apply H. split; [reflexivity|]. split; [lia|]. split; [exact E|]. apply B1, Efl.
        -- intros (A1 & A2 & A3 & A4). apply H. split; [exact A1|]. cbn in A2. split; [lia|].
           fold (nz M2) in A3. rewrite Hz2 in A3. destruct (Nat.eqb_spec (r-1) (b-1)); [lia|]. split; [exact A3|]. apply HT2, A4.
Qed.
