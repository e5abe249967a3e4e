(** Sparse matrices: sums, pre-assembly, assembly, regularisation. *)
From Coq Require Import List Arith ZArith QArith Qcanon Bool Lia Sorted Permutation.
From Verif Require Import Base SAM_model SAM_spec SAM_proofs SAM_proofs2 SAM_proofs3 Sparse_model Sparse_spec Sparse_proofs Sparse_proofs2 Sparse_proofs3.
Import ListNotations.
Local Open Scope nat_scope.

Lemma writable_dec M r c : wf M -> writable M r c \/ ~ writable M r c.
Proof.
  intros Hwf. unfold writable. destruct (inPattern_dec M r c Hwf) as [Hp|Hp].
  - destruct (Nat.le_decidable 1 r), (Nat.le_decidable r (nrow M)), (Nat.le_decidable 1 c), (Nat.le_decidable c (ncol M)); tauto.
  - assert (Hs : st M = EdP \/ st M <> EdP) by (destruct (st M); [left|right|right]; congruence).
    destruct (Nat.le_decidable 1 r), (Nat.le_decidable r (nrow M)), (Nat.le_decidable 1 c), (Nat.le_decidable c (ncol M)); tauto.
Qed.
Lemma addTo_spec M r c v : wf M -> exists b M', addTo M r c v = Some (b, M') /\ wf M' /\
  st M' = st M /\ nrow M' = nrow M /\ ncol M' = ncol M /\ slv M' = slv M /\ nz M' = nz M /\
  (b = true <-> writable M r c) /\
  (forall r' c', val (stored M') r' c' = (val (stored M) r' c' + if b && ((r =? r') && (c =? c')) then v else 0)%Qc) /\
  (forall r' c', inPattern M' r' c' <-> inPattern M r' c' \/ (b = true /\ r' = r /\ c' = c)) /\
  (forall r' c', writable M' r' c' <-> writable M r' c').
Proof.
  intros Hwf. destruct (update_spec M r c (fun x => (x + v)%Qc) Hwf) as (b & M' & Hu & H1 & H2 & H3 & H4 & H5 & H6 & H7 & H8 & H9).
  exists b, M'. split; [exact Hu|]. assert (Hb : b = true <-> writable M r c).
  { rewrite H7. unfold writable. rewrite inRange_iff. tauto. }
  repeat match goal with |- _ /\ _ => split end; auto.
  - intros r' c'. rewrite H8. rewrite (Nat.eqb_sym r r'), (Nat.eqb_sym c c'). destruct (b && _) eqn:E; [|ring].
    apply andb_true_iff in E. destruct E as [_ E]. apply andb_true_iff in E. rewrite !Nat.eqb_eq in E. destruct E as [-> ->]. reflexivity.
  - intros r' c'. unfold writable. rewrite H2, H3, H4. rewrite H9. split.
    + intros (A1 & A2 & [A3|[A3|(A3 & -> & ->)]]); [auto|auto|]. apply Hb in A3. exact A3.
    + intros (A1 & A2 & A3). tauto.
Qed.
Lemma addAll_spec l : forall M, wf M -> exists b M', addAll l M = Some (b, M') /\ wf M' /\
  st M' = st M /\ nrow M' = nrow M /\ ncol M' = ncol M /\ slv M' = slv M /\ nz M' = nz M /\
  (b = true <-> forall r c v, In (r,c,v) l -> writable M r c) /\
  (forall r c, writable M r c -> val (stored M') r c = (val (stored M) r c + val l r c)%Qc) /\
  (forall r c, ~ writable M r c -> val (stored M') r c = val (stored M) r c) /\
  (forall r c, inPattern M' r c <-> inPattern M r c \/ (writable M r c /\ exists v, In (r,c,v) l)) /\
  (forall r c, writable M' r c <-> writable M r c).
Proof.
  induction l as [|[[r c] v] l IH]; intros M Hwf; cbn [addAll].
  - exists true, M. repeat match goal with |- _ /\ _ => split end; auto; try tauto.
    + split; [intros _ r c v []|auto].
    + intros r c _. rewrite val_nil. ring.
    + intros r c. split; [tauto|]. intros [H|(_ & v & [])]; exact H.
  - destruct (addTo_spec M r c v Hwf) as (b & M1 & E1 & W1 & S1 & R1 & C1 & L1 & N1 & B1 & V1 & P1 & T1). rewrite E1.
    destruct (IH M1 W1) as (b2 & M2 & E2 & W2 & S2 & R2 & C2 & L2 & N2 & B2 & V2 & U2 & P2 & T2). rewrite E2.
    exists (b && b2), M2. split; [reflexivity|]. split; [exact W2|].
    split; [congruence|]. split; [congruence|]. split; [congruence|]. split; [congruence|]. split; [congruence|].
    split; [|split; [|split; [|split]]].
    + rewrite andb_true_iff, B1, B2. split.
      * intros [H1 H2] r' c' v' [[= <- <- <-]|Hi]; [exact H1|]. apply T1. eauto.
      * intros H. split; [apply (H r c v); left; auto|]. intros r' c' v' Hi. apply T1. apply (H r' c' v'). right; auto.
    + intros r' c' Hw. rewrite V2 by (apply T1, Hw). rewrite V1, val_cons. cbn [fst snd].
      destruct ((r =? r') && (c =? c')) eqn:E; [|rewrite andb_false_r; ring].
      apply andb_true_iff in E. rewrite !Nat.eqb_eq in E. destruct E as [-> ->]. rewrite (proj2 B1 Hw). cbn [andb]. ring.
    + intros r' c' Hw. rewrite U2 by (rewrite T1; exact Hw). rewrite V1.
      destruct ((r =? r') && (c =? c')) eqn:E; [|rewrite andb_false_r; ring].
      apply andb_true_iff in E. rewrite !Nat.eqb_eq in E. destruct E as [-> ->].
      destruct b; [|cbn [andb]; ring]. exfalso. apply Hw, B1. reflexivity.
    + intros r' c'. rewrite P2, P1, T1. split.
      * intros [[H|(H & -> & ->)]|(H & v' & Hi)]; [auto| |].
        -- right. split; [apply B1, H|]. exists v. left; reflexivity.
        -- right. split; [exact H|]. exists v'. right; exact Hi.
      * intros [H|(H & v' & [[= <- <- <-]|Hi])]; [auto| |].
        -- left. right. split; [apply B1, H|auto].
        -- right. eauto.
    + intros r' c'. rewrite T2. apply T1.
Qed.

(** ** add *)
Lemma addEnts_eq alpha l m : addEnts alpha l m = fold_left addTo' (map (fun e => (fst e, (alpha * snd e)%Qc)) l) m.
Proof. unfold addEnts. revert m; induction l as [|e l IH]; intros m; [reflexivity|]. cbn [fold_left map]. rewrite IH. reflexivity. Qed.
Lemma val_scale alpha l r c : val (map (fun e => (fst e, (alpha * snd e)%Qc)) l) r c = (alpha * val l r c)%Qc.
Proof. induction l as [|e l IH]; [cbn; rewrite Qcmult_0_r; reflexivity|]. cbn [map]. rewrite !val_cons, IH. cbn [fst snd]. destruct (_ && _); ring. Qed.
Lemma val_setNz z M r c : val (stored (setNz M z)) r c = val (stored M) r c. Proof. reflexivity. Qed.
Lemma wf_setNz z M : wf (setNz M z) <-> wf M. Proof. reflexivity. Qed.
Lemma addElem_wf alpha l z M : wf M -> st M = EdP -> Forall (inR (nrow M) (ncol M)) l ->
  let M' := setNz (setElem M (addEnts alpha l (elem M))) z in
  wf M' /\ forall r c, val (stored M') r c = (val (stored M) r c + alpha * val l r c)%Qc.
Proof.
  intros Hwf Hst Hl M'. assert (Hne : st M <> Compr) by congruence. pose proof (proj1 (wf_E M Hne) Hwf) as (Hs & HI & Hf).
  subst M'. rewrite addEnts_eq. destruct (addFold_spec (map (fun e => (fst e, (alpha * snd e)%Qc)) l) (elem M) Hs) as (F1 & F2 & F3). split.
  - apply wf_E; [cbn; congruence|]. unfold wfE. cbn [setNz setElem elem IA nrow ncol]. split; [exact F1|]. split; [exact HI|].
    apply Forall_forall. intros e He. destruct (F3 e He) as (e' & [H1|H1] & H2).
    + rewrite Forall_forall in Hf. specialize (Hf e' H1). unfold inR in *. rewrite <- H2. exact Hf.
    + apply in_map_iff in H1. destruct H1 as (x & <- & H1). rewrite Forall_forall in Hl. specialize (Hl x H1). unfold inR in *. rewrite <- H2. cbn [fst]. exact Hl.
  - intros r c. rewrite !stored_E by (cbn; congruence). cbn [setNz setElem elem]. rewrite F2, val_scale. reflexivity.
Qed.
Lemma listNatEqb_spec a : forall b, listNatEqb a b = true <-> a = b.
Proof.
  induction a as [|x a IH]; intros [|y b]; cbn [listNatEqb]; try (split; congruence).
  rewrite andb_true_iff, Nat.eqb_eq, IH. split; [intros [-> ->]; auto|intros [= -> ->]; auto].
Qed.
Lemma inR_weaken nr nc nr' nc' l : nr <= nr' -> nc <= nc' -> Forall (inR nr nc) l -> Forall (inR nr' nc') l.
Proof. intros H1 H2 Hf. eapply Forall_impl; [|exact Hf]. unfold inR. intros; lia. Qed.
Lemma val_zip n ptr idx a b alpha (f : nat * nat * Qc -> key * Qc) r c :
  length a = length b ->
  (forall k i v w, fst (f (k,i,v)) = fst (f (k,i,w))) -> (forall e, snd (f e) = snd e) ->
  val (map f (segEnts n ptr idx (map (fun p => (fst p + alpha * snd p)%Qc) (combine a b)))) r c =
  (val (map f (segEnts n ptr idx a)) r c + alpha * val (map f (segEnts n ptr idx b)) r c)%Qc.
Proof.
  intros Hl Hf Hs. unfold val. rewrite !qs_map. unfold segEnts.
  assert (Hn : forall i, nth i (map (fun p => (fst p + alpha * snd p)%Qc) (combine a b)) 0%Qc = (nth i a 0 + alpha * nth i b 0)%Qc).
  { intros i. assert (E : forall (a b : list Qc) i, length a = length b -> nth i (map (fun p => (fst p + alpha * snd p)%Qc) (combine a b)) 0%Qc = (nth i a 0 + alpha * nth i b 0)%Qc).
    { clear. induction a as [|x a IH]; intros [|y b] i Hl; try discriminate.
      - destruct i; cbn; ring.
      - destruct i; cbn [combine map nth fst snd]; [reflexivity|]. apply IH. cbn in Hl. lia. }
    apply E, Hl. }
  rewrite !qs_flat_map. rewrite <- qs_scal, <- qs_plus. apply qs_ext. intros k _. rewrite !qs_map.
  rewrite <- qs_scal, <- qs_plus. apply qs_ext. intros i _. rewrite !Hs. cbn [snd]. rewrite Hn.
  rewrite (Hf k (nth i idx 0) (nth i b 0%Qc) (nth i a 0%Qc)).
  rewrite (Hf k (nth i idx 0) (nth i a 0 + alpha * nth i b 0)%Qc (nth i a 0%Qc)).
  destruct (_ && _); ring.
Qed.
Lemma stored_AX M M' : st M = Compr -> st M' = Compr -> slv M = slv M' \/ colFmt (slv M) = colFmt (slv M') -> IA M = IA M' -> JA M = JA M' ->
  A M = A M' -> nrow M = nrow M' -> ncol M = ncol M' -> stored M = stored M'.
Proof.
  intros H1 H2 H3 H4 H5 H6 H7 H8. assert (H3' : colFmt (slv M) = colFmt (slv M')) by (destruct H3; congruence).
  unfold stored. rewrite H1, H2, H3'. unfold colStored, rowStored. rewrite H4, H5, H6, H7, H8. reflexivity.
Qed.

Lemma len_IA M : st M = Compr -> wf M -> length (IA M) = segn M + 1.
Proof. intros H1 H2. apply (wf_seg M H1 H2). Qed.
(** All cases in which [add] succeeds. *)
Lemma add_spec B alpha M : wf M -> wf B -> colFmt (slv M) = colFmt (slv B) -> isZero B = false ->
  nrow B <= nrow M -> ncol B <= ncol M ->
  (st M = EdP \/ (st M = Compr /\ st B = Compr /\ nrow M = nrow B /\ ncol M = ncol B /\ IA M = IA B /\ JA M = JA B)) ->
  exists M', add B alpha M = Some (true, M') /\ wf M' /\ st M' = st M /\ nrow M' = nrow M /\ ncol M' = ncol M /\ slv M' = slv M /\
    nz M' = flagFrom (nz B) (nz M) /\
    forall r c, val (stored M') r c = (val (stored M) r c + alpha * val (stored B) r c)%Qc.
Proof.
  intros Hwf HwB Hfmt Hz Hr Hc Hst. unfold add. rewrite Hz.
  replace ((nrow M <? nrow B) || (ncol M <? ncol B)) with false by lia.
  destruct Hst as [Hst|(Hst & HsB & Hr' & Hc' & HI & HJ)]; rewrite Hst.
  - assert (HlB : Forall (inR (nrow M) (ncol M)) (stored B)) by (eapply inR_weaken; [| |apply stored_inR, HwB]; auto).
    destruct (editable B) eqn:HeB.
    + pose proof (proj1 (editable_iff B) HeB) as HB. rewrite (stored_E B HB) in *.
      destruct (addElem_wf alpha (elem B) (flagFrom (nz B) (nz M)) M Hwf Hst HlB) as [W V].
      eexists. split; [reflexivity|]. repeat match goal with |- _ /\ _ => split end; auto.
    + assert (HB : st B = Compr) by (unfold editable in HeB; destruct (st B); congruence).
      assert (E : (if colFmt (slv M) then colEnts (ncol B) B else rowEnts (nrow B) B) = Some (stored B)).
      { rewrite Hfmt. destruct (colFmt (slv B)) eqn:Ef; [apply colEnts_spec|apply rowEnts_spec]; auto. }
      rewrite E. destruct (addElem_wf alpha (stored B) (flagFrom (nz B) (nz M)) M Hwf Hst HlB) as [W V].
      eexists. split; [reflexivity|]. repeat match goal with |- _ /\ _ => split end; auto.
  - unfold editable. rewrite HsB. destruct (wf_seg M Hst Hwf) as [_ Hseg]. destruct (wf_seg B HsB HwB) as [_ HsegB].
    assert (Hlen : length (A M) = length (A B)).
    { destruct Hseg as (_ & _ & _ & H1 & _). destruct HsegB as (_ & _ & _ & H2 & _). congruence. }
    rewrite Hlen, Nat.eqb_refl, HI, HJ. rewrite (proj2 (listNatEqb_spec (IA B) (IA B)) eq_refl), (proj2 (listNatEqb_spec (JA B) (JA B)) eq_refl).
    cbn [andb]. eexists. split; [reflexivity|]. repeat match goal with |- _ /\ _ => split end; auto.
    + apply wf_setNz. unfold wf in *. cbn [setA st slv nrow ncol IA JA A]. rewrite Hst in *. unfold segOK in *.
      rewrite map_length, combine_length, Hlen, Nat.min_id. rewrite <- Hlen. exact Hwf.
    + intros r c. rewrite val_setNz. rewrite !stored_compr by (cbn; auto). 
      assert (HE : segEnts (segn B) (segptr B) (JA B) (A B) = segEnts (segn M) (segptr M) (JA M) (A B)).
      { unfold segn, segptr. rewrite Hfmt, HI, HJ, Hr', Hc'. reflexivity. }
      assert (HK : forall l, map (segKey B) l = map (segKey M) l) by (intros l; apply map_ext; intros e; unfold segKey; rewrite Hfmt; reflexivity).
      rewrite HE, HK. change (segn (setA M ?x)) with (segn M). change (segptr (setA M ?x)) with (segptr M).
      change (JA (setA M ?x)) with (JA M). change (segKey (setA M ?x)) with (segKey M).
      cbn [setA A]. apply val_zip; [exact Hlen| |].
      * intros k i v w. unfold segKey. destruct (colFmt (slv M)); reflexivity.
      * intros e. unfold segKey. destruct (colFmt (slv M)); reflexivity.
Qed.
