(** Assembly rounds: the matrix after any history of assemblies. *)
From Coq Require Import List Arith ZArith QArith Qcanon Bool Lia Sorted Permutation.
From Verif Require Import Base SAM_model SAM_spec SAM_proofs SAM_proofs2 SAM_proofs3 Sparse_model Sparse_spec Sparse_proofs Sparse_proofs2 Sparse_proofs3 Sparse_proofs4 Sparse_proofs5 Sparse_proofs6.
Import ListNotations.
Local Open Scope nat_scope.

Definition ready (s : tables) (sl : solverT) (M : spm) : Prop :=
  wf M /\ slv M = sl /\ nrow M = neq s /\ ncol M = neq s /\ (forall r c, coupled s r c -> writable M r c) /\
  (length (nz M) = 1 \/ length (nz M) = neq s).

Lemma resize_same M : wf M -> forall M1, M1 = resize (nrow M) (ncol M) false M ->
  wf M1 /\ slv M1 = slv M /\ nrow M1 = nrow M /\ (nrow M = ncol M -> ncol M1 = ncol M) /\ nz M1 = nz M /\
  (forall r c, val (stored M1) r c = 0%Qc) /\ (nrow M = ncol M -> forall r c, writable M1 r c <-> writable M r c).
Proof.
  intros W M1 E1. destruct (resize_spec (nrow M) (ncol M) false M W) as (W1 & R & C & V & K). rewrite <- E1 in *.
  assert (E : nrow M = ncol M -> (if ncol M =? 0 then nrow M else ncol M) = ncol M) by (destruct (ncol M =? 0) eqn:E0; intros; lia).
  split; [exact W1|]. split.
  { rewrite E1. unfold resize. destruct (_ && _ && _); reflexivity. }
  split; [exact R|]. split; [intros H; rewrite C; auto|]. split.
  { rewrite E1. unfold resize. destruct (_ && _ && _); reflexivity. }
  split; [exact V|]. intros H r c. destruct (K eq_refl (E H) eq_refl) as [S P]. unfold writable. rewrite S, R, C, E by exact H.
  rewrite !inPattern_keys, P. reflexivity.
Qed.

Lemma endAssembly_any sg M : wf M -> length (nz M) = 1 \/ length (nz M) = nrow M ->
  exists M', endAssembly sg M = Some (true, M') /\ wf M' /\ st M' = st M /\ nrow M' = nrow M /\ ncol M' = ncol M /\ slv M' = slv M /\
   length (nz M') = length (nz M) /\
   (forall r c, writable M' r c <-> writable M r c) /\
   (forall r c, val (stored M') r c = (val (stored M) r c + 0)%Qc \/ (r = c /\ nth (r-1) (nz M) false = false /\ 1 <= r <= nrow M /\ writable M r c)) /\
   (1 < nrow M -> existsb (fun b => b) (nz M) = true -> length (nz M) = nrow M ->
     forall r, 1 <= r <= nrow M -> nth (r-1) (nz M) false = false -> writable M r r -> val (stored M') r r = (val (stored M) r r + sg)%Qc).
Proof.
  intros W L. unfold endAssembly. destruct ((1 <? length (nz M)) && negb (isZero M)) eqn:E.
  - apply andb_true_iff in E. destruct E as [E1 E2]. assert (Hl : length (nz M) = nrow M) by lia.
    rewrite Hl. destruct (endLoop_spec sg (nrow M) 1 M W Hl) as (M' & E & W' & S' & R & C & Lv & Ln & _ & Wr & V & U); try lia.
    exists M'. split; [exact E|]. split; [exact W'|]. split; [exact S'|]. split; [exact R|]. split; [exact C|]. split; [exact Lv|].
    split; [lia|]. split; [exact Wr|]. split.
    + intros r c. destruct (Nat.eq_dec r c) as [->|N]; [|left; rewrite U by (intros (Q & _); contradiction); ring].
      destruct (writable_dec M c c W) as [Hw|Hw]; [|left; rewrite U by (intros (_&_&_&?); auto); ring].
      destruct (nth (c-1) (nz M) false) eqn:En; [left; rewrite U by (intros (_&_&?&_); congruence); ring|].
      right. pose proof Hw as (Q1 & Q2 & _). split; [reflexivity|]. split; [reflexivity|]. split; [lia|exact Hw].
    + intros _ _ _ r Hr Hn Hw. apply V; auto.
  - exists M. split; [reflexivity|]. do 6 (split; [auto|]). split; [reflexivity|]. split; [left; ring|].
    intros H1 H2 H3. exfalso. unfold isZero in E. rewrite H2, H3 in E. replace (1 <? nrow M) with true in E by lia. replace (0 <? nrow M) with true in E by lia. discriminate E.
Qed.

Lemma entry_none s K meen r c : ~ eqInElm s meen (Z.of_nat r) -> entry (Z.of_nat r) (Z.of_nat c) (fst (assemSparse s K meen)) = 0%Qc.
Proof.
  intros H. unfold entry. apply qs_zero. intros [[x y] v] Hi. cbn [fst snd]. destruct ((x =? Z.of_nat r)%Z && (y =? Z.of_nat c)%Z) eqn:E; [|reflexivity].
  exfalso. apply H. apply assem_in_couplings in Hi. apply elmCouplings_iff in Hi. destruct Hi as (i & j & Hi & _ & Hr & _).
  apply uniqueEqns_iff in Hr. destruct Hr as (m & [<-|[]] & Hm). replace (Z.of_nat r) with x by lia. unfold me in *.
  exists (nth i meen 0%Z). split; [apply nth_In; exact Hi|exact Hm].
Qed.
Lemma elmSum_entry s els r c : qs (fun p => entry (Z.of_nat r) (Z.of_nat c) (fst (assemSparse s (fst p) (snd p)))) els = elmSum s els r c.
Proof. apply qs_ext. intros p _. apply assemSparse_entry. Qed.
Lemma elmSum_none s els r c : ~ contributes s els r -> elmSum s els r c = 0%Qc.
Proof.
  intros H. rewrite <- elmSum_entry. apply qs_zero. intros [K meen] Hi. apply entry_none. intros He. apply H. exists K, meen. auto.
Qed.
Lemma elmSum_uncoupled s els r c : fromModel s els -> ~ coupled s r c -> elmSum s els r c = 0%Qc.
Proof.
  intros F H. rewrite <- elmSum_entry. apply qs_zero. intros [K meen] Hi. destruct (F K meen Hi) as (iel & G). cbn [fst snd].
  unfold entry. apply qs_zero. intros [[x y] v] Hj. cbn [fst snd]. destruct ((x =? Z.of_nat r)%Z && (y =? Z.of_nat c)%Z) eqn:E; [|reflexivity].
  exfalso. apply H. unfold coupled. replace (Z.of_nat r) with x by lia. replace (Z.of_nat c) with y by lia. eapply couplings_cover; eauto.
Qed.
Lemma coupled_dec s r c : coupled s r c \/ ~ coupled s r c.
Proof. unfold coupled. destruct (in_dec (fun a b : Z * Z => ltac:(decide equality; apply Z.eq_dec)) (Z.of_nat r, Z.of_nat c) (dofCouplings s)); auto. Qed.

Lemma contributes_coupled s els r : fromModel s els -> contributes s els r -> coupled s r r.
Proof.
  intros F (K & meen & Hi & He). destruct (F K meen Hi) as (iel & G). unfold coupled. apply couplings_exact. exists iel, meen. auto.
Qed.

Lemma round_spec s sl fl els sg M : consistent s -> ready s sl M -> fromModel s els ->
  exists M', round s fl els sg M = Some (true, M') /\ ready s sl M' /\ st M' = st M /\
    (forall r c, writable M' r c <-> writable M r c) /\
    (fl = true -> forall r c, r <> c \/ contributes s els r -> val (stored M') r c = elmSum s els r c) /\
    (fl = true -> 1 < neq s -> (exists r, contributes s els r) -> forall r, ~ contributes s els r -> writable M r r -> val (stored M') r r = sg) /\
    (fl = true -> forall r, ~ contributes s els r -> ~ writable M r r -> val (stored M') r r = 0%Qc) /\
    (length (nz M) = 1 -> fl = false -> forall r c, val (stored M') r c = elmSum s els r c).
Proof.
  intros C (W & Sl & R & Cc & Cov & Ln) F. unfold round.
  assert (Sq : nrow M = ncol M) by congruence.
  destruct (resize_same M W _ eq_refl) as (W1 & Sl1 & R1 & C1 & N1 & V1 & Wr1). specialize (C1 Sq). specialize (Wr1 Sq).
  set (M1 := resize (nrow M) (ncol M) false M) in *.
  assert (Est : st M1 = st M). { unfold M1, resize. rewrite Nat.eqb_refl. replace (ncol M =? 0) with (ncol M =? 0) by reflexivity.
    destruct (ncol M =? 0) eqn:E0; [rewrite Sq, Nat.eqb_refl|rewrite Nat.eqb_refl]; cbn; destruct M; reflexivity. }
  set (M2 := if fl then initFlags M1 else M1).
  assert (H2 : wf M2 /\ st M2 = st M /\ slv M2 = sl /\ nrow M2 = neq s /\ ncol M2 = neq s /\ (forall r c, val (stored M2) r c = 0%Qc) /\
     (forall r c, writable M2 r c <-> writable M r c) /\ (length (nz M2) = neq s \/ length (nz M2) = 1) /\
     (fl = true -> nz M2 = repeat false (neq s)) /\ (fl = false -> nz M2 = nz M)).
  { unfold M2. destruct fl; cbn [initFlags setNz].
    - split; [apply wf_setNz; exact W1|]. split; [exact Est|]. split; [cbn; congruence|]. split; [cbn; congruence|]. split; [cbn; congruence|].
      split; [exact V1|]. split; [exact Wr1|]. split; [left; cbn; rewrite repeat_length; congruence|]. split; [intros _; cbn; congruence|discriminate].
    - split; [exact W1|]. split; [exact Est|]. split; [congruence|]. split; [congruence|]. split; [congruence|]. split; [exact V1|]. split; [exact Wr1|].
      split; [rewrite N1; tauto|]. split; [discriminate|intros _; exact N1]. }
  clearbody M2. destruct H2 as (W2 & S2 & Sl2 & R2 & C2 & V2 & Wr2 & L2 & Nz2 & Nzf).
  assert (EOK : elmsOK s els). { intros K meen Hi. destruct (F K meen Hi) as (iel & G). eapply getElmEqns_range; eauto. }
  destruct (assembleElms_spec s els M2 W2 C EOK L2 R2 C2) as (M3 & E3 & W3 & S3 & R3 & C3 & Sl3 & Ln3 & N31 & N3 & Wr3 & V3 & U3).
  rewrite E3.
  assert (Val3 : forall r c, val (stored M3) r c = elmSum s els r c).
  { intros r c. destruct (writable_dec M2 r c W2) as [Hw|Hw].
    - rewrite V3 by exact Hw. rewrite V2, elmSum_entry. ring.
    - rewrite U3 by exact Hw. rewrite V2. symmetry. apply elmSum_uncoupled; [exact F|]. intros Hc. apply Hw, Wr2, Cov, Hc. }
  destruct (endAssembly_any sg M3 W3) as (M4 & E4 & W4 & S4 & R4 & C4 & Sl4 & Ln4 & Wr4 & V4 & U4).
  { rewrite Ln3, R3, R2. tauto. }
  assert (Wr : forall r c, writable M4 r c <-> writable M r c) by (intros; rewrite Wr4, Wr3, Wr2; reflexivity).
  assert (Fl : fl = true -> neq s <> 1 -> forall k, nth k (nz M3) false = true <-> contributes s els (S k)).
  { intros Ht Hn k. rewrite N3 by (rewrite Nz2, repeat_length by exact Ht; exact Hn). rewrite (Nz2 Ht).
    assert (E : nth k (repeat false (neq s)) false = false) by (destruct (nth_in_or_default k (repeat false (neq s)) false) as [Hi|Hi]; [apply repeat_spec in Hi|]; auto).
    rewrite E. split; [intros [?|?]; [discriminate|assumption]|intros; right; assumption]. }
  exists M4. split; [exact E4|]. split.
  { split; [exact W4|]. split; [congruence|]. split; [congruence|]. split; [congruence|]. split; [intros r c Hc; apply Wr, Cov, Hc|].
    rewrite Ln4, Ln3. tauto. }
  split; [congruence|]. split; [exact Wr|]. split; [|split; [|split]].
  - intros Ht r c Hrc. destruct (V4 r c) as [E|(E1 & E2 & E3' & E4')]; [rewrite E, Val3; ring|].
    destruct Hrc as [Hrc|Hrc]; [lia|]. assert (c = r) by auto. subst c.
    destruct (Nat.eq_dec (neq s) 1) as [N1'|N1'].
    + assert (L1 : length (nz M3) = 1) by (rewrite Ln3, Nz2, repeat_length by exact Ht; exact N1').
      unfold endAssembly in E4. rewrite L1 in E4. cbn in E4. injection E4 as <-. apply Val3.
    + exfalso. pose proof (proj2 (Fl Ht N1' (r-1))) as Q. replace (S (r-1)) with r in Q by lia. rewrite Q in E2 by exact Hrc. discriminate.
  - intros Ht Hn (r0 & H0) r Hc Hw. assert (Hr : 1 <= r <= nrow M3) by (destruct Hw; lia).
    rewrite U4; auto; try lia.
    + rewrite Val3, elmSum_none by exact Hc. ring.
    + apply existsb_exists. exists true. split; [|reflexivity]. pose proof (contributes_coupled s els r0 F H0) as Hcc. apply Cov in Hcc. destruct Hcc as (B1 & _).
      assert (Q : nth (r0-1) (nz M3) false = true) by (apply Fl; [exact Ht|lia|replace (S (r0-1)) with r0 by lia; exact H0]).
      rewrite <- Q. apply nth_In. rewrite Ln3, Nz2, repeat_length by exact Ht. lia.
    + rewrite Ln3, Nz2, repeat_length by exact Ht. lia.
    + destruct (nth (r-1) (nz M3) false) eqn:Q; [|reflexivity]. exfalso. apply Hc. apply Fl in Q; [|exact Ht|lia]. replace (S (r-1)) with r in Q by lia. exact Q.
    + apply Wr3, Wr2, Hw.
  - intros Ht r Hc Hw. destruct (V4 r r) as [E|(_ & _ & _ & E)].
    + rewrite E, Val3, elmSum_none by exact Hc. ring.
    + exfalso. apply Hw, Wr2, Wr3, E.
  - intros L1 Hf r c. assert (L3 : length (nz M3) = 1) by (rewrite Ln3, Nzf by exact Hf; exact L1).
    unfold endAssembly in E4. rewrite L3 in E4. cbn in E4. injection E4 as <-. apply Val3.
Qed.

Lemma assembled_ready s sl mode : consistent s -> mode <> Some false \/ colFmt sl = true ->
  forall M, assembled s sl mode M -> ready s sl M.
Proof.
  intros C Hm. induction 1 as [m n M1 H|fl els sg M b M' H IH F E|M M1 H IH E].
  - destruct (initAssembly_spec s mode (create m n sl) (create_wf m n sl) C) as (M' & E & W & R & Cc & Sl & N & V & Cov & _ & _).
    rewrite H in E. injection E as <-. split; [exact W|]. split; [exact Sl|]. split; [exact R|]. split; [exact Cc|]. split; [|left; rewrite N; reflexivity].
    apply Cov; [left; reflexivity|exact Hm].
  - destruct (round_spec s sl fl els sg M C IH F) as (M1 & E1 & Rd & _). rewrite E in E1. injection E1 as _ <-. exact Rd.
  - destruct IH as (W & Sl & R & Cc & Cov & Ln).
    destruct (initAssembly_spec s mode M W C) as (M' & E' & W' & R' & C' & Sl' & N' & V' & Cov1 & _ & Pat).
    rewrite E in E'. injection E' as <-. split; [exact W'|]. split; [congruence|]. split; [exact R'|]. split; [exact C'|]. split; [|rewrite N'; exact Ln].
    destruct (st M) eqn:Es.
    + apply Cov1; [left; reflexivity|]. rewrite Sl. exact Hm.
    + intros r c Hc. destruct (Cov r c Hc) as (B1 & B2 & [B3|B3]); [congruence|]. split; [lia|]. split; [lia|]. right. apply Pat; auto; discriminate.
    + intros r c Hc. destruct (Cov r c Hc) as (B1 & B2 & [B3|B3]); [congruence|]. split; [lia|]. split; [lia|]. right. apply Pat; auto; discriminate.
Qed.
(** re-initialising zeroes the matrix; nothing of the earlier history is left *)
Lemma assembled_round s sl mode fl els sg M : consistent s -> mode <> Some false \/ colFmt sl = true ->
  assembled s sl mode M -> fromModel s els -> exists M', round s fl els sg M = Some (true, M') /\ ready s sl M'.
Proof.
  intros C Hm A F. pose proof (assembled_ready s sl mode C Hm M A) as Rd.
  destruct (round_spec s sl fl els sg M C Rd F) as (M1 & E1 & R1 & _). eauto.
Qed.
