(** C21-C24, C29, C33, C34: property theorems about sparse matrices. *)
From Coq Require Import List Arith ZArith QArith Qcanon Bool Lia Sorted Permutation.
From Verif Require Import Base SAM_model SAM_spec SAM_proofs SAM_proofs3 Sparse_model Sparse_spec Sparse_proofs Sparse_proofs2
  Sparse_proofs3 Sparse_proofs4 Sparse_proofs5 Sparse_proofs6 Sparse_proofs7 Sparse_proofs8.
Import ListNotations.
Local Open Scope nat_scope.

Definition qq (a : Z) : Qc := Q2Qc (inject_Z a).
(** a matrix built by a sequence of assignments *)
Definition build (m n : nat) (s : solverT) (l : list (nat * nat * Qc)) : spm :=
  match addAll l (create m n s) with Some (_, M) => M | None => create m n s end.
Lemma addAll_reachable l : forall M b M', reachable M -> addAll l M = Some (b, M') -> reachable M'.
Proof.
  induction l as [|[[r c] v] l IH]; intros M b M' H E; cbn in E; [injection E as _ <-; exact H|].
  destruct (addTo M r c v) as [[b1 M1]|] eqn:E1; [|discriminate]. destruct (addAll l M1) as [[b2 M2]|] eqn:E2; [|discriminate].
  injection E as _ <-. eapply IH; [|exact E2]. eapply R_update; [exact H|exact E1].
Qed.
Lemma build_reachable m n s l : reachable (build m n s l).
Proof. unfold build. destruct (addAll l (create m n s)) as [[b M]|] eqn:E; [eapply addAll_reachable; [|exact E]|]; constructor. Qed.

(** a 3x4 matrix with an empty second row, first column and the diagonal not first *)
Definition exE : list (nat * nat * Qc) := [((1,3), qq 7); ((3,2), qq 4); ((3,3), qq 5); ((1,2), qq 1); ((3,4), qq 9)].
Definition exM (s : solverT) : spm := build 3 4 s exE.

(** ** C21 *)
(** every state a program can reach is legal, and reading never goes outside an array *)
Theorem C21_reachable_legal : forall M, reachable M -> wf M.
Proof. exact reachable_wf. Qed.
Print Assumptions C21_reachable_legal.
Theorem C21_read : forall M r c, reachable M -> get M r c = Some (val (stored M) r c).
Proof. exact (fun M r c H => get_val M r c (reachable_wf M H)). Qed.
Print Assumptions C21_read.
Theorem C21_compress : forall M, reachable M ->
  exists M', compressPattern M = Some M' /\ nrow M' = nrow M /\ ncol M' = ncol M /\
    (slv M <> SNone -> editable M' = false) /\ forall r c, get M' r c = get M r c.
Proof.
  intros M H. pose proof (reachable_wf M H) as W. destruct (compressPattern_spec M W) as (M' & E & W' & R & C & S & N & P & T).
  exists M'. split; [exact E|]. split; [exact R|]. split; [exact C|]. split; [intros Hs; unfold editable; rewrite T by exact Hs; reflexivity|].
  apply get_eq; auto. intros r c. unfold val. apply qs_perm. exact P.
Qed.
Print Assumptions C21_compress.
(** the transposing variant of the row compression *)
Theorem C21_compress_transposed : forall M, reachable M -> editable M = true -> colFmt (slv M) = false ->
  exists M', optimiseRows true M = Some (true, M') /\ nrow M' = ncol M /\ ncol M' = nrow M /\
    forall r c, get M' r c = get M c r.
Proof.
  intros M H He Hc. pose proof (reachable_wf M H) as W. destruct (optimiseRows_spec true M W He Hc) as (M' & E & W' & T & R & C & S & N & V & _).
  exists M'. split; [exact E|]. split; [exact R|]. split; [exact C|]. intros r c. rewrite !get_val by auto. rewrite V. reflexivity.
Qed.
Print Assumptions C21_compress_transposed.
(** a write reaches exactly the addressed entry, in every storage state; it is lost iff the
    position is outside the matrix or outside a locked pattern *)
Theorem C21_write : forall M r c v, reachable M ->
  exists b M', addTo M r c v = Some (b, M') /\ (b = true <-> writable M r c) /\
    forall r' c', get M' r' c' = if b && ((r =? r') && (c =? c')) then Some (val (stored M) r c + v)%Qc else get M r' c'.
Proof.
  intros M r c v H. pose proof (reachable_wf M H) as W. destruct (addTo_spec M r c v W) as (b & M' & E & W' & _ & _ & _ & _ & _ & B & V & _).
  exists b, M'. split; [exact E|]. split; [exact B|]. intros r' c'. rewrite !get_val, V by auto.
  destruct (b && ((r =? r') && (c =? c'))) eqn:Q.
  - apply andb_true_iff in Q. destruct Q as [_ Q]. apply andb_true_iff in Q. rewrite !Nat.eqb_eq in Q. destruct Q as [-> ->]. reflexivity.
  - f_equal. ring.
Qed.
Print Assumptions C21_write.
Example C21_case : forall s, reachable (exM s) /\ get (exM s) 3 3 = Some (qq 5) /\
  exists M', compressPattern (exM s) = Some M' /\ get M' 3 3 = Some (qq 5) /\ get M' 2 2 = Some 0%Qc /\
    (slv (exM s) = SAMG -> JA M' = [2;3;3;2;4] /\ IA M' = [1;3;3;6]) /\ (slv (exM s) = SuperLU -> IA M' = [0;0;2;4;5]).
Proof.
  intros s. split; [apply build_reachable|].
  destruct s; (split; [vm_compute; reflexivity|]; eexists; split; [vm_compute; reflexivity|]; vm_compute; repeat split; intros; try discriminate; auto).
Qed.

(** ** C22 *)
Theorem C22_product_partial : forall M x, reachable M -> (editable M = false -> slv M <> UMFPack) -> ncol M <= length x ->
  exists y, multiply M x = Some (true, y) /\ length y = nrow M /\
    forall r, 1 <= r <= nrow M ->
      nth (r-1) y 0%Qc = qs (fun c => val (stored M) r c * nth (c-1) x 0)%Qc (seq 1 (ncol M)).
Proof.
  intros M x H Hu. apply multiply_spec; [exact (reachable_wf M H)|]. intros E. apply Hu. unfold editable. rewrite E. reflexivity.
Qed.
Print Assumptions C22_product_partial.
Theorem C22_short_vector : forall M x, length x < ncol M -> exists y, multiply M x = Some (false, y).
Proof. intros M x H. unfold multiply. apply Nat.ltb_lt in H. rewrite H. eauto. Qed.
Print Assumptions C22_short_vector.
(** the compressed UMFPACK format (columns) is read as compressed rows: undefined *)
Theorem C22_product_umfpack_refuted : exists M M' x, reachable M /\ slv M = UMFPack /\ compressPattern M = Some M' /\
  ncol M' <= length x /\ multiply M x <> None /\ multiply M' x = None.
Proof.
  exists (exM UMFPack). eexists. exists [qq 1; qq 1; qq 1; qq 1]. split; [apply build_reachable|]. split; [reflexivity|].
  split; [vm_compute; reflexivity|]. vm_compute. repeat split; try lia; discriminate.
Qed.
Print Assumptions C22_product_umfpack_refuted.
Example C22_case : multiply (exM SuperLU) [qq 1; qq 2; qq 3; qq 4] = Some (true, [qq 23; qq 0; qq 59]) /\
  exists M', compressPattern (exM SuperLU) = Some M' /\ multiply M' [qq 1; qq 2; qq 3; qq 4] = Some (true, [qq 23; qq 0; qq 59]).
Proof. split; [vm_compute; reflexivity|]. eexists. split; vm_compute; reflexivity. Qed.

(** ** C23 *)
Theorem C23_dump_partial : forall M, reachable M ->
  editable M = true \/ (colFmt (slv M) = true /\ exists r, inPattern M r 1) -> dump M = Some (stored M).
Proof.
  intros M H Hd. destruct (editable M) eqn:E.
  - apply dump_editable. apply editable_iff. exact E.
  - destruct Hd as [Hd|[Hc Hp]]; [discriminate|]. apply dump_cols; auto; [exact (reachable_wf M H)|].
    unfold editable in E. destruct (st M); try discriminate; reflexivity.
Qed.
Print Assumptions C23_dump_partial.
(** compressed rows: the value printed is taken from the wrong place *)
Theorem C23_dump_rows_refuted : exists M M' l, reachable M /\ slv M = SAMG /\ compressPattern M = Some M' /\ dump M' = Some l /\
  exists r c v, In ((r,c),v) l /\ get M r c <> Some v.
Proof.
  exists (build 2 2 SAMG [((1,1),qq 5); ((1,2),qq 6); ((2,1),qq 8); ((2,2),qq 7)]). eexists. eexists. split; [apply build_reachable|]. split; [reflexivity|].
  split; [vm_compute; reflexivity|]. split; [vm_compute; reflexivity|]. exists 1, 2, (qq 5). split; [right; left; vm_compute; reflexivity|].
  vm_compute. intros Q. discriminate Q.
Qed.
Print Assumptions C23_dump_rows_refuted.
(** compressed columns: the first stored value is always listed in column 1 *)
Theorem C23_dump_empty_column_refuted : exists M M' l, reachable M /\ slv M = SuperLU /\ compressPattern M = Some M' /\ dump M' = Some l /\
  exists r c v, In ((r,c),v) l /\ get M r c <> Some v.
Proof.
  exists (exM SuperLU). eexists. eexists. split; [apply build_reachable|]. split; [reflexivity|].
  split; [vm_compute; reflexivity|]. split; [vm_compute; reflexivity|]. exists 1, 1, (qq 1). split; [left; vm_compute; reflexivity|].
  vm_compute. intros Q. discriminate Q.
Qed.
Print Assumptions C23_dump_empty_column_refuted.
(** a compressed matrix without entries: front() of an empty array *)
Theorem C23_dump_empty_refuted : exists M M', reachable M /\ compressPattern M = Some M' /\ dump M' = None.
Proof. exists (create 2 2 SuperLU). eexists. split; [constructor|]. split; vm_compute; reflexivity. Qed.
Print Assumptions C23_dump_empty_refuted.
Example C23_case : exists M', compressPattern (build 2 2 SuperLU [((1,1),qq 5); ((2,2),qq 7)]) = Some M' /\
  dump M' = Some [((1,1),qq 5); ((2,2),qq 7)] /\ inPattern M' 1 1.
Proof. eexists. split; [vm_compute; reflexivity|]. split; [vm_compute; reflexivity|]. exists (qq 5). vm_compute. auto. Qed.

(** ** C24 *)
Theorem C24_augment : forall M B r0 c0, reachable M -> reachable B -> st M = EdP -> editable B = true ->
  exists M', augment B r0 c0 M = (true, M') /\
    nrow M' = Nat.max (nrow M) (Nat.max (r0 + nrow B) (c0 + ncol B)) /\
    ncol M' = Nat.max (ncol M) (Nat.max (r0 + nrow B) (c0 + ncol B)) /\
    forall r c, get M' r c =
      Some (val (stored M) r c + val (stored B) (r - r0)%nat (c - c0)%nat + val (stored B) (c - r0)%nat (r - c0)%nat)%Qc.
Proof.
  intros M B r0 c0 HM HB Hs He. apply editable_iff in He.
  destruct (augment_spec B r0 c0 M (reachable_wf M HM) (reachable_wf B HB) Hs He) as (M' & E & W & S & R & C & V).
  exists M'. split; [exact E|]. split; [exact R|]. split; [exact C|]. intros r c. rewrite get_val, V by exact W. reflexivity.
Qed.
Print Assumptions C24_augment.
(** nothing happens if one of the matrices is not editable *)
Theorem C24_augment_locked : forall M B r0 c0, st M <> EdP \/ editable B = false -> augment B r0 c0 M = (false, M).
Proof. intros M B r0 c0 H. unfold augment. destruct (st M); try reflexivity. destruct H as [H| ->]; [congruence|reflexivity]. Qed.
Print Assumptions C24_augment_locked.
Theorem C24_truncate : forall M thr, reachable M -> editable M = true -> (0 <= thr)%Qc ->
  exists M' dm, truncate thr M = (true, M') /\ nrow M' = nrow M /\ ncol M' = ncol M /\
    (forall i, (absQ (val (stored M) i i) <= dm)%Qc) /\ (dm = 0%Qc \/ exists i, dm = absQ (val (stored M) i i)) /\
    forall r c, get M' r c = if Qclt_le_dec (absQ (val (stored M) r c)) (dm * thr) then Some 0%Qc else get M r c.
Proof.
  intros M thr H He Ht. pose proof (reachable_wf M H) as W. apply editable_iff in He.
  destruct (truncate_spec thr M W He Ht) as (M' & dm & E & W' & S & R & C & D1 & D2 & V). exists M', dm.
  split; [exact E|]. split; [exact R|]. split; [exact C|]. split; [exact D1|]. split; [exact D2|]. intros r c. rewrite !get_val, V by auto.
  destruct (Qclt_le_dec _ _) as [L|L].
  - apply qlt_spec in L. rewrite L. reflexivity.
  - destruct (qlt _ _) eqn:Q; [|reflexivity]. apply qlt_spec in Q. exfalso. exact (Qclt_not_le _ _ Q L).
Qed.
Print Assumptions C24_truncate.
Theorem C24_redim : forall M r c, reachable M -> st M = EdP ->
  exists M', redim r c M = (true, M') /\ nrow M' = r /\ ncol M' = (if c =? 0 then r else c) /\
    forall i j, get M' i j = if (i <=? nrow M') && (j <=? ncol M') then get M i j else Some 0%Qc.
Proof.
  intros M r c H Hs. pose proof (reachable_wf M H) as W. destruct (redim_spec r c M W Hs) as (M' & E & W' & _ & R & C & V).
  exists M'. split; [exact E|]. split; [exact R|]. split; [exact C|]. intros i j. rewrite !get_val, V by auto. destruct (_ && _); reflexivity.
Qed.
Print Assumptions C24_redim.
Theorem C24_resize : forall M r c f, reachable M ->
  nrow (resize r c f M) = r /\ ncol (resize r c f M) = (if c =? 0 then r else c) /\
  forall i j, get (resize r c f M) i j = Some 0%Qc.
Proof.
  intros M r c f H. pose proof (reachable_wf M H) as W. destruct (resize_spec r c f M W) as (W' & R & C & V & _).
  split; [exact R|]. split; [exact C|]. intros i j. rewrite get_val, V by exact W'. reflexivity.
Qed.
Print Assumptions C24_resize.
Theorem C24_scale : forall M a r c, reachable M -> get (mult a M) r c = Some (a * val (stored M) r c)%Qc.
Proof. intros M a r c H. destruct (mult_spec a M (reachable_wf M H)) as [W V]. rewrite get_val, V by exact W. reflexivity. Qed.
Print Assumptions C24_scale.
(** adding alpha*B, when B carries flagged equations and has the same storage format *)
Theorem C34_add_partial : forall M B a, reachable M -> reachable B -> colFmt (slv M) = colFmt (slv B) -> isZero B = false ->
  nrow B <= nrow M -> ncol B <= ncol M ->
  (st M = EdP \/ (st M = Compr /\ st B = Compr /\ nrow M = nrow B /\ ncol M = ncol B /\ IA M = IA B /\ JA M = JA B)) ->
  exists M', add B a M = Some (true, M') /\ nrow M' = nrow M /\ ncol M' = ncol M /\
    forall r c, get M' r c = Some (val (stored M) r c + a * val (stored B) r c)%Qc.
Proof.
  intros M B a HM HB Hf Hz H1 H2 Hs.
  destruct (add_spec B a M (reachable_wf M HM) (reachable_wf B HB) Hf Hz H1 H2 Hs) as (M' & E & W & _ & R & C & _ & _ & V).
  exists M'. split; [exact E|]. split; [exact R|]. split; [exact C|]. intros r c. rewrite get_val, V by exact W. reflexivity.
Qed.
Print Assumptions C34_add_partial.
(** entries written through operator() do not set the flags: adding such a matrix does nothing *)
Theorem C34_add_unflagged_refuted : exists M B M', reachable M /\ reachable B /\ add B 1 M = Some (true, M') /\
  get B 1 1 = Some (qq 3) /\ get M 1 1 = Some 0%Qc /\ get M' 1 1 = Some 0%Qc.
Proof.
  exists (create 1 1 SuperLU), (build 1 1 SuperLU [((1,1), qq 3)]). eexists. split; [constructor|]. split; [apply build_reachable|].
  repeat split; vm_compute; reflexivity.
Qed.
Print Assumptions C34_add_unflagged_refuted.
(** the format of B is taken from M's solver: undefined for a compressed B of another format *)
Theorem C34_add_format_refuted : exists M B, reachable M /\ reachable B /\ isZero B = false /\ nrow B = nrow M /\ ncol B = ncol M /\
  st M = EdP /\ add B 1 M = None.
Proof.
  pose (B1 := match addSigma (qq 2) 0 (create 2 2 SuperLU) with Some (_, B) => B | None => create 0 0 SNone end).
  pose (B2 := match compressPattern B1 with Some B => B | None => create 0 0 SNone end).
  exists (create 2 2 SAMG), B2. split; [constructor|]. split.
  - apply (R_compress B1); [|reflexivity]. eapply (R_sigma (qq 2) 0%Z (create 2 2 SuperLU)); [constructor|vm_compute; reflexivity].
  - repeat split; vm_compute; reflexivity.
Qed.
Print Assumptions C34_add_format_refuted.
Theorem C24_split : forall M meqn2, reachable M -> editable M = true -> elem M <> [] -> nrow M = ncol M ->
  increasing (nrow M) meqn2 -> 1 <= length meqn2 < nrow M ->
  exists A11 A21 A12 A22, split M meqn2 = Some (Some (A11, A21, A12, A22)) /\
    let n2 := length meqn2 in let n1 := nrow M - n2 in
    (nrow A11 = n1 /\ ncol A11 = n1) /\ (nrow A21 = n2 /\ ncol A21 = n1) /\ (nrow A12 = n1 /\ ncol A12 = n2) /\ (nrow A22 = n2 /\ ncol A22 = n2) /\
    forall r c, 1 <= r <= nrow M -> 1 <= c <= nrow M ->
      let r2 := existsb (Z.eqb (Z.of_nat r)) meqn2 in let c2 := existsb (Z.eqb (Z.of_nat c)) meqn2 in
      get (if r2 then (if c2 then A22 else A21) else (if c2 then A12 else A11))
          (if r2 then pos2 meqn2 r else pos1 meqn2 r) (if c2 then pos2 meqn2 c else pos1 meqn2 c) = get M r c.
Proof.
  intros M l H He Hn Hs Hi Hl. apply editable_iff in He. pose proof (reachable_wf M H) as W.
  destruct (split_spec M l W He Hn Hs Hi Hl) as (S0 & S1 & S2 & S3 & E & D0 & D1 & D2 & D3 & _ & (W0 & W1 & W2 & W3) & V).
  exists S0, S1, S2, S3. split; [exact E|]. split; [exact D0|]. split; [exact D1|]. split; [exact D2|]. split; [exact D3|].
  intros r c Hr Hc. specialize (V r c Hr Hc). unfold idx, isB2 in V. cbv zeta. rewrite (get_val M) by exact W.
  rewrite get_val; [rewrite V; reflexivity|]. destruct (existsb _ _), (existsb _ _); assumption.
Qed.
Print Assumptions C24_split.
Example C24_split_case : exists M, reachable M /\ editable M = true /\ elem M <> [] /\ nrow M = 3 /\ ncol M = 3 /\ increasing 3 [2%Z] /\
  match split M [2%Z] with Some (Some (A11, A21, A12, A22)) =>
    get A11 2 1 = Some (qq 4) /\ get A12 1 1 = Some (qq 3) /\ get A22 1 1 = Some (qq 5) | _ => False end.
Proof.
  exists (build 3 3 SuperLU [((3,1),qq 4); ((1,2),qq 3); ((2,2),qq 5)]). split; [apply build_reachable|]. split; [reflexivity|].
  split; [vm_compute; discriminate|]. split; [reflexivity|]. split; [reflexivity|]. split.
  - split; repeat constructor; lia.
  - vm_compute. auto.
Qed.
(** a matrix without entries cannot be split, although all its blocks are well defined *)
Theorem C24_split_empty_refuted : exists M, reachable M /\ editable M = true /\ nrow M = ncol M /\ 1 < nrow M /\ split M [1%Z] = Some None /\
  fst (getColumn M 1) = false.
Proof. exists (create 2 2 SuperLU). split; [constructor|]. repeat split; vm_compute; auto. Qed.
Print Assumptions C24_split_empty_refuted.
Theorem C24_column : forall M c, reachable M -> editable M = true -> elem M <> [] -> 1 <= c <= ncol M ->
  exists y, getColumn M c = (true, y) /\ length y = nrow M /\ forall r, 1 <= r <= nrow M -> Some (nth (r-1) y 0%Qc) = get M r c.
Proof.
  intros M c H He Hn Hc. pose proof (reachable_wf M H) as W. apply editable_iff in He.
  destruct (getColumn_spec M c W He Hn Hc) as (y & E & L & V). exists y. split; [exact E|]. split; [exact L|]. intros r Hr.
  rewrite get_val, V by auto. reflexivity.
Qed.
Print Assumptions C24_column.
(** compressed matrices: the entry map is empty, so the column is refused *)
Theorem C24_column_compressed_refuted : exists M M', reachable M /\ compressPattern M = Some M' /\ get M' 1 1 = Some (qq 3) /\ fst (getColumn M' 1) = false.
Proof. exists (build 2 2 SuperLU [((1,1), qq 3)]). eexists. split; [apply build_reachable|]. split; [vm_compute; reflexivity|]. split; vm_compute; reflexivity. Qed.
Print Assumptions C24_column_compressed_refuted.
(** a matrix that had entries before it was pre-assembled keeps its old entry map: the
    column and the blocks are silently read from there *)
Theorem C24_column_stale_refuted : exists s0 s M0 M1 M2 y A11 A21 A12 A22, initEqs s0 = Some (true, s) /\ reachable M0 /\
  initAssembly s (Some false) M0 = Some M1 /\ addTo M1 1 1 (qq 3) = Some (true, M2) /\ get M2 1 1 = Some (qq 3) /\
  getColumn M2 1 = (true, y) /\ nth 0 y 0%Qc = 0%Qc /\
  split M2 [2%Z] = Some (Some (A11, A21, A12, A22)) /\ get A11 1 1 = Some 0%Qc.
Proof.
  exists (mkS [1;2;3] [1;1]%Z [1;3] [1;2]%Z [1] [] [] [] 0 0). eexists. exists (build 2 2 SuperLU [((1,1), qq 3)]).
  do 7 eexists. split; [vm_compute; reflexivity|]. split; [apply build_reachable|]. split; [vm_compute; reflexivity|]. split; [vm_compute; reflexivity|].
  split; [vm_compute; reflexivity|]. split; [vm_compute; reflexivity|]. split; [vm_compute; reflexivity|]. split; vm_compute; reflexivity.
Qed.
Print Assumptions C24_column_stale_refuted.
Theorem C24_norm : forall M, reachable M -> 1 <= nrow M ->
  exists n, Linfnorm M = Some n /\
    (forall r, 1 <= r <= nrow M -> (qs (fun c => absQ (val (stored M) r c)) (seq 1 (ncol M)) <= n)%Qc) /\
    exists r, 1 <= r <= nrow M /\ n = qs (fun c => absQ (val (stored M) r c)) (seq 1 (ncol M)).
Proof. exact (fun M H => Linfnorm_spec M (reachable_wf M H)). Qed.
Print Assumptions C24_norm.
Theorem C24_csr : forall M, reachable M -> editable M = true ->
  length (fst (calcCSR M)) = nrow M + 1 /\ length (snd (calcCSR M)) = length (stored M) /\
  (forall k, k <= nrow M -> nth k (fst (calcCSR M)) 0 = length (filter (fun e => fst (fst e) <=? k) (stored M))) /\
  (forall i, i < length (stored M) -> nth i (snd (calcCSR M)) 0 + 1 = snd (fst (nth i (stored M) ((0,0),0%Qc)))).
Proof. exact (fun M H E => calcCSR_spec M (reachable_wf M H) (proj1 (editable_iff M) E)). Qed.
Print Assumptions C24_csr.
Example C24_case : Linfnorm (exM SAMG) = Some (qq 18) /\ calcCSR (exM SAMG) = ([0;2;2;5], [1;2;1;2;3]) /\
  getColumn (exM SAMG) 2 = (true, [qq 1; qq 0; qq 4]) /\
  get (snd (augment (exM SAMG) 1 2 (exM SAMG))) 4 5 = Some (qq 5) /\
  nrow (snd (augment (exM SAMG) 1 2 (exM SAMG))) = 6 /\
  get (snd (truncate (Q2Qc (1 # 2)) (exM SAMG))) 1 2 = Some (qq 0) /\ get (snd (truncate (Q2Qc (1 # 2)) (exM SAMG))) 3 2 = Some (qq 4).
Proof. vm_compute. repeat split. Qed.

(** ** C33: assembly into a sparse matrix, any storage mode, any number of rounds *)
Theorem C33_assembled : forall s0 s sl mode fl els sg M, initEqs s0 = Some (true, s) ->
  mode <> Some false \/ colFmt sl = true -> assembled s sl mode M -> fromModel s els ->
  exists M', round s fl els sg M = Some (true, M') /\
    (fl = true -> forall r c, r <> c \/ contributes s els r -> get M' r c = Some (elmSum s els r c)).
Proof.
  intros s0 s sl mode fl els sg M H Hm A F. pose proof (initEqs_consistent _ _ H) as C. pose proof (assembled_ready s sl mode C Hm M A) as Rd.
  destruct (round_spec s sl fl els sg M C Rd F) as (M' & E & (W & _) & _ & _ & V & _). exists M'. split; [exact E|].
  intros Hf r c Hrc. rewrite get_val, (V Hf r c Hrc) by exact W. reflexivity.
Qed.
Print Assumptions C33_assembled.
(** without flags (initLHS = 1 on a new matrix), nothing but the element sum is there *)
Theorem C33_assembled_noflags : forall s0 s sl mode els sg M, initEqs s0 = Some (true, s) ->
  mode <> Some false \/ colFmt sl = true -> assembled s sl mode M -> length (nz M) = 1 -> fromModel s els ->
  exists M', round s false els sg M = Some (true, M') /\ forall r c, get M' r c = Some (elmSum s els r c).
Proof.
  intros s0 s sl mode els sg M H Hm A L F. pose proof (initEqs_consistent _ _ H) as C. pose proof (assembled_ready s sl mode C Hm M A) as Rd.
  destruct (round_spec s sl false els sg M C Rd F) as (M' & E & (W & _) & _ & _ & _ & _ & _ & V). exists M'. split; [exact E|].
  intros r c. rewrite get_val, (V L eq_refl r c) by exact W. reflexivity.
Qed.
Print Assumptions C33_assembled_noflags.
(** pre-assembly for the other solver types locks an empty pattern: everything is dropped *)
Theorem C33_samg_preassembly_refuted : exists s0 s els M M', initEqs s0 = Some (true, s) /\ fromModel s els /\
  initAssembly s (Some false) (create 0 0 SAMG) = Some M /\ round s true els 0 M = Some (true, M') /\
  get M' 1 1 = Some 0%Qc /\ elmSum s els 1 1 = qq 1.
Proof.
  exists (mkS [1;2;3] [1;1]%Z [1;3] [1;2]%Z [1] [] [] [] 0 0). eexists. exists [((fun _ _ => qq 1), [1;2]%Z)]. eexists. eexists.
  split; [vm_compute; reflexivity|]. split; [intros K meen [[= <- <-]|[]]; exists 1; vm_compute; reflexivity|].
  split; [vm_compute; reflexivity|]. split; [vm_compute; reflexivity|]. split; vm_compute; reflexivity.
Qed.
Print Assumptions C33_samg_preassembly_refuted.
(** the tables of the SAM examples with three storage modes, second round *)
Definition sx0 : tables := mkS [1;3;5;7] [1;2;0;0;1;1]%Z [1;3;5] [1;2;2;3]%Z [1;4] [3;1;5]%Z [qq 5; qq 2; qq (-1)] [] 0 0.
Definition sx : tables := match initEqs sx0 with Some (_, s) => s | None => sx0 end.
Definition Kx : emat := fun i j => qq (Z.of_nat (10*i+j)).
Example C33_case : forall mode, (mode = None \/ mode = Some true \/ mode = Some false) ->
  exists M M1 M2 b, initAssembly sx mode (create 0 0 SuperLU) = Some M /\
    round sx true [(Kx, [1;4;-1;0]%Z); (Kx, [-1;0;2;3]%Z)] (qq 9) M = Some (b, M1) /\
    round sx true [(Kx, [1;4;-1;0]%Z)] (qq 9) M1 = Some (true, M2) /\
    get M2 1 1 = Some (qq 132) /\ get M2 3 3 = Some (qq 9) /\ get M2 2 3 = Some (qq 0).
Proof.
  intros mode [->|[-> | ->]]; do 4 eexists; (split; [vm_compute; reflexivity|]; split; [vm_compute; reflexivity|]; split; [vm_compute; reflexivity|]; vm_compute; auto).
Qed.

(** ** C29 *)
Theorem C29_regularised : forall s0 s sl mode els sg M, initEqs s0 = Some (true, s) ->
  mode <> Some false \/ colFmt sl = true -> assembled s sl mode M -> fromModel s els ->
  1 < neq s -> (exists r, contributes s els r) ->
  exists M', round s true els sg M = Some (true, M') /\
    forall r, 1 <= r <= neq s ->
      (contributes s els r -> get M' r r = Some (elmSum s els r r)) /\
      (~ contributes s els r -> writable M r r -> get M' r r = Some sg) /\
      (~ contributes s els r -> ~ writable M r r -> get M' r r = Some 0%Qc).
Proof.
  intros s0 s sl mode els sg M H Hm A F Hn He. pose proof (initEqs_consistent _ _ H) as C. pose proof (assembled_ready s sl mode C Hm M A) as Rd.
  destruct (round_spec s sl true els sg M C Rd F) as (M' & E & (W & _) & _ & _ & V & U & Z & _). exists M'. split; [exact E|].
  intros r Hr. rewrite get_val by exact W. split; [|split].
  - intros Hc. rewrite V by auto. reflexivity.
  - intros Hc Hw. rewrite U by auto. reflexivity.
  - intros Hc Hw. rewrite Z by auto. reflexivity.
Qed.
Print Assumptions C29_regularised.
(** the diagonal can be written if the matrix is not locked, or some element of the model
    uses the equation (although it did not contribute in this round) *)
Theorem C29_writable : forall s0 s sl mode M r, initEqs s0 = Some (true, s) ->
  mode <> Some false \/ colFmt sl = true -> assembled s sl mode M -> 1 <= r <= neq s ->
  st M = EdP \/ (exists iel meen, getElmEqns s iel = Some meen /\ eqInElm s meen (Z.of_nat r)) -> writable M r r.
Proof.
  intros s0 s sl mode M r H Hm A Hr Hw. pose proof (initEqs_consistent _ _ H) as C. destruct (assembled_ready s sl mode C Hm M A) as (W & _ & R & Cc & Cov & _).
  destruct Hw as [Hw|(iel & meen & G & He)].
  - split; [lia|]. split; [lia|]. left; exact Hw.
  - apply Cov. unfold coupled. apply couplings_exact. eauto.
Qed.
Print Assumptions C29_writable.
(** locked pattern and an equation that no element of the model uses: the diagonal stays
    zero and the call still reports success *)
Theorem C29_locked_refuted : exists s0 s els M M', initEqs s0 = Some (true, s) /\ fromModel s els /\
  (exists r, contributes s els r) /\ 1 < neq s /\
  initAssembly s (Some false) (create 0 0 SuperLU) = Some M /\ round s true els (qq 9) M = Some (true, M') /\
  ~ contributes s els 3 /\ 3 <= neq s /\ get M' 3 3 = Some 0%Qc.
Proof.
  exists (mkS [1;2;3;4] [1;1;1]%Z [1;3] [1;2]%Z [1] [] [] [] 0 0). eexists. exists [((fun _ _ => qq 1), [1;2]%Z)]. eexists. eexists.
  split; [vm_compute; reflexivity|]. split; [intros K meen [[= <- <-]|[]]; exists 1; vm_compute; reflexivity|].
  split; [exists 1, (fun _ _ => qq 1), [1;2]%Z; split; [left; reflexivity|]; exists 1%Z; split; [left; reflexivity|left; lia]|].
  split; [vm_compute; lia|]. split; [vm_compute; reflexivity|]. split; [vm_compute; reflexivity|].
  split; [|split; [vm_compute; lia|vm_compute; reflexivity]].
  intros (K & meen & [[= <- <-]|[]] & (m & [<-|[<-|[]]] & Hm)); lia.
Qed.
Print Assumptions C29_locked_refuted.
(** a system with one equation is never regularised *)
Theorem C29_one_equation_refuted : forall s0 s sl mode els sg M M', initEqs s0 = Some (true, s) ->
  mode <> Some false \/ colFmt sl = true -> assembled s sl mode M -> fromModel s els -> neq s = 1 ->
  ~ contributes s els 1 -> round s true els sg M = Some (true, M') -> get M' 1 1 = Some 0%Qc.
Proof.
  intros s0 s sl mode els sg M M' H Hm A F Hn Hc E. unfold round in E.
  pose proof (initEqs_consistent _ _ H) as C. pose proof (assembled_ready s sl mode C Hm M A) as Rd.
  destruct (round_spec s sl true els sg M C Rd F) as (M1 & E1 & (W & _ & R & Cc & _) & _).
  unfold round in E1. rewrite E in E1. injection E1 as <-.
  destruct Rd as (W0 & _ & R0 & C0 & _). destruct (resize_same M W0 _ eq_refl) as (W2 & _ & R2 & C2 & _ & V2 & _). specialize (C2 ltac:(congruence)).
  set (M2 := initFlags _) in E.
  assert (EOK : elmsOK s els). { intros K meen Hi. destruct (F K meen Hi) as (iel & G). eapply getElmEqns_range; eauto. }
  assert (L2 : length (nz M2) = 1) by (unfold M2, initFlags; cbn; rewrite repeat_length; congruence).
  destruct (assembleElms_spec s els M2 W2 C EOK (or_intror L2)) as (M3 & E3 & W3 & S3 & R3 & C3 & Sl3 & Ln3 & N31 & N3 & Wr3 & V3 & U3).
  { unfold M2; cbn; congruence. } { unfold M2; cbn; congruence. }
  rewrite E3 in E. unfold endAssembly in E. rewrite Ln3, L2 in E. cbn in E. injection E as <-.
  rewrite get_val by exact W3. f_equal. destruct (writable_dec M2 1 1 W2) as [Hw|Hw].
  - rewrite V3 by exact Hw. rewrite elmSum_entry, elmSum_none by exact Hc. replace (val (stored M2) 1 1) with 0%Qc by (symmetry; apply V2). ring.
  - rewrite U3 by exact Hw. apply V2.
Qed.
Print Assumptions C29_one_equation_refuted.
(** adding to all equations with a negative equation number changes the diagonal, then reports failure *)
Theorem C29_negative_equation_refuted : exists M M', reachable M /\ addSigma (qq 4) (-1) M = Some (false, M') /\ get M' 1 1 = Some (qq 4).
Proof.
  exists (initFlags (create 2 2 SuperLU)). eexists. split; [apply R_flags; constructor|]. split; vm_compute; reflexivity.
Qed.
Print Assumptions C29_negative_equation_refuted.
Example C29_case : contributes sx [(Kx, [1;4;-1;0]%Z)] 2 /\ ~ contributes sx [(Kx, [1;4;-1;0]%Z)] 3 /\ fromModel sx [(Kx, [1;4;-1;0]%Z)] /\
  exists iel meen, getElmEqns sx iel = Some meen /\ eqInElm sx meen 3.
Proof.
  split; [|split; [|split]].
  - exists Kx, [1;4;-1;0]%Z. split; [left; reflexivity|]. exists (-1)%Z. split; [vm_compute; auto|]. right. split; [lia|].
    exists 5%Z, (qq (-1)). split; [vm_compute; auto|]. split; [lia|vm_compute; reflexivity].
  - intros (K & meen & [[= <- <-]|[]] & (m & Hi & Hm)). apply (proj2 (uniqueEqns_iff sx [1;4;-1;0]%Z 3%Z)) in Hi || idtac.
    assert (Q : In 3%Z (uniqueEqns sx [1;4;-1;0]%Z)) by (apply uniqueEqns_iff; exists m; auto). vm_compute in Q. intuition discriminate.
  - intros K meen [[= <- <-]|[]]. exists 1. vm_compute. reflexivity.
  - exists 2, [-1;0;2;3]%Z. split; [vm_compute; reflexivity|]. exists 3%Z. split; [vm_compute; auto|]. left. split; [lia|reflexivity].
Qed.
