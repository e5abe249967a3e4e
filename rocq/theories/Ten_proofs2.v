(** Proofs about symmetric tensors. *)
From Coq Require Import Reals List Bool ZArith Lia Lra Arith.
From Verif Require Import Ten_model Ten_spec Ten_proofs.
Import ListNotations.
Local Open Scope R_scope.

Ltac acase H :=
  destruct H as [(? & H) | H]; [scase H | s33case H].

Lemma get_full : forall n T i j, full n T -> (1 <= i <= n)%nat -> (1 <= j <= n)%nat ->
  get T i j = M T i j /\ (index T i j < length (tv T))%nat.
Proof.
  intros n T i j H. revert i j. fcase H; ij; ev; split; try reflexivity; lia.
Qed.
Lemma get_symm : forall n T i j, symmT n T -> (1 <= i <= n)%nat -> (1 <= j <= n)%nat ->
  get T i j = M T i j /\ (index T i j < length (tv T))%nat.
Proof.
  intros n T i j H. revert i j. scase H; ij; ev; split; try reflexivity; lia.
Qed.
Lemma get_symm33 : forall T i j, symm33 T ->
  (1 <= i <= 2 /\ 1 <= j <= 2 \/ i = 3 /\ j = 3)%nat ->
  get T i j = M T i j /\ (index T i j < length (tv T))%nat.
Proof.
  intros T i j H [(Hi & Hj) | (-> & ->)].
  - revert i j Hi Hj. s33case H; ij; ev; split; try reflexivity; lia.
  - s33case H; ev; split; try reflexivity; lia.
Qed.

Lemma strace_ok : forall T, anysymm T -> trace T = mtrace 3 (M T).
Proof. intros T H. acase H; ev; ring. Qed.
Lemma sdet_ok : forall n T, symmT n T -> det T = mdet n (M T).
Proof. intros n T H. scase H; ev; ring. Qed.
Lemma s33det_ok : forall T, symm33 T -> det T = mdet 3 (M T).
Proof. intros T H. s33case H; ev; ring. Qed.

Lemma inverse_symm : forall n T tol, symmT n T -> 0 <= tol -> tol < Rabs (det T) ->
  let r := inverse T tol in
  symmT n (fst r) /\ snd r = det T /\
  meq n (mmul n (M (fst r)) (M T)) mid /\ meq n (mmul n (M T) (M (fst r))) mid.
Proof.
  intros n T tol H H0 Ht r. subst r.
  destruct (inverse_split T tol H0 Ht) as [-> Hd]. simpl fst. simpl snd.
  clear Ht H0.
  scase H; (split; [wf|]); (split; [reflexivity|]); revert Hd; ev; intros Hd;
  split; ij; ev; field; assumption.
Qed.
Lemma inverse_symm33 : forall T tol, symm33 T -> 0 <= tol -> tol < Rabs (det T) ->
  let r := inverse T tol in
  symm33 (fst r) /\ snd r = det T /\
  meq 3 (mmul 3 (M (fst r)) (M T)) mid /\ meq 3 (mmul 3 (M T) (M (fst r))) mid.
Proof.
  intros T tol H H0 Ht r. subst r.
  destruct (inverse_split T tol H0 Ht) as [-> Hd]. simpl fst. simpl snd.
  clear Ht H0.
  s33case H; (split; [wf|]); (split; [reflexivity|]); revert Hd; ev; intros Hd.
  split; ij; ev; field; repeat split; try assumption; intro E; apply Hd; rewrite E; ring.
Qed.

Lemma l2_ok : forall T, anysymm T -> L2norm2 T = frob2 3 (M T).
Proof. intros T H. acase H; ev; ring. Qed.
Lemma vm_ok : forall T, anysymm T -> vonMises2 T = 3 / 2 * frob2 3 (dev (M T)).
Proof. intros T H. acase H; ev; field. Qed.
Lemma frob2_nonneg : forall n A, 0 <= frob2 n A.
Proof.
  intros n A. unfold frob2.
  assert (forall f k, (forall i, 0 <= f i) -> 0 <= rsum f k) as R0.
  { intros f k Hf. induction k; simpl; [lra|]. specialize (Hf (S k)). lra. }
  apply R0. intros i. apply R0. intros j. apply Rle_0_sqr.
Qed.
Lemma rsum_zero : forall f k, (forall i, 0 <= f i) -> rsum f k = 0 ->
  forall i, (1 <= i <= k)%nat -> f i = 0.
Proof.
  intros f k Hf. induction k as [|k IH]; simpl; intros H i Hi; [lia|].
  assert (0 <= rsum f k).
  { clear IH H Hi. induction k; simpl; [lra|]. specialize (Hf (S k)). lra. }
  pose proof (Hf (S k)).
  destruct (Nat.eq_dec i (S k)) as [-> | Hne]; [lra|]. apply IH; [lra | lia].
Qed.
Lemma frob2_zero : forall n A, frob2 n A = 0 -> meq n A (fun _ _ => 0).
Proof.
  intros n A H i j Hi Hj. unfold frob2 in H.
  assert (forall i0, 0 <= rsum (fun j => A i0 j * A i0 j) n) as Hn.
  { intros i0. generalize n. intros k. induction k; simpl; [lra|].
    pose proof (Rle_0_sqr (A i0 (S k))) as Hq. unfold Rsqr in Hq. lra. }
  pose proof (rsum_zero _ _ Hn H i Hi) as H1. cbv beta in H1.
  assert (forall j, 0 <= A i j * A i j) as Hs by (intros; apply Rle_0_sqr).
  pose proof (rsum_zero _ _ Hs H1 j Hj) as H2. cbv beta in H2.
  now apply Rmult_integral in H2; destruct H2.
Qed.

Lemma transform_ok : forall A T n, anysymm A -> full n T -> (2 <= n <= tdim A)%nat ->
  meq 3 (M (transform A T)) (mmul 3 (mmul 3 (ext T) (M A)) (mtr (ext T))) /\
  tdim (transform A T) = tdim A /\ anysymm (transform A T) /\
  length (tv (transform A T)) = length (tv A).
Proof.
  intros A T n HA HT Hn.
  acase HA; fcase HT; simpl in Hn; try (exfalso; lia);
  (split; [ij; ev; ring|]);
  (split; [reflexivity|]); (split; [|reflexivity]);
  first [ left; eexists 2%nat; wf | left; eexists 3%nat; wf | right; wf ].
Qed.

(** Matrix facts for orthogonal transformations. *)
Lemma conj_trace : forall Q A, meq 3 (mmul 3 (mtr Q) Q) mid ->
  mtrace 3 (mmul 3 (mmul 3 Q A) (mtr Q)) = mtrace 3 A.
Proof.
  intros Q A HQ.
  transitivity (rsum (fun k => rsum (fun l => A k l * mmul 3 (mtr Q) Q l k) 3) 3).
  - ev. ring.
  - assert (E : forall l k, (1 <= l <= 3)%nat -> (1 <= k <= 3)%nat ->
      mmul 3 (mtr Q) Q l k = mid l k) by exact HQ.
    cbv [rsum]. rewrite !E by lia. ev. ring.
Qed.
Lemma conj_det : forall Q A, meq 3 (mmul 3 (mtr Q) Q) mid ->
  mdet 3 (mmul 3 (mmul 3 Q A) (mtr Q)) = mdet 3 A.
Proof.
  intros Q A HQ.
  transitivity (mdet 3 A * mdet 3 (mmul 3 (mtr Q) Q)).
  - ev. ring.
  - assert (E : forall l k, (1 <= l <= 3)%nat -> (1 <= k <= 3)%nat ->
      mmul 3 (mtr Q) Q l k = mid l k) by exact HQ.
    cbv [mdet]. rewrite !E by lia. ev. ring.
Qed.
Lemma conj_frob : forall Q A, meq 3 (mmul 3 (mtr Q) Q) mid ->
  frob2 3 (mmul 3 (mmul 3 Q A) (mtr Q)) = frob2 3 A.
Proof.
  intros Q A HQ.
  transitivity (mtrace 3 (mmul 3 (mmul 3 (mmul 3 (mtr Q) Q) A) (mmul 3 (mmul 3 (mtr Q) Q) (mtr A)))).
  - ev. ring.
  - assert (E : forall l k, (1 <= l <= 3)%nat -> (1 <= k <= 3)%nat ->
      mmul 3 (mtr Q) Q l k = mid l k) by exact HQ.
    assert (E2 : forall B, forall i j, (1 <= i <= 3)%nat -> (1 <= j <= 3)%nat ->
       mmul 3 (mmul 3 (mtr Q) Q) B i j = B i j).
    { intros B. ij; unfold mmul at 1; cbv [rsum]; rewrite !E by lia; ev; ring. }
    assert (E3 : forall X Y i, (1 <= i <= 3)%nat ->
       mmul 3 (mmul 3 (mmul 3 (mtr Q) Q) X) (mmul 3 (mmul 3 (mtr Q) Q) Y) i i = mmul 3 X Y i i).
    { intros X Y i Hi.
      set (X' := mmul 3 (mmul 3 (mtr Q) Q) X). set (Y' := mmul 3 (mmul 3 (mtr Q) Q) Y).
      unfold mmul. cbv [rsum]. unfold X', Y'. rewrite !E2 by lia. reflexivity. }
    unfold mtrace. cbv [rsum]. rewrite !E3 by lia. ev. ring.
Qed.

Lemma ext_orth : forall n T, full n T -> orthogonal n (M T) -> orthogonal 3 (ext T).
Proof.
  intros n T H [H1 H2].
  fcase H.
  - pose proof (H1 1 1 ltac:(lia) ltac:(lia))%nat as E. revert E. ev. intros E.
    split; ij; ev; lra.
  - pose proof (H1 1 1 ltac:(lia) ltac:(lia))%nat as E11.
    pose proof (H1 1 2 ltac:(lia) ltac:(lia))%nat as E12.
    pose proof (H1 2 2 ltac:(lia) ltac:(lia))%nat as E22.
    pose proof (H2 1 1 ltac:(lia) ltac:(lia))%nat as F11.
    pose proof (H2 1 2 ltac:(lia) ltac:(lia))%nat as F12.
    pose proof (H2 2 2 ltac:(lia) ltac:(lia))%nat as F22.
    revert E11 E12 E22 F11 F12 F22. ev. intros.
    split; ij; ev; lra.
  - split; intros i j Hi Hj.
    + rewrite <- (H1 i j Hi Hj). unfold mmul. cbv [rsum]. 
      destruct (le3 i 3 Hi ltac:(lia)) as [-> | [-> | ->]];
      destruct (le3 j 3 Hj ltac:(lia)) as [-> | [-> | ->]]; reflexivity.
    + rewrite <- (H2 i j Hi Hj). unfold mmul. cbv [rsum]. 
      destruct (le3 i 3 Hi ltac:(lia)) as [-> | [-> | ->]];
      destruct (le3 j 3 Hj ltac:(lia)) as [-> | [-> | ->]]; reflexivity.
Qed.
Lemma meq_trace : forall A B, meq 3 A B -> mtrace 3 A = mtrace 3 B.
Proof. intros A B H. unfold mtrace. cbv [rsum]. rewrite !H by lia. reflexivity. Qed.
Lemma meq_det : forall A B, meq 3 A B -> mdet 3 A = mdet 3 B.
Proof. intros A B H. unfold mdet. rewrite !H by lia. reflexivity. Qed.
Lemma meq_frob : forall A B, meq 3 A B -> frob2 3 A = frob2 3 B.
Proof. intros A B H. unfold frob2. cbv [rsum]. rewrite !H by lia. reflexivity. Qed.
Lemma frob_dev : forall A, frob2 3 (dev A) = frob2 3 A - mtrace 3 A * mtrace 3 A / 3.
Proof. intros. ev. field. Qed.

Lemma transform_inv : forall A T n, anysymm A -> full n T -> (2 <= n <= tdim A)%nat ->
  orthogonal n (M T) ->
  trace (transform A T) = trace A /\ L2norm2 (transform A T) = L2norm2 A /\
  vonMises2 (transform A T) = vonMises2 A /\ mdet 3 (M (transform A T)) = mdet 3 (M A).
Proof.
  intros A T n HA HT Hn HO.
  destruct (transform_ok A T n HA HT Hn) as (E & _ & HS & _).
  destruct (ext_orth n T HT HO) as [_ HQ].
  rewrite !strace_ok, !l2_ok, !vm_ok, !frob_dev by assumption.
  rewrite (meq_trace _ _ E), (meq_frob _ _ E), (meq_det _ _ E).
  rewrite conj_trace, conj_frob, conj_det by assumption. auto.
Qed.

Lemma smul_ok : forall n A B, symmT n A -> symmT n B ->
  symmT n (smul A B) /\ meq n (M (smul A B)) (upper (mmul n (M A) (M B))).
Proof.
  intros n A B HA HB. scase HA; scase HB; try discriminate; (split; [wf|]); ij; ev; ring.
Qed.

Lemma redim_ok : forall m n T, (1 <= n <= 3)%nat -> symmT m T ->
  symmT n (redim T n false).
Proof.
  intros m n T Hn H.
  assert (n = 1 \/ n = 2 \/ n = 3)%nat as [-> | [-> | ->]] by lia; scase H; wf.
Qed.
Lemma redim33_ok : forall n T, (1 <= n <= 3)%nat -> n <> 2%nat -> symm33 T ->
  symmT n (redim T n false).
Proof.
  intros n T Hn H2 H.
  assert (n = 1 \/ n = 3)%nat as [-> | ->] by lia; s33case H; wf.
Qed.
Lemma cg_ok : forall n C F, full n F -> (exists m, symmT m C) \/ (symm33 C /\ n <> 2%nat) ->
  symmT n (rightCG C F) /\ meq n (M (rightCG C F)) (mmul n (mtr (M F)) (M F)) /\
  symmT n (leftCG C F) /\ meq n (M (leftCG C F)) (mmul n (M F) (mtr (M F))).
Proof.
  intros n C F HF HC.
  assert (symmT n (redim C n false)) as HR.
  { destruct HC as [(m & H) | (H & H2)]; [eapply redim_ok | eapply redim33_ok];
    try eassumption; apply HF. }
  assert (tdim F = n) as En by apply HF.
  unfold rightCG, leftCG. rewrite En. remember (redim C n false) as D. clear HeqD HC En.
  fcase HF; scase HR; try discriminate;
  (split; [wf|]); (split; [ij; ev; ring|]); (split; [wf|]); ij; ev; ring.
Qed.
Lemma outer_ok : forall n T u, symmT n T ->
  symmT n (outerProd T u) /\ meq n (M (outerProd T u)) (dyad u).
Proof.
  intros n T u H. scase H; (split; [wf|]); ij; ev; destruct u; ring.
Qed.

Lemma inner_full : forall n A B, full n A -> full n B -> innerProd A B = ddotm n (M A) (M B).
Proof. intros n A B HA HB. fcase HA; fcase HB; try discriminate; ev; ring. Qed.
Lemma inner_symm : forall n A B, symmT n A -> symmT n B ->
  innerProd A B = ddotm n (M A) (M B)
    - rsum (fun i => rsum (fun j => if (i <? j)%nat then M A i j * M B i j else 0) n) n.
Proof. intros n A B HA HB. scase HA; scase HB; try discriminate; ev; ring. Qed.

(** Assignment. *)
Lemma assign_ff : forall n m A T, full n A -> full m T ->
  full n (assign A T) /\ meq n (M (assign A T)) (M T).
Proof. intros n m A T HA HT. fcase HA; fcase HT; (split; [wf|]); ij; ev; reflexivity. Qed.
Lemma assign_fs : forall n m A T, full n A -> symmT m T ->
  full n (assign A T) /\ meq n (M (assign A T)) (M T).
Proof. intros n m A T HA HT. fcase HA; scase HT; (split; [wf|]); ij; ev; reflexivity. Qed.
Lemma assign_f33 : forall n A T, full n A -> symm33 T -> n <> 2%nat ->
  full n (assign A T) /\ meq n (M (assign A T)) (M T).
Proof.
  intros n A T HA HT Hn. fcase HA; s33case HT; try (exfalso; lia); (split; [wf|]); ij; ev; reflexivity.
Qed.
Lemma assign_ss : forall n m A T, symmT n A -> symmT m T ->
  symmT n (assign A T) /\ meq n (M (assign A T)) (M T).
Proof. intros n m A T HA HT. scase HA; scase HT; (split; [wf|]); ij; ev; reflexivity. Qed.
Lemma assign_sf : forall n m A T, symmT n A -> full m T ->
  symmT n (assign A T) /\ meq n (M (assign A T)) (upper (M T)).
Proof. intros n m A T HA HT. scase HA; fcase HT; (split; [wf|]); ij; ev; reflexivity. Qed.
Lemma assign_33s3 : forall A T, symm33 A -> symmT 3 T ->
  symm33 (assign A T) /\ meq 2 (M (assign A T)) (M T) /\
  M (assign A T) 3%nat 3%nat = M T 3%nat 3%nat.
Proof.
  intros A T HA HT. s33case HA; scase HT; try discriminate.
  (split; [wf|]); (split; [|ev; reflexivity]); ij; ev; reflexivity.
Qed.
Lemma assign_3333 : forall A T, symm33 A -> symm33 T ->
  symm33 (assign A T) /\ meq 3 (M (assign A T)) (M T).
Proof. intros A T HA HT. s33case HA; s33case HT. (split; [wf|]); ij; ev; reflexivity. Qed.

(** Cyclic permutation. *)
Lemma rem3 : forall idx, (- (3) < idx)%Z ->
  (Z.rem (3 + idx) 3 = idx mod 3)%Z /\ (idx mod 3 = 0 \/ idx mod 3 = 1 \/ idx mod 3 = 2)%Z.
Proof.
  intros idx H. rewrite Z.rem_mod_nonneg by lia.
  replace (3 + idx)%Z with (idx + 1 * 3)%Z by ring. rewrite Z.mod_add by lia.
  pose proof (Z.mod_pos_bound idx 3 ltac:(lia)). split; [reflexivity | lia].
Qed.
Lemma rem2 : forall idx, (- (2) < idx)%Z ->
  (Z.rem (2 + idx) 2 = idx mod 2)%Z /\ (idx mod 2 = 0 \/ idx mod 2 = 1)%Z.
Proof.
  intros idx H. rewrite Z.rem_mod_nonneg by lia.
  replace (2 + idx)%Z with (idx + 1 * 2)%Z by ring. rewrite Z.mod_add by lia.
  pose proof (Z.mod_pos_bound idx 2 ltac:(lia)). split; [reflexivity | lia].
Qed.

Lemma shift_ok : forall n T idx, full n T -> (- Z.of_nat n < idx)%Z ->
  full n (shift T idx) /\
  forall i j, (1 <= i <= n)%nat -> (1 <= j <= n)%nat ->
    M (shift T idx) i (Z.to_nat ((Z.of_nat j - 1 + idx) mod Z.of_nat n) + 1)%nat = M T i j.
Proof.
  intros n T idx H Hi.
  assert (Hle : (idx <=? - Z.of_nat n)%Z = false) by (apply Z.leb_gt; lia).
  fcase H; simpl Z.of_nat in *; unfold shift; cbn [tdim tsymm tv]; simpl Z.of_nat; rewrite Hle;
    cbn [orb].
  - assert (Z.rem (1 + idx) 1 = 0)%Z as -> by apply Z.rem_1_r. simpl.
    split; [wf|]. intros i j Hi' Hj. assert (i = 1%nat) as -> by lia.
    assert (j = 1%nat) as -> by lia. rewrite Z.mod_1_r. reflexivity.
  - destruct (rem2 idx Hi) as [-> [E | E]]; rewrite E; cbn [Z.eqb].
    + split; [wf|]. intros i j Hi' Hj.
      rewrite <- Z.add_mod_idemp_r, E by lia. revert i j Hi' Hj. ij; reflexivity.
    + split; [wf|]. intros i j Hi' Hj.
      rewrite <- Z.add_mod_idemp_r, E by lia. revert i j Hi' Hj. ij; reflexivity.
  - destruct (rem3 idx Hi) as [-> [E | [E | E]]]; rewrite E; cbn [Z.eqb].
    + split; [wf|]. intros i j Hi' Hj.
      rewrite <- Z.add_mod_idemp_r, E by lia. revert i j Hi' Hj. ij; reflexivity.
    + split; [wf|]. intros i j Hi' Hj.
      rewrite <- Z.add_mod_idemp_r, E by lia. revert i j Hi' Hj. ij; reflexivity.
    + split; [wf|]. intros i j Hi' Hj.
      rewrite <- Z.add_mod_idemp_r, E by lia. revert i j Hi' Hj. ij; reflexivity.
Qed.
