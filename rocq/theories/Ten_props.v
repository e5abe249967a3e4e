(** Second-order tensors: the theorems. *)
From Coq Require Import Reals List Bool ZArith Lia Lra Arith.
From Verif Require Import Ten_model Ten_spec Ten_proofs Ten_proofs2 Ten_proofs3.
Import ListNotations.
Local Open Scope R_scope.

(** ** C101: full tensors of dimension 1, 2 and 3 *)
Theorem C101_product : forall n m A B, full n A -> full m B ->
  full (Nat.min n m) (tmul A B) /\
  meq (Nat.min n m) (M (tmul A B)) (mmul (Nat.min n m) (M A) (M B)).
Proof. exact tmul_ok. Qed.
Print Assumptions C101_product.

Theorem C101_multiply_in_place : forall n m T B, full n T -> full m B ->
  meq (Nat.min n m) (M (postMult T (Some B))) (mmul (Nat.min n m) (M T) (M B)) /\
  meq (Nat.min n m) (M (preMult T (Some B))) (mmul (Nat.min n m) (M B) (M T)) /\
  (forall i j, (1 <= i <= n)%nat -> (1 <= j <= n)%nat -> (m < i \/ m < j)%nat ->
     M (postMult T (Some B)) i j = M T i j /\ M (preMult T (Some B)) i j = M T i j).
Proof.
  intros n m T B HT HB. destruct (postMult_ok n m T B HT HB) as (_ & H1 & H2).
  destruct (preMult_ok n m T B HT HB) as (_ & H3 & H4). repeat split; auto.
Qed.
Print Assumptions C101_multiply_in_place.

Theorem C101_point : forall T v, full 3 T ->
  (forall i, (1 <= i <= 3)%nat -> vget (tvec T v) i = rsum (fun k => M T i k * vget v k) 3) /\
  (forall i, (1 <= i <= 3)%nat -> vget (vtvec v T) i = rsum (fun k => M T k i * vget v k) 3).
Proof.
  intros T v H. destruct (tvec_ok T v H) as [E1 E2]. rewrite E1, E2.
  split; intros i Hi; destruct (le3 i 3 Hi (le_n 3)) as [-> | [-> | ->]]; reflexivity.
Qed.
Print Assumptions C101_point.

Theorem C101_unary : forall n T, full n T ->
  meq n (M (transpose T)) (mtr (M T)) /\
  meq n (M (symmetrize T)) (fun i j => (M T i j + M T j i) / 2) /\
  trace T = mtrace n (M T) /\ det T = mdet n (M T) /\
  (forall i j, (1 <= i <= n)%nat -> (1 <= j <= n)%nat -> get T i j = M T i j).
Proof.
  intros n T H. split; [apply (transpose_ok n T H)|]. split; [apply (symmetrize_ok n T H)|].
  split; [now apply trace_ok|]. split; [now apply det_ok|].
  intros i j Hi Hj. now apply (get_full n).
Qed.
Print Assumptions C101_unary.

Theorem C101_det_multiplicative : forall n A B, full n A -> full n B ->
  det (tmul A B) = det A * det B.
Proof. exact det_mul. Qed.
Print Assumptions C101_det_multiplicative.

Theorem C101_inverse : forall n T tol, full n T -> 0 <= tol ->
  (tol < Rabs (det T) ->
     full n (fst (inverse T tol)) /\ snd (inverse T tol) = det T /\
     meq n (mmul n (M (fst (inverse T tol))) (M T)) mid /\
     meq n (mmul n (M T) (M (fst (inverse T tol)))) mid) /\
  (Rabs (det T) <= tol -> inverse T tol = (T, 0)).
Proof.
  intros n T tol H H0. split; [now apply inverse_full | apply inverse_fail].
Qed.
Print Assumptions C101_inverse.

Theorem C101_shift : forall n T idx, full n T -> (- Z.of_nat n < idx)%Z ->
  forall i j, (1 <= i <= n)%nat -> (1 <= j <= n)%nat ->
    M (shift T idx) i (Z.to_nat ((Z.of_nat j - 1 + idx) mod Z.of_nat n) + 1)%nat = M T i j.
Proof. intros n T idx H Hi. exact (proj2 (shift_ok n T idx H Hi)). Qed.
Print Assumptions C101_shift.

(** A tensor multiplied by itself in place reads what it has just written. *)
Theorem C101_self_multiply_refuted :
  ~ (forall T, full 2 T -> meq 2 (M (postMult T None)) (mmul 2 (M T) (M T))).
Proof.
  intros H. specialize (H (mkT 2 false [1; 1; 1; 1]) ltac:(wf) 2%nat 1%nat ltac:(lia) ltac:(lia)).
  revert H. ev. lra.
Qed.
Print Assumptions C101_self_multiply_refuted.

(** The in-place product of two symmetric unit tensors is not the unit tensor. *)
Theorem C101_symmetric_in_place_refuted :
  ~ (forall n S B, symmT n S -> symmT n B -> meq n (M S) mid -> meq n (M B) mid ->
       meq n (M (postMult S (Some B))) mid).
Proof.
  intros H. set (I := mkT 3 true [1; 1; 1; 0; 0; 0]).
  assert (symmT 3 I) as HI by (unfold I; wf).
  assert (meq 3 (M I) mid) as HM by (ij; reflexivity).
  specialize (H 3%nat I I HI HI HM HM 1%nat 2%nat ltac:(lia) ltac:(lia)).
  revert H. ev. lra.
Qed.
Print Assumptions C101_symmetric_in_place_refuted.

Example C101_meets : full 3 (mkT 3 false [1; 2; 3; 0; 1; 4; 5; 6; 0]) /\
  det (mkT 3 false [1; 2; 3; 0; 1; 4; 5; 6; 0]) = 1 /\
  full 2 (mkT 2 false [1; 2; 3; 4]) /\ det (mkT 2 false [1; 2; 2; 4]) = 0.
Proof. split; [wf|]. split; [ev; ring|]. split; [wf|]. ev; ring. Qed.

(** ** C102: symmetric tensors: storage, invariants, inverse, congruence *)
Theorem C102_storage : forall T i j,
  (exists n, symmT n T /\ (1 <= i <= n)%nat /\ (1 <= j <= n)%nat) \/
  (symm33 T /\ (1 <= i <= 2 /\ 1 <= j <= 2 \/ i = 3 /\ j = 3)%nat) ->
  get T i j = M T i j /\ get T j i = M T i j /\ (index T i j < length (tv T))%nat.
Proof.
  intros T i j [(n & H & Hi & Hj) | (H & Hij)].
  - destruct (get_symm n T i j H Hi Hj) as [E1 L].
    destruct (get_symm n T j i H Hj Hi) as [E2 _]. repeat split; auto. rewrite E2.
    clear - H Hi Hj. revert i j Hi Hj. scase H; ij; reflexivity.
  - destruct (get_symm33 T i j H Hij) as [E1 L].
    destruct (get_symm33 T j i H ltac:(lia)) as [E2 _]. repeat split; auto. rewrite E2.
    destruct Hij as [(Hi & Hj) | (-> & ->)]; [|reflexivity].
    clear - H Hi Hj. revert i j Hi Hj. s33case H. ij; reflexivity.
Qed.
Print Assumptions C102_storage.

Theorem C102_invariants : forall T, anysymm T ->
  trace T = mtrace 3 (M T) /\ L2norm2 T = frob2 3 (M T) /\
  vonMises2 T = 3 / 2 * frob2 3 (dev (M T)) /\
  0 <= vonMises2 T /\ (vonMises2 T = 0 <-> meq 3 (dev (M T)) (fun _ _ => 0)).
Proof.
  intros T H. split; [now apply strace_ok|]. split; [now apply l2_ok|].
  split; [now apply vm_ok|]. rewrite (vm_ok T H). pose proof (frob2_nonneg 3 (dev (M T))).
  split; [lra|]. split; intros E.
  - apply frob2_zero. lra.
  - rewrite (meq_frob _ _ E). ev. ring.
Qed.
Print Assumptions C102_invariants.

Theorem C102_det_inverse : forall T tol, 0 <= tol ->
  (forall n, symmT n T -> det T = mdet n (M T) /\
     (tol < Rabs (det T) -> symmT n (fst (inverse T tol)) /\ snd (inverse T tol) = det T /\
        meq n (mmul n (M (fst (inverse T tol))) (M T)) mid)) /\
  (symm33 T -> det T = mdet 3 (M T) /\
     (tol < Rabs (det T) -> symm33 (fst (inverse T tol)) /\ snd (inverse T tol) = det T /\
        meq 3 (mmul 3 (M (fst (inverse T tol))) (M T)) mid)) /\
  (Rabs (det T) <= tol -> inverse T tol = (T, 0)).
Proof.
  intros T tol H0. split; [|split].
  - intros n H. split; [now apply sdet_ok|]. intros Ht.
    destruct (inverse_symm n T tol H H0 Ht) as (A & B & C & _). auto.
  - intros H. split; [now apply s33det_ok|]. intros Ht.
    destruct (inverse_symm33 T tol H H0 Ht) as (A & B & C & _). auto.
  - apply inverse_fail.
Qed.
Print Assumptions C102_det_inverse.

Theorem C102_congruence : forall A T n, anysymm A -> full n T -> (2 <= n <= tdim A)%nat ->
  meq 3 (M (transform A T)) (mmul 3 (mmul 3 (ext T) (M A)) (mtr (ext T))).
Proof. intros A T n HA HT Hn. now apply (transform_ok A T n). Qed.
Print Assumptions C102_congruence.

Theorem C102_rotation_invariants : forall A T n, anysymm A -> full n T ->
  (2 <= n <= tdim A)%nat -> orthogonal n (M T) ->
  trace (transform A T) = trace A /\ L2norm2 (transform A T) = L2norm2 A /\
  vonMises2 (transform A T) = vonMises2 A /\ mdet 3 (M (transform A T)) = mdet 3 (M A).
Proof. exact transform_inv. Qed.
Print Assumptions C102_rotation_invariants.

(** In one dimension the von Mises value of a compressive stress is negative. *)
Theorem C102_vonMises_1D_refuted :
  ~ (forall T, anysymm T -> vonMises T = sqrt (vonMises2 T)).
Proof.
  intros H. specialize (H (mkT 1 true [-1]) ltac:(left; exists 1%nat; wf)).
  pose proof (sqrt_pos (vonMises2 (mkT 1 true [-1]))). rewrite <- H in H0. revert H0. ev. lra.
Qed.
Print Assumptions C102_vonMises_1D_refuted.

(** The inner product of symmetric tensors counts each off-diagonal pair once. *)
Theorem C102_inner_product : forall n A B, symmT n A -> symmT n B ->
  innerProd A B = ddotm n (M A) (M B)
    - rsum (fun i => rsum (fun j => if (i <? j)%nat then M A i j * M B i j else 0) n) n.
Proof. exact inner_symm. Qed.
Print Assumptions C102_inner_product.
Theorem C102_inner_product_refuted :
  ~ (forall n A, symmT n A -> innerProd A A = L2norm2 A).
Proof.
  intros H. specialize (H 2%nat (mkT 2 true [0; 0; 1]) ltac:(wf)). revert H. ev. lra.
Qed.
Print Assumptions C102_inner_product_refuted.

Example C102_meets : anysymm (mkT 2 true [1; 2; 3; 4]) /\ full 2 (mkT 2 false [0; 1; -1; 0]) /\
  orthogonal 2 (M (mkT 2 false [0; 1; -1; 0])) /\
  tv (transform (mkT 2 true [1; 2; 3; 4]) (mkT 2 false [0; 1; -1; 0])) <> [1; 2; 3; 4].
Proof.
  split; [right; wf|]. split; [wf|]. split; [split; ij; ev; ring|].
  intros H. apply (f_equal (fun l => nth 0 l 0)) in H. revert H. ev. lra.
Qed.

(** ** C103: products, deformation measures and assignment between storage kinds *)
Theorem C103_cauchy_green : forall n C F, full n F ->
  (exists m, symmT m C) \/ (symm33 C /\ n <> 2%nat) ->
  symmT n (rightCG C F) /\ meq n (M (rightCG C F)) (mmul n (mtr (M F)) (M F)) /\
  symmT n (leftCG C F) /\ meq n (M (leftCG C F)) (mmul n (M F) (mtr (M F))).
Proof. exact cg_ok. Qed.
Print Assumptions C103_cauchy_green.

(** A 2D tensor with the 33 component gets the shear in the 33 slot and keeps its old
    shear component. *)
Theorem C103_cauchy_green_33_refuted :
  ~ (forall C F, symm33 C -> full 2 F ->
       meq 2 (M (rightCG C F)) (mmul 2 (mtr (M F)) (M F))).
Proof.
  intros H. specialize (H (mkT 2 true [0; 0; 0; 0]) (mkT 2 false [1; 0; 1; 1]) ltac:(wf) ltac:(wf)
    1%nat 2%nat ltac:(lia) ltac:(lia)). revert H. ev. lra.
Qed.
Print Assumptions C103_cauchy_green_33_refuted.

Theorem C103_dyad : forall n T u, symmT n T ->
  symmT n (outerProd T u) /\ meq n (M (outerProd T u)) (dyad u).
Proof. exact outer_ok. Qed.
Print Assumptions C103_dyad.
Theorem C103_dyad_33_refuted :
  ~ (forall T u, symm33 T -> meq 2 (M (outerProd T u)) (dyad u)).
Proof.
  intros H. specialize (H (mkT 2 true [0; 0; 0; 0]) (V3 1 1 0) ltac:(wf)
    1%nat 2%nat ltac:(lia) ltac:(lia)). revert H. ev. lra.
Qed.
Print Assumptions C103_dyad_33_refuted.

(** The product of symmetric tensors is the upper triangle of the matrix product; it is
    the product when the factors commute. *)
Theorem C103_symmetric_product : forall n A B, symmT n A -> symmT n B ->
  meq n (M (smul A B)) (upper (mmul n (M A) (M B))) /\
  (meq n (mmul n (M A) (M B)) (mmul n (M B) (M A)) ->
   meq n (M (smul A B)) (mmul n (M A) (M B))).
Proof.
  intros n A B HA HB. destruct (smul_ok n A B HA HB) as [_ H]. split; [exact H|].
  intros HC i j Hi Hj. rewrite (H i j Hi Hj). unfold upper.
  destruct (Nat.le_ge_cases i j) as [L | L].
  - now rewrite Nat.min_l, Nat.max_r by exact L.
  - rewrite Nat.min_r, Nat.max_l by exact L. rewrite (HC i j Hi Hj).
    clear HC H L. revert i j Hi Hj. scase HA; scase HB; try discriminate; ij; ev; ring.
Qed.
Print Assumptions C103_symmetric_product.
Theorem C103_symmetric_product_33_refuted :
  ~ (forall A, symm33 A -> meq 2 (M A) mid -> meq 2 (M (smul A A)) mid).
Proof.
  intros H. specialize (H (mkT 2 true [1; 1; 1; 0]) ltac:(wf) ltac:(ij; reflexivity)
    1%nat 2%nat ltac:(lia) ltac:(lia)). revert H. ev. lra.
Qed.
Print Assumptions C103_symmetric_product_33_refuted.

Theorem C103_assignment : forall A T n,
  (full n A -> (exists m, full m T \/ symmT m T) -> meq n (M (assign A T)) (M T)) /\
  (full n A -> symm33 T -> n <> 2%nat -> meq n (M (assign A T)) (M T)) /\
  (symmT n A -> (exists m, symmT m T) -> meq n (M (assign A T)) (M T)) /\
  (symmT n A -> (exists m, full m T) -> meq n (M (assign A T)) (upper (M T))) /\
  (symm33 A -> symm33 T -> meq 3 (M (assign A T)) (M T)) /\
  (symm33 A -> symmT 3 T -> meq 2 (M (assign A T)) (M T) /\
     M (assign A T) 3%nat 3%nat = M T 3%nat 3%nat).
Proof.
  intros A T n. repeat split.
  - intros HA (m & [HT | HT]); [eapply assign_ff | eapply assign_fs]; eassumption.
  - intros HA HT Hn. now apply assign_f33.
  - intros HA (m & HT). eapply assign_ss; eassumption.
  - intros HA (m & HT). eapply assign_sf; eassumption.
  - intros HA HT. now apply assign_3333.
  - now apply assign_33s3.
  - now apply assign_33s3.
Qed.
Print Assumptions C103_assignment.

(** A plane strain stress loses its 33 component when it is assigned to a 3D symmetric
    tensor, a 2D stress leaves an old 33 component alone, and a full 2D tensor gets the
    components of a plane strain one in the wrong places. *)
Theorem C103_assignment_33_refuted :
  (exists A T, symmT 3 A /\ symm33 T /\ M (assign A T) 3%nat 3%nat <> M T 3%nat 3%nat) /\
  (exists A T, symm33 A /\ symmT 2 T /\ M (assign A T) 3%nat 3%nat <> M T 3%nat 3%nat) /\
  (exists A T, full 2 A /\ symm33 T /\ M (assign A T) 2%nat 2%nat <> M T 2%nat 2%nat).
Proof.
  split; [|split].
  - exists (mkT 3 true [0;0;0;0;0;0]), (mkT 2 true [1;1;1;0]).
    split; [wf|]. split; [wf|]. ev. lra.
  - exists (mkT 2 true [0;0;1;0]), (mkT 2 true [1;1;0]).
    split; [wf|]. split; [wf|]. ev. lra.
  - exists (mkT 2 false [0;0;0;0]), (mkT 2 true [1;1;1;0]).
    split; [wf|]. split; [wf|]. ev. lra.
Qed.
Print Assumptions C103_assignment_33_refuted.

Example C103_meets : full 2 (mkT 2 false [1; 0; 1; 1]) /\ symmT 2 (mkT 2 true [0; 0; 0]) /\
  tv (rightCG (mkT 2 true [0; 0; 0]) (mkT 2 false [1; 0; 1; 1])) = [1; 2; 1] /\
  tv (leftCG (mkT 2 true [0; 0; 0]) (mkT 2 false [1; 0; 1; 1])) = [2; 1; 1].
Proof. repeat split; try (simpl; lia); ev; repeat f_equal; ring. Qed.

(** ** C104: local axes *)
Theorem C104_axes_from_normal : forall vn b, ntol < vlength vn ->
  rotation 3 (M (axes1 vn b)) /\ along (col (axes1 vn b) (if b then 1 else 3)) vn.
Proof. exact axes1_ok. Qed.
Print Assumptions C104_axes_from_normal.

Theorem C104_axes_from_tangents : forall t1 t2 z xz,
  ntol < vlength t1 -> ntol < vlength (cross t1 t2) ->
  rotation 3 (M (axes2 t1 t2 z xz)) /\
  along (col (axes2 t1 t2 z xz) (if z then 3 else 1)) t1 /\
  (xz = false -> along (col (axes2 t1 t2 z xz) (if z then 2 else 3)) (cross t1 t2)) /\
  (xz = true -> along (col (axes2 t1 t2 z xz) (if z then 1 else 2)) (cross t2 t1)).
Proof. exact axes2_ok. Qed.
Print Assumptions C104_axes_from_tangents.

Example C104_meets : ntol < vlength (V3 3 4 0) /\ ntol < vlength (cross (V3 3 4 0) (V3 0 1 1)).
Proof. split; apply half_len; unfold dotv, cross; simpl; lra. Qed.

(** ** C105: principal values *)
Theorem C105_principal_2D : forall T sorted, symmT 2 T ->
  exists p, principal T sorted = Some p /\ vy p <= vx p /\ vz p = 0 /\
    forall x, mdet 2 (shiftm x (M T)) = (x - vx p) * (x - vy p).
Proof.
  intros T sorted H. scase H; try discriminate.
  match goal with |- context [mkT 2 true [?a; ?b; ?c]] => rename a into A; rename b into B; rename c into C end.
  unfold principal. cbn [tdim tv length Nat.ltb Nat.leb Nat.eqb v_ nth].
  remember ((A + B) * (A + B) - 4 * (A * B - C * C)) as P eqn:HP0.
  assert (HP : P = (A - B) * (A - B) + 4 * (C * C)) by (rewrite HP0; ring).
  pose proof (Rle_0_sqr (A - B)) as S1. pose proof (Rle_0_sqr C) as S2. unfold Rsqr in S1, S2.
  destruct (Rlt_dec 0 P) as [L | L].
  - eexists. split; [reflexivity|]. cbn [vx vy vz].
    pose proof (sqrt_lt_R0 P L). pose proof (sqrt_sqrt P ltac:(lra)) as E.
    split; [lra|]. split; [reflexivity|]. intros x. ev.
    replace ((x - (A + B + sqrt P) / 2) * (x - (A + B - sqrt P) / 2))
      with (x * x - (A + B) * x + ((A + B) * (A + B) - sqrt P * sqrt P) / 4) by field.
    rewrite E, HP0. field.
  - assert (P = 0) as E by lra.
    destruct (Rlt_dec (- / 10 ^ 16) P) as [L2 | L2].
    + eexists. split; [reflexivity|]. cbn [vx vy vz]. split; [lra|]. split; [reflexivity|].
      intros x. ev.
      replace ((x - (A + B) / 2) * (x - (A + B) / 2))
        with (x * x - (A + B) * x + ((A + B) * (A + B) - P) / 4) by (rewrite E; field).
      rewrite HP0. field.
    + exfalso. apply L2. rewrite E.
      assert (0 < / 10 ^ 16) by (apply Rinv_0_lt_compat; apply pow_lt; lra). lra.
Qed.
Print Assumptions C105_principal_2D.

(** A hydrostatic stress is reported to have the principal values zero. *)
Theorem C105_hydrostatic_refuted : forall s sorted, s <> 0 ->
  symmT 3 (mkT 3 true [s; s; s; 0; 0; 0]) /\
  principal (mkT 3 true [s; s; s; 0; 0; 0]) sorted = Some (V3 0 0 0) /\
  mdet 3 (shiftm 0 (M (mkT 3 true [s; s; s; 0; 0; 0]))) <> 0.
Proof.
  intros s sorted Hs. split; [wf|]. split.
  - unfold principal, trace. cbn [tdim tsymm tv length Nat.ltb Nat.leb Nat.eqb v_ nth orb].
    assert (E : s - (s + s + s) / 3 = 0) by field. rewrite !E.
    destruct (Rle_dec _ _) as [L | L]; [reflexivity|]. exfalso. apply L.
    pose proof (Rle_0_sqr ((s + s + s) / 3)) as Q. unfold Rsqr in Q.
    assert (0 < / 10 ^ 12) as T by (apply Rinv_0_lt_compat; apply pow_lt; lra).
    rewrite Rmult_assoc. pose proof (Rmult_le_pos _ _ (Rlt_le _ _ T) Q). lra.
  - ev. intros E.
    assert (s * s * s = 0) as E2.
    { rewrite <- (Ropp_involutive (s * s * s)). apply Ropp_eq_0_compat. rewrite <- E. ring. }
    apply Rmult_integral in E2. destruct E2 as [E2 | E2]; [|contradiction].
    apply Rmult_integral in E2. tauto.
Qed.
Print Assumptions C105_hydrostatic_refuted.

(** The iterative version never visits the pair (1,3): it answers with the diagonal and the
    coordinate axes for a tensor whose only shear is s13. *)
Lemma jrot_zero : forall thres d e z Q i, (i = 1 \/ i = 2)%nat ->
  jrot thres (J d (V3 0 0 e) z Q) i = J d (V3 0 0 e) z Q.
Proof.
  intros thres d e z Q i Hi. unfold jrot. cbn [jd ja jz jq].
  assert (vget (V3 0 0 e) i = 0) as -> by (destruct Hi as [-> | ->]; reflexivity).
  rewrite Rabs_R0.
  destruct (Req_EM_T (Rabs (vget d i) + 100 * 0) (Rabs (vget d i))); [|exfalso; lra].
  destruct (Req_EM_T (Rabs (vget d (i mod 3 + 1)) + 100 * 0) (Rabs (vget d (i mod 3 + 1))));
    [|exfalso; lra].
  cbn [andb]. destruct Hi as [-> | ->]; reflexivity.
Qed.
Lemma jiter_zero : forall fuel it p e Q, jiter fuel it p p (V3 0 0 e) Q = (p, V3 0 0 e, Q).
Proof.
  induction fuel as [|f IH]; intros it p e Q; [reflexivity|]. cbn [jiter].
  destruct (Rlt_dec _ _); [reflexivity|]. cbn [fold_left].
  rewrite !jrot_zero by lia. cbn [jz ja jq].
  assert (vadd p (V3 0 0 0) = p) as -> by (destruct p; unfold vadd; simpl; f_equal; ring).
  apply IH.
Qed.
Theorem C105_iterative_refuted : forall d1 d2 d3 e, e <> 0 -> d1 <> d2 ->
  let T := mkT 3 true [d1; d2; d3; 0; 0; e] in
  symmT 3 T /\
  (exists rest, principal_dir T =
     Some (V3 d1 d2 d3, rest, mkT 3 false [1; 0; 0; 0; 1; 0; 0; 0; 1])) /\
  mdet 3 (shiftm d1 (M T)) <> 0.
Proof.
  intros d1 d2 d3 e He Hd T. split; [unfold T; wf|]. split.
  - exists (V3 0 0 e). unfold principal_dir, T. cbn [tdim tv v_ nth Nat.eqb].
    rewrite jiter_zero. reflexivity.
  - unfold T. ev. intros E.
    assert ((d1 - d2) * (e * e) = 0) as E2.
    { rewrite <- (Ropp_involutive ((d1 - d2) * (e * e))). apply Ropp_eq_0_compat. rewrite <- E. ring. }
    apply Rmult_integral in E2. destruct E2 as [E2 | E2]; [lra|].
    apply Rmult_integral in E2. tauto.
Qed.
Print Assumptions C105_iterative_refuted.
