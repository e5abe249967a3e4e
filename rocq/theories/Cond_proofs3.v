(** Proofs for the static condensation: the reduced system and the recovery. *)
From Coq Require Import List Arith ZArith QArith Qcanon Bool Lia Permutation Sorted.
From Verif Require Import Base SAM_model SAM_spec Sparse_model Sparse_spec Sparse_proofs Sparse_proofs2 Sparse_proofs3 Sparse_proofs6 Sparse_proofs7
  Mat_model Mat_spec Mat_proofs Mat_proofs2 Mat_proofs4 Mat_proofs6 Cond_model Cond_spec Cond_proofs Cond_proofs2.
Import ListNotations.
Local Open Scope nat_scope.

Lemma getColumn_any M c : wf M -> st M = EdP -> 1 <= c <= ncol M ->
  length (snd (Sparse_model.getColumn M c)) = nrow M /\ forall r, 1 <= r <= nrow M -> nth (r-1) (snd (Sparse_model.getColumn M c)) 0%Qc = val (stored M) r c.
Proof.
  intros W Hst Hc. assert (Hs : st M <> Compr) by congruence. destruct (Sparse_model.elem M) as [|e l] eqn:Ee.
  - unfold Sparse_model.getColumn. rewrite Ee. cbn [orb snd]. split; [apply repeat_length|]. intros r Hr. rewrite stored_E, Ee by exact Hs. unfold val. cbn. apply nth_repeat.
  - destruct (getColumn_spec M c W Hs) as (y & -> & L & N); [congruence|exact Hc|]. cbn [snd]. split; [exact L|exact N].
Qed.
Lemma vminus_nth : forall a b k, length a = length b -> nth k (vminus a b) 0%Qc = (nth k a 0 - nth k b 0)%Qc.
Proof.
  induction a as [|x a IH]; intros [|y b] k H; try discriminate; [destruct k; cbn; ring|]. destruct k as [|k]; [reflexivity|]. cbn. apply IH. cbn in H. lia.
Qed.
Lemma vminus_len a b : length a = length b -> length (vminus a b) = length a.
Proof. intros H. unfold vminus. rewrite map_length, combine_length. lia. Qed.

(** sums with 1-based column numbers *)
Lemma qs_sumTo1 n f : qs f (seq 1 n) = sumTo n (fun k => f (S k)).
Proof. unfold sumTo. rewrite <- seq_shift, qs_map. reflexivity. Qed.
Definition V (M : spm) (i j : nat) : Qc := val (stored M) (S i) (S j).
Lemma solves_V M R x : nrow M = ncol M -> solves M R x <-> length x = ncol M /\ forall i, i < nrow M -> sumTo (ncol M) (fun k => V M i k * nth k x 0)%Qc = nth i R 0%Qc.
Proof.
  intros Sq. unfold solves. split; intros [L H]; (split; [exact L|]).
  - intros i Hi. specialize (H (S i) ltac:(lia)). rewrite qs_sumTo1 in H. cbn [Nat.sub] in H. rewrite Nat.sub_0_r in H. rewrite <- H. apply sumTo_ext. intros k _. rewrite Nat.sub_0_r. reflexivity.
  - intros r Hr. rewrite qs_sumTo1. rewrite <- H by lia. apply sumTo_ext. intros k _. cbn [Nat.sub]. rewrite Nat.sub_0_r. unfold V. replace (S (r - 1)) with r by lia. reflexivity.
Qed.
Lemma multiply_V M x : wf M -> st M = EdP -> length x = ncol M ->
  exists y, Sparse_model.multiply M x = Some (true, y) /\ length y = nrow M /\ forall i, i < nrow M -> nth i y 0%Qc = sumTo (ncol M) (fun k => V M i k * nth k x 0)%Qc.
Proof.
  intros W Hst L. destruct (multiply_spec M x W) as (y & E & Ly & N); [congruence|lia|]. exists y. split; [exact E|]. split; [exact Ly|]. intros i Hi. specialize (N (S i) ltac:(lia)).
  rewrite qs_sumTo1 in N. cbn [Nat.sub] in N. rewrite Nat.sub_0_r in N. rewrite N. apply sumTo_ext. intros k _. rewrite Nat.sub_0_r. reflexivity.
Qed.

Section Cols.
Variables (solve : spm -> list Qc -> option (list Qc)) (A11 A21 A12 A22 : spm) (n1 n2 : nat).
Hypothesis GS : goodSolver solve.
Hypothesis W11 : wf A11. Hypothesis W21 : wf A21. Hypothesis W12 : wf A12. Hypothesis W22 : wf A22.
Hypothesis S21 : st A21 = EdP. Hypothesis S12 : st A12 = EdP. Hypothesis S22 : st A22 = EdP.
Hypothesis D11 : nrow A11 = n1 /\ ncol A11 = n1. Hypothesis D21 : nrow A21 = n2 /\ ncol A21 = n1.
Hypothesis D12 : nrow A12 = n1 /\ ncol A12 = n2. Hypothesis D22 : nrow A22 = n2 /\ ncol A22 = n2.

Lemma condCols_ok : forall k j0 B f, isMat n2 n2 f B -> j0 + k <= n2 ->
  exists r, condCols solve A11 A21 A12 A22 (seq (S j0) k) B = Some r /\ forall B' cols, r = Some (B', cols) ->
    exists Ys f', cols = map (map Qcopp) Ys /\ length Ys = k /\ isMat n2 n2 f' B' /\
      (forall j, j < k -> length (nth j Ys []) = n1 /\ forall i, i < n1 -> sumTo n1 (fun m => V A11 i m * nth m (nth j Ys []) 0)%Qc = V A12 i (j0 + j)) /\
      (forall i j, i < n2 -> j < n2 -> f' i j = if (j0 <=? j) && (j <? j0 + k) then (V A22 i j - sumTo n1 (fun m => V A21 i m * nth m (nth (j - j0) Ys []) 0))%Qc else f i j).
Proof.
  induction k as [|k IH]; intros j0 B f HB Hk.
  - eexists. split; [reflexivity|]. intros B' cols [= <- <-]. exists [], f. split; [reflexivity|]. split; [reflexivity|]. split; [exact HB|]. split; [intros; lia|].
    intros i j Hi Hj. replace ((j0 <=? j) && (j <? j0 + 0)) with false by lia. reflexivity.
  - cbn [seq condCols]. destruct D11 as [Da Db], D21 as [Dc Dd], D12 as [De Df], D22 as [Dg Dh].
    destruct (getColumn_any A12 (S j0) W12 S12 ltac:(lia)) as [L12 N12]. destruct (getColumn_any A22 (S j0) W22 S22 ltac:(lia)) as [L22 N22].
    destruct (solve A11 (snd (Sparse_model.getColumn A12 (S j0)))) as [y|] eqn:Es; [|eexists; split; [reflexivity|intros; discriminate]].
    destruct (GS A11 (snd (Sparse_model.getColumn A12 (S j0))) y W11 ltac:(congruence) ltac:(congruence) Es) as [Sy _]. apply solves_V in Sy; [|congruence]. destruct Sy as [Ly Sy].
    destruct (multiply_V A21 y W21 S21 ltac:(congruence)) as (t & -> & Lt & Nt).
    destruct (fillColumn_ok n2 n2 f B (S j0) (vminus (snd (Sparse_model.getColumn A22 (S j0))) t) HB ltac:(lia)) as (B1 & -> & HB1).
    destruct (IH (S j0) B1 _ HB1 ltac:(lia)) as (r & Er & Hr). rewrite Er. destruct r as [[B2 cols2]|]; [|eexists; split; [reflexivity|intros; discriminate]].
    eexists. split; [reflexivity|]. intros B' cols [= <- <-]. destruct (Hr _ _ eq_refl) as (Ys & f' & -> & LY & HB2 & HY & Hf').
    exists (y :: Ys), f'. split; [reflexivity|]. split; [cbn; lia|]. split; [exact HB2|]. split.
    + intros [|j] Hj.
      * cbn [nth]. split; [congruence|]. intros i Hi. rewrite Db in Sy. rewrite Sy by lia. replace (j0 + 0) with j0 by lia. unfold V. rewrite <- N12 by lia. f_equal. lia.
      * cbn [nth]. replace (j0 + S j) with (S j0 + j) by lia. apply HY. lia.
    + intros i j Hi Hj. rewrite Hf' by assumption. destruct (Nat.eq_dec j j0) as [->|Hne].
      * replace ((S j0 <=? j0) && (j0 <? S j0 + k)) with false by lia. replace ((j0 <=? j0) && (j0 <? j0 + S k)) with true by lia. rewrite Nat.sub_diag. cbn [nth].
        rewrite vminus_len by congruence. rewrite L22, Dg. replace ((j0 =? S j0 - 1) && (i <? n2)) with true by lia. rewrite vminus_nth by congruence. rewrite Nt by lia. rewrite Dd. f_equal. unfold V. rewrite <- N22 by lia. f_equal. lia.
      * replace ((j0 <=? j) && (j <? j0 + S k)) with ((S j0 <=? j) && (j <? S j0 + k)) by lia. destruct ((S j0 <=? j) && (j <? S j0 + k)) eqn:Eb.
        -- replace (j - j0) with (S (j - S j0)) by lia. reflexivity.
        -- replace (j =? S j0 - 1) with false by lia. reflexivity.
Qed.
End Cols.

Lemma nth_map0 {X} (f : X -> Qc) l d k : f d = 0%Qc -> nth k (map f l) 0%Qc = f (nth k l d).
Proof. intros H. rewrite <- H. apply map_nth. Qed.
Lemma extPart_E2 n l x : increasing n l -> extPart l x = map (fun e => nth (e - 1) x 0%Qc) (E2 l n).
Proof. intros H. rewrite (E2_list n l H), map_map. reflexivity. Qed.

Lemma condense_ok solve s As imat ext l M R A0 r0 c0 f0 : goodSolver solve -> consistent s -> nodesOK s ext -> retained s ext l -> In (Z.of_nat (neq s)) l -> 1 <= length l < neq s ->
  nth_error As imat = Some (Some M, Some R) -> wf M -> editable M = true -> Sparse_model.elem M <> [] -> nrow M = neq s -> ncol M = neq s -> length R = neq s -> isMat r0 c0 f0 A0 ->
  exists r, condense solve s As ext imat A0 = Some r /\ forall red, r = Some red ->
    let n2 := length l in let n1 := neq s - n2 in
    (exists f, isMat n2 n2 f (rA red)) /\ length (rb red) = n2 /\ length (rec red) = 1 + n2 /\ (forall col, In col (rec red) -> length col = n1) /\
    forall x, length x = neq s -> (solves M R x <-> solvesRed red (extPart l x) /\ recovered (rec red) (extPart l x) (intPart l (neq s) x)).
Proof.
  intros GS C NO RT Hlast Hlen HA Hwf Hed Hel Hr Hc HR HM0. pose proof RT as [Hinc _]. destruct (retained_eqs s ext l) as (l0 & EN & ES & EX & _); [apply C|exact NO|exact RT|].
  unfold condense. assert (Himat : imat < length As) by (apply nth_error_Some; congruence). replace (length As <? imat) with false by lia. rewrite HA, EN, EX, ES. apply editable_iff in Hed.
  destruct (split_spec2 M l Hwf Hed Hel) as (A11 & A21 & A12 & A22 & -> & D11 & D21 & D12 & D22 & (T0 & T1 & T2 & T3) & _ & (W0 & W1 & W2 & W3) & HV); [congruence|rewrite Hr; exact Hinc|rewrite Hr; exact Hlen|].
  rewrite Hr in *. rewrite (parts_ok (neq s) l R Hinc Hlast HR). pose proof (E1_len _ _ Hinc) as L1. pose proof (E2_len _ _ Hinc) as L2. set (n := neq s) in *. set (n2 := length l) in *. set (n1 := n - n2) in *.
  pose proof D11 as [D11a D11b]. pose proof D21 as [D21a D21b]. rewrite !map_length, L1, L2, D11a, D21a, !Nat.eqb_refl. cbn [andb negb].
  set (R1 := map (fun e => nth (e - 1) R 0%Qc) (E1 l n)). set (R2 := map (fun e => nth (e - 1) R 0%Qc) (E2 l n)).
  destruct (solve A11 R1) as [y|] eqn:Esy; [|eexists; split; [reflexivity|intros; discriminate]].
  destruct (GS A11 R1 y W0 ltac:(congruence) ltac:(unfold R1; rewrite map_length; congruence) Esy) as [Sy Uy]. apply solves_V in Sy; [|congruence]. destruct Sy as [Ly Sy]. rewrite D11a, D11b in *.
  destruct (multiply_V A21 y W1 T1 ltac:(congruence)) as (t & -> & Lt & Nt). rewrite D21a, D21b in *.
  destruct (resize_any r0 c0 n2 n2 f0 A0 HM0) as (g & HB).
  destruct (condCols_ok solve A11 A21 A12 A22 n1 n2 GS W0 W1 W2 W3 T1 T2 T3 (conj D11a D11b) (conj D21a D21b) D12 D22 n2 0 _ g HB ltac:(lia)) as (r & Er & Hcols). change (seq 1 n2) with (seq 1 n2) in Er. rewrite Er.
  destruct r as [[B cols]|]; [|eexists; split; [reflexivity|intros; discriminate]]. eexists. split; [reflexivity|]. intros red [= <-]. cbn [rA rb rec].
  destruct (Hcols _ _ eq_refl) as (Ys & f & -> & LY & HBf & HY & Hf). assert (LR2 : length R2 = n2) by (unfold R2; rewrite map_length; exact L2).
  split; [exists f; exact HBf|]. split; [rewrite vminus_len by congruence; exact LR2|]. split; [cbn [length]; rewrite map_length; lia|]. split.
  { intros col [<-|Hin]; [exact Ly|]. apply in_map_iff in Hin. destruct Hin as (Yj & <- & Hin). rewrite map_length. apply In_nth with (d := []) in Hin. destruct Hin as (j & Hj & <-). apply HY. lia. }
  intros x Lx.
  (* blocks *)
  set (x1 := fun k => nth (nth k (E1 l n) 0 - 1) x 0%Qc). set (x2 := fun j => nth (nth j (E2 l n) 0 - 1) x 0%Qc).
  assert (HV' : forall a b i j, (if a : bool then i < n2 else i < n1) -> (if b : bool then j < n2 else j < n1) ->
     let e := nth i (if a then E2 l n else E1 l n) 0 in let c := nth j (if b then E2 l n else E1 l n) 0 in
     V (if a then (if b then A22 else A21) else (if b then A12 else A11)) i j = val (stored M) e c /\ 1 <= e <= n).
  { intros a b i j Hi Hj e c0'.
    assert (Qe : 1 <= e <= n /\ isB2 l e = a /\ idx l e = S i) by (unfold e; destruct a; [apply E2_idx|apply E1_idx]; auto).
    assert (Qc' : 1 <= c0' <= n /\ isB2 l c0' = b /\ idx l c0' = S j) by (unfold c0'; destruct b; [apply E2_idx|apply E1_idx]; auto).
    destruct Qe as (Q1 & Q2 & Q3), Qc' as (P1 & P2 & P3). specialize (HV e c0' Q1 P1). rewrite Q2, P2, Q3, P3 in HV. split; [exact HV|exact Q1]. }
  assert (Rows : solves M R x <->
     ((forall i, i < n1 -> (sumTo n1 (fun k => V A11 i k * x1 k) + sumTo n2 (fun j => V A12 i j * x2 j))%Qc = nth i R1 0%Qc) /\
      (forall i, i < n2 -> (sumTo n1 (fun k => V A21 i k * x1 k) + sumTo n2 (fun j => V A22 i j * x2 j))%Qc = nth i R2 0%Qc))).
  { assert (Row : forall (a : bool) i, (if a then i < n2 else i < n1) -> let e := nth i (if a then E2 l n else E1 l n) 0 in
       qs (fun c => val (stored M) e c * nth (c - 1) x 0)%Qc (seq 1 n) = (sumTo n1 (fun k => V (if a then A21 else A11) i k * x1 k) + sumTo n2 (fun j => V (if a then A22 else A12) i j * x2 j))%Qc).
    { intros a i Hi e. rewrite (qs_parts _ l n), L1, L2. f_equal; apply sumTo_ext; intros k Hk.
      - pose proof (proj1 (HV' a false i k Hi Hk)) as Q. cbv beta zeta in Q. unfold e, x1. cbv beta. rewrite <- Q. destruct a; reflexivity.
      - pose proof (proj1 (HV' a true i k Hi Hk)) as Q. cbv beta zeta in Q. unfold e, x2. cbv beta. rewrite <- Q. destruct a; reflexivity. }
    unfold solves. rewrite Hr, Hc. split.
    - intros [_ H]. split; intros i Hi.
      + rewrite <- (Row false i Hi). rewrite H by (apply (HV' false false i i Hi Hi)). unfold R1. symmetry. rewrite nth_indep with (d' := (fun e => nth (e - 1) R 0%Qc) 0) by (rewrite map_length; lia). apply (map_nth (fun e => nth (e - 1) R 0%Qc)).
      + rewrite <- (Row true i Hi). rewrite H by (apply (HV' true true i i Hi Hi)). unfold R2. symmetry. rewrite nth_indep with (d' := (fun e => nth (e - 1) R 0%Qc) 0) by (rewrite map_length; lia). apply (map_nth (fun e => nth (e - 1) R 0%Qc)).
    - intros [H1 H2]. split; [exact Lx|]. intros e He. destruct (isB2 l e) eqn:Eb.
      + destruct (filter_pos (isB2 l) n e He Eb) as [P1 P2]. fold (E2 l n) in P1, P2. set (i := length (filter (isB2 l) (seq 1 e)) - 1) in *. assert (Hi : i < n2) by lia. pose proof (Row true i Hi) as Q. cbv beta iota zeta in Q. rewrite P1 in Q. rewrite Q.
        rewrite H2 by exact Hi. unfold R2. rewrite nth_indep with (d' := (fun e => nth (e - 1) R 0%Qc) 0) by (rewrite map_length; lia). rewrite (map_nth (fun e => nth (e - 1) R 0%Qc)), P1. reflexivity.
      + destruct (filter_pos (fun e => negb (existsb (Z.eqb (Z.of_nat e)) l)) n e He) as [P1 P2]; [unfold isB2 in Eb; rewrite Eb; reflexivity|]. fold (E1 l n) in P1, P2. set (i := length (filter _ (seq 1 e)) - 1) in *. assert (Hi : i < n1) by lia. pose proof (Row false i Hi) as Q. cbv beta iota zeta in Q. rewrite P1 in Q. rewrite Q.
        rewrite H1 by exact Hi. unfold R1. rewrite nth_indep with (d' := (fun e => nth (e - 1) R 0%Qc) 0) by (rewrite map_length; lia). rewrite (map_nth (fun e => nth (e - 1) R 0%Qc)), P1. reflexivity. }
  rewrite Rows. rewrite (schur n1 n2 (V A11) (V A12) (V A21) (V A22) (fun k j => nth k (nth j Ys []) 0%Qc) (fun i => nth i R1 0%Qc) (fun i => nth i R2 0%Qc) (fun k => nth k y 0%Qc)).
  2:{ intros i Hi. apply Sy. exact Hi. }
  2:{ intros j Hj i Hi. apply (HY j Hj). exact Hi. }
  2:{ intros z Hz k Hk. assert (Ez : map z (seq 0 n1) = y).
      { apply Uy. apply solves_V; [congruence|]. rewrite D11a, D11b, map_length, seq_length. split; [reflexivity|]. intros i Hi. rewrite <- Hz by exact Hi. apply sumTo_ext. intros m Hm. f_equal.
        rewrite nth_indep with (d' := z 0) by (rewrite map_length, seq_length; exact Hm). rewrite map_nth, seq_nth by exact Hm. reflexivity. }
      rewrite <- Ez. rewrite nth_indep with (d' := z 0) by (rewrite map_length, seq_length; exact Hk). rewrite map_nth, seq_nth by exact Hk. reflexivity. }
  assert (X2 : forall j, j < n2 -> nth j (extPart l x) 0%Qc = x2 j).
  { intros j Hj. rewrite (extPart_E2 n l x Hinc). rewrite nth_indep with (d' := (fun e => nth (e - 1) x 0%Qc) 0) by (rewrite map_length; lia). apply (map_nth (fun e => nth (e - 1) x 0%Qc)). }
  assert (X1 : forall k, k < n1 -> nth k (intPart l n x) 0%Qc = x1 k).
  { intros k Hk. unfold intPart. fold (E1 l n). rewrite nth_indep with (d' := (fun e => nth (e - 1) x 0%Qc) 0) by (rewrite map_length; lia). apply (map_nth (fun e => nth (e - 1) x 0%Qc)). }
  assert (LE : length (extPart l x) = n2) by (unfold extPart; apply map_length). assert (LI : length (intPart l n x) = n1) by (unfold intPart; fold (E1 l n); rewrite map_length; exact L1).
  unfold solvesRed, recovered. cbn [rA rb rec]. rewrite vminus_len, LR2, LE, LI by congruence. cbn [length]. rewrite map_length, LY. destruct HBf as (_ & _ & _ & _ & HBf).
  assert (G1 : forall i, i < n2 -> sumTo n2 (fun j => nth (i + n2 * j) (Mat_model.elem B) 0 * nth j (extPart l x) 0)%Qc = sumTo n2 (fun j => (V A22 i j - sumTo n1 (fun k => V A21 i k * nth k (nth j Ys []) 0)) * x2 j)%Qc).
  { intros i Hi. apply sumTo_ext. intros j Hj. rewrite HBf, Hf, X2 by assumption. replace ((0 <=? j) && (j <? 0 + n2)) with true by lia. rewrite Nat.sub_0_r. reflexivity. }
  assert (G2 : forall k, k < n1 -> sumTo (S n2) (fun j => nth k (nth j (y :: map (map Qcopp) Ys) []) 0 * nth j (1 :: extPart l x) 0)%Qc = (nth k y 0 - sumTo n2 (fun j => nth k (nth j Ys []) 0 * x2 j))%Qc).
  { intros k Hk. rewrite sumTo_S. cbn [nth]. rewrite (sumTo_ext n2 _ (fun j => (- (1)) * (nth k (nth j Ys []) 0 * x2 j))%Qc).
    - rewrite sumTo_scal. ring.
    - intros j Hj. rewrite X2 by exact Hj. change (@nil Qc) with (map Qcopp []) at 1. rewrite map_nth. rewrite (nth_map0 Qcopp _ 0%Qc) by ring. ring. }
  split.
  - intros [H1 H2]. split; [split; [reflexivity|]|].
    + intros i Hi. rewrite G1, H1 by exact Hi. rewrite vminus_nth by congruence. rewrite Nt by exact Hi. reflexivity.
    + intros k Hk. rewrite G2, X1, H2 by exact Hk. reflexivity.
  - intros [[_ H1] H2]. split.
    + intros i Hi. rewrite <- G1 by exact Hi. rewrite H1 by exact Hi. rewrite vminus_nth by congruence. rewrite Nt by exact Hi. reflexivity.
    + intros k Hk. rewrite <- X1, <- G2 by exact Hk. apply H2. exact Hk.
Qed.
