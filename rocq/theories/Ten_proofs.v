(** Proofs about tensor algebra. *)
From Coq Require Import Reals List Bool ZArith Lia Lra Arith.
From Verif Require Import Ten_model Ten_spec.
Import ListNotations.
Local Open Scope R_scope.

Lemma len1 : forall l : list R, length l = 1%nat -> exists a, l = [a].
Proof. intros [|a [|? ?]] H; try discriminate H. now exists a. Qed.
Lemma len3 : forall l : list R, length l = 3%nat -> exists a b c, l = [a; b; c].
Proof. intros [|a [|b [|c [|? ?]]]] H; try discriminate H. now exists a, b, c. Qed.
Lemma len4 : forall l : list R, length l = 4%nat -> exists a b c d, l = [a; b; c; d].
Proof. intros [|a [|b [|c [|d [|? ?]]]]] H; try discriminate H. now exists a, b, c, d. Qed.
Lemma len6 : forall l : list R, length l = 6%nat -> exists a b c d e f, l = [a; b; c; d; e; f].
Proof.
  intros [|a [|b [|c [|d [|e [|f [|? ?]]]]]]] H; try discriminate H.
  now exists a, b, c, d, e, f.
Qed.
Lemma len9 : forall l : list R, length l = 9%nat ->
  exists a b c d e f g h i, l = [a; b; c; d; e; f; g; h; i].
Proof.
  intros [|a [|b [|c [|d [|e [|f [|g [|h [|i [|? ?]]]]]]]]]] H; try discriminate H.
  now exists a, b, c, d, e, f, g, h, i.
Qed.

Lemma full_inv : forall n T, full n T ->
  (n = 1%nat /\ exists a, T = mkT 1 false [a]) \/
  (n = 2%nat /\ exists a b c d, T = mkT 2 false [a; b; c; d]) \/
  (n = 3%nat /\ exists a b c d e f g h i, T = mkT 3 false [a; b; c; d; e; f; g; h; i]).
Proof.
  intros n [m s l] (Hn & Hd & Hs & Hl). simpl in *. subst.
  assert (n = 1 \/ n = 2 \/ n = 3)%nat as [-> | [-> | ->]] by lia; simpl in Hl.
  - left. split; [reflexivity|]. destruct (len1 _ Hl) as (a & ->). now exists a.
  - right; left. split; [reflexivity|].
    destruct (len4 _ Hl) as (a & b & c & d & ->). now exists a, b, c, d.
  - right; right. split; [reflexivity|].
    destruct (len9 _ Hl) as (a & b & c & d & e & f & g & h & i & ->).
    now exists a, b, c, d, e, f, g, h, i.
Qed.
Lemma symm_inv : forall n T, symmT n T ->
  (n = 1%nat /\ exists a, T = mkT 1 true [a]) \/
  (n = 2%nat /\ exists a b c, T = mkT 2 true [a; b; c]) \/
  (n = 3%nat /\ exists a b c d e f, T = mkT 3 true [a; b; c; d; e; f]).
Proof.
  intros n [m s l] (Hn & Hd & Hs & Hl). simpl in *. subst.
  assert (n = 1 \/ n = 2 \/ n = 3)%nat as [-> | [-> | ->]] by lia; simpl in Hl.
  - left. split; [reflexivity|]. destruct (len1 _ Hl) as (a & ->). now exists a.
  - right; left. split; [reflexivity|].
    destruct (len3 _ Hl) as (a & b & c & ->). now exists a, b, c.
  - right; right. split; [reflexivity|].
    destruct (len6 _ Hl) as (a & b & c & d & e & f & ->).
    now exists a, b, c, d, e, f.
Qed.
Lemma symm33_inv : forall T, symm33 T -> exists a b c d, T = mkT 2 true [a; b; c; d].
Proof.
  intros [m s l] (Hd & Hs & Hl). simpl in *. subst.
  destruct (len4 _ Hl) as (a & b & c & d & ->). now exists a, b, c, d.
Qed.

Ltac fcase H :=
  destruct (full_inv _ _ H) as [(? & ? & ?) | [(? & ? & ? & ? & ? & ?) |
    (? & ? & ? & ? & ? & ? & ? & ? & ? & ? & ?)]]; subst; clear H.
Ltac scase H :=
  destruct (symm_inv _ _ H) as [(? & ? & ?) | [(? & ? & ? & ? & ?) |
    (? & ? & ? & ? & ? & ? & ? & ?)]]; subst; clear H.
Ltac s33case H := destruct (symm33_inv _ H) as (? & ? & ? & ? & ?); subst; clear H.

Lemma le3 : forall i n, (1 <= i <= n)%nat -> (n <= 3)%nat -> i = 1%nat \/ i = 2%nat \/ i = 3%nat.
Proof. intros. lia. Qed.

(** Entry by entry. *)
Ltac ij :=
  let i := fresh "i" in let j := fresh "j" in let Hi := fresh "Hi" in let Hj := fresh "Hj" in
  intros i j Hi Hj;
  destruct (le3 i _ Hi ltac:(simpl; lia)) as [-> | [-> | ->]];
  destruct (le3 j _ Hj ltac:(simpl; lia)) as [-> | [-> | ->]];
  try (exfalso; simpl in Hi, Hj; lia); clear Hi Hj.
Ltac ev := cbv -[Rplus Rmult Rminus Ropp Rdiv Rinv IZR sqrt sin cos acos atan PI Rabs Rlt_dec
  Rle_dec Req_EM_T pow].
Ltac wf := repeat split; simpl; lia.

Lemma tmul_ok : forall n m A B, full n A -> full m B ->
  full (Nat.min n m) (tmul A B) /\
  meq (Nat.min n m) (M (tmul A B)) (mmul (Nat.min n m) (M A) (M B)).
Proof.
  intros n m A B HA HB. fcase HA; fcase HB; (split; [wf|]); ij; ev; ring.
Qed.

Lemma postMult_ok : forall n m T B, full n T -> full m B ->
  full n (postMult T (Some B)) /\
  meq (Nat.min n m) (M (postMult T (Some B))) (mmul (Nat.min n m) (M T) (M B)) /\
  (forall i j, (1 <= i <= n)%nat -> (1 <= j <= n)%nat -> (m < i \/ m < j)%nat ->
     M (postMult T (Some B)) i j = M T i j).
Proof.
  intros n m A B HA HB. fcase HA; fcase HB; (split; [wf|]); (split; [ij; ev; ring|]); ij; intros Hm;
  first [exfalso; lia | ev; reflexivity].
Qed.
Lemma preMult_ok : forall n m T B, full n T -> full m B ->
  full n (preMult T (Some B)) /\
  meq (Nat.min n m) (M (preMult T (Some B))) (mmul (Nat.min n m) (M B) (M T)) /\
  (forall i j, (1 <= i <= n)%nat -> (1 <= j <= n)%nat -> (m < i \/ m < j)%nat ->
     M (preMult T (Some B)) i j = M T i j).
Proof.
  intros n m A B HA HB. fcase HA; fcase HB; (split; [wf|]); (split; [ij; ev; ring|]); ij; intros Hm;
  first [exfalso; lia | ev; reflexivity].
Qed.

Lemma tvec_ok : forall T v, full 3 T ->
  tvec T v = V3 (rsum (fun k => M T 1%nat k * vget v k) 3) (rsum (fun k => M T 2%nat k * vget v k) 3)
                (rsum (fun k => M T 3%nat k * vget v k) 3) /\
  vtvec v T = V3 (rsum (fun k => M T k 1%nat * vget v k) 3) (rsum (fun k => M T k 2%nat * vget v k) 3)
                (rsum (fun k => M T k 3%nat * vget v k) 3).
Proof.
  intros T v HT. fcase HT; try discriminate. destruct v. ev. split; f_equal; ring.
Qed.

Lemma transpose_ok : forall n T, full n T ->
  full n (transpose T) /\ meq n (M (transpose T)) (mtr (M T)).
Proof. intros n T H. fcase H; (split; [wf|]); ij; ev; reflexivity. Qed.
Lemma symmetrize_ok : forall n T, full n T ->
  full n (symmetrize T) /\ meq n (M (symmetrize T)) (fun i j => (M T i j + M T j i) / 2).
Proof. intros n T H. fcase H; (split; [wf|]); ij; ev; field. Qed.

Lemma trace_ok : forall n T, full n T -> trace T = mtrace n (M T).
Proof. intros n T H. fcase H; ev; ring. Qed.
Lemma det_ok : forall n T, full n T -> det T = mdet n (M T).
Proof. intros n T H. fcase H; ev; ring. Qed.
Lemma det_mul : forall n A B, full n A -> full n B -> det (tmul A B) = det A * det B.
Proof.
  intros n A B HA HB. fcase HA; fcase HB; try discriminate; ev; ring.
Qed.

Lemma inverse_split : forall T tol, 0 <= tol -> tol < Rabs (det T) ->
  inverse T tol = (mkT (tdim T) (tsymm T) (invbody T (det T)), det T) /\ det T <> 0.
Proof.
  intros T tol H0 H. unfold inverse.
  assert (det T <> 0) by (intro E; rewrite E, Rabs_R0 in H; lra).
  destruct (Rle_dec (det T) tol); [destruct (Rle_dec (- tol) (det T))|]; auto.
  exfalso. revert H. unfold Rabs. destruct (Rcase_abs (det T)); lra.
Qed.

Lemma inverse_full : forall n T tol, full n T -> 0 <= tol -> tol < Rabs (det T) ->
  let r := inverse T tol in
  full n (fst r) /\ snd r = det T /\
  meq n (mmul n (M (fst r)) (M T)) mid /\ meq n (mmul n (M T) (M (fst r))) mid.
Proof.
  intros n T tol H H0 Ht r. subst r.
  destruct (inverse_split T tol H0 Ht) as [-> Hd]. simpl fst. simpl snd.
  clear Ht H0.
  fcase H; (split; [wf|]); (split; [reflexivity|]); revert Hd; ev; intros Hd.
  - split; ij; ev; field; assumption.
  - split; ij; ev; field; assumption.
  - split; ij; ev; field; assumption.
Qed.
Lemma inverse_fail : forall T tol, Rabs (det T) <= tol -> inverse T tol = (T, 0).
Proof.
  intros T tol H. unfold inverse.
  assert (det T <= tol /\ - tol <= det T) as [H1 H2]
    by (revert H; unfold Rabs; destruct (Rcase_abs (det T)); lra).
  destruct (Rle_dec (det T) tol); [destruct (Rle_dec (- tol) (det T))|]; tauto.
Qed.
