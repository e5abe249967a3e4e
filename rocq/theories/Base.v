(** Shared helpers: finite sums of canonical rationals. *)
From Coq Require Import List Arith ZArith QArith Qcanon Permutation Lia.
Import ListNotations.
Local Open Scope Qc_scope.

(** sum of [f x] over the list [l] *)
Definition qs {A} (f : A -> Qc) (l : list A) : Qc := fold_right (fun x s => f x + s) 0 l.

Lemma qs_nil {A} (f : A -> Qc) : qs f [] = 0. Proof. reflexivity. Qed.
Lemma qs_cons {A} (f : A -> Qc) x l : qs f (x :: l) = f x + qs f l. Proof. reflexivity. Qed.
Lemma qs_app {A} (f : A -> Qc) a b : qs f (a ++ b) = qs f a + qs f b.
Proof. induction a as [|x a IH]; cbn [app]; [rewrite qs_nil; ring|]. rewrite !qs_cons, IH. ring. Qed.
Lemma qs_ext {A} (f g : A -> Qc) l : (forall x, In x l -> f x = g x) -> qs f l = qs g l.
Proof.
  induction l as [|x l IH]; intros H; [reflexivity|]. rewrite !qs_cons. f_equal.
  - apply H. left; reflexivity.
  - apply IH. intros y Hy. apply H. right; exact Hy.
Qed.
Lemma qs_plus {A} (f g : A -> Qc) l : qs (fun x => f x + g x) l = qs f l + qs g l.
Proof. induction l as [|x l IH]; [rewrite !qs_nil; ring|]. rewrite !qs_cons, IH. ring. Qed.
Lemma qs_scal {A} c (f : A -> Qc) l : qs (fun x => c * f x) l = c * qs f l.
Proof. induction l as [|x l IH]; [rewrite !qs_nil; ring|]. rewrite !qs_cons, IH. ring. Qed.
Lemma qs_scal_r {A} c (f : A -> Qc) l : qs (fun x => f x * c) l = qs f l * c.
Proof. induction l as [|x l IH]; [rewrite !qs_nil; ring|]. rewrite !qs_cons, IH. ring. Qed.
Lemma qs_opp {A} (f : A -> Qc) l : qs (fun x => - f x) l = - qs f l.
Proof. induction l as [|x l IH]; [rewrite !qs_nil; ring|]. rewrite !qs_cons, IH. ring. Qed.
Lemma qs_zero {A} (f : A -> Qc) l : (forall x, In x l -> f x = 0) -> qs f l = 0.
Proof.
  intros H. induction l as [|x l IH]; [reflexivity|]. rewrite qs_cons, IH.
  - rewrite H by (left; reflexivity). ring.
  - intros y Hy. apply H. right; exact Hy.
Qed.
Lemma qs_swap {A B} (f : A -> B -> Qc) (l : list A) (k : list B) :
  qs (fun x => qs (f x) k) l = qs (fun y => qs (fun x => f x y) l) k.
Proof.
  induction l as [|x l IH].
  - rewrite qs_nil. symmetry. apply qs_zero. reflexivity.
  - rewrite qs_cons, IH. rewrite <- qs_plus. apply qs_ext. reflexivity.
Qed.
Lemma qs_map {A B} (g : A -> B) (f : B -> Qc) l : qs f (map g l) = qs (fun x => f (g x)) l.
Proof. induction l as [|x l IH]; [reflexivity|]. cbn [map]. rewrite !qs_cons, IH. reflexivity. Qed.
Lemma qs_flat_map {A B} (g : A -> list B) (f : B -> Qc) l :
  qs f (flat_map g l) = qs (fun x => qs f (g x)) l.
Proof. induction l as [|x l IH]; [reflexivity|]. cbn [flat_map]. rewrite qs_app, qs_cons, IH. reflexivity. Qed.
Lemma qs_perm {A} (f : A -> Qc) l k : Permutation l k -> qs f l = qs f k.
Proof.
  induction 1; rewrite ?qs_cons; auto.
  - rewrite IHPermutation. reflexivity.
  - ring.
  - congruence.
Qed.
Lemma qs_filter {A} (p : A -> bool) (f : A -> Qc) l :
  qs f (filter p l) = qs (fun x => if p x then f x else 0) l.
Proof.
  induction l as [|x l IH]; [reflexivity|]. cbn [filter]. rewrite qs_cons.
  destruct (p x); rewrite ?qs_cons, IH; ring.
Qed.
(** a sum with a single non-zero term *)
Lemma qs_single {A} (f : A -> Qc) l a : NoDup l -> In a l ->
  (forall x, In x l -> x <> a -> f x = 0) -> qs f l = f a.
Proof.
  induction l as [|x l IH]; intros Hn Hi Hz; [destruct Hi|].
  inversion Hn as [|? ? Hx Hl]; subst. rewrite qs_cons. destruct Hi as [->|Hi].
  - rewrite qs_zero; [ring|]. intros y Hy. apply Hz; [right; exact Hy|]. intros ->. contradiction.
  - rewrite IH; auto.
    + rewrite (Hz x); [ring|left; reflexivity|]. intros ->. contradiction.
    + intros y Hy. apply Hz. right; exact Hy.
Qed.

(** left-to-right accumulation, as the loops of the code do *)
Lemma fold_left_plus {A} (f : A -> Qc) l a : fold_left (fun s x => s + f x) l a = a + qs f l.
Proof. revert a; induction l as [|x l IH]; intros a; cbn [fold_left]; [rewrite qs_nil; ring|]. rewrite IH, qs_cons. ring. Qed.

(** in-place update of a list entry (0-based); out of range leaves the list alone *)
Fixpoint upd {A} (k : nat) (x : A) (l : list A) : list A :=
  match l, k with
  | [], _ => []
  | _ :: r, O => x :: r
  | y :: r, S k' => y :: upd k' x r
  end.
Lemma upd_length {A} k (x : A) l : length (upd k x l) = length l.
Proof. revert k; induction l as [|y l IH]; intros [|k]; simpl; auto. Qed.
Lemma upd_nth_same {A} k (x d : A) l : (k < length l)%nat -> nth k (upd k x l) d = x.
Proof. revert k; induction l as [|y l IH]; intros [|k]; simpl; intros; try lia; auto. apply IH; lia. Qed.
Lemma upd_nth_other {A} k j (x d : A) l : j <> k -> nth j (upd k x l) d = nth j l d.
Proof. revert k j; induction l as [|y l IH]; intros [|k] [|j] H; simpl; auto; try lia. Qed.
Lemma upd_nth {A} k j (x d : A) l :
  nth j (upd k x l) d = if (Nat.eqb j k && Nat.ltb k (length l))%bool then x else nth j l d.
Proof.
  destruct (Nat.eqb_spec j k) as [->|Hn]; simpl.
  - destruct (Nat.ltb_spec k (length l)); [apply upd_nth_same; auto|].
    rewrite !nth_overflow; auto; rewrite ?upd_length; lia.
  - apply upd_nth_other; auto.
Qed.

Definition b2q (b : bool) : Qc := if b then 1 else 0.

Lemma nth_map' {A B} (f : A -> B) l d d' k : (k < length l)%nat -> nth k (map f l) d' = f (nth k l d).
Proof. intros H. rewrite (nth_indep _ d' (f d)) by (rewrite map_length; exact H). apply map_nth. Qed.
Lemma nth_firstn_lt {A} (d : A) : forall l n k, (k < n)%nat -> nth k (firstn n l) d = nth k l d.
Proof. induction l as [|a l IH]; intros [|n] [|k] H; simpl; auto; try lia. apply IH. lia. Qed.
Lemma nth_skipn {A} (d : A) : forall l n k, nth k (skipn n l) d = nth (n + k) l d.
Proof. induction l as [|a l IH]; intros [|n] k; simpl; auto. destruct k; reflexivity. Qed.
