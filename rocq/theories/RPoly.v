(** RPoly: real polynomial functions and their integrals over [-1,1]: the
    vocabulary of the Lagrange / Legendre / Chebyshev units and the lemmas about
    it.  Nothing in this file models code; it only uses Coq's own real numbers. *)
From Coq Require Import List Lia Reals Lra.
Import ListNotations.
Open Scope R_scope.

(** ** Vocabulary *)

(** value at [x] of the polynomial with coefficients [p] (constant term first) *)
Fixpoint peval (p : list R) (x : R) : R :=
  match p with [] => 0 | c :: q => c + x * peval q x end.

(** [f] is a polynomial function given by at most [n] coefficients, that is, of degree less than [n] *)
Definition PolyFn (n : nat) (f : R -> R) : Prop :=
  exists p, (length p <= n)%nat /\ forall x, f x = peval p x.

(** the integral of [f] from -1 to 1 is [v] (fundamental theorem: [F] is any antiderivative) *)
Definition Integ (f : R -> R) (v : R) : Prop :=
  exists F, (forall x, derivable_pt_lim F x (f x)) /\ F 1 - F (-1) = v.

Definition rsum (l : list R) : R := fold_right Rplus 0 l.
Definition rprod (l : list R) : R := fold_right Rmult 1 l.

(** ** Sums and products *)

Lemma rsum_app l k : rsum (l ++ k) = rsum l + rsum k.
Proof. induction l as [|a l IH]; simpl; [lra | rewrite IH; lra]. Qed.

Lemma rprod_app l k : rprod (l ++ k) = rprod l * rprod k.
Proof. induction l as [|a l IH]; simpl; [lra | rewrite IH; ring]. Qed.

Lemma rsum_ext {A} (f g : A -> R) l : (forall a, In a l -> f a = g a) -> rsum (map f l) = rsum (map g l).
Proof.
  induction l as [|a l IH]; intro H; simpl; [reflexivity|].
  rewrite H by now left. rewrite IH; [reflexivity|]. intros; apply H; now right.
Qed.

Lemma rprod_ext {A} (f g : A -> R) l : (forall a, In a l -> f a = g a) -> rprod (map f l) = rprod (map g l).
Proof.
  induction l as [|a l IH]; intro H; simpl; [reflexivity|].
  rewrite H by now left. rewrite IH; [reflexivity|]. intros; apply H; now right.
Qed.

Lemma rsum_scal {A} c (f : A -> R) l : rsum (map (fun a => c * f a) l) = c * rsum (map f l).
Proof. induction l as [|a l IH]; simpl; [lra | rewrite IH; lra]. Qed.

Lemma rsum_plus {A} (f g : A -> R) l : rsum (map (fun a => f a + g a) l) = rsum (map f l) + rsum (map g l).
Proof. induction l as [|a l IH]; simpl; [lra | rewrite IH; lra]. Qed.

Lemma rsum_zero {A} (f : A -> R) l : (forall a, In a l -> f a = 0) -> rsum (map f l) = 0.
Proof.
  induction l as [|a l IH]; intro H; simpl; [reflexivity|].
  rewrite H by now left. rewrite IH; [lra|]. intros; apply H; now right.
Qed.

Lemma rprod_zero {A} (f : A -> R) l a : In a l -> f a = 0 -> rprod (map f l) = 0.
Proof.
  induction l as [|b l IH]; intros H E0; simpl; [destruct H|].
  destruct H as [-> | H]; [rewrite E0; lra | rewrite IH by assumption; lra].
Qed.

Lemma rprod_nz {A} (f : A -> R) l : (forall a, In a l -> f a <> 0) -> rprod (map f l) <> 0.
Proof.
  induction l as [|b l IH]; intros H; simpl; [lra|].
  apply Rmult_integral_contrapositive_currified; [apply H; now left | apply IH; intros; apply H; now right].
Qed.

Lemma rprod_one {A} (f : A -> R) l : (forall a, In a l -> f a = 1) -> rprod (map f l) = 1.
Proof.
  induction l as [|b l IH]; intros H; simpl; [reflexivity|].
  rewrite (H b) by now left. rewrite IH; [lra|]. intros; apply H; now right.
Qed.

Lemma rsum_single {A} (f : A -> R) l a :
  NoDup l -> In a l -> (forall b, In b l -> b <> a -> f b = 0) -> rsum (map f l) = f a.
Proof.
  induction l as [|b l IH]; intros Hn Hi H; [destruct Hi|]. inversion Hn as [|? ? Hb Hn']; subst.
  simpl. destruct Hi as [-> | Hi].
  - rewrite rsum_zero; [lra|]. intros c Hc. apply H; [now right|]. intros ->; contradiction.
  - rewrite (H b); [|now left | intros ->; contradiction].
    rewrite IH; [lra | assumption | assumption | intros; apply H; [now right | assumption]].
Qed.

Lemma rsum_seq_S f n : rsum (map f (seq 0 (S n))) = rsum (map f (seq 0 n)) + f n.
Proof. rewrite seq_S, map_app, rsum_app. simpl. lra. Qed.

Lemma rsum_swap {A B} (f : A -> B -> R) l k :
  rsum (map (fun a => rsum (map (f a) k)) l) = rsum (map (fun b => rsum (map (fun a => f a b) l)) k).
Proof.
  induction l as [|a l IH]; simpl.
  - symmetry; apply rsum_zero; reflexivity.
  - rewrite IH. now rewrite <- rsum_plus.
Qed.

(** ** Coefficient lists *)

Fixpoint padd (p q : list R) : list R :=
  match p, q with
  | [], _ => q
  | _, [] => p
  | a :: p', b :: q' => (a + b) :: padd p' q'
  end.

Lemma padd_eval p : forall q x, peval (padd p q) x = peval p x + peval q x.
Proof.
  induction p as [|a p IH]; intros [|b q] x; simpl; try lra. rewrite IH. lra.
Qed.

Lemma padd_length p : forall q, length (padd p q) = Nat.max (length p) (length q).
Proof. induction p as [|a p IH]; intros [|b q]; simpl; try reflexivity; rewrite IH; reflexivity. Qed.

Lemma pscal_eval c p x : peval (map (Rmult c) p) x = c * peval p x.
Proof. induction p as [|a p IH]; simpl; [lra | rewrite IH; lra]. Qed.

Fixpoint pmul (p q : list R) : list R :=
  match p with
  | [] => []
  | a :: p' => padd (map (Rmult a) q) (0 :: pmul p' q)
  end.

Lemma pmul_eval p : forall q x, peval (pmul p q) x = peval p x * peval q x.
Proof.
  induction p as [|a p IH]; intros q x; simpl; [lra|].
  rewrite padd_eval, pscal_eval. simpl. rewrite IH. lra.
Qed.

Lemma pmul_length p : forall q n m, (length p <= n)%nat -> (length q <= m)%nat -> p <> [] -> q <> [] ->
  (length (pmul p q) <= n + m - 1)%nat.
Proof.
  induction p as [|a p IH]; intros q n m Hp Hq Np Nq; [congruence|]. cbn [pmul].
  rewrite padd_length, map_length. assert (0 < length q)%nat by (destruct q; [congruence | simpl; lia]).
  cbn [length] in *. destruct p as [|b p].
  - simpl. lia.
  - specialize (IH q (n - 1)%nat m ltac:(lia) Hq ltac:(discriminate) Nq). cbn [length] in *. lia.
Qed.

(** coefficients of the derivative: [pder k p] are those of (x^k p)' / x^(k-1) *)
Fixpoint pder (k : nat) (p : list R) : list R :=
  match p with [] => [] | a :: q => (INR k * a) :: pder (S k) q end.

Lemma pder_length p : forall k, length (pder k p) = length p.
Proof. induction p; intro k; simpl; [reflexivity | rewrite IHp; reflexivity]. Qed.

Lemma pder_shift p : forall k x, peval (pder (S k) p) x = peval (pder k p) x + peval p x.
Proof.
  induction p as [|a p IH]; intros k x; [simpl; lra|].
  change (pder (S k) (a :: p)) with (INR (S k) * a :: pder (S (S k)) p).
  change (pder k (a :: p)) with (INR k * a :: pder (S k) p).
  cbn [peval]. rewrite (IH (S k)), S_INR. lra.
Qed.

Definition pderiv (p : list R) : list R := match p with [] => [] | _ :: q => pder 1 q end.

Lemma pderiv_correct p x : derivable_pt_lim (peval p) x (peval (pderiv p) x).
Proof.
  induction p as [|a p IH].
  - simpl. apply derivable_pt_lim_const.
  - change (peval (a :: p)) with (plus_fct (fct_cte a) (mult_fct id (peval p))).
    replace (peval (pderiv (a :: p)) x) with (0 + (1 * peval p x + id x * peval (pderiv p) x)).
    + apply derivable_pt_lim_plus; [apply derivable_pt_lim_const|].
      apply derivable_pt_lim_mult; [apply derivable_pt_lim_id | exact IH].
    + unfold id. simpl. destruct p as [|b q]; [simpl; lra|].
      cbn [pderiv]. cbn [pder peval]. rewrite (pder_shift q 1). simpl. lra.
Qed.

(** coefficients of an antiderivative *)
Fixpoint pantid (k : nat) (p : list R) : list R :=
  match p with [] => [] | a :: q => (a / INR (S k)) :: pantid (S k) q end.

Lemma pantid_pder p : forall k, pder (S k) (pantid k p) = p.
Proof.
  induction p as [|a p IH]; intro k; [reflexivity|].
  change (pantid k (a :: p)) with (a / INR (S k) :: pantid (S k) p).
  change (pder (S k) (a / INR (S k) :: pantid (S k) p))
    with (INR (S k) * (a / INR (S k)) :: pder (S (S k)) (pantid (S k) p)).
  rewrite IH. f_equal. field. apply not_0_INR. lia.
Qed.

Lemma pantid_length p : forall k, length (pantid k p) = length p.
Proof. induction p; intro k; cbn [pantid length]; [reflexivity | rewrite IHp; reflexivity]. Qed.

(** ** Polynomial functions *)

Lemma dpl_ext f g x l : (forall y, f y = g y) -> derivable_pt_lim f x l -> derivable_pt_lim g x l.
Proof.
  intros H D eps He. destruct (D eps He) as [d Hd]. exists d. intros h H0 H1.
  rewrite <- !H. now apply Hd.
Qed.

Lemma dpl_val f x l l' : l = l' -> derivable_pt_lim f x l -> derivable_pt_lim f x l'.
Proof. now intros ->. Qed.

Lemma PolyFn_ext n f g : (forall x, f x = g x) -> PolyFn n f -> PolyFn n g.
Proof. intros H (p & Hl & Hp). exists p. split; [assumption|]. intro x. now rewrite <- H. Qed.

Lemma PolyFn_weaken n m f : (n <= m)%nat -> PolyFn n f -> PolyFn m f.
Proof. intros H (p & Hl & Hp). exists p. split; [lia | assumption]. Qed.

Lemma PolyFn_zero n : PolyFn n (fun _ => 0).
Proof. exists []. split; simpl; [lia | reflexivity]. Qed.

Lemma PolyFn_const c : PolyFn 1 (fun _ => c).
Proof. exists [c]. split; simpl; [lia | intro; lra]. Qed.

Lemma PolyFn_lin a : PolyFn 2 (fun x => x - a).
Proof. exists [-a; 1]. split; simpl; [lia | intro; lra]. Qed.

Lemma PolyFn_id : PolyFn 2 (fun x => x).
Proof. exists [0; 1]. split; simpl; [lia | intro; lra]. Qed.

Lemma PolyFn_plus n f g : PolyFn n f -> PolyFn n g -> PolyFn n (fun x => f x + g x).
Proof.
  intros (p & Hp & Ep) (q & Hq & Eq). exists (padd p q). split.
  - rewrite padd_length. lia.
  - intro x. rewrite padd_eval, Ep, Eq. reflexivity.
Qed.

Lemma PolyFn_scal n c f : PolyFn n f -> PolyFn n (fun x => c * f x).
Proof.
  intros (p & Hp & Ep). exists (map (Rmult c) p). split.
  - now rewrite map_length.
  - intro x. rewrite pscal_eval, Ep. reflexivity.
Qed.

Lemma PolyFn_minus n f g : PolyFn n f -> PolyFn n g -> PolyFn n (fun x => f x - g x).
Proof.
  intros Hf Hg. apply (PolyFn_ext n (fun x => f x + (-1) * g x)); [intro; lra|].
  apply PolyFn_plus; [assumption | now apply PolyFn_scal].
Qed.

Lemma PolyFn_mult n m f g : PolyFn n f -> PolyFn m g -> PolyFn (n + m - 1) (fun x => f x * g x).
Proof.
  intros (p & Hp & Ep) (q & Hq & Eq).
  destruct p as [|a p]; [exists []; split; [simpl; lia | intro x; rewrite Ep; simpl; lra]|].
  destruct q as [|b q]; [exists []; split; [simpl; lia | intro x; rewrite Eq; simpl; lra]|].
  assert (H := pmul_length _ _ _ _ Hp Hq ltac:(discriminate) ltac:(discriminate)).
  exists (pmul (a :: p) (b :: q)). split.
  - assumption.
  - intro x. rewrite pmul_eval, Ep, Eq. reflexivity.
Qed.

Lemma PolyFn_mulx n a f : PolyFn n f -> PolyFn (S n) (fun x => (x - a) * f x).
Proof.
  intro H. apply (PolyFn_weaken (2 + n - 1)); [lia|]. apply PolyFn_mult; [apply PolyFn_lin | assumption].
Qed.

Lemma PolyFn_deriv n f : PolyFn n f -> exists f', PolyFn (n - 1) f' /\ forall x, derivable_pt_lim f x (f' x).
Proof.
  intros (p & Hp & Ep). exists (peval (pderiv p)). split.
  - exists (pderiv p). split; [|reflexivity]. destruct p; simpl in *; [lia | rewrite pder_length; lia].
  - intro x. apply (dpl_ext (peval p)); [intro; symmetry; apply Ep | apply pderiv_correct].
Qed.

Lemma PolyFn_antid n f : PolyFn n f -> exists F, PolyFn (S n) F /\ forall x, derivable_pt_lim F x (f x).
Proof.
  intros (p & Hp & Ep). exists (peval (0 :: pantid 0 p)). split.
  - exists (0 :: pantid 0 p). split; [cbn [length]; rewrite pantid_length; lia | reflexivity].
  - intro x. rewrite Ep. pose proof (pderiv_correct (0 :: pantid 0 p) x) as H.
    cbn [pderiv] in H. now rewrite pantid_pder in H.
Qed.

Lemma PolyFn_rsum {A} n (F : A -> R -> R) l :
  (forall a, In a l -> PolyFn n (F a)) -> PolyFn n (fun x => rsum (map (fun a => F a x) l)).
Proof.
  induction l as [|a l IH]; intro H; simpl.
  - apply PolyFn_zero.
  - apply (PolyFn_plus n (F a) (fun x => rsum (map (fun a => F a x) l))).
    + apply H; now left.
    + apply IH. intros; apply H; now right.
Qed.

Lemma PolyFn_rprod (l : list R) : PolyFn (S (length l)) (fun x => rprod (map (fun a => x - a) l)).
Proof.
  induction l as [|a l IH]; simpl.
  - apply PolyFn_const.
  - now apply PolyFn_mulx.
Qed.

(** factor theorem *)
Lemma peval_factor a p : exists q, (length q <= length p - 1)%nat /\
  forall x, peval p x - peval p a = (x - a) * peval q x.
Proof.
  induction p as [|c p IH].
  - exists []. split; simpl; [lia | intro; lra].
  - destruct p as [|d p'].
    + exists []. split; simpl; [lia | intro; lra].
    + destruct IH as (q & Hq & Eq).
      exists (padd [peval (d :: p') a] (0 :: q)). split.
      * rewrite padd_length. cbn [length] in *. lia.
      * intro x. specialize (Eq x). rewrite padd_eval. cbn [peval] in *.
        set (u := d + x * peval p' x) in *. set (v := d + a * peval p' a) in *.
        replace u with (v + (x - a) * peval q x) by lra. ring.
Qed.

Lemma PolyFn_factor n f a : PolyFn (S n) f -> f a = 0 ->
  exists g, PolyFn n g /\ forall x, f x = (x - a) * g x.
Proof.
  intros (p & Hp & Ep) Ha. destruct (peval_factor a p) as (q & Hq & Eq).
  exists (peval q). split.
  - exists q. split; [lia | reflexivity].
  - intro x. rewrite Ep, <- Eq, <- (Ep a), Ha. lra.
Qed.

Lemma PolyFn_factors l : forall n f, NoDup l -> PolyFn (length l + n) f -> (forall a, In a l -> f a = 0) ->
  exists g, PolyFn n g /\ forall x, f x = rprod (map (fun a => x - a) l) * g x.
Proof.
  induction l as [|a l IH]; intros n f Hn Hf Hz.
  - exists f. split; [assumption | intro; simpl; lra].
  - inversion Hn as [|? ? Ha Hn']; subst.
    destruct (PolyFn_factor _ f a Hf) as (g & Hg & Eg); [apply Hz; now left|].
    destruct (IH n g Hn' Hg) as (h & Hh & Eh).
    + intros b Hb. assert (H : (b - a) * g b = 0) by (rewrite <- Eg; apply Hz; now right).
      apply Rmult_integral in H. destruct H as [H|H]; [|assumption].
      exfalso. apply Ha. replace a with b by lra. assumption.
    + exists h. split; [assumption|]. intro x. rewrite Eg, Eh. simpl. ring.
Qed.

Lemma PolyFn_roots n f l : PolyFn n f -> NoDup l -> (n <= length l)%nat -> (forall a, In a l -> f a = 0) ->
  forall x, f x = 0.
Proof.
  intros Hf Hn Hl Hz x.
  destruct (PolyFn_factors l 0 f Hn) as (g & (p & Hp & Ep) & Eg).
  - apply (PolyFn_weaken n); [lia | assumption].
  - assumption.
  - rewrite Eg, Ep. destruct p; [simpl; lra | simpl in Hp; lia].
Qed.

(** ** Integrals *)

Lemma const_of_zero_derivative F : (forall x, derivable_pt_lim F x 0) -> forall a b, F a = F b.
Proof.
  intros H a b.
  assert (pr : derivable F) by (intro x; exists 0; apply H).
  apply (null_derivative_1 F pr). intro x. unfold derive_pt.
  destruct (pr x) as [l Hl]. simpl. unfold derivable_pt_abs in Hl.
  now apply (uniqueness_limite F x l 0).
Qed.

Lemma Integ_unique f u v : Integ f u -> Integ f v -> u = v.
Proof.
  intros (F & HF & <-) (G & HG & <-).
  assert (H : (F - G)%F 1 = (F - G)%F (-1)).
  { apply const_of_zero_derivative. intro x. replace 0 with (f x - f x) by lra.
    now apply derivable_pt_lim_minus. }
  unfold minus_fct in H. lra.
Qed.

Lemma Integ_ext f g v : (forall x, f x = g x) -> Integ f v -> Integ g v.
Proof. intros H (F & HF & E0). exists F. split; [intro x; rewrite <- H; apply HF | assumption]. Qed.

Lemma Integ_plus f g u v : Integ f u -> Integ g v -> Integ (fun x => f x + g x) (u + v).
Proof.
  intros (F & HF & <-) (G & HG & <-). exists (F + G)%F. split.
  - intro x. now apply derivable_pt_lim_plus.
  - unfold plus_fct. lra.
Qed.

Lemma Integ_scal c f u : Integ f u -> Integ (fun x => c * f x) (c * u).
Proof.
  intros (F & HF & <-). exists (mult_real_fct c F). split.
  - intro x. now apply derivable_pt_lim_scal.
  - unfold mult_real_fct. lra.
Qed.

Lemma Integ_minus f g u v : Integ f u -> Integ g v -> Integ (fun x => f x - g x) (u - v).
Proof.
  intros Hf Hg. apply (Integ_ext (fun x => f x + (-1) * g x)); [intro; lra|].
  replace (u - v) with (u + (-1) * v) by lra. apply Integ_plus; [assumption | now apply Integ_scal].
Qed.

Lemma Integ_zero : Integ (fun _ => 0) 0.
Proof. exists (fct_cte 0). split; [intro; apply derivable_pt_lim_const | unfold fct_cte; lra]. Qed.

Lemma Integ_rsum {A} (F : A -> R -> R) (v : A -> R) l :
  (forall a, In a l -> Integ (F a) (v a)) ->
  Integ (fun x => rsum (map (fun a => F a x) l)) (rsum (map v l)).
Proof.
  induction l as [|a l IH]; intro H; simpl.
  - apply Integ_zero.
  - apply (Integ_plus (F a) (fun x => rsum (map (fun a => F a x) l))).
    + apply H; now left.
    + apply IH. intros; apply H; now right.
Qed.

Lemma Integ_exists n f : PolyFn n f -> exists v, Integ f v.
Proof.
  intro H. destruct (PolyFn_antid n f H) as (F & _ & HF). exists (F 1 - F (-1)). now exists F.
Qed.

(** ** Interpolation *)

(** a function that vanishes at all points of [l] but equals 1 at [a]: unique of its degree *)
Lemma PolyFn_agree n f g l : PolyFn n f -> PolyFn n g -> NoDup l -> (n <= length l)%nat ->
  (forall a, In a l -> f a = g a) -> forall x, f x = g x.
Proof.
  intros Hf Hg Hn Hl H x.
  assert (f x - g x = 0); [|lra].
  apply (PolyFn_roots n (fun x => f x - g x) l); try assumption.
  - now apply PolyFn_minus.
  - intros a Ha. rewrite H by assumption. lra.
Qed.

Lemma PolyFn_leading n (f : R -> R) : PolyFn (S n) f -> exists k, PolyFn n (fun x => f x - k * x ^ n).
Proof.
  intros (p & Hp & Ep). destruct (Nat.eq_dec (length p) (S n)) as [Hl | Hl].
  - destruct (exists_last (l := p)) as (q & c & ->); [destruct p; [discriminate | discriminate]|].
    rewrite app_length in Hl. simpl in Hl. exists c. exists q. split; [lia|].
    intro x. rewrite Ep. replace n with (length q) by lia. clear.
    induction q as [|a q IH]; simpl; [lra|]. replace (peval (q ++ [c]) x) with (peval q x + c * x ^ length q) by lra. ring.
  - exists 0. exists p. split; [lia|]. intro x. rewrite Ep. lra.
Qed.
