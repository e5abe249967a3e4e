(** Proofs about the Lagrange basis. *)
From Coq Require Import List Arith Lia ZArith Bool Reals Lra FinFun.
From Verif Require Import RPoly Lagr_model Lagr_spec.
Import ListNotations.
Open Scope R_scope.

(** ** one direction *)

Definition lagp (xs : list R) (k : nat) (x : R) : R :=
  rprod (map (fun j => if (j =? k)%nat then 1 else (x - nth j xs 0) / (nth k xs 0 - nth j xs 0)) (seq 0 (length xs))).

Lemma nth_Some (xs : list R) j : (j < length xs)%nat -> nth j (map Some xs) None = Some (nth j xs 0).
Proof. intro H. rewrite (nth_indep _ None (Some 0)) by now rewrite map_length. apply map_nth. Qed.

Lemma fdiv_some a b : b <> 0 -> fdiv (Some a) (Some b) = Some (a / b).
Proof. intro H. unfold fdiv. destruct (Req_EM_T b 0); [contradiction | reflexivity]. Qed.

Lemma fold_mul (t : nat -> bool) (F : nat -> fl) g l : forall a,
  (forall j, In j l -> t j = false -> F j = Some (g j)) ->
  fold_left (fun r j => if t j then r else fmul r (F j)) l (Some a)
  = Some (a * rprod (map (fun j => if t j then 1 else g j) l)).
Proof.
  induction l as [|j l IH]; intros a H; simpl; [f_equal; lra|].
  destruct (t j) eqn:T.
  - rewrite IH by (intros; apply H; [now right | assumption]). f_equal. ring.
  - rewrite (H j) by (now left || assumption). simpl.
    rewrite IH by (intros; apply H; [now right | assumption]). f_equal. ring.
Qed.

Lemma fold_add (t : nat -> bool) (F : nat -> fl) g l : forall a,
  (forall j, In j l -> t j = false -> F j = Some (g j)) ->
  fold_left (fun r j => if t j then r else fadd r (F j)) l (Some a)
  = Some (a + rsum (map (fun j => if t j then 0 else g j) l)).
Proof.
  induction l as [|j l IH]; intros a H; simpl; [f_equal; lra|].
  destruct (t j) eqn:T.
  - rewrite IH by (intros; apply H; [now right | assumption]). f_equal. ring.
  - rewrite (H j) by (now left || assumption). simpl.
    rewrite IH by (intros; apply H; [now right | assumption]). f_equal. ring.
Qed.

Lemma nodup_diff (xs : list R) j k : NoDup xs -> (j < length xs)%nat -> (k < length xs)%nat -> j <> k ->
  nth k xs 0 - nth j xs 0 <> 0.
Proof.
  intros Hn Hj Hk Hd H. apply Hd. apply (proj1 (NoDup_nth xs 0) Hn); try assumption. lra.
Qed.

Lemma lag_val_some xs k x : NoDup xs -> (k < length xs)%nat -> lag_val (map Some xs) k x = Some (lagp xs k x).
Proof.
  intros Hn Hk. unfold lag_val. rewrite map_length.
  rewrite (fold_mul (fun j => (j =? k)%nat) _ (fun j => (x - nth j xs 0) / (nth k xs 0 - nth j xs 0))).
  - unfold lagp. f_equal. lra.
  - intros j Hj T. apply in_seq in Hj. apply Nat.eqb_neq in T.
    rewrite !nth_Some by lia. simpl fsub. apply fdiv_some. apply nodup_diff; lia || assumption.
Qed.

Lemma rprod_ones_inv (xs : list R) k l : NoDup l ->
  exists c, forall x, rprod (map (fun j => if (j =? k)%nat then 1 else (x - nth j xs 0) / (nth k xs 0 - nth j xs 0)) l)
    = c * rprod (map (fun a => x - a) (map (fun j => nth j xs 0) (filter (fun j => negb (j =? k)%nat) l))).
Proof.
  induction l as [|j l IH]; intro Hn; simpl.
  - exists 1. intro; lra.
  - inversion Hn; subst. destruct IH as [c Hc]; [assumption|]. destruct (j =? k)%nat; simpl.
    + exists c. intro x. rewrite Hc. ring.
    + exists (c / (nth k xs 0 - nth j xs 0)). intro x. rewrite Hc. unfold Rdiv. ring.
Qed.

Lemma filter_neq_length l k : NoDup l -> In k l -> (length (filter (fun j => negb (j =? k)%nat) l) < length l)%nat.
Proof.
  induction l as [|j l IH]; intros Hn Hi; [destruct Hi|]. inversion Hn; subst. simpl.
  assert (Hle : forall m : list nat, (length (filter (fun j => negb (j =? k)%nat) m) <= length m)%nat).
  { induction m as [|a m IHm]; simpl; [lia | destruct (negb _); simpl; lia]. }
  destruct Hi as [-> | Hi].
  - rewrite Nat.eqb_refl. simpl. specialize (Hle l). lia.
  - destruct (negb _); simpl; specialize (IH H2 Hi); lia.
Qed.

Lemma lagp_poly xs k : (k < length xs)%nat -> PolyFn (length xs) (lagp xs k).
Proof.
  intro Hk. destruct (rprod_ones_inv xs k (seq 0 (length xs)) (seq_NoDup _ _)) as [c Hc].
  set (l := map (fun j => nth j xs 0) (filter (fun j => negb (j =? k)%nat) (seq 0 (length xs)))) in *.
  apply (PolyFn_ext _ (fun x => c * rprod (map (fun a => x - a) l))).
  - intro x. unfold lagp. now rewrite Hc.
  - apply PolyFn_scal. apply (PolyFn_weaken (S (length l))); [|apply PolyFn_rprod].
    unfold l. rewrite map_length.
    pose proof (filter_neq_length (seq 0 (length xs)) k (seq_NoDup _ _) ltac:(apply in_seq; lia)) as H.
    rewrite seq_length in H. lia.
Qed.

Lemma lagp_node xs k j : NoDup xs -> (k < length xs)%nat -> (j < length xs)%nat ->
  lagp xs k (nth j xs 0) = if (j =? k)%nat then 1 else 0.
Proof.
  intros Hn Hk Hj. unfold lagp. destruct (Nat.eqb_spec j k) as [-> | Hd].
  - apply rprod_one. intros i Hi. apply in_seq in Hi. destruct (Nat.eqb_spec i k) as [-> | Hd]; [reflexivity|].
    field. apply nodup_diff; lia || assumption.
  - apply (rprod_zero _ _ j); [apply in_seq; lia|].
    destruct (Nat.eqb_spec j k) as [-> | _]; [contradiction|]. unfold Rdiv. ring.
Qed.

Lemma lagp_is xs k : NoDup xs -> (k < length xs)%nat -> IsLagrange xs k (lagp xs k).
Proof. intros Hn Hk. split; [now apply lagp_poly | intros j Hj; now apply lagp_node]. Qed.

Lemma lagrange_unique xs k f g : NoDup xs -> IsLagrange xs k f -> IsLagrange xs k g -> forall x, f x = g x.
Proof.
  intros Hn [Pf Nf] [Pg Ng]. apply (PolyFn_agree (length xs) f g xs); try assumption; [lia|].
  intros a Ha. destruct (In_nth xs a 0 Ha) as (j & Hj & <-). now rewrite Nf, Ng.
Qed.

Lemma lag_eval_val xs k x : NoDup xs -> (k < length xs)%nat ->
  lag_eval (map Some xs) (Z.of_nat k) x false = Some (Some (lagp xs k x)).
Proof.
  intros Hn Hk. unfold lag_eval. rewrite map_length.
  replace ((Z.of_nat k <? 0) || (Z.of_nat (length xs) <=? Z.of_nat k))%Z with false
    by (symmetry; apply orb_false_iff; split; [apply Z.ltb_ge | apply Z.leb_gt]; lia).
  rewrite Nat2Z.id. simpl. now rewrite lag_val_some.
Qed.

(** derivative of a product *)
Lemma dpl_rprod (g : nat -> R -> R) (g' : nat -> R) x l : NoDup l ->
  (forall j, In j l -> derivable_pt_lim (g j) x (g' j)) ->
  derivable_pt_lim (fun y => rprod (map (fun j => g j y) l)) x
    (rsum (map (fun j => g' j * rprod (map (fun i => if (i =? j)%nat then 1 else g i x) l)) l)).
Proof.
  induction l as [|a l IH]; intros Hn H; simpl.
  - apply derivable_pt_lim_const.
  - inversion Hn as [|? ? Ha Hn']; subst. rewrite Nat.eqb_refl.
    replace (rprod (map (fun i => if (i =? a)%nat then 1 else g i x) l)) with (rprod (map (fun i => g i x) l)).
    2:{ apply rprod_ext. intros i Hi. destruct (Nat.eqb_spec i a) as [-> |]; [contradiction | reflexivity]. }
    rewrite (rsum_ext _ (fun j => g a x * (g' j * rprod (map (fun i => if (i =? j)%nat then 1 else g i x) l))) l).
    2:{ intros j Hj. destruct (Nat.eqb_spec a j) as [-> | _]; [contradiction | ring]. }
    rewrite rsum_scal.
    replace (g' a * (1 * rprod (map (fun i => g i x) l)) + g a x * rsum (map (fun j => g' j * rprod (map (fun i => if (i =? j)%nat then 1 else g i x) l)) l))
      with (g' a * rprod (map (fun i => g i x) l) + g a x * rsum (map (fun j => g' j * rprod (map (fun i => if (i =? j)%nat then 1 else g i x) l)) l)) by ring.
    apply (derivable_pt_lim_mult (g a) (fun y => rprod (map (fun j => g j y) l))).
    + apply H; now left.
    + apply IH; [assumption | intros; apply H; now right].
Qed.

Lemma lag_prod_some xs k j x : NoDup xs -> (k < length xs)%nat ->
  lag_prod (map Some xs) k j x
  = Some (rprod (map (fun i => if (i =? k)%nat || (i =? j)%nat then 1
                               else (x - nth i xs 0) / (nth k xs 0 - nth i xs 0)) (seq 0 (length xs)))).
Proof.
  intros Hn Hk. unfold lag_prod. rewrite map_length.
  rewrite (fold_mul (fun i => (i =? k)%nat || (i =? j)%nat) _ (fun j => (x - nth j xs 0) / (nth k xs 0 - nth j xs 0))).
  - f_equal. lra.
  - intros i Hi T. apply in_seq in Hi. apply orb_false_iff in T. destruct T as [T _]. apply Nat.eqb_neq in T.
    rewrite !nth_Some by lia. simpl fsub. apply fdiv_some. apply nodup_diff; lia || assumption.
Qed.

Lemma lag_der_some xs k x : NoDup xs -> (k < length xs)%nat ->
  exists d, lag_der (map Some xs) k x = Some d /\ derivable_pt_lim (lagp xs k) x d.
Proof.
  intros Hn Hk. unfold lag_der. rewrite map_length.
  set (g := fun i y => if (i =? k)%nat then 1 else (y - nth i xs 0) / (nth k xs 0 - nth i xs 0)).
  rewrite (fold_add (fun j => (j =? k)%nat) _
     (fun j => rprod (map (fun i => if (i =? k)%nat || (i =? j)%nat then 1
                               else (x - nth i xs 0) / (nth k xs 0 - nth i xs 0)) (seq 0 (length xs))) / (nth k xs 0 - nth j xs 0))).
  - eexists. split; [reflexivity|].
    pose proof (dpl_rprod g (fun j => if (j =? k)%nat then 0 else / (nth k xs 0 - nth j xs 0)) x (seq 0 (length xs)) (seq_NoDup _ _)) as D.
    replace (0 + _) with (rsum (map (fun j => (if (j =? k)%nat then 0 else / (nth k xs 0 - nth j xs 0)) *
       rprod (map (fun i => if (i =? j)%nat then 1 else g i x) (seq 0 (length xs)))) (seq 0 (length xs)))).
    + apply D. intros j Hj. unfold g. destruct (j =? k)%nat.
      * apply (derivable_pt_lim_const 1).
      * apply (dpl_ext (fun y => / (nth k xs 0 - nth j xs 0) * (y - nth j xs 0))); [intro; unfold Rdiv; ring|].
        apply (dpl_val _ _ (/ (nth k xs 0 - nth j xs 0) * (1 - 0))); [ring|].
        apply (derivable_pt_lim_scal (fun y => y - nth j xs 0)).
        apply (derivable_pt_lim_minus id (fct_cte (nth j xs 0))); [apply derivable_pt_lim_id | apply derivable_pt_lim_const].
    + rewrite Rplus_0_l. apply rsum_ext. intros j Hj. destruct (j =? k)%nat; [ring|].
      unfold g, Rdiv. rewrite Rmult_comm. apply (f_equal2 Rmult); [|reflexivity]. apply rprod_ext. intros i Hi.
      destruct (i =? j)%nat, (i =? k)%nat; reflexivity.
  - intros j Hj T. apply in_seq in Hj. apply Nat.eqb_neq in T. rewrite lag_prod_some by assumption.
    rewrite !nth_Some by lia. simpl fsub. apply fdiv_some. apply nodup_diff; lia || assumption.
Qed.

Lemma hd_some xs : xs <> [] -> hd None (map Some xs) = Some (nth 0 xs 0).
Proof. destruct xs; [congruence | reflexivity]. Qed.

Lemma last_some xs : xs <> [] -> last (map Some xs) None = Some (last xs 0).
Proof.
  induction xs as [|a xs IH]; intro H; [congruence|]. destruct xs as [|b xs]; [reflexivity|].
  change (map Some (a :: b :: xs)) with (Some a :: map Some (b :: xs)).
  change (last (a :: b :: xs) 0) with (last (b :: xs) 0). rewrite <- IH by discriminate. reflexivity.
Qed.

Lemma lag_eval_der xs k x : NoDup xs -> (k < length xs)%nat -> nth 0 xs 0 <= x <= last xs 0 ->
  exists d, lag_eval (map Some xs) (Z.of_nat k) x true = Some (Some d) /\ derivable_pt_lim (lagp xs k) x d.
Proof.
  intros Hn Hk Hx. destruct (lag_der_some xs k x Hn Hk) as (d & Hd & D). exists d. split; [|assumption].
  unfold lag_eval. rewrite map_length.
  replace ((Z.of_nat k <? 0) || (Z.of_nat (length xs) <=? Z.of_nat k))%Z with false
    by (symmetry; apply orb_false_iff; split; [apply Z.ltb_ge | apply Z.leb_gt]; lia).
  assert (xs <> []) by (destruct xs; [simpl in Hk; lia | discriminate]).
  rewrite hd_some, last_some by assumption. unfold fltb.
  destruct (Rlt_dec x (nth 0 xs 0)); [lra|]. destruct (Rlt_dec (last xs 0) x); [lra|]. simpl.
  now rewrite Nat2Z.id, Hd.
Qed.

Lemma lag_eval_refused xs k x : xs <> [] ->
  lag_eval (map Some xs) k x true = None <->
  (k < 0)%Z \/ (Z.of_nat (length xs) <= k)%Z \/ x < nth 0 xs 0 \/ last xs 0 < x.
Proof.
  intro H. unfold lag_eval. rewrite map_length, hd_some, last_some by assumption. unfold fltb.
  destruct (Z.ltb_spec k 0); simpl; [tauto|]. destruct (Z.leb_spec (Z.of_nat (length xs)) k); simpl; [tauto|].
  destruct (Rlt_dec x (nth 0 xs 0)); simpl; [tauto|]. destruct (Rlt_dec (last xs 0) x); simpl; [tauto|].
  split; [discriminate|]. intros [?|[?|[?|?]]]; lia || lra || contradiction.
Qed.

Lemma lag_eval_refused_val xs k x :
  lag_eval (map Some xs) k x false = None <-> (k < 0)%Z \/ (Z.of_nat (length xs) <= k)%Z.
Proof.
  unfold lag_eval. rewrite map_length.
  destruct (Z.ltb_spec k 0); simpl; [tauto|]. destruct (Z.leb_spec (Z.of_nat (length xs)) k); simpl; [tauto|].
  split; [discriminate|]. lia.
Qed.

(** interpolation: exact for polynomials *)
Lemma lagp_interp xs q x : NoDup xs -> PolyFn (length xs) q ->
  rsum (map (fun k => q (nth k xs 0) * lagp xs k x) (seq 0 (length xs))) = q x.
Proof.
  intros Hn Hq.
  apply (PolyFn_agree (length xs) (fun x => rsum (map (fun k => q (nth k xs 0) * lagp xs k x) (seq 0 (length xs)))) q xs); try assumption; [| lia |].
  - apply (PolyFn_rsum (length xs) (fun k x => q (nth k xs 0) * lagp xs k x)).
    intros k Hk. apply in_seq in Hk. apply PolyFn_scal. apply lagp_poly. lia.
  - intros a Ha. destruct (In_nth xs a 0 Ha) as (j & Hj & <-).
    rewrite (rsum_single _ _ j (seq_NoDup _ _)).
    + rewrite lagp_node, Nat.eqb_refl by assumption. ring.
    + apply in_seq. lia.
    + intros b Hb Hbj. apply in_seq in Hb. rewrite lagp_node by (assumption || lia).
      destruct (Nat.eqb_spec j b); [congruence | ring].
Qed.

Lemma is_interp xs (f : nat -> R -> R) q x : NoDup xs -> (forall k, (k < length xs)%nat -> IsLagrange xs k (f k)) ->
  PolyFn (length xs) q -> rsum (map (fun k => q (nth k xs 0) * f k x) (seq 0 (length xs))) = q x.
Proof.
  intros Hn Hf Hq. rewrite <- (lagp_interp xs q x Hn Hq). apply rsum_ext. intros k Hk. apply in_seq in Hk.
  f_equal. apply (lagrange_unique xs k); [assumption | apply Hf; lia | apply lagp_is; lia || assumption].
Qed.

(** ** tensor products *)

Lemma tens_length {A} n1 n2 n3 (f : nat -> nat -> nat -> A) : length (tens n1 n2 n3 f) = (n1 * n2 * n3)%nat.
Proof.
  unfold tens.
  assert (L : forall (g : nat -> list A) c l, (forall a, length (g a) = c) -> length (flat_map g l) = (c * length l)%nat).
  { intros g c l H. induction l as [|a l IH]; simpl; [lia | rewrite app_length, H, IH; lia]. }
  rewrite (L _ (n1 * n2)%nat).
  - now rewrite seq_length.
  - intro k. rewrite (L _ n1); [now rewrite seq_length | intro; now rewrite map_length, seq_length].
Qed.

Lemma nth_blocks {A} (g : nat -> list A) c d : (forall a, length (g a) = c) ->
  forall n i j, (i < c)%nat -> (j < n)%nat -> forall s, nth (i + c * j) (flat_map g (seq s n)) d = nth i (g (s + j)%nat) d.
Proof.
  intros Hg. induction n as [|n IH]; intros i j Hi Hj s; [lia|]. simpl.
  destruct j as [|j].
  - rewrite app_nth1 by (rewrite Hg; lia). f_equal; [lia | f_equal; lia].
  - rewrite app_nth2 by (rewrite Hg; lia). rewrite Hg. replace (i + c * S j - c)%nat with (i + c * j)%nat by lia.
    rewrite IH by lia. f_equal. f_equal. lia.
Qed.

Lemma tens_nth {A} n1 n2 n3 (f : nat -> nat -> nat -> A) d i j k :
  (i < n1)%nat -> (j < n2)%nat -> (k < n3)%nat -> nth (npos n1 n2 i j k) (tens n1 n2 n3 f) d = f i j k.
Proof.
  intros Hi Hj Hk. unfold tens, npos. replace (i + n1 * (j + n2 * k))%nat with ((i + n1 * j) + (n1 * n2) * k)%nat by lia.
  rewrite (nth_blocks _ (n1 * n2)%nat); try assumption.
  - simpl. rewrite (nth_blocks _ n1); try assumption.
    + simpl. rewrite (nth_indep _ d (f 0 j k)%nat) by (rewrite map_length, seq_length; assumption).
      rewrite (map_nth (fun i => f i j k)). rewrite seq_nth by assumption. reflexivity.
    + intro; now rewrite map_length, seq_length.
  - intro a. clear. induction n2 as [|m IH]; [simpl; lia|]. rewrite seq_S, flat_map_app, app_length, IH.
    simpl. rewrite app_nil_r, map_length, seq_length. lia.
  - nia.
Qed.

Lemma all_eval_some pts x deriv (v : nat -> fl) : forall ks,
  (forall k, In k ks -> lag_eval pts (Z.of_nat k) x deriv = Some (v k)) -> all_eval pts x deriv ks = Some (map v ks).
Proof.
  induction ks as [|k ks IH]; intro H; simpl; [reflexivity|].
  rewrite (H k) by now left. rewrite IH by (intros; apply H; now right). reflexivity.
Qed.

Lemma all_eval_none pts x deriv ks : (exists k, In k ks /\ lag_eval pts (Z.of_nat k) x deriv = None) ->
  all_eval pts x deriv ks = None.
Proof.
  intros (k & Hk & H). induction ks as [|a ks IH]; [destruct Hk|]. simpl. destruct Hk as [-> | Hk].
  - now rewrite H.
  - destruct (lag_eval pts (Z.of_nat a) x deriv); [|reflexivity]. now rewrite IH.
Qed.

(** the basis functions of one direction *)
Definition bas (xs : list R) (k : nat) (x : R) : R := match xs with [] => 1 | _ => lagp xs k x end.

Lemma bas_is xs : NoDup xs -> IsBasis xs (bas xs).
Proof. intro Hn. destruct xs; [intro; reflexivity | intros k Hk; now apply lagp_is]. Qed.

Lemma basis_unique xs f g : NoDup xs -> IsBasis xs f -> IsBasis xs g ->
  forall k x, (k < nfun xs)%nat -> f k x = g k x.
Proof.
  intros Hn Hf Hg k x Hk. destruct xs as [|a xs].
  - unfold nfun in Hk. simpl in Hk. replace k with 0%nat by lia. now rewrite Hf, Hg.
  - apply (lagrange_unique (a :: xs) k); [assumption | apply Hf | apply Hg]; unfold nfun in Hk; simpl in *; lia.
Qed.

Lemma n_of_nfun xs : n_of (map Some xs) = nfun xs.
Proof. unfold n_of, nfun. rewrite map_length. destruct xs; simpl; [reflexivity | lia]. Qed.

Lemma tempval_some xs x : NoDup xs ->
  exists t, tempval (map Some xs) x = Some t /\ forall k, (k < nfun xs)%nat -> nth k t None = Some (bas xs k x).
Proof.
  intro Hn. unfold tempval. rewrite map_length.
  rewrite (all_eval_some _ _ _ (fun k => Some (lagp xs k x))).
  - eexists. split; [reflexivity|]. intros k Hk. rewrite n_of_nfun. destruct xs as [|a xs].
    + unfold nfun in *. simpl in *. replace k with 0%nat by lia. reflexivity.
    + assert (k < length (a :: xs))%nat by (unfold nfun in Hk; simpl in *; lia).
      rewrite app_nth1 by now rewrite map_length, seq_length.
      rewrite (nth_indep _ None (Some (lagp (a :: xs) 0 x))) by now rewrite map_length, seq_length.
      rewrite (map_nth (fun k => Some (lagp (a :: xs) k x))). rewrite seq_nth by assumption. reflexivity.
  - intros k Hk. apply in_seq in Hk. apply lag_eval_val; lia || assumption.
Qed.

Lemma tempder_some xs x : NoDup xs -> InRange xs x ->
  exists t, tempder (map Some xs) x = Some t /\
    forall k, (k < length xs)%nat -> exists d, nth k t None = Some d /\ derivable_pt_lim (bas xs k) x d.
Proof.
  intros Hn Hr. unfold tempder. rewrite map_length. destruct xs as [|a xs].
  - exists []. split; [reflexivity | simpl; lia].
  - destruct Hr as [Hr | Hr]; [discriminate|]. set (l := a :: xs) in *.
    assert (H : exists v, forall k, (k < length l)%nat ->
       lag_eval (map Some l) (Z.of_nat k) x true = Some (Some (v k)) /\ derivable_pt_lim (lagp l k) x (v k)).
    { exists (fun k => match lag_eval (map Some l) (Z.of_nat k) x true with Some (Some d) => d | _ => 0 end).
      intros k Hk. destruct (lag_eval_der l k x Hn Hk Hr) as (d & Ed & D). rewrite Ed. now split. }
    destruct H as [v Hv].
    rewrite (all_eval_some _ _ _ (fun k => Some (v k))).
    + eexists. split; [reflexivity|]. intros k Hk. exists (v k). split.
      * rewrite (nth_indep _ None (Some (v 0%nat))) by now rewrite map_length, seq_length.
        rewrite (map_nth (fun k => Some (v k))). rewrite seq_nth by assumption. reflexivity.
      * apply Hv. assumption.
    + intros k Hk. apply in_seq in Hk. apply Hv. lia.
Qed.

Lemma tempder_none xs x : NoDup xs -> ~ InRange xs x -> tempder (map Some xs) x = None.
Proof.
  intros Hn Hr. unfold tempder. apply all_eval_none. exists 0%nat. unfold InRange in Hr.
  destruct xs as [|a xs]; [exfalso; apply Hr; now left|]. split.
  - simpl. now left.
  - apply (lag_eval_refused (a :: xs) (Z.of_nat 0) x); [discriminate|].
    destruct (Rlt_dec x (nth 0 (a :: xs) 0)); [tauto|]. destruct (Rlt_dec (last (a :: xs) 0) x); [tauto|].
    exfalso. apply Hr. right. lra.
Qed.

Lemma nfun_pos xs : (0 < nfun xs)%nat.
Proof. unfold nfun. lia. Qed.

Lemma nth_skipn {A} (l : list A) d : forall n i, nth i (skipn n l) d = nth (n + i) l d.
Proof. induction l as [|a l IH]; intros [|n] i; simpl; try reflexivity; [destruct i; reflexivity | apply IH]. Qed.

Lemma npos_lt n1 n2 n3 i j k : (i < n1)%nat -> (j < n2)%nat -> (k < n3)%nat -> (npos n1 n2 i j k < n1 * n2 * n3)%nat.
Proof.
  intros. unfold npos. assert (j + n2 * k + 1 <= n2 * n3)%nat by nia. nia.
Qed.

(** *** the values *)
Lemma cb_values val derval xs1 xs2 xs3 x1 x2 x3 : NoDup xs1 -> NoDup xs2 -> NoDup xs3 ->
  let n1 := nfun xs1 in let n2 := nfun xs2 in let n3 := nfun xs3 in
  let '(ok, val', der') := compute_basis val derval (map Some xs1) x1 (map Some xs2) x2 (map Some xs3) x3 in
  (derval = None -> ok = true /\ der' = None) /\
  length val' = Nat.max (n1 * n2 * n3) (length val) /\
  (forall i j k, (i < n1)%nat -> (j < n2)%nat -> (k < n3)%nat ->
     nth (npos n1 n2 i j k) val' None = Some (bas xs1 i x1 * bas xs2 j x2 * bas xs3 k x3)) /\
  (forall c, (n1 * n2 * n3 <= c)%nat -> nth c val' None = nth c val None).
Proof.
  intros Hn1 Hn2 Hn3 n1 n2 n3. unfold compute_basis. rewrite !n_of_nfun. fold n1 n2 n3.
  destruct (tempval_some xs1 x1 Hn1) as (t1 & -> & T1).
  destruct (tempval_some xs2 x2 Hn2) as (t2 & -> & T2).
  destruct (tempval_some xs3 x3 Hn3) as (t3 & -> & T3).
  set (w := tens n1 n2 n3 (prod3 t1 t2 t3)). set (nen := (n1 * n2 * n3)%nat).
  assert (Lw : length w = nen) by apply tens_length.
  assert (V : length (set_val val nen w) = Nat.max nen (length val) /\
    (forall i j k, (i < n1)%nat -> (j < n2)%nat -> (k < n3)%nat ->
     nth (npos n1 n2 i j k) (set_val val nen w) None = Some (bas xs1 i x1 * bas xs2 j x2 * bas xs3 k x3)) /\
    (forall c, (nen <= c)%nat -> nth c (set_val val nen w) None = nth c val None)).
  { unfold set_val. repeat split.
    - rewrite app_length, skipn_length, Lw. lia.
    - intros i j k Hi Hj Hk. rewrite app_nth1 by (rewrite Lw; now apply npos_lt).
      unfold w. rewrite tens_nth by assumption. unfold prod3. now rewrite T1, T2, T3.
    - intros c Hc. rewrite app_nth2 by lia. rewrite Lw. rewrite nth_skipn. f_equal. lia. }
  destruct V as (V1 & V2 & V3).
  destruct derval as [D|].
  - destruct (tempder (map Some xs1) x1), (tempder (map Some xs2) x2), (tempder (map Some xs3) x3);
      repeat split; try assumption; discriminate.
  - repeat split; assumption.
Qed.

Lemma set_col_hit d act n1 n2 n3 F e i j k : act = true -> (i < n1)%nat -> (j < n2)%nat -> (k < n3)%nat ->
  set_col d act (tens n1 n2 n3 F) e (S (npos n1 n2 i j k)) d = Some (F i j k).
Proof.
  intros -> Hi Hj Hk. unfold set_col. rewrite Nat.eqb_refl, tens_length.
  pose proof (npos_lt n1 n2 n3 i j k Hi Hj Hk).
  replace (1 <=? S (npos n1 n2 i j k))%nat with true by (symmetry; apply Nat.leb_le; lia).
  replace (S (npos n1 n2 i j k) <=? n1 * n2 * n3)%nat with true by (symmetry; apply Nat.leb_le; lia).
  simpl. rewrite Nat.sub_0_r. now rewrite tens_nth.
Qed.

Lemma set_col_miss d act col e r c : c <> d -> set_col d act col e r c = e r c.
Proof. intro H. unfold set_col. replace (c =? d)%nat with false by (symmetry; now apply Nat.eqb_neq). now rewrite andb_false_r. Qed.

Lemma lt0_true {A} (l : list A) : l <> [] -> (0 <? length l)%nat = true.
Proof. destruct l; [congruence | reflexivity]. Qed.

(** *** the derivatives *)
Lemma cb_derivs val D xs1 xs2 xs3 x1 x2 x3 : NoDup xs1 -> NoDup xs2 -> NoDup xs3 ->
  InRange xs1 x1 -> InRange xs2 x2 -> InRange xs3 x3 ->
  let n1 := nfun xs1 in let n2 := nfun xs2 in let n3 := nfun xs3 in
  exists val' D', compute_basis val (Some D) (map Some xs1) x1 (map Some xs2) x2 (map Some xs3) x3 = (true, val', Some D') /\
  forall i j k, (i < n1)%nat -> (j < n2)%nat -> (k < n3)%nat ->
    (xs1 <> [] -> exists d, delem D' (S (npos n1 n2 i j k)) 1 = Some (Some d) /\
       derivable_pt_lim (fun t => bas xs1 i t * bas xs2 j x2 * bas xs3 k x3) x1 d) /\
    (xs2 <> [] -> exists d, delem D' (S (npos n1 n2 i j k)) 2 = Some (Some d) /\
       derivable_pt_lim (fun t => bas xs1 i x1 * bas xs2 j t * bas xs3 k x3) x2 d) /\
    (xs3 <> [] -> exists d, delem D' (S (npos n1 n2 i j k)) 3 = Some (Some d) /\
       derivable_pt_lim (fun t => bas xs1 i x1 * bas xs2 j x2 * bas xs3 k t) x3 d).
Proof.
  intros Hn1 Hn2 Hn3 R1 R2 R3 n1 n2 n3. unfold compute_basis. rewrite !n_of_nfun. fold n1 n2 n3.
  destruct (tempval_some xs1 x1 Hn1) as (t1 & -> & T1).
  destruct (tempval_some xs2 x2 Hn2) as (t2 & -> & T2).
  destruct (tempval_some xs3 x3 Hn3) as (t3 & -> & T3).
  destruct (tempder_some xs1 x1 Hn1 R1) as (d1 & -> & D1).
  destruct (tempder_some xs2 x2 Hn2 R2) as (d2 & -> & D2).
  destruct (tempder_some xs3 x3 Hn3 R3) as (d3 & -> & D3).
  eexists _, _. split; [reflexivity|]. cbn [delem]. rewrite !map_length.
  assert (NF : forall xs i, xs <> [] -> (i < nfun xs)%nat -> (i < length xs)%nat).
  { intros xs i H Hi. unfold nfun in Hi. destruct xs; [congruence | simpl in *; lia]. }
  intros i j k Hi Hj Hk. split; [|split]; intro Hne.
  - rewrite set_col_miss, set_col_miss by discriminate. rewrite set_col_hit by (assumption || now apply lt0_true).
    destruct (D1 i (NF _ _ Hne Hi)) as (d & Ed & Dd). exists (d * bas xs2 j x2 * bas xs3 k x3). split.
    + unfold prod3. now rewrite Ed, T2, T3.
    + replace (d * bas xs2 j x2 * bas xs3 k x3) with (bas xs2 j x2 * bas xs3 k x3 * d) by ring.
      apply (dpl_ext (fun t => bas xs2 j x2 * bas xs3 k x3 * bas xs1 i t)); [intro; ring|].
      now apply (derivable_pt_lim_scal (bas xs1 i)).
  - rewrite set_col_miss by discriminate. rewrite set_col_hit by (assumption || now apply lt0_true).
    destruct (D2 j (NF _ _ Hne Hj)) as (d & Ed & Dd). exists (bas xs1 i x1 * d * bas xs3 k x3). split.
    + unfold prod3. now rewrite Ed, T1, T3.
    + replace (bas xs1 i x1 * d * bas xs3 k x3) with (bas xs1 i x1 * bas xs3 k x3 * d) by ring.
      apply (dpl_ext (fun t => bas xs1 i x1 * bas xs3 k x3 * bas xs2 j t)); [intro; ring|].
      now apply (derivable_pt_lim_scal (bas xs2 j)).
  - rewrite set_col_hit by (assumption || now apply lt0_true).
    destruct (D3 k (NF _ _ Hne Hk)) as (d & Ed & Dd). exists (bas xs1 i x1 * bas xs2 j x2 * d). split.
    + unfold prod3. now rewrite Ed, T1, T2.
    + now apply (derivable_pt_lim_scal (bas xs3 k)).
Qed.

Lemma cb_accepts val D xs1 xs2 xs3 x1 x2 x3 : NoDup xs1 -> NoDup xs2 -> NoDup xs3 ->
  fst (fst (compute_basis val (Some D) (map Some xs1) x1 (map Some xs2) x2 (map Some xs3) x3)) = true <->
  InRange xs1 x1 /\ InRange xs2 x2 /\ InRange xs3 x3.
Proof.
  intros Hn1 Hn2 Hn3.
  assert (Dec : forall xs x, InRange xs x \/ ~ InRange xs x).
  { intros xs x. unfold InRange. destruct xs as [|a xs]; [left; now left|].
    destruct (Rle_dec (nth 0 (a :: xs) 0) x); [|right; intros [H|H]; [discriminate | lra]].
    destruct (Rle_dec x (last (a :: xs) 0)); [left; right; lra | right; intros [H|H]; [discriminate | lra]]. }
  split.
  - unfold compute_basis. rewrite !n_of_nfun.
    destruct (tempval_some xs1 x1 Hn1) as (t1 & -> & T1).
    destruct (tempval_some xs2 x2 Hn2) as (t2 & -> & T2).
    destruct (tempval_some xs3 x3 Hn3) as (t3 & -> & T3).
    destruct (Dec xs1 x1) as [R1|R1]; [|rewrite (tempder_none xs1) by assumption; discriminate].
    destruct (Dec xs2 x2) as [R2|R2].
    2:{ rewrite (tempder_none xs2) by assumption. destruct (tempder (map Some xs1) x1); discriminate. }
    destruct (Dec xs3 x3) as [R3|R3]; [tauto|].
    rewrite (tempder_none xs3) by assumption.
    destruct (tempder (map Some xs1) x1), (tempder (map Some xs2) x2); discriminate.
  - intros (R1 & R2 & R3). destruct (cb_derivs val D xs1 xs2 xs3 x1 x2 x3 Hn1 Hn2 Hn3 R1 R2 R3) as (v & D' & -> & _).
    reflexivity.
Qed.

(** ** reproduction of polynomials *)
Lemma bas_interp xs q x : NoDup xs -> PolyFn (nfun xs) q ->
  rsum (map (fun k => q (nth k xs 0) * bas xs k x) (seq 0 (nfun xs))) = q x.
Proof.
  intros Hn Hq. destruct xs as [|a xs].
  - unfold nfun in *. simpl in *. destruct Hq as (p & Hp & Ep). rewrite !Ep.
    destruct p as [|c p]; simpl; [lra|]. destruct p; simpl in *; [lra | lia].
  - assert (En : nfun (a :: xs) = length (a :: xs)) by (unfold nfun; simpl; lia).
    rewrite En in *. cbn [bas]. now apply lagp_interp.
Qed.

Lemma sum3_interp xs1 xs2 xs3 x1 x2 x3 q : NoDup xs1 -> NoDup xs2 -> NoDup xs3 ->
  PolyFn3 (nfun xs1) (nfun xs2) (nfun xs3) q ->
  sum3 (nfun xs1) (nfun xs2) (nfun xs3)
    (fun i j k => q (nth i xs1 0) (nth j xs2 0) (nth k xs3 0) * (bas xs1 i x1 * bas xs2 j x2 * bas xs3 k x3)) = q x1 x2 x3.
Proof.
  intros Hn1 Hn2 Hn3 (Q1 & Q2 & Q3). unfold sum3.
  rewrite (rsum_ext _ (fun k => q x1 x2 (nth k xs3 0) * bas xs3 k x3) (seq 0 (nfun xs3))).
  - now apply (bas_interp xs3 (fun z => q x1 x2 z)).
  - intros k _.
    rewrite (rsum_ext _ (fun j => bas xs3 k x3 * (q x1 (nth j xs2 0) (nth k xs3 0) * bas xs2 j x2)) (seq 0 (nfun xs2))).
    + rewrite rsum_scal. rewrite (bas_interp xs2 (fun y => q x1 y (nth k xs3 0))) by auto. ring.
    + intros j _.
      rewrite (rsum_ext _ (fun i => (bas xs2 j x2 * bas xs3 k x3) * (q (nth i xs1 0) (nth j xs2 0) (nth k xs3 0) * bas xs1 i x1)) (seq 0 (nfun xs1)))
        by (intros; ring).
      rewrite rsum_scal. rewrite (bas_interp xs1 (fun x => q x (nth j xs2 0) (nth k xs3 0))) by auto. ring.
Qed.

(** ** equidistant points *)
Lemma equi_equidistant p : (p <> 1)%nat -> equi p = map Some (equidistant p).
Proof.
  intro Hp. unfold equi, equidistant. rewrite map_map. apply map_ext_in. intros i Hi. apply in_seq in Hi.
  assert (HR : INR p - 1 = INR (p - 1)) by (rewrite minus_INR by lia; simpl; lra).
  rewrite HR. rewrite fdiv_some by (apply not_0_INR; lia). simpl fadd.
  rewrite plus_INR. f_equal. unfold Rdiv. ring.
Qed.

Lemma equidistant_nodup p : NoDup (equidistant p).
Proof.
  unfold equidistant. destruct (Nat.le_gt_cases p 1) as [Hp | Hp].
  - destruct p as [|[|p]]; [constructor | constructor; [intros [] | constructor] | lia].
  - assert (Hi : INR (p - 1) <> 0) by (apply not_0_INR; lia).
    apply FinFun.Injective_map_NoDup; [|apply seq_NoDup].
    intros i j H. apply INR_eq.
    assert (H' : 2 * INR i / INR (p - 1) = 2 * INR j / INR (p - 1)) by lra.
    unfold Rdiv in H'. apply Rmult_eq_reg_r in H'; [lra|]. now apply Rinv_neq_0_compat.
Qed.

Lemma equidistant_length p : length (equidistant p) = p.
Proof. unfold equidistant. now rewrite map_length, seq_length. Qed.

Lemma equidistant_range p : (2 <= p)%nat -> nth 0 (equidistant p) 0 = -1 /\ last (equidistant p) 0 = 1.
Proof.
  intro Hp. unfold equidistant. split.
  - destruct p as [|p]; [lia|]. simpl. unfold Rdiv. ring.
  - destruct p as [|p]; [lia|]. rewrite seq_S, map_app. cbn [map]. rewrite last_last.
    replace (S p - 1)%nat with p by lia. simpl Nat.add. field. apply not_0_INR. lia.
Qed.

Lemma ipts_length p x : length (ipts p x) = p.
Proof. unfold ipts. destruct (Nat.eqb_spec p 1) as [-> |]; [reflexivity | apply equidistant_length]. Qed.

Lemma ipts_nodup p x : NoDup (ipts p x).
Proof.
  unfold ipts. destruct (Nat.eqb_spec p 1) as [-> |]; [|apply equidistant_nodup].
  constructor; [intros [] | constructor].
Qed.

Lemma ipts_range p x : InRange (ipts p x) x <-> ((p < 2)%nat \/ -1 <= x <= 1).
Proof.
  unfold ipts, InRange. destruct (Nat.eqb_spec p 1) as [-> | H1].
  - split; [intros _; left; lia | intros _; right; simpl; lra].
  - destruct p as [|p]; [split; [left; lia | left; reflexivity]|].
    destruct (equidistant_range (S p)) as [-> ->]; [lia|]. split.
    + intros [H | H]; [|now right]. apply (f_equal (@length R)) in H. rewrite equidistant_length in H. discriminate.
    + intros [H | H]; [lia | now right].
Qed.

Lemma fdiv00 a : fdiv a (Some (INR 1 - 1)) = None.
Proof. unfold fdiv. destruct a; [|reflexivity]. destruct (Req_EM_T (INR 1 - 1) 0) as [_|N]; [reflexivity|]. exfalso; apply N; simpl; lra. Qed.

Lemma equi_one : equi 1 = [None].
Proof. unfold equi. cbn [seq map]. rewrite fdiv00. reflexivity. Qed.

Lemma tempval_ipts p x : tempval (equi p) x = tempval (map Some (ipts p x)) x.
Proof.
  unfold ipts. destruct (Nat.eqb_spec p 1) as [-> | H1]; [|now rewrite equi_equidistant].
  rewrite equi_one. reflexivity.
Qed.

Lemma tempder_ipts p x : tempder (equi p) x = tempder (map Some (ipts p x)) x.
Proof.
  unfold ipts. destruct (Nat.eqb_spec p 1) as [-> | H1]; [|now rewrite equi_equidistant].
  rewrite equi_one. unfold tempder, all_eval, lag_eval. simpl. destruct (Rlt_dec x x); [lra|]. reflexivity.
Qed.

Lemma equi_length p : length (equi p) = p.
Proof. unfold equi. now rewrite map_length, seq_length. Qed.

Lemma compute_basis_n_ipts val der p1 x1 p2 x2 p3 x3 :
  compute_basis_n val der p1 x1 p2 x2 p3 x3 =
  compute_basis val der (map Some (ipts p1 x1)) x1 (map Some (ipts p2 x2)) x2 (map Some (ipts p3 x3)) x3.
Proof.
  unfold compute_basis_n, compute_basis. rewrite !tempval_ipts, !tempder_ipts. unfold n_of.
  rewrite !map_length, !ipts_length, !equi_length. reflexivity.
Qed.

(** ** LagrangeInterpolator *)
Lemma existsb_oob n nr : (n <= nr)%nat -> (0 < n)%nat -> existsb (fun j => negb (j =? nr)%nat) (seq 0 n) = true.
Proof.
  intros H H0. apply existsb_exists. exists 0%nat. split; [apply in_seq; lia|].
  apply negb_true_iff. apply Nat.eqb_neq. lia.
Qed.

Lemma li_evaluate_some grid x nr : NoDup grid -> (nr < length grid)%nat ->
  li_evaluate grid x nr = Some (Some (lagp grid nr x)).
Proof.
  intros Hn Hr. unfold li_evaluate. replace (length grid <=? nr)%nat with false by (symmetry; apply Nat.leb_gt; lia).
  rewrite andb_false_r. f_equal.
  rewrite (fold_mul (fun j => (j =? nr)%nat) _ (fun j => (x - nth j grid 0) / (nth nr grid 0 - nth j grid 0))).
  - unfold lagp. f_equal. lra.
  - intros j Hj T. apply in_seq in Hj. apply Nat.eqb_neq in T. apply fdiv_some. apply nodup_diff; lia || assumption.
Qed.

Lemma li_evaluate_oob grid x nr : grid <> [] -> (length grid <= nr)%nat -> li_evaluate grid x nr = None.
Proof.
  intros H Hr. unfold li_evaluate. rewrite existsb_oob; [|assumption | destruct grid; [congruence | simpl; lia]].
  replace (length grid <=? nr)%nat with true by (symmetry; now apply Nat.leb_le). reflexivity.
Qed.

Lemma fold_interp grid x data l : NoDup grid -> forall a, (forall i, In i l -> (i < length grid)%nat) ->
  fold_left (fun r i => match r, li_evaluate grid x i with
                        | Some a, Some b => Some (fadd a (fmul (Some (nth i data 0)) b))
                        | _, _ => None end) l (Some (Some a))
  = Some (Some (a + rsum (map (fun i => nth i data 0 * lagp grid i x) l))).
Proof.
  intro Hn. induction l as [|i l IH]; intros a H; cbn [fold_left map rsum fold_right].
  - do 2 f_equal. lra.
  - rewrite li_evaluate_some by (assumption || (apply H; now left)). cbn [fadd fmul].
    rewrite IH by (intros; apply H; now right). do 2 f_equal. unfold rsum. lra.
Qed.

Lemma li_interpolate_some grid x data : NoDup grid -> (length data <= length grid)%nat ->
  li_interpolate grid x data = Some (Some (rsum (map (fun i => nth i data 0 * lagp grid i x) (seq 0 (length data))))).
Proof.
  intros Hn Hl. unfold li_interpolate. rewrite fold_interp by (assumption || (intros i Hi; apply in_seq in Hi; lia)).
  do 2 f_equal. lra.
Qed.

Lemma fold_none grid x data l :
  fold_left (fun (r : option fl) i => match r, li_evaluate grid x i with
                        | Some a, Some b => Some (fadd a (fmul (Some (nth i data 0)) b))
                        | _, _ => None end) l None = None.
Proof. induction l; simpl; [reflexivity | assumption]. Qed.

Lemma fold_left_snoc {A B} (f : A -> B -> A) l b a : fold_left f (l ++ [b]) a = f (fold_left f l a) b.
Proof. now rewrite fold_left_app. Qed.

Lemma li_interpolate_oob grid x data : grid <> [] -> (length grid < length data)%nat -> li_interpolate grid x data = None.
Proof.
  intros Hg Hl. unfold li_interpolate. destruct (length data) as [|n]; [lia|].
  rewrite seq_S, fold_left_snoc. rewrite (li_evaluate_oob grid x (0 + n)) by (assumption || lia).
  now destruct (fold_left _ _ _).
Qed.

Lemma li_interpolant grid data : NoDup grid -> length data = length grid ->
  exists f, PolyFn (length grid) f /\ (forall j, (j < length grid)%nat -> f (nth j grid 0) = nth j data 0) /\
    forall x, li_interpolate grid x data = Some (Some (f x)).
Proof.
  intros Hn Hl. exists (fun x => rsum (map (fun i => nth i data 0 * lagp grid i x) (seq 0 (length data)))). split; [|split].
  - apply (PolyFn_rsum (length grid) (fun i x => nth i data 0 * lagp grid i x)).
    intros i Hi. apply in_seq in Hi. apply PolyFn_scal, lagp_poly. lia.
  - intros j Hj. rewrite (rsum_single _ _ j (seq_NoDup _ _)).
    + rewrite lagp_node, Nat.eqb_refl by assumption. ring.
    + apply in_seq. lia.
    + intros b Hb Hbj. apply in_seq in Hb. rewrite lagp_node by (assumption || lia).
      destruct (Nat.eqb_spec j b); [congruence | ring].
  - intro x. apply li_interpolate_some; [assumption | lia].
Qed.

Lemma li_reproduce grid q x : NoDup grid -> PolyFn (length grid) q ->
  li_interpolate grid x (map q grid) = Some (Some (q x)).
Proof.
  intros Hn Hq. rewrite li_interpolate_some by (assumption || (rewrite map_length; lia)). do 2 f_equal.
  rewrite map_length. rewrite <- (lagp_interp grid q x Hn Hq). apply rsum_ext. intros k Hk. apply in_seq in Hk.
  rewrite (nth_indep _ 0 (q 0)) by (rewrite map_length; lia). now rewrite map_nth.
Qed.

Lemma li_get_rows grid xg data : NoDup grid -> length data = length grid ->
  forall r, (1 <= r <= length xg)%nat ->
  exists row : nat -> R,
    (forall c, (1 <= c <= length grid)%nat -> snd (li_get grid xg) r c = Some (Some (row c))) /\
    li_interpolate grid (nth (r - 1) xg 0) data
      = Some (Some (rsum (map (fun c => row c * nth (c - 1) data 0) (seq 1 (length grid))))).
Proof.
  intros Hn Hl r Hr. exists (fun c => lagp grid (c - 1) (nth (r - 1) xg 0)). split.
  - intros c Hc. simpl. apply li_evaluate_some; [assumption | lia].
  - rewrite li_interpolate_some by (assumption || lia). do 2 f_equal. rewrite Hl.
    rewrite <- (seq_shift (length grid) 0), map_map. apply rsum_ext. intros i _. simpl. rewrite Nat.sub_0_r. ring.
Qed.
