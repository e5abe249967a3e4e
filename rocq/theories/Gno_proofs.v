(** Lemmas about the global numbering. *)
From Coq Require Import List Arith ZArith Bool Lia Relations Sorted Permutation.
From Verif Require Import Gno_model Gno_spec.
Import ListNotations.

(* ---- the set of interfaces ---- *)
Definition key (it : iface) := (i_master it, i_slave it, i_dim it, i_midx it).

Lemma ifLess_neither a b : ifLess a b = false -> ifLess b a = false -> key a = key b.
Proof.
  unfold ifLess, key. intros H1 H2.
  destruct (Nat.eqb_spec (i_master a) (i_master b)) as [E1|E1]; cbn [negb] in *.
  2:{ destruct (Nat.eqb_spec (i_master b) (i_master a)); cbn [negb] in *; [lia|].
      apply Nat.ltb_ge in H1, H2. lia. }
  rewrite E1, Nat.eqb_refl in *. cbn [negb] in *.
  destruct (Nat.eqb_spec (i_slave a) (i_slave b)) as [E2|E2]; cbn [negb] in *.
  2:{ destruct (Nat.eqb_spec (i_slave b) (i_slave a)); cbn [negb] in *; [lia|].
      apply Nat.ltb_ge in H1, H2. lia. }
  rewrite E2, Nat.eqb_refl in *. cbn [negb] in *.
  destruct (Z.eqb_spec (i_dim a) (i_dim b)) as [E3|E3]; cbn [negb] in *.
  2:{ destruct (Z.eqb_spec (i_dim b) (i_dim a)); cbn [negb] in *; [lia|].
      apply Z.ltb_ge in H1, H2. lia. }
  rewrite E3, Z.eqb_refl in *. cbn [negb] in *.
  apply Z.ltb_ge in H1, H2. assert (E : i_midx a = i_midx b) by lia. rewrite E. reflexivity.
Qed.

Lemma insertI_In x l y : ~ In (key x) (map key l) -> (In y (insertI x l) <-> y = x \/ In y l).
Proof.
  induction l as [|z l IH]; cbn [insertI map In]; intros H.
  - split; intros [A|A]; subst; auto; tauto.
  - destruct (ifLess x z) eqn:E1.
    + cbn [In]. split; intros [A|A]; subst; auto.
    + destruct (ifLess z x) eqn:E2.
      * cbn [In]. rewrite IH by tauto. tauto.
      * exfalso. apply H. left. symmetry. apply ifLess_neither; auto.
Qed.

Lemma ifset_In ifs y : NoDup (map key ifs) -> (In y (ifset ifs) <-> In y ifs).
Proof.
  unfold ifset. intros ND.
  assert (G : forall l s, NoDup (map key l) ->
     (forall a b, In a l -> In b s -> key a <> key b) ->
     (In y (fold_left (fun s x => insertI x s) l s) <-> In y l \/ In y s)).
  { induction l as [|x l IH]; intros s N D; cbn [fold_left].
    - split; auto. intros [[]|]; auto.
    - cbn [map] in N. inversion N as [|? ? N1 N2]; subst.
      assert (K : ~ In (key x) (map key s)).
      { intros X. apply in_map_iff in X. destruct X as (b & E & B).
        apply (D x b); auto. left; auto. }
      rewrite IH; auto.
      + rewrite insertI_In by auto. cbn [In]. split; intros [A|A]; auto; destruct A; auto.
      + intros a b A B. rewrite insertI_In in B by auto. destruct B as [-> |B].
        * intros E. apply N1. rewrite <- E. apply in_map. auto.
        * apply D; auto. right; auto. }
  rewrite (G ifs []); [cbn [In]; tauto|auto|intros a b _ []].
Qed.

(* ---- nodes ---- *)
Fixpoint nodes (p : nat) (nf : list nat) : list node :=
  match nf with
  | [] => []
  | n :: nf' => map (pair p) (seq 0 n) ++ nodes (S p) nf'
  end.

Lemma nodes_In p nf x : In x (nodes p nf) <->
  p <= fst x < p + length nf /\ snd x < nth (fst x - p) nf 0.
Proof.
  revert p. induction nf as [|n nf IH]; intros p; cbn [nodes length].
  - split; [intros []|lia].
  - rewrite in_app_iff, IH, in_map_iff. split.
    + intros [(a & E & A)|(A & B)].
      * subst x. cbn [fst snd]. apply in_seq in A. rewrite Nat.sub_diag. cbn [nth]. lia.
      * destruct (fst x - p) as [|m] eqn:E; [lia|]. cbn [nth].
        replace (fst x - S p) with m in B by lia. lia.
    + intros (A & B). destruct (fst x - p) as [|m] eqn:E; cbn [nth] in B.
      * left. exists (snd x). split; [|apply in_seq; lia]. destruct x. cbn [fst snd] in *.
        f_equal. lia.
      * right. replace (fst x - S p) with m by lia. lia.
Qed.

Lemma num_nodes r p : forall pre, length pre = p ->
  concat r = map (num (pre ++ r)) (nodes p (map (@length nat) r)).
Proof.
  revert p. induction r as [|l r IH]; intros p pre HP; [reflexivity|].
  cbn [concat map nodes]. rewrite map_app. f_equal.
  - rewrite map_map. transitivity (map (fun a => nth a l 0) (seq 0 (length l))).
    + clear. induction l as [|x l IH]; [reflexivity|]. cbn [length seq map nth]. f_equal.
      rewrite <- seq_shift, map_map. exact IH.
    + apply map_ext. intros a. unfold num. cbn [fst snd].
      rewrite app_nth2 by lia. rewrite HP, Nat.sub_diag. reflexivity.
  - replace (pre ++ l :: r) with ((pre ++ [l]) ++ r) by (rewrite <- app_assoc; reflexivity).
    apply IH. rewrite app_length. cbn. lia.
Qed.

Lemma concat_skipn r k nf : map (@length nat) r = nf -> k <= length nf ->
  concat (skipn k r) = map (num r) (nodes k (skipn k nf)).
Proof.
  intros <- Hk. rewrite map_length in Hk. rewrite skipn_map.
  rewrite (num_nodes (skipn k r) k (firstn k r)) by (rewrite firstn_length; lia).
  rewrite firstn_skipn. reflexivity.
Qed.

Lemma at2_num r nf x : map (@length nat) r = nf -> valid nf x ->
  at2 r (fst x) (snd x) = Some (num r x).
Proof.
  intros <- (A & B). rewrite map_length in A. unfold at2, num.
  rewrite (nth_error_nth' r [] A).
  change 0 with (@length nat []) in B. rewrite map_nth in B.
  apply nth_error_nth'. auto.
Qed.

(* ---- the map ---- *)
Lemma mapPairs_spec nf r i s : map (@length nat) r = nf ->
  i < length nf -> s < length nf ->
  forall mN sN m, length mN = length sN ->
  Forall (fun a => a < nth i nf 0) mN -> Forall (fun a => a < nth s nf 0) sN ->
  exists m', mapPairs r i s mN sN m = Some m' /\
   (forall k v, find m' k = Some v ->
      find m k = Some v \/
      exists n a b, nth_error mN n = Some a /\ nth_error sN n = Some b /\
        num r (s, b) = k /\ num r (i, a) = v) /\
   (forall k, find m k <> None -> find m' k <> None) /\
   (forall n a b, nth_error mN n = Some a -> nth_error sN n = Some b ->
      find m' (num r (s, b)) <> None).
Proof.
  intros HL Hi Hs mN. induction mN as [|a mN IH]; intros [|b sN] m L FM FS; try discriminate.
  - exists m. cbn [mapPairs]. repeat split; auto. intros [|n]; discriminate.
  - inversion FM; inversion FS; subst. cbn [mapPairs].
    assert (E1 : at2 r s b = Some (num r (s, b))) by (apply (at2_num r _ (s, b) eq_refl); split; auto).
    assert (E2 : at2 r i a = Some (num r (i, a))) by (apply (at2_num r _ (i, a) eq_refl); split; auto).
    rewrite E1, E2.
    destruct (IH sN ((num r (s, b), num r (i, a)) :: m)) as (m' & E & A & B & C); auto.
    exists m'. split; auto. split; [|split].
    + intros k v F. destruct (A k v F) as [G|(n & a' & b' & G)].
      * cbn [find] in G. destruct (Nat.eqb_spec (num r (s, b)) k); [|left; auto].
        right. exists 0, a, b. repeat split; auto. congruence.
      * right. exists (S n), a', b'. exact G.
    + intros k F. apply B. cbn [find]. destruct (Nat.eqb (num r (s, b)) k); auto. discriminate.
    + intros [|n] a' b' N1 N2; cbn in N1, N2.
      * injection N1 as <-. injection N2 as <-. apply B. cbn [find]. rewrite Nat.eqb_refl. discriminate.
      * eapply C; eauto.
Qed.

(** Interfaces that are usable. *)
Definition if_ok nf (bnd : boundary) (it : iface) : Prop :=
  1 <= i_master it < i_slave it /\ i_slave it <= length nf /\
  length (bnd (i_master it - 1) (i_dim it) (i_midx it) 0%Z) =
  length (bnd (i_slave it - 1) (i_dim it) (i_sidx it) (i_orient it)) /\
  Forall (fun a => a < nth (i_master it - 1) nf 0)
         (bnd (i_master it - 1) (i_dim it) (i_midx it) 0%Z) /\
  Forall (fun a => a < nth (i_slave it - 1) nf 0)
         (bnd (i_slave it - 1) (i_dim it) (i_sidx it) (i_orient it)).

Lemma mapIfs_spec nf r bnd i : map (@length nat) r = nf -> i < length nf ->
  forall ifs m, Forall (if_ok nf bnd) ifs ->
  exists m', mapIfs r bnd i ifs m = Some m' /\
   (forall k v, find m' k = Some v ->
      find m k = Some v \/
      exists x y, joined bnd ifs x y /\ fst x = i /\ num r y = k /\ num r x = v) /\
   (forall k, find m k <> None -> find m' k <> None) /\
   (forall x y, joined bnd ifs x y -> fst x = i -> find m' (num r y) <> None).
Proof.
  intros HL Hi ifs. induction ifs as [|it ifs IH]; intros m F.
  - exists m. cbn [mapIfs]. repeat split; auto. intros x y (? & ? & [] & _).
  - inversion F as [|? ? F1 F2]; subst. cbn [mapIfs].
    assert (JM : forall x y, joined bnd ifs x y -> joined bnd (it :: ifs) x y).
    { intros x y (it' & n & A & B). exists it', n. split; [right; auto|auto]. }
    destruct (Nat.eqb_spec (i_master it) (i + 1)) as [E|E]; cbn [negb].
    + destruct F1 as ((M1 & M2) & M3 & M4 & M5 & M6).
      destruct (Nat.eqb_spec (i_slave it) 0); [lia|].
      rewrite map_length in M3, Hi.
      destruct (Nat.ltb_spec (length r) (i_slave it)); [lia|]. cbn [orb].
      assert (EM : i_master it - 1 = i) by lia. rewrite EM in *.
      destruct (mapPairs_spec _ r i (i_slave it - 1) eq_refl) with
        (mN := bnd i (i_dim it) (i_midx it) 0%Z)
        (sN := bnd (i_slave it - 1) (i_dim it) (i_sidx it) (i_orient it)) (m := m)
        as (m1 & E1 & A1 & B1 & C1); auto; try (rewrite map_length; lia).
      rewrite E1. destruct (IH m1 F2) as (m2 & E2 & A2 & B2 & C2).
      exists m2. split; auto. split; [|split].
      * intros k v G. destruct (A2 k v G) as [G1|(x & y & G1 & G2)].
        -- destruct (A1 k v G1) as [G3|(n' & a & b & N1 & N2 & N3 & N4)]; [left; auto|].
           right. exists (i, a), (i_slave it - 1, b). split; [|cbn [fst]; auto].
           exists it, n'. cbn [fst snd]. split; [left; auto|]. repeat split; auto; lia.
        -- right. exists x, y. split; [apply JM; auto|auto].
      * intros k G. auto.
      * intros x y (it' & n' & I1 & I2 & I3 & I4 & I5) Hx.
        destruct I1 as [-> |I1].
        -- apply B2. destruct x as [xp xa], y as [yp ya]. cbn [fst snd] in *. subst xp.
           replace yp with (i_slave it' - 1) in * by lia. eapply C1; eauto.
        -- apply (C2 x y); auto. exists it', n'. auto.
    + destruct (IH m F2) as (m2 & E2 & A2 & B2 & C2).
      exists m2. split; auto. split; [|split; auto].
      * intros k v G. destruct (A2 k v G) as [G1|(x & y & G1 & G2)]; [left; auto|].
        right. exists x, y. split; [apply JM; auto|auto].
      * intros x y (it' & n' & I1 & I2 & I3 & I4 & I5) Hx.
        destruct I1 as [-> |I1]; [exfalso; apply E; lia|].
        apply (C2 x y); auto. exists it', n'. auto.
Qed.

(* ---- compression ---- *)
Lemma compress1_flat mx l l2 :
  let (m1, a) := compress1 mx l in let (m2, b) := compress1 m1 l2 in
  compress1 mx (l ++ l2) = (m2, a ++ b).
Proof.
  revert mx. induction l as [|x l IH]; intros mx; cbn [compress1 app].
  - destruct (compress1 mx l2). reflexivity.
  - destruct (mx <? x).
    + specialize (IH (mx + 1)). destruct (compress1 (mx + 1) l) as [m1 a].
      destruct (compress1 m1 l2) as [m2 b]. rewrite IH. reflexivity.
    + specialize (IH mx). destruct (compress1 mx l) as [m1 a].
      destruct (compress1 m1 l2) as [m2 b]. rewrite IH. reflexivity.
Qed.

Lemma compress1_length mx l : length (snd (compress1 mx l)) = length l.
Proof.
  revert mx. induction l as [|x l IH]; intros mx; cbn [compress1]; auto.
  destruct (mx <? x).
  - specialize (IH (mx + 1)). destruct (compress1 (mx + 1) l). cbn in *. lia.
  - specialize (IH mx). destruct (compress1 mx l). cbn in *. lia.
Qed.

Lemma compress_flat mx r : concat (compress mx r) = snd (compress1 mx (concat r)).
Proof.
  revert mx. induction r as [|l r IH]; intros mx; [reflexivity|].
  cbn [compress concat]. pose proof (compress1_flat mx l (concat r)) as H.
  specialize (IH (fst (compress1 mx l))).
  destruct (compress1 mx l) as [m1 a]. cbn [fst] in IH.
  destruct (compress1 m1 (concat r)) as [m2 b]. rewrite H. cbn [concat]. rewrite IH. reflexivity.
Qed.

Lemma compress_lengths mx r : map (@length nat) (compress mx r) = map (@length nat) r.
Proof.
  revert mx. induction r as [|l r IH]; intros mx; [reflexivity|]. cbn [compress map].
  pose proof (compress1_length mx l). destruct (compress1 mx l) as [m1 a].
  cbn [snd] in H. cbn [map]. rewrite H, IH. reflexivity.
Qed.

(** Numbers from [M] on are the ones of functions that are not merged. *)
Definition ge (M n : nat) : bool := M <=? n.

Lemma compress1_spec {A} (f g : A -> nat) : forall (l : list A) M mx,
  M <= S mx ->
  StronglySorted lt (filter (ge M) (map f l)) ->
  Forall (fun n => mx < n) (filter (ge M) (map f l)) ->
  snd (compress1 mx (map f l)) = map g l ->
  filter (ge M) (map g l) = seq (S mx) (length (filter (ge M) (map f l))) /\
  (forall x, In x l -> f x < M -> g x = f x) /\
  (forall x, In x l -> M <= f x -> M <= g x).
Proof.
  induction l as [|a l IH]; intros M mx HM S1 F1 E; cbn [map filter compress1] in *.
  - split; [reflexivity|]. split; intros x [].
  - unfold ge at 1 in S1. unfold ge at 1 in F1. destruct (Nat.leb_spec M (f a)) as [L|L].
    + inversion S1 as [|? ? S2 S3]; subst. inversion F1 as [|? ? F2 F3]; subst.
      destruct (Nat.ltb_spec mx (f a)); [|lia].
      destruct (compress1 (mx + 1) (map f l)) as [m2 l2] eqn:EC. cbn [snd] in E.
      injection E as E0 E1.
      destruct (IH M (mx + 1)) as (G1 & G2 & G3); auto; try lia.
      { rewrite Forall_forall in *. intros x Hx. specialize (S3 x Hx). lia. }
      { rewrite EC. exact E1. }
      split; [|split].
      * unfold ge at 1. destruct (Nat.leb_spec M (g a)); [|lia].
        unfold ge at 2. destruct (Nat.leb_spec M (f a)); [|lia].
        cbn [length seq]. rewrite G1. f_equal; [lia|]. replace (mx + 1) with (S mx) by lia. reflexivity.
      * intros x [-> |Hx] Hf; [lia|auto].
      * intros x [-> |Hx] Hf; [lia|auto].
    + destruct (Nat.ltb_spec mx (f a)); [lia|].
      destruct (compress1 mx (map f l)) as [m2 l2] eqn:EC. cbn [snd] in E. injection E as E0 E1.
      destruct (IH M mx) as (G1 & G2 & G3); auto.
      { rewrite EC. exact E1. }
      split; [|split].
      * unfold ge at 1. destruct (Nat.leb_spec M (g a)); [lia|].
        unfold ge at 2. destruct (Nat.leb_spec M (f a)); [lia|]. exact G1.
      * intros x [-> |Hx] Hf; [lia|auto].
      * intros x [-> |Hx] Hf; [lia|auto].
Qed.

Lemma filter_sub_sorted {A} (f g : A -> nat) M (l : list A) :
  (forall x, In x l -> g x = f x \/ g x < M) ->
  StronglySorted lt (filter (ge M) (map f l)) ->
  StronglySorted lt (filter (ge M) (map g l)).
Proof.
  induction l as [|a l IH]; intros H S1; cbn [map filter] in *; auto.
  assert (SS : StronglySorted lt (filter (ge M) (map f l))).
  { destruct (ge M (f a)); auto. inversion S1; auto. }
  unfold ge at 1. destruct (Nat.leb_spec M (g a)) as [L|L].
  - destruct (H a (or_introl eq_refl)) as [E|]; [|lia].
    unfold ge at 1 in S1. rewrite <- E in S1.
    destruct (Nat.leb_spec M (g a)); [|lia]. inversion S1 as [|? ? S2 S3]; subst.
    constructor; [apply IH; auto; intros x Hx; apply H; right; auto|].
    rewrite Forall_forall in *. intros n Hn. apply filter_In in Hn. destruct Hn as (Hn & G).
    apply in_map_iff in Hn. destruct Hn as (x & <- & Hx).
    unfold ge in G. apply Nat.leb_le in G.
    destruct (H x (or_intror Hx)) as [Ex|]; [|lia]. apply S3. apply filter_In.
    split; [rewrite Ex; apply in_map; auto|]. unfold ge. apply Nat.leb_le. lia.
  - apply IH; auto. intros x Hx; apply H; right; auto.
Qed.

Lemma seq_sorted a n : StronglySorted lt (seq a n).
Proof.
  revert a. induction n as [|n IH]; intros a; cbn [seq]; constructor; auto.
  apply Forall_forall. intros x Hx. apply in_seq in Hx. lia.
Qed.

Lemma filter_NoDup_inj {A} (f : A -> nat) M (l : list A) x y :
  NoDup (filter (ge M) (map f l)) -> In x l -> In y l -> M <= f x -> f x = f y -> x = y.
Proof.
  induction l as [|a l IH]; intros ND Hx Hy L E; [destruct Hx|].
  cbn [map filter] in ND.
  assert (N : forall z, In z l -> M <= f a -> f z = f a -> False).
  { intros z Hz La Ez. unfold ge at 1 in ND. destruct (Nat.leb_spec M (f a)); [|lia].
    inversion ND as [|? ? N1 N2]; subst. apply N1. apply filter_In. rewrite <- Ez.
    split; [apply in_map; auto|]. unfold ge. apply Nat.leb_le. lia. }
  destruct Hx as [-> |Hx], Hy as [-> |Hy]; auto.
  - exfalso. apply (N y); auto.
  - exfalso. apply (N x); auto. lia.
  - apply IH; auto. destruct (ge M (f a)); auto. inversion ND; auto.
Qed.

Lemma fold_max_le l : forall x v, (fold_left Nat.max l x <= v <-> x <= v /\ Forall (fun n => n <= v) l).
Proof.
  induction l as [|y l IH]; intros x v; cbn [fold_left].
  - split; [intros; split; auto|tauto].
  - rewrite IH. rewrite Forall_cons_iff. rewrite Nat.max_lub_iff. tauto.
Qed.

Lemma maxOf_spec l m : maxOf l = Some m -> In m l /\ Forall (fun n => n <= m) l.
Proof.
  destruct l as [|x l]; [discriminate|]. cbn [maxOf]. intros E. injection E as <-. split.
  - assert (G : forall l x, In (fold_left Nat.max l x) (x :: l)).
    { clear. induction l as [|y l IH]; intros x; cbn [fold_left]; [left; auto|].
      destruct (IH (Nat.max x y)) as [E|E].
      - rewrite <- E. destruct (Nat.max_spec x y) as [(A & ->)|(A & ->)]; cbn [In]; auto.
      - cbn [In]. auto. }
    apply G.
  - constructor.
    + apply (fold_max_le l x (fold_left Nat.max l x)). lia.
    + apply (fold_max_le l x (fold_left Nat.max l x)). lia.
Qed.
