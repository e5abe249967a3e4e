(** Flattening of chained constraint equations (initConstraintEqs). *)
From Coq Require Import List Sorted Permutation Arith ZArith QArith Qcanon Bool Lia.
From Verif Require Import Base SAM_model SAM_spec MPC_model MPC_spec SAMpatch_model SAMpatch_spec SAMpatch_proofs.
Import ListNotations.
Local Open Scope Z_scope.

Lemma foldO_app {A X} (f : A -> X -> option A) l1 l2 a : foldO f (l1 ++ l2) a = match foldO f l1 a with None => None | Some b => foldO f l2 b end.
Proof. revert a. induction l1 as [|x l1 IH]; intros a; [reflexivity|]. cbn. destruct (f a x); [apply IH|reflexivity]. Qed.
Lemma foldO_ext {A X} (f g : A -> X -> option A) l : (forall a x, In x l -> f a x = g a x) -> forall a, foldO f l a = foldO g l a.
Proof. induction l as [|x l IH]; intros H a; [reflexivity|]. cbn. rewrite H by (left; reflexivity). destruct (g a x); [apply IH|reflexivity]. intros; apply H; right; assumption. Qed.

Section Flat.
Variables (md : list nat) (h : list mpc) (ks : list nat) (rank : nat -> nat) (sc0 : list Z).
Hypothesis DT : dofTable md sc0.
Hypothesis ND : NoDup (slavesOf h ks).
Hypothesis KEY : forall k, In k ks -> (k < length h)%nat /\ isKey md (dkey (mslave (nthM h k))) /\ Forall (fun d => isKey md (dkey d)) (mmast (nthM h k)).
Hypothesis LNK : forall k d, In k ks -> In d (mmast (nthM h k)) ->
    match dnext d with
    | None => ~ In (dkey d) (slavesOf h ks)
    | Some j => In j ks /\ dkey (mslave (nthM h j)) = dkey d /\ code sc0 (dofOf md (dkey d)) <> 0 /\ (rank j < rank k)%nat
    end.

(** ** DOF numbers *)
Lemma md_mono i j : (i <= j < length md)%nat -> (nth i md 0 <= nth j md 0)%nat.
Proof.
  destruct DT as (_ & _ & M & _). intros [H1 H2]. induction j as [|j IH]; [replace i with 0%nat by lia; lia|].
  destruct (Nat.eq_dec i (S j)) as [->|N]; [lia|]. specialize (IH ltac:(lia) ltac:(lia)). specialize (M j ltac:(lia)). lia.
Qed.
Lemma isKey_range k : isKey md k -> 1 <= dofOf md k <= Z.of_nat (length sc0).
Proof.
  intros (H1 & H2 & H3). destruct DT as (L & M0 & _ & ME & _). 
  pose proof (md_mono (Z.to_nat (fst k)) (length md - 1) ltac:(lia)) as A. pose proof (md_mono 0 (Z.to_nat (fst k - 1)) ltac:(lia)) as B.
  rewrite ME in A. rewrite M0 in B. unfold dofOf in *. lia.
Qed.
Lemma isKey_inj a b : isKey md a -> isKey md b -> dofOf md a = dofOf md b -> a = b.
Proof.
  destruct a as [n l], b as [n' l']. unfold isKey. cbn [fst snd]. intros (A1 & A2 & A3) (B1 & B2 & B3) E.
  assert (n = n').
  { destruct (Z.lt_trichotomy n n') as [Q|[Q|Q]]; [|exact Q|]; exfalso.
    - pose proof (md_mono (Z.to_nat n) (Z.to_nat (n' - 1)) ltac:(lia)). unfold dofOf in *. cbn [fst snd] in *. lia.
    - pose proof (md_mono (Z.to_nat n') (Z.to_nat (n - 1)) ltac:(lia)). unfold dofOf in *. cbn [fst snd] in *. lia. }
  subst n'. unfold dofOf in E. cbn [fst snd] in E. f_equal. lia.
Qed.
Lemma dofNo_key d : isKey md (dkey d) -> dofNo md d = Some (dofOf md (dkey d)).
Proof.
  intros (H1 & _). unfold dofNo, dofOf, dkey in *. cbn [fst snd] in *. destruct (Z.ltb_spec (dnode d) 1); [lia|].
  rewrite (nth_error_nth' md 0%nat) by lia. reflexivity.
Qed.
Lemma rdMsc_code sc dof : length sc = length sc0 -> 1 <= dof <= Z.of_nat (length sc0) -> rdMsc sc dof = Some (code sc dof).
Proof. intros L H. unfold rdMsc, code. destruct (Z.ltb_spec dof 1); [lia|]. apply nth_error_nth'. lia. Qed.

(** ** number of leaves *)
Definition contrib (f : nat) (d : dofT) : option Z := match dnext d with None => Some 1 | Some j => leaves f h (nthM h j) end.
Lemma leaves_S f m : leaves (S f) h m = foldO (fun n d => match contrib f d with Some x => Some (n + x - 1) | None => None end) (mmast m) (Z.of_nat (length (mmast m))).
Proof.
  cbn [leaves]. apply foldO_ext. intros a x _. unfold contrib. destruct (dnext x); [reflexivity|]. f_equal. lia.
Qed.
Definition zs (l : list Z) : Z := fold_right Z.add 0 l.
Lemma foldO_contrib f l cs : map (contrib f) l = map Some cs -> forall n,
  foldO (fun n d => match contrib f d with Some x => Some (n + x - 1) | None => None end) l n = Some (n - Z.of_nat (length l) + zs cs).
Proof.
  revert cs. induction l as [|d l IH]; intros cs H n.
  - destruct cs; [|discriminate]. cbn. f_equal. lia.
  - destruct cs as [|c cs]; [discriminate|]. cbn [map] in H. injection H as H1 H2. cbn [foldO]. rewrite H1. rewrite (IH cs H2). f_equal. cbn [length zs fold_right]. fold (zs cs). lia.
Qed.
Lemma map_Some_ex {X} (f : X -> option Z) l : (forall x, In x l -> exists c, f x = Some c /\ 0 <= c) -> exists cs, map f l = map Some cs /\ Forall (fun c => 0 <= c) cs.
Proof.
  induction l as [|x l IH]; intros H; [exists []; split; [reflexivity|constructor]|].
  destruct IH as (cs & E & F); [intros; apply H; right; assumption|]. destruct (H x (or_introl eq_refl)) as (c & Ec & Hc).
  exists (c :: cs). split; [cbn; rewrite Ec, E; reflexivity|constructor; assumption].
Qed.
Lemma zs_nonneg cs : Forall (fun c => 0 <= c) cs -> 0 <= zs cs.
Proof. induction 1; cbn; [lia|]. unfold zs in *. lia. Qed.
Lemma leaves_ok : forall f k, In k ks -> (rank k < f)%nat -> exists L, leaves f h (nthM h k) = Some L /\ 0 <= L.
Proof.
  induction f as [|f IH]; intros k Hk Hr; [lia|]. rewrite leaves_S.
  destruct (map_Some_ex (contrib f) (mmast (nthM h k))) as (cs & E & F).
  { intros d Hd. unfold contrib. pose proof (LNK k d Hk Hd) as Q. destruct (dnext d) as [j|]; [|exists 1; split; [reflexivity|lia]]. apply IH; [tauto|lia]. }
  rewrite (foldO_contrib f _ cs E). exists (zs cs). split; [f_equal; lia|]. apply zs_nonneg, F.
Qed.
Lemma leaves_mono : forall f m L, leaves f h m = Some L -> leaves (S f) h m = Some L.
Proof.
  induction f as [|f IH]; intros m L H; [discriminate|]. rewrite leaves_S in *. revert H. generalize (Z.of_nat (length (mmast m))). induction (mmast m) as [|d l IHl]; intros n H; [exact H|].
  cbn [foldO] in *. unfold contrib in *. destruct (dnext d) as [j|]; [|apply IHl; exact H].
  destruct (leaves f h (nthM h j)) as [x|] eqn:E; [|discriminate]. rewrite (IH _ _ E). apply IHl. exact H.
Qed.
Lemma contrib_mono f d c : contrib f d = Some c -> contrib (S f) d = Some c.
Proof. unfold contrib. destruct (dnext d); [apply leaves_mono|auto]. Qed.

(** ** one master *)
Definition free0 (j : Z) : Prop := 1 <= j <= Z.of_nat (length sc0) /\ code sc0 j = 1 /\ forall k, In k ks -> j <> dofOf md (dkey (mslave (nthM h k))).
Definition zeroFixed (v : Z -> Qc) : Prop := forall j, 1 <= j <= Z.of_nat (length sc0) -> code sc0 j = 0 -> v j = 0%Qc.
Definition goodBelow (v : Z -> Qc) (R : nat) : Prop := forall j, In j ks -> (rank j < R)%nat -> code sc0 (dofOf md (dkey (mslave (nthM h j)))) <> 0 -> holdsDof md v (nthM h j).
Definition evalT (v : Z -> Qc) (t : list (Z * Qc)) (o : Qc) : Qc := (o + qs (fun p => snd p * v (fst p)) t)%Qc.
(** status codes that agree with [sc0] outside the slave DOFs *)
Definition agree (sc : list Z) : Prop := length sc = length sc0 /\
  forall j, 1 <= j <= Z.of_nat (length sc0) -> (forall k, In k ks -> j <> dofOf md (dkey (mslave (nthM h k)))) -> (0 <? code sc j) = (0 <? code sc0 j).
Lemma code01 j : 1 <= j <= Z.of_nat (length sc0) -> code sc0 j = 0 \/ code sc0 j = 1.
Proof. intros H. destruct DT as (_ & _ & _ & _ & F). rewrite Forall_forall in F. apply F. apply nth_In. lia. Qed.
Lemma notSlave k d : In k ks -> In d (mmast (nthM h k)) -> dnext d = None -> forall k', In k' ks -> dofOf md (dkey d) <> dofOf md (dkey (mslave (nthM h k'))).
Proof.
  intros Hk Hd E k' Hk' Q. pose proof (LNK k d Hk Hd) as L. rewrite E in L. apply L.
  destruct (KEY k Hk) as (_ & _ & K). rewrite Forall_forall in K. destruct (KEY k' Hk') as (_ & K' & _).
  rewrite (isKey_inj _ _ (K d Hd) K' Q). apply (in_map (fun k => dkey (mslave (nthM h k)))). exact Hk'.
Qed.
Definition flatFold (f : nat) (sc : list Z) (s : Qc) (l : list dofT) (acc : list (Z * Qc) * Qc) : option (list (Z * Qc) * Qc) :=
  foldO (fun acc x => match flat f h md sc x s with Some (t, o) => Some (fst acc ++ t, snd acc + o)%Qc | None => None end) l acc.
Lemma flat_S f sc d s : flat (S f) h md sc d s =
    match dofNo md d with
    | None => None
    | Some idof =>
      match dnext d with
      | Some j => flatFold f sc (s * dcoef d)%Qc (mmast (nthM h j)) ([], (dcoef (mslave (nthM h j)) * (s * dcoef d))%Qc)
      | None =>
        match rdMsc sc idof with
        | None => None
        | Some c => Some (if 0 <? c then [(idof, dcoef d * s)%Qc] else [], 0%Qc)
        end
      end
    end.
Proof. reflexivity. Qed.

Definition Good (f : nat) (k : nat) (d : dofT) (s : Qc) (t : list (Z * Qc)) (o : Qc) : Prop :=
  Forall (fun p => free0 (fst p)) t /\
  (exists c, contrib f d = Some c /\ Z.of_nat (length t) <= c) /\
  forall v, zeroFixed v -> goodBelow v (rank k) -> evalT v t o = (s * dcoef d * v (dofOf md (dkey d)))%Qc.
Lemma flatFold_ok f sc k s : forall l, (forall d, In d l -> exists t o, flat f h md sc d s = Some (t, o) /\ Good f k d s t o) ->
  forall acc, exists t o cs, flatFold f sc s l acc = Some (fst acc ++ t, snd acc + o)%Qc /\
    Forall (fun p => free0 (fst p)) t /\ map (contrib f) l = map Some cs /\ Z.of_nat (length t) <= zs cs /\
    forall v, zeroFixed v -> goodBelow v (rank k) -> evalT v t o = (s * qs (fun d => dcoef d * v (dofOf md (dkey d))) l)%Qc.
Proof.
  induction l as [|d l IH]; intros H acc.
  - exists [], 0%Qc, []. split; [cbn; rewrite app_nil_r; destruct acc; cbn; f_equal; f_equal; ring|]. split; [constructor|]. split; [reflexivity|]. split; [cbn; lia|]. intros v _ _. unfold evalT. cbn. ring.
  - destruct (H d (or_introl eq_refl)) as (t & o & E & G1 & (c & G2 & G3) & G4).
    unfold flatFold. cbn [foldO]. rewrite E. fold (flatFold f sc s l (fst acc ++ t, (snd acc + o)%Qc)).
    destruct (IH (fun x Hx => H x (or_intror Hx)) (fst acc ++ t, (snd acc + o)%Qc)) as (t' & o' & cs & E' & F1 & F2 & F3 & F4).
    exists (t ++ t'), (o + o')%Qc, (c :: cs). rewrite E'. cbn [fst snd]. split; [rewrite app_assoc; f_equal; f_equal; ring|].
    split; [apply Forall_app; auto|]. split; [cbn; rewrite G2, F2; reflexivity|]. split; [rewrite app_length; cbn [zs fold_right]; unfold zs in F3; lia|].
    intros v Z0 GB. specialize (G4 v Z0 GB). specialize (F4 v Z0 GB). unfold evalT in *. rewrite qs_app. cbn [qs fold_right]. fold (qs (fun d => (dcoef d * v (dofOf md (dkey d)))%Qc) l).
    transitivity ((o + qs (fun p => (snd p * v (fst p))%Qc) t) + (o' + qs (fun p => (snd p * v (fst p))%Qc) t'))%Qc; [ring|]. rewrite G4, F4. ring.
Qed.
Lemma flat_ok : forall f sc k d s, agree sc -> In k ks -> In d (mmast (nthM h k)) -> (rank k < f)%nat ->
  exists t o, flat f h md sc d s = Some (t, o) /\ Good f k d s t o.
Proof.
  induction f as [|f IH]; intros sc k d s AG Hk Hd Hr; [lia|].
  destruct (KEY k Hk) as (_ & _ & KD). rewrite Forall_forall in KD. specialize (KD d Hd).
  pose proof (isKey_range _ KD) as RG. rewrite flat_S, (dofNo_key d KD).
  pose proof (LNK k d Hk Hd) as L. destruct (dnext d) as [j|] eqn:E.
  - destruct L as (Hj & Kj & Fj & Rj).
    destruct (flatFold_ok f sc j (s * dcoef d)%Qc (mmast (nthM h j))) with (acc := (@nil (Z * Qc), (dcoef (mslave (nthM h j)) * (s * dcoef d))%Qc)) as (t & o & cs & E1 & E2 & E3 & E4 & E5).
    { intros x Hx. apply IH; auto. lia. }
    exists t, (dcoef (mslave (nthM h j)) * (s * dcoef d) + o)%Qc. split; [exact E1|]. split; [exact E2|]. split.
    + exists (zs cs). split; [|exact E4]. unfold contrib. rewrite E, leaves_S, (foldO_contrib f _ cs E3). f_equal. lia.
    + intros v Z0 GB.
      assert (GB' : goodBelow v (rank j)) by (intros i Hi Ri; apply GB; auto; lia).
      assert (HJ : holdsDof md v (nthM h j)) by (apply GB; auto; rewrite Kj; exact Fj).
      specialize (E5 v Z0 GB'). unfold holdsDof, holds, rhs in HJ. rewrite <- Kj, HJ. unfold evalT in *.
      transitivity (dcoef (mslave (nthM h j)) * (s * dcoef d) + (o + qs (fun p => (snd p * v (fst p))%Qc) t))%Qc; [ring|]. rewrite E5. ring.
  - destruct AG as [AL AG]. rewrite (rdMsc_code sc _ AL RG). specialize (AG _ RG (notSlave k d Hk Hd E)). rewrite AG.
    destruct (code01 _ RG) as [C|C]; rewrite C; cbn [Z.ltb Z.compare].
    + exists [], 0%Qc. split; [reflexivity|]. split; [constructor|]. split; [exists 1; unfold contrib; rewrite E; split; [reflexivity|cbn; lia]|].
      intros v Z0 _. rewrite (Z0 _ RG C). unfold evalT. cbn. ring.
    + exists [(dofOf md (dkey d), (dcoef d * s)%Qc)], 0%Qc. split; [reflexivity|]. split; [constructor; [|constructor]; cbn; split; [exact RG|]; split; [exact C|]; exact (notSlave k d Hk Hd E)|].
      split; [exists 1; unfold contrib; rewrite E; split; [reflexivity|cbn; lia]|]. intros v _ _. unfold evalT. cbn. ring.
Qed.
Lemma flat_ext : forall f sc1 sc2 k d s, agree sc1 -> agree sc2 -> In k ks -> In d (mmast (nthM h k)) -> (rank k < f)%nat ->
  flat f h md sc1 d s = flat f h md sc2 d s.
Proof.
  induction f as [|f IH]; intros sc1 sc2 k d s A1 A2 Hk Hd Hr; [lia|].
  destruct (KEY k Hk) as (_ & _ & KD). rewrite Forall_forall in KD. specialize (KD d Hd).
  pose proof (isKey_range _ KD) as RG. rewrite !flat_S, (dofNo_key d KD). pose proof (LNK k d Hk Hd) as L. destruct (dnext d) as [j|] eqn:E.
  - destruct L as (Hj & Kj & Fj & Rj). unfold flatFold. apply foldO_ext. intros a x Hx. rewrite (IH sc1 sc2 j x _ A1 A2 Hj Hx ltac:(lia)). reflexivity.
  - destruct A1 as [L1 A1], A2 as [L2 A2]. rewrite !rdMsc_code by assumption. rewrite A1, A2 by (auto; exact (notSlave k d Hk Hd E)). reflexivity.
Qed.

(** ** the loop over the equations *)
Notation sdof k := (dofOf md (dkey (mslave (nthM h k)))).
Definition unfixed (k : nat) : bool := 0 <? code sc0 (sdof k).
(** terms and constant of the flat equation *)
Definition row (f : nat) (k : nat) : list (Z * Qc) * Qc :=
  match flatFold f sc0 1%Qc (mmast (nthM h k)) ([], dcoef (mslave (nthM h k))) with Some r => r | None => ([], 0%Qc) end.
Lemma agree0 : agree sc0.
Proof. split; reflexivity. Qed.
Lemma row_ok f k : In k ks -> (rank k < f)%nat ->
  (forall sc, agree sc -> flatFold f sc 1%Qc (mmast (nthM h k)) ([], dcoef (mslave (nthM h k))) = Some (row f k)) /\
  Forall (fun p => free0 (fst p)) (fst (row f k)) /\
  (exists L, leaves f h (nthM h k) = Some L /\ Z.of_nat (length (fst (row f k))) <= L) /\
  forall v, zeroFixed v -> goodBelow v (rank k) -> evalT v (fst (row f k)) (snd (row f k)) = rhs (fun x => v (dofOf md x)) (nthM h k).
Proof.
  intros Hk Hr. pose proof (flatFold_ok f sc0 k 1%Qc (mmast (nthM h k)) (fun d Hd => flat_ok f sc0 k d 1%Qc agree0 Hk Hd Hr) ([], dcoef (mslave (nthM h k)))) as (t & o & cs & E1 & E2 & E3 & E4 & E5).
  cbn [fst snd app] in *. unfold row. rewrite E1. cbn [fst snd]. split; [|split; [exact E2|split]].
  - intros sc A. rewrite <- E1. unfold flatFold. apply foldO_ext. intros a x Hx. rewrite (flat_ext f sc sc0 k x _ A agree0 Hk Hx Hr). reflexivity.
  - destruct f as [|f]; [lia|]. destruct (leaves_ok (S f) k Hk Hr) as (L & EL & HL). exists L. split; [exact EL|].
    pose proof EL as EL2. apply leaves_mono in EL2. rewrite leaves_S, (foldO_contrib _ _ cs E3) in EL2. assert (L = zs cs) by (injection EL2 as <-; lia). lia.
  - intros v Z0 GB. unfold rhs. specialize (E5 v Z0 GB). unfold evalT in *.
    transitivity (dcoef (mslave (nthM h k)) + (o + qs (fun p => (snd p * v (fst p))%Qc) t))%Qc; [ring|]. rewrite E5. ring.
Qed.

Variables (f : nat) (nceq0 nmm0 : Z) (icq0 : list Z).
Hypothesis FUEL : forall k, In k ks -> (rank k < f)%nat.
Hypothesis CAP : Z.of_nat (length ks) <= nceq0.
Hypothesis NMM : 0 <= nmm0.
Hypothesis ICQ : length icq0 = length h.

Definition rlen (k : nat) : nat := S (length (fst (row f k))).
Definition St (ks1 : list nat) (s : cst) : Prop :=
  let acc := filter unfixed ks1 in
  cnq s = nceq0 - Z.of_nat (length ks1 - length acc) /\
  cmp s = psum 1 (map rlen acc) /\
  cmm s = flat_map (fun k => sdof k :: map fst (fst (row f k))) acc /\
  ctt s = flat_map (fun k => snd (row f k) :: map snd (fst (row f k))) acc /\
  length (csc s) = length sc0 /\
  (forall k, In k acc -> code (csc s) (sdof k) < 0) /\
  (forall j, 1 <= j <= Z.of_nat (length sc0) -> (forall k, In k acc -> j <> sdof k) -> code (csc s) j = code sc0 j) /\
  length (icq s) = length icq0 /\
  (forall i k, nth_error acc i = Some k -> nth k (icq s) (-1) = Z.of_nat i) /\
  (forall k, ~ In k acc -> nth k (icq s) (-1) = nth k icq0 (-1)).
Lemma psum_snoc l x : forall a, psum a (l ++ [x]) = psum a l ++ [(last (psum a l) 0 + x)%nat].
Proof.
  induction l as [|y l IH]; intros a; [reflexivity|]. cbn [psum app]. rewrite IH. f_equal. f_equal. f_equal.
  change (a :: psum (a + y) l) with ([a] ++ psum (a + y) l). f_equal. destruct l; reflexivity.
Qed.
Lemma upd_length' {X} (l : list X) i x : length (upd i x l) = length l.
Proof. revert i. induction l as [|y l IH]; intros [|i]; cbn; auto. Qed.
Lemma nth_upd' {X} (l : list X) i j x d : (i < length l)%nat -> nth j (upd i x l) d = if (j =? i)%nat then x else nth j l d.
Proof.
  revert i j. induction l as [|y l IH]; intros i j H; [cbn in H; lia|]. destruct i as [|i], j as [|j]; cbn; auto. apply IH. cbn in H. lia.
Qed.
Lemma code_upd sc j j' c : length sc = length sc0 -> 1 <= j <= Z.of_nat (length sc0) -> 1 <= j' <= Z.of_nat (length sc0) ->
  code (upd (Z.to_nat (j-1)) c sc) j' = if j' =? j then c else code sc j'.
Proof.
  intros L H H'. unfold code. rewrite nth_upd' by lia. destruct (Z.eqb_spec j' j) as [->|N]; [rewrite Nat.eqb_refl; reflexivity|].
  destruct (Nat.eqb_spec (Z.to_nat (j' - 1)) (Z.to_nat (j - 1))); [lia|reflexivity].
Qed.
Lemma sdof_range k : In k ks -> 1 <= sdof k <= Z.of_nat (length sc0).
Proof. intros H. apply isKey_range. apply KEY. exact H. Qed.
Lemma nodup_split {X Y} (g : X -> Y) a x b : NoDup (map g (a ++ x :: b)) -> forall y, In y a -> g x <> g y.
Proof.
  intros N y Hy E. rewrite map_app in N. cbn [map] in N. apply NoDup_remove in N. destruct N as [_ N]. apply N. apply in_app_iff. left. rewrite E. apply in_map. exact Hy.
Qed.
Lemma sdof_distinct ks1 k ks2 : ks = ks1 ++ k :: ks2 -> forall k', In k' ks1 -> sdof k <> sdof k'.
Proof.
  intros E k' Hk' Q. assert (K1 : In k ks) by (rewrite E; apply in_elt). assert (K2 : In k' ks) by (rewrite E; apply in_app_iff; left; exact Hk').
  apply isKey_inj in Q; try (apply KEY; assumption). pose proof ND as N. unfold slavesOf in N. rewrite E in N.
  exact (nodup_split (fun k => dkey (mslave (nthM h k))) ks1 k ks2 N k' Hk' Q).
Qed.
Lemma zs_app a b : zs (a ++ b) = zs a + zs b.
Proof. unfold zs. induction a; cbn; lia. Qed.
Lemma cap_total ls : forall n, (forall k, In k ls -> In k ks) -> exists T,
  foldO (fun n k => match leaves f h (nthM h k) with Some x => Some (n + 1 + x) | None => None end) ls n = Some (n + T) /\
  forall ls1 ls2, ls = ls1 ++ ls2 -> Z.of_nat (list_sum (map rlen (filter unfixed ls1))) <= T.
Proof.
  induction ls as [|k ls IH]; intros n Hin.
  - exists 0. split; [cbn; f_equal; lia|]. intros [|? ?] ls2 E; [cbn; lia|discriminate].
  - destruct (row_ok f k (Hin k (or_introl eq_refl)) (FUEL k (Hin k (or_introl eq_refl)))) as (_ & _ & (L & E & HL) & _).
    destruct (IH (n + 1 + L) (fun x Hx => Hin x (or_intror Hx))) as (T & E' & HT).
    exists (1 + L + T). split; [cbn [foldO]; rewrite E, E'; f_equal; lia|]. intros [|k' ls1] ls2 Q.
    + pose proof (HT [] ls eq_refl) as Q0. cbn in Q0. change (list_sum (map rlen (filter unfixed []))) with 0%nat. lia.
    + cbn [app] in Q. injection Q as <- Q. specialize (HT ls1 ls2 Q). cbn [filter]. destruct (unfixed k); [|lia]. cbn [map].
      change (list_sum (rlen k :: map rlen (filter unfixed ls1))) with (rlen k + list_sum (map rlen (filter unfixed ls1)))%nat. unfold rlen at 1. lia.
Qed.
Lemma cmm_len acc : length (flat_map (fun k => sdof k :: map fst (fst (row f k))) acc) = list_sum (map rlen acc).
Proof. induction acc as [|k acc IH]; [reflexivity|]. cbn [flat_map map]. rewrite app_length, IH. cbn [length]. rewrite map_length. reflexivity. Qed.
Lemma ceqStep_ok cap2 ks1 k ks2 s : ks = ks1 ++ k :: ks2 -> St ks1 s -> Z.of_nat (list_sum (map rlen (filter unfixed (ks1 ++ [k])))) <= cap2 ->
  exists s', ceqStep f h md (nceq0 + 1) cap2 s k = Some s' /\ St (ks1 ++ [k]) s'.
Proof.
  intros E (S1 & S2 & S3 & S4 & S5 & S6 & S7 & S8 & S9 & S10) HC.
  assert (Hk : In k ks) by (rewrite E; apply in_elt).
  assert (LA : (length (filter unfixed ks1) <= length ks1)%nat).
  { clear. induction ks1 as [|x l IH]; cbn; [lia|]. destruct (unfixed x); cbn; lia. }
  assert (LK : (length ks1 < length ks)%nat) by (rewrite E, app_length; cbn; lia).
  assert (LC : length (cmp s) = S (length (filter unfixed ks1))) by (rewrite S2, psum_length, map_length; reflexivity).
  assert (NA : forall k', In k' (filter unfixed ks1) -> sdof k <> sdof k').
  { intros k' H. apply filter_In in H. apply (sdof_distinct ks1 k ks2 E). tauto. }
  pose proof (sdof_range k Hk) as RG.
  assert (CK : code (csc s) (sdof k) = code sc0 (sdof k)) by (apply S7; assumption).
  unfold ceqStep. destruct (Z.leb_spec (nceq0 + 1) (Z.of_nat (length (cmp s)))) as [Q|_]; [lia|].
  rewrite (dofNo_key (mslave (nthM h k))) by (apply KEY; exact Hk). rewrite (rdMsc_code _ _ S5 RG), CK.
  unfold St. rewrite filter_app. cbn [filter].
  destruct (code01 _ RG) as [C|C]; rewrite C; cbn [Z.leb Z.ltb Z.compare].
  - assert (UK : unfixed k = false) by (unfold unfixed; rewrite C; reflexivity). rewrite UK, app_nil_r. eexists. split; [reflexivity|]. cbn [cnq cmp cmm ctt csc icq]. rewrite app_length. cbn [length].
    split; [lia|]. split; [exact S2|]. split; [exact S3|]. split; [exact S4|]. split; [exact S5|]. split; [exact S6|]. split; [exact S7|]. split; [exact S8|]. split; assumption.
  - destruct (row_ok f k Hk (FUEL k Hk)) as (R1 & R2 & _ & _). fold (flatFold f (upd (Z.to_nat (sdof k - 1)) (- Z.of_nat (length (cmp s))) (csc s)) 1%Qc (mmast (nthM h k)) ([], dcoef (mslave (nthM h k)))).
    rewrite R1.
    2:{ split; [rewrite upd_length'; exact S5|]. intros j Hj NS. rewrite code_upd by assumption. destruct (Z.eqb_spec j (sdof k)) as [Q|Q]; [exfalso; exact (NS k Hk Q)|].
        rewrite S7; auto. intros k' Hk' Q'. apply filter_In in Hk'. apply (NS k'); [rewrite E; apply in_app_iff; left; tauto|exact Q']. }
    destruct (row f k) as [t o] eqn:ER.
    assert (LM : length (cmm s) = list_sum (map rlen (filter unfixed ks1))) by (rewrite S3; apply cmm_len).
    assert (UK : unfixed k = true) by (unfold unfixed; rewrite C; reflexivity).
    rewrite UK. rewrite filter_app in HC. cbn [filter] in HC. rewrite UK, map_app, list_sum_app in HC. cbn [map] in HC. change (list_sum [rlen k]) with (rlen k + 0)%nat in HC. unfold rlen at 2 in HC. rewrite ER in HC. cbn [fst] in HC.
    destruct (Z.ltb_spec cap2 (Z.of_nat (length (cmm s) + 1 + length t))) as [Q|_]; [lia|].
    eexists. split; [reflexivity|]. cbn [cnq cmp cmm ctt csc icq].
    assert (KN : ~ In k (filter unfixed ks1)) by (intros H; exact (NA k H eq_refl)).
    rewrite !app_length. cbn [length]. split; [lia|].
    split; [rewrite map_app; cbn [map]; rewrite psum_snoc, <- S2; unfold rlen; rewrite ER; cbn [fst]; f_equal; f_equal; lia|].
    split; [rewrite flat_map_app; cbn [flat_map]; rewrite ER, app_nil_r, <- S3; reflexivity|].
    split; [rewrite flat_map_app; cbn [flat_map]; rewrite ER, app_nil_r, <- S4; reflexivity|].
    split; [rewrite upd_length'; exact S5|].
    split.
    { intros k' Hk'. apply in_app_iff in Hk'. destruct Hk' as [Hk'|[<-|[]]].
      - assert (K2 : In k' ks) by (apply filter_In in Hk'; rewrite E; apply in_app_iff; left; tauto).
        rewrite code_upd by (auto using sdof_range). destruct (Z.eqb_spec (sdof k') (sdof k)) as [Q|Q]; [exfalso; exact (NA k' Hk' (eq_sym Q))|]. apply S6. exact Hk'.
      - rewrite code_upd by auto. rewrite Z.eqb_refl. lia. }
    split.
    { intros j Hj NS. rewrite code_upd by auto. destruct (Z.eqb_spec j (sdof k)) as [Q|Q]; [exfalso; apply (NS k); [apply in_app_iff; right; left; reflexivity|exact Q]|].
      apply S7; [exact Hj|]. intros k' Hk'. apply NS. apply in_app_iff. left. exact Hk'. }
    split; [rewrite upd_length'; exact S8|].
    assert (KH : (k < length (icq s))%nat) by (rewrite S8, ICQ; apply KEY; exact Hk).
    split.
    { intros i k' Hi. rewrite nth_upd' by exact KH. destruct (Nat.lt_ge_cases i (length (filter unfixed ks1))) as [Q|Q].
      - rewrite nth_error_app1 in Hi by exact Q. destruct (Nat.eqb_spec k' k) as [Q2|_]; [exfalso; subst k'; apply KN; exact (nth_error_In _ _ Hi)|]. apply S9. exact Hi.
      - rewrite nth_error_app2 in Hi by exact Q. destruct (i - length (filter unfixed ks1))%nat as [|q] eqn:Ei; [|destruct q; discriminate]. cbn in Hi. injection Hi as <-.
        rewrite Nat.eqb_refl, LC. cbn [pred]. f_equal. lia. }
    intros k' Hk'. rewrite nth_upd' by exact KH. destruct (Nat.eqb_spec k' k) as [->|Q]; [exfalso; apply Hk'; apply in_app_iff; right; left; reflexivity|].
    apply S10. intros H. apply Hk'. apply in_app_iff. left. exact H.
Qed.
Lemma ceqFold_ok cap2 : forall ks2 ks1 s, ks = ks1 ++ ks2 -> St ks1 s ->
  (forall l1 l2, ks = l1 ++ l2 -> Z.of_nat (list_sum (map rlen (filter unfixed l1))) <= cap2) ->
  exists s', foldO (ceqStep f h md (nceq0 + 1) cap2) ks2 s = Some s' /\ St ks s'.
Proof.
  induction ks2 as [|k ks2 IH]; intros ks1 s E HS HC.
  - rewrite app_nil_r in E. subst ks1. exists s. split; [reflexivity|exact HS].
  - destruct (ceqStep_ok cap2 ks1 k ks2 s E HS) as (s1 & E1 & HS1).
    + apply (HC (ks1 ++ [k]) ks2). rewrite <- app_assoc. exact E.
    + cbn [foldO]. rewrite E1. apply (IH (ks1 ++ [k])); [rewrite <- app_assoc; exact E|exact HS1|exact HC].
Qed.
Definition accepted : list nat := filter unfixed ks.
Lemma initCeqs_ok : exists s nmm, initConstraintEqs f h md sc0 nceq0 nmm0 ks icq0 = Some (s, nmm) /\ nmm0 <= nmm /\
  cnq s = nceq0 - Z.of_nat (length ks - length accepted) /\
  cmp s = psum 1 (map rlen accepted) /\
  cmm s = flat_map (fun k => sdof k :: map fst (fst (row f k))) accepted /\
  ctt s = flat_map (fun k => snd (row f k) :: map snd (fst (row f k))) accepted /\
  length (csc s) = length sc0 /\
  (forall k, In k accepted -> code (csc s) (sdof k) = 0) /\
  (forall j, 1 <= j <= Z.of_nat (length sc0) -> (forall k, In k accepted -> j <> sdof k) -> code (csc s) j = code sc0 j) /\
  length (icq s) = length icq0 /\
  (forall i k, nth_error accepted i = Some k -> nth k (icq s) (-1) = Z.of_nat i) /\
  (forall k, ~ In k accepted -> nth k (icq s) (-1) = nth k icq0 (-1)).
Proof.
  destruct (cap_total ks nmm0 (fun k H => H)) as (T & ET & HT). pose proof (HT [] ks eq_refl) as TN. cbn in TN. unfold initConstraintEqs. rewrite ET.
  assert (S0 : St [] (mkC nceq0 [1%nat] [] [] sc0 icq0)).
  { unfold St. cbn. split; [lia|]. split; [reflexivity|]. split; [reflexivity|]. split; [reflexivity|]. split; [reflexivity|]. split; [intros k []|]. split; [auto|]. split; [reflexivity|]. split; [|auto]. intros [|i] k H; discriminate. }
  destruct (Z.ltb_spec nceq0 1) as [Q|Q].
  - assert (E : ks = []) by (destruct ks; [reflexivity|cbn in CAP; lia]). exists (mkC nceq0 [1%nat] [] [] sc0 icq0), (nmm0 + T). split; [reflexivity|]. split; [lia|].
    unfold accepted. rewrite E. destruct S0 as (A1 & A2 & A3 & A4 & A5 & A6 & A7 & A8 & A9 & A10). cbn [filter] in *. split; [exact A1|]. split; [exact A2|]. split; [exact A3|]. split; [exact A4|]. split; [exact A5|]. split; [intros k []|]. split; [exact A7|]. split; [exact A8|]. split; assumption.
  - destruct (ceqFold_ok (nmm0 + T) ks [] _ eq_refl S0) as (s & E & HS).
    { intros l1 l2 El. specialize (HT l1 l2 El). lia. }
    rewrite E. exists (mkC (cnq s) (cmp s) (cmm s) (ctt s) (map (fun c => if c <? 0 then 0 else c) (csc s)) (icq s)), (nmm0 + T). split; [reflexivity|]. split; [lia|].
    destruct HS as (A1 & A2 & A3 & A4 & A5 & A6 & A7 & A8 & A9 & A10). cbn [cnq cmp cmm ctt csc icq]. fold accepted in *.
    assert (CM : forall j, code (map (fun c => if c <? 0 then 0 else c) (csc s)) j = if code (csc s) j <? 0 then 0 else code (csc s) j).
    { intros j. unfold code. exact (map_nth (fun c => if c <? 0 then 0 else c) (csc s) 0 (Z.to_nat (j - 1))). }
    split; [exact A1|]. split; [exact A2|]. split; [exact A3|]. split; [exact A4|]. split; [rewrite map_length; exact A5|].
    split; [|split; [|split; [exact A8|split; assumption]]].
    + intros k Hk. rewrite CM. specialize (A6 k Hk). destruct (Z.ltb_spec (code (csc s) (sdof k)) 0); [reflexivity|lia].
    + intros j Hj NS. rewrite CM, A7 by assumption. destruct (code01 j Hj) as [C|C]; rewrite C; reflexivity.
Qed.

(** ** reading the rows *)
Lemma seg_nth {X Y} (g : X -> list Y) (d : Y) : forall l i x q, nth_error l i = Some x -> (q < length (g x))%nat ->
  nth (list_sum (map (fun x => length (g x)) (firstn i l)) + q) (flat_map g l) d = nth q (g x) d.
Proof.
  induction l as [|y l IH]; intros [|i] x q H Hq; try discriminate.
  - cbn in H. injection H as ->. cbn. rewrite app_nth1 by exact Hq. reflexivity.
  - cbn in H. cbn [firstn map flat_map]. change (list_sum (length (g y) :: map (fun x => length (g x)) (firstn i l))) with (length (g y) + list_sum (map (fun x => length (g x)) (firstn i l)))%nat.
    rewrite app_nth2 by lia. replace (_ + _ + q - _)%nat with (list_sum (map (fun x => length (g x)) (firstn i l)) + q)%nat by lia. apply IH; assumption.
Qed.
Lemma combine_seq (t : list (Z * Qc)) : map (fun q => (nth q (map fst t) 0, nth q (map snd t) 0%Qc)) (seq 0 (length t)) = t.
Proof.
  induction t as [|[a b] t IH]; [reflexivity|]. cbn [length seq map]. f_equal. rewrite <- seq_shift, map_map. exact IH.
Qed.
Lemma rows_ok (T : tables) i k : mpmceq T = psum 1 (map rlen accepted) ->
  mmceq T = flat_map (fun k => sdof k :: map fst (fst (row f k))) accepted ->
  ttcc T = flat_map (fun k => snd (row f k) :: map snd (fst (row f k))) accepted ->
  nth_error accepted i = Some k ->
  (1 <= firstPos T (S i) < afterPos T (S i))%nat /\ (afterPos T (S i) - 1 <= length (mmceq T))%nat /\
  slaveDof T (S i) = sdof k /\ offset T (S i) = snd (row f k) /\ masterTerms T (S i) = fst (row f k).
Proof.
  intros E1 E2 E3 Hi. assert (Li : (i < length accepted)%nat) by (apply nth_error_Some; congruence).
  set (p := list_sum (map rlen (firstn i accepted))).
  assert (F1 : firstPos T (S i) = S p).
  { unfold firstPos. replace (S i - 1)%nat with i by lia. rewrite E1, psum_nth by (rewrite map_length; lia). unfold p. rewrite firstn_map. lia. }
  assert (F2 : afterPos T (S i) = (S p + rlen k)%nat).
  { unfold afterPos. rewrite E1, psum_step by (rewrite map_length; lia). unfold firstPos in F1. rewrite E1 in F1. replace (S i - 1)%nat with i in F1 by lia. rewrite F1. f_equal.
    rewrite nth_indep with (d' := rlen 0) by (rewrite map_length; lia). rewrite map_nth. f_equal. apply nth_error_nth. exact Hi. }
  assert (P1 : p = list_sum (map (fun x => length (sdof x :: map fst (fst (row f x)))) (firstn i accepted))).
  { unfold p. f_equal. apply map_ext. intros x. cbn [length]. rewrite map_length. reflexivity. }
  assert (P2 : p = list_sum (map (fun x => length (snd (row f x) :: map snd (fst (row f x)))) (firstn i accepted))).
  { unfold p. f_equal. apply map_ext. intros x. cbn [length]. rewrite map_length. reflexivity. }
  assert (N1 : forall q, (q <= length (fst (row f k)))%nat -> nth (p + q) (mmceq T) 0 = nth q (sdof k :: map fst (fst (row f k))) 0).
  { intros q Hq. rewrite E2, P1. apply (seg_nth (fun k => sdof k :: map fst (fst (row f k)))); [exact Hi|]. cbn [length]. rewrite map_length. lia. }
  assert (N2 : forall q, (q <= length (fst (row f k)))%nat -> nth (p + q) (ttcc T) 0%Qc = nth q (snd (row f k) :: map snd (fst (row f k))) 0%Qc).
  { intros q Hq. rewrite E3, P2. apply (seg_nth (fun k => snd (row f k) :: map snd (fst (row f k)))); [exact Hi|]. cbn [length]. rewrite map_length. lia. }
  split; [rewrite F1, F2; unfold rlen; lia|]. split; [|split; [|split]].
  - rewrite F2, E2, cmm_len. unfold rlen at 1.
    assert (G : (p + rlen k <= list_sum (map rlen accepted))%nat).
    { unfold p. rewrite <- (firstn_skipn i accepted) at 2. rewrite map_app, list_sum_app. clear - Hi. apply Nat.add_le_mono_l.
      revert i Hi. induction accepted as [|y l IH]; intros [|i] H; try discriminate.
      - cbn in H. injection H as ->. cbn [skipn map]. change (list_sum (rlen k :: map rlen l)) with (rlen k + list_sum (map rlen l))%nat. lia.
      - cbn [skipn]. apply IH. exact H. }
    unfold rlen in *. lia.
  - unfold slaveDof. rewrite F1. replace (S p - 1)%nat with (p + 0)%nat by lia. rewrite N1 by lia. reflexivity.
  - unfold offset. rewrite F1. replace (S p - 1)%nat with (p + 0)%nat by lia. rewrite N2 by lia. reflexivity.
  - unfold masterTerms. rewrite F1, F2. replace (S p + rlen k - 1 - S p)%nat with (length (fst (row f k))) by (unfold rlen; lia).
    rewrite <- (combine_seq (fst (row f k))) at 2. replace (S p) with (S p + 0)%nat by lia.
    assert (SQ : forall n a b, seq (a + b) n = map (Nat.add a) (seq b n)).
    { clear. induction n as [|n IH]; intros a b; [reflexivity|]. cbn [seq map]. f_equal. rewrite <- IH. f_equal. lia. }
    rewrite SQ, map_map. apply map_ext_in. intros q Hq. apply in_seq in Hq. replace (S p + q)%nat with (p + S q)%nat by lia. rewrite N1, N2 by lia. reflexivity.
Qed.
Lemma accepted_in k : In k accepted <-> In k ks /\ code sc0 (sdof k) <> 0.
Proof.
  unfold accepted. rewrite filter_In. unfold unfixed. split; intros [H1 H2]; (split; [exact H1|]); destruct (code01 _ (sdof_range k H1)) as [C|C]; rewrite C in *; cbn in *; congruence.
Qed.
Lemma chain_rows (T : tables) v : mpmceq T = psum 1 (map rlen accepted) ->
  mmceq T = flat_map (fun k => sdof k :: map fst (fst (row f k))) accepted ->
  ttcc T = flat_map (fun k => snd (row f k) :: map snd (fst (row f k))) accepted ->
  zeroFixed v ->
  ((forall k, In k ks -> code sc0 (sdof k) <> 0 -> holdsDof md v (nthM h k)) <-> (forall i, (1 <= i <= nceq T)%nat -> holdsRow T v i)).
Proof.
  intros E1 E2 E3 Z0.
  assert (NC : nceq T = length accepted) by (unfold nceq; rewrite E1, psum_length, map_length; reflexivity).
  assert (HR : forall i k, nth_error accepted i = Some k -> (holdsRow T v (S i) <-> v (sdof k) = evalT v (fst (row f k)) (snd (row f k)))).
  { intros i k Hi. destruct (rows_ok T i k E1 E2 E3 Hi) as (_ & _ & A & B & C). unfold holdsRow. rewrite A, B, C. reflexivity. }
  split.
  - intros H i Hi. destruct i as [|i]; [lia|]. destruct (nth_error accepted i) as [k|] eqn:E; [|apply nth_error_None in E; lia].
    apply (HR i k E). assert (Hk : In k accepted) by (apply nth_error_In in E; exact E). apply accepted_in in Hk. destruct Hk as [Hk Ck].
    destruct (row_ok f k Hk (FUEL k Hk)) as (_ & _ & _ & R). rewrite R; [|exact Z0|]; [apply H; assumption|]. intros j Hj _ Cj. apply H; assumption.
  - intros H. assert (G : forall n, goodBelow v n).
    { induction n as [|n IH]; intros j Hj Rj Cj; [lia|].
      assert (IA : In j accepted) by (apply accepted_in; auto). apply In_nth_error in IA. destruct IA as (i & Hi).
      assert (Li : (i < length accepted)%nat) by (apply nth_error_Some; congruence).
      specialize (H (S i) ltac:(lia)). apply (HR i j Hi) in H. destruct (row_ok f j Hj (FUEL j Hj)) as (_ & _ & _ & R).
      rewrite R in H; [exact H|exact Z0|]. intros j' Hj' Rj' Cj'. apply IH; auto. lia. }
    intros k Hk Ck. apply (G (S (rank k))); auto.
Qed.
Lemma valid_rows (T : tables) : mpmceq T = psum 1 (map rlen accepted) ->
  mmceq T = flat_map (fun k => sdof k :: map fst (fst (row f k))) accepted ->
  ttcc T = flat_map (fun k => snd (row f k) :: map snd (fst (row f k))) accepted ->
  length (msc T) = length sc0 -> (forall k, In k accepted -> code (msc T) (sdof k) = 0) ->
  (forall j, 1 <= j <= Z.of_nat (length sc0) -> (forall k, In k accepted -> j <> sdof k) -> code (msc T) j = code sc0 j) -> validInput T.
Proof.
  intros E1 E2 E3 L C0 C1. split.
  - apply Forall_forall. intros c Hc. destruct (In_nth _ _ 0 Hc) as (p & Hp & <-).
    assert (J : 1 <= Z.of_nat (S p) <= Z.of_nat (length sc0)) by lia.
    assert (CE : nth p (msc T) 0 = code (msc T) (Z.of_nat (S p))) by (unfold code; f_equal; lia). rewrite CE.
    destruct (in_dec Z.eq_dec (Z.of_nat (S p)) (map (fun k => sdof k) accepted)) as [I|I].
    + apply in_map_iff in I. destruct I as (k & <- & Hk). left. apply C0. exact Hk.
    + rewrite C1; [destruct (code01 _ J); auto|exact J|]. intros k Hk Q. apply I. rewrite Q. apply (in_map (fun k => sdof k)). exact Hk.
  - intros i Hi. destruct i as [|i]; [lia|]. assert (NC : nceq T = length accepted) by (unfold nceq; rewrite E1, psum_length, map_length; reflexivity).
    destruct (nth_error accepted i) as [k|] eqn:E; [|apply nth_error_None in E; lia].
    destruct (rows_ok T i k E1 E2 E3 E) as (A & B & C & _ & D).
    assert (Hk : In k accepted) by (apply nth_error_In in E; exact E). pose proof Hk as Hk2. apply accepted_in in Hk2. destruct Hk2 as [Hk2 _].
    split; [exact A|]. split; [exact B|]. rewrite C. unfold ndof. rewrite L. split; [apply sdof_range; exact Hk2|]. split; [apply C0; exact Hk|].
    rewrite D. intros j c Hjc. destruct (row_ok f k Hk2 (FUEL k Hk2)) as (_ & F & _). rewrite Forall_forall in F. specialize (F _ Hjc). cbn [fst] in F. destruct F as (F1 & F2 & F3).
    split; [exact F1|]. left. change (status T (Z.to_nat (j - 1))) with (code (msc T) j). rewrite C1; [exact F2|exact F1|]. intros k' Hk'. apply F3. apply accepted_in in Hk'. tauto.
Qed.
End Flat.
