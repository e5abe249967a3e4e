(** Proofs about the message exchange: the residual list of messages is an invariant. *)
From Coq Require Import List Bool Arith Lia Sorted.
From Verif Require Import Ddm_model Ddm_spec.
Import ListNotations.

Section P.
Context {V : Type}.

(** A message not yet sent, or sent and not yet received. *)
Inductive item : Type :=
| Full (s d t : nat) (f : list V -> V)
| Half (s d t : nat) (v : V).

Definition proj1i (p : nat) (x : item) : list (act V) :=
  match x with
  | Full s d t f => (if s =? p then [Snd d t f] else []) ++ (if d =? p then [Rcv s t] else [])
  | Half s d t v => if d =? p then [Rcv s t] else []
  end.
Definition proj (p : nat) (H : list item) : list (act V) := flat_map (proj1i p) H.

Definition half1 (s d : nat) (x : item) : list (nat * V) :=
  match x with
  | Full _ _ _ _ => []
  | Half s' d' t v => if (s' =? s) && (d' =? d) then [(t, v)] else []
  end.
Definition halfs (s d : nat) (H : list item) : list (nat * V) := flat_map (half1 s d) H.

Definition noHalf (s : nat) (H : list item) : Prop := forall d t v, ~ In (Half s d t v) H.
Fixpoint okH (H : list item) : Prop :=
  match H with
  | [] => True
  | Full s d t f :: B => s <> d /\ noHalf s B /\ okH B
  | Half s d t v :: B => okH B
  end.

Definition touches (p : nat) (x : item) : Prop :=
  match x with Full s d _ _ => s = p \/ d = p | Half _ d _ _ => d = p end.
Definition untouched (p : nat) (A : list item) : Prop := forall x, In x A -> ~ touches p x.

Fixpoint run (H : list item) (g : nat -> list V) : nat -> list V :=
  match H with
  | [] => g
  | Full s d t f :: B => run B (set1 g d (g d ++ [f (g s)]))
  | Half s d t v :: B => run B (set1 g d (g d ++ [v]))
  end.

Lemma set1_same : forall A (g : nat -> A) i a, set1 g i a i = a.
Proof. intros. unfold set1. rewrite Nat.eqb_refl. reflexivity. Qed.
Lemma set1_other : forall A (g : nat -> A) i a j, j <> i -> set1 g i a j = g j.
Proof. intros. unfold set1. destruct (Nat.eqb_spec j i); congruence. Qed.

Lemma run_ext : forall H g g', (forall q, g q = g' q) -> forall q, run H g q = run H g' q.
Proof.
  induction H as [|[s d t f | s d t v] B IH]; intros g g' E q; simpl; [apply E | |];
    apply IH; intros x; unfold set1; rewrite !E; reflexivity.
Qed.

Lemma run_move : forall A s d t v B g q, untouched d A ->
  run (A ++ Half s d t v :: B) g q = run (A ++ B) (set1 g d (g d ++ [v])) q.
Proof.
  induction A as [|y A IH]; intros s d t v B g q U; [reflexivity|].
  assert (U1 : ~ touches d y) by (apply U; left; reflexivity).
  assert (U2 : untouched d A) by (intros x Hx; apply U; right; exact Hx).
  destruct y as [s' d' t' f | s' d' t' v']; simpl in U1 |- *.
  - rewrite IH by exact U2. apply run_ext. intros x.
    rewrite (set1_other _ g d' _ d) by (intros E; apply U1; auto).
    rewrite (set1_other _ g d _ d'), (set1_other _ g d _ s') by (intros E; apply U1; auto).
    unfold set1. destruct (Nat.eqb_spec x d), (Nat.eqb_spec x d'); subst; try reflexivity. tauto.
  - rewrite IH by exact U2. apply run_ext. intros x.
    rewrite (set1_other _ g d' _ d) by congruence. rewrite (set1_other _ g d _ d') by congruence.
    unfold set1. destruct (Nat.eqb_spec x d), (Nat.eqb_spec x d'); subst; try reflexivity. tauto.
Qed.

Lemma run_send : forall A s d t f B g q, untouched s A ->
  run (A ++ Full s d t f :: B) g q = run (A ++ Half s d t (f (g s)) :: B) g q.
Proof.
  induction A as [|y A IH]; intros s d t f B g q U; [reflexivity|].
  assert (U1 : ~ touches s y) by (apply U; left; reflexivity).
  assert (U2 : untouched s A) by (intros x Hx; apply U; right; exact Hx).
  destruct y as [s' d' t' f' | s' d' t' v']; simpl in U1 |- *; rewrite IH by exact U2;
    rewrite set1_other by (intros E; apply U1; auto); reflexivity.
Qed.

Lemma proj_app : forall p A B, proj p (A ++ B) = proj p A ++ proj p B.
Proof. intros. apply flat_map_app. Qed.
Lemma halfs_app : forall s d A B, halfs s d (A ++ B) = halfs s d A ++ halfs s d B.
Proof. intros. apply flat_map_app. Qed.

Lemma proj1_untouched : forall p x, ~ touches p x -> proj1i p x = [].
Proof.
  intros p [s d t f | s d t v] H; simpl in *.
  - destruct (Nat.eqb_spec s p), (Nat.eqb_spec d p); tauto || reflexivity.
  - destruct (Nat.eqb_spec d p); tauto || reflexivity.
Qed.
Lemma proj_untouched : forall p A, untouched p A -> proj p A = [].
Proof.
  intros p A. induction A as [|x A IH]; intros U; [reflexivity|]. simpl.
  rewrite proj1_untouched by (apply U; left; reflexivity). apply IH. intros y Hy. apply U. right. exact Hy.
Qed.

(** Where the next action of a process comes from. *)
Lemma first_touch : forall p H a r, okH H -> proj p H = a :: r ->
  exists A x B, H = A ++ x :: B /\ untouched p A /\ proj1i p x = [a] /\ r = proj p B.
Proof.
  intros p H. induction H as [|x H IH]; intros a r O E; [discriminate|].
  simpl in E. destruct (proj1i p x) as [|b l] eqn:P.
  - assert (O' : okH H) by (destruct x; simpl in O; tauto).
    destruct (IH a r O' E) as (A & y & B & -> & U & P1 & R).
    exists (x :: A), y, B. repeat split; try assumption.
    intros z [<- | Hz]; [|apply U; exact Hz]. intros T. destruct x as [s d t f | s d t v]; simpl in P, T.
    + destruct (Nat.eqb_spec s p), (Nat.eqb_spec d p); try discriminate; tauto.
    + destruct (Nat.eqb_spec d p); [discriminate | tauto].
  - exists [], x, H. split; [reflexivity|]. split; [intros y []|].
    assert (L : l = []).
    { destruct x as [s d t f | s d t v]; simpl in P, O.
      - destruct (Nat.eqb_spec s p), (Nat.eqb_spec d p); simpl in P; inversion P; try reflexivity.
        exfalso. destruct O as [O _]. congruence.
      - destruct (Nat.eqb_spec d p); inversion P; reflexivity. }
    subst l. simpl in E. inversion E; subst. split; [exact P | reflexivity].
Qed.

Lemma okH_app : forall A B, okH (A ++ B) -> okH B.
Proof. induction A as [|[s d t f | s d t v] A IH]; intros B H; simpl in H; [exact H | apply IH; tauto | apply IH; exact H]. Qed.

Lemma okH_remove : forall A x B, okH (A ++ x :: B) -> okH (A ++ B).
Proof.
  induction A as [|[s d t f | s d t v] A IH]; intros x B H; simpl in *.
  - destruct x; simpl in H; tauto.
  - destruct H as (N & H1 & H2). split; [exact N|]. split; [|eapply IH; exact H2].
    intros d' t' v' HI. apply (H1 d' t' v'). apply in_app_or in HI. apply in_or_app. destruct HI; [left | right; right]; assumption.
  - eapply IH; exact H.
Qed.

Lemma okH_send : forall A s d t f v B, okH (A ++ Full s d t f :: B) -> untouched s A ->
  okH (A ++ Half s d t v :: B).
Proof.
  induction A as [|[s' d' t' f' | s' d' t' v'] A IH]; intros s d t f v B H U.
  - simpl in *. tauto.
  - simpl in *. destruct H as (N & H1 & H2). split; [exact N|].
    assert (NS : s' <> s) by (intros ->; apply (U (Full s d' t' f')); [left; reflexivity | simpl; tauto]).
    split.
    + intros d1 t1 v1 HI. apply in_app_or in HI. destruct HI as [HI | [HI | HI]].
      * apply (H1 d1 t1 v1). apply in_or_app. tauto.
      * inversion HI. congruence.
      * apply (H1 d1 t1 v1). apply in_or_app. right. right. exact HI.
    + eapply IH; [exact H2|]. intros x Hx. apply U. right. exact Hx.
  - simpl in *. eapply IH; [exact H|]. intros x Hx. apply U. right. exact Hx.
Qed.

Lemma halfs_nil : forall s d B, noHalf s B -> halfs s d B = [].
Proof.
  intros s d B. induction B as [|x B IH]; intros N; [reflexivity|]. simpl.
  rewrite IH by (intros d' t' v' HI; apply (N d' t' v'); right; exact HI).
  destruct x as [s' d' t' f | s' d' t' v']; [reflexivity|]. simpl.
  destruct (Nat.eqb_spec s' s), (Nat.eqb_spec d' d); try reflexivity.
  exfalso. subst. apply (N d t' v'). left. reflexivity.
Qed.
Lemma halfs_untouched : forall s d A, untouched d A -> halfs s d A = [].
Proof.
  intros s d A. induction A as [|x A IH]; intros U; [reflexivity|]. simpl.
  rewrite IH by (intros y Hy; apply U; right; exact Hy).
  assert (T := U x (or_introl eq_refl)).
  destruct x as [s' d' t' f | s' d' t' v']; [reflexivity|]. simpl in *.
  destruct (Nat.eqb_spec s' s), (Nat.eqb_spec d' d); try reflexivity. congruence.
Qed.

(** The configuration is described by the residual list. *)
Record rel (final : nat -> list V) (c : conf V) (H : list item) : Prop := {
  r_rest : forall p, rest c p = proj p H;
  r_chan : forall s d, chan c s d = halfs s d H;
  r_ok : okH H;
  r_run : forall p, run H (got c) p = final p }.

Lemma rel_send : forall final c c' H, rel final c H -> sendStep c c' -> exists H', rel final c' H'.
Proof.
  intros final c c' H [R1 R2 R3 R4] S. inversion S as [c0 p d t f r E]; subst c0 c'.
  rewrite R1 in E. destruct (first_touch p H _ _ R3 E) as (A & x & B & -> & U & P & RR).
  assert (X : x = Full p d t f).
  { destruct x as [s' d' t' f' | s' d' t' v']; simpl in P.
    - destruct (Nat.eqb_spec s' p), (Nat.eqb_spec d' p); simpl in P; inversion P; subst; reflexivity.
    - destruct (Nat.eqb_spec d' p); inversion P. }
  subst x. exists (A ++ Half p d t (f (got c p)) :: B).
  assert (OB := okH_app _ _ R3). simpl in OB. destruct OB as (PD & NH & _).
  constructor; cbn [rest got chan].
  - intros q. unfold set1. destruct (Nat.eqb_spec q p) as [-> | NE].
    + rewrite proj_app. rewrite proj_untouched by exact U. simpl.
      destruct (Nat.eqb_spec d p); [congruence|]. exact RR.
    + rewrite R1, !proj_app. simpl. destruct (Nat.eqb_spec p q); [congruence|]. reflexivity.
  - intros s' d'. unfold set2. rewrite !R2, !halfs_app. simpl.
    destruct (Nat.eqb_spec s' p) as [-> | N1]; simpl.
    + rewrite Nat.eqb_refl. simpl. destruct (Nat.eqb_spec d' d) as [-> | N2].
      * rewrite Nat.eqb_refl. rewrite ?R2, ?halfs_app. simpl. rewrite (halfs_nil p d B) by exact NH. rewrite ?app_nil_r. reflexivity.
      * destruct (Nat.eqb_spec d d'); [congruence|]. reflexivity.
    + destruct (Nat.eqb_spec p s'); [congruence|]. reflexivity.
  - eapply okH_send; eassumption.
  - intros q. rewrite <- R4. symmetry. apply run_send. exact U.
Qed.

Lemma rel_recv : forall final c c' H, rel final c H -> recvStep c c' -> exists H', rel final c' H'.
Proof.
  intros final c c' H [R1 R2 R3 R4] S. inversion S as [c0 p s t r l1 v l2 E EC NT]; subst c0 c'.
  rewrite R1 in E. destruct (first_touch p H _ _ R3 E) as (A & x & B & -> & U & P & RR).
  rewrite R2 in EC. rewrite halfs_app, halfs_untouched in EC by exact U.
  assert (OB := okH_app _ _ R3).
  assert (X : exists v', x = Half s p t v').
  { destruct x as [s' d' t' f' | s' d' t' v']; simpl in P.
    - exfalso. destruct (Nat.eqb_spec s' p), (Nat.eqb_spec d' p); simpl in P; inversion P; subst.
      simpl in OB, EC. rewrite halfs_nil in EC by apply OB. destruct l1; discriminate.
    - destruct (Nat.eqb_spec d' p); inversion P; subst. eexists; reflexivity. }
  destruct X as (v' & ->). simpl in EC. rewrite !Nat.eqb_refl in EC. simpl in EC.
  assert (L1 : l1 = []).
  { destruct l1 as [|y l1]; [reflexivity|]. simpl in EC. inversion EC; subst y.
    exfalso. apply (NT (t, v')); [left; reflexivity | reflexivity]. }
  subst l1. simpl in EC. inversion EC; subst v' l2. clear EC NT.
  exists (A ++ B). constructor; cbn [rest got chan].
  - intros q. unfold set1. destruct (Nat.eqb_spec q p) as [-> | NE].
    + rewrite proj_app, (proj_untouched p A) by exact U. exact RR.
    + rewrite R1, !proj_app. simpl. destruct (Nat.eqb_spec p q); [congruence|]. reflexivity.
  - intros s' d'. unfold set2. simpl. rewrite !R2, !halfs_app. simpl.
    destruct (Nat.eqb_spec s' s) as [-> | N1]; simpl.
    + rewrite Nat.eqb_refl. simpl. destruct (Nat.eqb_spec d' p) as [-> | N2].
      * rewrite (halfs_untouched s p A) by exact U. reflexivity.
      * destruct (Nat.eqb_spec p d'); [congruence|]. reflexivity.
    + destruct (Nat.eqb_spec s s'); [congruence|]. reflexivity.
  - eapply okH_remove; exact R3.
  - intros q. rewrite <- R4. symmetry. apply run_move. exact U.
Qed.

Lemma app_split : forall X (A B A' B' : list X) x x', A ++ x :: B = A' ++ x' :: B' ->
  (exists l, A' = A ++ x :: l) \/ (exists l, A = A' ++ x' :: l) \/ (A = A' /\ x = x' /\ B = B').
Proof.
  intros X A. induction A as [|a A IH]; intros B [|a' A'] B' x x' E; simpl in E; inversion E; subst.
  - right. right. auto.
  - left. exists A'. reflexivity.
  - right. left. exists A. reflexivity.
  - destruct (IH _ _ _ _ _ H1) as [(l & ->) | [(l & ->) | (-> & -> & ->)]].
    + left. exists l. reflexivity.
    + right. left. exists l. reflexivity.
    + right. right. auto.
Qed.

Lemma rel_sync : forall final c c' H, rel final c H -> syncStep c c' -> exists H', rel final c' H'.
Proof.
  intros final c c' H [R1 R2 R3 R4] S. inversion S as [c0 p d t f r r' NPD E E' NT]; subst c0 c'.
  rewrite R1 in E, E'. destruct (first_touch p H _ _ R3 E) as (A & x & B & HE & U & P & RR).
  destruct (first_touch d H _ _ R3 E') as (A' & x' & B' & HE' & U' & P' & RR').
  assert (X : x = Full p d t f).
  { destruct x as [s1 d1 t1 f1 | s1 d1 t1 v1]; simpl in P.
    - destruct (Nat.eqb_spec s1 p), (Nat.eqb_spec d1 p); simpl in P; inversion P; subst; reflexivity.
    - destruct (Nat.eqb_spec d1 p); inversion P. }
  assert (X' : exists f', x' = Full p d t f').
  { destruct x' as [s1 d1 t1 f1 | s1 d1 t1 v1]; simpl in P'.
    - destruct (Nat.eqb_spec s1 d), (Nat.eqb_spec d1 d); simpl in P'; inversion P'; subst. eexists; reflexivity.
    - exfalso. destruct (Nat.eqb_spec d1 d); inversion P'; subst d1 s1 t1.
      apply (NT (t, v1)); [|reflexivity]. rewrite R2, HE', halfs_app. simpl. rewrite !Nat.eqb_refl. simpl.
      apply in_or_app. right. left. reflexivity. }
  destruct X' as (f' & ->). subst x.
  assert (SP := HE). rewrite HE' in SP. symmetry in SP. apply app_split in SP.
  destruct SP as [(l & EQ) | [(l & EQ) | (EA & EX & EB)]].
  - exfalso. apply (U' (Full p d t f)); [rewrite EQ; apply in_or_app; right; left; reflexivity | simpl; tauto].
  - exfalso. apply (U (Full p d t f')); [rewrite EQ; apply in_or_app; right; left; reflexivity | simpl; tauto].
  - subst A' B' H. inversion EX; subst f'. clear EX HE' P P'.
    exists (A ++ B). constructor; cbn [rest got chan].
    + intros q. unfold set1. rewrite proj_app.
      destruct (Nat.eqb_spec q d) as [-> | ND].
      * rewrite (proj_untouched d A) by exact U'. exact RR'.
      * destruct (Nat.eqb_spec q p) as [-> | NP].
        -- rewrite (proj_untouched p A) by exact U. exact RR.
        -- rewrite R1, proj_app. simpl. destruct (Nat.eqb_spec p q); [congruence|].
           destruct (Nat.eqb_spec d q); [congruence|]. reflexivity.
    + intros s' d'. rewrite R2, !halfs_app. reflexivity.
    + eapply okH_remove; exact R3.
    + intros q. rewrite <- R4, run_send by exact U. symmetry. apply run_move. exact U'.
Qed.

Lemma rel_step : forall final c c' H, rel final c H -> step c c' -> exists H', rel final c' H'.
Proof.
  intros final c c' H R [S | [S | S]]; [eapply rel_send | eapply rel_recv | eapply rel_sync]; eassumption.
Qed.
Lemma rel_steps : forall final n c c', steps n c c' -> forall H, rel final c H -> exists H', rel final c' H'.
Proof.
  intros final n c c' S. induction S as [c | n c c1 c2 S1 S2 IH]; intros H R; [exists H; exact R|].
  destruct (rel_step _ _ _ _ R S1) as (H1 & R1'). apply (IH _ R1').
Qed.

Lemma rel_progress : forall final c H, rel final c H -> H <> [] -> canProceed c.
Proof.
  intros final c [|x H] [R1 R2 R3 R4] NE; [congruence|]. destruct x as [s d t f | s d t v].
  - simpl in R3. destruct R3 as (SD & NH & _).
    eexists. right. apply (SyncStep c s d t f (proj s H) (proj d H) SD).
    + rewrite R1. simpl. rewrite Nat.eqb_refl. destruct (Nat.eqb_spec d s); [congruence|]. reflexivity.
    + rewrite R1. simpl. rewrite Nat.eqb_refl. destruct (Nat.eqb_spec s d); [congruence|]. reflexivity.
    + rewrite R2. simpl. rewrite halfs_nil by exact NH. intros y [].
  - eexists. left. apply (RecvStep c d s t (proj d H) [] v (halfs s d H)).
    + rewrite R1. simpl. rewrite Nat.eqb_refl. reflexivity.
    + rewrite R2. simpl. rewrite !Nat.eqb_refl. reflexivity.
    + intros y [].
Qed.

Lemma rel_finished : forall final n c H, rel final c H -> (forall x p, In x H -> touches p x -> p < n) ->
  finished n c -> H = [].
Proof.
  intros final n c [|x H] [R1 R2 R3 R4] HN F; [reflexivity|]. exfalso.
  destruct x as [s d t f | s d t v].
  - assert (L : d < n) by (apply (HN (Full s d t f)); simpl; tauto).
    specialize (F d L). rewrite R1 in F. simpl in F. rewrite Nat.eqb_refl in F.
    destruct (s =? d); discriminate.
  - assert (L : d < n) by (apply (HN (Half s d t v)); simpl; tauto).
    specialize (F d L). rewrite R1 in F. simpl in F. rewrite Nat.eqb_refl in F. discriminate.
Qed.

(** Calls get fewer. *)
Fixpoint total (n : nat) (f : nat -> nat) : nat := match n with O => 0 | S m => total m f + f m end.
Lemma callsLeft_total : forall n (c : conf V), callsLeft n c = total n (fun p => length (rest c p)).
Proof.
  intros n c. unfold callsLeft. set (f := fun p => length (rest c p)). induction n; [reflexivity|].
  rewrite seq_S, map_app, fold_right_app. simpl. rewrite <- IHn, Nat.add_0_r.
  clear IHn. generalize (f n) as z. generalize (map f (seq 0 n)) as l.
  induction l; intros z; simpl; [reflexivity | rewrite IHl; lia].
Qed.
Lemma total_le : forall n f g, (forall p, f p <= g p) -> total n f <= total n g.
Proof. induction n; intros f g H; simpl; [lia|]. specialize (IHn f g H). specialize (H n). lia. Qed.
Lemma total_lt : forall n f g q, (forall p, f p <= g p) -> q < n -> f q < g q -> total n f < total n g.
Proof.
  induction n; intros f g q H Hq L; [lia|]. simpl. destruct (Nat.eq_dec q n) as [-> | NE].
  - assert (T := total_le n f g H). lia.
  - assert (T := IHn f g q H ltac:(lia) L). specialize (H n). lia.
Qed.
Lemma step_len : forall (c c' : conf V), step c c' ->
  (forall p, length (rest c' p) <= length (rest c p)) /\ exists q, rest c q <> [] /\ length (rest c' q) < length (rest c q).
Proof.
  intros c c' [S | [S | S]]; destruct S; cbn [rest].
  - split; [|exists p; rewrite set1_same, H; split; [discriminate | simpl; lia]].
    intros q. unfold set1. destruct (Nat.eqb_spec q p) as [-> | ]; [rewrite H; simpl; lia | lia].
  - split; [|exists p; rewrite set1_same, H; split; [discriminate | simpl; lia]].
    intros q. unfold set1. destruct (Nat.eqb_spec q p) as [-> | ]; [rewrite H; simpl; lia | lia].
  - split; [|exists d; rewrite set1_same, H1; split; [discriminate | simpl; lia]].
    intros q. unfold set1. destruct (Nat.eqb_spec q d) as [-> | ]; [rewrite H1; simpl; lia|].
    destruct (Nat.eqb_spec q p) as [-> | ]; [rewrite H0; simpl; lia | lia].
Qed.
Lemma step_left : forall n (c c' : conf V), (forall p, n <= p -> rest c p = []) -> step c c' ->
  callsLeft n c' < callsLeft n c /\ (forall p, n <= p -> rest c' p = []).
Proof.
  intros n c c' HN S. destruct (step_len c c' S) as (LE & q & NE & LT). split.
  - rewrite !callsLeft_total. apply total_lt with (q := q); [exact LE | | exact LT].
    destruct (Nat.lt_ge_cases q n); [assumption|]. exfalso. apply NE, HN. assumption.
  - intros p Hp. specialize (LE p). rewrite (HN p Hp) in LE. destruct (rest c' p); [reflexivity | simpl in LE; lia].
Qed.
Lemma steps_left : forall n k (c c' : conf V), steps k c c' -> (forall p, n <= p -> rest c p = []) ->
  k + callsLeft n c' <= callsLeft n c.
Proof.
  intros n k c c' S. induction S as [c | k c c1 c2 S1 S2 IH]; intros HN; [lia|].
  destruct (step_left n c c1 HN S1) as (L & HN1). specialize (IH HN1). lia.
Qed.

(** The programs are the parts of the list in rank order. *)
Definition fullOf (m : msg V) : item := let '(s, d, t, f) := m in Full s d t f.

Lemma proj_recvs : forall p s d ms, s <> p ->
  proj p (map fullOf (map (fun m => (s, d, fst m, snd m)) ms)) = if d =? p then recvs s ms else [].
Proof.
  intros p s d ms NE. induction ms as [|m ms IH]; [destruct (d =? p); reflexivity|]. cbn [map fullOf proj flat_map proj1i]. fold (proj p). unfold proj in IH |- *. cbn [flat_map proj1i]. rewrite IH.
  destruct (Nat.eqb_spec s p); [congruence|]. destruct (d =? p); reflexivity.
Qed.
Lemma proj_sends : forall p d ms, d <> p ->
  proj p (map fullOf (map (fun m => (p, d, fst m, snd m)) ms)) = sends d ms.
Proof.
  intros p d ms NE. induction ms as [|m ms IH]; [reflexivity|]. cbn [map fullOf proj flat_map proj1i]. fold (proj p). unfold proj in IH |- *. cbn [flat_map proj1i]. rewrite IH.
  rewrite Nat.eqb_refl. destruct (Nat.eqb_spec d p); [congruence|]. reflexivity.
Qed.
Lemma map_flat_map : forall X Y Z (f : Y -> Z) (g : X -> list Y) l,
  map f (flat_map g l) = flat_map (fun x => map f (g x)) l.
Proof. induction l; simpl; [reflexivity|]. rewrite map_app, IHl. reflexivity. Qed.
Lemma flat_map_flat_map : forall X Y Z (f : Y -> list Z) (g : X -> list Y) l,
  flat_map f (flat_map g l) = flat_map (fun x => flat_map f (g x)) l.
Proof. induction l; simpl; [reflexivity|]. rewrite flat_map_app, IHl. reflexivity. Qed.
Lemma flat_map_ext_in : forall X Y (f g : X -> list Y) l, (forall x, In x l -> f x = g x) -> flat_map f l = flat_map g l.
Proof.
  induction l; intros H; simpl; [reflexivity|]. rewrite (H a) by (left; reflexivity).
  rewrite IHl by (intros; apply H; right; assumption). reflexivity.
Qed.
Lemma flat_map_nil_in : forall X Y (f : X -> list Y) l, (forall x, In x l -> f x = []) -> flat_map f l = [].
Proof. intros. rewrite (flat_map_ext_in _ _ f (fun _ => [])) by assumption. clear H. induction l; auto. Qed.

(** Block d of the list, seen by p. *)
Definition blockSends (p d : nat) (ifs : list (gconn V)) : list (act V) :=
  flat_map (fun it => if (gm it =? p) && (gs it =? d) then sends d (gmsgs it) else []) ifs.
Definition block (chn : nat -> list (nat * (list V -> V))) (ifs : list (gconn V)) (d : nat) : list (msg V) :=
  (match d with O => [] | S q => map (fun m => (q, d, fst m, snd m)) (chn q) end) ++
  flat_map (fun it => if gs it =? d then map (fun m => (gm it, d, fst m, snd m)) (gmsgs it) else []) ifs.

Lemma block_own : forall n chn ifs p, rankedIfs n ifs ->
  proj p (map fullOf (block chn ifs p)) =
  (match p with O => [] | S q => recvs q (chn q) end) ++
  flat_map (fun it => if gs it =? p then recvs (gm it) (gmsgs it) else []) ifs.
Proof.
  intros n chn ifs p HR. unfold block. rewrite map_app, proj_app. f_equal.
  - destruct p; [reflexivity|]. rewrite proj_recvs by lia. rewrite Nat.eqb_refl. reflexivity.
  - rewrite map_flat_map. unfold proj. rewrite flat_map_flat_map. apply flat_map_ext_in. intros it Hi.
    destruct (Nat.eqb_spec (gs it) p); [|reflexivity].
    specialize (HR it Hi). change (proj p (map fullOf (map (fun m => (gm it, p, fst m, snd m)) (gmsgs it))) = recvs (gm it) (gmsgs it)).
    rewrite proj_recvs by lia. rewrite Nat.eqb_refl. reflexivity.
Qed.
Lemma block_low : forall n chn ifs p d, rankedIfs n ifs -> d < p -> proj p (map fullOf (block chn ifs d)) = [].
Proof.
  intros n chn ifs p d HR L. unfold block. rewrite map_app, proj_app.
  assert (BN : forall a b : list (act V), a = [] -> b = [] -> a ++ b = []) by (intros a b -> ->; reflexivity).
  apply BN.
  - destruct d; [reflexivity|]. rewrite proj_recvs by lia. destruct (Nat.eqb_spec (S d) p); [lia | reflexivity].
  - rewrite map_flat_map. unfold proj. rewrite flat_map_flat_map. apply flat_map_nil_in. intros it Hi.
    destruct (Nat.eqb_spec (gs it) d); [|reflexivity].
    specialize (HR it Hi). change (proj p (map fullOf (map (fun m => (gm it, d, fst m, snd m)) (gmsgs it))) = []).
    rewrite proj_recvs by lia. destruct (Nat.eqb_spec d p); [lia | reflexivity].
Qed.
Lemma block_high : forall chn ifs p d, p < d ->
  proj p (map fullOf (block chn ifs d)) =
  (if d =? S p then sends (S p) (chn p) else []) ++ blockSends p d ifs.
Proof.
  intros chn ifs p d L. unfold block. rewrite map_app, proj_app. f_equal.
  - destruct d; [lia|]. destruct (Nat.eqb_spec (S d) (S p)) as [E | NE].
    + inversion E; subst d. apply proj_sends. lia.
    + rewrite proj_recvs by lia. destruct (Nat.eqb_spec (S d) p); [lia | reflexivity].
  - rewrite map_flat_map. unfold proj, blockSends. rewrite flat_map_flat_map. apply flat_map_ext_in. intros it Hi.
    destruct (Nat.eqb_spec (gs it) d); [|rewrite andb_false_r; reflexivity]. rewrite andb_true_r.
    destruct (Nat.eqb_spec (gm it) p) as [-> | NE].
    + apply proj_sends. lia.
    + change (proj p (map fullOf (map (fun m => (gm it, d, fst m, snd m)) (gmsgs it))) = []).
      rewrite proj_recvs by lia. destruct (Nat.eqb_spec d p); [lia | reflexivity].
Qed.

(** Sorted interfaces: the blocks one after the other are all sends. *)
Lemma sends_blocks : forall p ifs, sortedIfs ifs -> forall k a,
  (forall it, In it ifs -> gm it = p -> a <= gs it < a + k) ->
  flat_map (fun d => blockSends p d ifs) (seq a k) =
  flat_map (fun it => if gm it =? p then sends (gs it) (gmsgs it) else []) ifs.
Proof.
  intros p ifs S. induction S as [|it ifs S IH FA]; intros k a HR.
  - simpl. induction (seq a k); [reflexivity|]. simpl. assumption.
  - cbn [flat_map]. destruct (Nat.eqb_spec (gm it) p) as [E | NE].
    2:{ rewrite <- (IH k a) by (intros i Hi; apply HR; right; exact Hi). apply flat_map_ext_in. intros d _.
        unfold blockSends. cbn [flat_map]. destruct (Nat.eqb_spec (gm it) p); [congruence | reflexivity]. }
    assert (B := HR it (or_introl eq_refl) E).
    (* blocks before gs it are empty *)
    replace (seq a k) with (seq a (gs it - a) ++ seq (gs it) (k - (gs it - a))).
    2:{ replace (gs it) with (a + (gs it - a)) at 2 by lia. rewrite <- seq_app. f_equal. lia. }
    rewrite flat_map_app.
    assert (LOW : forall i, In i ifs -> gm i = p -> gs it <= gs i).
    { intros i Hi Ei. rewrite Forall_forall in FA. specialize (FA i Hi). unfold before in FA. lia. }
    rewrite flat_map_nil_in.
    2:{ intros d Hd. apply in_seq in Hd. unfold blockSends. apply flat_map_nil_in. intros i [<- | Hi].
        - destruct (Nat.eqb_spec (gs it) d); [lia|]. rewrite andb_false_r. reflexivity.
        - destruct (Nat.eqb_spec (gm i) p) as [Ei | ]; [|reflexivity]. simpl.
          specialize (LOW i Hi Ei). destruct (Nat.eqb_spec (gs i) d); [lia | reflexivity]. }
    rewrite app_nil_l. rewrite <- (IH (k - (gs it - a)) (gs it)).
    2:{ intros i Hi Ei. specialize (LOW i Hi Ei). specialize (HR i (or_intror Hi) Ei). lia. }
    destruct (k - (gs it - a)) as [|m] eqn:K; [lia|].
    cbn [seq flat_map]. unfold blockSends at 1. cbn [flat_map]. rewrite E, !Nat.eqb_refl. cbn [andb].
    rewrite <- app_assoc. f_equal. f_equal.
    apply flat_map_ext_in. intros d Hd. apply in_seq in Hd. unfold blockSends. cbn [flat_map].
    destruct (Nat.eqb_spec (gs it) d); [lia|]. rewrite andb_false_r. reflexivity.
Qed.

Lemma program_proj : forall n chn ifs p, rankedIfs n ifs -> sortedIfs ifs -> p < n ->
  program n chn ifs p = proj p (map fullOf (rankOrder n chn ifs)).
Proof.
  intros n chn ifs p HR HS Hp.
  change (rankOrder n chn ifs) with (flat_map (block chn ifs) (seq 0 n)).
  rewrite map_flat_map. unfold proj. rewrite flat_map_flat_map.
  change (program n chn ifs p = flat_map (fun d => proj p (map fullOf (block chn ifs d))) (seq 0 n)).
  replace n with (p + S (n - p - 1)) at 2 by lia. rewrite seq_app, flat_map_app. simpl.
  rewrite flat_map_nil_in by (intros d Hd; apply in_seq in Hd; apply (block_low n); [exact HR | lia]). simpl.
  rewrite (block_own n) by exact HR. unfold program. rewrite <- !app_assoc. f_equal. f_equal.
  rewrite (flat_map_ext_in _ _ _ (fun d => (if d =? S p then sends (S p) (chn p) else []) ++ blockSends p d ifs))
    by (intros d Hd; apply in_seq in Hd; apply block_high; lia).
  assert (SB : flat_map (fun d => blockSends p d ifs) (seq (S p) (n - p - 1)) =
    flat_map (fun it => if gm it =? p then sends (gs it) (gmsgs it) else []) ifs).
  { apply sends_blocks; [exact HS|]. intros it Hi Ei. specialize (HR it Hi). lia. }
  rewrite <- SB. destruct (n - p - 1) as [|k] eqn:K.
  - destruct (Nat.ltb_spec (S p) n); [lia|]. reflexivity.
  - destruct (Nat.ltb_spec (S p) n); [|lia]. cbn [seq flat_map]. rewrite Nat.eqb_refl, <- !app_assoc. f_equal. f_equal.
    apply flat_map_ext_in. intros d Hd. apply in_seq in Hd. destruct (Nat.eqb_spec d (S p)); [lia|]. reflexivity.
Qed.

Lemma rankOrder_rank : forall n chn (ifs : list (gconn V)) s d t f, rankedIfs n ifs -> In (s, d, t, f) (rankOrder n chn ifs) -> s < d < n.
Proof.
  intros n chn ifs s d t f HR HI. unfold rankOrder in HI. apply in_flat_map in HI. destruct HI as (b & Hb & HI).
  apply in_seq in Hb. apply in_app_or in HI. destruct HI as [HI | HI].
  - destruct b; [destruct HI|]. apply in_map_iff in HI. destruct HI as (m & E & _). inversion E; subst. lia.
  - apply in_flat_map in HI. destruct HI as (it & Hi & HI). destruct (Nat.eqb_spec (gs it) b); [|destruct HI].
    apply in_map_iff in HI. destruct HI as (m & E & _). inversion E; subst. specialize (HR it Hi). lia.
Qed.

Lemma okH_full : forall l : list (msg V), (forall s d t f, In (s, d, t, f) l -> s <> d) -> okH (map fullOf l).
Proof.
  induction l as [|[[[s d] t] f] l IH]; intros H; simpl; [exact I|].
  split; [apply (H s d t f); left; reflexivity|]. split; [|apply IH; intros; eapply H; right; eassumption].
  intros d' t' v' HI. apply in_map_iff in HI. destruct HI as ([[[s1 d1] t1] f1] & E & _). discriminate.
Qed.
Lemma run_full : forall (l : list (msg V)) g, run (map fullOf l) g = oneByOne l g.
Proof. induction l as [|[[[s d] t] f] l IH]; intros g; simpl; [reflexivity | apply IH]. Qed.
Lemma halfs_full : forall (l : list (msg V)) s d, halfs s d (map fullOf l) = [].
Proof. induction l as [|[[[s1 d1] t] f] l IH]; intros s d; simpl; [reflexivity | apply IH]. Qed.

Lemma rel_initial : forall n chn (ifs : list (gconn V)), rankedIfs n ifs -> sortedIfs ifs ->
  rel (oneByOne (rankOrder n chn ifs) (fun _ => [])) (initial n (program n chn ifs)) (map fullOf (rankOrder n chn ifs)).
Proof.
  intros n chn ifs HR HS. constructor; cbn [rest got chan initial].
  - intros p. destruct (Nat.ltb_spec p n); [apply program_proj; assumption|].
    symmetry. apply proj_untouched. intros x Hx T. apply in_map_iff in Hx. destruct Hx as ([[[s d] t] f] & <- & Hx).
    apply rankOrder_rank in Hx; [|exact HR]. simpl in T. lia.
  - intros s d. rewrite halfs_full. reflexivity.
  - apply okH_full. intros s d t f HI. apply rankOrder_rank in HI; [lia | exact HR].
  - intros p. rewrite run_full. reflexivity.
Qed.

End P.
