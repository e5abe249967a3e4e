(** Proofs: LR B-spline patches. *)
From Coq Require Import List Arith ZArith QArith Qcanon Bool Permutation Lia.
From Verif Require Import Base Race_model Race_proofs Color_model Color_spec Color_proofs.
Import ListNotations.
Local Open Scope nat_scope.

Lemma flatM_ok {X Y} (f : X -> option (list Y)) g : forall l, (forall x, In x l -> f x = Some (g x)) -> flatM f l = Some (flat_map g l).
Proof.
  induction l as [|x l IH]; intros H; [reflexivity|]. cbn [flatM flat_map]. rewrite (H x (or_introl eq_refl)), IH by (intros y Hy; apply H; right; exact Hy). reflexivity.
Qed.
Lemma mapM_ok {X Y} (f : X -> option Y) g : forall l, (forall x, In x l -> f x = Some (g x)) -> mapM f l = Some (map g l).
Proof.
  induction l as [|x l IH]; intros H; [reflexivity|]. cbn [mapM map]. rewrite (H x (or_introl eq_refl)), IH by (intros y Hy; apply H; right; exact Hy). reflexivity.
Qed.
Definition addT (os : list other) (e : nat) : list nat :=
  flat_map (fun o => flat_map (fun b2 => flat_map (fun el3 => nth el3 (points o) []) (nth b2 (suppt (ob o)) [])) (nth (nth e (within o) 0) (funcs (ob o)) [])) os.
Definition markT (B : basis) (adds : list (list nat)) (e : nat) : list nat :=
  flat_map (fun b => flat_map (fun j => j :: nth j adds []) (nth b (suppt B) [])) (nth e (funcs B) []).

Lemma additional_ok n os e : Forall (otherOK n) os -> e < n -> additional os e = Some (addT os e).
Proof.
  intros HO He. apply flatM_ok. intros o Ho. rewrite Forall_forall in HO. destruct (HO o Ho) as ((_ & _ & F1 & F2 & _) & Lw & Lp & W & _ & _).
  rewrite (nth_error_nth' (within o) 0) by lia. rewrite (nth_error_nth' (funcs (ob o)) []) by (apply W, He). apply flatM_ok. intros b Hb. destruct (F1 _ _ (W e He) Hb) as [Hl _].
  rewrite (nth_error_nth' (suppt (ob o)) []) by exact Hl. apply flatM_ok. intros el Hel. apply nth_error_nth'. rewrite Lp. apply (F2 el b Hl Hel).
Qed.
Lemma addT_lt n os e f : Forall (otherOK n) os -> In f (addT os e) -> f < n.
Proof.
  intros HO H. unfold addT in H. apply in_flat_map in H. destruct H as (o & Ho & H). apply in_flat_map in H. destruct H as (b & _ & H). apply in_flat_map in H. destruct H as (el & _ & H).
  rewrite Forall_forall in HO. destruct (HO o Ho) as (_ & _ & _ & _ & R & _). apply (R (nth el (points o) []) f); [|exact H]. destruct (Nat.lt_ge_cases el (length (points o))) as [L|L]; [apply nth_In, L|]. rewrite nth_overflow in H by exact L. destruct H.
Qed.
Lemma addT_conflict n os o e f b : Forall (otherOK n) os -> In o os -> e < n -> f < n -> hasOther o e b -> hasOther o f b -> In f (addT os e).
Proof.
  intros HO Ho He Hf A C. rewrite Forall_forall in HO. destruct (HO o Ho) as ((_ & _ & F1 & _ & _) & _ & _ & W & _ & P). unfold hasOther in *. unfold addT. apply in_flat_map. exists o. split; [exact Ho|]. apply in_flat_map. exists b. split; [exact A|].
  apply in_flat_map. exists (nth f (within o) 0). split; [apply (F1 _ _ (W f Hf) C)|apply P, Hf].
Qed.
Definition addsT (n : nat) (os : list other) : list (list nat) := match os with [] => [] | _ => map (addT os) (seq 0 n) end.
Lemma addsT_nth n os j : j < n -> nth j (addsT n os) [] = addT os j.
Proof.
  intros H. unfold addsT. destruct os as [|o os]; [destruct j; reflexivity|]. rewrite (nth_indep _ [] (addT (o :: os) 0)) by (rewrite map_length, seq_length; exact H). rewrite map_nth, seq_nth by exact H. reflexivity.
Qed.
Lemma addsT_in n os j f : Forall (otherOK n) os -> In f (nth j (addsT n os) []) -> f < n.
Proof.
  intros HO H. destruct (Nat.lt_ge_cases j n) as [L|L]; [rewrite addsT_nth in H by exact L; apply (addT_lt n os j f HO H)|]. rewrite nth_overflow in H; [destruct H|]. unfold addsT. destruct os; [cbn; lia|]. rewrite map_length, seq_length. exact L.
Qed.
Lemma markLR_ok B adds e : basisOK B -> e < length (elems B) -> markLR B adds e = Some (markT B adds e).
Proof.
  intros (_ & L & F1 & _ & _) He. unfold markLR. rewrite (nth_error_nth' (funcs B) []) by lia. apply flatM_ok. intros b Hb. destruct (F1 e b ltac:(lia) Hb) as [Hl _]. rewrite (nth_error_nth' (suppt B) []) by exact Hl. reflexivity.
Qed.
Lemma markT_lt B os e f : basisOK B -> Forall (otherOK (length (elems B))) os -> e < length (elems B) -> In f (markT B (addsT (length (elems B)) os) e) -> f < length (elems B).
Proof.
  intros (_ & L & F1 & F2 & _) HO He H. unfold markT in H. apply in_flat_map in H. destruct H as (b & Hb & H). apply in_flat_map in H. destruct H as (j & Hj & H). destruct (F1 e b ltac:(lia) Hb) as [Hl _]. destruct H as [<-|H]; [|apply (addsT_in _ os j f HO H)].
  rewrite <- L. apply (F2 j b Hl Hj).
Qed.
Lemma markT_conflict B os e f d : basisOK B -> Forall (otherOK (length (elems B))) os -> e < length (elems B) -> f < length (elems B) ->
  hasDof B os e d -> hasDof B os f d -> In f (markT B (addsT (length (elems B)) os) e).
Proof.
  intros (_ & L & F1 & F2 & F3) HO He Hf A C. destruct d as [[|k] b]; unfold hasDof in *; cbn [fst snd] in *.
  - unfold hasFunc in *. unfold markT. apply in_flat_map. exists b. split; [exact A|]. apply in_flat_map. exists f. split; [apply (F1 f b ltac:(lia) C)|left; reflexivity].
  - destruct A as (o & Ho & A), C as (o' & Ho' & C). rewrite Ho in Ho'. injection Ho' as <-. apply nth_error_In in Ho.
    assert (Hb : exists b0, In b0 (nth e (funcs B) [])) by (destruct (nth e (funcs B) []) as [|b0 l] eqn:E0; [exfalso; apply (F3 e); [lia|exact E0]|exists b0; left; reflexivity]). destruct Hb as [b0 Hb]. unfold markT. apply in_flat_map. exists b0. split; [exact Hb|]. apply in_flat_map. exists e. split; [apply (F1 e b0 ltac:(lia) Hb)|right].
    rewrite addsT_nth by exact He. apply (addT_conflict (length (elems B)) os o e f b HO Ho He Hf A C).
Qed.

Lemma filter_all {X} (p : X -> bool) : forall l, (forall x, In x l -> p x = true) -> filter p l = l.
Proof. induction l as [|x l IH]; intros H; [reflexivity|]. cbn. rewrite (H x (or_introl eq_refl)), IH by (intros y Hy; apply H; right; exact Hy). reflexivity. Qed.
Lemma FOP_pair {X} (R : X -> X -> Prop) l x y : ForallOrdPairs R l -> In x l -> In y l -> x <> y -> R x y \/ R y x.
Proof. intros H Hx Hy Hne. destruct (ForallOrdPairs_In H x y Hx Hy) as [Heq|[H1|H1]]; [contradiction|left; exact H1|right; exact H1]. Qed.

Lemma colorsLR_ok B os : basisOK B -> Forall (otherOK (length (elems B))) os ->
  exists cols, colorsLR B os = Some cols /\ Permutation (concat cols) (seq 0 (length (elems B))) /\
    forall col, In col cols -> NoDup col /\ forall e f d, In e col -> In f col -> e <> f -> hasDof B os e d -> hasDof B os f d -> False.
Proof.
  intros HB HO. set (n := length (elems B)). unfold colorsLR. fold n.
  assert (HA : (match os with [] => Some [] | _ => mapM (additional os) (seq 0 n) end) = Some (addsT n os)).
  { unfold addsT. destruct os as [|o os0] eqn:Eo; [reflexivity|]. rewrite <- Eo in *. apply mapM_ok. intros e He. apply in_seq in He. apply (additional_ok n); [exact HO|lia]. }
  rewrite HA. assert (HP : Permutation (elems B) (seq 0 n)) by apply HB.
  destruct (loop_ok n (markLR B (addsT n os)) (markT B (addsT n os)) (fun i Hi => markLR_ok B _ i HB Hi) (fun i j Hi Hj => markT_lt B os i j HB HO Hi Hj) (elems B) HP n 0 0 (repeat 0%Z n)) as (cols & -> & Pc & Hc).
  - apply repeat_length.
  - rewrite filter_all; [rewrite seq_length; reflexivity|]. intros i _. unfold un. rewrite nth_repeat. reflexivity.
  - lia.
  - exists cols. split; [reflexivity|]. rewrite filter_all in Pc by (intros i _; unfold un; rewrite nth_repeat; reflexivity). split; [exact Pc|]. intros col Hcol. destruct (Hc col Hcol) as [ND FP]. split; [exact ND|].
    intros e f d He Hf Hne A C. assert (R : forall x, In x col -> x < n). { intros x Hx. assert (Hs : In x (seq 0 n)) by (apply (Permutation_in _ Pc); apply in_concat; exists col; split; assumption). apply in_seq in Hs. lia. }
    destruct (FOP_pair _ col e f FP He Hf Hne) as [H|H]; apply H; [apply (markT_conflict B os e f d HB HO (R e He) (R f Hf) A C)|apply (markT_conflict B os f e d HB HO (R f Hf) (R e He) C A)].
Qed.

(** ** Executions exist *)
Section Exist.
Context {cell : Type} (ceq : forall a b : cell, {a = b} + {a <> b}) (upde : nat -> list (cell * Qc)).
Lemma run_trans s1 s2 s3 : run ceq s1 s2 -> run ceq s2 s3 -> run ceq s1 s3.
Proof. induction 1 as [|a b c Hp _ IH]; intros H; [exact H|]. eapply run_step; [exact Hp|apply IH, H]. Qed.
Lemma run_one : forall prog m l1 l2, exists m', run ceq (m, l1 ++ mkT None prog :: l2) (m', l1 ++ mkT None [] :: l2).
Proof.
  induction prog as [|[c d] prog IH]; intros m l1 l2; [exists m; apply run_refl|].
  destruct (IH (mupd ceq m c (m c + d)%Qc) l1 l2) as [m' H]. exists m'. eapply run_step; [apply p_step, t_load|]. eapply run_step; [apply p_step, t_store|]. exact H.
Qed.
Lemma run_all : forall progs l1 m, exists m', run ceq (m, l1 ++ start progs) (m', l1 ++ map (fun _ => mkT None []) progs).
Proof.
  induction progs as [|p progs IH]; intros l1 m; [exists m; apply run_refl|]. cbn [start map]. destruct (run_one p m l1 (map (mkT None) progs)) as [m1 H1].
  destruct (IH (l1 ++ [mkT None []]) m1) as [m2 H2]. exists m2. rewrite <- !app_assoc in H2. cbn [app] in H2. eapply run_trans; [exact H1|exact H2].
Qed.
(** every coloring can be run, one element per thread *)
Lemma par_exists : forall cols m0, exists m2, par_colors ceq upde cols m0 m2.
Proof.
  induction cols as [|col cols IH]; intros m0; [exists m0; constructor|]. destruct (run_all (map (flat_map upde) (map (fun e => [e]) col)) [] m0) as [m1 H1]. destruct (IH m1) as [m2 H2]. exists m2.
  eapply pc_cons; [|exact H1| |exact H2].
  - clear. induction col as [|e col IHc]; [constructor|]. cbn [map concat app]. constructor. exact IHc.
  - apply Forall_forall. intros t Ht. apply in_map_iff in Ht. destruct Ht as (_ & <- & _). reflexivity.
Qed.
End Exist.

Lemma par_LR ceq upde B os cols m0 m2 : basisOK B -> Forall (otherOK (length (elems B))) os -> colorsLR B os = Some cols ->
  (forall e r c v, In ((r, c), v) (upde e) -> hasDof B os e r /\ hasDof B os e c) -> par_colors ceq upde cols m0 m2 ->
  forall c, m2 c = (m0 c + total ceq c (flat_map upde (seq 0 (length (elems B)))))%Qc.
Proof.
  intros HB HO HC HU HP c. destruct (colorsLR_ok B os HB HO) as (cols' & HC' & Pm & Hd). rewrite HC in HC'. injection HC' as <-. rewrite <- (total_perm ceq upde c _ _ Pm). apply (par_ok ceq upde cols m0 m2); [|exact HP].
  intros col Hcol. destruct (Hd col Hcol) as [ND Hx]. split; [exact ND|]. intros e f [r k] He Hf Hne A C. apply in_map_iff in A. destruct A as ([[r1 k1] v1] & E1 & A). apply in_map_iff in C. destruct C as ([[r2 k2] v2] & E2 & C). cbn [fst] in E1, E2. injection E1 as -> ->. injection E2 as -> ->.
  apply (Hx e f r He Hf Hne); [apply (HU _ _ _ _ A)|apply (HU _ _ _ _ C)].
Qed.

(** ** checkThreadGroups *)
Lemma insertAll_ok : forall l s ok s' ok', NoDup s -> insertAll l s ok = (s', ok') -> NoDup s' /\ (forall x, In x s' <-> In x s \/ In x l) /\ (ok' = true <-> ok = true /\ NoDup (l ++ s)).
Proof.
  induction l as [|x l IH]; intros s ok s' ok' ND H; cbn [insertAll] in H.
  - injection H as <- <-. split; [exact ND|]. split; [intros y; cbn; tauto|]. cbn [app]. tauto.
  - destruct (existsb (Nat.eqb x) s) eqn:Ex.
    + apply IH in H; [|exact ND]. destruct H as (A & B & C). assert (Hx : In x s). { apply existsb_exists in Ex. destruct Ex as (y & Hy & Ey). apply Nat.eqb_eq in Ey. subst y. exact Hy. }
      split; [exact A|]. split; [intros y; rewrite B; cbn [In]; intuition (subst; auto)|]. split; [intros Ht; apply C in Ht; destruct Ht as [Ht _]; discriminate Ht|]. intros [_ Hn]. exfalso. cbn [app] in Hn. inversion Hn as [|? ? N1 N2]; subst. apply N1, in_or_app. right. exact Hx.
    + assert (Hx : ~ In x s). { intros Hx. assert (existsb (Nat.eqb x) s = true) by (apply existsb_exists; exists x; split; [exact Hx|apply Nat.eqb_refl]). congruence. }
      apply IH in H; [|constructor; assumption]. destruct H as (A & B & C). split; [exact A|]. split; [intros y; rewrite B; cbn [In]; intuition (subst; auto)|]. rewrite C. cbn [app].
      assert (Pm : Permutation (l ++ x :: s) (x :: l ++ s)) by (symmetry; apply Permutation_middle). split; intros [Ho Hn]; (split; [exact Ho|]); [apply (Permutation_NoDup Pm Hn)|apply (Permutation_NoDup (Permutation_sym Pm) Hn)].
Qed.
Lemma checkGroup_ok fs w : forall grp s ok, NoDup s -> (forall e, In e grp -> e < length w /\ nth e w 0 < length fs) ->
  exists b, checkGroup fs w grp s ok = Some b /\ (b = true <-> ok = true /\ NoDup (concat (map (fun e => nth (nth e w 0) fs []) grp) ++ s)).
Proof.
  induction grp as [|e grp IH]; intros s ok ND H.
  - exists ok. split; [reflexivity|]. cbn. tauto.
  - destruct (H e (or_introl eq_refl)) as [H1 H2]. cbn [checkGroup]. rewrite (nth_error_nth' w 0) by exact H1. rewrite (nth_error_nth' fs []) by exact H2. destruct (insertAll (nth (nth e w 0) fs []) s ok) as [s' ok'] eqn:EI. destruct (insertAll_ok _ _ _ _ _ ND EI) as (A & B & C).
    destruct (IH s' ok' A (fun x Hx => H x (or_intror Hx))) as (b & -> & Hb). exists b. split; [reflexivity|]. rewrite Hb, C. cbn [map concat]. set (l := nth (nth e w 0) fs []) in *. set (q := concat (map (fun e0 => nth (nth e0 w 0) fs []) grp)).
    assert (Key : NoDup (l ++ s) -> Permutation s' (l ++ s)) by (intros Hn; apply NoDup_Permutation; [exact A|exact Hn|intros x; rewrite B, in_app_iff; tauto]).
    assert (Pm : Permutation ((l ++ q) ++ s) (q ++ (l ++ s))) by (rewrite (Permutation_app_comm l q), <- app_assoc; reflexivity).
    split.
    + intros [[Ho Hn] Hq]. split; [exact Ho|]. apply (Permutation_NoDup (Permutation_sym Pm)). apply (Permutation_NoDup (Permutation_app_head q (Key Hn)) Hq).
    + intros [Ho Hn]. apply (Permutation_NoDup Pm) in Hn. assert (Hls : NoDup (l ++ s)) by (clear - Hn; induction q as [|y q IHq]; [exact Hn|]; cbn in Hn; inversion Hn; subst; apply IHq; assumption). split; [split; [exact Ho|exact Hls]|]. apply (Permutation_NoDup (Permutation_app_head q (Permutation_sym (Key Hls))) Hn).
Qed.
Lemma mapM_forall {X} (f : X -> option bool) (Q : X -> Prop) : forall l, (forall x, In x l -> exists b, f x = Some b /\ (b = true <-> Q x)) ->
  exists r, mapM f l = Some r /\ (forallb (fun b => b) r = true <-> forall x, In x l -> Q x).
Proof.
  induction l as [|x l IH]; intros H; [exists []; split; [reflexivity|cbn; split; [intros _ y []|reflexivity]]|]. destruct (H x (or_introl eq_refl)) as (b & E1 & Hb). destruct (IH (fun y Hy => H y (or_intror Hy))) as (r & E2 & Hr). exists (b :: r). cbn [mapM]. rewrite E1, E2. split; [reflexivity|].
  cbn [forallb]. rewrite andb_true_iff, Hb, Hr. split; [intros [A C] y [<-|Hy]; [exact A|apply C, Hy]|intros A; split; [apply A; left; reflexivity|intros y Hy; apply A; right; exact Hy]].
Qed.
Lemma check_ok groups bs : (forall g e B w, In g groups -> In e g -> In (B, w) bs -> e < length w /\ nth e w 0 < length (funcs B)) ->
  exists b, checkThreadGroups groups bs = Some b /\
    (b = true <-> forall g B w, In g groups -> In (B, w) bs -> NoDup (concat (map (fun e => nth (nth e w 0) (funcs B) []) g))).
Proof.
  intros H. unfold checkThreadGroups. destruct (mapM_forall (fun p : list nat * (basis * list nat) => checkGroup (funcs (fst (snd p))) (snd (snd p)) (fst p) [] true) (fun p => NoDup (concat (map (fun e => nth (nth e (snd (snd p)) 0) (funcs (fst (snd p))) []) (fst p)))) (list_prod groups bs)) as (r & -> & Hr).
  - intros [g [B w]] Hp. apply in_prod_iff in Hp. destruct Hp as [Hg Hb]. cbn [fst snd]. destruct (checkGroup_ok (funcs B) w g [] true (NoDup_nil _) (fun e He => H g e B w Hg He Hb)) as (b & Eb & Hbb). exists b. split; [exact Eb|]. rewrite Hbb, app_nil_r. tauto.
  - exists (forallb (fun b => b) r). split; [reflexivity|]. rewrite Hr. split.
    + intros A g B w Hg Hb. apply (A (g, (B, w))). apply in_prod; assumption.
    + intros A [g [B w]] Hp. apply in_prod_iff in Hp. apply A; tauto.
Qed.
