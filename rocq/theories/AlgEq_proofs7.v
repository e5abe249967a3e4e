(** initialize zeroes the system; all systems of a program together. *)
From Coq Require Import List Arith ZArith QArith Qcanon Bool Lia Permutation.
From Verif Require Import Base SAM_model SAM_spec SAM_proofs SAM_proofs2 SAM_proofs3 SAM_proofs4 Sparse_model Sparse_spec Sparse_proofs Sparse_proofs2 Sparse_proofs3 Sparse_proofs4 Sparse_proofs5 Sparse_proofs6 Sparse_proofs8 AlgEq_model AlgEq_spec AlgEq_proofs AlgEq_proofs2 AlgEq_proofs3 AlgEq_proofs4 AlgEq_proofs5 AlgEq_proofs6.
Import ListNotations.
Local Open Scope nat_scope.

Lemma round_any s sl fl els sg M : consistent s -> ready s sl M -> fromModel s els ->
  exists M', round s fl els sg M = Some (true, M') /\ forall r c, r <> c \/ contributes s els r -> val (stored M') r c = elmSum s els r c.
Proof.
  intros C (W & Sl & R & Cc & Cov & Ln) F. unfold round.
  assert (Sq : nrow M = ncol M) by congruence.
  destruct (resize_same M W _ eq_refl) as (W1 & Sl1 & R1 & C1 & N1 & V1 & Wr1). specialize (C1 Sq). specialize (Wr1 Sq).
  set (M1 := resize (nrow M) (ncol M) false M) in *. set (M2 := if fl then initFlags M1 else M1).
  assert (H2 : wf M2 /\ nrow M2 = neq s /\ ncol M2 = neq s /\ (forall r c, val (stored M2) r c = 0%Qc) /\
     (forall r c, writable M2 r c <-> writable M r c) /\ (length (nz M2) = neq s \/ length (nz M2) = 1)).
  { unfold M2. destruct fl; cbn [initFlags setNz].
    - split; [apply wf_setNz; exact W1|]. split; [cbn; congruence|]. split; [cbn; congruence|]. split; [exact V1|]. split; [exact Wr1|]. left; cbn; rewrite repeat_length; congruence.
    - split; [exact W1|]. split; [congruence|]. split; [congruence|]. split; [exact V1|]. split; [exact Wr1|]. rewrite N1; tauto. }
  clearbody M2. destruct H2 as (W2 & R2 & C2 & V2 & Wr2 & L2).
  assert (EOK : elmsOK s els). { intros K meen Hi. destruct (F K meen Hi) as (iel & G). eapply getElmEqns_range; eauto. }
  destruct (assembleElms_spec s els M2 W2 C EOK L2 R2 C2) as (M3 & E3 & W3 & S3 & R3 & C3 & Sl3 & Ln3 & N31 & N3 & Wr3 & V3 & U3). rewrite E3.
  assert (Val3 : forall r c, val (stored M3) r c = elmSum s els r c).
  { intros r c. destruct (writable_dec M2 r c W2) as [Hw|Hw].
    - rewrite V3 by exact Hw. rewrite V2, elmSum_entry. ring.
    - rewrite U3 by exact Hw. rewrite V2. symmetry. apply elmSum_uncoupled; [exact F|]. intros Hc. apply Hw, Wr2, Cov, Hc. }
  destruct (endAssembly_any sg M3 W3) as (M4 & E4 & W4 & S4 & R4 & C4 & Sl4 & Ln4 & Wr4 & V4 & U4). { rewrite Ln3, R3, R2. tauto. }
  exists M4. split; [exact E4|]. intros r c Hrc. destruct (V4 r c) as [E|(E1 & E2 & E3' & E4')]; [rewrite E, Val3; ring|].
  destruct Hrc as [Hrc|Hrc]; [lia|]. subst c. destruct (Nat.eq_dec (length (nz M2)) 1) as [N1'|N1'].
  - rewrite <- Ln3 in N1'. unfold endAssembly in E4. rewrite N1' in E4. cbn in E4. injection E4 as <-. apply Val3.
  - exfalso. assert (Q : nth (r-1) (nz M3) false = true); [|congruence]. apply N3; [exact N1'|]. right. replace (S (r-1)) with r by lia. exact Hrc.
Qed.

Lemma nth_repeat0 p n : nth p (repeat 0%Qc n) 0%Qc = 0%Qc.
Proof. destruct (nth_in_or_default p (repeat 0%Qc n) 0%Qc) as [Hi|Hi]; [apply repeat_spec in Hi|]; auto. Qed.
Definition init1 (lhs : nat) (M : spm) : spm := if lhs =? 0 then M else let M1 := resize (nrow M) (ncol M) false M in if lhs =? 2 then initFlags M1 else M1.
Lemma initialize_val nthr s sl lhs h y rM rV rD h' y' : strOK y -> loc s sl h y rM rV rD -> noArr y -> initialize nthr lhs h y = Some (h', y') ->
  (forall q M, In q (aM y) -> nth_error (hM h) q = Some (Some M) -> nth_error (hM h') q = Some (Some (init1 lhs M))) /\
  (forall q p, In q (aV y) -> vval (hV h') q p = 0%Qc) /\ R y' = repeat 0%Qc (length (R y)) /\ length (c y') = length (c y) /\ forall j, sclSum h' y' j = 0%Qc.
Proof.
  intros (SA & SB & SS) (OM & OV & OD & VM & VV) Nd. unfold initialize. rewrite SA.
  assert (G : forall m, (if lhs =? 0 then Some (hM h) else mapAll (fun M => let M1 := resize (nrow M) (ncol M) false M in if lhs =? 2 then initFlags M1 else M1) (map Some (aM y)) (hM h)) = Some m ->
    forall q M, In q (aM y) -> nth_error (hM h) q = Some (Some M) -> nth_error m q = Some (Some (init1 lhs M))).
  { intros m. unfold init1. destruct (lhs =? 0); [intros [= <-] q M _ H; exact H|].
    destruct (mapAll_own (fun M => let M1 := resize (nrow M) (ncol M) false M in if lhs =? 2 then initFlags M1 else M1) (aM y) (hM h) _ OM (own_nodup_l _ _ _ OM)) as (m' & E & O & F); [intros; apply in_or_app; auto|].
    cbv zeta in E |- *. rewrite E. intros [= <-] q M Hq HM. rewrite F. replace (existsb (Nat.eqb q) (aM y)) with true by (symmetry; apply existsb_exists; exists q; split; [exact Hq|apply Nat.eqb_refl]). rewrite HM. reflexivity. }
  cbv zeta in G. cbv zeta. destruct (if lhs =? 0 then _ else _) as [m|]; [|discriminate]. specialize (G m eq_refl).
  destruct (mapAll_own (fun x => repeat 0%Qc (length x)) (aV y) (hV h) _ OV (own_nodup_l _ _ _ OV)) as (v & E2 & O2 & F2); [intros; apply in_or_app; auto|]. rewrite <- SB in E2. rewrite E2.
  assert (V : forall q p, In q (aV y) -> vval v q p = 0%Qc).
  { intros q p Hq. unfold vval. rewrite F2. replace (existsb (Nat.eqb q) (aV y)) with true by (symmetry; apply existsb_exists; exists q; split; [exact Hq|apply Nat.eqb_refl]).
    destruct (nth_error (hV h) q) as [[x|]|]; cbn; try reflexivity. apply nth_repeat0. }
  destruct (c y) as [|c1 cs] eqn:Ec.
  - intros [= <- <-]. cbn [hM hV R c]. split; [exact G|]. split; [exact V|]. split; [reflexivity|]. split; [reflexivity|]. intros j. unfold sclSum. cbn [c d].
    unfold noArr in Nd. destruct (d y) as [| |p]; [destruct j; cbn; ring..|]. exfalso. exact (Nd p eq_refl).
  - destruct (1 <? nthr); intros [= <- <-]; cbn [hM hV R c]; (split; [exact G|]; split; [exact V|]; split; [reflexivity|]; split; [cbn [length repeat]; rewrite repeat_length; reflexivity|]); intros j; unfold sclSum; cbn [c d hD].
    + rewrite nth_error_app2, Nat.sub_diag by lia. cbn [nth_error]. change (0%Qc :: repeat 0%Qc (length cs)) with (repeat 0%Qc (S (length cs))). rewrite nth_repeat0, qs_zero; [ring|].
      intros u Hu. apply repeat_spec in Hu. subst u. apply nth_repeat0.
    + change (0%Qc :: repeat 0%Qc (length cs)) with (repeat 0%Qc (S (length cs))). rewrite nth_repeat0. ring.
Qed.

(** ** All systems *)
Definition oa (f : sys -> list nat) (o : option sys) : list nat := match o with Some y => f y | None => [] end.
Definition rest {X} (i : nat) (l : list X) : list X := firstn i l ++ skipn (S i) l.
Definition restA (f : sys -> list nat) (i : nat) (w : world) : list nat := flat_map (oa f) (rest i (objs w)).
Definition objOK (nthr : nat) (s : tables) (w : world) (o : option sys) (q : option phase) : Prop :=
  match o, q with Some y, Some ph => strOK y /\ phaseOK nthr s (hD (hp w)) y ph | None, None => True | _, _ => False end.
Definition WI (nthr : nat) (s : tables) (sl : solverT) (w : world) (P : list (option phase)) : Prop :=
  length (objs w) = length P /\
  own (hM (hp w)) (flat_map (oa aM) (objs w)) /\ own (hV (hp w)) (flat_map (oa aV) (objs w)) /\ own (hD (hp w)) (flat_map (oa aD) (objs w)) /\
  allv (ready s sl) (hM (hp w)) /\ allv (lenV s) (hV (hp w)) /\
  forall i o q, nth_error (objs w) i = Some o -> nth_error P i = Some q -> objOK nthr s w o q.

Lemma perm_rest {X} (f : X -> list nat) (l : list X) i o : nth_error l i = Some o -> Permutation (flat_map f l) (f o ++ flat_map f (rest i l)).
Proof.
  unfold rest. revert i. induction l as [|x l IH]; intros [|i] H; cbn in H; try discriminate.
  - injection H as ->. reflexivity.
  - cbn [firstn app flat_map]. change (skipn (S (S i)) (x :: l)) with (skipn (S i) l). rewrite (IH i H). rewrite !app_assoc. apply Permutation_app_tail, Permutation_app_comm.
Qed.
Lemma rest_upd {X} (l : list X) i x : rest i (upd i x l) = rest i l.
Proof.
  unfold rest. revert i. induction l as [|z l IH]; intros [|i]; cbn [upd firstn app]; try reflexivity. f_equal. apply IH.
Qed.
Lemma rest_in {X} (l : list X) i k x : k <> i -> nth_error l k = Some x -> In x (rest i l).
Proof.
  unfold rest. revert i k. induction l as [|z l IH]; intros [|i] [|k] Hn H; cbn in H; try discriminate; try lia.
  - cbn. eapply nth_error_In. exact H.
  - injection H as ->. cbn. auto.
  - cbn [firstn app]. right. apply (IH i k); [lia|exact H].
Qed.
Lemma upd_same {X} (l : list X) i x : nth_error l i = Some x -> upd i x l = l.
Proof. revert i. induction l as [|z l IH]; intros [|i] H; cbn in *; try discriminate; [injection H as ->; reflexivity|]. f_equal. apply IH, H. Qed.
Lemma nth_upd_same {X} (l : list X) i x y : nth_error l i = Some y -> nth_error (upd i x l) i = Some x.
Proof. intros H. rewrite nth_upd_e, Nat.eqb_refl. assert (i < length l) by (apply nth_error_Some; congruence). apply Nat.ltb_lt in H0. rewrite H0. reflexivity. Qed.
Lemma nth_upd_other {X} (l : list X) i k x : k <> i -> nth_error (upd i x l) k = nth_error l k.
Proof. intros H. rewrite nth_upd_e. apply Nat.eqb_neq in H. rewrite H. reflexivity. Qed.

Lemma WI_get nthr s sl w P i ph : WI nthr s sl w P -> nth_error P i = Some (Some ph) ->
  exists y, nth_error (objs w) i = Some (Some y) /\ obj w i = Some y /\ strOK y /\ phaseOK nthr s (hD (hp w)) y ph /\ loc s sl (hp w) y (restA aM i w) (restA aV i w) (restA aD i w).
Proof.
  intros (L & OM & OV & OD & VM & VV & H) Hp. destruct (nth_error (objs w) i) as [o|] eqn:Eo.
  2:{ apply nth_error_None in Eo. assert (i < length P) by (apply nth_error_Some; congruence). lia. }
  specialize (H i o (Some ph) Eo Hp). destruct o as [y|]; [|destruct H]. destruct H as [H1 H2]. exists y. split; [reflexivity|]. split; [unfold obj; rewrite Eo; reflexivity|]. split; [exact H1|]. split; [exact H2|].
  unfold loc, restA. split; [exact (own_perm _ _ _ (perm_rest (oa aM) _ i _ Eo) OM)|]. split; [exact (own_perm _ _ _ (perm_rest (oa aV) _ i _ Eo) OV)|].
  split; [exact (own_perm _ _ _ (perm_rest (oa aD) _ i _ Eo) OD)|]. split; [exact VM|exact VV].
Qed.
Lemma in_restA f w i k y p : k <> i -> nth_error (objs w) k = Some (Some y) -> In p (f y) -> In p (restA f i w).
Proof. intros Hn Hk Hp. unfold restA. apply in_flat_map. exists (Some y). split; [apply (rest_in _ _ k); auto|exact Hp]. Qed.
Lemma WI_set nthr s sl w P i ph o' q' h' : WI nthr s sl w P -> nth_error P i = Some (Some ph) ->
  own (hM h') (oa aM o' ++ restA aM i w) -> own (hV h') (oa aV o' ++ restA aV i w) -> own (hD h') (oa aD o' ++ restA aD i w) -> allv (ready s sl) (hM h') -> allv (lenV s) (hV h') ->
  same (restA aD i w) (hD (hp w)) (hD h') -> objOK nthr s (mkW h' (upd i o' (objs w))) o' q' -> WI nthr s sl (mkW h' (upd i o' (objs w))) (upd i q' P).
Proof.
  intros HW Hp OM OV OD VM VV SD HO. destruct (WI_get _ _ _ _ _ _ _ HW Hp) as (y & Ey & _). destruct HW as (L & _ & _ & _ & _ & _ & H).
  assert (Eo : nth_error (upd i o' (objs w)) i = Some o') by (eapply nth_upd_same; exact Ey).
  unfold WI. cbn [hp objs]. split; [rewrite !upd_length; exact L|].
  assert (Pm : forall f, Permutation (oa f o' ++ restA f i w) (flat_map (oa f) (upd i o' (objs w)))).
  { intros f. symmetry. unfold restA. rewrite <- (rest_upd (objs w) i o'). apply perm_rest. exact Eo. }
  split; [exact (own_perm _ _ _ (Pm aM) OM)|]. split; [exact (own_perm _ _ _ (Pm aV) OV)|]. split; [exact (own_perm _ _ _ (Pm aD) OD)|]. split; [exact VM|]. split; [exact VV|].
  intros k o q Hk Hq. destruct (Nat.eq_dec k i) as [->|Hn].
  - rewrite Eo in Hk. injection Hk as <-. rewrite (nth_upd_same _ _ _ _ Hp) in Hq. injection Hq as <-. exact HO.
  - rewrite nth_upd_other in Hk by exact Hn. rewrite nth_upd_other in Hq by exact Hn. specialize (H k o q Hk Hq). unfold objOK in *. destruct o as [z|], q as [ph'|]; auto. destruct H as [H1 H2]. split; [exact H1|].
    cbn [hp]. eapply phaseOK_same; [exact H2|]. intros p Hz. apply SD. eapply in_restA; eauto.
Qed.
Lemma WI_put nthr s sl w P i ph y' ph' h' : WI nthr s sl w P -> nth_error P i = Some (Some ph) -> strOK y' -> phaseOK nthr s (hD h') y' ph' ->
  loc s sl h' y' (restA aM i w) (restA aV i w) (restA aD i w) -> fr (restA aM i w) (restA aV i w) (restA aD i w) (hp w) h' -> WI nthr s sl (mkW h' (upd i (Some y') (objs w))) (upd i (Some ph') P).
Proof.
  intros HW Hp SO PO (OM & OV & OD & VM & VV) (_ & _ & SD). eapply WI_set; eauto. cbn. auto.
Qed.
Lemma WI_app nthr s sl w P y' ph' h' : WI nthr s sl w P -> strOK y' -> phaseOK nthr s (hD h') y' ph' ->
  loc s sl h' y' (flat_map (oa aM) (objs w)) (flat_map (oa aV) (objs w)) (flat_map (oa aD) (objs w)) ->
  same (flat_map (oa aD) (objs w)) (hD (hp w)) (hD h') -> WI nthr s sl (mkW h' (objs w ++ [Some y'])) (P ++ [Some ph']).
Proof.
  intros (L & _ & _ & _ & _ & _ & H) SO PO (OM & OV & OD & VM & VV) SD. unfold WI. cbn [hp objs]. split; [rewrite !app_length, L; reflexivity|].
  assert (Pm : forall f, Permutation (f y' ++ flat_map (oa f) (objs w)) (flat_map (oa f) (objs w ++ [Some y']))).
  { intros f. rewrite flat_map_app. cbn. rewrite app_nil_r. apply Permutation_app_comm. }
  split; [exact (own_perm _ _ _ (Pm aM) OM)|]. split; [exact (own_perm _ _ _ (Pm aV) OV)|]. split; [exact (own_perm _ _ _ (Pm aD) OD)|]. split; [exact VM|]. split; [exact VV|].
  intros k o q Hk Hq. destruct (Nat.lt_ge_cases k (length (objs w))) as [Hl|Hl].
  - rewrite nth_error_app1 in Hk by exact Hl. rewrite nth_error_app1 in Hq by lia. specialize (H k o q Hk Hq). unfold objOK in *. destruct o as [z|], q as [ph|]; auto. destruct H as [H1 H2]. split; [exact H1|].
    cbn [hp]. eapply phaseOK_same; [exact H2|]. intros p Hz. apply SD. apply in_flat_map. exists (Some z). split; [eapply nth_error_In; exact Hk|exact Hz].
  - rewrite nth_error_app2 in Hk, Hq by lia. rewrite L in Hk. destruct (k - length P) as [|n]; [|destruct n; discriminate]. injection Hk as <-. injection Hq as <-. cbn. auto.
Qed.
Lemma WI_0 nthr s sl : WI nthr s sl w0 [].
Proof.
  unfold WI, w0. cbn. assert (O : forall X, own (@nil (option X)) []).
  { intros X. split; [constructor|]. intros p. split; [intros []|]. intros (x & H). destruct p; discriminate. }
  split; [reflexivity|]. split; [apply O|]. split; [apply O|]. split; [apply O|]. split; [intros [|p] x; discriminate|]. split; [intros [|p] x; discriminate|]. intros [|i] o q; discriminate.
Qed.

Lemma step_ok nthr s sl sg P o P' w : consistent s -> legal nthr s sl P o P' -> WI nthr s sl w P -> exists w', step nthr s sl sg o w = Some w' /\ WI nthr s sl w' P'.
Proof.
  intros C Lg HW. destruct Lg as [P|P j ph Hj|P i mode nm nv nc rc Hi Hm|P i j phi phj Hij Hi Hb Hj|P i j phi phj sh Hi Hphi Hj Hphj Hn|P i imat ivec ph Hi|P i v k ph Hi|P i lhs sh Hi|P i it e iel sh Hi Hit HR|P i nl sh Hi|P i ph Hi|P i ph Hi]; cbn [step].
  - eexists. split; [reflexivity|]. pose proof HW as (_ & OM & OV & OD & VM & VV & _). apply WI_app; auto; [|reflexivity| |apply same_refl].
    + split; [reflexivity|]. split; [reflexivity|]. intros a [].
    + split; [exact OM|]. split; [exact OV|]. split; [exact OD|]. split; [exact VM|exact VV].
  - destruct (WI_get _ _ _ _ _ _ _ HW Hj) as (z & Ez & -> & SO & PO & _). pose proof HW as (_ & OM & OV & OD & VM & VV & _).
    destruct (copySys_ok s sl (hp w) newSys z (flat_map (oa aM) (objs w)) (flat_map (oa aV) (objs w)) (flat_map (oa aD) (objs w))) as (h' & y' & -> & LO & SO' & (_ & _ & FD) & Dy & Cy & Ry & LA & LB & _).
    { split; [reflexivity|]. split; [reflexivity|]. intros a []. } { split; [exact OM|]. split; [exact OV|]. split; [exact OD|]. split; [exact VM|exact VV]. } { discriminate. } { exact SO. }
    { intros p Hp. apply in_flat_map. exists (Some z). split; [eapply nth_error_In; exact Ez|exact Hp]. } { intros p Hp. apply in_flat_map. exists (Some z). split; [eapply nth_error_In; exact Ez|exact Hp]. }
    eexists. split; [reflexivity|]. apply WI_app; auto. destruct ph as [|sh|sh]; cbn [settled phaseOK] in *.
    + subst z. cbn in *. destruct (A y') eqn:EA; [|discriminate]. destruct (b y') eqn:EB; [|discriminate]. destruct y'. cbn in *. subst. reflexivity.
    + split; [|unfold noArr; rewrite Dy; discriminate]. unfold sizes in *. rewrite LA, LB, Cy, Ry. apply PO.
    + split; [|unfold noArr; rewrite Dy; discriminate]. unfold sizes in *. rewrite LA, LB, Cy, Ry. apply PO.
  - destruct (WI_get _ _ _ _ _ _ _ HW Hi) as (y & Ey & -> & SO & PO & LO). cbn [phaseOK] in PO. subst y.
    destruct (init_ok nthr s sl mode nm nv nc rc (hp w) _ _ _ C Hm LO) as (h' & y' & -> & LO' & SO' & FR & PO'). cbn [put]. eexists. split; [reflexivity|]. eapply WI_put; eauto.
  - destruct (WI_get _ _ _ _ _ _ _ HW Hi) as (y & Ey & -> & SO & PO & LO). destruct (WI_get _ _ _ _ _ _ _ HW Hj) as (z & Ez & -> & SOz & POz & _).
    assert (Na : noArr y). { destruct phi as [|sh|sh]; cbn [phaseOK] in PO; [subst y; discriminate|apply PO|exfalso; exact (Hb sh eq_refl)]. }
    destruct (copySys_ok s sl (hp w) y z _ _ _ SO LO Na SOz) as (h' & y' & -> & LO' & SO' & FR & Dy & Cy & Ry & LA & LB & _).
    { intros p Hp. eapply in_restA; eauto. } { intros p Hp. eapply in_restA; eauto. }
    cbn [put]. eexists. split; [reflexivity|]. eapply WI_put; eauto. destruct phj as [|sh|sh]; cbn [settled phaseOK] in *.
    + subst z. cbn in *. destruct (A y') eqn:EA; [|discriminate]. destruct (b y') eqn:EB; [|discriminate]. destruct y'. cbn in *. subst. reflexivity.
    + split; [|unfold noArr; rewrite Dy; discriminate]. unfold sizes in *. rewrite LA, LB, Cy, Ry. apply POz.
    + split; [|unfold noArr; rewrite Dy; discriminate]. unfold sizes in *. rewrite LA, LB, Cy, Ry. apply POz.
  - destruct (WI_get _ _ _ _ _ _ _ HW Hi) as (y & Ey & -> & SO & PO & LO). destruct (WI_get _ _ _ _ _ _ _ HW Hj) as (z & Ez & -> & SOz & POz & _).
    assert (Szy : sizes s sh y) by (destruct Hphi as [-> | ->]; apply PO). assert (Szz : sizes s sh z) by (destruct Hphj as [-> | ->]; apply POz).
    destruct (addSys_ok s sl (hp w) y z _ _ _ C SO LO SOz) as (h' & y' & -> & LO' & FR & YA & YB & YD & YC & YR & HD).
    { intros p Hp. destruct (Nat.eq_dec j i) as [->|Hne]; [rewrite Ey in Ez; injection Ez as <-; apply in_or_app; auto|apply in_or_app; right; eapply in_restA; eauto]. }
    { intros p Hp. destruct (Nat.eq_dec j i) as [->|Hne]; [rewrite Ey in Ez; injection Ez as <-; apply in_or_app; auto|apply in_or_app; right; eapply in_restA; eauto]. }
    { destruct Szz as (-> & -> & _). exact Hn. } { destruct Szz as (_ & _ & _ & ->). destruct Szy as (_ & _ & _ & ->). reflexivity. }
    cbn [put]. eexists. split; [reflexivity|]. rewrite <- (upd_same P i _ Hi). eapply WI_put; eauto; [apply (strOK_eq y); auto|].
    assert (Sz' : sizes s sh y') by (apply (sizes_eq s sh y); auto). destruct Hphi as [-> | ->]; (split; [exact Sz'|]).
    + unfold noArr. rewrite YD. apply PO.
    + rewrite HD. destruct PO as [_ PO]. unfold bufOK, noArr in *. rewrite YD. destruct (c y) as [|c1 cs] eqn:Ec, (c y') as [|c1' cs'] eqn:Ec'; try discriminate YC; auto.
      destruct (1 <? nthr); [|exact PO]. rewrite YC. exact PO.
  - destruct (WI_get _ _ _ _ _ _ _ HW Hi) as (y & Ey & -> & SO & PO & LO). cbn [put]. eexists. split; [reflexivity|]. rewrite <- (upd_same P i _ Hi).
    destruct (setAssoc imat ivec y) as [fl y'] eqn:Es. unfold setAssoc in Es. cbn [snd]. destruct (nth_error (A y) imat) as [a|] eqn:Ea; [|injection Es as _ <-; eapply WI_put; eauto; repeat split; apply same_refl].
    destruct (nth_error (b y) ivec) as [p|] eqn:Eb; [|injection Es as _ <-; eapply WI_put; eauto; repeat split; apply same_refl]. injection Es as _ <-.
    assert (HA : map fst (upd imat (fst a, p) (A y)) = map fst (A y)).
    { clear - Ea. revert imat Ea. induction (A y) as [|u l IH]; intros [|k] H; cbn in *; try discriminate; [injection H as ->; reflexivity|]. f_equal. apply IH, H. }
    assert (aMe : forall c0 d0 R0, aM (mkY (upd imat (fst a, p) (A y)) (b y) c0 d0 R0) = aM y).
    { intros. unfold aM. cbn [A]. rewrite !flat_map_concat_map, <- !(map_map fst addr), HA. reflexivity. }
    eapply WI_put; eauto.
    + destruct SO as (SA & SB & SS). unfold strOK. rewrite aMe. unfold aV. cbn [A b]. split; [rewrite HA; exact SA|]. split; [exact SB|]. intros u Hu. apply In_nth_error in Hu. destruct Hu as (k & Hu).
      rewrite nth_upd_e in Hu. destruct (_ && _); [injection Hu as <-; cbn [snd]; right; eapply nth_error_In; exact Eb|]. apply SS. eapply nth_error_In. exact Hu.
    + destruct ph as [|sh|sh]; cbn [phaseOK] in *; [subst y; destruct imat; discriminate|..]; (destruct PO as [Sz Q]; split; [unfold sizes in *; cbn [A b c R]; rewrite upd_length; exact Sz|exact Q]).
    + unfold loc. rewrite aMe. exact LO.
    + repeat split; apply same_refl.
  - destruct (WI_get _ _ _ _ _ _ _ HW Hi) as (y & Ey & -> & SO & PO & LO). cbn [put]. eexists. split; [reflexivity|]. rewrite <- (upd_same P i _ Hi).
    assert (Lc : length (c (addScalar v k y)) = length (c y)) by (unfold addScalar; cbn [c]; destruct (_ <? _); [apply upd_length|reflexivity]).
    eapply WI_put; eauto; [|repeat split; apply same_refl]. destruct ph as [|sh|sh]; cbn [phaseOK] in *.
    + subst y. cbn. reflexivity.
    + destruct PO as [Sz Q]. split; [apply (sizes_eq s sh y); auto|exact Q].
    + destruct PO as [Sz Q]. split; [apply (sizes_eq s sh y); auto|]. unfold bufOK, noArr in *. change (d (addScalar v k y)) with (d y). rewrite Lc.
      destruct (c y) as [|c1 cs] eqn:Ec, (c (addScalar v k y)) as [|c1' cs'] eqn:Ec'; try discriminate Lc; auto.
  - destruct (WI_get _ _ _ _ _ _ _ HW Hi) as (y & Ey & -> & SO & PO & LO). destruct (initialize_ok nthr s sl lhs (hp w) y _ _ _ sh SO LO PO) as (h' & y' & -> & LO' & SO' & FR & PO' & _).
    cbn [put]. eexists. split; [reflexivity|]. eapply WI_put; eauto.
  - destruct (WI_get _ _ _ _ _ _ _ HW Hi) as (y & Ey & -> & SO & PO & LO). destruct (assemble_ok nthr s sl it e iel (hp w) y _ _ _ sh C SO LO PO Hit HR) as (ok & h' & y' & -> & LO' & SO' & FR & PO' & _).
    cbn [put]. eexists. split; [reflexivity|]. rewrite <- (upd_same P i _ Hi). eapply WI_put; eauto.
  - destruct (WI_get _ _ _ _ _ _ _ HW Hi) as (y & Ey & -> & SO & PO & LO). destruct (finalize_ok nthr s sl sg nl (hp w) y _ _ _ sh SO LO PO) as (h' & y' & -> & LO' & SO' & FR & PO' & _).
    cbn [put]. eexists. split; [reflexivity|]. eapply WI_put; eauto.
  - destruct (WI_get _ _ _ _ _ _ _ HW Hi) as (y & Ey & -> & SO & PO & LO). destruct (clear_ok s sl (hp w) y _ _ _ SO LO) as (h' & -> & LO' & FR).
    cbn [put]. eexists. split; [reflexivity|]. eapply WI_put; eauto; [|reflexivity]. split; [reflexivity|]. split; [reflexivity|]. intros a [].
  - destruct (WI_get _ _ _ _ _ _ _ HW Hi) as (y & Ey & -> & SO & PO & LO). destruct (clear_ok s sl (hp w) y _ _ _ SO LO) as (h' & -> & LO' & FR).
    eexists. split; [reflexivity|]. destruct LO' as (OM & OV & OD & VM & VV). eapply WI_set; eauto; [apply FR|exact I].
Qed.
Lemma run_ok nthr s sl sg : consistent s -> forall P os P', legalRun nthr s sl P os P' -> forall w, WI nthr s sl w P -> exists w', run nthr s sl sg os w = Some w' /\ WI nthr s sl w' P'.
Proof.
  intros C P os P' Lr. induction Lr as [P|P o P' os P'' Lg Lr IH]; intros w HW; cbn [run]; [eauto|].
  destruct (step_ok nthr s sl sg P o P' w C Lg HW) as (w' & -> & HW'). apply IH. exact HW'.
Qed.
Lemma WI_noLeaks nthr s sl w P : WI nthr s sl w P -> noLeaks w /\ assocOwn w.
Proof.
  intros (L & OM & OV & OD & _ & _ & H).
  assert (St : forall y, In (Some y) (objs w) -> strOK y).
  { intros y Hy. apply In_nth_error in Hy. destruct Hy as (i & Hi). destruct (nth_error P i) as [q|] eqn:Eq; [|apply nth_error_None in Eq; assert (i < length (objs w)) by (apply nth_error_Some; congruence); lia].
    specialize (H i _ q Hi Eq). destruct q; [apply H|destruct H]. }
  assert (Ex : forall X (l : list (option X)) ps, own l ps -> exclusive (map Some ps) l).
  { intros X l ps [N Hp]. split; [apply FinFun.Injective_map_NoDup; [intros u v [= ->]; reflexivity|exact N]|]. split; [intros Hi; apply in_map_iff in Hi; destruct Hi as (k & [=] & _)|].
    intros p. rewrite <- Hp. split; [intros Hi; apply in_map_iff in Hi; destruct Hi as (k & [= ->] & Hk); exact Hk|apply in_map]. }
  assert (Rf : forall f g, (forall y, strOK y -> g y = map Some (f y)) -> refs g w = map Some (flat_map (oa f) (objs w))).
  { intros f g Hg. unfold refs. clear - St Hg. induction (objs w) as [|o l IH]; [reflexivity|]. cbn [flat_map]. rewrite map_app, IH by (intros; apply St; right; assumption). f_equal.
    destruct o as [y|]; [|reflexivity]. apply Hg, St. left. reflexivity. }
  split.
  - split; [|split].
    + rewrite (Rf aM); [apply Ex, OM|]. intros y Hy. apply Hy.
    + rewrite (Rf aV); [apply Ex, OV|]. intros y Hy. apply Hy.
    + rewrite (Rf aD); [apply Ex, OD|]. intros y _. unfold refD, aD. destruct (d y); reflexivity.
  - intros i y pA pb Hi Ha. destruct (St y (nth_error_In _ _ Hi)) as (_ & _ & SS). destruct (SS _ Ha) as [Hs|Hs]; [discriminate|exact Hs].
Qed.
Lemma freed_all nthr s sl w P : WI nthr s sl w P -> (forall q, In q P -> q = None \/ q = Some Clean) ->
  (forall p x, nth_error (hM (hp w)) p <> Some (Some x)) /\ (forall p x, nth_error (hV (hp w)) p <> Some (Some x)) /\ (forall p x, nth_error (hD (hp w)) p <> Some (Some x)).
Proof.
  intros (L & OM & OV & OD & _ & _ & H) Hq.
  assert (E : forall f, f newSys = [] -> flat_map (oa f) (objs w) = []).
  { intros f Hf. assert (G : forall o, In o (objs w) -> oa f o = []).
    { intros o Ho. apply In_nth_error in Ho. destruct Ho as (i & Hi). destruct (nth_error P i) as [q|] eqn:Eq; [|apply nth_error_None in Eq; assert (i < length (objs w)) by (apply nth_error_Some; congruence); lia].
      specialize (H i o q Hi Eq). destruct (Hq q (nth_error_In _ _ Eq)) as [-> | ->]; destruct o as [y|]; try reflexivity; [destruct H|]. destruct H as [_ Hy]. cbn in Hy. subst y. exact Hf. }
    clear - G. induction (objs w) as [|o l IH]; [reflexivity|]. cbn [flat_map]. rewrite G by (left; reflexivity). apply IH. intros; apply G; right; assumption. }
  rewrite E in OM, OV, OD by reflexivity.
  assert (Nl : forall X (l : list (option X)), own l [] -> forall p x, nth_error l p <> Some (Some x)).
  { intros X l [_ Hl] p x Hp. apply (Hl p). exists x. exact Hp. }
  split; [apply Nl, OM|]. split; [apply Nl, OV|apply Nl, OD].
Qed.
