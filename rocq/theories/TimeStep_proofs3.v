(** Parsed parameters satisfy the invariant, and every simulation keeps it. *)
From Coq Require Import List Arith ZArith QArith Qcanon Bool Lia Lqa.
From Verif Require Import Base QcLra TimeStep_model TimeStep_spec TimeStep_proofs TimeStep_proofs2.
Import ListNotations.
Local Open Scope Qc_scope.

Lemma Inv_weak s : Inv true s -> Inv false s.
Proof. intros []. constructor; auto. Qed.

Lemma fail_Inv b s s' : Inv b s -> increment s = (false, s') -> Inv false s'.
Proof.
  intros I H. pose proof (increment_same s) as Sm. rewrite H in Sm. cbn [snd] in Sm.
  destruct Sm as (G1 & G2 & G3 & G4 & G5 & G6 & G7 & G8 & G9).
  assert (Q : t s' = t s /\ mySteps s' = mySteps s /\ stepIt s' = stepIt s /\ 0 < dt s').
  { assert (D1 : 0 < dt (incB (incA s))).
    { destruct (incA_same s) as (_ & _ & _ & E4 & E5 & E6 & _). apply incB_dt; rewrite ?E4, ?E5, ?E6; try apply I. apply incA_dt; apply I. }
    assert (s' = incB (incA s) \/ s' = bumpStep (incB (incA s))) as [-> | ->].
    { unfold increment in H. destruct (hasReached _ _); [left; congruence|]. destruct (_ && _); [right; congruence|discriminate]. }
    - split; [rewrite incB_t; apply incA_t|]. destruct (incB_secs (incA s)) as (-> & -> & _ & _). destruct (incA_secs s) as (-> & ->). auto.
    - cbn. split; [rewrite incB_t; apply incA_t|]. destruct (incB_secs (incA s)) as (-> & -> & _ & _). destruct (incA_secs s) as (-> & ->). auto. }
  destruct Q as (Q1 & Q2 & Q3 & Q4).
  constructor; unfold posLists, prevEnd; rewrite ?G1, ?G2, ?G4, ?G5, ?G6, ?G9, ?Q1, ?Q2, ?Q3; try apply I; auto. discriminate.
Qed.

Lemma iter_Inv b s k : Inv b s -> Inv b (setIter s k).
Proof. intros []. constructor; auto. Qed.
Lemma cfl_Inv b s q : Inv b s -> Inv b (setCFL s q).
Proof. intros []. constructor; auto. Qed.

(** *** C26 for any state *)
Lemma cutback_true s s' : cutback s = (true, s') -> 0 <= dtMin s -> 0 < f2 s ->
  t s' = t s - dt s + dt s' /\ (dtMin s <= dt s' /\ dt s' < dt s) /\ 0 < dt s' /\ dtMin s < dt s /\ step s' = step s /\ stepIt s' = stepIt s /\ lstep s' = lstep s.
Proof.
  intros H Hm Hf. unfold cutback in H. pose proof (qleb_spec (dt s) (dtMin s)) as L. destruct (qleb (dt s) (dtMin s)); [discriminate|].
  match type of H with (true, ?x) = _ => assert (E : s' = x) by congruence end. clear H. subst s'. cbn [t dt step stepIt lstep].
  set (r := if qltb (f2 s) 1 then f2 s else Q2Qc (1#2)).
  assert (Hr : 0 < r /\ r < 1).
  { unfold r. pose proof (qltb_spec (f2 s) 1). destruct (qltb (f2 s) 1); split; auto; qclra. }
  destruct Hr as [R0 R1]. assert (0 < dt s) by qclra. assert (dt s * r < dt s) by qcnra. assert (0 < dt s * r) by qcnra.
  set (d := dt s * r) in *.
  pose proof (qltb_spec d (dtMin s)) as W.
  destruct (qltb d (dtMin s)); (split; [qclra|split; [split; qclra|split; [qclra|auto]]]).
Qed.
Lemma cutback_false s s' : cutback s = (false, s') -> s' = s /\ dt s <= dtMin s.
Proof.
  unfold cutback. pose proof (qleb_spec (dt s) (dtMin s)). destruct (qleb (dt s) (dtMin s)); intros E; [|discriminate].
  split; [congruence|assumption].
Qed.

Lemma cut_pos s s' ok : cutback s = (ok, s') -> 0 < f2 s -> 0 < dt s ->
  t s' = t s - dt s + dt s' /\ 0 < dt s' /\ dt s' <= dt s /\ stepIt s' = stepIt s /\
  (posLists s -> posLists s') /\ length (mySteps s') = length (mySteps s).
Proof.
  intros H Hf Hd. unfold cutback in H. pose proof (qleb_spec (dt s) (dtMin s)) as L. destruct (qleb (dt s) (dtMin s)).
  { assert (s' = s) by congruence. subst s'. split; [ring|]. split; [exact Hd|]. split; [apply Qcle_refl|auto]. }
  match type of H with (true, ?x) = _ => assert (E : s' = x) by congruence end. clear H. subst s'. unfold posLists. cbn [t dt stepIt mySteps].
  set (r := if qltb (f2 s) 1 then f2 s else Q2Qc (1#2)).
  assert (Hr : 0 < r /\ r < 1).
  { unfold r. pose proof (qltb_spec (f2 s) 1). destruct (qltb (f2 s) 1); split; auto; qclra. }
  destruct Hr as [R0 R1]. assert (dt s * r < dt s) by qcnra. assert (0 < dt s * r) by qcnra. set (d := dt s * r) in *.
  set (d' := if qltb d (dtMin s) then dtMin s else d).
  assert (D' : 0 < d' /\ d' <= dt s) by (unfold d'; pose proof (qltb_spec d (dtMin s)); destruct (qltb d (dtMin s)); split; qclra).
  destruct D'. split; [qclra|]. split; [assumption|]. split; [assumption|]. split; [reflexivity|]. split.
  - intros P. destruct (curSec s) as [[l e]|] eqn:C; [|exact P]. apply setSec_pos; [exact P|]. apply set_back_pos; [assumption|]. exact (curSec_pos _ _ _ P C).
  - destruct (curSec s) as [[l e]|]; [apply setSec_len|reflexivity].
Qed.

Lemma cut_Inv s s' ok : Inv true s -> ~ In (t s) (ends s) -> cutback s = (ok, s') -> Inv true s'.
Proof.
  intros I N H. pose proof (cutback_same s) as Sm. rewrite H in Sm. cbn [snd] in Sm.
  destruct Sm as (G1 & G2 & G3 & G4 & G5 & G6 & G7 & G8 & G9).
  destruct (cut_pos _ _ _ H (i_f2 _ _ I) (i_dt _ _ I)) as (Et & Hd & Hle & Ek & Hp & Hl).
  destruct (i_cut _ _ I eq_refl) as [C|C]; [contradiction|].
  constructor; unfold prevEnd; rewrite ?G1, ?G2, ?G4, ?G5, ?G6, ?G9, ?Ek; fold (prevEnd s); try apply I; auto.
  - apply Hp, I.
  - destruct (i_last _ _ I) as [E|E]; [left|right; exact E]. rewrite E in Hl. destruct (mySteps s'); [reflexivity|discriminate].
  - rewrite Hl. apply I.
  - qclra.
  - rewrite Hl. intros K. pose proof (i_hi _ _ I K). qclra.
  - pose proof (i_hs _ _ I). qclra.
  - intros _. right. qclra.
Qed.

Theorem reach_Inv s0 b s : Inv false s0 -> reach false s0 b s -> Inv b s /\ same s s0.
Proof.
  intros I. induction 1 as [|b s s' _ [IH Sm] H|b s s' _ [IH Sm] H|s s' ok _ [IH Sm] N H|b s k _ [IH Sm]|b s q _ [IH Sm]].
  - split; [exact I|apply same_refl].
  - split; [apply (step_Inv _ _ _ IH H)|]. pose proof (increment_same s) as S2. rewrite H in S2. exact (same_trans _ _ _ S2 Sm).
  - split; [apply (fail_Inv _ _ _ IH H)|]. pose proof (increment_same s) as S2. rewrite H in S2. exact (same_trans _ _ _ S2 Sm).
  - split; [apply (cut_Inv _ _ _ IH (N eq_refl) H)|]. pose proof (cutback_same s) as S2. rewrite H in S2. exact (same_trans _ _ _ S2 Sm).
  - split; [apply iter_Inv; exact IH|exact Sm].
  - split; [apply cfl_Inv; exact IH|exact Sm].
Qed.

(** *** Input *)
Lemma gradeLoop_pos fuel eta : forall T d fin l, 0 < eta -> 0 < d -> gradeLoop fuel eta T d fin = Some l -> Forall (fun x => 0 < x) l.
Proof.
  induction fuel as [|fuel IH]; intros T d fin l He Hd H; cbn in H; pose proof (qltb_spec T fin) as W; destruct (qltb T fin); try discriminate; try (injection H as <-; constructor).
  destruct (gradeLoop fuel eta (T + d * eta) (d * eta) fin) as [l0|] eqn:G; [|discriminate]. injection H as <-.
  assert (0 < d * eta) by qcnra. constructor; [|exact (IH _ _ _ _ He H G)]. destruct (qleb _ _); [assumption|qclra].
Qed.
Lemma gradeLoop_start fuel eta T d fin : fin <= T -> gradeLoop fuel eta T d fin = Some [].
Proof. intros H. apply qltb_false in H. destruct fuel; cbn; rewrite H; reflexivity. Qed.
Lemma grade_pos fuel start fin ts l : start < fin -> Forall (fun x => 0 < x) ts -> grade fuel start fin ts = Some l ->
  Forall (fun x => 0 < x) l /\ (ts <> [] -> l <> []).
Proof.
  intros Hsf Hp H. unfold grade in H. destruct ts as [|d [|d2 [|d3 ts]]]; try (injection H as <-; split; [exact Hp|auto]; fail).
  inversion Hp as [|? ? Hd Hp1]; subst. inversion Hp1 as [|? ? Hd2 _]; subst.
  destruct (gradeLoop _ _ _ _ _) as [l0|] eqn:G; [|discriminate]. injection H as <-. split; [|discriminate]. constructor; [exact Hd|].
  destruct (Qclt_le_dec (start + d) fin) as [L|L].
  - refine (gradeLoop_pos _ _ _ _ _ _ _ Hd G).
    set (L0 := fin - start) in *. assert (P : 0 < L0) by (unfold L0; qclra).
    assert (E : (d - d2) / L0 * L0 = d - d2) by (field; intros E0; rewrite E0 in P; qclra).
    set (q := (d - d2) / L0) in *. assert (d < L0) by (unfold L0; qclra). destruct (Qclt_le_dec 0 (1 - q)) as [W|W]; [exact W|exfalso]. qcnra.
  - rewrite gradeLoop_start in G by exact L. injection G as <-. constructor.
Qed.
Lemma stepSizes_pos start fin vals : start < fin -> vals <> [] -> Forall (fun x => 0 < x) vals ->
  stepSizes start fin vals <> [] /\ Forall (fun x => 0 < x) (stepSizes start fin vals).
Proof.
  intros H N P. unfold stepSizes. destruct vals as [|d r]; [contradiction|]. inversion P; subst.
  destruct (_ && _); [|split; [discriminate|exact P]]. split; [discriminate|]. constructor; [|constructor]. apply qcdiv_pos; [qclra|assumption].
Qed.

Lemma increasing_split l r : increasing (l ++ r) -> increasing l /\ increasing r.
Proof.
  induction l as [|x l IH]; intros H; [split; [constructor|exact H]|]. cbn [app] in H. destruct H as [H1 H2].
  destruct (IH H2) as [A B]. split; [|exact B]. split; [|exact A]. destruct l; [constructor|exact H1].
Qed.

Lemma parseSteps_ok fuel : forall l star acc st secs,
  match acc with [] => match l with [] => True | x :: _ => increasing (x_start x :: map x_end l) end
               | _ => increasing (star :: map snd acc ++ map x_end l) end ->
  Forall (fun y => x_vals y <> [] /\ Forall (fun d => 0 < d) (x_vals y)) l ->
  Forall (fun sec : Section_ => fst sec <> [] /\ Forall (fun d => 0 < d) (fst sec)) acc ->
  parseSteps fuel l star acc = Some (st, secs) ->
  st = match acc, l with [], x :: _ => x_start x | _, _ => star end /\
  map snd secs = map snd acc ++ map x_end l /\
  Forall (fun sec : Section_ => fst sec <> [] /\ Forall (fun d => 0 < d) (fst sec)) secs.
Proof.
  induction l as [|x l IH]; intros star acc st secs Hinc Hl Hacc H.
  - cbn in H. injection H as <- <-. split; [destruct acc; reflexivity|]. split; [rewrite app_nil_r; reflexivity|exact Hacc].
  - inversion Hl as [|? ? [Hv1 Hv2] Hl']; subst. cbn [parseSteps] in H.
    set (start0 := match acc with [] => x_start x | _ => snd (last acc ([], 0)) end).
    set (star0 := match acc with [] => x_start x | _ => star end).
    match type of H with (let '(_, _) := ?m in _) = _ => assert (E : m = (star0, start0)) by (unfold star0, start0; destruct acc; reflexivity); rewrite E in H; clear E end.
    assert (Hsf : start0 < x_end x /\ increasing (star0 :: map snd acc ++ x_end x :: map x_end l)).
    { unfold start0, star0. destruct acc as [|a acc].
      - cbn in *. destruct Hinc as [A B]. split; [exact A|]. split; [exact A|exact B].
      - split; [|exact Hinc].
        destruct (exists_last (l := a :: acc) ltac:(discriminate)) as (pre & z & Ez). rewrite Ez in *. rewrite last_last.
        rewrite map_app in Hinc. cbn [map] in Hinc. rewrite <- app_assoc in Hinc. cbn in Hinc.
        assert (Hi2 : increasing (snd z :: x_end x :: map x_end l)) by (apply (increasing_split (star :: map snd pre)); cbn [app]; exact Hinc). apply Hi2. }
    destruct Hsf as [Hsf Hinc'].
    destruct (stepSizes_pos start0 (x_end x) (x_vals x) Hsf Hv1 Hv2) as [N1 P1].
    assert (E : exists ts, (if x_graded x then grade fuel start0 (x_end x) (stepSizes start0 (x_end x) (x_vals x)) else Some (stepSizes start0 (x_end x) (x_vals x))) = Some ts /\ ts <> [] /\ Forall (fun d => 0 < d) ts).
    { destruct (x_graded x).
      - destruct (grade _ _ _ _) as [ts|] eqn:G; [|discriminate]. exists ts. destruct (grade_pos _ _ _ _ _ Hsf P1 G) as [A B]. auto.
      - eexists; eauto. }
    destruct E as (ts & E & N & P). rewrite E in H. destruct ts as [|d ts]; [contradiction|].
    apply IH in H; [| |exact Hl'|apply Forall_app; split; [exact Hacc|constructor; [split; [discriminate|exact P]|constructor]]].
    + destruct H as (A & B & C). split; [|split; [|exact C]].
      * rewrite A. unfold star0. destruct acc; reflexivity.
      * rewrite B, map_app, <- app_assoc. reflexivity.
    + assert (G : increasing (star0 :: map snd (acc ++ [(d :: ts, x_end x)]) ++ map x_end l)) by (rewrite map_app, <- app_assoc; exact Hinc').
      destruct acc; exact G.
Qed.

Lemma parse_Inv fuel x s0 : goodInput x -> parseXML fuel x = Some s0 -> Inv false s0 /\
  t s0 = starTime s0 /\ step s0 = 0%Z /\ stepIt s0 = 0%nat /\ lstep s0 = 0%nat /\
  ends s0 = map x_end (x_steps x) /\ starTime s0 = (match x_steps x with [] => x_starTime x | y :: _ => x_start y end) /\
  stopTime s0 = (match x_steps x with [] => x_stopTime x | y :: _ => last (map x_end (x_steps x)) 0 end) /\
  maxStep s0 = x_maxStep x /\ maxCFL s0 = x_maxCFL x /\ dtMin s0 = x_dtMin x /\ dtMax s0 = x_dtMax x /\ cfl s0 = 0 /\
  Forall (fun sec : Section_ => fst sec <> []) (mySteps s0) /\
  (match mySteps s0 with [] => True | (l, _) :: _ => dt s0 = hd 0 l end) /\
  (x_steps x = [] -> dt s0 = match x_dt x with Some d => d | None => x_stopTime x - x_starTime x end).
Proof.
  intros (H1 & H2 & H3 & H) E. unfold parseXML in E. destruct (parseSteps _ _ _ _) as [[star secs]|] eqn:P; [|discriminate].
  assert (F1 : 0 < (if qltb (x_f1 x) 1 then 1 else x_f1 x)) by (destruct (qltb (x_f1 x) 1); [qclra|exact H1]).
  assert (F2 : 0 < (if qltb 1 (x_f2 x) then 1 else x_f2 x)) by (destruct (qltb 1 (x_f2 x)); [qclra|exact H2]).
  destruct (x_steps x) as [|x0 xs] eqn:X.
  - cbn in P. injection P as <- <-. match type of E with Some ?a = _ => assert (s0 = a) by congruence end. subst s0. clear E.
    destruct H as [[A B] D].
    assert (Dp : 0 < match x_dt x with Some d => d | None => x_stopTime x - x_starTime x end) by (destruct (x_dt x); [exact D|qclra]).
    split; [|cbn; repeat split; auto]. constructor; cbn [f1 f2 dtMax dt stopTime starTime t mySteps stepIt setT setDt]; auto.
    + constructor.
    + qclra.
    + cbn. auto.
    + apply Qcle_refl.
    + cbn. lia.
    + qclra.
    + discriminate.
  - apply parseSteps_ok in P; [|apply H|apply H|constructor].
    destruct P as (P1 & P2 & P3). cbn in P1. subst star. cbn [map app] in P2.
    destruct secs as [|[l0 e0] secs]; [discriminate|].
    match type of E with Some ?a = _ => assert (Es : s0 = a) by congruence end. clear E. cbn -[last map] in Es. subst s0.
    destruct H as (S1 & S2 & _).
    assert (Le : snd (last ((l0, e0) :: secs) ([], 0)) = last (map x_end (x0 :: xs)) 0).
    { change (map x_end (x0 :: xs)) with (x_end x0 :: map x_end xs). rewrite <- P2. clear. generalize ((l0,e0) : Section_). induction secs as [|z secs IH]; intros y; [reflexivity|]. exact (IH z). }
    inversion P3 as [|? ? [N0 Q0] P4]; subst. cbn [fst] in N0, Q0.
    assert (D0 : 0 < hd 0 l0) by (destruct l0; [contradiction|]; inversion Q0; assumption).
    assert (Z0 : x_start x0 < last (map x_end (x0 :: xs)) 0).
    { pose proof (increasing_last _ _ 0 S2 ltac:(cbn; lia)) as Z1. pose proof (increasing_hd _ _ 0 S2 ltac:(cbn; lia)) as Z2. qclra. }
    match goal with |- context [@snd ?A ?B (last ?a ?b)] => replace (@snd A B (last a b)) with (last (map x_end (x0 :: xs)) 0) by (symmetry; exact Le) end. assert (P2' : map snd ((l0, e0) :: secs) = map x_end (x0 :: xs)) by exact P2. clear P2 Le.
    remember (last (map x_end (x0 :: xs)) 0) as LE eqn:HLE.
    split; [|unfold ends; cbn -[map]; repeat split; auto].
    + constructor; unfold ends, prevEnd; cbn -[last map increasing]; auto.
      * unfold posLists. cbn. apply (Forall_impl _ (fun _ z => proj2 z)) in P3. exact P3.
      * qclra.
      * change (increasing (x_start x0 :: map snd ((l0, e0) :: secs))). pose proof S2 as S2'. rewrite <- P2' in S2'. exact S2'.
      * right. rewrite HLE. f_equal. symmetry. exact P2'.
      * lia.
      * apply Qcle_refl.
      * intros _. assert (e0 = x_end x0) by (cbn in P2'; congruence). subst e0. apply S2.
      * qclra.
      * discriminate.
    + apply (Forall_impl _ (fun _ z => proj1 z)) in P3. exact P3.
    + discriminate.
Qed.
