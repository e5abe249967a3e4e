(** Proofs about the edits of the constraint equations of a patch. *)
From Coq Require Import List Sorted Permutation Arith ZArith QArith Qcanon Bool Lia.
From Verif Require Import Base MPC_model MPC_spec MPC_proofs MPC_proofs2 ASMbc_model ASMbc_spec ASMbc_proofs.
Import ListNotations.
Local Open Scope Z_scope.

Notation key x := (dkey (mslave (fst x))).

Lemma insertEq_set m c : forall l, setInsert true m (map fst l) = (fst (insertEq m c l), map fst (snd (insertEq m c l))).
Proof.
  induction l as [|x l IH]; cbn [map setInsert insertEq]; [reflexivity|].
  destruct (mpcLess true (Some (fst x)) (Some m)).
  - rewrite IH. destruct (insertEq m c l) as [b r]. reflexivity.
  - destruct (mpcLess true (Some m) (Some (fst x))); reflexivity.
Qed.
Lemma insertEq_in m c : forall l l' b, insertEq m c l = (b, l') ->
  if b then forall x, In x l' <-> x = (m, c) \/ In x l else l' = l.
Proof.
  induction l as [|x l IH]; intros l' b; cbn [insertEq].
  - intros [= <- <-]. intros x. cbn [In]. intuition.
  - destruct (mpcLess true (Some (fst x)) (Some m)).
    + destruct (insertEq m c l) as [b1 r1] eqn:E. intros [= <- <-]. specialize (IH _ _ eq_refl). destruct b1.
      * intros y. cbn [In]. rewrite IH. intuition.
      * congruence.
    + destruct (mpcLess true (Some m) (Some (fst x))); intros [= <- <-]; [|reflexivity]. intros y. cbn [In]. intuition.
Qed.
Lemma insertEq_spec m c l b l' : insertEq m c l = (b, l') -> increasing (mpcLess true) (map fst l) ->
  increasing (mpcLess true) (map fst l') /\
  (b = true <-> ~ In (dkey (mslave m)) (map (fun x => key x) l)).
Proof.
  intros E S. pose proof (insertEq_set m c l) as Q. rewrite E in Q. cbn [fst snd] in Q.
  destruct (setInsert_spec _ _ _ _ _ Q S) as (A & B & C). split; [exact A|]. split.
  - intros ->. destruct (B eq_refl) as [_ D]. intros I. apply in_map_iff in I. destruct I as (x & K & I).
    destruct (D (fst x)) as [D1|D1]; [apply in_map; exact I| |]; apply less_key in D1; congruence.
  - intros N. destruct b; [reflexivity|]. exfalso. destruct (C eq_refl) as [_ (x & Hx & D)]. apply mpcLess_equiv in D.
    apply in_map_iff in Hx. destruct Hx as (y & <- & Hy). apply N. rewrite <- D. apply (in_map (fun x => key x)). exact Hy.
Qed.
Lemma slaves_map l : slaves (map fst l) = map (fun x : eqn => key x) l.
Proof. unfold slaves. rewrite map_map. reflexivity. Qed.
Lemma slave_in p n d : Slave p n d <-> exists x, In x (pEQ p) /\ key x = (n, d).
Proof.
  unfold Slave, eqns. rewrite slaves_map, in_map_iff. split; intros (x & A & B); exists x; auto.
Qed.
Lemma isSlaveEq_spec n d x : isSlaveEq n d x = true <-> key x = (n, d).
Proof. unfold isSlaveEq, dkey. rewrite andb_true_iff, !Z.eqb_eq. split; [intros [-> ->]; reflexivity|intros [= -> ->]; auto]. Qed.

Lemma editEq_keys n d f : (forall m, mslave (f m) = mslave m) -> forall l, map (fun x => mslave (fst x)) (editEq n d f l) = map (fun x => mslave (fst x)) l.
Proof.
  intros Hf. induction l as [|x l IH]; cbn [editEq map]; [reflexivity|].
  destruct (isSlaveEq n d x); cbn [map]; [cbn [fst]; rewrite Hf; reflexivity|]. rewrite IH. reflexivity.
Qed.
Lemma editEq_in n d f : forall l, NoDup (map (fun x => key x) l) ->
  forall m c, In (m, c) (editEq n d f l) <-> (In (m, c) l /\ dkey (mslave m) <> (n, d)) \/ (exists m0, In (m0, c) l /\ dkey (mslave m0) = (n, d) /\ m = f m0).
Proof.
  induction l as [|x l IH]; intros N m c; cbn [editEq].
  - cbn. split; [tauto|]. intros [[[] _]|(m0 & [] & _)].
  - cbn [map] in N. inversion N as [|? ? N1 N2]; subst.
    assert (U : key x = (n, d) -> forall y, In y l -> key y <> (n, d)).
    { intros K y Hy Q. apply N1. rewrite K, <- Q. apply (in_map (fun x => key x)). exact Hy. }
    destruct (isSlaveEq n d x) eqn:E.
    + apply isSlaveEq_spec in E. cbn [In]. split.
      * intros [H|H].
        -- right. exists (fst x). destruct x as [m0 c0]. cbn in H. injection H as <- <-. cbn. auto.
        -- left. split; [right; exact H|]. apply (U E (m, c)). exact H.
      * intros [[[->|H] K]|(m0 & [->|H] & K & ->)].
        -- cbn in E. congruence.
        -- right; exact H.
        -- left; reflexivity.
        -- exfalso. eapply (U E (m0, c)); eauto.
    + assert (K : key x <> (n, d)) by (rewrite <- isSlaveEq_spec; congruence).
      cbn [In]. rewrite (IH N2). split.
      * intros [->|[(H & Q)|(m0 & H & Q)]].
        -- left. split; [left; reflexivity|exact K].
        -- left. split; [right; exact H|exact Q].
        -- right. exists m0. split; [right; exact H|exact Q].
      * intros [[[->|H] Q]|(m0 & [->|H] & Q & ->)].
        -- left; reflexivity.
        -- right; left; auto.
        -- cbn in K. congruence.
        -- right; right. exists m0. auto.
Qed.
Lemma sorted_slave : forall a b : list mpc, map mslave a = map mslave b -> increasing (mpcLess true) a -> increasing (mpcLess true) b.
Proof.
  unfold increasing. induction a as [|x a IH]; intros [|y b] E S; try discriminate E; [constructor|].
  cbn [map] in E. injection E as E1 E2. inversion S as [|? ? S1 S2]; subst. constructor; [apply IH; auto|].
  rewrite Forall_forall in *. intros z Hz. apply (in_map mslave) in Hz. rewrite <- E2 in Hz. apply in_map_iff in Hz. destruct Hz as (w & W1 & W2).
  rewrite <- (less_slave x y w z E1 W1). apply S2. exact W2.
Qed.
Lemma editEq_sorted n d f l : (forall m, mslave (f m) = mslave m) -> increasing (mpcLess true) (map fst l) -> increasing (mpcLess true) (map fst (editEq n d f l)).
Proof.
  intros Hf S. eapply sorted_slave; [|exact S]. rewrite !map_map. symmetry. apply editEq_keys. exact Hf.
Qed.
Lemma wf_nodup p : wf p -> NoDup (map (fun x => key x) (pEQ p)).
Proof. intros (_ & S). apply increasing_distinct in S. unfold eqns in S. rewrite slaves_map in S. exact S. Qed.
Lemma findMPC_some p n d : (exists x, findMPC p n d = Some x /\ In x (pEQ p) /\ key x = (n, d)) <-> Slave p n d.
Proof.
  rewrite slave_in. split.
  - intros (x & _ & I & K). exists x. auto.
  - intros (x & I & K). unfold findMPC. destruct (find (isSlaveEq n d) (pEQ p)) as [y|] eqn:E.
    + exists y. apply find_some in E. rewrite isSlaveEq_spec in E. intuition.
    + apply find_none with (x := x) in E; [|exact I]. apply isSlaveEq_spec in K. congruence.
Qed.
Lemma findMPC_none p n d : findMPC p n d = None -> ~ Slave p n d.
Proof. intros E H. apply findMPC_some in H. destruct H as (x & H & _). congruence. Qed.

(** ** addMPC without override *)
Lemma addMPC_spec p m code : wf p -> dldof (mslave m) < 10 ->
  let n := dnode (mslave m) in let d := dldof (mslave m) in
  exists p' stat live, addMPC p m code false = Some (p', stat, live) /\
  ((Fixed p n d /\ p' = p /\ stat = true /\ live = false) \/
   (~ Fixed p n d /\ ~ Slave p n d /\ stat = true /\ live = true /\ sameButEQ p p' /\ wf p' /\
      forall x, In x (pEQ p') <-> x = (m, codeOpt code) \/ In x (pEQ p)) \/
   (~ Fixed p n d /\ Slave p n d /\ stat = false /\ live = true /\ p' = p)).
Proof.
  intros W R n d. unfold addMPC. fold n d. cbn [negb]. rewrite andb_true_r.
  destruct (existsb (fixedBC n d) (pBC p)) eqn:E.
  - exists p, true, false. split; [reflexivity|]. left. apply existsb_fixed_any in E; auto.
  - assert (NF : ~ Fixed p n d).
    { intros H. pose proof H as (b & _ & _ & B). apply fixedIn_range in B. apply existsb_fixed in H; [congruence|lia]. }
    fold (codeOpt code). destruct (insertEq m (codeOpt code) (pEQ p)) as [new l] eqn:I. cbn [andb].
    destruct W as (W1 & W2). destruct (insertEq_spec _ _ _ _ _ I W2) as (S & N). pose proof (insertEq_in _ _ _ _ _ I) as J.
    destruct new.
    + do 3 eexists. split; [reflexivity|]. right; left. split; [exact NF|].
      assert (N' : ~ In (dkey (mslave m)) (map (fun x => key x) (pEQ p))) by (apply N; reflexivity).
      split; [|split; [reflexivity|split; [reflexivity|split; [|split]]]].
      * rewrite slave_in. intros (x & Hx & K). apply N'. change (dkey (mslave m)) with (n, d). rewrite <- K. apply (in_map (fun x => key x)). exact Hx.
      * unfold sameButEQ. cbn. auto.
      * split; cbn [pBC setEQ]; auto.
      * exact J.
    + assert (SL : Slave p n d).
      { rewrite slave_in. destruct (In_dec (fun a b : Z * Z => ltac:(decide equality; apply Z.eq_dec)) (n, d) (map (fun x => key x) (pEQ p))) as [Hi|Hi].
        - apply in_map_iff in Hi. destruct Hi as (x & K & Hx). exists x. auto.
        - apply N in Hi. discriminate Hi. }
      destruct (proj2 (findMPC_some p n d) SL) as (x & Q & _). rewrite Q.
      do 3 eexists. split; [reflexivity|]. right; right. auto.
Qed.

(** ** an insertion followed by an edit of the equation *)
Definition linkEq (p1 : patch) (live : bool) (s d : Z) (f : mpc -> mpc) : patch :=
  if live then setEQ p1 (editEq s d f (pEQ p1)) else p1.
Lemma link_spec p s d c0 code f : wf p -> d < 10 -> (forall m, mslave (f m) = mslave m) ->
  exists p1 stat live, addMPC p (newMPC s d c0) code false = Some (p1, stat, live) /\
  let q := linkEq p1 live s d f in
  wf q /\ sameButEQ p q /\ wf p1 /\ sameButEQ p p1 /\
  ((Fixed p s d /\ q = p /\ p1 = p /\ stat = true /\ live = false) \/
   (Fresh p s d /\ stat = true /\ live = true /\
      (forall m c, In (m, c) (pEQ q) <-> In (m, c) (pEQ p) \/ (m = f (newMPC s d c0) /\ c = codeOpt code))) \/
   (~ Fixed p s d /\ Slave p s d /\ stat = false /\ live = true /\ p1 = p /\
      (forall m c, In (m, c) (pEQ q) <-> (In (m, c) (pEQ p) /\ dkey (mslave m) <> (s, d)) \/ (exists m0, In (m0, c) (pEQ p) /\ dkey (mslave m0) = (s, d) /\ m = f m0)))).
Proof.
  intros W R Hf. destruct (addMPC_spec p (newMPC s d c0) code W R) as (p1 & stat & live & E & H).
  cbn [newMPC mslave dnode dldof] in H. exists p1, stat, live. split; [exact E|]. cbn zeta.
  assert (SQ : forall p1, wf p1 -> wf (setEQ p1 (editEq s d f (pEQ p1)))).
  { intros r (A & B). split; [exact A|]. unfold eqns. cbn [pEQ setEQ]. apply editEq_sorted; auto. }
  destruct H as [(A & -> & -> & ->)|[(A & B & -> & -> & C & D & H)|(A & B & -> & -> & ->)]]; unfold linkEq.
  - split; [exact W|]. split; [unfold sameButEQ; auto|]. split; [exact W|]. split; [unfold sameButEQ; auto|]. left. auto.
  - split; [apply SQ; exact D|]. split; [destruct C as (C1 & C2 & C3 & C4); unfold sameButEQ; cbn; auto|]. split; [exact D|]. split; [exact C|].
    right; left. split; [split; auto|]. split; [reflexivity|]. split; [reflexivity|]. intros m c. cbn [pEQ setEQ].
    rewrite editEq_in by (apply wf_nodup; exact D). split.
    + intros [(I & K)|(m0 & I & K & ->)].
      * left. apply H in I. destruct I as [I|I]; [|exact I]. injection I as -> _. exfalso. apply K. reflexivity.
      * apply H in I. destruct I as [I|I]; [injection I as -> ->; right; auto|]. exfalso. apply B. rewrite slave_in. exists (m0, c). auto.
    + intros [I|[-> ->]].
      * left. split; [apply H; right; exact I|]. intros K. apply B. rewrite slave_in. exists (m, c). auto.
      * right. exists (newMPC s d c0). split; [apply H; left; reflexivity|]. split; reflexivity.
  - split; [apply SQ; exact W|]. split; [unfold sameButEQ; cbn; auto|]. split; [exact W|]. split; [unfold sameButEQ; auto|].
    right; right. split; [exact A|]. split; [exact B|]. split; [reflexivity|]. split; [reflexivity|]. split; [reflexivity|].
    intros m c. cbn [pEQ setEQ]. apply editEq_in. apply wf_nodup. exact W.
Qed.

(** the effect on the solution space *)
Lemma satisfies_in u l : satisfies u (map fst l) <-> forall (m : mpc) (c : option Z), In (m, c) l -> holds u m.
Proof.
  unfold satisfies. rewrite Forall_forall. split.
  - intros H m c I. apply H. apply (in_map fst) in I. exact I.
  - intros H m I. apply in_map_iff in I. destruct I as ([m0 c] & <- & I). eapply H. exact I.
Qed.
Lemma fixed_same p q n d : sameButEQ p q -> (Fixed q n d <-> Fixed p n d).
Proof. intros (_ & _ & _ & E). unfold Fixed. rewrite E. reflexivity. Qed.
Lemma admissible_new u p q m c : sameButEQ p q -> (forall m' c', In (m', c') (pEQ q) <-> In (m', c') (pEQ p) \/ (m' = m /\ c' = c)) ->
  (admissible u q <-> admissible u p /\ holds u m).
Proof.
  intros S H. unfold admissible, eqns. rewrite !satisfies_in. split.
  - intros (A & B). split; [split|].
    + intros n d F. apply A. apply (fixed_same p q); auto.
    + intros m' c' I. apply (B m' c'). apply H. left; exact I.
    + apply (B m c). apply H. right; auto.
  - intros ((A & B) & C). split.
    + intros n d F. apply A. apply (fixed_same p q) in F; auto.
    + intros m' c' I. apply H in I. destruct I as [I|[-> ->]]; [eapply B; exact I|exact C].
Qed.
Lemma addM_slave n d c m : mslave (addM n d c m) = mslave m.
Proof. apply addMaster_slave. Qed.
Definition cut (c : Qc) : Qc := if negligible zeroTol c then 0%Qc else c.
Lemma addM_rhs u n d c m : rhs u (addM n d c m) = (rhs u m + cut c * u (n, d))%Qc.
Proof. unfold addM. rewrite addMaster_form. cbn [dcoef]. unfold cut. destruct (negligible zeroTol c); [ring|]. reflexivity. Qed.
Lemma cut_one : cut 1%Qc = 1%Qc.
Proof. reflexivity. Qed.
Lemma newMPC_rhs u n d c : rhs u (newMPC n d c) = c.
Proof. unfold rhs, newMPC. cbn. ring. Qed.
Lemma newMPC_holds u n d c m : mslave m = mslave (newMPC n d c) -> (holds u m <-> u (n, d) = rhs u m).
Proof. intros E. unfold holds. rewrite E. reflexivity. Qed.
