(** Heap lemmas, and the invariant of the system matrices under all operations. *)
From Coq Require Import List Arith ZArith QArith Qcanon Bool Lia Permutation.
From Verif Require Import Base SAM_model SAM_spec SAM_proofs SAM_proofs2 SAM_proofs3 SAM_proofs4 Sparse_model Sparse_spec Sparse_proofs Sparse_proofs2 Sparse_proofs3 Sparse_proofs4 Sparse_proofs5 Sparse_proofs6 Sparse_proofs8 AlgEq_model AlgEq_spec.
Import ListNotations.
Local Open Scope nat_scope.

(** ** Heap *)
Definition own {X} (l : list (option X)) (ps : list nat) : Prop := NoDup ps /\ forall p, In p ps <-> live l p.
Definition allv {X} (P : X -> Prop) (l : list (option X)) : Prop := forall p x, nth_error l p = Some (Some x) -> P x.
(** [l'] agrees with [l] on the addresses [ps] *)
Definition same {X} (ps : list nat) (l l' : list (option X)) : Prop := forall p, In p ps -> nth_error l' p = nth_error l p.

Lemma nth_upd_e {X} (k j : nat) (x : X) l : nth_error (upd k x l) j = if (j =? k) && (k <? length l) then Some x else nth_error l j.
Proof.
  revert k j; induction l as [|y l IH]; intros k j; destruct k as [|k], j as [|j]; cbn [upd nth_error length]; try rewrite andb_false_r; try reflexivity.
  rewrite IH. reflexivity.
Qed.
Lemma live_lt {X} (l : list (option X)) p : live l p -> p < length l.
Proof. intros (x & H). apply nth_error_Some. congruence. Qed.
Lemma getp_live {X} (l : list (option X)) p : live l p -> exists x, getp l (Some p) = Some x /\ nth_error l p = Some (Some x).
Proof. intros (x & H). exists x. cbn. rewrite H. auto. Qed.
Lemma getp_some {X} (l : list (option X)) p x : getp l (Some p) = Some x <-> nth_error l p = Some (Some x).
Proof. cbn. destruct (nth_error l p) as [[u|]|]; split; congruence. Qed.
Lemma own_perm {X} (l : list (option X)) ps qs : Permutation ps qs -> own l ps -> own l qs.
Proof.
  intros P [N H]. split; [eapply Permutation_NoDup; eauto|]. intros p. rewrite <- H. split; apply Permutation_in; [apply Permutation_sym|]; exact P.
Qed.
Lemma setp_live {X} (l : list (option X)) p x q : live l p -> (live (setp l (Some p) x) q <-> live l q).
Proof.
  intros Hp. pose proof (live_lt l p Hp) as L. unfold live, setp. setoid_rewrite nth_upd_e. apply Nat.ltb_lt in L. rewrite L, andb_true_r.
  destruct (q =? p) eqn:E; [|reflexivity]. apply Nat.eqb_eq in E. subst. split; intros _; [exact Hp|eauto].
Qed.
Lemma setp_get {X} (l : list (option X)) p x q : live l p -> nth_error (setp l (Some p) x) q = if q =? p then Some (Some x) else nth_error l q.
Proof. intros Hp. apply live_lt, Nat.ltb_lt in Hp. unfold setp. rewrite nth_upd_e, Hp, andb_true_r. reflexivity. Qed.
Lemma setp_own {X} (l : list (option X)) p x ps : own l ps -> live l p -> own (setp l (Some p) x) ps.
Proof. intros [N H] Hp. split; [exact N|]. intros q. rewrite setp_live by exact Hp. apply H. Qed.
Lemma setp_allv {X} (P : X -> Prop) l p x : live l p -> allv P l -> P x -> allv P (setp l (Some p) x).
Proof. intros Hp H Hx q u. rewrite setp_get by exact Hp. destruct (q =? p); [intros [= <-]; exact Hx|apply H]. Qed.
Lemma setp_same {X} (l : list (option X)) p x ps : live l p -> ~ In p ps -> same ps l (setp l (Some p) x).
Proof. intros Hp Hn q Hq. rewrite setp_get by exact Hp. destruct (q =? p) eqn:E; [apply Nat.eqb_eq in E; subst; contradiction|reflexivity]. Qed.
Lemma same_refl {X} ps (l : list (option X)) : same ps l l. Proof. intros p _. reflexivity. Qed.
Lemma same_trans {X} ps (l l1 l2 : list (option X)) : same ps l l1 -> same ps l1 l2 -> same ps l l2.
Proof. intros H1 H2 p Hp. rewrite H2, H1; auto. Qed.
Lemma same_incl {X} ps qs (l l1 : list (option X)) : (forall p, In p ps -> In p qs) -> same qs l l1 -> same ps l l1.
Proof. intros H H1 p Hp. apply H1, H, Hp. Qed.

Lemma freeAll_own {X} (qs : list nat) : forall (l : list (option X)) ps, own l (qs ++ ps) ->
  exists l', freeAll (map Some qs) l = Some l' /\ own l' ps /\ same ps l l' /\ forall p, nth_error l' p = if existsb (Nat.eqb p) qs then Some None else nth_error l p.
Proof.
  induction qs as [|q qs IH]; intros l ps Ho; cbn [map freeAll].
  - exists l. split; [reflexivity|]. split; [exact Ho|]. split; [apply same_refl|reflexivity].
  - destruct Ho as [N H]. cbn [app] in *. pose proof (proj1 (H q) (or_introl eq_refl)) as Hq. destruct Hq as (x & Hx). rewrite Hx.
    assert (Lt : q < length l) by (apply nth_error_Some; congruence). inversion N as [|? ? Nq N']; subst.
    assert (E : forall p, nth_error (upd q None l) p = if p =? q then Some None else nth_error l p).
    { intros p. rewrite nth_upd_e. apply Nat.ltb_lt in Lt. rewrite Lt, andb_true_r. reflexivity. }
    destruct (IH (upd q None l) ps) as (l' & E1 & O1 & S1 & F1).
    { split; [exact N'|]. intros p. unfold live. setoid_rewrite E. destruct (p =? q) eqn:Ep.
      - apply Nat.eqb_eq in Ep. subst. split; [contradiction|]. intros (z & [=]).
      - apply Nat.eqb_neq in Ep. fold (live l p). rewrite <- H. cbn. split; [auto|]. intros [->|]; [contradiction|auto]. }
    exists l'. split; [exact E1|]. split; [exact O1|]. split.
    + eapply same_trans; [|exact S1]. intros p Hp. rewrite E. destruct (p =? q) eqn:Ep; [|reflexivity]. apply Nat.eqb_eq in Ep. subst. exfalso. apply Nq, in_or_app. auto.
    + intros p. rewrite F1, E. cbn [existsb]. destruct (p =? q), (existsb _ qs); reflexivity.
Qed.
Lemma freeAll_allv {X} (P : X -> Prop) qs (l l' : list (option X)) : (forall p, nth_error l' p = if existsb (Nat.eqb p) qs then Some None else nth_error l p) -> allv P l -> allv P l'.
Proof. intros F H p x. rewrite F. destruct (existsb _ qs); [discriminate|apply H]. Qed.

Lemma alloc_own {X} (l : list (option X)) x ps : own l ps -> own (l ++ [Some x]) (length l :: ps).
Proof.
  intros [N H]. assert (Nl : ~ In (length l) ps). { intros Hi. apply H, live_lt in Hi. lia. }
  split; [constructor; auto|]. intros p. cbn [In]. rewrite H. unfold live. split.
  - intros [<-|(z & Hz)]; [exists x; rewrite nth_error_app2, Nat.sub_diag by lia; reflexivity|].
    exists z. rewrite nth_error_app1; [exact Hz|]. apply nth_error_Some. congruence.
  - intros (z & Hz). destruct (Nat.lt_ge_cases p (length l)).
    + right. exists z. rewrite nth_error_app1 in Hz by auto. exact Hz.
    + left. rewrite nth_error_app2 in Hz by auto. destruct (p - length l) as [|k] eqn:E; [lia|]. destruct k; discriminate Hz.
Qed.
Lemma alloc_same {X} (l : list (option X)) x ps : own l ps -> same ps l (l ++ [Some x]).
Proof. intros [N H] p Hp. apply H, live_lt in Hp. apply nth_error_app1. exact Hp. Qed.
Lemma alloc_allv {X} (P : X -> Prop) l x : allv P l -> P x -> allv P (l ++ [Some x]).
Proof.
  intros H Hx p z Hz. destruct (Nat.lt_ge_cases p (length l)); [rewrite nth_error_app1 in Hz by auto; eapply H; eauto|].
  rewrite nth_error_app2 in Hz by auto. destruct (p - length l) as [|k]; [injection Hz as <-; exact Hx|destruct k; discriminate Hz].
Qed.

Lemma copyAll_own {X} (qs : list nat) : forall (l : list (option X)) ps, own l ps -> (forall q, In q qs -> In q ps) ->
  exists news l', copyAll (map Some qs) l = Some (map Some news, l') /\ own l' (news ++ ps) /\ same ps l l' /\ length news = length qs /\
    (forall P : X -> Prop, allv P l -> allv P l') /\
    (forall k q, nth_error qs k = Some q -> exists p, nth_error news k = Some p /\ nth_error l' p = nth_error l q).
Proof.
  induction qs as [|q qs IH]; intros l ps Ho Hi; cbn [map copyAll].
  - exists [], l. split; [reflexivity|]. split; [exact Ho|]. split; [apply same_refl|]. split; [reflexivity|]. split; [auto|]. intros [|k] q; discriminate.
  - pose proof (proj1 (proj2 Ho q) (Hi q (or_introl eq_refl))) as Hq. destruct (getp_live l q Hq) as (x & Gx & Ex). rewrite Gx.
    destruct (IH (l ++ [Some x]) (length l :: ps) (alloc_own l x ps Ho)) as (news & l' & E & O & S1 & L & V & C).
    { intros z Hz. right. apply Hi. right. exact Hz. }
    rewrite E. exists (length l :: news), l'. split; [reflexivity|]. split.
    { eapply own_perm; [|exact O]. apply Permutation_sym, Permutation_middle. }
    assert (S2 : same ps l l'). { eapply same_trans; [apply (alloc_same l x ps Ho)|]. eapply same_incl; [|exact S1]. intros; right; auto. }
    split; [exact S2|]. split; [cbn; lia|]. split.
    + intros P HP. apply V, alloc_allv; [exact HP|]. eapply HP. exact Ex.
    + intros [|k] z Hz; cbn in *.
      * injection Hz as <-. exists (length l). split; [reflexivity|]. rewrite S1 by (left; reflexivity). rewrite nth_error_app2, Nat.sub_diag by lia. cbn. symmetry. exact Ex.
      * destruct (C k z Hz) as (p & Hp & Hv). exists p. split; [exact Hp|]. rewrite Hv. apply (alloc_same l x ps Ho). apply Hi. right. eapply nth_error_In. exact Hz.
Qed.

Lemma mapAll_own {X} (f : X -> X) (qs : list nat) : forall (l : list (option X)) ps, own l ps -> NoDup qs -> (forall q, In q qs -> In q ps) ->
  exists l', mapAll f (map Some qs) l = Some l' /\ own l' ps /\
    (forall p, nth_error l' p = if existsb (Nat.eqb p) qs then option_map (option_map f) (nth_error l p) else nth_error l p).
Proof.
  induction qs as [|q qs IH]; intros l ps Ho Nd Hi; cbn [map mapAll].
  - exists l. repeat split; auto; try apply Ho.
  - pose proof (proj1 (proj2 Ho q) (Hi q (or_introl eq_refl))) as Hq. destruct (getp_live l q Hq) as (x & Gx & Ex). rewrite Gx. inversion Nd as [|? ? Nq N']; subst.
    destruct (IH (setp l (Some q) (f x)) ps (setp_own l q (f x) ps Ho Hq) N') as (l' & E & O & F). { intros z Hz. apply Hi. right. exact Hz. }
    exists l'. split; [exact E|]. split; [exact O|]. intros p. rewrite F, setp_get by exact Hq. cbn [existsb]. destruct (p =? q) eqn:Ep; [|reflexivity].
    apply Nat.eqb_eq in Ep. subst p. cbn [orb]. assert (Ex' : existsb (Nat.eqb q) qs = false).
    { apply not_true_is_false. intros Hx. apply existsb_exists in Hx. destruct Hx as (z & Hz & Ez). apply Nat.eqb_eq in Ez. subst. contradiction. }
    rewrite Ex', Ex. reflexivity.
Qed.
Lemma mapAll_allv {X} (P : X -> Prop) (f : X -> X) qs l l' : (forall p : nat, nth_error l' p = if existsb (Nat.eqb p) qs then option_map (option_map f) (nth_error l p) else nth_error l p) ->
  (forall x, P x -> P (f x)) -> allv P l -> allv P l'.
Proof.
  intros F Hf H p x. rewrite F. destruct (existsb _ qs); [|apply H]. destruct (nth_error l p) as [[z|]|] eqn:E; cbn; try discriminate.
  intros [= <-]. apply Hf. eapply H. exact E.
Qed.
Lemma mapAll_same {X} (f : X -> X) qs ps (l l' : list (option X)) : (forall p : nat, nth_error l' p = if existsb (Nat.eqb p) qs then option_map (option_map f) (nth_error l p) else nth_error l p) ->
  (forall p, In p ps -> ~ In p qs) -> same ps l l'.
Proof.
  intros F H p Hp. rewrite F. destruct (existsb (Nat.eqb p) qs) eqn:E; [|reflexivity]. exfalso. apply existsb_exists in E. destruct E as (z & Hz & Ez).
  apply Nat.eqb_eq in Ez. subst. eapply H; eauto.
Qed.

(** ** Matrices *)
Lemma orFlags_length : forall z u, length (orFlags z u) = length z.
Proof. induction z as [|a z IH]; intros [|v u]; cbn; auto. Qed.
Lemma flagFrom_length u z : length (flagFrom u z) = length z.
Proof. unfold flagFrom. destruct (length z =? 1) eqn:E; [apply Nat.eqb_eq in E; rewrite E; reflexivity|apply orFlags_length]. Qed.

Lemma segEnts_keys n ptr idx a a' : map fst (segEnts n ptr idx a) = map fst (segEnts n ptr idx a').
Proof.
  unfold segEnts. induction (seq 0 n) as [|k r IH]; [reflexivity|]. cbn [flat_map]. rewrite !map_app, IH. f_equal. rewrite !map_map. reflexivity.
Qed.
Lemma stored_setA_keys M a : map fst (stored (setA M a)) = map fst (stored M).
Proof.
  unfold stored. cbn [setA st slv]. destruct (st M); cbn [setA elem]; auto.
  destruct (colFmt (slv M)); unfold colStored, rowStored; cbn [setA ncol nrow IA JA Sparse_model.A]; rewrite !map_map; cbn [fst].
  - pose proof (segEnts_keys (ncol M) (fun k => nth k (IA M) 0) (JA M) a (Sparse_model.A M)) as E. apply (f_equal (map (fun k => (snd k + 1, fst k + 1)))) in E. rewrite !map_map in E. exact E.
  - pose proof (segEnts_keys (nrow M) (fun k => nth k (IA M) 0 - 1) (JA M) a (Sparse_model.A M)) as E. apply (f_equal (map (fun k => (fst k + 1, snd k)))) in E. rewrite !map_map in E. exact E.
Qed.

Lemma add_ready s sl B M : consistent s -> ready s sl M -> ready s sl B -> exists k M', add B 1%Qc M = Some (k, M') /\ ready s sl M'.
Proof.
  intros C RM RB. pose proof RM as (W & Sl & Rw & Cl & Cov & Ln). pose proof RB as (WB & SlB & RwB & ClB & CovB & LnB).
  assert (Hf : colFmt (slv M) = colFmt (slv B)) by congruence.
  destruct (add B 1%Qc M) as [[k M']|] eqn:E; [|exfalso; exact (add_total B 1%Qc M W WB Hf E)]. exists k, M'. split; [reflexivity|].
  pose proof (add_wf B 1%Qc M k M' W WB Hf E) as W'. unfold add in E. destruct (isZero B); [injection E as _ <-; exact RM|].
  destruct (_ || _); [injection E as _ <-; exact RM|]. destruct (st M) eqn:Hst.
  - assert (G : forall l, M' = setNz (setElem M l) (flagFrom (nz B) (nz M)) -> ready s sl M').
    { intros l ->. split; [exact W'|]. split; [exact Sl|]. split; [exact Rw|]. split; [exact Cl|]. split; [|cbn [setNz nz]; rewrite flagFrom_length; exact Ln].
      intros r c Hc. destruct (Cov r c Hc) as (Q1 & Q2 & _). split; [exact Q1|]. split; [exact Q2|]. left. exact Hst. }
    destruct (editable B); [injection E as _ E; eapply G; symmetry; exact E|].
    destruct (if colFmt (slv M) then _ else _) as [l|]; [|discriminate E]. injection E as _ E. eapply G; symmetry; exact E.
  - destruct (editable B); injection E as _ <-; exact RM.
  - destruct (editable B); [injection E as _ <-; exact RM|]. destruct (_ && _ && _); [|injection E as _ <-; exact RM]. injection E as _ <-.
    split; [exact W'|]. split; [exact Sl|]. split; [exact Rw|]. split; [exact Cl|]. split; [|cbn [setNz nz]; rewrite flagFrom_length; exact Ln].
    intros r c Hc. destruct (Cov r c Hc) as (Q1 & Q2 & [Q3|Q3]); [congruence|]. split; [exact Q1|]. split; [exact Q2|]. right.
    apply inPattern_keys in Q3. apply inPattern_keys. change (stored (setNz ?a _)) with (stored a). rewrite stored_setA_keys. exact Q3.
Qed.
Lemma create_ready s sl mode : consistent s -> mode <> Some false \/ colFmt sl = true ->
  exists M, initAssembly s mode (create 0 0 sl) = Some M /\ ready s sl M /\ nz M = [false] /\ forall r c, val (stored M) r c = 0%Qc.
Proof.
  intros C Hm. destruct (initAssembly_spec s mode (create 0 0 sl) (create_wf 0 0 sl) C) as (M' & E & W & R & Cc & Sl & N & V & Cov & _ & _).
  exists M'. split; [exact E|]. split; [|split; [rewrite N; reflexivity|exact V]]. split; [exact W|]. split; [exact Sl|]. split; [exact R|]. split; [exact Cc|].
  split; [|left; rewrite N; reflexivity]. apply Cov; [left; reflexivity|exact Hm].
Qed.
Lemma resize_ready s sl M : ready s sl M -> ready s sl (resize (nrow M) (ncol M) false M).
Proof.
  intros (W & Sl & Rw & Cl & Cov & Ln). assert (Sq : nrow M = ncol M) by congruence.
  destruct (resize_same M W _ eq_refl) as (W1 & Sl1 & R1 & C1 & N1 & V1 & Wr1). specialize (C1 Sq). specialize (Wr1 Sq).
  split; [exact W1|]. split; [congruence|]. split; [congruence|]. split; [congruence|]. split; [|rewrite N1; exact Ln]. intros r c Hc. apply Wr1, Cov, Hc.
Qed.
Lemma initFlags_ready s sl M : ready s sl M -> ready s sl (initFlags M).
Proof.
  intros (W & Sl & Rw & Cl & Cov & Ln). split; [apply wf_setNz, W|]. split; [exact Sl|]. split; [exact Rw|]. split; [exact Cl|]. split; [exact Cov|].
  right. cbn [initFlags setNz nz]. rewrite repeat_length. exact Rw.
Qed.
Lemma assembleElm_ready s sl K meen M : consistent s -> ready s sl M -> eqsOK s meen -> exists M', assembleElm s K meen M = Some (true, M') /\ ready s sl M'.
Proof.
  intros C (W & Sl & Rw & Cl & Cov & Ln) Eq. assert (Fl : flagsOK s M) by (unfold flagsOK; tauto).
  destruct (assembleElm_spec s K meen M W C Eq Fl Rw Cl) as (M1 & E1 & W1 & S1 & R1 & C1 & L1 & N1 & O1 & F1 & T1 & V1 & U1).
  exists M1. split; [exact E1|]. split; [exact W1|]. split; [congruence|]. split; [congruence|]. split; [congruence|]. split; [intros r c Hc; apply T1, Cov, Hc|].
  rewrite N1. exact Ln.
Qed.
Lemma endAssembly_ready s sl sg M : ready s sl M -> exists M', endAssembly sg M = Some (true, M') /\ ready s sl M'.
Proof.
  intros (W & Sl & Rw & Cl & Cov & Ln). destruct (endAssembly_any sg M W) as (M' & E & W' & S' & R & Cc & Sl' & N & Wr & _); [rewrite Rw; tauto|].
  exists M'. split; [exact E|]. split; [exact W'|]. split; [congruence|]. split; [congruence|]. split; [congruence|]. split; [intros r c Hc; apply Wr, Cov, Hc|].
  rewrite N. exact Ln.
Qed.
Lemma elmEqnsN_ok s iel n meen : consistent s -> getElmEqnsN s iel n = Some meen -> eqsOK s meen.
Proof.
  intros C H. unfold getElmEqnsN in H. destruct (elmNodes s iel) as [nodes|] eqn:E; [|discriminate]. destruct nodes as [|z r].
  - injection H as <-. intros m [].
  - destruct (_ || _); [|discriminate]. injection H as <-. eapply getElmEqns_range; [exact C|]. unfold getElmEqns. rewrite E. reflexivity.
Qed.
