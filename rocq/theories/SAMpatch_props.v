(** C16-C19, C37: tables built from patches. *)
From Coq Require Import List Sorted Permutation Arith ZArith QArith Qcanon Bool Lia.
From Verif Require Import Base SAM_model SAM_spec SAM_proofs SAM_proofs2 SAM_proofs3 MPC_model MPC_spec SAMpatch_model SAMpatch_spec SAMpatch_proofs SAMpatch_proofs2 SAMpatch_proofs3 SAMpatch_proofs4 SAMpatch_proofs5 SAMpatch_proofs6.
Import ListNotations.
Local Open Scope Z_scope.

(** ** C18: the node DOF table *)
Theorem C18_node_dofs nn ps : (1 <= nn)%nat -> (forall n nd, hasNode ps n nd -> (0 < nd)%nat) -> bcOK nn ps ->
  exists ok md sc, initNodeDofs nn ps = Some (ok, md, sc) /\
    (* accepted iff patches sharing a node agree on its number of DOFs *)
    (ok = true <-> forall n nd nd', hasNode ps n nd -> hasNode ps n nd' -> 1 <= n <= Z.of_nat nn -> nd = nd') /\
    (* DOFs 1..length sc are distributed consecutively over the nodes 1..nn *)
    length md = S nn /\ nth 0 md 0%nat = 1%nat /\ nth nn md 0%nat = S (length sc) /\
    (ok = true -> forall n, (1 <= n <= nn)%nat ->
       (forall nd, hasNode ps (Z.of_nat n) nd -> nth n md 0%nat = (nth (n-1) md 0 + nd)%nat) /\
       ((forall nd, ~ hasNode ps (Z.of_nat n) nd) -> nth n md 0%nat = nth (n-1)%nat md 0%nat)) /\
    (* status of local DOF l of node n: 0 if some patch fixes it, else 1 *)
    (forall n l, (1 <= n <= nn)%nat -> (1 <= l)%nat -> (nth (n-1) md 0 + l <= nth n md 0)%nat ->
       (fixedIn ps (Z.of_nat n) l -> nth_error sc (nth (n-1) md 0 + l - 2)%nat = Some 0) /\
       (~ fixedIn ps (Z.of_nat n) l -> nth_error sc (nth (n-1) md 0 + l - 2)%nat = Some 1)).
Proof.
  intros Hnn Hpos Hbc. destruct (initNodeDofs_spec nn ps Hnn Hpos Hbc) as (ok & md & sc & c & E & L & M0 & MS & ME & F & Hc & Hok & Hfix).
  exists ok, md, sc. split; [exact E|]. split; [|split; [exact L|split; [exact M0|split; [exact ME|split]]]].
  - rewrite Hok. split.
    + intros H n nd nd' H1 H2 R. rewrite (H n nd H1 R), (H n nd' H2 R). reflexivity.
    + intros H n nd H1 R. destruct (Hc (Z.to_nat n) ltac:(lia)) as [[_ Q]|Q]; rewrite Z2Nat.id in Q by lia; [exfalso; apply Q; eauto|]. exact (H n nd _ H1 Q R).
  - intros Eok n Hn. rewrite Hok in Eok. pose proof (MS (n-1)%nat ltac:(lia)) as Q. replace (S (n-1)) with n in Q by lia. split.
    + intros nd Hnd. rewrite Q. f_equal. rewrite (Eok _ _ Hnd) by lia. rewrite Nat2Z.id. reflexivity.
    + intros Hno. rewrite Q. destruct (Hc n Hn) as [[-> _]|R]; [lia|]. exfalso. exact (Hno _ R).
  - intros n l Hn Hl Hr. pose proof (MS (n-1)%nat ltac:(lia)) as Q. replace (S (n-1)) with n in Q by lia. assert (Hl' : (1 <= l <= c n)%nat) by lia.
    assert (B : (nth (n-1) md 0 + l - 2 < length sc)%nat).
    { assert (G : forall i, (i <= nn - n)%nat -> (nth n md 0 <= nth (n + i) md 0)%nat) by (induction i as [|i IH]; intros Hi; [rewrite Nat.add_0_r; lia|]; rewrite Nat.add_succ_r; rewrite (MS (n+i)%nat) by lia; specialize (IH ltac:(lia)); lia).
      specialize (G (nn - n)%nat ltac:(lia)). replace (n + (nn - n))%nat with nn in G by lia. assert (1 <= nth (n-1) md 0)%nat.
      { assert (G2 : forall i, (i <= nn)%nat -> (1 <= nth i md 0)%nat) by (induction i as [|i IH]; intros Hi; [rewrite M0; lia|]; rewrite (MS i) by lia; specialize (IH ltac:(lia)); lia). apply G2. lia. }
      lia. }
    destruct (Hfix n l Hn Hl') as [A1 A2]. split; intros H; rewrite (nth_error_nth' _ 0) by exact B; f_equal.
    + rewrite (nth_indep _ 0 1) by exact B. apply A1. exact H.
    + apply A2. exact H.
Qed.
Print Assumptions C18_node_dofs.

Definition bc0 (n : Z) := mkBC n [0; 1; 1; 1; 1; 1].
(** two patches sharing nodes 2 and 3; x-displacement fixed at node 1 by the first and at 3 by the second *)
Definition exA := mkP [1; 2; 3] [2; 2; 2]%nat [1] [[0; 1; 2]] [bc0 1] [].
Definition exB := mkP [3; 4; 2] [2; 2; 2]%nat [2] [[0; 1]] [bc0 3] [].
Example C18_case : initNodeDofs 4 [exA; exB] = Some (true, [1; 3; 5; 7; 9]%nat, [0; 1; 1; 1; 0; 1; 1; 1]).
Proof. reflexivity. Qed.
(** a different number of DOFs in a shared node is rejected *)
Example C18_conflict_case : exists md sc, initNodeDofs 4 [exA; mkP [3; 4] [2; 1]%nat [2] [[0; 1]] [] []; mkP [4] [2]%nat [] [] [] []] = Some (false, md, sc).
Proof. eexists. eexists. reflexivity. Qed.
(** boundary conditions of nodes with more than 6 DOFs reach the first 6 only *)
Example C18_seventh_case : initNodeDofs 1 [mkP [1] [7]%nat [] [] [mkBC 1 [0;0;0;0;0;0]] []] = Some (true, [1; 8]%nat, [0;0;0;0;0;0;1]).
Proof. reflexivity. Qed.
(** a boundary condition for a node number outside 1..nn is used as array index unchecked: undefined *)
Theorem C18_foreign_bc_refuted : ~ forall nn ps, (1 <= nn)%nat -> (forall n nd, hasNode ps n nd -> (0 < nd)%nat) -> initNodeDofs nn ps <> None.
Proof.
  intros H. apply (H 1%nat [mkP [1] [1]%nat [] [] [bc0 2] []]); [lia| |reflexivity].
  intros n nd (p & j & [<-|[]] & H1 & H2). destruct j as [|j]; [cbn in H2; lia|destruct j; discriminate].
Qed.
Print Assumptions C18_foreign_bc_refuted.

(** ** C19: element connectivity by external element number *)
Theorem C19_connectivity junk ps : elmsOK ps -> NoDup (extIds ps) ->
  exists pn mn, initElementConn junk (list_sum (map noElms ps)) ps = Some (true, pn, mn) /\
    Z.of_nat (pred (length pn)) = fold_right Z.max 0 (extIds ps) /\
    (forall e ns, hasElm ps (Z.of_nat e) ns -> connOf pn mn e = ns) /\
    (forall e, ~ In (Z.of_nat e) (extIds ps) -> connOf pn mn e = []) /\
    (forall i, (S i < length pn)%nat -> (1 <= nth i pn 0 <= nth (S i) pn 0 /\ nth (S i) pn 0 <= S (length mn))%nat).
Proof. intros H. apply (initElementConn_spec junk ps H). Qed.
Print Assumptions C19_connectivity.
Theorem C19_duplicate_rejected junk ps : elmsOK ps -> ~ NoDup (extIds ps) -> exists pn mn, initElementConn junk (list_sum (map noElms ps)) ps = Some (false, pn, mn).
Proof. intros H. apply (initElementConn_spec junk ps H). Qed.
Print Assumptions C19_duplicate_rejected.
(** every element with a non-zero number is in the table *)
Theorem C19_order junk ps ps' : elmsOK ps -> NoDup (extIds ps) -> Permutation ps ps' ->
  exists pn mn pn' mn', initElementConn junk (list_sum (map noElms ps)) ps = Some (true, pn, mn) /\ initElementConn junk (list_sum (map noElms ps')) ps' = Some (true, pn', mn') /\
    length pn = length pn' /\ forall e, connOf pn mn e = connOf pn' mn' e.
Proof.
  intros H N P. assert (H' : elmsOK ps') by (intros p Hp; apply H; apply (Permutation_in p (Permutation_sym P)); exact Hp).
  assert (PI : Permutation (extIds ps) (extIds ps')).
  { unfold extIds. apply Permutation_map. assert (G : Permutation (flat_map pMLGE ps) (flat_map pMLGE ps')) by (apply Permutation_flat_map; exact P).
    revert G. generalize (flat_map pMLGE ps), (flat_map pMLGE ps'). intros a b G. induction G; cbn; [constructor|destruct (negb (x =? 0)); [constructor; assumption|assumption]|destruct (negb (x =? 0)), (negb (y =? 0)); try apply Permutation_refl; apply perm_swap|eapply Permutation_trans; eassumption]. }
  assert (N' : NoDup (extIds ps')) by (eapply Permutation_NoDup; eassumption).
  destruct (C19_connectivity junk ps H N) as (pn & mn & E & L & C1 & C2 & _). destruct (C19_connectivity junk ps' H' N') as (pn' & mn' & E' & L' & C1' & C2' & _).
  exists pn, mn, pn', mn'. split; [exact E|]. split; [exact E'|].
  assert (MX : fold_right Z.max 0 (extIds ps) = fold_right Z.max 0 (extIds ps')) by (clear -PI; induction PI; cbn; lia).
  assert (LN : forall (a b : list nat) (x : Z), Z.of_nat (pred (length a)) = x -> Z.of_nat (pred (length b)) = x -> (1 <= length a)%nat -> (1 <= length b)%nat -> length a = length b) by (intros; lia).
  assert (L1 : forall j q pp a b, elmsOK pp -> initElementConn j q pp = Some (true, a, b) -> q = list_sum (map noElms pp) -> q = 0%nat -> a = []) by (intros j q pp a b _ E0 _ ->; cbn in E0; congruence).
  split.
  - destruct (Nat.eq_dec (length (extIds ps)) 0) as [Z0|Z0].
    + assert (Z1 : length (extIds ps') = 0%nat) by (rewrite <- (Permutation_length PI); exact Z0).
      rewrite (L1 _ _ _ _ _ H E eq_refl) by (rewrite noElms_sum; exact Z0). rewrite (L1 _ _ _ _ _ H' E' eq_refl) by (rewrite noElms_sum; exact Z1). reflexivity.
    + assert (1 <= fold_right Z.max 0 (extIds ps)).
      { destruct (extIds ps) as [|x l] eqn:Ex; [cbn in Z0; lia|]. assert (1 <= x) by (apply (extIds_pos ps); rewrite Ex; left; reflexivity). cbn [fold_right]. lia. }
      rewrite <- MX in L'. lia.
  - intros e. destruct (in_dec Z.eq_dec (Z.of_nat e) (extIds ps)) as [I|I].
    + assert (HE : exists ns, hasElm ps (Z.of_nat e) ns).
      { rewrite <- (allElms_ids ps H) in I. apply in_map_iff in I. destruct I as ([e0 ns] & Q & I). cbn in Q. subst e0. exists ns. apply allElms_in; assumption. }
      destruct HE as (ns & HE). rewrite (C1 e ns HE). symmetry. apply C1'. destruct HE as (p & i & id & el & Hp & R). exists p, i, id, el. split; [apply (Permutation_in p P); exact Hp|exact R].
    + rewrite (C2 e I). symmetry. apply C2'. intros Q. apply I. apply (Permutation_in _ (Permutation_sym PI)). exact Q.
Qed.
Print Assumptions C19_order.
(** numbers with a hole (2), in reverse order of the patches, and a node that takes no part (-) *)
Definition exC := mkP [1; 2; 3] [2; 2; 2]%nat [3; 0] [[0; 1; 2]; [0; 0; 0]] [] [].
Definition exD := mkP [3; 4; 5] [2; 2; 2]%nat [1] [[0; -1; 2]] [] [].
Example C19_case : initElementConn 77 2 [exC; exD] = Some (true, [1; 4; 4; 7]%nat, [3; -4; 5; 1; 2; 3]) /\
  connOf [1; 4; 4; 7]%nat [3; -4; 5; 1; 2; 3] 1 = [3; -4; 5] /\ connOf [1; 4; 4; 7]%nat [3; -4; 5; 1; 2; 3] 2 = [] /\ connOf [1; 4; 4; 7]%nat [3; -4; 5; 1; 2; 3] 3 = [1; 2; 3].
Proof. repeat split. Qed.
Example C19_hypotheses : elmsOK [exC; exD] /\ NoDup (extIds [exC; exD]).
Proof.
  split.
  - intros p [<-|[<-|[]]]; (split; [reflexivity|]); intros el n He Hn; right; cbn in He; repeat destruct He as [<-|He]; try contradiction; cbn in Hn; repeat destruct Hn as [<-|Hn]; try contradiction; reflexivity.
  - cbv. repeat constructor; cbn; intuition congruence.
Qed.

(** ** C16: chained constraints *)
(** the initialisation succeeds, and the vectors over all DOFs obtained by expanding equation
    vectors are exactly those that satisfy all boundary conditions and constraints *)
Theorem C16_expand nn ps h : modelOK nn ps -> chainsIn nn ps h ->
  exists n0, forall fuel junk, (n0 <= fuel)%nat -> exists sp, samInit fuel junk h ps nn = Some (true, sp) /\
    (forall x v, length x = neq (spTab sp) -> expandVector (spTab sp) 1 x = Some v -> fulfils nn ps h (valueAt (madof (spTab sp)) v)) /\
    (forall v, length v = ndof (spTab sp) -> fulfils nn ps h (valueAt (madof (spTab sp)) v) ->
       exists x, length x = neq (spTab sp) /\ expandVector (spTab sp) 1 x = Some v).
Proof. exact (samInit_expand nn ps h). Qed.
Print Assumptions C16_expand.
(** the table rows: one per equation whose slave is not fixed, in the order of the equations;
    masters are free DOFs; the rows hold iff the chained equations hold *)
Theorem C16_rows nn ps h : modelOK nn ps -> chainsIn nn ps h ->
  exists n0, forall fuel junk, (n0 <= fuel)%nat -> exists sp, samInit fuel junk h ps nn = Some (true, sp) /\
    let T := spTab sp in
    exists used, Forall2 (fun i k => slaveDof T i = dofOf (madof T) (dkey (mslave (nthM h k)))) (seq 1 (nceq T)) used /\
      (forall k, In k used <-> In k (flat_map pMPC ps) /\ ~ isFixed ps (dkey (mslave (nthM h k)))) /\ NoDup used /\
      (forall i j c, (1 <= i <= nceq T)%nat -> In (j, c) (masterTerms T i) -> 0 < eqnOf T j) /\
      forall u : field, (forall k, dofIn nn ps k -> isFixed ps k -> u k = 0%Qc) ->
        forall v : Z -> Qc, (forall k, dofIn nn ps k -> v (dofOf (madof T) k) = u k) ->
        ((forall k, In k (flat_map pMPC ps) -> ~ isFixed ps (dkey (mslave (nthM h k))) -> holds u (nthM h k)) <->
         (forall i, (1 <= i <= nceq T)%nat -> holdsRow T v i)).
Proof.
  intros M C. destruct (rebuild_ok nn ps h M C) as (n0 & H). exists n0. intros fuel junk Hf.
  destruct (H fuel junk _ _ 0 0 (repeat (-1) (length h)) Hf eq_refl eq_refl (Z.le_refl 0) (repeat_length _ _)) as (md & sc & rank & pn & mn & s & T & E1 & DT & L & K & F & SJ & E2 & FUEL & LNK & KEY & S2 & S3 & S4 & S5 & S6 & S7 & S9 & S10 & S11 & E4 & nmm & _ & ES). clear H.
  rewrite <- samInit_rebuild in ES by apply M. eexists. split; [exact ES|]. cbv zeta. cbn [spTab].
  destruct (initEqs_spec _ _ E4) as (I1 & I2 & I3 & I4 & I5 & I6 & _). cbn [madof mpmceq mmceq ttcc] in *.
  set (ks := flat_map pMPC ps) in *. set (acc := accepted md h ks sc) in *.
  assert (MP : mpmceq T = psum 1 (map (rlen md h sc fuel) acc)) by (rewrite I4; exact S2).
  assert (MM : mmceq T = flat_map (fun k => dofOf md (dkey (mslave (nthM h k))) :: map fst (fst (row md h sc fuel k))) acc) by (rewrite I5; exact S3).
  assert (TC : ttcc T = flat_map (fun k => snd (row md h sc fuel k) :: map snd (fst (row md h sc fuel k))) acc) by (rewrite I6; exact S4).
  assert (NC : nceq T = length acc) by (unfold nceq; rewrite MP, psum_length, map_length; reflexivity).
  exists acc. rewrite I1. split; [|split; [|split; [|split]]].
  - rewrite NC. assert (G : forall i l, (forall q k, nth_error l q = Some k -> slaveDof T (i + q) = dofOf md (dkey (mslave (nthM h k)))) -> Forall2 (fun i k => slaveDof T i = dofOf md (dkey (mslave (nthM h k)))) (seq i (length l)) l).
    { intros i l. revert i. induction l as [|k l IH]; intros i G; [constructor|]. cbn [length seq]. constructor; [specialize (G 0%nat k eq_refl); rewrite Nat.add_0_r in G; exact G|]. apply IH. intros q k' Hq. specialize (G (S q) k' Hq). rewrite Nat.add_succ_r in G. exact G. }
    apply G. intros q k Hq. apply (rows_gen T (fun k => dofOf md (dkey (mslave (nthM h k)))) (row md h sc fuel) acc q k MP MM TC Hq).
  - intros k. unfold acc. rewrite (accepted_in md h ks sc DT KEY). split; intros [Hk Q]; (split; [exact Hk|]); intros R; apply Q; [apply F in R|apply F]; auto; apply K; apply KEY; exact Hk.
  - unfold acc, accepted. apply NoDup_filter. destruct C as [C _]. apply NoDup_map_inv in C. exact C.
  - intros i j c Hi Hj. destruct (initEqs_consistent _ _ E4) as (_ & CC & _). destruct (CC i Hi) as (_ & _ & _ & CM). destruct (CM j c Hj) as [_ CM2]. lia.
  - intros u U0 v UV.
    assert (ZF : zeroFixed sc v) by (intros j Hj Hc; destruct (SJ j Hj) as (k & K1 & <-); rewrite UV by exact K1; apply U0; [exact K1|]; apply F; assumption).
    rewrite <- (chain_rows md h ks rank sc DT KEY LNK fuel (repeat (-1) (length h)) FUEL (repeat_length _ _) T v MP MM TC ZF).
    assert (HU : forall k, In k ks -> (holds u (nthM h k) <-> holdsDof md v (nthM h k))).
    { intros k Hk. destruct (KEY k Hk) as (_ & K1 & K2). unfold holdsDof, holds, rhs. rewrite UV by (apply K; exact K1). assert (E : qs (fun d => (dcoef d * u (dkey d))%Qc) (mmast (nthM h k)) = qs (fun d => (dcoef d * v (dofOf md (dkey d)))%Qc) (mmast (nthM h k))).
      { apply qs_ext. intros d Hd. rewrite UV; [reflexivity|]. apply K. rewrite Forall_forall in K2. apply K2. exact Hd. }
      rewrite E. reflexivity. }
    assert (FK : forall k, In k ks -> (code sc (dofOf md (dkey (mslave (nthM h k)))) = 0 <-> isFixed ps (dkey (mslave (nthM h k))))) by (intros k Hk; apply F; apply K; apply KEY; exact Hk).
    split; intros G k Hk Hc.
    + apply (HU k Hk). apply (G k Hk). intros Q. apply Hc. apply (FK k Hk). exact Q.
    + apply (HU k Hk). apply (G k Hk). intros Q. apply Hc. apply (FK k Hk). exact Q.
Qed.
Print Assumptions C16_rows.
(** u1 = 1 + 2 u2 with u2 = 3 + 4 u3 - u4 (chained) and u4 fixed *)
Definition dd (n : Z) (c : Q) (x : option nat) := mkD n 1 (Q2Qc c) x.
Definition exH := [mkMPC (dd 1 1 None) [dd 2 2 (Some 1%nat)]; mkMPC (dd 2 3 None) [dd 3 4 None; dd 4 (-1) None]].
Definition exP := mkP [1; 2; 3; 4] [1; 1; 1; 1]%nat [1; 2] [[0; 1; 2]; [2; 3]] [bc0 4] [0; 1]%nat.
Definition exT := match samInit 5 0 exH [exP] 4 with Some (_, sp) => spTab sp | None => mkS [] [] [] [] [] [] [] [] 0 0 end.
Example C16_case : option_map fst (samInit 5 0 exH [exP] 4) = Some true /\ meqn exT = [-1; -2; 1; 0] /\ mmceq exT = [1; 3; 2; 3] /\
  map this (ttcc exT) = [7#1; 8#1; 3#1; 4#1]%Q /\ option_map (map this) (expandVector exT 1 [Q2Qc 10]) = Some [87#1; 43#1; 10#1; 0#1]%Q.
Proof. repeat split. Qed.
Example C16_hypotheses : modelOK 4 [exP] /\ chainsIn 4 [exP] exH.
Proof.
  assert (HN : forall n nd, hasNode [exP] n nd <-> 1 <= n <= 4 /\ nd = 1%nat).
  { intros n nd. split.
    - intros (p & j & [<-|[]] & H1 & H2). destruct j as [|[|[|[|j]]]]; cbn in H1, H2; try (injection H1 as <-; split; [lia|auto]); destruct j; discriminate.
    - intros [R ->]. exists exP, (Z.to_nat (n-1)). split; [left; reflexivity|]. assert (n = 1 \/ n = 2 \/ n = 3 \/ n = 4) as [->|[->|[->| ->]]] by lia; split; reflexivity. }
  assert (DI : forall k, 1 <= fst k <= 4 -> snd k = 1 -> dofIn 4 [exP] k) by (intros k R S; split; [exact R|]; exists 1%nat; split; [apply HN; split; [exact R|reflexivity]|lia]).
  assert (FX : forall k, isFixed [exP] k -> fst k = 4) by (intros k (p & b & [<-|[]] & [<-|[]] & H & _); symmetry; exact H).
  split.
  - split; [lia|]. split; [intros n nd H; apply HN in H; lia|]. split; [intros n nd nd' H H' _; apply HN in H, H'; lia|]. split; [|split].
    + intros p b [<-|[]] [<-|[]]. cbn. split; [lia|]. split; [reflexivity|]. repeat (apply Forall_cons; [auto|]); apply Forall_nil.
    + intros p [<-|[]]. split; [reflexivity|]. intros el n He Hn. right. cbn in He. repeat destruct He as [<-|He]; try contradiction; cbn in Hn; repeat destruct Hn as [<-|Hn]; try contradiction; reflexivity.
    + cbv. repeat constructor; cbn; intuition congruence.
  - split; [cbv; repeat constructor; cbn; intuition congruence|]. split.
    + intros k [<-|[<-|[]]]; (split; [cbn; lia|]); (split; [apply DI; cbn; lia|]); rewrite Forall_forall; intros d Hd; cbn in Hd; repeat destruct Hd as [<-|Hd]; try contradiction; apply DI; cbn; lia.
    + exists (fun k => match k with O => 1%nat | _ => 0%nat end). intros k d [<-|[<-|[]]] Hd; cbn in Hd; repeat destruct Hd as [<-|Hd]; try contradiction; cbn [dd dnext].
      * split; [right; left; reflexivity|]. split; [reflexivity|]. split; [intros Q; apply FX in Q; discriminate Q|lia].
      * cbv. intuition congruence.
      * cbv. intuition congruence.
Qed.
(** If a master DOF has a boundary condition as well as an equation of its own, that equation is
    used instead of the boundary condition: u1 = u2, u2 = u3, and u2 fixed. *)
Definition exFh := [mkMPC (dd 1 0 None) [dd 2 1 (Some 1%nat)]; mkMPC (dd 2 0 None) [dd 3 1 None]].
Definition exFp := mkP [1; 2; 3] [1; 1; 1]%nat [1] [[0; 1; 2]] [bc0 2] [0; 1]%nat.
Theorem C16_fixed_master_refuted : ~ forall nn ps h fuel junk sp x v, modelOK nn ps -> NoDup (slavesOf h (flat_map pMPC ps)) ->
  samInit fuel junk h ps nn = Some (true, sp) -> length x = neq (spTab sp) -> expandVector (spTab sp) 1 x = Some v -> fulfils nn ps h (valueAt (madof (spTab sp)) v).
Proof.
  intros H. assert (M : modelOK 3 [exFp]).
  { assert (HN : forall n nd, hasNode [exFp] n nd -> 1 <= n <= 3 /\ nd = 1%nat).
    { intros n nd (p & j & [<-|[]] & H1 & H2). destruct j as [|[|[|j]]]; cbn in H1, H2; try (injection H1 as <-; split; [lia|auto]); destruct j; discriminate. }
    split; [lia|]. split; [intros n nd Q; apply HN in Q; lia|]. split; [intros n nd nd' Q Q' _; apply HN in Q, Q'; lia|]. split; [|split].
    + intros p b [<-|[]] [<-|[]]. cbn. split; [lia|]. split; [reflexivity|]. repeat (apply Forall_cons; [auto|]); apply Forall_nil.
    + intros p [<-|[]]. split; [reflexivity|]. intros el n He Hn. right. cbn in He. repeat destruct He as [<-|He]; try contradiction; cbn in Hn; repeat destruct Hn as [<-|Hn]; try contradiction; reflexivity.
    + cbv. repeat constructor; cbn; intuition congruence. }
  assert (N : NoDup (slavesOf exFh (flat_map pMPC [exFp]))) by (cbv; repeat constructor; cbn; intuition congruence).
  destruct (samInit 5 0 exFh [exFp] 3) as [[ok sp]|] eqn:E; [|vm_compute in E; discriminate].
  assert (EK : option_map fst (samInit 5 0 exFh [exFp] 3) = Some true) by reflexivity. rewrite E in EK. cbn in EK. assert (ok = true) by congruence. subst ok.
  assert (ET : option_map (fun r => (neq (spTab (snd r)), madof (spTab (snd r)), expandVector (spTab (snd r)) 1 [Q2Qc 5])) (samInit 5 0 exFh [exFp] 3) = Some (1%nat, [1; 2; 3; 4]%nat, Some [Q2Qc 5; Q2Qc 0; Q2Qc 5])) by (vm_compute; reflexivity).
  rewrite E in ET. cbn [option_map snd] in ET. assert (T1 : neq (spTab sp) = 1%nat) by congruence. assert (T2 : madof (spTab sp) = [1; 2; 3; 4]%nat) by congruence. assert (T3 : expandVector (spTab sp) 1 [Q2Qc 5] = Some [Q2Qc 5; Q2Qc 0; Q2Qc 5]) by congruence.
  specialize (H 3%nat [exFp] exFh 5%nat 0%nat sp [Q2Qc 5] _ M N E (eq_sym T1) T3). destruct H as [_ H]. specialize (H 0%nat (or_introl eq_refl)). rewrite T2 in H.
  assert (Q : ~ isFixed [exFp] (dkey (mslave (nthM exFh 0)))) by (intros (p & b & [<-|[]] & [<-|[]] & Q & _); discriminate Q).
  specialize (H Q). unfold holds in H. apply (f_equal this) in H. vm_compute in H. discriminate H.
Qed.
Print Assumptions C16_fixed_master_refuted.

(** ** C37: update of the coefficients *)
(** After changing constants and coefficients ([h] becomes [h2]), the update gives the table of
    a fresh initialisation, except that the constants are those of the incremental form. *)
Theorem C37_update nn ps h h2 : modelOK nn ps -> chainsIn nn ps h -> sameHeap h h2 ->
  exists n0, forall fuel junk, (n0 <= fuel)%nat -> exists sp sp2,
    samInit fuel junk h ps nn = Some (true, sp) /\ samInit fuel junk h2 ps nn = Some (true, sp2) /\ nceq (spTab sp) = nceq (spTab sp2) /\
    forall prev, exists tc, updateConstraintEqs fuel h2 sp prev =
      Some (true, mkSP (spModel sp) (spNnod sp) (spNel sp) (spNceq sp) (spNmm sp)
        (mkS (madof (spTab sp)) (msc (spTab sp)) (mpmnpc (spTab sp)) (mmnpc (spTab sp)) (mpmceq (spTab sp)) (mmceq (spTab sp)) tc (meqn (spTab sp)) (neq (spTab sp)) (nspdof (spTab sp))) (spIceq sp)) /\
      let T' := mkS (madof (spTab sp)) (msc (spTab sp)) (mpmnpc (spTab sp)) (mmnpc (spTab sp)) (mpmceq (spTab sp)) (mmceq (spTab sp)) tc (meqn (spTab sp)) (neq (spTab sp)) (nspdof (spTab sp)) in
      forall i, (1 <= i <= nceq (spTab sp))%nat ->
        slaveDof (spTab sp) i = slaveDof (spTab sp2) i /\
        masterTerms T' i = masterTerms (match prev with Some _ => spTab sp2 | None => spTab sp end) i /\
        offset T' i = match prev with Some v => incOffset v (offset (spTab sp2) i) (slaveDof (spTab sp2) i) | None => 0%Qc end.
Proof. exact (samUpdate_ok nn ps h h2). Qed.
Print Assumptions C37_update.
(** Meaning of the incremental form [T'] of the equations [T2] for the previous solution [v] and an
    increment [dv] that satisfies [T']: the new solution has the prescribed value, and homogeneous
    equations remain satisfied. *)
Theorem C37_increment T2 T' i (v : list Qc) (dv : Z -> Qc) :
  masterTerms T' i = masterTerms T2 i -> slaveDof T' i = slaveDof T2 i -> offset T' i = incOffset v (offset T2 i) (slaveDof T2 i) ->
  1 <= slaveDof T2 i <= Z.of_nat (length v) -> holdsRow T' dv i ->
  let u := fun j => (nth (Z.to_nat (j-1)) v 0 + dv j)%Qc in
  (masterTerms T2 i = [] -> offset T2 i <> 0%Qc -> u (slaveDof T2 i) = offset T2 i) /\
  (offset T2 i = 0%Qc -> holdsRow T2 (fun j => nth (Z.to_nat (j-1)) v 0%Qc) i -> holdsRow T2 u i).
Proof.
  intros HM HS HO R HR. cbv zeta. unfold holdsRow in *. rewrite HS, HM, HO in HR. unfold incOffset in HR. split.
  - intros M0 O0. rewrite HR, M0. destruct (Qc_eq_dec (offset T2 i) 0); [contradiction|]. destruct (Z.leb_spec (slaveDof T2 i) (Z.of_nat (length v))); [|lia]. unfold qs. cbn. ring.
  - intros O0 HV. rewrite HR, HV, O0. destruct (Qc_eq_dec (Q2Qc 0) 0) as [_|N]; [|contradiction].
    assert (E : forall l, qs (fun p => (snd p * (nth (Z.to_nat (fst p - 1)) v 0 + dv (fst p)))%Qc) l = (qs (fun p => (snd p * nth (Z.to_nat (fst p - 1)) v 0)%Qc) l + qs (fun p => (snd p * dv (fst p))%Qc) l)%Qc).
    { induction l as [|p l IH]; unfold qs in *; cbn; [ring|]. rewrite IH. ring. }
    rewrite E. ring.
Qed.
Print Assumptions C37_increment.
(** Not in general: a prescribed value that becomes zero is not reached ... *)
Definition exU (c : Q) := [mkMPC (dd 1 c None) []].
Definition exUp := mkP [1; 2] [1; 1]%nat [1] [[0; 1]] [] [0]%nat.
Theorem C37_zero_value_refuted : ~ forall fuel sp h2 v sp' dv i, updateConstraintEqs fuel h2 sp (Some v) = Some (true, sp') ->
  samInit fuel 0 h2 (spModel sp) (spNnod sp) <> None -> (1 <= i <= nceq (spTab sp))%nat ->
  (exists x, expandVector (spTab sp') 1 x = Some dv) -> length dv = length v ->
  forall sp2, samInit fuel 0 h2 (spModel sp) (spNnod sp) = Some (true, sp2) -> masterTerms (spTab sp2) i = [] ->
  (nth (Z.to_nat (slaveDof (spTab sp2) i - 1)) v 0 + nth (Z.to_nat (slaveDof (spTab sp2) i - 1)) dv 0)%Qc = offset (spTab sp2) i.
Proof.
  intros H. destruct (samInit 3 0 (exU 2) [exUp] 2) as [[ok sp]|] eqn:E; [|vm_compute in E; discriminate].
  assert (Esp : exists sp0, samInit 3 0 (exU 2) [exUp] 2 = Some (true, sp0) /\ spModel sp0 = [exUp] /\ spNnod sp0 = 2%nat /\ nceq (spTab sp0) = 1%nat /\
     exists sp', updateConstraintEqs 3 (exU 0) sp0 (Some [Q2Qc 2; Q2Qc 0]) = Some (true, sp') /\ expandVector (spTab sp') 1 [Q2Qc 0] = Some [Q2Qc 0; Q2Qc 0]).
  { eexists. split; [vm_compute; reflexivity|]. split; [reflexivity|]. split; [reflexivity|]. split; [reflexivity|]. eexists. split; [vm_compute; reflexivity|]. vm_compute. reflexivity. }
  destruct Esp as (sp0 & E0 & M0 & N0 & C0 & sp' & EU & EX).
  assert (E2 : exists sp2, samInit 3 0 (exU 0) [exUp] 2 = Some (true, sp2) /\ masterTerms (spTab sp2) 1 = [] /\ slaveDof (spTab sp2) 1 = 1 /\ offset (spTab sp2) 1 = Q2Qc 0).
  { eexists. split; [vm_compute; reflexivity|]. split; [reflexivity|]. split; reflexivity. }
  destruct E2 as (sp2 & E2 & T1 & T2 & T3).
  specialize (H 3%nat sp0 (exU 0) [Q2Qc 2; Q2Qc 0] sp' [Q2Qc 0; Q2Qc 0] 1%nat EU). rewrite M0, N0, C0, E2 in H.
  specialize (H ltac:(discriminate) ltac:(lia) (ex_intro _ _ EX) eq_refl sp2 eq_refl T1). rewrite T2, T3 in H. apply (f_equal this) in H. vm_compute in H. discriminate H.
Qed.
Print Assumptions C37_zero_value_refuted.
(** ... and an equation with masters and a constant does not remain satisfied: u1 = 1 + u2 with
    previous solution (3, 2) and no increment of u2 gives u1 = 1. *)
Definition exV := [mkMPC (dd 1 1 None) [dd 2 1 None]].
Theorem C37_affine_refuted : ~ forall fuel sp h v sp' x dv, updateConstraintEqs fuel h sp (Some v) = Some (true, sp') ->
  samInit fuel 0 h (spModel sp) (spNnod sp) = Some (true, sp) -> fulfils (spNnod sp) (spModel sp) h (valueAt (madof (spTab sp)) v) ->
  expandVector (spTab sp') 1 x = Some dv -> fulfils (spNnod sp) (spModel sp) h (fun k => (valueAt (madof (spTab sp)) v k + valueAt (madof (spTab sp)) dv k)%Qc).
Proof.
  intros H.
  assert (Esp : exists sp0, samInit 3 0 exV [exUp] 2 = Some (true, sp0) /\ spModel sp0 = [exUp] /\ spNnod sp0 = 2%nat /\ madof (spTab sp0) = [1; 2; 3]%nat /\
     exists sp', updateConstraintEqs 3 exV sp0 (Some [Q2Qc 3; Q2Qc 2]) = Some (true, sp') /\ expandVector (spTab sp') 1 [Q2Qc 0] = Some [Q2Qc (-2); Q2Qc 0]).
  { eexists. split; [vm_compute; reflexivity|]. split; [reflexivity|]. split; [reflexivity|]. split; [reflexivity|]. eexists. split; [vm_compute; reflexivity|]. vm_compute. reflexivity. }
  destruct Esp as (sp0 & E0 & M0 & N0 & A0 & sp' & EU & EX).
  assert (NF : forall k, ~ isFixed [exUp] k) by (intros k (p & b & [<-|[]] & [] & _)).
  specialize (H 3%nat sp0 exV _ sp' [Q2Qc 0] [Q2Qc (-2); Q2Qc 0] EU). rewrite M0, N0, A0 in H. specialize (H E0).
  assert (FV : fulfils 2 [exUp] exV (valueAt [1; 2; 3]%nat [Q2Qc 3; Q2Qc 2])).
  { split; [intros k _ Q; exfalso; exact (NF k Q)|]. intros j [<-|[]] _. unfold holds. apply Qc_is_canon. vm_compute. reflexivity. }
  specialize (H FV EX). destruct H as [_ H]. specialize (H 0%nat (or_introl eq_refl) (NF _)). unfold holds in H. apply (f_equal this) in H. vm_compute in H. discriminate H.
Qed.
Print Assumptions C37_affine_refuted.
(** non-vacuity of C37_update: u1 = 1 + 2 u2, u2 = 3 + 4 u3 changed to u1 = 5 + u2, u2 = -1 + 3 u3 *)
Definition exH2 := [mkMPC (dd 1 5 None) [dd 2 1 (Some 1%nat)]; mkMPC (dd 2 (-1) None) [dd 3 3 None; dd 4 7 None]].
Example C37_case : sameHeap exH exH2 /\
  match samInit 5 0 exH [exP] 4 with
  | Some (_, sp) => match updateConstraintEqs 5 exH2 sp (Some [Q2Qc 1; Q2Qc 1; Q2Qc 1; Q2Qc 0]) with Some (ok, sp') => ok = true /\ map this (ttcc (spTab sp')) = [3#1; 3#1; -2#1; 3#1]%Q | None => False end
  | None => False end.
Proof.
  split; [|vm_compute; split; reflexivity]. split; [reflexivity|]. intros [|[|k]]; split; try reflexivity; unfold nthM; rewrite !nth_overflow by (cbn; lia); reflexivity.
Qed.

(** ** C17: merging *)
(** Merging two models without ignored constraints and with gapless element numbers: the solutions
    are those of both models, the second with its node numbers increased by the number of nodes of
    the first; the element numbers are increased by the number of elements of the first. *)
Theorem C17_merge_partial nA nB psA psB h : modelOK nA psA -> modelOK nB psB -> nodesIn nA psA -> nodesIn nB psB -> elmsFull psA -> elmsFull psB ->
  chainsIn nA psA h -> chainsIn nB psB h -> noIgnored psA h -> noIgnored psB h -> NoDup (flat_map pMPC psA ++ flat_map pMPC psB) ->
  exists n0, forall fuel junk, (n0 <= fuel)%nat -> exists a b h' m,
    samInit fuel junk h psA nA = Some (true, a) /\ samInit fuel junk h psB nB = Some (true, b) /\
    samMerge fuel junk h a b = Some (true, h', m) /\
    (forall x v, length x = neq (spTab m) -> expandVector (spTab m) 1 x = Some v ->
       let u := valueAt (madof (spTab m)) v in fulfils nA psA h u /\ fulfils nB psB h (fun k => u (fst k + Z.of_nat nA, snd k))) /\
    (forall v, let u := valueAt (madof (spTab m)) v in length v = ndof (spTab m) -> fulfils nA psA h u /\ fulfils nB psB h (fun k => u (fst k + Z.of_nat nA, snd k)) ->
       exists x, length x = neq (spTab m) /\ expandVector (spTab m) 1 x = Some v) /\
    (forall e ns, hasElm psA (Z.of_nat e) ns -> connOf (mpmnpc (spTab m)) (mmnpc (spTab m)) e = ns) /\
    (forall e ns, hasElm psB (Z.of_nat e) ns -> connOf (mpmnpc (spTab m)) (mmnpc (spTab m)) (e + length (extIds psA)) = map (nodeAfter nA) ns).
Proof.
  intros MA MB NA NB EA EB CA CB IA IB D. destruct (merge_ok nA nB psA psB h MA MB NA NB EA EB CA CB IA IB D) as (n0 & H). exists n0. intros fuel junk Hf.
  destruct (H fuel junk Hf) as (a & b & m & H1 & H2 & H3 & H4 & H5 & H6 & H7 & _). exists a, b. eexists. exists m. split; [exact H1|]. split; [exact H2|]. split; [exact H3|]. split; [exact H4|]. split; [exact H5|]. split; assumption.
Qed.
Print Assumptions C17_merge_partial.

(** merging the model of C16_case with itself (equations 2, 3 are copies of 0, 1) *)
Definition exQ1 := mkP [1; 2; 3] [1; 1; 1]%nat [1; 2] [[0; 1]; [1; -2]] [bc0 3] [0]%nat.
Definition exQ2 := mkP [2; 1] [1; 1]%nat [1] [[0; 1]] [] [1]%nat.
Definition exQh := [mkMPC (dd 1 1 None) [dd 2 2 None]; mkMPC (dd 2 3 None) [dd 1 4 None]].
Definition mergeOf (h : list mpc) (psA : list patch) (nA : nat) (psB : list patch) (nB : nat) : option (bool * list mpc * sampatch) :=
  match samInit 5 7 h psA nA, samInit 5 7 h psB nB with Some (true, a), Some (true, b) => samMerge 5 7 h a b | _, _ => None end.
Example C17_case : option_map (fun r => (fst (fst r), meqn (spTab (snd r)), mmceq (spTab (snd r)), map this (ttcc (spTab (snd r))), mpmnpc (spTab (snd r)), mmnpc (spTab (snd r))))
    (mergeOf exQh [exQ1] 3 [exQ2] 2) = Some (true, [-1; 1; 0; 2; -2], [1; 2; 5; 4], [1#1; 2#1; 3#1; 4#1]%Q, [1; 3; 5; 7]%nat, [1; 2; 2; -3; 5; 4]).
Proof. vm_compute. reflexivity. Qed.
Example C17_hypotheses : modelOK 3 [exQ1] /\ modelOK 2 [exQ2] /\ nodesIn 3 [exQ1] /\ nodesIn 2 [exQ2] /\ elmsFull [exQ1] /\ elmsFull [exQ2] /\
  chainsIn 3 [exQ1] exQh /\ chainsIn 2 [exQ2] exQh /\ noIgnored [exQ1] exQh /\ noIgnored [exQ2] exQh /\ NoDup (flat_map pMPC [exQ1] ++ flat_map pMPC [exQ2]).
Proof.
  assert (H1 : forall n nd, hasNode [exQ1] n nd <-> 1 <= n <= 3 /\ nd = 1%nat).
  { intros n nd. split.
    - intros (p & j & [<-|[]] & H1 & H2). destruct j as [|[|[|j]]]; cbn in H1, H2; try (injection H1 as <-; split; [lia|auto]); destruct j; discriminate.
    - intros [R ->]. exists exQ1, (Z.to_nat (n-1)). split; [left; reflexivity|]. assert (n = 1 \/ n = 2 \/ n = 3) as [->|[->| ->]] by lia; split; reflexivity. }
  assert (H2 : forall n nd, hasNode [exQ2] n nd <-> 1 <= n <= 2 /\ nd = 1%nat).
  { intros n nd. split.
    - intros (p & j & [<-|[]] & H2 & H3). destruct j as [|[|j]]; cbn in H2, H3; try (injection H2 as <-; split; [lia|auto]); destruct j; discriminate.
    - intros [R ->]. exists exQ2, (Z.to_nat (2-n)). split; [left; reflexivity|]. assert (n = 1 \/ n = 2) as [->| ->] by lia; split; reflexivity. }
  assert (D1 : forall k, 1 <= fst k <= 3 -> snd k = 1 -> dofIn 3 [exQ1] k) by (intros k R S; split; [exact R|]; exists 1%nat; split; [apply H1; split; [exact R|reflexivity]|lia]).
  assert (D2 : forall k, 1 <= fst k <= 2 -> snd k = 1 -> dofIn 2 [exQ2] k) by (intros k R S; split; [exact R|]; exists 1%nat; split; [apply H2; split; [exact R|reflexivity]|lia]).
  assert (EL : forall nn p, (p = exQ1 \/ p = exQ2) -> (1 <= nn)%nat -> (forall n nd, hasNode [p] n nd -> nd = 1%nat) -> bcOK nn [p] -> modelOK nn [p]).
  { intros nn p Hp Hn HN HB. split; [exact Hn|]. split; [intros n nd Q; rewrite (HN n nd Q); lia|]. split; [intros n nd nd' Q Q' _; rewrite (HN n nd Q), (HN n nd' Q'); reflexivity|]. split; [exact HB|]. split.
    - intros q [<-|[]]. destruct Hp as [-> | ->]; (split; [reflexivity|]); intros el n He Hn'; right; cbn in He; repeat destruct He as [<-|He]; try contradiction; cbn in Hn'; repeat destruct Hn' as [<-|Hn']; try contradiction; reflexivity.
    - destruct Hp as [-> | ->]; cbv; repeat constructor; cbn; intuition congruence. }
  split; [apply EL; [left; reflexivity|lia|intros n nd Q; apply H1 in Q; tauto|]|].
  { intros p b [<-|[]] [<-|[]]. cbn. split; [lia|]. split; [reflexivity|]. repeat (apply Forall_cons; [auto|]); apply Forall_nil. }
  split; [apply EL; [right; reflexivity|lia|intros n nd Q; apply H2 in Q; tauto|intros p b [<-|[]] []]|].
  split; [intros n nd Q; apply H1 in Q; lia|]. split; [intros n nd Q; apply H2 in Q; lia|].
  split; [split; [intros p e [<-|[]] He; cbn in He; repeat destruct He as [<-|He]; try contradiction; lia|reflexivity]|].
  split; [split; [intros p e [<-|[]] He; cbn in He; repeat destruct He as [<-|He]; try contradiction; lia|reflexivity]|].
  split.
  { split; [cbv; repeat constructor; cbn; intuition congruence|]. split.
    - intros k [<-|[]]. split; [cbn; lia|]. split; [apply D1; cbn; lia|]. rewrite Forall_forall. intros d [<-|[]]. apply D1; cbn; lia.
    - exists (fun _ => 0%nat). intros k d [<-|[]] [<-|[]]. cbv. intuition congruence. }
  split.
  { split; [cbv; repeat constructor; cbn; intuition congruence|]. split.
    - intros k [<-|[]]. split; [cbn; lia|]. split; [apply D2; cbn; lia|]. rewrite Forall_forall. intros d [<-|[]]. apply D2; cbn; lia.
    - exists (fun _ => 0%nat). intros k d [<-|[]] [<-|[]]. cbv. intuition congruence. }
  split; [intros k [<-|[]] (p & b & [<-|[]] & [<-|[]] & Q & _); discriminate Q|].
  split; [intros k [<-|[]] (p & b & [<-|[]] & [] & _)|]. cbv. repeat constructor; cbn; intuition congruence.
Qed.


(** In general merging is wrong:
    (a) if the first model has an ignored constraint (fixed slave), a valid one is lost: here
    u2 = 2 u3 holds for the first model (u1 = u3 is ignored since node 1 is fixed), but after
    merging it with a model without constraints, u2 is zero. *)
Definition exG := mkP [1; 2; 3] [1; 1; 1]%nat [1] [[0; 1; 2]] [bc0 1] [0; 1]%nat.
Definition exGh := [mkMPC (dd 1 0 None) [dd 3 1 None]; mkMPC (dd 2 0 None) [dd 3 2 None]].
Definition exE := mkP [1] [1]%nat [1] [[0]] [] [].
Theorem C17_lost_constraint_refuted : ~ forall nA nB psA psB h fuel junk a b h' m x v, modelOK nA psA -> modelOK nB psB -> nodesIn nA psA -> nodesIn nB psB -> elmsFull psA -> elmsFull psB ->
  chainsIn nA psA h -> chainsIn nB psB h -> NoDup (flat_map pMPC psA ++ flat_map pMPC psB) ->
  samInit fuel junk h psA nA = Some (true, a) -> samInit fuel junk h psB nB = Some (true, b) -> samMerge fuel junk h a b = Some (true, h', m) ->
  length x = neq (spTab m) -> expandVector (spTab m) 1 x = Some v -> fulfils nA psA h (valueAt (madof (spTab m)) v).
Proof.
  intros H.
  assert (H1 : forall n nd, hasNode [exG] n nd <-> 1 <= n <= 3 /\ nd = 1%nat).
  { intros n nd. split.
    - intros (p & j & [<-|[]] & H1 & H2). destruct j as [|[|[|j]]]; cbn in H1, H2; try (injection H1 as <-; split; [lia|auto]); destruct j; discriminate.
    - intros [R ->]. exists exG, (Z.to_nat (n-1)). split; [left; reflexivity|]. assert (n = 1 \/ n = 2 \/ n = 3) as [->|[->| ->]] by lia; split; reflexivity. }
  assert (H2 : forall n nd, hasNode [exE] n nd -> 1 <= n <= 1 /\ nd = 1%nat).
  { intros n nd (p & j & [<-|[]] & H2 & H3). destruct j as [|j]; cbn in H2, H3; try (injection H2 as <-; split; [lia|auto]); destruct j; discriminate. }
  assert (D1 : forall k, 1 <= fst k <= 3 -> snd k = 1 -> dofIn 3 [exG] k) by (intros k R S; split; [exact R|]; exists 1%nat; split; [apply H1; split; [exact R|reflexivity]|lia]).
  assert (EL : forall nn p, (p = exG \/ p = exE) -> (1 <= nn)%nat -> (forall n nd, hasNode [p] n nd -> nd = 1%nat) -> bcOK nn [p] -> modelOK nn [p]).
  { intros nn p Hp Hn HN HB. split; [exact Hn|]. split; [intros n nd Q; rewrite (HN n nd Q); lia|]. split; [intros n nd nd' Q Q' _; rewrite (HN n nd Q), (HN n nd' Q'); reflexivity|]. split; [exact HB|]. split.
    - intros q [<-|[]]. destruct Hp as [-> | ->]; (split; [reflexivity|]); intros el n He Hn'; right; cbn in He; repeat destruct He as [<-|He]; try contradiction; cbn in Hn'; repeat destruct Hn' as [<-|Hn']; try contradiction; reflexivity.
    - destruct Hp as [-> | ->]; cbv; repeat constructor; cbn; intuition congruence. }
  assert (MA : modelOK 3 [exG]).
  { apply EL; [left; reflexivity|lia|intros n nd Q; apply H1 in Q; tauto|]. intros p b [<-|[]] [<-|[]]. cbn. split; [lia|]. split; [reflexivity|]. repeat (apply Forall_cons; [auto|]); apply Forall_nil. }
  assert (MB : modelOK 1 [exE]) by (apply EL; [right; reflexivity|lia|intros n nd Q; apply H2 in Q; tauto|intros p b [<-|[]] []]).
  assert (NA : nodesIn 3 [exG]) by (intros n nd Q; apply H1 in Q; lia). assert (NB : nodesIn 1 [exE]) by (intros n nd Q; apply H2 in Q; lia).
  assert (EA : elmsFull [exG]) by (split; [intros p e [<-|[]] He; cbn in He; repeat destruct He as [<-|He]; try contradiction; lia|reflexivity]).
  assert (EB : elmsFull [exE]) by (split; [intros p e [<-|[]] He; cbn in He; repeat destruct He as [<-|He]; try contradiction; lia|reflexivity]).
  assert (CA : chainsIn 3 [exG] exGh).
  { split; [cbv; repeat constructor; cbn; intuition congruence|]. split.
    - intros k [<-|[<-|[]]]; (split; [cbn; lia|]); (split; [apply D1; cbn; lia|]); rewrite Forall_forall; intros d [<-|[]]; apply D1; cbn; lia.
    - exists (fun _ => 0%nat). intros k d [<-|[<-|[]]] [<-|[]]; cbv; intuition congruence. }
  assert (CB : chainsIn 1 [exE] exGh) by (split; [constructor|]; split; [intros k []|exists (fun _ => 0%nat); intros k d []]).
  assert (ND : NoDup (flat_map pMPC [exG] ++ flat_map pMPC [exE])) by (cbv; repeat constructor; cbn; intuition congruence).
  assert (X : exists a b h' m, samInit 5 0 exGh [exG] 3 = Some (true, a) /\ samInit 5 0 exGh [exE] 1 = Some (true, b) /\ samMerge 5 0 exGh a b = Some (true, h', m) /\
    neq (spTab m) = 2%nat /\ madof (spTab m) = [1; 2; 3; 4; 5]%nat /\ expandVector (spTab m) 1 [Q2Qc 1; Q2Qc 0] = Some [Q2Qc 0; Q2Qc 0; Q2Qc 1; Q2Qc 0]).
  { eexists. eexists. eexists. eexists. split; [vm_compute; reflexivity|]. split; [vm_compute; reflexivity|]. split; [vm_compute; reflexivity|]. split; [reflexivity|]. split; [reflexivity|]. vm_compute. reflexivity. }
  destruct X as (a & b & h' & m & X1 & X2 & X3 & X4 & X5 & X6).
  specialize (H 3%nat 1%nat [exG] [exE] exGh 5%nat 0%nat a b h' m [Q2Qc 1; Q2Qc 0] _ MA MB NA NB EA EB CA CB ND X1 X2 X3 (eq_sym X4) X6). rewrite X5 in H. destruct H as [_ H].
  specialize (H 1%nat (or_intror (or_introl eq_refl))). assert (NF : ~ isFixed [exG] (dkey (mslave (nthM exGh 1)))) by (intros (p & bb & [<-|[]] & [<-|[]] & Q & _); discriminate Q).
  specialize (H NF). unfold holds in H. apply (f_equal this) in H. vm_compute in H. discriminate H.
Qed.
Print Assumptions C17_lost_constraint_refuted.
(** (b) a zero-span element (number 0) of the second model gets a non-zero number when shifted and is
    counted: the pointer array is written out of bounds. *)
Definition exZ := mkP [1; 2] [1; 1]%nat [1; 0] [[0; 1]; [1; 1]] [] [].
Theorem C17_zero_span_refuted : ~ forall nA nB psA psB h fuel junk a b,
  samInit fuel junk h psA nA = Some (true, a) -> samInit fuel junk h psB nB = Some (true, b) -> samMerge fuel junk h a b <> None.
Proof.
  intros H. assert (X : exists a b, samInit 5 0 [] [exE] 1 = Some (true, a) /\ samInit 5 0 [] [exZ] 2 = Some (true, b) /\ samMerge 5 0 [] a b = None).
  { eexists. eexists. split; [vm_compute; reflexivity|]. split; [vm_compute; reflexivity|]. vm_compute. reflexivity. }
  destruct X as (a & b & X1 & X2 & X3). exact (H _ _ _ _ _ _ _ _ _ X1 X2 X3).
Qed.
Print Assumptions C17_zero_span_refuted.
(** (c) if the element numbers of the first model have a gap, merging reports success although the
    connectivities are wrong: element 2 of the first model gets the nodes of an element of the second. *)
Definition exY := mkP [1; 2] [1; 1]%nat [2] [[0; 1]] [] [].
Theorem C17_gap_refuted : ~ forall nA nB psA psB h fuel junk a b h' m e ns,
  samInit fuel junk h psA nA = Some (true, a) -> samInit fuel junk h psB nB = Some (true, b) -> samMerge fuel junk h a b = Some (true, h', m) ->
  hasElm psA (Z.of_nat e) ns -> connOf (mpmnpc (spTab m)) (mmnpc (spTab m)) e = ns.
Proof.
  intros H. assert (X : exists a b h' m, samInit 5 0 [] [exY] 2 = Some (true, a) /\ samInit 5 0 [] [exE] 1 = Some (true, b) /\ samMerge 5 0 [] a b = Some (true, h', m) /\
     connOf (mpmnpc (spTab m)) (mmnpc (spTab m)) 2 = [3] /\ connOf (mpmnpc (spTab a)) (mmnpc (spTab a)) 2 = [1; 2]).
  { eexists. eexists. eexists. eexists. split; [vm_compute; reflexivity|]. split; [vm_compute; reflexivity|]. split; [vm_compute; reflexivity|]. split; vm_compute; reflexivity. }
  destruct X as (a & b & h' & m & X1 & X2 & X3 & X4 & _).
  assert (HE : hasElm [exY] (Z.of_nat 2) [1; 2]).
  { exists exY, 0%nat, 2, [0; 1]. split; [left; reflexivity|]. split; [reflexivity|]. split; [reflexivity|]. split; [discriminate|]. split; [reflexivity|]. constructor; [left; split; [lia|reflexivity]|]. constructor; [left; split; [lia|reflexivity]|constructor]. }
  specialize (H _ _ _ _ _ _ _ _ _ _ _ 2%nat [1; 2] X1 X2 X3 HE). rewrite X4 in H. discriminate H.
Qed.
Print Assumptions C17_gap_refuted.
(** (d) the number of specified DOFs is added up: after merging two models with one fixed DOF each
    it is 3, not 2. *)
Definition exF1 := mkP [1; 2] [1; 1]%nat [1] [[0; 1]] [bc0 1] [].
Theorem C17_nspdof_refuted : ~ forall nA nB psA psB h fuel junk a b h' m,
  samInit fuel junk h psA nA = Some (true, a) -> samInit fuel junk h psB nB = Some (true, b) -> samMerge fuel junk h a b = Some (true, h', m) ->
  nspdof (spTab m) = length (filter (fun c => c <=? 0) (msc (spTab m))).
Proof.
  intros H. assert (X : exists a b h' m, samInit 5 0 [] [exF1] 2 = Some (true, a) /\ samInit 5 0 [] [exF1] 2 = Some (true, b) /\ samMerge 5 0 [] a b = Some (true, h', m) /\
     nspdof (spTab m) = 3%nat /\ length (filter (fun c => c <=? 0) (msc (spTab m))) = 2%nat).
  { eexists. eexists. eexists. eexists. split; [vm_compute; reflexivity|]. split; [vm_compute; reflexivity|]. split; [vm_compute; reflexivity|]. split; vm_compute; reflexivity. }
  destruct X as (a & b & h' & m & X1 & X2 & X3 & X4 & X5). specialize (H _ _ _ _ _ _ _ _ _ _ _ X1 X2 X3). rewrite X4, X5 in H. discriminate H.
Qed.
Print Assumptions C17_nspdof_refuted.
(** (e) as (a), but the ignored constraint comes last: the array of row pointers is written out of bounds. *)
Definition exK := mkP [1; 2; 3] [1; 1; 1]%nat [1] [[0; 1; 2]] [bc0 1] [1; 0]%nat.
Theorem C17_overflow_refuted : ~ forall nA nB psA psB h fuel junk a b, elmsFull psA -> elmsFull psB ->
  samInit fuel junk h psA nA = Some (true, a) -> samInit fuel junk h psB nB = Some (true, b) -> samMerge fuel junk h a b <> None.
Proof.
  intros H. assert (X : exists a b, samInit 5 0 exGh [exK] 3 = Some (true, a) /\ samInit 5 0 exGh [exE] 1 = Some (true, b) /\ samMerge 5 0 exGh a b = None).
  { eexists. eexists. split; [vm_compute; reflexivity|]. split; [vm_compute; reflexivity|]. vm_compute. reflexivity. }
  destruct X as (a & b & X1 & X2 & X3).
  apply (H 3%nat 1%nat [exK] [exE] exGh 5%nat 0%nat a b); [| |exact X1|exact X2|exact X3].
  - split; [intros p e [<-|[]] He; cbn in He; repeat destruct He as [<-|He]; try contradiction; lia|reflexivity].
  - split; [intros p e [<-|[]] He; cbn in He; repeat destruct He as [<-|He]; try contradiction; lia|reflexivity].
Qed.
Print Assumptions C17_overflow_refuted.
