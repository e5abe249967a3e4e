(** Proofs about renumbering of conditions and about the inverse map. *)
From Coq Require Import List Sorted Arith ZArith QArith Qcanon Bool Lia Permutation.
From Verif Require Import Base MPC_model MPC_spec MPC_proofs ASMbc_model ASMbc_spec ASMnum_model ASMnum_spec ASMnum_proofs.
Import ListNotations.
Local Open Scope Z_scope.

Definition known (m : list (Z * Z)) (n : Z) : bool := match zfind n m with Some _ => true | None => false end.
Lemma sig_known m n v : zfind n m = Some v -> sig m n = v. Proof. unfold sig. intros ->. reflexivity. Qed.
Lemma sig_unknown m n : zfind n m = None -> sig m n = n. Proof. unfold sig. intros ->. reflexivity. Qed.
Lemma moveBC_id b s : s (bnode b) = bnode b -> moveBC s b = b.
Proof. intros H. unfold moveBC. rewrite H. destruct b; reflexivity. Qed.
Lemma renumBCs_eq drop m l :
  renumBCs drop m l = (map (moveBC (sig m)) (filter (fun b => negb drop || known m (bnode b)) l), length (filter (fun b => negb (known m (bnode b))) l)).
Proof.
  induction l as [|b l IH]; cbn [renumBCs filter map]; [reflexivity|]. rewrite IH. unfold known. destruct (zfind (bnode b) m) as [v|] eqn:F.
  - rewrite orb_true_r. cbn [negb map]. unfold moveBC at 2. rewrite (sig_known _ _ _ F). reflexivity.
  - cbn [negb length]. rewrite orb_false_r. destruct drop; cbn [negb map]; [reflexivity|]. rewrite moveBC_id; [reflexivity|apply sig_unknown; auto].
Qed.
Lemma renumDof_move m d : renumDof m d = moveDof (sig m) d.
Proof. unfold renumDof, moveDof, sig. destruct (zfind (dnode d) m); destruct d; reflexivity. Qed.
Lemma renumMPC_move m x : snd (renumberMPC m x) = moveMPC (sig m) x.
Proof. unfold renumberMPC, moveMPC. cbn [snd]. rewrite renumDof_move. f_equal. apply map_ext. intros. apply renumDof_move. Qed.
Lemma badDof_known m d : badDof m d = if known m (dnode d) then 0%nat else 1%nat.
Proof. unfold badDof, known. destruct (zfind _ _); reflexivity. Qed.
Lemma list_sum_zero l : list_sum l = 0%nat <-> forall x, In x l -> x = 0%nat.
Proof.
  induction l as [|a l IH]; cbn [list_sum fold_right In]; [intuition|]. change (fold_right Nat.add 0%nat l) with (list_sum l). split.
  - intros H x [<-|Hx]; [lia|]. apply IH; [lia|auto].
  - intros H. assert (a = 0%nat) by (apply H; auto). assert (list_sum l = 0%nat) by (apply IH; intros; apply H; auto). lia.
Qed.
Lemma renumMPC_zero m x : fst (renumberMPC m x) = 0%nat <-> known m (dnode (mslave x)) = true /\ forall d, In d (mmast x) -> known m (dnode d) = true.
Proof.
  unfold renumberMPC. cbn [fst]. rewrite badDof_known. split.
  - intros H. assert (A : list_sum (map (badDof m) (mmast x)) = 0%nat) by lia. split; [destruct (known m (dnode (mslave x))); [reflexivity|lia]|].
    intros d Hd. rewrite list_sum_zero in A. specialize (A (badDof m d) (in_map _ _ _ Hd)). rewrite badDof_known in A. destruct (known m (dnode d)); [reflexivity|lia].
  - intros [-> H]. cbn. apply list_sum_zero. intros y Hy. apply in_map_iff in Hy. destruct Hy as (d & <- & Hd). rewrite badDof_known, (H d Hd). reflexivity.
Qed.
Definition allKnown (m : list (Z * Z)) (p : npatch) : Prop := forall n, Refers p n -> known m n = true.
Lemma renumConds_eq p m :
  let '(ok, q) := renumConds p m 0 in
  (ok = true <-> (length m <= 1)%nat \/ allKnown m p) /\
  pBC (nb q) = map (moveBC (sig m)) (filter (fun b => negb (1 <? length m)%nat || known m (bnode b)) (pBC (nb p))) /\
  pEQ (nb q) = map (fun x => (moveMPC (sig m) (fst x), snd x)) (pEQ (nb p)) /\
  nums q = nums p /\ pnf (nb q) = pnf (nb p) /\ pnnod (nb q) = pnnod (nb p) /\ nMNPC q = nMNPC p /\ nMLGE q = nMLGE p.
Proof.
  unfold renumConds. rewrite andb_true_r. cbn [Z.ltb Z.compare andb]. rewrite renumBCs_eq.
  change ((1 <? length m)%nat && true) with ((1 <? length m)%nat && true). rewrite ?andb_true_r.
  split; [|split; [reflexivity|split; [|repeat split; reflexivity]]].
  2:{ cbn [nb pEQ]. apply map_ext. intros x. rewrite renumMPC_move. reflexivity. }
  set (n2 := length (filter _ (pBC (nb p)))). set (n3 := list_sum _).
  assert (Z23 : (0 + n2 + n3 = 0)%nat <-> allKnown m p).
  { split.
    - intros H. assert (H2 : n2 = 0%nat) by lia. assert (H3 : n3 = 0%nat) by lia. intros n [(b & Hb & <-)|(x & Hx & R)].
      + pose proof (filter_len0 _ _ H2 b Hb) as Q. apply negb_false_iff in Q. exact Q.
      + unfold n3 in H3. rewrite list_sum_zero in H3. unfold eqns in Hx. apply in_map_iff in Hx. destruct Hx as (e & <- & He).
        specialize (H3 (fst (renumberMPC m (fst e))) ltac:(apply in_map_iff; exists e; auto)). apply renumMPC_zero in H3. destruct H3 as [K1 K2].
        destruct R as [<-|(d & Hd & <-)]; auto.
    - intros A. assert (n2 = 0%nat).
      { unfold n2. assert (E : filter (fun b => negb (known m (bnode b))) (pBC (nb p)) = []); [|rewrite E; reflexivity].
        destruct (filter _ _) as [|b r] eqn:E; [reflexivity|]. exfalso. assert (K : In b (b :: r)) by (left; auto). rewrite <- E in K. apply filter_In in K. destruct K as [K1 K2].
        rewrite (A (bnode b)) in K2; [discriminate K2|]. left. exists b. auto. }
      assert (n3 = 0%nat).
      { unfold n3. apply list_sum_zero. intros y Hy. apply in_map_iff in Hy. destruct Hy as (e & <- & He). apply renumMPC_zero. split.
        - apply A. right. exists (fst e). split; [apply in_map; auto|auto].
        - intros d Hd. apply A. right. exists (fst e). split; [apply in_map; auto|]. right. exists d. auto. }
      lia. }
  rewrite <- Z23. destruct (Nat.ltb_spec 0 (0 + n2 + n3)), (Nat.ltb_spec 1 (length m)); cbn [andb negb]; split; intros; try reflexivity; try discriminate; try lia.
Qed.

(** the field of displacements through a renaming *)
Lemma form_move s u x : rhs u (moveMPC s x) = rhs (pullback s u) x.
Proof.
  unfold rhs, moveMPC. cbn [mslave mmast]. unfold moveDof at 1. cbn [dcoef]. f_equal. rewrite qs_map. apply qs_ext. intros d _. reflexivity.
Qed.
Lemma fixedIn_move s b d : fixedIn (moveBC s b) d <-> fixedIn b d. Proof. unfold fixedIn, moveBC. cbn. tauto. Qed.
Lemma admissible_move s l p q u : renamedAll s false l p q -> admissible u (nb q) <-> admissible (pullback s u) (nb p).
Proof.
  intros (En & Eb & Ee & _). unfold admissible.
  assert (E0 : forall L : list bc, filter (fun b => negb false || (if in_dec Z.eq_dec (bnode b) l then true else false)) L = L).
  { induction L as [|b L IH]; [reflexivity|]. cbn [filter negb orb] in *. rewrite IH. reflexivity. }
  rewrite E0 in Eb.
  assert (A : (forall n d, Fixed (nb q) n d -> u (n, d) = 0%Qc) <-> (forall n d, Fixed (nb p) n d -> pullback s u (n, d) = 0%Qc)).
  { unfold Fixed, pullback. rewrite Eb. cbn [fst snd]. split.
    - intros H n d (b & Hb & <- & Fx). apply H. exists (moveBC s b). split; [apply in_map; auto|]. split; [reflexivity|]. apply fixedIn_move; auto.
    - intros H n d (b & Hb & <- & Fx). apply in_map_iff in Hb. destruct Hb as (b0 & <- & Hb0). apply (H (bnode b0) d). exists b0. split; [auto|]. split; [reflexivity|]. apply fixedIn_move in Fx. auto. }
  assert (B : satisfies u (eqns (nb q)) <-> satisfies (pullback s u) (eqns (nb p))).
  { unfold satisfies, eqns. rewrite Ee, map_map. cbn [fst]. rewrite !Forall_forall. split.
    - intros H x Hx. apply in_map_iff in Hx. destruct Hx as (e & <- & He). specialize (H (moveMPC s (fst e)) ltac:(apply in_map_iff; exists e; auto)).
      unfold holds in *. rewrite form_move in H. exact H.
    - intros H x Hx. apply in_map_iff in Hx. destruct Hx as (e & <- & He). specialize (H (fst e) ltac:(apply in_map; auto)). unfold holds in *. rewrite form_move. exact H. }
  tauto.
Qed.

(** ** the inverse map *)
Lemma nth_error_upd_eq {A} k (x : A) l : (k < length l)%nat -> nth_error (upd k x l) k = Some x.
Proof. revert l. induction k as [|k IH]; intros [|y l] H; cbn [length] in H; try lia; cbn [upd nth_error]; [reflexivity|apply IH; lia]. Qed.
Lemma nth_error_upd_ne {A} k j (x : A) l : j <> k -> nth_error (upd k x l) j = nth_error l j.
Proof. revert j l. induction k as [|k IH]; intros [|j] [|y l] H; cbn [upd nth_error]; try reflexivity; try lia. apply IH. lia. Qed.
Lemma loc2glb_len n m : length (loc2glb n m) = n.
Proof.
  unfold loc2glb. assert (G : forall m l, length (fold_left (fun l (kv : Z * Z) => if (0 <? snd kv) && (snd kv <=? Z.of_nat n) then upd (Z.to_nat (snd kv) - 1) (fst kv) l else l) m l) = length l).
  { clear m. induction m as [|kv m IH]; intros l; cbn [fold_left]; [reflexivity|]. rewrite IH. destruct (_ && _); [apply upd_length|reflexivity]. }
  rewrite G. apply repeat_length.
Qed.
Lemma loc2glb_nth n m k v : NoDup (map snd m) -> In (k, v) m -> 1 <= v <= Z.of_nat n -> nth_error (loc2glb n m) (Z.to_nat v - 1) = Some k.
Proof.
  intros N I B. unfold loc2glb.
  assert (G : forall m l, length l = n -> NoDup (map snd m) ->
    (In (k, v) m -> nth_error (fold_left (fun l (kv : Z * Z) => if (0 <? snd kv) && (snd kv <=? Z.of_nat n) then upd (Z.to_nat (snd kv) - 1) (fst kv) l else l) m l) (Z.to_nat v - 1) = Some k) /\
    (~ In v (map snd m) -> nth_error (fold_left (fun l (kv : Z * Z) => if (0 <? snd kv) && (snd kv <=? Z.of_nat n) then upd (Z.to_nat (snd kv) - 1) (fst kv) l else l) m l) (Z.to_nat v - 1) = nth_error l (Z.to_nat v - 1))).
  { clear m N I. induction m as [|[a b] m IH]; intros l L N; cbn [fold_left map In fst snd]; [split; [intros []|auto]|]. inversion N as [|? ? N1 N2]; subst.
    set (l' := if (0 <? b) && (b <=? Z.of_nat (length l)) then upd (Z.to_nat b - 1) a l else l).
    assert (L' : length l' = length l) by (unfold l'; destruct (_ && _); [apply upd_length|reflexivity]).
    destruct (IH l' L' N2) as [I1 I2]. split.
    - intros [E|E]; [|apply I1; auto]. inversion E. subst. rewrite I2 by auto. unfold l'.
      destruct (Z.ltb_spec 0 v); [|lia]. destruct (Z.leb_spec v (Z.of_nat (length l))); [|lia]. cbn [andb]. rewrite nth_error_upd_eq; [reflexivity|lia].
    - intros NI. rewrite I2 by tauto. unfold l'. destruct (Z.ltb_spec 0 b); [|reflexivity]. destruct (Z.leb_spec b (Z.of_nat (length l))); [|reflexivity]. cbn [andb].
      apply nth_error_upd_ne. intros K. apply NI. left. lia. }
  destruct (G m (repeat 0 n) (repeat_length _ _) N) as [G1 _]. auto.
Qed.

(** ** the whole renumbering *)
Lemma table_known m l s : msorted m -> tableOf m l s -> forall n, known m n = (if in_dec Z.eq_dec n l then true else false) /\ (In n l -> sig m n = s n).
Proof.
  intros S T n. unfold known, sig. destruct (zfind n m) as [v|] eqn:F.
  - apply zfind_In in F. apply T in F. destruct F as [F ->]. destruct (in_dec _ _ _); [auto|contradiction].
  - destruct (in_dec Z.eq_dec n l) as [I|I]; [|split; [reflexivity|contradiction]]. exfalso.
    assert (K : In (n, s n) m) by (apply T; auto). apply (In_zfind _ _ _ S) in K. congruence.
Qed.
Lemma table_snd_NoDup m l s N : msorted m -> tableOf m l s -> bijective s l N -> NoDup (map snd m).
Proof.
  intros S T (Inj & _). assert (ND : NoDup (map fst m)) by (apply sorted_lt_NoDup; exact S).
  assert (A : forall a b, In (a, b) m -> In a l /\ b = s a) by (intros; apply T; auto). clear T S. induction m as [|[a b] m IH]; cbn [map fst snd] in *; constructor.
  - inversion ND as [|? ? N1 N2]; subst. intros K. apply in_map_iff in K. destruct K as ([a' b'] & E & K). cbn [snd] in E. subst b'.
    destruct (A a b (or_introl eq_refl)) as [A1 A2]. destruct (A a' b (or_intror K)) as [A3 A4]. assert (EE : a = a') by (apply Inj; auto; congruence). rewrite EE in N1.
    apply N1. apply in_map_iff. exists (a', b). auto.
  - inversion ND. apply IH; auto. intros; apply A; right; auto.
Qed.
Lemma table_len m l s : msorted m -> tableOf m l s -> Z.of_nat (length m) = distinct l.
Proof.
  intros S T. rewrite (distinct_eq l (map fst m)); [rewrite map_length; reflexivity|apply sorted_lt_NoDup; exact S|].
  intros a. rewrite in_map_iff. split; [intros ([x y] & <- & K); apply T in K; tauto|]. intros K. exists (a, s a). split; [reflexivity|]. apply T. auto.
Qed.
Lemma conds_all m l s ps0 ps1 : msorted m -> tableOf m l s -> Forall2 (renamed s) ps0 ps1 -> (forall p n, In p ps0 -> In n (nums p) -> In n l) ->
  Forall2 (renamedAll (total s l) (1 <? length m)%nat l) ps0 (map snd (map (fun p => renumConds p m 0) ps1)) /\
  (forallb fst (map (fun p => renumConds p m 0) ps1) = true <-> (length m <= 1)%nat \/ forall p n, In p ps0 -> Refers p n -> In n l).
Proof.
  intros S T F.
  assert (E : forall n, sig m n = total s l n).
  { intros n. unfold total. destruct (table_known m l s S T n) as [K1 K2]. destruct (in_dec _ _ _) as [I|I]; [auto|]. unfold known in K1. unfold sig. destruct (zfind n m); [discriminate K1|reflexivity]. }
  induction F as [|p q ps0 ps1 H F IH]; intros Sub; cbn [map forallb].
  - split; [constructor|]. split; [intros _; right; intros p n []|auto].
  - destruct IH as [IH1 IH2]; [intros; eapply Sub; [right|]; eauto|]. pose proof (renumConds_eq q m) as R. destruct (renumConds q m 0) as [ok q']. cbn [fst snd].
    destruct R as (R1 & R2 & R3 & R4 & R5 & R6 & R7 & R8). destruct H as (H1 & H2 & H3 & H4 & H5 & H6 & H7). split.
    + constructor; [|exact IH1]. unfold renamedAll. rewrite R2, R3, R4, R5, R6, R7, R8, H1, H2, H3, H4, H5, H6, H7.
      split; [apply map_ext_in; intros n Hn; unfold total; destruct (in_dec _ _ _) as [I|I]; [reflexivity|exfalso; apply I; eapply Sub; [left|]; eauto]|].
      split; [|split; [apply map_ext; intros x; f_equal; unfold moveMPC, moveDof; rewrite E; f_equal; apply map_ext; intros d; rewrite E; reflexivity|repeat split]].
      rewrite (filter_ext _ (fun b => negb (1 <? length m)%nat || (if in_dec Z.eq_dec (bnode b) l then true else false))).
      * apply map_ext. intros b. unfold moveBC. rewrite E. reflexivity.
      * intros b. destruct (table_known m l s S T (bnode b)) as [-> _]. reflexivity.
    + rewrite andb_true_iff, R1, IH2.
      assert (AK : allKnown m q <-> forall n, Refers p n -> In n l).
      { unfold allKnown. assert (RR : forall n, Refers q n <-> Refers p n) by (intros n; unfold Refers, eqns; rewrite H4, H5; tauto).
        split; intros A n Hn.
        - specialize (A n (proj2 (RR n) Hn)). destruct (table_known m l s S T n) as [K _]. rewrite K in A. destruct (in_dec _ _ _); [auto|discriminate A].
        - destruct (table_known m l s S T n) as [K _]. rewrite K. destruct (in_dec _ _ _) as [I|I]; [reflexivity|]. exfalso. apply I, A, RR; auto. }
      rewrite AK. split.
      * intros [[A|A] [B|B]]; auto. right. intros p' n [<-|Hp] Hn; eauto.
      * intros [A|A]; [auto|]. split; right; [intros n; apply A; left; auto|intros; eapply A; [right|]; eauto].
Qed.
Lemma simRenumber_ok preserve ps r ps' m inv : (preserve = true -> forall n, In n (allNodes ps) -> 1 <= n) ->
  simRenumber preserve ps = (r, ps', m, inv) ->
  exists s, tableOf m (allNodes ps) s /\ bijective s (allNodes ps) (distinct (allNodes ps)) /\
    (preserve = true -> forall a b, In a (allNodes ps) -> In b (allNodes ps) -> a < b -> s a < s b) /\
    (preserve = false -> forall l1 n l2, allNodes ps = l1 ++ n :: l2 -> ~ In n l1 -> s n = distinct l1 + 1) /\
    Forall2 (renamedAll (total s (allNodes ps)) (1 <? distinct (allNodes ps)) (allNodes ps)) ps ps' /\
    Z.of_nat (length inv) = distinct (allNodes ps) /\
    (forall a, In a (allNodes ps) -> nth_error inv (Z.to_nat (s a) - 1) = Some a) /\
    Z.abs r = distinct (allNodes ps) /\
    (r <= 0 <-> distinct (allNodes ps) = 0 \/ (1 < distinct (allNodes ps) /\ ~ (forall p n, In p ps -> Refers p n -> In n (allNodes ps)))).
Proof.
  intros Pos H. unfold simRenumber in H.
  assert (Q : exists ps1 s, Forall2 (renamed s) ps ps1 /\ msorted m /\ tableOf m (allNodes ps) s /\ bijective s (allNodes ps) (distinct (allNodes ps)) /\
    (preserve = true -> forall a b, In a (allNodes ps) -> In b (allNodes ps) -> a < b -> s a < s b) /\
    (preserve = false -> forall l1 n l2, allNodes ps = l1 ++ n :: l2 -> ~ In n l1 -> s n = distinct l1 + 1) /\
    ((if forallb fst (map (fun p => renumConds p m 0) ps1) then distinct (allNodes ps) else - distinct (allNodes ps)),
     map snd (map (fun p => renumConds p m 0) ps1), loc2glb (Z.to_nat (distinct (allNodes ps))) m) = (r, ps', inv)).
  { destruct preserve.
    - destruct (renumOrdered ps []) as [[ps1 c] m1] eqn:O. destruct (ordered_ok ps ps1 c m1 (Pos eq_refl) O) as (S & T & F & L & _ & _).
      destruct (rank_bij (allNodes ps) (Pos eq_refl)) as [B Mo]. rewrite L in H. exists ps1, (rank (allNodes ps)). inversion H. subst m1.
      split; [exact F|]. split; [exact S|]. split; [exact T|]. split; [exact B|]. split; [intros _; exact Mo|]. split; [intros K; discriminate K|reflexivity].
    - destruct (renumModel ps 0 []) as [[[ps1 c] N] m1] eqn:O. destruct (firstCome_ok ps ps1 c N m1 O) as (s & T & F & B & EN & _ & FC).
      pose proof (renumModel_inv ps [] 0 [] fcInv_nil) as R. rewrite O in R. destruct R as ((S & _) & _). subst N.
      exists ps1, s. inversion H. subst m1. split; [exact F|]. split; [exact S|]. split; [exact T|]. split; [exact B|]. split; [intros K; discriminate K|]. split; [intros _; exact FC|reflexivity]. }
  destruct Q as (ps1 & s & F & S & T & B & Mo & FC & E). exists s. pose proof (table_len m _ s S T) as L. pose proof (distinct_nonneg (allNodes ps)) as NN.
  destruct (conds_all m (allNodes ps) s ps ps1 S T F) as [C1 C2]; [intros; eapply in_allNodes; eauto|].
  assert (E1 : (1 <? length m)%nat = (1 <? distinct (allNodes ps))). { destruct (Nat.ltb_spec 1 (length m)), (Z.ltb_spec 1 (distinct (allNodes ps))); try reflexivity; lia. }
  rewrite E1 in C1. inversion E. subst ps' inv.
  split; [exact T|]. split; [exact B|]. split; [exact Mo|]. split; [exact FC|]. split; [exact C1|]. split; [rewrite loc2glb_len; lia|]. split; [|split].
  - intros a Ha. apply loc2glb_nth; [eapply table_snd_NoDup; eauto|apply T; auto|]. destruct B as (_ & B & _). specialize (B a Ha). lia.
  - destruct (forallb _ _); lia.
  - destruct (forallb fst (map (fun p : npatch => renumConds p m 0) ps1)) eqn:A.
    + destruct C2 as [C2 _]. specialize (C2 eq_refl). split; [intros Hr|].
      * left. lia.
      * intros [D|[D1 D2]]; [lia|]. destruct C2 as [C2|C2]; [lia|contradiction].
    + split; [intros _|lia]. destruct (Z.eq_dec (distinct (allNodes ps)) 0) as [D|D]; [left; auto|]. right.
      destruct C2 as [_ C2]. split.
      * destruct (Z.ltb_spec 1 (distinct (allNodes ps))); [lia|]. exfalso. assert (false = true) as K by (apply C2; left; lia). discriminate K.
      * intros K. assert (false = true) as K2 by (apply C2; right; exact K). discriminate K2.
Qed.
Lemma less_true a b : mpcLess true (Some a) (Some b) = true <->
  dnode (mslave a) < dnode (mslave b) \/ (dnode (mslave a) = dnode (mslave b) /\ dldof (mslave a) < dldof (mslave b)).
Proof.
  unfold mpcLess, dofLess.
  destruct (Z.ltb_spec (dnode (mslave a)) (dnode (mslave b))); [split; [intros; lia|auto]|].
  destruct (Z.ltb_spec (dnode (mslave b)) (dnode (mslave a))); [split; [intros K; discriminate K|intros; lia]|].
  destruct (Z.ltb_spec (dldof (mslave a)) (dldof (mslave b))); [split; [intros; lia|auto]|].
  destruct (Z.ltb_spec (dldof (mslave b)) (dldof (mslave a))); (split; [intros K; discriminate K|intros; lia]).
Qed.
Lemma increasing_move s l : (forall m1 m2, In m1 l -> In m2 l -> dnode (mslave m1) < dnode (mslave m2) -> s (dnode (mslave m1)) < s (dnode (mslave m2))) ->
  increasing (mpcLess true) l -> increasing (mpcLess true) (map (moveMPC s) l).
Proof.
  intros Mo H. revert Mo. unfold increasing in *. induction H as [|a l St IH F]; intros Mo; cbn [map]; constructor.
  - apply IH. intros; apply Mo; auto; right; auto.
  - rewrite Forall_forall in *. intros x Hx. apply in_map_iff in Hx. destruct Hx as (b & <- & Hb). specialize (F b Hb).
    pose proof (Mo a b (or_introl eq_refl) (or_intror Hb)) as M1.
    apply less_true in F. apply less_true. cbn [moveMPC mslave moveDof dnode dldof]. destruct F as [F|[F1 F2]]; [left; auto|right; rewrite F1; auto].
Qed.
Lemma NoDup_map_inj {A} (f : A -> Z) (g : Z -> Z) l : NoDup (map f l) -> (forall a b, In a l -> In b l -> g (f a) = g (f b) -> f a = f b) -> NoDup (map (fun x => g (f x)) l).
Proof.
  induction l as [|x l IH]; cbn [map]; intros N I; [constructor|]. inversion N as [|? ? N1 N2]; subst. constructor.
  - intros K. apply in_map_iff in K. destruct K as (y & E & Hy). apply N1. assert (f y = f x) as <- by (apply I; [right; auto|left; auto|auto]). apply in_map. auto.
  - apply IH; auto. intros; apply I; auto; right; auto.
Qed.
Lemma filter_all_true {A} (f : A -> bool) l : (forall x, In x l -> f x = true) -> filter f l = l.
Proof. induction l as [|x l IH]; intros H; [reflexivity|]. cbn [filter]. rewrite (H x) by (left; auto). rewrite IH; auto. intros; apply H; right; auto. Qed.
Lemma renamedAll_nodrop s drop l p q : (forall n, Refers p n -> In n l) -> renamedAll s drop l p q -> renamedAll s false l p q.
Proof.
  intros R (H1 & H2 & H3). split; [auto|]. split; [|auto]. rewrite H2. rewrite !filter_all_true; [reflexivity| |]; intros b Hb; [reflexivity|].
  destruct (in_dec _ _ _) as [I|I]; [apply orb_true_r|]. exfalso. apply I, R. left. exists b. auto.
Qed.
Lemma wf_move s l p q : renamedAll s false l p q -> (forall n, Refers p n -> In n l) -> (forall a b, In a l -> In b l -> a < b -> s a < s b) ->
  wf (nb p) -> wf (nb q).
Proof.
  intros (H1 & H2 & H3 & _) R Mo [W1 W2].
  assert (HB : forall b, In b (pBC (nb p)) -> In (bnode b) l) by (intros b Hb; apply R; left; exists b; auto).
  assert (HE : forall m, In m (eqns (nb p)) -> In (dnode (mslave m)) l) by (intros m Hm; apply R; right; exists m; auto).
  split.
  - rewrite H2. rewrite (filter_all_true _ (pBC (nb p))) by (intros; reflexivity). rewrite map_map.
    apply (NoDup_map_inj bnode s); [auto|]. intros a b Ha Hb E. pose proof (Mo _ _ (HB a Ha) (HB b Hb)). pose proof (Mo _ _ (HB b Hb) (HB a Ha)). lia.
  - unfold eqns in *. rewrite H3, map_map. cbn [fst]. rewrite <- (map_map fst (moveMPC s)). apply increasing_move; [|auto]. intros m1 m2 K1 K2. apply Mo; auto.
Qed.
