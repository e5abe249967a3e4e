(** Element connectivity (initElementConn). *)
From Coq Require Import List Sorted Permutation Arith ZArith QArith Qcanon Bool Lia.
From Verif Require Import Base SAM_model SAM_spec MPC_model MPC_spec SAMpatch_model SAMpatch_spec SAMpatch_proofs.
Import ListNotations.
Local Open Scope Z_scope.

Notation elm := (Z * list Z)%type.
Definition lt1 (a b : elm) : Prop := fst a < fst b.
Definition lookup (e : nat) (m : list elm) : list Z :=
  match find (fun x => fst x =? Z.of_nat e) m with Some x => snd x | None => [] end.

(** ** the sorted map *)
Lemma mapInsert_spec e : forall l, StronglySorted lt1 l ->
  match mapInsert e l with
  | Some l' => StronglySorted lt1 l' /\ Permutation (e :: l) l' /\ ~ In (fst e) (map fst l)
  | None => In (fst e) (map fst l)
  end.
Proof.
  induction l as [|x l IH]; intros S; cbn [mapInsert].
  - split; [repeat constructor|]. split; [reflexivity|intros []].
  - inversion S as [|? ? S1 S2]; subst. specialize (IH S1). destruct (Z.ltb_spec (fst x) (fst e)).
    + destruct (mapInsert e l) as [l'|].
      * destruct IH as (A & B & C). split; [|split].
        -- constructor; [exact A|]. rewrite Forall_forall in *. intros y Hy. apply (Permutation_in _ (Permutation_sym B)) in Hy. destruct Hy as [<-|Hy]; [exact H|apply S2; exact Hy].
        -- rewrite perm_swap. constructor. exact B.
        -- cbn. intros [Q|Q]; [lia|contradiction].
      * right. exact IH.
    + destruct (Z.ltb_spec (fst e) (fst x)).
      * split; [|split; [reflexivity|]].
        -- constructor; [exact S|]. constructor; [exact H0|]. rewrite Forall_forall in *. intros y Hy. specialize (S2 y Hy). unfold lt1 in *. lia.
        -- cbn. intros [Q|Q]; [lia|]. apply in_map_iff in Q. destruct Q as (y & E & Hy). rewrite Forall_forall in S2. specialize (S2 y Hy). unfold lt1 in S2. lia.
      * left. lia.
Qed.
Lemma buildMap_spec : forall es l, StronglySorted lt1 l ->
  match buildMap es l with
  | Some m => StronglySorted lt1 m /\ Permutation (es ++ l) m /\ (NoDup (map fst l) -> NoDup (map fst (es ++ l)))
  | None => ~ NoDup (map fst (es ++ l))
  end.
Proof.
  induction es as [|e es IH]; intros l S; cbn [buildMap].
  - split; [exact S|]. split; [reflexivity|auto].
  - pose proof (mapInsert_spec e l S) as H. destruct (mapInsert e l) as [l'|].
    + destruct H as (A & B & C). specialize (IH l' A).
      assert (P : Permutation (es ++ l') ((e :: es) ++ l)).
      { cbn [app]. rewrite <- B. symmetry. apply Permutation_middle. }
      destruct (buildMap es l') as [m|].
      * destruct IH as (D & E & F). split; [exact D|]. split; [rewrite <- E; symmetry; exact P|].
        intros N. apply (Permutation_NoDup (Permutation_map fst P)), F.
        apply (Permutation_NoDup (Permutation_map fst B)). cbn. constructor; assumption.
      * intros N. apply IH. apply (Permutation_NoDup (Permutation_map fst (Permutation_sym P))). exact N.
    + cbn [app map]. intros N. inversion N as [|? ? N1 N2]; subst. apply N1. rewrite map_app. apply in_app_iff. right. exact H.
Qed.

(** ** pointers *)
Lemma last_app {X} (a b : list X) d : b <> [] -> last (a ++ b) d = last b d.
Proof.
  intros H. induction a as [|x a IH]; [reflexivity|]. rewrite <- IH. cbn [app]. destruct (a ++ b) eqn:E; [destruct a; [contradiction|discriminate]|]. reflexivity.
Qed.
Lemma last_nth {X} (l : list X) d : last l d = nth (length l - 1) l d.
Proof.
  induction l as [|x l IH]; [reflexivity|]. destruct l as [|y l]; [reflexivity|]. change (last (x :: y :: l) d) with (last (y :: l) d). rewrite IH. cbn [length]. replace (S (S (length l)) - 1)%nat with (S (length l)) by lia. cbn [nth]. replace (S (length l) - 1)%nat with (length l) by lia. reflexivity.
Qed.
Lemma lookup_none e m : Forall (fun x => fst x <> Z.of_nat e) m -> lookup e m = [].
Proof.
  unfold lookup. induction 1 as [|x m H _ IH]; [reflexivity|]. cbn [find]. destruct (Z.eqb_spec (fst x) (Z.of_nat e)); [contradiction|exact IH].
Qed.
Definition maxId (m : list elm) : Z := fold_right Z.max 0 (map fst m).
Lemma maxId_perm a b : Permutation a b -> maxId a = maxId b.
Proof. unfold maxId. induction 1; cbn; lia. Qed.
Lemma maxId_ge m x : In x m -> fst x <= maxId m.
Proof. unfold maxId. induction m as [|y m IH]; [intros []|]. intros [->|H]; cbn; [lia|]. specialize (IH H). lia. Qed.
Lemma maxId_0 m : 0 <= maxId m.
Proof. unfold maxId. induction m; cbn; lia. Qed.
Lemma newPtrs_spec : forall m P D, P <> [] -> last P 0%nat = S (length D) -> StronglySorted lt1 m -> Forall (fun x => Z.of_nat (length P) <= fst x) m ->
  (exists T, newPtrs m P = P ++ T) /\
  length (newPtrs m P) = Nat.max (length P) (if m then 0%nat else S (Z.to_nat (maxId m))) /\
  last (newPtrs m P) 0%nat = S (length (D ++ flat_map snd m)) /\
  (forall e, (length P <= e)%nat -> connOf (newPtrs m P) (D ++ flat_map snd m) e = lookup e m) /\
  (forall i, (length P <= S i < length (newPtrs m P))%nat -> (nth i (newPtrs m P) 0 <= nth (S i) (newPtrs m P) 0 <= S (length (D ++ flat_map snd m)))%nat).
Proof.
  induction m as [|[id ns] m IH]; intros P D NP LP SS FA.
  - cbn [newPtrs]. split; [exists []; rewrite app_nil_r; reflexivity|]. split; [lia|]. split; [cbn; rewrite app_nil_r; exact LP|]. split.
    + intros e He. unfold connOf. rewrite (nth_overflow P) by exact He. reflexivity.
    + intros i Hi. lia.
  - inversion SS as [|? ? SS1 SS2]; subst. inversion FA as [|? ? FA1 FA2]; subst. cbn [fst] in FA1.
    assert (LP0 : (1 <= length P)%nat) by (destruct P; [contradiction|cbn; lia]).
    set (l := last P 0%nat) in *. set (P' := P ++ repeat l (Z.to_nat id - length P) ++ [(l + length ns)%nat]).
    assert (E0 : newPtrs ((id, ns) :: m) P = newPtrs m P') by reflexivity. rewrite E0.
    assert (LP' : length P' = S (Z.to_nat id)).
    { unfold P'. rewrite !app_length, repeat_length. cbn. lia. }
    destruct (IH P' (D ++ ns)) as ((T & IT) & IL & ILa & IC & IM).
    + unfold P'. destruct P; [contradiction|discriminate].
    + unfold P'. rewrite app_assoc, last_app by discriminate. cbn [last]. rewrite app_length. lia.
    + exact SS1.
    + rewrite LP'. rewrite Forall_forall in *. intros x Hx. specialize (SS2 x Hx). unfold lt1 in SS2. cbn in SS2. lia.
    + assert (ED : (D ++ ns) ++ flat_map snd m = D ++ flat_map snd ((id, ns) :: m)) by (cbn [flat_map snd]; rewrite app_assoc; reflexivity).
      rewrite ED in *.
      assert (NB : forall i, (length P <= i < Z.to_nat id)%nat -> nth i (newPtrs m P') 0%nat = l).
      { intros i Hi. rewrite IT, app_nth1 by lia. unfold P'. rewrite app_nth2, app_nth1 by (rewrite ?repeat_length; lia). rewrite nth_indep with (d' := l) by (rewrite repeat_length; lia). apply nth_repeat. }
      assert (NL : nth (Z.to_nat id - 1) (newPtrs m P') 0%nat = l).
      { destruct (Nat.eq_dec (Z.to_nat id) (length P)) as [Q|Q].
        - rewrite IT, app_nth1 by lia. unfold P'. rewrite app_nth1 by lia. unfold l. rewrite last_nth, Q. reflexivity.
        - apply NB. lia. }
      assert (NI : nth (Z.to_nat id) (newPtrs m P') 0%nat = (l + length ns)%nat).
      { rewrite IT, app_nth1 by lia. unfold P'. rewrite app_assoc, app_nth2 by (rewrite app_length, repeat_length; lia). rewrite app_length, repeat_length. replace (Z.to_nat id - _)%nat with 0%nat by lia. reflexivity. }
      assert (NP1 : nth (length P - 1) (newPtrs m P') 0%nat = l).
      { rewrite IT, app_nth1 by lia. unfold P'. rewrite app_nth1 by lia. unfold l. rewrite last_nth. reflexivity. }
      split; [|split; [|split; [|split]]].
      * exists (repeat l (Z.to_nat id - length P) ++ [(l + length ns)%nat] ++ T). rewrite IT. unfold P'. rewrite <- !app_assoc. reflexivity.
      * rewrite IL, LP'. unfold maxId. cbn [map fold_right]. cbn [fst]. fold (maxId m). pose proof (maxId_0 m). destruct m as [|y m'].
        -- unfold maxId. cbn. lia.
        -- assert (fst y <= maxId (y :: m')) by (apply maxId_ge; left; reflexivity). rewrite Forall_forall in SS2. specialize (SS2 y (or_introl eq_refl)). unfold lt1 in SS2. cbn in SS2. lia.
      * exact ILa.
      * intros e He. destruct (Nat.lt_trichotomy e (Z.to_nat id)) as [Q|[Q|Q]].
        -- assert (E1 : nth e (newPtrs m P') 0%nat = l) by (apply NB; lia).
           assert (E2 : nth (e-1) (newPtrs m P') 0%nat = l).
           { destruct (Nat.eq_dec e (length P)) as [Q2|Q2]; [subst e; exact NP1|apply NB; lia]. }
           unfold connOf. rewrite E1, E2, Nat.sub_diag. cbn [firstn]. symmetry. apply lookup_none. constructor; [cbn; lia|].
           rewrite Forall_forall in *. intros x Hx. specialize (SS2 x Hx). unfold lt1 in SS2. cbn in SS2. lia.
        -- subst e. unfold connOf. rewrite NI, NL. replace (l + length ns - l)%nat with (length ns) by lia.
           replace (l - 1)%nat with (length D) by lia. cbn [flat_map snd]. rewrite skipn_app, skipn_all, Nat.sub_diag. cbn [app skipn].
           rewrite firstn_app, firstn_all, Nat.sub_diag. cbn [firstn]. rewrite app_nil_r. unfold lookup. cbn [find fst]. replace (id =? Z.of_nat (Z.to_nat id)) with true by (symmetry; apply Z.eqb_eq; lia). reflexivity.
        -- rewrite IC by lia. unfold lookup. cbn [find fst]. destruct (Z.eqb_spec id (Z.of_nat e)); [lia|reflexivity].
      * intros i Hi. destruct (Nat.lt_ge_cases (Z.to_nat id) (S i)) as [Q|Q]; [apply IM; lia|].
        assert (B1 : (S (length D) + length ns <= S (length (D ++ flat_map snd ((id, ns) :: m))))%nat) by (cbn [flat_map snd]; rewrite !app_length; lia).
        assert (E2 : nth i (newPtrs m P') 0%nat = l).
        { destruct (Nat.eq_dec (S i) (length P)) as [Q2|Q2]; [replace i with (length P - 1)%nat by lia; exact NP1|apply NB; lia]. }
        rewrite E2. destruct (Nat.eq_dec (S i) (Z.to_nat id)) as [Q2|Q2]; [rewrite Q2, NI; lia|rewrite NB by lia; lia].
Qed.
Lemma psum_newPtrs : forall m P, P <> [] -> map fst m = map Z.of_nat (seq (length P) (length m)) ->
  newPtrs m P = removelast P ++ psum (last P 0%nat) (map (fun e => length (snd e)) m).
Proof.
  induction m as [|[id ns] m IH]; intros P NP H.
  - cbn. rewrite <- app_removelast_last; auto.
  - cbn [map seq length] in H. cbn [fst] in H. injection H as H1 H2. subst id. cbn [newPtrs].
    replace (Z.to_nat (Z.of_nat (length P)) - length P)%nat with 0%nat by lia. cbn [repeat app].
    rewrite IH.
    + rewrite removelast_last, last_last. cbn [map psum snd]. rewrite (app_removelast_last 0%nat NP) at 1. rewrite <- app_assoc. reflexivity.
    + destruct P; discriminate.
    + rewrite app_length. cbn [length]. rewrite Nat.add_1_r. exact H2.
Qed.

(** ** the elements of the patches *)
Lemma elmNodes_spec p el : (forall n, In n el -> n = -2147483648 /\ pMLGN p <> [] \/ Z.abs n < Z.of_nat (length (pMLGN p))) ->
  Forall2 (globalNode p) el (elmNodes p el) /\ forall ns, Forall2 (globalNode p) el ns -> ns = elmNodes p el.
Proof.
  assert (GN : forall i, 0 <= i < Z.of_nat (length (pMLGN p)) -> nth_error (pMLGN p) (Z.to_nat i) = Some (getNodeID p (1 + i))).
  { intros i Hi. unfold getNodeID. destruct (Z.ltb_spec (1 + i) 1); [lia|]. destruct (Z.ltb_spec (Z.of_nat (length (pMLGN p))) (1 + i)); [lia|]. cbn [orb].
    replace (1 + i - 1) with i by lia. apply nth_error_nth'. lia. }
  intros H.
  assert (E : forall n, In n el -> forall g, globalNode p n g <-> g = (if n =? -2147483648 then - getNodeID p 1 else if n <? 0 then - getNodeID p (1 - n) else getNodeID p (1 + n))).
  { intros n Hn g. specialize (H n Hn). unfold globalNode. destruct (Z.eqb_spec n (-2147483648)) as [Q|Q].
    - assert (L : 0 <= 0 < Z.of_nat (length (pMLGN p))).
      { destruct H as [[_ H]|H]; [destruct (pMLGN p); [contradiction|cbn; lia]|lia]. }
      pose proof (GN 0 L) as G0. change (Z.to_nat 0) with 0%nat in G0. change (1 + 0) with 1 in G0. split.
      + intros [[A _]|[[_ [B _]]|[_ B]]]; [lia|contradiction|]. rewrite G0 in B. assert (B' : getNodeID p 1 = - g) by congruence. rewrite B'. lia.
      + intros ->. right. right. split; [exact Q|]. rewrite G0. f_equal. lia.
    - destruct H as [[H _]|H]; [contradiction|]. destruct (Z.ltb_spec n 0).
      + pose proof (GN (- n) ltac:(lia)) as G0. replace (1 + - n) with (1 - n) in G0 by lia. split.
        * intros [[A _]|[[_ [_ B]]|[B _]]]; [lia| |contradiction]. rewrite G0 in B. assert (B' : getNodeID p (1 - n) = - g) by congruence. rewrite B'. lia.
        * intros ->. right. left. split; [lia|]. split; [exact Q|]. rewrite G0. f_equal. lia.
      + pose proof (GN n ltac:(lia)) as G0. split.
        * intros [[_ B]|[[B _]|[B _]]]; [|lia|contradiction]. rewrite G0 in B. congruence.
        * intros ->. left. split; [lia|]. exact G0. }
  clear H GN. unfold elmNodes. induction el as [|n el IH].
  - split; [constructor|]. intros ns F. inversion F. reflexivity.
  - destruct IH as [IH1 IH2]; [intros; apply E; right; assumption|]. split.
    + cbn [map]. constructor; [|exact IH1]. apply E; [left; reflexivity|reflexivity].
    + intros ns F. inversion F as [|? g ? ns' F1 F2]; subst. cbn [map]. f_equal; [|apply IH2; exact F2]. apply E in F1; [exact F1|left; reflexivity].
Qed.
Lemma getElmID_nth p i id : nth_error (pMLGE p) i = Some id -> getElmID p (S i) = Z.abs id.
Proof.
  intros H. assert (L : (i < length (pMLGE p))%nat) by (apply nth_error_Some; congruence). unfold getElmID.
  destruct (Nat.ltb_spec (S i) 1); [lia|]. destruct (Nat.ltb_spec (length (pMLGE p)) (S i)); [lia|]. cbn [orb].
  replace (S i - 1)%nat with i by lia. rewrite (nth_error_nth _ _ _ H). reflexivity.
Qed.
Lemma patchElms_in p e ns : length (pMLGE p) = length (pMNPC p) ->
  In (e, ns) (patchElms p) <-> exists i id el, nth_error (pMLGE p) i = Some id /\ Z.abs id = e /\ id <> 0 /\ nth_error (pMNPC p) i = Some el /\ ns = elmNodes p el.
Proof.
  intros L. unfold patchElms. rewrite in_flat_map. split.
  - intros (i & Hi & H). apply in_seq in Hi. destruct (nth_error (pMLGE p) i) as [id|] eqn:E1; [|apply nth_error_None in E1; lia].
    destruct (nth_error (pMNPC p) i) as [el|] eqn:E2; [|apply nth_error_None in E2; lia].
    rewrite (getElmID_nth _ _ _ E1) in H. destruct (Z.ltb_spec 0 (Z.abs id)); [|destruct H]. destruct H as [H|[]]. injection H as <- <-.
    exists i, id, el. split; [exact E1|]. split; [reflexivity|]. split; [lia|]. split; [exact E2|]. rewrite (nth_error_nth _ _ _ E2). reflexivity.
  - intros (i & id & el & E1 & <- & N & E2 & ->). exists i. assert (Hi : (i < length (pMNPC p))%nat) by (apply nth_error_Some; congruence).
    split; [apply in_seq; lia|]. rewrite (getElmID_nth _ _ _ E1). destruct (Z.ltb_spec 0 (Z.abs id)); [|lia]. left. rewrite (nth_error_nth _ _ _ E2). reflexivity.
Qed.
Lemma allElms_in ps e ns : elmsOK ps -> In (e, ns) (flat_map patchElms ps) <-> hasElm ps e ns.
Proof.
  intros OK. rewrite in_flat_map. unfold hasElm. split.
  - intros (p & Hp & H). destruct (OK p Hp) as [L B]. apply patchElms_in in H; [|exact L]. destruct H as (i & id & el & H1 & H2 & H3 & H4 & ->).
    exists p, i, id, el. repeat split; auto. apply elmNodes_spec. intros n Hn. apply (B el); auto. apply nth_error_In in H4. exact H4.
  - intros (p & i & id & el & Hp & H1 & H2 & H3 & H4 & H5). exists p. split; [exact Hp|]. destruct (OK p Hp) as [L B]. apply patchElms_in; [exact L|].
    exists i, id, el. repeat split; auto. apply elmNodes_spec; [|exact H5]. intros n Hn. apply (B el); auto. apply nth_error_In in H4. exact H4.
Qed.
Lemma patchElms_ids p : length (pMLGE p) = length (pMNPC p) -> map fst (patchElms p) = map Z.abs (filter (fun e => negb (e =? 0)) (pMLGE p)).
Proof.
  intros L. unfold patchElms. rewrite <- L. clear L.
  assert (G : forall i id, nth_error (pMLGE p) i = Some id -> getElmID p (S i) = Z.abs id) by (intros; apply getElmID_nth; assumption).
  rewrite flat_map_concat_map, concat_map, map_map.
  revert G. generalize (getElmID p) as f. generalize (pMNPC p) as M. generalize (elmNodes p) as g. generalize (pMLGE p) as l. clear p.
  intros l g M f G.
  assert (K : forall l0 k, (forall i id, nth_error l0 i = Some id -> f (S (k + i)) = Z.abs id) ->
    concat (map (fun x => map fst (if 0 <? f (S x) then [(f (S x), g (nth x M []))] else [])) (seq k (length l0))) = map Z.abs (filter (fun e => negb (e =? 0)) l0)).
  { induction l0 as [|x l0 IH]; intros k H; [reflexivity|]. cbn [length seq map concat filter].
    rewrite IH by (intros i id Hi; replace (S k + i)%nat with (k + S i)%nat by lia; apply (H (S i)); exact Hi).
    pose proof (H O x eq_refl) as Hx. rewrite Nat.add_0_r in Hx. rewrite Hx.
    destruct (Z.ltb_spec 0 (Z.abs x)), (Z.eqb_spec x 0); try lia; reflexivity. }
  apply K. intros i id Hi. rewrite Nat.add_0_l. apply G. exact Hi.
Qed.
Lemma allElms_ids ps : elmsOK ps -> map fst (flat_map patchElms ps) = extIds ps.
Proof.
  intros OK. unfold extIds. induction ps as [|p ps IH]; [reflexivity|]. cbn [flat_map]. rewrite filter_app, !map_app, IH by (intros q Hq; apply OK; right; exact Hq).
  f_equal. apply patchElms_ids. apply OK. left. reflexivity.
Qed.
Lemma noElms_sum ps : list_sum (map noElms ps) = length (extIds ps).
Proof.
  unfold extIds. rewrite map_length. induction ps as [|p ps IH]; [reflexivity|]. cbn [map flat_map]. rewrite filter_app, app_length, <- IH. reflexivity.
Qed.
Lemma outOfOrder_sorted l : (outOfOrder l = 0)%nat <-> StronglySorted Z.lt l.
Proof.
  induction l as [|x l IH]; [split; [constructor|reflexivity]|]. destruct l as [|y l].
  - split; [repeat constructor|reflexivity].
  - change (outOfOrder (x :: y :: l)) with ((if (y <=? x)%Z then 1 else 0) + outOfOrder (y :: l))%nat. split.
    + intros H. destruct (Z.leb_spec y x); [lia|]. assert (S : StronglySorted Z.lt (y :: l)) by (apply IH; lia). constructor; [exact S|].
      inversion S as [|? ? S1 S2]; subst. constructor; [lia|]. rewrite Forall_forall in *. intros z Hz. specialize (S2 z Hz). lia.
    + intros S. inversion S as [|? ? S1 S2]; subst. inversion S2; subst. apply IH in S1. destruct (Z.leb_spec y x); [lia|]. lia.
Qed.
Lemma sorted_nodup l : StronglySorted Z.lt l -> NoDup l.
Proof.
  induction 1 as [|x l S IH F]; constructor; [|exact IH]. intros H. rewrite Forall_forall in F. specialize (F x H). lia.
Qed.
Lemma sorted_ge l : StronglySorted Z.lt l -> forall a, Forall (fun x => a <= x) l -> Forall (fun x => x < a + Z.of_nat (length l)) l -> l = map Z.of_nat (map (fun i => Z.to_nat a + i)%nat (seq 0 (length l))) \/ a < 0.
Proof.
  induction 1 as [|x l S IH F]; intros a GE LT; [left; reflexivity|]. destruct (Z.lt_ge_cases a 0) as [Q|Q]; [right; exact Q|left].
  inversion GE as [|? ? G1 G2]; subst. cbn [length] in *.
  assert (Hx : x = a).
  { destruct (Z.eq_dec x a) as [H|H]; [exact H|]. exfalso. clear IH.
    assert (K : forall l b, StronglySorted Z.lt l -> Forall (fun y => b < y) l -> forall y, In y l \/ y = b -> Forall (fun y => y < b + Z.of_nat (length l)) l -> l = []).
    { clear. induction l as [|z l IH]; intros b S F y _ L; [reflexivity|]. exfalso. inversion S as [|? ? S1 S2]; subst. inversion F as [|? ? F1 F2]; subst. inversion L as [|? ? L1 L2]; subst.
      assert (E : l = []).
      { apply (IH z S1 S2 z (or_intror eq_refl)). cbn [length] in L2. rewrite Forall_forall in *. intros w Hw. specialize (L2 w Hw). lia. }
      subst l. cbn in L1. lia. }
    inversion LT as [|? ? L1 L2]; subst.
    assert (E : l = []).
    { apply (K l x S F x (or_intror eq_refl)). rewrite Forall_forall in *. intros w Hw. specialize (L2 w Hw). lia. }
    subst l. cbn in L1. lia. }
  subst x. cbn [seq map]. f_equal; [lia|]. destruct (IH (a + 1)) as [E|E]; [| |rewrite E at 1|lia].
  - rewrite Forall_forall in *. intros w Hw. specialize (F w Hw). lia.
  - inversion LT as [|? ? L1 L2]; subst. rewrite Forall_forall in *. intros w Hw. specialize (L2 w Hw). lia.
  - rewrite <- seq_shift, !map_map. apply map_ext. intros i. lia.
Qed.
Lemma sorted_map_fst (m : list elm) : StronglySorted lt1 m <-> StronglySorted Z.lt (map fst m).
Proof.
  induction m as [|x m IH]; [split; constructor|]. cbn [map]. split; intros S; inversion S as [|? ? S1 S2]; subst; constructor; try (apply IH; exact S1).
  - rewrite Forall_forall in *. intros y Hy. apply in_map_iff in Hy. destruct Hy as (z & <- & Hz). apply S2. exact Hz.
  - rewrite Forall_forall in *. intros y Hy. apply S2. apply in_map. exact Hy.
Qed.
Lemma lookup_in (m : list elm) e ns : NoDup (map fst m) -> In (Z.of_nat e, ns) m -> lookup e m = ns.
Proof.
  unfold lookup. induction m as [|x m IH]; [intros _ []|]. cbn [map find]. intros N H. inversion N as [|? ? N1 N2]; subst.
  destruct (Z.eqb_spec (fst x) (Z.of_nat e)) as [Q|Q].
  - destruct H as [->|H]; [reflexivity|]. exfalso. apply N1. rewrite Q. apply (in_map fst) in H. exact H.
  - destruct H as [->|H]; [cbn in Q; contradiction|]. apply IH; assumption.
Qed.
Lemma extIds_pos ps x : In x (extIds ps) -> 1 <= x.
Proof.
  unfold extIds. intros H. apply in_map_iff in H. destruct H as (y & <- & H). apply filter_In in H. destruct H as [_ H]. destruct (Z.eqb_spec y 0); [discriminate|]. lia.
Qed.
(** the table made from a sorted list of elements *)
Lemma table_spec (m es : list elm) : StronglySorted lt1 m -> Permutation es m -> Forall (fun x => 1 <= fst x) es ->
  Z.of_nat (pred (length (newPtrs m [1%nat]))) = maxId es /\
  (forall e ns, In (Z.of_nat e, ns) es -> connOf (newPtrs m [1%nat]) (flat_map snd m) e = ns) /\
  (forall e, ~ In (Z.of_nat e) (map fst es) -> connOf (newPtrs m [1%nat]) (flat_map snd m) e = []) /\
  (forall i, (S i < length (newPtrs m [1%nat]))%nat ->
     (1 <= nth i (newPtrs m [1%nat]) 0 <= nth (S i) (newPtrs m [1%nat]) 0 /\ nth (S i) (newPtrs m [1%nat]) 0 <= S (length (flat_map snd m)))%nat).
Proof.
  intros S P F.
  assert (Fm : Forall (fun x => Z.of_nat (length [1%nat]) <= fst x) m).
  { rewrite Forall_forall in *. intros x Hx. apply F. apply (Permutation_in _ (Permutation_sym P)). exact Hx. }
  destruct (newPtrs_spec m [1%nat] [] ltac:(discriminate) eq_refl S Fm) as ((T & E) & L & _ & C & M). cbn [app length] in *.
  assert (N : NoDup (map fst m)) by (apply sorted_nodup, sorted_map_fst, S).
  assert (Z0 : forall pn mn, connOf pn mn 0 = []) by (intros; unfold connOf; cbn [Nat.sub]; rewrite Nat.sub_diag; reflexivity).
  split; [|split; [|split]].
  - rewrite (maxId_perm _ _ P), L. pose proof (maxId_0 m). destruct m; [reflexivity|]. lia.
  - intros e ns H. apply (Permutation_in _ P) in H. destruct e as [|e].
    + exfalso. rewrite Forall_forall in Fm. specialize (Fm _ H). cbn in Fm. lia.
    + rewrite C by lia. apply lookup_in; assumption.
  - intros e H. destruct e as [|e]; [apply Z0|]. rewrite C by lia. apply lookup_none. rewrite Forall_forall. intros x Hx Q. apply H. rewrite <- Q. apply in_map.
    apply (Permutation_in _ (Permutation_sym P)). exact Hx.
  - intros i Hi. pose proof (M i ltac:(lia)) as Q. split; [|lia]. split; [|lia].
    assert (G : forall j, (j < length (newPtrs m [1%nat]))%nat -> (1 <= nth j (newPtrs m [1%nat]) 0)%nat).
    { induction j as [|j IHj]; intros Hj; [rewrite E; cbn; lia|]. pose proof (M j ltac:(lia)). specialize (IHj ltac:(lia)). lia. }
    apply G. lia.
Qed.
Lemma initElementConn_spec junk ps : elmsOK ps ->
  (NoDup (extIds ps) -> exists pn mn, initElementConn junk (list_sum (map noElms ps)) ps = Some (true, pn, mn) /\
     Z.of_nat (pred (length pn)) = fold_right Z.max 0 (extIds ps) /\
     (forall e ns, hasElm ps (Z.of_nat e) ns -> connOf pn mn e = ns) /\
     (forall e, ~ In (Z.of_nat e) (extIds ps) -> connOf pn mn e = []) /\
     (forall i, (S i < length pn)%nat -> (1 <= nth i pn 0 <= nth (S i) pn 0 /\ nth (S i) pn 0 <= S (length mn))%nat)) /\
  (~ NoDup (extIds ps) -> exists pn mn, initElementConn junk (list_sum (map noElms ps)) ps = Some (false, pn, mn)).
Proof.
  intros OK. rewrite noElms_sum. unfold initElementConn.
  pose proof (allElms_ids ps OK) as IDS. pose proof (fun e ns => allElms_in ps e ns OK) as HE.
  set (es := flat_map patchElms ps) in *. clearbody es.
  assert (L : length es = length (extIds ps)) by (rewrite <- IDS, map_length; reflexivity).
  assert (POS : Forall (fun x => 1 <= fst x) es).
  { apply Forall_forall. intros x Hx. apply (extIds_pos ps). rewrite <- IDS. apply in_map. exact Hx. }
  destruct (Nat.ltb_spec (length (extIds ps)) 1) as [Q0|Q0].
  { assert (E0 : extIds ps = []) by (destruct (extIds ps); [reflexivity|cbn in Q0; lia]). rewrite E0 in *. split; [|intros N; exfalso; apply N; constructor].
    intros _. exists [], []. split; [reflexivity|]. split; [reflexivity|]. destruct es; [|discriminate]. split.
    - intros e ns H. apply HE in H. destruct H.
    - split; [|cbn; lia]. intros e _. unfold connOf. destruct e as [|[|e]]; reflexivity. }
  rewrite IDS. change (fold_right Z.max 0 (extIds ps)) with (fold_right Z.max 0 (extIds ps)).
  destruct (Nat.ltb_spec (length (extIds ps)) (length es)) as [Q1|Q1]; [lia|].
  replace (length (extIds ps) - length es)%nat with 0%nat by lia. cbn [repeat]. rewrite app_nil_r.
  assert (MX : maxId es = fold_right Z.max 0 (extIds ps)) by (unfold maxId; rewrite IDS; reflexivity).
  assert (FIN : forall m, StronglySorted lt1 m -> Permutation es m -> 
     Z.of_nat (pred (length (newPtrs m [1%nat]))) = fold_right Z.max 0 (extIds ps) /\
     (forall e ns, hasElm ps (Z.of_nat e) ns -> connOf (newPtrs m [1%nat]) (flat_map snd m) e = ns) /\
     (forall e, ~ In (Z.of_nat e) (extIds ps) -> connOf (newPtrs m [1%nat]) (flat_map snd m) e = []) /\
     (forall i, (S i < length (newPtrs m [1%nat]))%nat ->
       (1 <= nth i (newPtrs m [1%nat]) 0 <= nth (S i) (newPtrs m [1%nat]) 0 /\ nth (S i) (newPtrs m [1%nat]) 0 <= S (length (flat_map snd m)))%nat)).
  { intros m S P. destruct (table_spec m es S P POS) as (A & B & C & D). rewrite <- MX. split; [exact A|]. split; [|split; [|exact D]].
    - intros e ns H. apply B. apply HE. exact H.
    - intros e H. apply C. rewrite IDS. exact H. }
  destruct (Nat.eqb_spec (outOfOrder (extIds ps)) 0) as [O|O].
  - apply outOfOrder_sorted in O. assert (S : StronglySorted lt1 es) by (apply sorted_map_fst; rewrite IDS; exact O).
    split; [intros _|intros N; exfalso; apply N, sorted_nodup, O].
    destruct (Z.eqb_spec (fold_right Z.max 0 (extIds ps)) (Z.of_nat (length (extIds ps)))) as [M|M]; cbn [andb].
    + assert (SQ : map fst es = map Z.of_nat (seq 1 (length es))).
      { rewrite IDS, L. destruct (sorted_ge (extIds ps) O 1) as [E|E]; [| |rewrite E at 1|lia].
        - apply Forall_forall. apply extIds_pos.
        - apply Forall_forall. intros x Hx. rewrite <- IDS in Hx. apply in_map_iff in Hx. destruct Hx as (y & <- & Hy). pose proof (maxId_ge es y Hy). lia.
        - rewrite <- seq_shift, !map_map. apply map_ext. intros i. change (Z.to_nat 1) with 1%nat. lia. }
      exists (newPtrs es [1%nat]), (flat_map snd es). split; [|apply FIN; [exact S|reflexivity]].
      rewrite (psum_newPtrs es [1%nat] ltac:(discriminate) SQ). reflexivity.
    + pose proof (buildMap_spec es [] (SSorted_nil _)) as B. destruct (buildMap es []) as [m|].
      * destruct B as (B1 & B2 & _). rewrite app_nil_r in B2. exists (newPtrs m [1%nat]), (flat_map snd m). split; [reflexivity|]. apply FIN; assumption.
      * exfalso. apply B. rewrite app_nil_r, IDS. apply sorted_nodup, O.
  - cbn [andb]. pose proof (buildMap_spec es [] (SSorted_nil _)) as B. destruct (buildMap es []) as [m|].
    + destruct B as (B1 & B2 & B3). rewrite app_nil_r in *. split.
      * intros _. exists (newPtrs m [1%nat]), (flat_map snd m). split; [reflexivity|]. apply FIN; assumption.
      * intros N. exfalso. apply N. rewrite <- IDS. apply B3. constructor.
    + split; [intros N; exfalso; apply B; rewrite app_nil_r, IDS; exact N|]. intros _. eauto.
Qed.
