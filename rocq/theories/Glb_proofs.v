(** Proofs: nodal forces. *)
From Coq Require Import List Arith ZArith QArith Qcanon Bool Permutation Lia.
From Verif Require Import Base SAM_model Glb_model Glb_spec.
Import ListNotations.
Local Open Scope nat_scope.

(** ** Boundary nodes *)
Lemma addUnique_in l n x : In x (addUnique l n) <-> In x l \/ x = n.
Proof.
  unfold addUnique. destruct (existsb (Z.eqb n) l) eqn:Ex.
  - apply existsb_exists in Ex. destruct Ex as (y & Hy & Ey). apply Z.eqb_eq in Ey. subst y. split; [tauto|]. intros [H| ->]; assumption.
  - rewrite in_app_iff. cbn. intuition auto.
Qed.
Lemma addUnique_nodup l n : NoDup l -> NoDup (addUnique l n).
Proof.
  intros H. unfold addUnique. destruct (existsb (Z.eqb n) l) eqn:Ex; [exact H|]. apply (Permutation_NoDup (Permutation_cons_append l n)). constructor; [|exact H]. intros Hin.
  assert (existsb (Z.eqb n) l = true) by (apply existsb_exists; exists n; split; [exact Hin|apply Z.eqb_refl]). congruence.
Qed.
Definition nodesOf (p : bprop) : list Z := match p with Whole ns => ns | Part ns => ns end.
Lemma bn_in x : forall ps l, In x (fold_left (fun l p => match p with Whole ns => l ++ ns | Part ns => fold_left addUnique ns l end) ps l) <-> In x l \/ exists p, In p ps /\ In x (nodesOf p).
Proof.
  induction ps as [|p ps IH]; intros l; [cbn; split; [tauto|intros [H|(p & [] & _)]; exact H]|]. cbn [fold_left]. rewrite IH.
  assert (Hp : In x (match p with Whole ns => l ++ ns | Part ns => fold_left addUnique ns l end) <-> In x l \/ In x (nodesOf p)).
  { destruct p as [ns|ns]; cbn [nodesOf]; [apply in_app_iff|]. clear IH. revert l. induction ns as [|n ns IHn]; intros l; [cbn; tauto|]. cbn [fold_left]. rewrite IHn, addUnique_in. cbn [In]. intuition auto. }
  rewrite Hp. split.
  - intros [[H|H]|(q & Hq & H)]; [left; exact H|right; exists p; split; [left; reflexivity|exact H]|right; exists q; split; [right; exact Hq|exact H]].
  - intros [H|(q & [<-|Hq] & H)]; [left; left; exact H|left; right; exact H|right; exists q; split; assumption].
Qed.
Lemma bn_nodup : forall ps l, (forall p, In p ps -> exists ns, p = Part ns) -> NoDup l -> NoDup (fold_left (fun l p => match p with Whole ns => l ++ ns | Part ns => fold_left addUnique ns l end) ps l).
Proof.
  induction ps as [|p ps IH]; intros l H ND; [exact ND|]. cbn [fold_left]. destruct (H p (or_introl eq_refl)) as [ns ->]. apply IH; [intros q Hq; apply H; right; exact Hq|]. clear - ND. revert l ND. induction ns as [|n ns IHn]; intros l ND; [exact ND|]. cbn [fold_left]. apply IHn, addUnique_nodup, ND.
Qed.

(** ** The node map *)
Lemma lookup_assign g v m k : lookup (assign g v m) k = if (g =? k)%Z then Some v else lookup m k.
Proof.
  unfold assign. cbn [lookup]. destruct (Z.eqb_spec g k) as [->|Hne]; [reflexivity|]. induction m as [|[a w] m IH]; [reflexivity|]. cbn [filter fst lookup]. destruct (Z.eqb_spec a g) as [->|Ha]; cbn [negb].
  - rewrite IH. destruct (Z.eqb_spec g k); [contradiction|reflexivity].
  - cbn [lookup]. rewrite IH. reflexivity.
Qed.
Lemma assign_new g v m : lookup m g = None -> assign g v m = (g, v) :: m.
Proof.
  intros H. unfold assign. f_equal. induction m as [|[a w] m IH]; [reflexivity|]. cbn [lookup] in H. cbn [filter fst]. destruct (Z.eqb_spec a g); [discriminate|]. cbn [negb]. rewrite IH by exact H. reflexivity.
Qed.
Lemma mapNodes_ok N : forall ns i m bad, NoDup ns -> (forall g, In g ns -> (1 <= g <= N)%Z /\ lookup m g = None) ->
  exists m', mapNodes N ns i m bad = (m', bad) /\ length m' = length m + length ns /\
    (forall p, p < length ns -> lookup m' (nth p ns 0%Z) = Some (S (i + p))) /\ (forall g, ~ In g ns -> lookup m' g = lookup m g).
Proof.
  induction ns as [|g ns IH]; intros i m bad ND H.
  - exists m. split; [reflexivity|]. cbn. split; [lia|]. split; [lia|reflexivity].
  - destruct (H g (or_introl eq_refl)) as [Hg Hm]. inversion ND as [|? ? N1 N2]; subst. cbn [mapNodes]. replace ((0 <? g) && (g <=? N))%Z with true by (symmetry; apply andb_true_intro; split; [apply Z.ltb_lt|apply Z.leb_le]; lia).
    destruct (IH (S i) (assign g (S i) m) bad N2) as (m' & -> & L & A & B).
    { intros k Hk. destruct (H k (or_intror Hk)) as [R Hl]. split; [exact R|]. rewrite lookup_assign. destruct (Z.eqb_spec g k) as [->|]; [contradiction|exact Hl]. }
    exists m'. split; [reflexivity|]. rewrite assign_new in L by exact Hm. cbn [length] in *. split; [lia|]. split.
    + intros [|p] Hp; cbn [nth]; [|rewrite A by lia; f_equal; lia]. rewrite B by exact N1. rewrite lookup_assign, Z.eqb_refl. f_equal. lia.
    + intros k Hk. rewrite B by (intros Hin; apply Hk; right; exact Hin). rewrite lookup_assign. destruct (Z.eqb_spec g k) as [->|]; [exfalso; apply Hk; left; reflexivity|reflexivity].
Qed.

(** ** Element nodes *)
Lemma firstn_skipn_seq (l : list Z) : forall len a, a + len <= length l -> firstn len (skipn a l) = map (fun q => nth q l 0%Z) (seq a len).
Proof.
  induction len as [|len IH]; intros a H; [reflexivity|]. assert (Hs : skipn a l = nth a l 0%Z :: skipn (S a) l).
  { clear IH. revert a H. induction l as [|x l IHl]; intros a H; [cbn in H; lia|]. destruct a as [|a]; [reflexivity|]. cbn [length] in H. cbn [skipn nth]. apply IHl. lia. }
  rewrite Hs. cbn [firstn seq map]. f_equal. apply IH. lia.
Qed.
Lemma elmNodes_ok s iel : topologyOK s -> (1 <= iel <= Z.of_nat (nel s))%Z -> elmNodes s iel = Some (enodes s iel).
Proof.
  intros T H. destruct (T iel H) as (A & B & _). unfold elmNodes. replace ((iel <? 1) || (Z.of_nat (nel s) <? iel))%Z with false by (symmetry; apply orb_false_intro; apply Z.ltb_ge; lia). f_equal. unfold enodes.
  set (ip := nth (Z.to_nat iel - 1) (mpmnpc s) 0) in *. set (jp := nth (Z.to_nat iel) (mpmnpc s) 0) in *. replace (jp - 1 - (ip - 1)) with (jp - ip) by lia. destruct (Nat.le_gt_cases jp ip) as [L|L].
  - replace (jp - ip) with 0 by lia. reflexivity.
  - rewrite firstn_skipn_seq by lia. clear - A. assert (G : forall len a, 1 <= a -> map (fun q => nth q (mmnpc s) 0%Z) (seq (a - 1) len) = map (fun q => nth (q - 1) (mmnpc s) 0%Z) (seq a len)); [|apply G, A].
    induction len as [|len IH]; intros a Ha; [reflexivity|]. cbn [seq map]. f_equal. specialize (IH (S a) ltac:(lia)). replace (S a - 1) with (S (a - 1)) in IH by lia. exact IH.
Qed.
Lemma nodeDofs_ok s n : (1 <= n <= Z.of_nat (nnod s))%Z -> nodeDofs s n = dofCount s n.
Proof. intros H. unfold nodeDofs. replace ((n <? 1) || (Z.of_nat (nnod s) <? n))%Z with false by (symmetry; apply orb_false_intro; apply Z.ltb_ge; lia). reflexivity. Qed.

(** ** One element *)
Lemma subCol_ok ES k : forall n j col, k + j + n <= length ES -> j + n <= length col -> exists col', subCol n j ES k col = Some col' /\ length col' = length col /\
  forall q, nth q col' 0%Qc = if (j <=? q) && (q <? j + n) then (nth q col 0 - nth (k + q) ES 0)%Qc else nth q col 0%Qc.
Proof.
  induction n as [|n IH]; intros j col H1 H2.
  - exists col. split; [reflexivity|]. split; [reflexivity|]. intros q. destruct (Nat.leb_spec j q), (Nat.ltb_spec q (j + 0)); try reflexivity. lia.
  - cbn [subCol]. rewrite (nth_error_nth' ES 0%Qc) by lia. destruct (IH (S j) (upd j (nth j col 0 - nth (k + j) ES 0)%Qc col)) as (col' & -> & L & N); [lia|rewrite upd_length; lia|]. rewrite upd_length in L. exists col'. split; [reflexivity|]. split; [exact L|]. intros q. rewrite N.
    destruct (Nat.eq_dec q j) as [->|Hne].
    + rewrite upd_nth_same by lia. destruct (Nat.leb_spec (S j) j); [lia|]. cbn [andb]. destruct (Nat.leb_spec j j); [|lia]. destruct (Nat.ltb_spec j (j + S n)); [reflexivity|lia].
    + rewrite upd_nth_other by exact Hne. destruct (Nat.leb_spec (S j) q), (Nat.leb_spec j q), (Nat.ltb_spec q (S j + n)), (Nat.ltb_spec q (j + S n)); cbn [andb]; try reflexivity; lia.
Qed.
Section Elm.
Variables (s : tables) (ns : list Z) (m : list (Z * nat)) (nf : nat) (ES : list Qc).
Hypothesis Hm1 : forall p, p < length ns -> lookup m (nth p ns 0%Z) = Some (S p).
Hypothesis Hm2 : forall g, ~ In g ns -> lookup m g = None.
Hypothesis ND : NoDup ns.
(** the terms at node [n] of the nodes [l], the first one at offset [k] *)
Fixpoint terms (l : list Z) (k : nat) (n : Z) (j : nat) : Qc :=
  match l with [] => 0%Qc | a :: r => ((if (a =? n)%Z then nth (k + j) ES 0%Qc else 0%Qc) + terms r (k + dofCount s a) n j)%Qc end.
Lemma terms_qs n j : forall l k, terms l k n j = qs (fun i => if (nth i l 0 =? n)%Z then nth (k + offset s l i + j) ES 0%Qc else 0%Qc) (seq 0 (length l)).
Proof.
  induction l as [|a l IH]; intros k; [reflexivity|]. cbn [terms length seq]. rewrite qs_cons, IH. f_equal; [cbn [nth]; unfold offset; cbn [firstn map list_sum fold_right]; rewrite Nat.add_0_r; reflexivity|].
  rewrite <- seq_shift, qs_map. apply qs_ext. intros i _. cbn [nth]. unfold offset. cbn [firstn map list_sum fold_right]. destruct (_ =? n)%Z; [|reflexivity]. f_equal. unfold list_sum. lia.
Qed.
Lemma addNodes_ok : forall l k nin cs, (forall n, In n l -> (1 <= n <= Z.of_nat (nnod s))%Z) -> length cs = length ns -> (forall c, In c cs -> length c = nf) ->
  (forall i, i < length l -> In (nth i l 0%Z) ns -> k + offset s l i + nf <= length ES) ->
  exists cs', addNodes s m nf ES l k nin cs = Some (cs', nin + length (filter (fun n => negb (existsb (Z.eqb n) ns)) l)) /\ length cs' = length ns /\ (forall c, In c cs' -> length c = nf) /\
    forall p j, p < length ns -> j < nf -> nth j (nth p cs' []) 0%Qc = (nth j (nth p cs []) 0 - terms l k (nth p ns 0%Z) j)%Qc.
Proof.
  induction l as [|a l IH]; intros k nin cs R L C E.
  - exists cs. cbn [addNodes filter length]. rewrite Nat.add_0_r. split; [reflexivity|]. split; [exact L|]. split; [exact C|]. intros p j Hp Hj. cbn [terms]. ring.
  - cbn [addNodes]. rewrite (nodeDofs_ok s a) by (apply R; left; reflexivity).
    assert (E' : forall i, i < length l -> In (nth i l 0%Z) ns -> k + dofCount s a + offset s l i + nf <= length ES). { intros i Hi Hin. specialize (E (S i)). cbn [length nth] in E. specialize (E ltac:(lia) Hin). unfold offset in *. cbn [firstn map list_sum fold_right] in E. unfold list_sum. lia. }
    destruct (in_dec Z.eq_dec a ns) as [Ha|Ha].
    + destruct (In_nth ns a 0%Z Ha) as (p0 & Hp0 & Ep0). assert (Elk : lookup m a = Some (S p0)) by (rewrite <- Ep0; apply Hm1, Hp0). rewrite Elk.
      assert (Ex : existsb (Z.eqb a) ns = true) by (apply existsb_exists; exists a; split; [exact Ha|apply Z.eqb_refl]). cbn [filter]. rewrite Ex. cbn [negb].
      destruct (Nat.eqb_spec nf 0) as [Hz|Hz].
      * destruct (IH (k + dofCount s a) nin cs (fun n Hn => R n (or_intror Hn)) L C E') as (cs' & -> & L' & C' & N'). exists cs'. split; [reflexivity|]. split; [exact L'|]. split; [exact C'|]. intros p j Hp Hj. lia.
      * cbn [Nat.sub]. rewrite Nat.sub_0_r. rewrite (nth_error_nth' cs []) by lia. assert (Hc : length (nth p0 cs []) = nf) by (apply C, nth_In; lia). specialize (E 0). cbn [length nth] in E. specialize (E ltac:(lia) Ha). unfold offset in E. cbn [firstn map list_sum fold_right] in E.
        destruct (subCol_ok ES k nf 0 (nth p0 cs [])) as (col' & -> & Lc & Nc); [lia|lia|].
        destruct (IH (k + dofCount s a) nin (upd p0 col' cs) (fun n Hn => R n (or_intror Hn))) as (cs' & -> & L' & C' & N').
        { rewrite upd_length; exact L. }
        { intros c Hin. apply In_nth with (d := []) in Hin. destruct Hin as (q & Hq & Eq). rewrite upd_length in Hq. destruct (Nat.eq_dec q p0) as [->|Hne]; [rewrite upd_nth_same in Eq by lia; subst c; lia|]. rewrite upd_nth_other in Eq by exact Hne. subst c. apply C, nth_In, Hq. }
        { exact E'. }
        exists cs'. split; [reflexivity|]. split; [exact L'|]. split; [exact C'|]. intros p j Hp Hj. assert (N1 := N' p j Hp Hj).
        rewrite N1. cbn [terms]. destruct (Nat.eq_dec p p0) as [->|Hne].
        -- rewrite upd_nth_same by lia. rewrite Nc. destruct (Nat.leb_spec 0 j); [|lia]. destruct (Nat.ltb_spec j (0 + nf)); [|lia]. cbn [andb]. rewrite Ep0, Z.eqb_refl. ring.
        -- rewrite upd_nth_other by exact Hne. destruct (Z.eqb_spec a (nth p ns 0%Z)) as [Ea|_]; [|ring]. exfalso. apply Hne. apply (proj1 (NoDup_nth ns 0%Z) ND p p0 Hp Hp0). congruence.
    + rewrite (Hm2 a Ha). assert (Ex : existsb (Z.eqb a) ns = false). { apply Bool.not_true_iff_false. intros Hx. apply existsb_exists in Hx. destruct Hx as (y & Hy & Ey). apply Z.eqb_eq in Ey. subst y. contradiction. }
      destruct (IH (k + dofCount s a) (S nin) cs (fun n Hn => R n (or_intror Hn)) L C E') as (cs' & -> & L' & C' & N'). exists cs'. cbn [filter]. rewrite Ex. cbn [negb length]. split; [f_equal; f_equal; lia|]. split; [exact L'|]. split; [exact C'|].
      intros p j Hp Hj. rewrite (N' p j Hp Hj). cbn [terms]. destruct (Z.eqb_spec a (nth p ns 0%Z)) as [Ea|_]; [exfalso; apply Ha; rewrite Ea; apply nth_In, Hp|]. ring.
Qed.
End Elm.
