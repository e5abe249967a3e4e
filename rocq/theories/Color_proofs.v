(** Proofs: the coloring loop and the parallel assembly. *)
From Coq Require Import List Arith ZArith QArith Qcanon Bool Permutation Lia.
From Verif Require Import Base Race_model Race_proofs Color_model Color_spec.
Import ListNotations.
Local Open Scope nat_scope.

Lemma markAll_ok n : forall js st, length st = n -> (forall j, In j js -> j < n) ->
  exists st', markAll js st = Some st' /\ length st' = n /\ forall i, i < n -> nth i st' 0%Z = if (nth i st 0 =? 0)%Z && existsb (Nat.eqb i) js then (-1)%Z else nth i st 0%Z.
Proof.
  induction js as [|j js IH]; intros st L H.
  - exists st. split; [reflexivity|]. split; [exact L|]. intros i _. cbn. rewrite andb_false_r. reflexivity.
  - cbn [markAll]. rewrite (nth_error_nth' st 0%Z) by (rewrite L; apply H; left; reflexivity). set (st1 := if (nth j st 0 =? 0)%Z then upd j (-1)%Z st else st).
    assert (L1 : length st1 = n) by (unfold st1; destruct (_ =? 0)%Z; [rewrite upd_length|]; exact L). destruct (IH st1 L1 (fun k Hk => H k (or_intror Hk))) as (st' & -> & L' & N). exists st'. split; [reflexivity|]. split; [exact L'|].
    intros i Hi. rewrite N by exact Hi. cbn [existsb]. assert (Hj : j < n) by (apply H; left; reflexivity). unfold st1. destruct (Z.eqb_spec (nth j st 0%Z) 0) as [E0|E0].
    + destruct (Nat.eqb_spec i j) as [->|Hne].
      * rewrite upd_nth_same by lia. rewrite E0. reflexivity.
      * rewrite upd_nth_other by congruence. reflexivity.
    + destruct (Nat.eqb_spec i j) as [->|Hne]; [|reflexivity]. destruct (Z.eqb_spec (nth j st 0%Z) 0); [contradiction|]. reflexivity.
Qed.

Lemma NoDup_app2 {X} (a b : list X) : NoDup a -> NoDup b -> (forall x, In x a -> ~ In x b) -> NoDup (a ++ b).
Proof.
  induction a as [|x a IH]; intros A B H; [exact B|]. inversion A; subst. cbn. constructor.
  - intros Hin. apply in_app_or in Hin. destruct Hin as [Hin|Hin]; [contradiction|]. apply (H x (or_introl eq_refl) Hin).
  - apply IH; [assumption|exact B|]. intros y Hy. apply H. right. exact Hy.
Qed.
Section Loop.
Variables (n : nat) (mark : nat -> option (list nat)) (marks : nat -> list nat).
Hypothesis M1 : forall i, i < n -> mark i = Some (marks i).
Hypothesis M2 : forall i j, i < n -> In j (marks i) -> j < n.

Lemma oneColor_ok c : (0 < c)%Z -> forall order st, length st = n -> (forall i, In i order -> i < n) ->
  exists st' col, oneColor mark c order st = Some (st', col) /\ length st' = n /\ NoDup col /\
    (forall i, In i col -> In i order /\ nth i st 0%Z = 0%Z) /\
    (forall i, i < n -> (In i col -> nth i st' 0%Z = c) /\ (~ In i col -> nth i st' 0%Z = nth i st 0%Z \/ (nth i st 0%Z = 0%Z /\ nth i st' 0%Z = (-1)%Z))) /\
    ForallOrdPairs (fun i j => ~ In j (marks i)) col /\
    ((exists i, In i order /\ nth i st 0%Z = 0%Z) -> col <> []).
Proof.
  intros Hc. induction order as [|i r IH]; intros st L H.
  - exists st, []. split; [reflexivity|]. split; [exact L|]. split; [constructor|]. split; [intros i []|]. split; [intros i _; split; [intros []|left; reflexivity]|]. split; [constructor|]. intros (i & [] & _).
  - assert (Hi : i < n) by (apply H; left; reflexivity). cbn [oneColor]. rewrite (nth_error_nth' st 0%Z) by lia. destruct (Z.eqb_spec (nth i st 0%Z) 0) as [E0|E0].
    + rewrite (M1 i Hi). destruct (markAll_ok n (marks i) (upd i c st)) as (st1 & -> & L1 & N1); [rewrite upd_length; exact L|intros j Hj; apply (M2 i j Hi Hj)|].
      destruct (IH st1 L1 (fun k Hk => H k (or_intror Hk))) as (st' & col & -> & L' & ND & Hin & Hst & Hp & _). exists st', (i :: col). split; [reflexivity|]. split; [exact L'|].
      assert (Z1 : forall j, In j col -> j < n /\ j <> i /\ nth j st 0%Z = 0%Z /\ ~ In j (marks i)).
      { intros j Hj. destruct (Hin j Hj) as [Hr Hz]. assert (Hjn : j < n) by (apply H; right; exact Hr). rewrite N1 in Hz by exact Hjn. destruct (Nat.eq_dec j i) as [->|Hne].
        - rewrite upd_nth_same in Hz by lia. destruct (Z.eqb_spec c 0); [lia|]. cbn [andb] in Hz. lia.
        - rewrite upd_nth_other in Hz by exact Hne. destruct (Z.eqb_spec (nth j st 0%Z) 0) as [Ez|Ez]; [|cbn [andb] in Hz; contradiction]. cbn [andb] in Hz.
          destruct (existsb (Nat.eqb j) (marks i)) eqn:Ex; [discriminate Hz|]. repeat split; try assumption. intros Hm. assert (existsb (Nat.eqb j) (marks i) = true) by (apply existsb_exists; exists j; split; [exact Hm|apply Nat.eqb_refl]). congruence. }
      split; [constructor; [intros Hc'; apply Z1 in Hc'; tauto|exact ND]|]. split; [|split; [|split]].
      * intros j [<-|Hj]; [split; [left; reflexivity|exact E0]|]. split; [right; apply Hin, Hj|apply Z1, Hj].
      * intros j Hj. destruct (Hst j Hj) as [Ha Hb]. split.
        -- intros [<-|Hj']; [|apply Ha, Hj']. assert (Hni : ~ In i col) by (intros Hc'; apply Z1 in Hc'; tauto). specialize (Hb Hni). rewrite N1, upd_nth_same in Hb by lia.
           replace (c =? 0)%Z with false in Hb by (symmetry; apply Z.eqb_neq; lia). cbn [andb] in Hb. destruct Hb as [Hb|[Hb _]]; [exact Hb|lia].
        -- intros Hni. assert (Hne : j <> i) by (intros ->; apply Hni; left; reflexivity). specialize (Hb (fun Hc' => Hni (or_intror Hc'))). rewrite N1, upd_nth_other in Hb by lia.
           destruct (Z.eqb_spec (nth j st 0%Z) 0) as [Ez|Ez]; cbn [andb] in Hb; [|exact Hb]. destruct (existsb (Nat.eqb j) (marks i)); [|exact Hb]. destruct Hb as [Hb|[Hb _]]; [right; split; [exact Ez|exact Hb]|discriminate Hb].
      * constructor; [|exact Hp]. apply Forall_forall. intros j Hj. apply Z1, Hj.
      * discriminate.
    + destruct (IH st L (fun k Hk => H k (or_intror Hk))) as (st' & col & -> & L' & ND & Hin & Hst & Hp & Hne). exists st', col. split; [reflexivity|]. split; [exact L'|]. split; [exact ND|]. split; [|split; [exact Hst|split; [exact Hp|]]].
      * intros j Hj. destruct (Hin j Hj). split; [right|]; assumption.
      * intros (j & [<-|Hj] & Hz); [contradiction|]. apply Hne. exists j. split; assumption.
Qed.

Definition un (st : list Z) (i : nat) : bool := (nth i st 0 <=? 0)%Z.
Lemma reset_nth st i : nth i (map (fun s => if (s <? 0)%Z then 0%Z else s) st) 0%Z = if (nth i st 0 <? 0)%Z then 0%Z else nth i st 0%Z.
Proof. apply (map_nth (fun s => if (s <? 0)%Z then 0%Z else s) st 0%Z i). Qed.

Lemma loop_ok order : Permutation order (seq 0 n) -> forall fuel k fixed st, length st = n -> fixed + length (filter (un st) (seq 0 n)) = n -> n - fixed <= fuel ->
  exists cols, colorLoop fuel mark order n k fixed st = Some cols /\ Permutation (concat cols) (filter (un st) (seq 0 n)) /\
    forall col, In col cols -> NoDup col /\ ForallOrdPairs (fun i j => ~ In j (marks i)) col.
Proof.
  intros P. assert (Ho : forall i, In i order <-> i < n) by (intros i; rewrite (Permutation_in' eq_refl P), in_seq; lia).
  induction fuel as [|f IH]; intros k fixed st L Hf Hfu.
  - cbn [colorLoop]. replace (n <=? fixed) with true by (symmetry; apply Nat.leb_le; lia). exists []. split; [reflexivity|]. split; [|intros col []]. destruct (filter (un st) (seq 0 n)); [constructor|cbn in Hf; lia].
  - cbn [colorLoop]. destruct (Nat.leb_spec n fixed) as [G|G].
    { exists []. split; [reflexivity|]. split; [|intros col []]. destruct (filter (un st) (seq 0 n)); [constructor|cbn in Hf; lia]. }
    set (st0 := map (fun s => if (s <? 0)%Z then 0%Z else s) st). assert (L0 : length st0 = n) by (unfold st0; rewrite map_length; exact L).
    assert (Z0 : forall i, nth i st0 0%Z = 0%Z <-> un st i = true). { intros i. unfold st0, un. rewrite reset_nth. destruct (Z.ltb_spec (nth i st 0%Z) 0), (Z.leb_spec (nth i st 0%Z) 0); split; intros; try reflexivity; try discriminate; lia. }
    destruct (oneColor_ok (Z.of_nat k + 1) ltac:(lia) order st0 L0 (fun i Hi => proj1 (Ho i) Hi)) as (st' & col & -> & L' & ND & Hin & Hst & Hp & Hne).
    assert (Hcol : col <> []).
    { apply Hne. destruct (filter (un st) (seq 0 n)) as [|i0 l0] eqn:Ef; [cbn in Hf; lia|]. assert (Hi0 : In i0 (filter (un st) (seq 0 n))) by (rewrite Ef; left; reflexivity). apply filter_In in Hi0. destruct Hi0 as [Ha Hb]. apply in_seq in Ha.
      exists i0. split; [apply Ho; lia|apply Z0, Hb]. }
    assert (Pm : Permutation (filter (un st) (seq 0 n)) (col ++ filter (un st') (seq 0 n))).
    { apply NoDup_Permutation.
      - apply NoDup_filter, seq_NoDup.
      - apply NoDup_app2; [exact ND|apply NoDup_filter, seq_NoDup|]. intros i Hi Hf'. apply filter_In in Hf'. destruct Hf' as [Hs Hu]. apply in_seq in Hs. destruct (Hst i ltac:(lia)) as [Ha _]. unfold un in Hu. rewrite (Ha Hi) in Hu. lia.
      - intros i. rewrite in_app_iff, !filter_In, in_seq. split.
        + intros [Hs Hu]. destruct (in_dec Nat.eq_dec i col) as [Hi|Hi]; [left; exact Hi|right]. split; [exact Hs|]. apply Z0 in Hu. destruct (Hst i ltac:(lia)) as [_ Hb]. specialize (Hb Hi). unfold un. apply Z.leb_le. lia.
        + intros [Hi|[Hs Hu]].
          * destruct (Hin i Hi) as [Hio Hz]. apply Ho in Hio. split; [lia|apply Z0, Hz].
          * split; [exact Hs|]. destruct (in_dec Nat.eq_dec i col) as [Hi|Hi]; [apply Z0, Hin, Hi|]. destruct (Hst i ltac:(lia)) as [_ Hb]. specialize (Hb Hi). destruct Hb as [Hb|[Hb _]]; [|apply Z0, Hb].
            unfold un in *. unfold st0 in Hb. rewrite reset_nth in Hb. destruct (Z.ltb_spec (nth i st 0%Z) 0); [lia|]. lia. }
    assert (Lc : length (filter (un st) (seq 0 n)) = length col + length (filter (un st') (seq 0 n))) by (rewrite (Permutation_length Pm), app_length; reflexivity).
    destruct (IH (S k) (fixed + length col) st' L') as (cols & -> & Pc & Hc); [lia|destruct col; [contradiction|]; cbn [length] in *; lia|].
    exists (col :: cols). split; [reflexivity|]. split; [cbn [concat]; rewrite Pm; apply Permutation_app_head; exact Pc|]. intros c [<-|Hc']; [split; assumption|apply Hc, Hc'].
Qed.
End Loop.

(** ** Parallel assembly *)
Section Par.
Context {cell : Type} (ceq : forall a b : cell, {a = b} + {a <> b}) (upde : nat -> list (cell * Qc)).

Lemma total_perm c : forall l l', Permutation l l' -> total ceq c (flat_map upde l) = total ceq c (flat_map upde l').
Proof.
  induction 1 as [|x l l' _ IH|x y l|l l' l'' _ IH1 _ IH2]; cbn [flat_map]; rewrite ?total_app; [reflexivity|rewrite IH; reflexivity|ring|congruence].
Qed.
Lemma flat_map_parts : forall parts, concat (map (flat_map upde) parts) = flat_map upde (concat parts).
Proof. induction parts as [|p parts IH]; [reflexivity|]. cbn [map concat]. rewrite IH, flat_map_app. reflexivity. Qed.
Lemma NoDup_concat_neq {X} : forall (parts : list (list X)) i j x y, NoDup (concat parts) -> i <> j -> In x (nth i parts []) -> In y (nth j parts []) -> x <> y.
Proof.
  induction parts as [|p parts IH]; intros i j x y ND Hne Hx Hy; [destruct i; destruct Hx|]. cbn [concat] in ND.
  assert (D : forall z k, In z p -> In z (nth k parts []) -> False).
  { intros z k Hz Hk. assert (Hc : In z (concat parts)).
    { apply in_concat. exists (nth k parts []). split; [|exact Hk]. destruct (Nat.lt_ge_cases k (length parts)) as [Hl|Hl]; [apply nth_In, Hl|rewrite nth_overflow in Hk by exact Hl; destruct Hk]. }
    clear - ND Hz Hc. induction p as [|q p IHp]; [destruct Hz|]. cbn in ND. inversion ND as [|? ? N1 N2]; subst. destruct Hz as [->|Hz]; [apply N1, in_or_app; right; exact Hc|apply IHp; assumption]. }
  assert (ND2 : NoDup (concat parts)) by (clear - ND; induction p as [|q p IHp]; [exact ND|]; cbn in ND; inversion ND; subst; apply IHp; assumption).
  destruct i as [|i], j as [|j]; cbn [nth] in *; [lia|intros ->; apply (D y j); assumption|intros ->; apply (D y i); assumption|]. apply (IH i j); [exact ND2|lia|exact Hx|exact Hy].
Qed.
Lemma In_flat_upd c l : In c (map fst (flat_map upde l)) -> exists e, In e l /\ In c (map fst (upde e)).
Proof.
  intros H. apply in_map_iff in H. destruct H as (p & <- & H). apply in_flat_map in H. destruct H as (e & He & H). exists e. split; [exact He|]. apply in_map, H.
Qed.
Lemma par_ok : forall cols m0 m2, (forall col, In col cols -> NoDup col /\ forall e f c, In e col -> In f col -> e <> f -> In c (map fst (upde e)) -> In c (map fst (upde f)) -> False) ->
  par_colors ceq upde cols m0 m2 -> forall c, m2 c = (m0 c + total ceq c (flat_map upde (concat cols)))%Qc.
Proof.
  induction cols as [|col cols IH]; intros m0 m2 H P c; inversion P as [|? ? parts ? m1 ? ts HP HR HD HC]; subst.
  - cbn. ring.
  - destruct (H col (or_introl eq_refl)) as [ND Hd]. rewrite (IH m1 m2 (fun x Hx => H x (or_intror Hx)) HC c).
    rewrite (race_free ceq m0 (map (flat_map upde) parts) m1 ts); [|clear c|exact HR|exact HD].
    + cbn [concat]. rewrite flat_map_app, total_app, flat_map_parts, (total_perm c _ _ HP). ring.
    + assert (NDp : NoDup (concat parts)) by (apply (Permutation_NoDup (Permutation_sym HP) ND)).
      assert (In' : forall i e, In e (nth i parts []) -> In e col).
      { intros i e He. apply (Permutation_in _ HP). apply in_concat. exists (nth i parts []). split; [|exact He]. destruct (Nat.lt_ge_cases i (length parts)) as [Hl|Hl]; [apply nth_In, Hl|rewrite nth_overflow in He by exact Hl; destruct He]. }
      intros i j c Hij Hi Hj. change (@nil (cell * Qc)) with (flat_map upde []) in Hi, Hj. rewrite map_nth in Hi, Hj. apply In_flat_upd in Hi, Hj. destruct Hi as (e & He & Hi), Hj as (f & Hf & Hj).
      apply (Hd e f c (In' i e He) (In' j f Hf)); [|exact Hi|exact Hj]. apply (NoDup_concat_neq parts i j e f NDp Hij He Hf).
Qed.
End Par.
