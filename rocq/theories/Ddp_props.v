(** C92: equation numbers of a graph-partitioned model. *)
From Coq Require Import ZArith List Bool Lia.
From Verif Require Import Ddp_model Ddp_spec Ddp_proofs.
Import ListNotations.
Local Open Scope Z_scope.

Lemma bcast_last : forall res, res <> [] -> bcast res = map mlgeq (nth (length res - 1) res []).
Proof.
  intros res H. unfold bcast. destruct (exists_last H) as (l & x & ->).
  rewrite rev_app_distr. simpl. rewrite app_length. simpl.
  rewrite app_nth2 by lia. replace (length l + 1 - 1 - length l)%nat with 0%nat by lia. reflexivity.
Qed.

Lemma allBlks_nth : forall neq l0 ls G b d, (b < length (l0 :: ls))%nat ->
  nth b (allBlks neq l0 ls G) d = G (b =? 0)%nat (nth b (l0 :: ls) []).
Proof.
  intros neq l0 ls G [|b] d H; [reflexivity|]. simpl in *.
  rewrite (nth_indep _ d (G false [])) by (rewrite map_length; lia). apply map_nth.
Qed.

(** C92.  procs are the element equations of the processes, locs the equation sets of
    the blocks (the first block has all equations).  After the numbering, in block b:
    the equations that no element has keep -1, the others are numbered 1..N, all
    different; the numbers from minEq to maxEq of process p are exactly those of the
    equations that p is the first process to have, and the ranges follow each other. *)
Theorem part_numbering : forall neq locs procs, locs <> [] -> procs <> [] -> valid neq procs ->
  exists res, runProcs neq locs None procs = Some res /\ length res = length procs /\
  length (bcast res) = length locs /\
  forall b, (b < length locs)%nat ->
    let ml := nth b (bcast res) [] in
    let num e := nth (Z.to_nat (e - 1)) ml 0 in
    let dflt := freshBlk neq [] in
    let lo p := minEq (nth b (nth p res []) dflt) in
    let hi p := maxEq (nth b (nth p res []) dflt) in
    let has e := counts (b =? 0)%nat (nth b locs []) e in
    length ml = neq /\
    (forall e, 1 <= e <= Z.of_nat neq -> (num e = -1 <-> ~ (has e /\ exists p, owner procs p e))) /\
    (forall p, (p < length procs)%nat -> lo p <= hi p + 1 /\
       forall e, 1 <= e <= Z.of_nat neq -> (lo p <= num e <= hi p <-> has e /\ owner procs p e)) /\
    lo 0%nat = 1 /\
    (forall p, (S p < length procs)%nat -> lo (S p) = hi p + 1) /\
    (forall n, 1 <= n <= hi (length procs - 1)%nat -> exists e, 1 <= e <= Z.of_nat neq /\ num e = n) /\
    (forall e1 e2, 1 <= e1 <= Z.of_nat neq -> 1 <= e2 <= Z.of_nat neq ->
       num e1 = num e2 -> num e1 <> -1 -> e1 = e2).
Proof.
  intros neq locs procs NL NP HV. destruct locs as [|l0 ls]; [congruence|].
  destruct (runProcs_eq neq l0 ls procs None (fun _ _ => []) (fun _ _ => eq_refl) HV) as (res & E & LN & N).
  exists res. simpl option_map in E, N.
  assert (LP : (0 < length procs)%nat) by (destruct procs; [congruence | simpl; lia]).
  assert (NR : res <> []) by (intros ->; simpl in LN; lia).
  split; [exact E|]. split; [exact LN|].
  assert (BC := bcast_last res NR). rewrite LN, N in BC by lia.
  split; [rewrite BC, map_length; unfold allBlks; simpl; rewrite map_length; reflexivity|].
  intros b Hb ml num dflt lo hi has.
  set (f := (b =? 0)%nat) in *. set (loc := nth b (l0 :: ls) []) in *.
  set (P := (length procs - 1)%nat) in *.
  set (C := cols f neq loc None procs) in *.
  destruct (cols_rel f neq loc procs None [] HV eq_refl) as [_ CR]. fold C in CR.
  assert (NB : forall p, (p < length procs)%nat -> nth b (nth p res []) dflt = nth p C dflt).
  { intros p Hp. rewrite (N p Hp), allBlks_nth by exact Hb. reflexivity. }
  assert (ML : ml = mlgeq (nth P C dflt)).
  { unfold ml. rewrite BC. rewrite (nth_indep _ [] (mlgeq dflt)).
    - rewrite map_nth, allBlks_nth by exact Hb. reflexivity.
    - rewrite map_length. unfold allBlks. simpl. rewrite map_length. exact Hb. }
  set (L := fun p => nth p (Ls f loc [] procs) []).
  assert (RP : rel neq loc (nth P C dflt) (L P)) by (apply CR; unfold P; lia).
  assert (NUM : forall e, num e = ent (nth P C dflt) e) by (intros; unfold num; rewrite ML; reflexivity).
  assert (HI : forall p, (p < length procs)%nat -> hi p = Z.of_nat (length (L p))).
  { intros p Hp. unfold hi. rewrite NB by assumption. apply (r_max neq loc). apply CR. exact Hp. }
  set (Lb := fun p => nth p ([] :: Ls f loc [] procs) []).
  assert (LO : forall p, (p < length procs)%nat -> lo p = Z.of_nat (length (Lb p)) + 1).
  { intros p Hp. unfold lo. rewrite NB by assumption. apply CR. exact Hp. }
  assert (LIN : forall p e, (p < length procs)%nat -> (In e (L p) <-> has e /\ exists q, (q <= p)%nat /\ meets (nth q procs []) e)).
  { intros p e Hp. unfold L. rewrite Ls_in by exact Hp. simpl. unfold has. tauto. }
  assert (LBIN : forall p e, (p < length procs)%nat -> (In e (Lb p) <-> has e /\ exists q, (q < p)%nat /\ meets (nth q procs []) e)).
  { intros p e Hp. unfold Lb. destruct p; cbn [nth].
    - split; [contradiction|]. intros (_ & q & Hq & _); lia.
    - fold (L p). rewrite LIN by lia. split; intros (H1 & q & Hq & H2); (split; [exact H1|]); exists q; split; (lia || exact H2). }
  (* number of e in terms of L P *)
  assert (POS : forall i, (i < length (L P))%nat -> num (nth i (L P) 0) = Z.of_nat i + 1).
  { intros i Hi. rewrite NUM. apply (r_num _ _ _ _ RP). exact Hi. }
  assert (EX : forall e, In e (L P) -> exists i, (i < length (L P))%nat /\ nth i (L P) 0 = e /\ num e = Z.of_nat i + 1).
  { intros e He. apply In_nth with (d := 0) in He. destruct He as (i & Hi & <-). exists i. auto. }
  assert (EXO : forall e, (exists q, (q <= P)%nat /\ meets (nth q procs []) e) -> exists p, owner procs p e).
  { intros e (q & Hq & H).
    assert (G : forall n, (n <= q)%nat -> (exists p, owner procs p e) \/ (forall j, (j < n)%nat -> ~ meets (nth j procs []) e)).
    { induction n; intros Hn; [right; intros; lia|].
      destruct (IHn ltac:(lia)) as [G | G]; [left; exact G|].
      destruct (in_dec Z.eq_dec e (concat (nth n procs []))) as [I | I]; rewrite meets_concat in I.
      - left. exists n. unfold owner. split; [unfold P in Hq; lia | split; [exact I | exact G]].
      - right. intros j Hj. destruct (Nat.eq_dec j n) as [-> | NE]; [exact I | apply G; lia]. }
    destruct (G q ltac:(lia)) as [G' | G']; [exact G'|].
    exists q. unfold owner. split; [unfold P in Hq; lia | split; [exact H | exact G']]. }
  split; [rewrite ML; apply (r_len _ _ _ _ RP)|].
  split.
  { intros e He. destruct (in_dec Z.eq_dec e (L P)) as [I | I].
    - destruct (EX e I) as (i & Hi & _ & V). split; [lia|].
      intros Hno. exfalso. apply Hno. apply LIN in I; [|unfold P; lia].
      destruct I as [H1 H2]. split; [exact H1 | apply EXO; exact H2].
    - split; [|intros _; rewrite NUM; apply (r_un _ _ _ _ RP); assumption].
      intros _ (H1 & p & O). apply I. apply LIN; [unfold P; lia|]. split; [exact H1|].
      destruct O as (O1 & O2 & _). exists p. split; [unfold P; lia | exact O2]. }
  split.
  { intros p Hp. rewrite LO, HI by assumption.
    destruct (Ls_step f loc procs [] p Hp) as (D & ED). fold (L p) in ED. fold (Lb p) in ED.
    destruct (Ls_ext f loc procs [] p P ltac:(unfold P; lia) ltac:(unfold P; lia)) as (D2 & ED2).
    fold (L P) in ED2. fold (L p) in ED2.
    split; [rewrite ED, app_length; lia|].
    intros e He. split.
    - intros HN. destruct (in_dec Z.eq_dec e (L P)) as [I | I].
      2:{ rewrite NUM, (r_un _ _ _ _ RP e He I) in HN. lia. }
      destruct (EX e I) as (i & Hi & EI & V). rewrite V in HN.
      assert (I1 : In e (L p)).
      { rewrite ED2, app_nth1 in EI by lia. rewrite <- EI. apply nth_In. lia. }
      assert (I2 : ~ In e (Lb p)).
      { intros I2. assert (ND := r_nd _ _ _ _ RP).
        apply In_nth with (d := 0) in I2. destruct I2 as (j & Hj & EJ).
        assert (EJ2 : nth j (L P) 0 = e).
        { rewrite ED2, app_nth1 by (rewrite ED, app_length; lia). rewrite ED, app_nth1 by exact Hj. exact EJ. }
        assert (i = j).
        { apply (proj1 (NoDup_nth (L P) 0) ND); [exact Hi | | congruence].
          rewrite ED2, ED, !app_length. lia. }
        lia. }
      apply LIN in I1; [|exact Hp]. rewrite LBIN in I2 by exact Hp. destruct I1 as (H1 & q & Hq & HM).
      split; [exact H1|]. split; [exact Hp|].
      assert (NM : forall j, (j < p)%nat -> ~ meets (nth j procs []) e).
      { intros j Hj HMj. apply I2. split; [exact H1|]. exists j. split; assumption. }
      split; [|exact NM]. destruct (Nat.eq_dec q p) as [-> | NE]; [exact HM|]. exfalso. apply (NM q); [lia | exact HM].
    - intros (H1 & O1 & O2 & O3).
      assert (I1 : In e (L p)) by (apply LIN; [exact Hp|]; split; [exact H1 | exists p; split; [lia | exact O2]]).
      assert (I2 : ~ In e (Lb p)).
      { rewrite LBIN by exact Hp. intros (_ & q & Hq & HM). apply (O3 q Hq HM). }
      rewrite ED in I1. apply in_app_or in I1. destruct I1 as [I1 | I1]; [contradiction|].
      apply In_nth with (d := 0) in I1. destruct I1 as (j & Hj & EJ).
      assert (V : num (nth (length (Lb p) + j) (L P) 0) = Z.of_nat (length (Lb p) + j) + 1).
      { apply POS. rewrite ED2, ED, !app_length. lia. }
      assert (EE : nth (length (Lb p) + j) (L P) 0 = e).
      { rewrite ED2, app_nth1 by (rewrite ED, app_length; lia). rewrite ED, app_nth2 by lia.
        replace (length (Lb p) + j - length (Lb p))%nat with j by lia. exact EJ. }
      rewrite EE in V. rewrite V, ED, app_length. lia. }
  split; [rewrite LO by lia; reflexivity|].
  split.
  { intros p Hp. rewrite LO, HI by lia. reflexivity. }
  split.
  { intros n Hn. rewrite HI in Hn by (unfold P; lia).
    exists (nth (Z.to_nat (n - 1)) (L P) 0). split.
    - apply (r_rng _ _ _ _ RP). apply nth_In. lia.
    - rewrite POS by lia. lia. }
  intros e1 e2 H1 H2 EQ NE.
  destruct (in_dec Z.eq_dec e1 (L P)) as [I1 | I1].
  2:{ exfalso. apply NE. rewrite NUM. apply (r_un _ _ _ _ RP); assumption. }
  destruct (in_dec Z.eq_dec e2 (L P)) as [I2 | I2].
  2:{ exfalso. apply NE. rewrite EQ, NUM. apply (r_un _ _ _ _ RP); assumption. }
  destruct (EX _ I1) as (i & _ & Ei & Vi). destruct (EX _ I2) as (j & _ & Ej & Vj).
  assert (i = j) by lia. congruence.
Qed.

(** The map G2LEQ is the inverse of a numbering without repetitions. *)
Theorem part_g2leq_inverse : forall ml n e,
  (forall a b, (a < length ml)%nat -> (b < length ml)%nat -> nth a ml (-1) <> -1 ->
     nth a ml (-1) = nth b ml (-1) -> a = b) ->
  (lookup n (g2leq ml) = Some e <->
   1 <= e <= Z.of_nat (length ml) /\ n <> -1 /\ nth (Z.to_nat (e - 1)) ml (-1) = n).
Proof.
  intros ml n e HI. unfold g2leq. rewrite g2l_lookup; [|exact HI | simpl; intros; discriminate].
  simpl. split.
  - intros [H | (a & Ha & E & N & V)]; [discriminate|]. subst e. split; [lia|]. split; [exact N|].
    replace (Z.to_nat (Z.of_nat a + 1 - 1)) with a by lia. exact E.
  - intros (He & N & E). right. exists (Z.to_nat (e - 1)). repeat split; try assumption; lia.
Qed.

(** What getGlobalEq returns once the vectors are there. *)
Theorem part_getGlobalEq : forall neq mls maxs lEq idx, (0 < neq)%nat -> (idx < length mls)%nat ->
  (forall m, In m mls -> length m = neq) ->
  getGlobalEq mls maxs lEq idx =
  if (1 <=? lEq) && (lEq <=? Z.of_nat neq) then nth (Z.to_nat (lEq - 1)) (nth idx mls []) 0 else 0.
Proof.
  intros neq mls maxs lEq idx HN HI HL. unfold getGlobalEq.
  replace (length mls <=? idx)%nat with false by (symmetry; apply Nat.leb_gt; exact HI).
  assert (A : length (nth 0 mls []) = neq) by (apply HL, nth_In; lia).
  assert (B : length (nth idx mls []) = neq) by (apply HL, nth_In; lia).
  destruct (nth 0 mls []) eqn:E0; [simpl in A; lia|].
  destruct (nth idx mls []) eqn:E1; [simpl in B; lia|].
  rewrite orb_false_r, B. rewrite (Z.leb_antisym lEq 1), (Z.leb_antisym (Z.of_nat neq) lEq).
  destruct (lEq <? 1); simpl; [reflexivity|].
  destruct (Z.of_nat neq <? lEq); reflexivity.
Qed.

(** Two processes, five equations, two blocks; equation 4 has no element. *)
Example part_ex : let procs := [[[1; 3]; [3; 0; 2]]; [[5; 3]; [2; 5]]] in
  valid 5 procs /\
  (exists res, runProcs 5 [[]; [3; 5]] None procs = Some res /\
     bcast res = [[1; 3; 2; -1; 4]; [-1; -1; 1; -1; 2]] /\
     map (map (fun b => (minEq b, maxEq b))) res = [[(1, 3); (1, 1)]; [(4, 4); (2, 2)]]).
Proof.
  split.
  - intros p e [<- | [<- | []]] (el & [<- | [<- | []]] & He); simpl in He; intuition lia.
  - eexists. split; [vm_compute; reflexivity | split; vm_compute; reflexivity].
Qed.

Print Assumptions part_numbering.
Print Assumptions part_g2leq_inverse.
Print Assumptions part_getGlobalEq.
