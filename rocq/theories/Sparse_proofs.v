(** Lemmas: sorted map, segmented storage, reading and updating entries. *)
From Coq Require Import List Arith ZArith QArith Qcanon Bool Lia Sorted Permutation ZifyBool.
From Verif Require Import Base SAM_model SAM_spec Sparse_model Sparse_spec.
Import ListNotations.
Local Open Scope nat_scope.

(** ** keys and sorted maps *)
Lemma keq_spec a b : keq a b = true <-> a = b.
Proof.
  unfold keq. destruct a as [a1 a2], b as [b1 b2]; cbn [fst snd].
  rewrite andb_true_iff, !Nat.eqb_eq. split; [intros [-> ->]; auto|intros [= -> ->]; auto].
Qed.
Lemma keq_refl a : keq a a = true. Proof. apply keq_spec; reflexivity. Qed.
Lemma keq_false a b : keq a b = false <-> a <> b.
Proof. rewrite <- keq_spec. destruct (keq a b); split; congruence. Qed.
Lemma keq_pair r c r' c' : keq (r,c) (r',c') = (r =? r') && (c =? c').
Proof. reflexivity. Qed.

Lemma mget_keys k m : mget k m = None <-> ~ In k (map fst m).
Proof.
  induction m as [|[k' v] m IH]; cbn [mget map fst In]; [tauto|].
  destruct (keq k k') eqn:E.
  - apply keq_spec in E. subst. split; [discriminate|]. intros H. exfalso; apply H; left; reflexivity.
  - apply keq_false in E. rewrite IH. split; [intros H [H1|H1]; congruence || tauto|tauto].
Qed.
Lemma keyLt_key a b x y : fst a = fst x -> fst b = fst y -> keyLt a b -> keyLt x y.
Proof. unfold keyLt. intros -> ->. auto. Qed.
Lemma klt_iff a b va vb : klt a b = true <-> keyLt (a,va) (b,vb).
Proof. unfold klt, keyLt. cbn [fst snd]. lia. Qed.
Lemma klt_or a b : keq a b = false -> klt a b = false -> klt b a = true.
Proof. unfold keq, klt. lia. Qed.
Lemma keyLt_trans a b c : keyLt a b -> keyLt b c -> keyLt a c.
Proof. unfold keyLt. lia. Qed.
Lemma keyLt_irrefl a b : keyLt a b -> fst a <> fst b.
Proof. unfold keyLt. intros H E. rewrite E in H. lia. Qed.

Lemma mput_keys k f m e : In e (mput k f m) -> fst e = k \/ (exists e', In e' m /\ fst e' = fst e).
Proof.
  induction m as [|[k' v] m IH]; cbn [mput].
  - intros [<-|[]]. left; reflexivity.
  - destruct (keq k k') eqn:E; [|destruct (klt k k')].
    + intros [<-|H]; [left; symmetry; apply keq_spec, E|]. right. exists e; split; [right; auto|reflexivity].
    + intros [<-|H]; [left; reflexivity|]. right. exists e; split; [auto|reflexivity].
    + intros [<-|H]; [right; exists (k',v); split; [left; auto|reflexivity]|].
      destruct (IH H) as [H1|(e' & H1 & H2)]; [left; auto|]. right; exists e'; split; [right; auto|auto].
Qed.
Lemma mput_sorted k f m : StronglySorted keyLt m -> StronglySorted keyLt (mput k f m).
Proof.
  induction m as [|[k' v] m IH]; cbn [mput]; intros H.
  - repeat constructor.
  - inversion H as [|? ? Hs Hf]; subst.
    destruct (keq k k') eqn:E; [|destruct (klt k k') eqn:L].
    + constructor; [exact Hs|]. eapply Forall_impl; [|exact Hf]. intros a Ha. eapply keyLt_key; [| |exact Ha]; reflexivity.
    + constructor; [exact H|]. constructor; [apply klt_iff, L|].
      eapply Forall_impl; [|exact Hf]. intros a Ha. eapply keyLt_trans; [apply (proj1 (klt_iff k k' (f 0%Qc) v)), L|exact Ha].
    + constructor; [apply IH, Hs|]. apply Forall_forall. intros e He. destruct (mput_keys _ _ _ _ He) as [H1|(e' & H1 & H2)].
      * destruct e as [ke ve]; cbn [fst] in H1; subst ke. apply klt_iff. apply klt_or; auto.
      * eapply keyLt_key; [reflexivity|exact H2|]. rewrite Forall_forall in Hf. apply Hf, H1.
Qed.
Lemma sorted_mget_none k k' v m : Forall (keyLt (k',v)) m -> keq k k' = false -> klt k k' = true -> mget k m = None.
Proof.
  intros Hf E L. apply mget_keys. intros Hi. apply in_map_iff in Hi. destruct Hi as (e & He & Hi).
  rewrite Forall_forall in Hf. specialize (Hf e Hi). apply (proj1 (klt_iff k k' 0%Qc v)) in L.
  pose proof (keyLt_trans _ _ _ L Hf) as Ht. apply keyLt_irrefl in Ht. cbn [fst] in Ht. congruence.
Qed.
Definition mgetd (k : key) (m : vmap) : Qc := match mget k m with Some v => v | None => 0%Qc end.
Lemma mget_mput k f m k' : StronglySorted keyLt m ->
  mget k' (mput k f m) = if keq k' k then Some (f (mgetd k m)) else mget k' m.
Proof.
  unfold mgetd. induction m as [|[k0 v] m IH]; intros H.
  - cbn [mput mget]. destruct (keq k' k); reflexivity.
  - inversion H as [|? ? Hs Hf]; subst. cbn [mput].
    destruct (keq k k0) eqn:E; [|destruct (klt k k0) eqn:L].
    + cbn [mget]. rewrite E. apply keq_spec in E. subst k0. destruct (keq k' k); reflexivity.
    + cbn [mget]. rewrite E. rewrite (sorted_mget_none _ _ _ _ Hf E L). destruct (keq k' k); reflexivity.
    + cbn [mget]. rewrite E. destruct (keq k' k0) eqn:E'.
      * apply keq_spec in E'. subst k0. rewrite (proj2 (keq_false k' k)); [reflexivity|].
        apply keq_false in E. congruence.
      * apply IH, Hs.
Qed.
Lemma mgetd_mput k f m k' : StronglySorted keyLt m ->
  mgetd k' (mput k f m) = if keq k' k then f (mgetd k m) else mgetd k' m.
Proof. intros H. unfold mgetd at 1. rewrite mget_mput by exact H. destruct (keq k' k); reflexivity. Qed.

Lemma sorted_nodup m : StronglySorted keyLt m -> NoDup (map fst m).
Proof.
  induction 1 as [|e m Hs IH Hf]; cbn [map]; constructor; [|exact IH].
  intros Hi. apply in_map_iff in Hi. destruct Hi as (x & Hx & Hi). rewrite Forall_forall in Hf.
  apply (keyLt_irrefl _ _ (Hf x Hi)). auto.
Qed.
Lemma mget_in k v m : NoDup (map fst m) -> (mget k m = Some v <-> In (k,v) m).
Proof.
  induction m as [|[k' v'] m IH]; cbn [mget map fst In]; intros Hn; [split; [discriminate|tauto]|].
  inversion Hn as [|? ? Hx Hl]; subst. destruct (keq k k') eqn:E.
  - apply keq_spec in E. subst k'. split.
    + intros [= ->]. left; reflexivity.
    + intros [[= ->]|H]; [reflexivity|]. exfalso. apply Hx. apply in_map_iff. exists (k,v). auto.
  - rewrite IH by exact Hl. apply keq_false in E. split; [tauto|]. intros [[= -> ->]|H]; [congruence|exact H].
Qed.

(** ** values *)
Lemma val_nil r c : val [] r c = 0%Qc. Proof. reflexivity. Qed.
Lemma val_cons e l r c : val (e :: l) r c = ((if (fst (fst e) =? r) && (snd (fst e) =? c) then snd e else 0) + val l r c)%Qc.
Proof. reflexivity. Qed.
Lemma val_app a b r c : val (a ++ b) r c = (val a r c + val b r c)%Qc.
Proof. apply qs_app. Qed.
Lemma val_perm a b r c : Permutation a b -> val a r c = val b r c.
Proof. apply qs_perm. Qed.
Lemma val_absent l r c : ~ In (r,c) (map fst l) -> val l r c = 0%Qc.
Proof.
  intros H. apply qs_zero. intros [[x y] v] Hx. cbn [fst snd]. destruct ((x =? r) && (y =? c)) eqn:E; [|reflexivity].
  exfalso. apply H. apply in_map_iff. exists ((x,y),v). split; [|exact Hx]. cbn [fst].
  apply andb_true_iff in E. rewrite !Nat.eqb_eq in E. destruct E as [-> ->]; reflexivity.
Qed.
Lemma val_mgetd m r c : NoDup (map fst m) -> val m r c = mgetd (r,c) m.
Proof.
  unfold mgetd. induction m as [|[[x y] v] m IH]; intros Hn; [reflexivity|].
  inversion Hn as [|? ? Hx Hl]; subst. rewrite val_cons. cbn [fst snd mget].
  rewrite keq_pair, (Nat.eqb_sym r x), (Nat.eqb_sym c y). destruct ((x =? r) && (y =? c)) eqn:E.
  - rewrite val_absent; [ring|]. apply andb_true_iff in E. rewrite !Nat.eqb_eq in E. destruct E as [-> ->]. exact Hx.
  - rewrite IH by exact Hl. ring.
Qed.
Lemma val_in l r c v : NoDup (map fst l) -> In ((r,c),v) l -> val l r c = v.
Proof. intros Hn Hi. rewrite val_mgetd by exact Hn. unfold mgetd. apply mget_in in Hi; [rewrite Hi; reflexivity|exact Hn]. Qed.

(** ** segments *)
Lemma seg_mono n ptr idx a : segOK n ptr idx a -> forall i j, i <= j -> j <= n -> ptr i <= ptr j.
Proof.
  intros (_ & Hm & _) i j Hij Hj. induction Hij as [|j Hij IH]; [lia|].
  specialize (Hm j ltac:(lia)). replace (j+1) with (S j) in Hm by lia. lia.
Qed.
Lemma seg_bound n ptr idx a : segOK n ptr idx a -> forall k, k <= n -> ptr k <= length idx.
Proof. intros H k Hk. pose proof (seg_mono _ _ _ _ H k n Hk (le_n _)). destruct H as (_ & _ & H & _). lia. Qed.
Lemma seg_unique n ptr idx a : segOK n ptr idx a -> forall k k' i, k < n -> k' < n ->
  ptr k <= i < ptr (k+1) -> ptr k' <= i < ptr (k'+1) -> k = k'.
Proof.
  intros H k k' i Hk Hk' H1 H2. destruct (Nat.lt_trichotomy k k') as [L|[L|L]]; [|exact L|].
  - pose proof (seg_mono _ _ _ _ H (k+1) k' ltac:(lia) ltac:(lia)). lia.
  - pose proof (seg_mono _ _ _ _ H (k'+1) k ltac:(lia) ltac:(lia)). lia.
Qed.
Lemma seg_in n ptr idx a e : In e (segEnts n ptr idx a) <->
  exists k i, k < n /\ ptr k <= i < ptr (k+1) /\ e = (k, nth i idx 0, nth i a 0%Qc).
Proof.
  unfold segEnts. rewrite in_flat_map. split.
  - intros (k & Hk & Hi). apply in_seq in Hk. apply in_map_iff in Hi. destruct Hi as (i & <- & Hi). apply in_seq in Hi.
    exists k, i. repeat split; try lia.
  - intros (k & i & Hk & Hi & ->). exists k. split; [apply in_seq; lia|]. apply in_map_iff. exists i.
    split; [reflexivity|]. apply in_seq. lia.
Qed.
Lemma NoDup_flat_map {X Y} (f : X -> list Y) l :
  NoDup l -> (forall x, In x l -> NoDup (f x)) ->
  (forall x y z, In x l -> In y l -> In z (f x) -> In z (f y) -> x = y) -> NoDup (flat_map f l).
Proof.
  induction l as [|x l IH]; intros Hn Hd Hu; [constructor|]. inversion Hn as [|? ? Hx Hl]; subst. cbn [flat_map].
  assert (IH' : NoDup (flat_map f l)).
  { apply IH; [exact Hl|intros y Hy; apply Hd; right; auto|]. intros y y' z Hy Hy' H1 H2. eapply Hu; [right; auto|right; auto|eauto|eauto]. }
  assert (Hdis : forall z, In z (f x) -> ~ In z (flat_map f l)).
  { intros z Hz Hf. apply in_flat_map in Hf. destruct Hf as (y & Hy & Hzy).
    assert (x = y) by (eapply Hu; [left; auto|right; auto|eauto|eauto]). subst. contradiction. }
  assert (Hfx : NoDup (f x)) by (apply Hd; left; auto). revert Hfx Hdis. generalize (f x). intros g Hg Hdis.
  induction Hg as [|z g Hz Hg IHg]; cbn [app]; [exact IH'|]. constructor.
  - intros Hi. apply in_app_iff in Hi. destruct Hi as [Hi|Hi]; [contradiction|]. apply (Hdis z); [left; auto|exact Hi].
  - apply IHg. intros w Hw. apply Hdis. right; exact Hw.
Qed.
Lemma map_flat_map {X Y Z} (g : Y -> Z) (f : X -> list Y) l : map g (flat_map f l) = flat_map (fun x => map g (f x)) l.
Proof. induction l as [|x l IH]; [reflexivity|]. cbn [flat_map]. rewrite map_app, IH. reflexivity. Qed.
Lemma NoDup_map_inj {X Y} (f : X -> Y) l : NoDup l -> (forall x y, In x l -> In y l -> f x = f y -> x = y) -> NoDup (map f l).
Proof.
  induction 1 as [|x l Hx Hl IH]; intros Hi; cbn [map]; constructor.
  - intros H. apply in_map_iff in H. destruct H as (y & Hy & Hin). assert (y = x) by (apply Hi; [right|left|]; auto). subst. contradiction.
  - apply IH. intros y z Hy Hz. apply Hi; right; auto.
Qed.
Lemma seg_nodup n ptr idx a : segOK n ptr idx a -> NoDup (map fst (segEnts n ptr idx a)).
Proof.
  intros H. unfold segEnts. rewrite map_flat_map. apply NoDup_flat_map.
  - apply seq_NoDup.
  - intros k Hk. apply in_seq in Hk. rewrite map_map. cbn [fst]. apply NoDup_map_inj; [apply seq_NoDup|].
    intros i j Hi Hj [= E]. apply in_seq in Hi. apply in_seq in Hj. destruct H as (_ & _ & _ & _ & H).
    eapply (H k); lia.
  - intros k k' z _ _ H1 H2. rewrite map_map in H1, H2. apply in_map_iff in H1, H2.
    destruct H1 as (i & <- & _). destruct H2 as (j & [= E _] & _). auto.
Qed.

Lemma findN_some x l k : findN x l = Some k -> k < length l /\ nth k l 0 = x.
Proof.
  revert k; induction l as [|y l IH]; intros k; cbn [findN]; [discriminate|].
  destruct (Nat.eqb_spec x y) as [->|Hn]; [intros [= <-]; cbn; split; [lia|reflexivity]|].
  destruct (findN x l) as [k'|]; [|discriminate]. cbn [option_map]. intros [= <-]. destruct (IH k' eq_refl).
  cbn. split; [lia|auto].
Qed.
Lemma findN_none x l : findN x l = None -> ~ In x l.
Proof.
  induction l as [|y l IH]; cbn [findN]; [tauto|]. destruct (Nat.eqb_spec x y) as [->|Hn]; [discriminate|].
  destruct (findN x l); [discriminate|]. intros _ [H|H]; [congruence|]. apply IH; auto.
Qed.

(** ** positions in a well-formed compressed matrix *)
Definition segptr (M : spm) (k : nat) : nat :=
  if colFmt (slv M) then nth k (IA M) 0 else nth k (IA M) 0 - 1.
Definition segno (M : spm) (r c : nat) : nat := if colFmt (slv M) then c - 1 else r - 1.
Definition segx (M : spm) (r c : nat) : nat := if colFmt (slv M) then r - 1 else c.
Definition segn (M : spm) : nat := if colFmt (slv M) then ncol M else nrow M.
Lemma inRange_iff M r c : inRange M r c = true <-> 1 <= r <= nrow M /\ 1 <= c <= ncol M.
Proof. unfold inRange. lia. Qed.
Lemma wf_seg M : st M = Compr -> wf M -> length (IA M) = segn M + 1 /\ segOK (segn M) (segptr M) (JA M) (A M).
Proof. unfold wf, segn, segptr. intros ->. destruct (colFmt (slv M)); tauto. Qed.

(** [position] finds the array index of the entry, or there is none *)
Lemma position_spec M r c : st M = Compr -> wf M -> inRange M r c = true ->
  (exists k, position M r c = Some (Some k) /\ k < length (A M) /\
     segptr M (segno M r c) <= k < segptr M (segno M r c + 1) /\ nth k (JA M) 0 = segx M r c) \/
  (position M r c = Some None /\
   forall k, segptr M (segno M r c) <= k < segptr M (segno M r c + 1) -> nth k (JA M) 0 <> segx M r c).
Proof.
  intros Hst Hwf Hr. apply inRange_iff in Hr. destruct (wf_seg M Hst Hwf) as [Hlen Hseg].
  assert (Hno : segno M r c < segn M) by (unfold segno, segn; destruct (colFmt (slv M)); lia).
  pose proof (seg_bound _ _ _ _ Hseg (segno M r c + 1) ltac:(lia)) as Hb.
  assert (Hle : segptr M (segno M r c) <= segptr M (segno M r c + 1)) by (apply Hseg; exact Hno).
  assert (HlA : length (A M) = length (JA M)) by apply Hseg.
  assert (Hgen : forall b e x, b = segptr M (segno M r c) -> e = segptr M (segno M r c + 1) -> x = segx M r c ->
    match slice b e (JA M) with
    | Some l => match findN x l with
                | Some k => if b + k <? length (A M) then Some (Some (b + k)) else None
                | None => Some None end
    | None => None end = position M r c ->
    (exists k, position M r c = Some (Some k) /\ k < length (A M) /\
     segptr M (segno M r c) <= k < segptr M (segno M r c + 1) /\ nth k (JA M) 0 = segx M r c) \/
    (position M r c = Some None /\
     forall k, segptr M (segno M r c) <= k < segptr M (segno M r c + 1) -> nth k (JA M) 0 <> segx M r c)).
  { intros b e x -> -> ->. unfold slice.
    rewrite (proj2 (Nat.leb_le _ _) Hle), (proj2 (Nat.leb_le _ _) Hb). cbn [andb].
    set (b := segptr M (segno M r c)) in *. set (e := segptr M (segno M r c + 1)) in *.
    assert (Hsl : length (firstn (e - b) (skipn b (JA M))) = e - b) by (rewrite firstn_length, skipn_length; lia).
    destruct (findN (segx M r c) (firstn (e - b) (skipn b (JA M)))) as [k|] eqn:Ef; intros Hp.
    - apply findN_some in Ef. rewrite Hsl in Ef. destruct Ef as [Hk Hx].
      rewrite nth_firstn_lt, nth_skipn in Hx by exact Hk.
      rewrite (proj2 (Nat.ltb_lt (b+k) (length (A M)))) in Hp by lia. left. exists (b+k). rewrite <- Hp. repeat split; try lia.
    - right. split; [auto|]. intros k Hk. apply findN_none in Ef. intros Hx. apply Ef.
      rewrite <- Hx. replace (nth k (JA M) 0) with (nth (k-b) (firstn (e-b) (skipn b (JA M))) 0).
      + apply nth_In. lia.
      + rewrite nth_firstn_lt, nth_skipn by lia. f_equal. lia. }
  unfold position, segptr, segno, segx in *. unfold wf in Hwf. rewrite Hst in Hwf.
  unfold segn in *. destruct (colFmt (slv M)).
  - apply (Hgen _ _ _ eq_refl eq_refl eq_refl).
    replace (c - 1 + 1) with c by lia.
    rewrite !(nth_error_nth' (IA M) 0) by lia. reflexivity.
  - destruct Hwf as (_ & Hpos & _).
    pose proof (Hpos (r-1) ltac:(lia)) as P1. pose proof (Hpos r ltac:(lia)) as P2.
    assert (E1 : nth_error (IA M) (r-1) = Some (S (nth (r-1) (IA M) 0 - 1))) by (rewrite (nth_error_nth' (IA M) 0) by lia; f_equal; lia).
    assert (E2 : nth_error (IA M) r = Some (S (nth r (IA M) 0 - 1))) by (rewrite (nth_error_nth' (IA M) 0) by lia; f_equal; lia).
    apply (Hgen _ _ _ eq_refl eq_refl eq_refl). replace (r-1+1) with r by lia.
    rewrite E1, E2. reflexivity.
Qed.
Lemma position_inj M r c r' c' k : st M = Compr -> wf M -> inRange M r c = true -> inRange M r' c' = true ->
  position M r c = Some (Some k) -> position M r' c' = Some (Some k) -> r = r' /\ c = c'.
Proof.
  intros Hst Hwf Hr Hr' H1 H2. destruct (wf_seg M Hst Hwf) as [_ Hseg].
  destruct (position_spec M r c Hst Hwf Hr) as [(k1 & E1 & _ & I1 & X1)|[E1 _]]; [|congruence].
  destruct (position_spec M r' c' Hst Hwf Hr') as [(k2 & E2 & _ & I2 & X2)|[E2 _]]; [|congruence].
  assert (k1 = k) by congruence. assert (k2 = k) by congruence. subst.
  apply inRange_iff in Hr, Hr'.
  assert (segno M r c = segno M r' c').
  { eapply seg_unique; [exact Hseg| | |exact I1|exact I2]; unfold segno, segn; destruct (colFmt (slv M)); lia. }
  rewrite X1 in X2. unfold segno, segx in *. destruct (colFmt (slv M)); lia.
Qed.

(** the entries of a compressed matrix *)
Definition segKey (M : spm) (e : nat * nat * Qc) : key * Qc :=
  if colFmt (slv M) then ((snd (fst e) + 1, fst (fst e) + 1), snd e) else ((fst (fst e) + 1, snd (fst e)), snd e).
Lemma stored_compr M : st M = Compr ->
  stored M = map (segKey M) (segEnts (segn M) (segptr M) (JA M) (A M)).
Proof.
  unfold stored, segKey, segn, colStored, rowStored. intros ->.
  destruct (colFmt (slv M)) eqn:E; apply map_ext_in_iff || idtac; unfold segEnts, segptr; rewrite E; reflexivity.
Qed.
Lemma stored_nodup M : wf M -> NoDup (map fst (stored M)).
Proof.
  intros Hwf. destruct (st M) eqn:Hst.
  1,2: unfold stored; rewrite Hst; unfold wf in Hwf; rewrite Hst in Hwf; apply sorted_nodup, Hwf.
  rewrite stored_compr by exact Hst. destruct (wf_seg M Hst Hwf) as [_ Hseg].
  pose proof (seg_nodup _ _ _ _ Hseg) as Hn. rewrite map_map.
  assert (E : map (fun x => fst (segKey M x)) (segEnts (segn M) (segptr M) (JA M) (A M)) =
    map (fun k => if colFmt (slv M) then (snd k + 1, fst k + 1) else (fst k + 1, snd k))
        (map fst (segEnts (segn M) (segptr M) (JA M) (A M)))).
  { rewrite map_map. apply map_ext. intros [[x y] v]. unfold segKey. destruct (colFmt (slv M)); reflexivity. }
  rewrite E. apply NoDup_map_inj; [exact Hn|]. intros [x y] [x' y'] _ _. cbn [fst snd].
  destruct (colFmt (slv M)); intros [= H1 H2]; f_equal; lia.
Qed.
Lemma stored_range M r c v : wf M -> In ((r,c),v) (stored M) -> 1 <= r <= nrow M /\ 1 <= c <= ncol M.
Proof.
  intros Hwf Hi. destruct (st M) eqn:Hst.
  1,2: unfold stored in Hi; rewrite Hst in Hi; unfold wf in Hwf; rewrite Hst in Hwf;
       destruct Hwf as (_ & _ & Hf); rewrite Forall_forall in Hf; apply (Hf _ Hi).
  rewrite stored_compr in Hi by exact Hst. destruct (wf_seg M Hst Hwf) as [_ Hseg].
  apply in_map_iff in Hi. destruct Hi as (e & He & Hi). apply seg_in in Hi. destruct Hi as (k & i & Hk & Hi & ->).
  pose proof (seg_bound _ _ _ _ Hseg (k+1) ltac:(lia)) as Hb.
  unfold wf in Hwf. rewrite Hst in Hwf. unfold segKey, segn, segptr in *. cbn [fst snd] in He.
  assert (Hin : In (nth i (JA M) 0) (JA M)) by (apply nth_In; lia).
  destruct (colFmt (slv M)).
  - destruct Hwf as (_ & _ & Hf). rewrite Forall_forall in Hf.
    specialize (Hf (nth i (JA M) 0) Hin). injection He as <- <- _. lia.
  - destruct Hwf as (_ & _ & _ & Hf). rewrite Forall_forall in Hf.
    specialize (Hf (nth i (JA M) 0) Hin). injection He as <- <- _. lia.
Qed.
Lemma segKey_pos M r c k : inRange M r c = true -> nth k (JA M) 0 = segx M r c ->
  segKey M (segno M r c, nth k (JA M) 0, nth k (A M) 0%Qc) = ((r,c), nth k (A M) 0%Qc).
Proof.
  intros Hr ->. apply inRange_iff in Hr. unfold segKey, segno, segx. cbn [fst snd].
  destruct (colFmt (slv M)); f_equal; f_equal; lia.
Qed.
Lemma segKey_inv M r c k i : inRange M r c = true -> fst (segKey M (k, nth i (JA M) 0, nth i (A M) 0%Qc)) = (r,c) ->
  k = segno M r c /\ nth i (JA M) 0 = segx M r c.
Proof.
  intros Hr. apply inRange_iff in Hr. unfold segKey, segno, segx. cbn [fst snd].
  destruct (colFmt (slv M)); intros [= H1 H2]; lia.
Qed.

(** reading = the value of the stored entries *)
Lemma get_val M r c : wf M -> get M r c = Some (val (stored M) r c).
Proof.
  intros Hwf. pose proof (stored_nodup M Hwf) as Hnd. unfold get. destruct (inRange M r c) eqn:Hr; cbn [negb].
  2:{ f_equal. symmetry. apply val_absent. intros Hi. apply in_map_iff in Hi. destruct Hi as ([[r' c'] v] & [= -> ->] & Hi).
      apply (stored_range M) in Hi; [|exact Hwf]. apply inRange_iff in Hi. congruence. }
  unfold editable. destruct (st M) eqn:Hst.
  1,2: rewrite val_mgetd by exact Hnd; unfold stored, mgetd; rewrite Hst; reflexivity.
  destruct (wf_seg M Hst Hwf) as [_ Hseg].
  pose proof (proj1 (inRange_iff M r c) Hr) as Hrc.
  assert (Hno : segno M r c < segn M) by (unfold segno, segn; destruct (colFmt (slv M)); lia).
  destruct (position_spec M r c Hst Hwf Hr) as [(k & E & Hk & I & X)|[E Hno']]; rewrite E.
  - f_equal. symmetry. apply val_in; [exact Hnd|]. rewrite stored_compr by exact Hst. apply in_map_iff.
    exists (segno M r c, nth k (JA M) 0, nth k (A M) 0%Qc). split; [apply segKey_pos; auto|].
    apply seg_in. exists (segno M r c), k. auto.
  - f_equal. symmetry. apply val_absent. rewrite stored_compr by exact Hst. intros Hi. rewrite map_map in Hi.
    apply in_map_iff in Hi. destruct Hi as (e & He & Hi). apply seg_in in Hi. destruct Hi as (k & i & Hk & Hi & ->).
    apply segKey_inv in He; [|exact Hr]. destruct He as [-> Hx]. exact (Hno' i Hi Hx).
Qed.

(** existence in the pattern *)
Lemma inPattern_position M r c : st M = Compr -> wf M -> inRange M r c = true ->
  (inPattern M r c <-> exists k, position M r c = Some (Some k)).
Proof.
  intros Hst Hwf Hr. pose proof (proj1 (inRange_iff M r c) Hr) as Hrc.
  assert (Hno : segno M r c < segn M) by (unfold segno, segn; destruct (colFmt (slv M)); lia).
  unfold inPattern. rewrite stored_compr by exact Hst.
  destruct (position_spec M r c Hst Hwf Hr) as [(k & E & Hk & I & X)|[E Hno']].
  - split; [intros _; eauto|]. intros _. exists (nth k (A M) 0%Qc). apply in_map_iff.
    exists (segno M r c, nth k (JA M) 0, nth k (A M) 0%Qc). split; [apply segKey_pos; auto|].
    apply seg_in. exists (segno M r c), k. auto.
  - split; [|intros [k Hk]; congruence]. intros (v & Hi). exfalso. apply in_map_iff in Hi.
    destruct Hi as (e & He & Hi). apply seg_in in Hi. destruct Hi as (k & i & Hk & Hi & ->).
    assert (Hf : fst (segKey M (k, nth i (JA M) 0, nth i (A M) 0%Qc)) = (r,c)) by (rewrite He; reflexivity).
    apply segKey_inv in Hf; [|exact Hr]. destruct Hf as [-> Hx]. exact (Hno' i Hi Hx).
Qed.
Lemma inPattern_dec M r c : wf M -> inPattern M r c \/ ~ inPattern M r c.
Proof.
  intros Hwf. unfold inPattern. destruct (mget (r,c) (stored M)) as [v|] eqn:E.
  - left. exists v. apply mget_in; [apply stored_nodup, Hwf|exact E].
  - right. intros (v & Hi). apply mget_keys in E. apply E. apply in_map_iff. exists ((r,c),v). auto.
Qed.

(** ** updates *)
(** Writing through operator(): never undefined, keeps the state legal; the entry is
    changed if it exists or the pattern is editable, else nothing changes. *)
Lemma update_spec M r c f : wf M -> exists b M', update M r c f = Some (b, M') /\ wf M' /\
  st M' = st M /\ nrow M' = nrow M /\ ncol M' = ncol M /\ slv M' = slv M /\ nz M' = nz M /\
  (b = true <-> inRange M r c = true /\ (st M = EdP \/ inPattern M r c)) /\
  (forall r' c', val (stored M') r' c' =
     if b && ((r' =? r) && (c' =? c)) then f (val (stored M) r c) else val (stored M) r' c') /\
  (forall r' c', inPattern M' r' c' <-> inPattern M r' c' \/ (b = true /\ r' = r /\ c' = c)).
Proof.
  intros Hwf. unfold update. destruct (inRange M r c) eqn:Hr; cbn [negb].
  2:{ exists false, M. repeat match goal with |- _ /\ _ => split end; auto.
      - split; [discriminate|intros [H _]; discriminate].
      - intros r' c'. split; [tauto|intros [H|[H _]]; [auto|discriminate]]. }
  pose proof (proj1 (inRange_iff M r c) Hr) as Hrc.
  assert (Hput : forall s', st M = s' -> (s' = EdP \/ s' = EdV) -> (s' = EdP \/ inPattern M r c) ->
     let M' := setElem M (mput (r,c) f (elem M)) in
     wf M' /\ (true = true <-> true = true /\ (s' = EdP \/ inPattern M r c)) /\
     (forall r' c', val (stored M') r' c' = if true && ((r' =? r) && (c' =? c)) then f (val (stored M) r c) else val (stored M) r' c') /\
     (forall r' c', inPattern M' r' c' <-> inPattern M r' c' \/ (true = true /\ r' = r /\ c' = c))).
  { intros s' Hs Hed Hex M'.
    assert (Hw : StronglySorted keyLt (elem M) /\ IA M = [] /\ Forall (fun e => 1 <= fst (fst e) <= nrow M /\ 1 <= snd (fst e) <= ncol M) (elem M)).
    { unfold wf in Hwf. rewrite Hs in Hwf. destruct Hed; subst s'; rewrite H in Hwf; exact Hwf. }
    destruct Hw as (Hsort & HIA & Hf).
    assert (Hst' : stored M' = mput (r,c) f (elem M)) by (unfold stored; cbn; rewrite Hs; destruct Hed as [->| ->]; reflexivity).
    assert (Hst0 : stored M = elem M) by (unfold stored; rewrite Hs; destruct Hed as [->| ->]; reflexivity).
    assert (Hsort' : StronglySorted keyLt (mput (r,c) f (elem M))) by (apply mput_sorted, Hsort).
    repeat match goal with |- _ /\ _ => split end.
    - assert (Hw' : StronglySorted keyLt (elem M') /\ IA M' = [] /\ Forall (fun e => 1 <= fst (fst e) <= nrow M' /\ 1 <= snd (fst e) <= ncol M') (elem M')).
      { unfold M'. cbn [setElem elem IA nrow ncol]. split; [exact Hsort'|]. split; [exact HIA|]. apply Forall_forall. intros e He. destruct (mput_keys _ _ _ _ He) as [H1|(e' & H1 & H2)].
        - destruct e as [ke ve]. cbn [fst] in *. subst ke. cbn. lia.
        - destruct e as [ke ve], e' as [ke' ve']. cbn [fst] in *. subst ke'. rewrite Forall_forall in Hf. specialize (Hf _ H1). cbn [fst] in Hf. exact Hf. }
      unfold wf. replace (st M') with s' by (cbn; auto). destruct Hed as [->| ->]; exact Hw'.
    - tauto.
    - intros r' c'. rewrite Hst', Hst0, !val_mgetd by (apply sorted_nodup; auto).
      rewrite mgetd_mput by exact Hsort. rewrite keq_pair. cbn [andb]. reflexivity.
    - intros r' c'. unfold inPattern. rewrite Hst', Hst0. 
      assert (Hx : forall m, StronglySorted keyLt m -> (exists v, In ((r',c'),v) m) <-> mget (r',c') m <> None).
      { intros m Hm. split.
        - intros (v & Hv). apply mget_in in Hv; [congruence|apply sorted_nodup, Hm].
        - destruct (mget (r',c') m) as [v|] eqn:E; [|congruence]. intros _. exists v. apply mget_in; [apply sorted_nodup, Hm|exact E]. }
      rewrite !Hx by auto. rewrite mget_mput by exact Hsort. rewrite keq_pair.
      destruct (Nat.eqb_spec r' r) as [->|Hn]; destruct (Nat.eqb_spec c' c) as [->|Hn']; cbn [andb].
      all: split; [intros H; try (left; exact H); right; auto|].
      all: intros [H|(_ & H1' & H2')]; congruence. }
  destruct (st M) eqn:Hst.
  - destruct (Hput EdP eq_refl (or_introl eq_refl) (or_introl eq_refl)) as (H1 & H2 & H3 & H4).
    eexists true, _. split; [reflexivity|]. split; [exact H1|].
    repeat match goal with |- _ /\ _ => split end; cbn; auto; tauto.
  - destruct (mget (r,c) (elem M)) as [v|] eqn:E.
    + assert (Hin : inPattern M r c).
      { exists v. unfold stored. rewrite Hst. apply mget_in; [|exact E]. unfold wf in Hwf. rewrite Hst in Hwf. apply sorted_nodup, Hwf. }
      destruct (Hput EdV eq_refl (or_intror eq_refl) (or_intror Hin)) as (H1 & H2 & H3 & H4).
      eexists true, _. split; [reflexivity|]. split; [exact H1|].
      repeat match goal with |- _ /\ _ => split end; cbn; auto; tauto.
    + exists false, M. assert (Hno : ~ inPattern M r c).
      { intros (v & Hv). unfold stored in Hv. rewrite Hst in Hv. apply mget_keys in E. apply E.
        apply in_map_iff. exists ((r,c),v). auto. }
      repeat match goal with |- _ /\ _ => split end; auto.
      * split; [discriminate|]. intros [_ [H|H]]; [discriminate|contradiction].
      * intros r' c'. split; [tauto|]. intros [H|[H _]]; [auto|discriminate].
  - destruct (wf_seg M Hst Hwf) as [_ Hseg].
    pose proof (inPattern_position M r c Hst Hwf Hr) as Hpat.
    destruct (position_spec M r c Hst Hwf Hr) as [(k & E & Hk & I & X)|[E Hno]]; rewrite E.
    + set (M' := setA M (upd k (f (nth k (A M) 0%Qc)) (A M))).
      assert (Hwf' : wf M').
      { unfold wf in *. cbn. rewrite Hst in *. destruct (colFmt (slv M)); unfold segOK in *; rewrite upd_length; exact Hwf. }
      exists true, M'.
      assert (HP : position M' = position M).
      { unfold position, M'. cbn. rewrite upd_length. reflexivity. }
      assert (Hst' : st M' = Compr) by exact Hst.
      assert (Hval : forall r' c', inRange M r' c' = true -> Some (val (stored M') r' c') =
         match position M r' c' with None => None | Some None => Some 0%Qc
         | Some (Some j) => Some (nth j (upd k (f (nth k (A M) 0%Qc)) (A M)) 0%Qc) end).
      { intros r' c' Hr'. rewrite <- (get_val M' r' c' Hwf'). unfold get.
        change (inRange M' r' c') with (inRange M r' c'). rewrite Hr'. unfold editable. rewrite Hst', HP. reflexivity. }
      assert (Hval0 : forall r' c', inRange M r' c' = true -> Some (val (stored M) r' c') =
         match position M r' c' with None => None | Some None => Some 0%Qc
         | Some (Some j) => Some (nth j (A M) 0%Qc) end).
      { intros r' c' Hr'. rewrite <- (get_val M r' c' Hwf). unfold get. rewrite Hr'. unfold editable. rewrite Hst. reflexivity. }
      repeat match goal with |- _ /\ _ => split end; auto.
      * split; [|auto]. intros _. split; [auto|]. right. apply Hpat. eauto.
      * intros r' c'. cbn [andb]. destruct (inRange M r' c') eqn:Hr'.
        -- assert (Hg : Some (val (stored M') r' c') = Some (if (r' =? r) && (c' =? c) then f (val (stored M) r c) else val (stored M) r' c')); [|congruence].
           rewrite Hval by exact Hr'. destruct ((r' =? r) && (c' =? c)) eqn:Eq.
           ++ apply andb_true_iff in Eq. rewrite !Nat.eqb_eq in Eq. destruct Eq as [-> ->].
              rewrite E, upd_nth_same by exact Hk. specialize (Hval0 r c Hr). rewrite E in Hval0. congruence.
           ++ rewrite Hval0 by exact Hr'. destruct (position M r' c') as [[j|]|] eqn:Ej; auto.
              rewrite upd_nth_other; auto. intros ->. destruct (position_inj M r c r' c' k Hst Hwf Hr Hr' E Ej). lia.
        -- assert (Hz : forall N, wf N -> nrow N = nrow M -> ncol N = ncol M -> val (stored N) r' c' = 0%Qc).
           { intros N HN H1 H2. apply val_absent. intros Hi. apply in_map_iff in Hi. destruct Hi as ([[a b] v] & [= -> ->] & Hi).
             apply (stored_range N) in Hi; [|exact HN]. rewrite H1, H2 in Hi. apply inRange_iff in Hi. congruence. }
           rewrite (Hz M' Hwf' eq_refl eq_refl), (Hz M Hwf eq_refl eq_refl).
           destruct ((r' =? r) && (c' =? c)) eqn:Eq; [|reflexivity].
           apply andb_true_iff in Eq. rewrite !Nat.eqb_eq in Eq. destruct Eq as [-> ->]. congruence.
      * intros r' c'. assert (Hpp : forall N, wf N -> st N = Compr -> nrow N = nrow M -> ncol N = ncol M -> position N = position M ->
          (inPattern N r' c' <-> inRange M r' c' = true /\ exists j, position M r' c' = Some (Some j))).
        { intros N HN HsN H1 H2 HpN. destruct (inRange M r' c') eqn:Hr'.
          - rewrite (inPattern_position N r' c' HsN HN); [rewrite HpN; tauto|]. apply inRange_iff. rewrite H1, H2. apply inRange_iff, Hr'.
          - split; [|intros [H _]; discriminate]. intros (v & Hi). apply (stored_range N) in Hi; [|exact HN].
            rewrite H1, H2 in Hi. apply inRange_iff in Hi. congruence. }
        rewrite (Hpp M' Hwf' Hst' eq_refl eq_refl HP), (Hpp M Hwf Hst eq_refl eq_refl eq_refl).
        split; [tauto|]. intros [H|(_ & -> & ->)]; [exact H|]. split; [exact Hr|eauto].
    + exists false, M. repeat match goal with |- _ /\ _ => split end; auto.
      * split; [discriminate|]. intros [_ [H|H]]; [discriminate|]. apply Hpat in H. destruct H as [k Hk]. congruence.
      * intros r' c'. split; [tauto|]. intros [H|[H _]]; [auto|discriminate].
Qed.
