(** Lemmas: compression operations, product, edits. *)
From Coq Require Import List Arith ZArith QArith Qcanon Bool Lia Sorted Permutation ZifyBool.
From Verif Require Import Base SAM_model SAM_spec Sparse_model Sparse_spec Sparse_proofs Sparse_proofs2.
Import ListNotations.
Local Open Scope nat_scope.

Definition inR (nr nc : nat) (e : key * Qc) : Prop := 1 <= fst (fst e) <= nr /\ 1 <= snd (fst e) <= nc.
Definition wfE (M : spm) : Prop :=
  StronglySorted keyLt (elem M) /\ IA M = [] /\ Forall (inR (nrow M) (ncol M)) (elem M).
Lemma wf_E M : st M <> Compr -> (wf M <-> wfE M).
Proof. unfold wf, wfE. destruct (st M); intros H; [tauto|tauto|congruence]. Qed.
Lemma editable_iff M : editable M = true <-> st M <> Compr.
Proof. unfold editable. destruct (st M); split; congruence. Qed.
Lemma stored_E M : st M <> Compr -> stored M = elem M.
Proof. unfold stored. destruct (st M); congruence. Qed.
Lemma get_eq M M' : wf M -> wf M' -> (forall r c, val (stored M') r c = val (stored M) r c) ->
  forall r c, get M' r c = get M r c.
Proof. intros H H' E r c. rewrite !get_val by auto. rewrite E. reflexivity. Qed.

(** ** compression *)
Lemma optimiseCols_spec M : wf M -> editable M = true -> colFmt (slv M) = true ->
  exists M', optimiseCols M = (true, M') /\ wf M' /\ st M' = Compr /\ nrow M' = nrow M /\ ncol M' = ncol M /\
    slv M' = slv M /\ nz M' = nz M /\ Permutation (stored M') (stored M).
Proof.
  intros Hwf Hed Hc. apply editable_iff in Hed. pose proof (proj1 (wf_E M Hed) Hwf) as (Hs & HI & Hf).
  unfold optimiseCols. rewrite (proj2 (editable_iff M) Hed). cbn [negb]. rewrite HI.
  destruct (compressCols_spec (nrow M) (ncol M) (elem M)) as (ia & ja & a & -> & L & O & R & Pm).
  - eapply Forall_impl; [|exact Hf]. unfold inR, rowOf, colOf. tauto.
  - apply sorted_nodup, Hs.
  - eexists. split; [reflexivity|]. split; [|split; [reflexivity|]]; [|cbn [nrow ncol slv nz]; repeat split].
    + unfold wf. cbn [st slv IA JA A ncol nrow]. rewrite Hc. auto.
    + rewrite (stored_E M Hed). unfold stored. cbn [st slv]. rewrite Hc. exact Pm.
Qed.
Lemma optimiseColsP_spec dofc M : wf M -> editable M = true -> colFmt (slv M) = true ->
  Forall (inR (nrow M) (ncol M)) (pattern dofc) -> NoDup (map fst (pattern dofc)) ->
  exists M', optimiseColsP dofc M = (true, M') /\ wf M' /\ st M' = Compr /\ nrow M' = nrow M /\ ncol M' = ncol M /\
    slv M' = slv M /\ nz M' = nz M /\ Permutation (stored M') (pattern dofc).
Proof.
  intros Hwf Hed Hc Hf Hn. apply editable_iff in Hed. pose proof (proj1 (wf_E M Hed) Hwf) as (Hs & HI & _).
  unfold optimiseColsP. rewrite (proj2 (editable_iff M) Hed). cbn [negb]. rewrite HI.
  destruct (compressCols_spec (nrow M) (ncol M) (pattern dofc)) as (ia & ja & a & -> & L & O & R & Pm).
  - eapply Forall_impl; [|exact Hf]. unfold inR, rowOf, colOf. tauto.
  - exact Hn.
  - eexists. split; [reflexivity|]. split; [|split; [reflexivity|]]; [|cbn [nrow ncol slv nz]; repeat split].
    + unfold wf. cbn [st slv IA JA A ncol nrow]. rewrite Hc. auto.
    + unfold stored. cbn [st slv]. rewrite Hc. exact Pm.
Qed.
(** transposing a map *)
Definition tput (t : vmap) (e : key * Qc) : vmap := mput (snd (fst e), fst (fst e)) (fun _ => snd e) t.
Lemma mput_length k f m : StronglySorted keyLt m -> length (mput k f m) = length m + (match mget k m with Some _ => 0 | None => 1 end).
Proof.
  induction 1 as [|[k' v] m Hs IH Hf]; [reflexivity|]. cbn [mput mget]. destruct (keq k k') eqn:E; [cbn; lia|].
  destruct (klt k k') eqn:L.
  - rewrite (sorted_mget_none _ _ _ _ Hf E L). cbn; lia.
  - cbn [length]. rewrite IH. lia.
Qed.
Lemma tput_fold l : forall t, StronglySorted keyLt t -> NoDup (map fst l) ->
  let t' := fold_left tput l t in
  StronglySorted keyLt t' /\
  (forall r c, mget (c,r) t' = match mget (r,c) l with Some v => Some v | None => mget (c,r) t end) /\
  ((forall r c, In (r,c) (map fst l) -> mget (c,r) t = None) -> length t' = length t + length l) /\
  (forall e, In e t' -> (exists e', In e' t /\ fst e' = fst e) \/ exists e', In e' l /\ fst e = (snd (fst e'), fst (fst e'))).
Proof.
  induction l as [|[[r0 c0] v0] l IH]; intros t Hs Hn; cbn zeta.
  - cbn. repeat split; auto. intros e He. left. exists e. auto.
  - inversion Hn as [|? ? Hx Hl]; subst. cbn [fold_left].
    assert (Hs1 : StronglySorted keyLt (tput t ((r0,c0),v0))) by (apply mput_sorted, Hs).
    destruct (IH _ Hs1 Hl) as (I1 & I2 & I3 & I4). split; [exact I1|]. split; [|split].
    + intros r c. rewrite I2. cbn [mget]. unfold tput. cbn [fst snd]. rewrite mget_mput by exact Hs. rewrite !keq_pair.
      destruct ((r =? r0) && (c =? c0)) eqn:E.
      * apply andb_true_iff in E. rewrite !Nat.eqb_eq in E. destruct E as [-> ->]. apply mget_keys in Hx. rewrite Hx, !Nat.eqb_refl. reflexivity.
      * destruct (mget (r,c) l); [reflexivity|]. rewrite andb_comm, E. reflexivity.
    + intros Hnew. transitivity (length (tput t ((r0,c0),v0)) + length l).
      2:{ unfold tput. cbn [fst snd]. rewrite mput_length by exact Hs. rewrite Hnew by (left; reflexivity). cbn [length]. lia. }
      apply I3.
      * intros r c Hi. unfold tput. cbn [fst snd]. rewrite mget_mput by exact Hs. rewrite keq_pair.
        destruct ((c =? c0) && (r =? r0)) eqn:E; [|apply Hnew; right; exact Hi].
        apply andb_true_iff in E. rewrite !Nat.eqb_eq in E. destruct E as [-> ->]. contradiction.
    + intros e He. destruct (I4 e He) as [(e' & H1 & H2)|(e' & H1 & H2)].
      * unfold tput in H1. cbn [fst snd] in H1. apply mput_keys in H1. destruct H1 as [H1|(e'' & H1 & H3)].
        -- right. exists ((r0,c0),v0). split; [left; auto|]. cbn [fst snd]. congruence.
        -- left. exists e''. split; [auto|congruence].
      * right. exists e'. split; [right; auto|auto].
Qed.
Lemma optimiseRows_spec tp M : wf M -> editable M = true -> colFmt (slv M) = false ->
  exists M', optimiseRows tp M = Some (true, M') /\ wf M' /\ st M' = Compr /\
    nrow M' = (if tp then ncol M else nrow M) /\ ncol M' = (if tp then nrow M else ncol M) /\
    slv M' = slv M /\ nz M' = nz M /\
    (forall r c, val (stored M') r c = if tp then val (stored M) c r else val (stored M) r c) /\
    (tp = false -> Permutation (stored M') (stored M)).
Proof.
  intros Hwf Hed Hc. apply editable_iff in Hed. pose proof (proj1 (wf_E M Hed) Hwf) as (Hs & HI & Hf).
  unfold optimiseRows. rewrite (proj2 (editable_iff M) Hed). cbn [negb]. rewrite HI.
  set (l := if tp then fold_left (fun t e => mput (snd (fst e), fst (fst e)) (fun _ => snd e) t) (elem M) [] else elem M).
  set (nr := if tp then ncol M else nrow M). set (nc := if tp then nrow M else ncol M).
  pose proof (sorted_nodup _ Hs) as Hn.
  destruct (tput_fold (elem M) [] ltac:(constructor) Hn) as (T1 & T2 & T3 & T4). change (fold_left tput (elem M) []) with
    (fold_left (fun t e => mput (snd (fst e), fst (fst e)) (fun _ => snd e) t) (elem M) []) in *.
  assert (Hl : StronglySorted keyLt l /\ Forall (inR nr nc) l /\ length l = length (elem M) /\
     (forall r c, val l r c = if tp then val (elem M) c r else val (elem M) r c)).
  { unfold l, nr, nc. destruct tp; [|auto]. split; [exact T1|]. split; [|split].
    - apply Forall_forall. intros e He. destruct (T4 e He) as [(e' & [] & _)|(e' & H1 & H2)].
      rewrite Forall_forall in Hf. specialize (Hf e' H1). unfold inR in *. rewrite H2. cbn [fst snd]. tauto.
    - rewrite T3; [reflexivity|]. reflexivity.
    - intros r c. rewrite !val_mgetd by (auto using sorted_nodup). unfold mgetd. rewrite T2. destruct (mget (c,r) (elem M)); reflexivity. }
  destruct Hl as (L1 & L2 & L3 & L4).
  replace (existsb (fun e => nr + 1 <? fst (fst e)) l) with false.
  2:{ symmetry. apply not_true_is_false. intros Hx. apply existsb_exists in Hx. destruct Hx as (e & He & Hx).
      rewrite Forall_forall in L2. specialize (L2 e He). unfold inR in L2. destruct e as [[r c] v]. cbn [fst snd] in *. apply Nat.ltb_lt in Hx. lia. }
  rewrite <- L3.
  destruct (compressRows_spec nr nc l L1) as (ja & a & E & L & Hpos & O & R & Pm).
  { eapply Forall_impl; [|exact L2]. unfold inR, rowOf, colOf. tauto. }
  rewrite E. eexists. split; [reflexivity|].
  assert (HS : stored (mkM Compr nr nc [] (slv M) (rowPtr (map fst l) 1 0 (upd 0 1 (vresize (nr + 1) (length l + 1) []))) ja a (nz M)) =
     map (fun e => ((fst (fst e) + 1, snd (fst e)), snd e)) (segEnts nr (fun k => nth k (rowPtr (map fst l) 1 0 (upd 0 1 (vresize (nr + 1) (length l + 1) []))) 0 - 1) ja a)).
  { unfold stored, rowStored. cbn [st slv nrow IA JA A]. rewrite Hc. reflexivity. }
  split; [|split; [reflexivity|]]; [|cbn [nrow ncol slv nz]; split; [reflexivity|]; split; [reflexivity|]; split; [reflexivity|]; split; [reflexivity|]; split].
  - unfold wf. cbn [st slv IA JA A ncol nrow]. rewrite Hc. auto.
  - intros r c. rewrite HS, (val_perm _ _ r c Pm), L4, (stored_E M Hed). reflexivity.
  - intros ->. rewrite HS, (stored_E M Hed). exact Pm.
Qed.
Lemma compressPattern_spec M : wf M ->
  exists M', compressPattern M = Some M' /\ wf M' /\ nrow M' = nrow M /\ ncol M' = ncol M /\ slv M' = slv M /\ nz M' = nz M /\
    Permutation (stored M') (stored M) /\ (slv M <> SNone -> st M' = Compr).
Proof.
  intros Hwf. unfold compressPattern. destruct (editable M) eqn:He.
  - destruct (slv M) eqn:Hs.
    + exists M. repeat split; auto; congruence.
    + destruct (optimiseCols_spec M Hwf He) as (M' & -> & H); [rewrite Hs; reflexivity|]. exists M'. rewrite Hs in H. cbn [snd]. tauto.
    + destruct (optimiseRows_spec false M Hwf He) as (M' & -> & H); [rewrite Hs; reflexivity|]. exists M'. rewrite Hs in H. cbn [option_map snd]. tauto.
    + destruct (optimiseCols_spec M Hwf He) as (M' & -> & H); [rewrite Hs; reflexivity|]. exists M'. rewrite Hs in H. cbn [snd]. tauto.
  - assert (Hst : st M = Compr) by (unfold editable in He; destruct (st M); congruence).
    assert (E1 : optimiseCols M = (false, M)) by (unfold optimiseCols; rewrite He; reflexivity).
    assert (E2 : optimiseRows false M = Some (false, M)) by (unfold optimiseRows; rewrite He; reflexivity).
    exists M. destruct (slv M) eqn:Hs; rewrite ?E1, ?E2; cbn [option_map snd]; repeat split; auto; congruence.
Qed.

(** ** loops over compressed entries *)
Lemma flat_map_shift {X} (f : nat -> list X) n : flat_map f (seq 1 n) = flat_map (fun k => f (S k)) (seq 0 n).
Proof. rewrite <- seq_shift, !flat_map_concat_map, map_map. reflexivity. Qed.
Lemma flat_map_ext' {X Y} (f g : X -> list Y) l : (forall x, f x = g x) -> flat_map f l = flat_map g l.
Proof. intros H. rewrite !flat_map_concat_map. f_equal. apply map_ext, H. Qed.
Lemma colLoop_cons b e ia ja a j : colLoop (b :: e :: ia) ja a j =
    match colLoop (e :: ia) ja a (S j) with
    | None => None
    | Some rest =>
      if (e <=? b) then Some rest
      else if (e <=? length ja) && (e <=? length a) then
        Some (map (fun i => ((nth i ja 0 + 1, j), nth i a 0%Qc)) (seq b (e - b)) ++ rest)
      else None
    end.
Proof. reflexivity. Qed.
Lemma rowLoop_cons b e ia ja a i : rowLoop (b :: e :: ia) ja a i =
    match rowLoop (e :: ia) ja a (S i) with
    | None => None
    | Some rest =>
      if (e <=? b) then Some rest
      else if (1 <=? b) && (e - 1 <=? length ja) && (e - 1 <=? length a) then
        Some (map (fun j => ((i, nth (j-1) ja 0), nth (j-1) a 0%Qc)) (seq b (e - b)) ++ rest)
      else None
    end.
Proof. reflexivity. Qed.
Lemma colLoop_spec ja a : forall ia j, (forall k, k + 1 < length ia -> nth (k+1) ia 0 <= length ja) -> length a = length ja ->
  colLoop ia ja a j = Some (flat_map (fun k => map (fun i => ((nth i ja 0 + 1, k + j), nth i a 0%Qc)) (seq (nth k ia 0) (nth (k+1) ia 0 - nth k ia 0))) (seq 0 (length ia - 1))).
Proof.
  intros ia. induction ia as [|b ia IH]; intros j H Hl; [reflexivity|]. destruct ia as [|e ia]; [reflexivity|].
  rewrite colLoop_cons. specialize (IH (S j)).
  rewrite IH; [|intros k Hk; apply (H (S k)); cbn [length] in *; lia|exact Hl].
  assert (He : e <= length ja) by (apply (H 0); cbn; lia).
  replace (length (b :: e :: ia) - 1) with (S (length (e :: ia) - 1)) by (cbn; lia).
  cbn [seq flat_map]. rewrite flat_map_shift. cbn [nth plus].
  match goal with |- context [Some ?rest] => match goal with |- _ = Some (_ ++ ?tl) => replace tl with rest by (apply flat_map_ext'; intros x; replace (x + S j) with (S (x + j)) by lia; reflexivity) end end.
  destruct (Nat.leb_spec e b).
  - replace (e - b) with 0 by lia. reflexivity.
  - replace ((e <=? length ja) && (e <=? length a)) with true by lia. reflexivity.
Qed.
Lemma rowLoop_spec ja a : forall ia j, (forall k, k < length ia -> 1 <= nth k ia 0 <= length ja + 1) -> length a = length ja ->
  rowLoop ia ja a j = Some (flat_map (fun k => map (fun i => ((k + j, nth i ja 0), nth i a 0%Qc)) (seq (nth k ia 0 - 1) (nth (k+1) ia 0 - 1 - (nth k ia 0 - 1)))) (seq 0 (length ia - 1))).
Proof.
  intros ia. induction ia as [|b ia IH]; intros j H Hl; [reflexivity|]. destruct ia as [|e ia]; [reflexivity|].
  rewrite rowLoop_cons. specialize (IH (S j)).
  rewrite IH; [|intros k Hk; apply (H (S k)); cbn [length] in *; lia|exact Hl].
  pose proof (H 0 ltac:(cbn; lia)) as Hb. pose proof (H 1 ltac:(cbn; lia)) as He. cbn [nth] in Hb, He.
  replace (length (b :: e :: ia) - 1) with (S (length (e :: ia) - 1)) by (cbn; lia).
  cbn [seq flat_map]. rewrite flat_map_shift. cbn [nth plus].
  match goal with |- context [Some ?rest] => match goal with |- _ = Some (_ ++ ?tl) => replace tl with rest by (apply flat_map_ext'; intros x; replace (x + S j) with (S (x + j)) by lia; reflexivity) end end.
  destruct (Nat.leb_spec e b).
  - replace (e - 1 - (b - 1)) with 0 by lia. reflexivity.
  - replace ((1 <=? b) && (e - 1 <=? length ja) && (e - 1 <=? length a)) with true by lia.
    f_equal. f_equal. replace (e - 1 - (b - 1)) with (e - b) by lia.
    destruct b as [|b]; [lia|]. replace (S b - 1) with b by lia. rewrite <- (seq_shift (e - S b) b), map_map.
    apply map_ext. intros i. replace (S i - 1) with i by lia. reflexivity.
Qed.
Lemma colEnts_spec M : st M = Compr -> wf M -> colFmt (slv M) = true -> colEnts (ncol M) M = Some (stored M).
Proof.
  intros Hst Hwf Hc. destruct (wf_seg M Hst Hwf) as [Hl Hs]. unfold segn, segptr in *. rewrite Hc in *.
  unfold colEnts. rewrite (proj2 (Nat.ltb_ge (length (IA M)) (S (ncol M)))) by lia.
  rewrite firstn_all2 by lia. rewrite colLoop_spec.
  - f_equal. unfold stored. rewrite Hst, Hc. unfold colStored, segEnts. rewrite map_flat_map, Hl.
    replace (ncol M + 1 - 1) with (ncol M) by lia. rewrite !flat_map_concat_map. f_equal. apply map_ext. intros k. rewrite map_map. reflexivity.
  - intros k Hk. apply (seg_bound _ _ _ _ Hs (k+1)). lia.
  - apply Hs.
Qed.
Lemma rowEnts_spec M : st M = Compr -> wf M -> colFmt (slv M) = false -> rowEnts (nrow M) M = Some (stored M).
Proof.
  intros Hst Hwf Hc. destruct (wf_seg M Hst Hwf) as [Hl Hs]. unfold segn, segptr in *. rewrite Hc in *.
  unfold rowEnts. rewrite (proj2 (Nat.ltb_ge (length (IA M)) (S (nrow M)))) by lia.
  rewrite firstn_all2 by lia. rewrite rowLoop_spec.
  - f_equal. unfold stored. rewrite Hst, Hc. unfold rowStored, segEnts. rewrite map_flat_map, Hl.
    replace (nrow M + 1 - 1) with (nrow M) by lia. rewrite !flat_map_concat_map. f_equal. apply map_ext. intros k. rewrite map_map. reflexivity.
  - intros k Hk. pose proof (seg_bound _ _ _ _ Hs k ltac:(lia)) as Hb. cbv beta in Hb.
    unfold wf in Hwf. rewrite Hst, Hc in Hwf. destruct Hwf as (_ & Hpos & _). specialize (Hpos k ltac:(lia)). lia.
  - apply Hs.
Qed.

(** ** product *)
Lemma accum_spec l x : forall y, Forall (fun e => 1 <= fst (fst e) <= length y /\ 1 <= snd (fst e) <= length x) l ->
  exists y', accum l x y = Some y' /\ length y' = length y /\
    forall r, nth r y' 0%Qc = (nth r y 0 + qs (fun e => if (fst (fst e) =? r + 1)%nat then snd e * nth (snd (fst e) - 1) x 0 else 0) l)%Qc.
Proof.
  unfold accum. induction l as [|e l IH]; intros y Hf.
  - exists y. repeat split. intros r. rewrite qs_nil. ring.
  - inversion Hf as [|? ? He Hl]; subst. cbn [fold_left].
    replace ((1 <=? fst (fst e)) && (fst (fst e) <=? length y) && (1 <=? snd (fst e)) && (snd (fst e) <=? length x)) with true by lia.
    set (y1 := upd _ _ y). assert (Hly : length y1 = length y) by apply upd_length.
    destruct (IH y1) as (y' & E & L & V); [rewrite Hly; exact Hl|]. exists y'. split; [exact E|]. split; [lia|].
    intros r. rewrite V, qs_cons. unfold y1. rewrite upd_nth.
    destruct (Nat.eqb_spec r (fst (fst e) - 1)), (Nat.ltb_spec (fst (fst e) - 1) (length y)), (Nat.eqb_spec (fst (fst e)) (r+1)); cbn [andb]; subst; try lia; ring.
Qed.
Lemma rowsum_val l nr nc x r : Forall (inR nr nc) l ->
  qs (fun e => if (fst (fst e) =? r)%nat then snd e * nth (snd (fst e) - 1) x 0 else 0)%Qc l =
  qs (fun c => val l r c * nth (c-1) x 0)%Qc (seq 1 nc).
Proof.
  intros Hf.
  transitivity (qs (fun e => qs (fun c => (if (fst (fst e) =? r)%nat && (snd (fst e) =? c)%nat then snd e else 0) * nth (c-1) x 0)%Qc (seq 1 nc)) l).
  - apply qs_ext. intros e He. rewrite Forall_forall in Hf. specialize (Hf e He). unfold inR in Hf.
    destruct (fst (fst e) =? r).
    + rewrite (qs_single _ _ (snd (fst e))).
      * rewrite Nat.eqb_refl. reflexivity.
      * apply seq_NoDup.
      * apply in_seq. destruct e as [[? ?] ?]; cbn [fst snd] in *. lia.
      * intros c Hc Hn. rewrite (proj2 (Nat.eqb_neq _ _)) by auto. cbn [andb]. ring.
    + symmetry. apply qs_zero. intros c _. cbn [andb]. ring.
  - rewrite qs_swap. apply qs_ext. intros c _. unfold val. rewrite <- qs_scal_r. reflexivity.
Qed.
Lemma stored_inR M : wf M -> Forall (inR (nrow M) (ncol M)) (stored M).
Proof. intros H. apply Forall_forall. intros [[r c] v] He. apply (stored_range M r c v H He). Qed.
Lemma multiply_spec M x : wf M -> (st M = Compr -> slv M <> UMFPack) -> ncol M <= length x ->
  exists y, multiply M x = Some (true, y) /\ length y = nrow M /\
    forall r, 1 <= r <= nrow M -> nth (r-1) y 0%Qc = qs (fun c => val (stored M) r c * nth (c-1) x 0)%Qc (seq 1 (ncol M)).
Proof.
  intros Hwf Hu Hx. unfold multiply. rewrite (proj2 (Nat.ltb_ge _ _) Hx).
  assert (E : (if editable M then Some (elem M) else match slv M with SuperLU => colEnts (ncol M) M | _ => rowEnts (nrow M) M end) = Some (stored M)).
  { destruct (editable M) eqn:He.
    - rewrite stored_E by (apply editable_iff, He). reflexivity.
    - assert (Hst : st M = Compr) by (unfold editable in He; destruct (st M); congruence). specialize (Hu Hst).
      destruct (slv M) eqn:Hs.
      1,3: apply rowEnts_spec; auto; rewrite Hs; reflexivity.
      + apply colEnts_spec; auto; rewrite Hs; reflexivity.
      + congruence. }
  rewrite E. pose proof (stored_inR M Hwf) as Hf.
  destruct (accum_spec (stored M) x (repeat 0%Qc (nrow M))) as (y & -> & L & V).
  - rewrite repeat_length. eapply Forall_impl; [|exact Hf]. unfold inR. intros e He. lia.
  - rewrite repeat_length in L. exists y. split; [reflexivity|]. split; [exact L|]. intros r Hr. rewrite V, nth_repeat.
    replace (r - 1 + 1) with r by lia. rewrite (rowsum_val _ _ _ _ _ Hf). ring.
Qed.

(** ** edits *)
Lemma lock_spec b M : wf M -> wf (lockPattern b M) /\ stored (lockPattern b M) = stored M.
Proof.
  intros Hwf. unfold lockPattern. destruct (st M) eqn:Hst; [| |auto].
  all: split; [unfold wf in *; rewrite Hst in Hwf; cbn [setSt st elem IA nrow ncol]; destruct b; exact Hwf
              |unfold stored; rewrite Hst; cbn [setSt st elem]; destruct b; reflexivity].
Qed.
Lemma keyLt_map (h : key * Qc -> Qc) l : StronglySorted keyLt l -> StronglySorted keyLt (map (fun e => (fst e, h e)) l).
Proof.
  induction 1 as [|e l Hs IH Hf]; cbn [map]; constructor; auto. apply Forall_map. eapply Forall_impl; [|exact Hf].
  intros a. unfold keyLt. cbn [fst]. auto.
Qed.
Lemma inR_map (h : key * Qc -> Qc) nr nc l : Forall (inR nr nc) l -> Forall (inR nr nc) (map (fun e => (fst e, h e)) l).
Proof. intros H. apply Forall_map. eapply Forall_impl; [|exact H]. unfold inR. cbn [fst]. auto. Qed.
Lemma val_map (h : Qc -> Qc) l r c : NoDup (map fst l) -> h 0%Qc = 0%Qc ->
  val (map (fun e => (fst e, h (snd e))) l) r c = h (val l r c).
Proof.
  intros Hn H0. induction l as [|e l IH]; [cbn; auto|]. inversion Hn as [|? ? Hx Hl]; subst. cbn [map]. rewrite !val_cons. cbn [fst snd].
  destruct ((fst (fst e) =? r) && (snd (fst e) =? c)) eqn:E.
  - apply andb_true_iff in E. rewrite !Nat.eqb_eq in E. destruct E as [<- <-].
    rewrite (val_absent l); [|destruct (fst e); exact Hx].
    rewrite val_absent; [rewrite !Qcplus_0_r; reflexivity|]. rewrite map_map. cbn [fst]. destruct (fst e); exact Hx.
  - rewrite IH by exact Hl. rewrite !Qcplus_0_l. reflexivity.
Qed.
(** apply a function to all stored values *)
Definition mapVals (h : Qc -> Qc) (M : spm) : spm :=
  if editable M then setElem M (map (fun e => (fst e, h (snd e))) (elem M)) else setA M (map h (A M)).
Lemma mapVals_spec h M : wf M -> h 0%Qc = 0%Qc -> wf (mapVals h M) /\ forall r c, val (stored (mapVals h M)) r c = h (val (stored M) r c).
Proof.
  intros Hwf H0. unfold mapVals. destruct (editable M) eqn:He.
  - pose proof (proj1 (editable_iff M) He) as Hst. pose proof (proj1 (wf_E M Hst) Hwf) as (Hs & HI & Hf). split.
    + apply wf_E; [exact Hst|]. unfold wfE. cbn [setElem elem IA nrow ncol]. split; [apply (keyLt_map (fun e => h (snd e))), Hs|]. split; [exact HI|]. apply (inR_map (fun e => h (snd e))), Hf.
    + intros r c. rewrite !stored_E by exact Hst. cbn [setElem elem]. apply val_map; [apply sorted_nodup, Hs|exact H0].
  - assert (Hst : st M = Compr) by (unfold editable in He; destruct (st M); congruence).
    assert (Hwf' : wf (setA M (map h (A M)))).
    { unfold wf in *. cbn [setA st slv IA JA A nrow ncol]. rewrite Hst in *. unfold segOK in *. rewrite map_length. exact Hwf. }
    split; [exact Hwf'|]. intros r c. 
    assert (HS : stored (setA M (map h (A M))) = map (fun e => (fst e, h (snd e))) (stored M)).
    { rewrite !stored_compr by exact Hst. rewrite map_map. unfold segn, segptr. cbn [setA slv nrow ncol IA JA A].
      unfold segEnts. rewrite !map_flat_map, !flat_map_concat_map. f_equal. apply map_ext. intros k. rewrite !map_map. apply map_ext. intros i.
      rewrite <- H0 at 1. rewrite (map_nth h). unfold segKey. cbn [setA slv fst snd]. destruct (colFmt (slv M)); reflexivity. }
    rewrite HS. apply val_map; [apply stored_nodup, Hwf|exact H0].
Qed.
Lemma mult_spec alpha M : wf M -> wf (mult alpha M) /\ forall r c, val (stored (mult alpha M)) r c = (alpha * val (stored M) r c)%Qc.
Proof.
  intros Hwf. change (mult alpha M) with (mapVals (fun v => (v * alpha)%Qc) M).
  destruct (mapVals_spec (fun v => (v * alpha)%Qc) M Hwf) as [H1 H2]; [ring|]. split; [exact H1|]. intros r c. rewrite H2. ring.
Qed.
Lemma resize_spec r c f M : wf M ->
  wf (resize r c f M) /\ nrow (resize r c f M) = r /\ ncol (resize r c f M) = (if c =? 0 then r else c) /\
  (forall i j, val (stored (resize r c f M)) i j = 0%Qc) /\
  (r = nrow M -> (if c =? 0 then r else c) = ncol M -> f = false ->
     st (resize r c f M) = st M /\ map fst (stored (resize r c f M)) = map fst (stored M)).
Proof.
  intros Hwf. unfold resize. set (c' := if c =? 0 then r else c).
  destruct ((r =? nrow M) && (c' =? ncol M) && negb f) eqn:E.
  - apply andb_true_iff in E. destruct E as [E Ef]. apply andb_true_iff in E. rewrite !Nat.eqb_eq in E. destruct E as [-> E].
    set (M1 := setA (setElem M (map (fun e => (fst e, 0%Qc)) (elem M))) (map (fun _ => 0%Qc) (A M))).
    destruct (mapVals_spec (fun _ => 0%Qc) M Hwf eq_refl) as [W V].
    assert (HS : stored M1 = stored (mapVals (fun _ => 0%Qc) M)).
    { unfold mapVals, editable, M1. unfold stored. cbn [setA setElem st elem slv]. destruct (st M) eqn:Hst; cbn [setA setElem st elem slv]; rewrite ?Hst; reflexivity. }
    assert (HW : wf M1).
    { unfold mapVals, editable in W. unfold wf in *. unfold M1. cbn [setA setElem st elem IA JA A slv nrow ncol] in *.
      destruct (st M) eqn:Hst; cbn [setA setElem st elem IA JA A slv nrow ncol] in W; rewrite Hst in W; exact W. }
    repeat match goal with |- _ /\ _ => split end; auto.
    + intros i j. rewrite HS. apply V.
    + intros _ _ _. split; [reflexivity|]. rewrite HS. unfold mapVals. destruct (editable M) eqn:He.
      * rewrite !stored_E by (apply editable_iff; exact He). cbn [setElem elem]. rewrite map_map. reflexivity.
      * assert (Hst : st M = Compr) by (unfold editable in He; destruct (st M); congruence).
        rewrite !stored_compr by exact Hst. unfold segn, segptr. cbn [setA slv nrow ncol IA JA A].
        unfold segEnts. rewrite !map_flat_map, !flat_map_concat_map. f_equal. apply map_ext. intros k. rewrite !map_map. apply map_ext. intros i.
        unfold segKey. cbn [setA slv fst snd]. destruct (colFmt (slv M)); reflexivity.
  - repeat match goal with |- _ /\ _ => split end.
    + unfold wf. cbn. repeat constructor.
    + reflexivity.
    + reflexivity.
    + reflexivity.
    + intros -> H ->. rewrite H, !Nat.eqb_refl in E. discriminate.
Qed.
Lemma sorted_filter p l : StronglySorted keyLt l -> StronglySorted keyLt (filter p l).
Proof.
  induction 1 as [|e l Hs IH Hf]; cbn [filter]; [constructor|]. destruct (p e); [|exact IH]. constructor; [exact IH|].
  apply Forall_forall. intros x Hx. apply filter_In in Hx. rewrite Forall_forall in Hf. apply Hf, Hx.
Qed.
Lemma val_filter_key (p : key -> bool) l r c : val (filter (fun e => p (fst e)) l) r c = if p (r,c) then val l r c else 0%Qc.
Proof.
  induction l as [|[[x y] v] l IH]; [destruct (p (r,c)); reflexivity|]. cbn [filter fst].
  rewrite val_cons. cbn [fst snd]. destruct ((x =? r) && (y =? c)) eqn:E.
  - apply andb_true_iff in E. rewrite !Nat.eqb_eq in E. destruct E as [-> ->].
    destruct (p (r,c)); [rewrite val_cons; cbn [fst snd]; rewrite !Nat.eqb_refl; cbn [andb]; rewrite IH; reflexivity|exact IH].
  - destruct (p (x,y)); [rewrite val_cons; cbn [fst snd]; rewrite E|]; rewrite IH; destruct (p (r,c)); ring.
Qed.
Lemma redim_spec r c M : wf M -> st M = EdP ->
  exists M', redim r c M = (true, M') /\ wf M' /\ st M' = EdP /\ nrow M' = r /\ ncol M' = (if c =? 0 then r else c) /\
   (forall i j, val (stored M') i j = if (i <=? nrow M') && (j <=? ncol M') then val (stored M) i j else 0%Qc).
Proof.
  intros Hwf Hst. assert (Hne : st M <> Compr) by congruence. pose proof (proj1 (wf_E M Hne) Hwf) as (Hs & HI & Hf).
  unfold redim. rewrite Hst. set (n := if 0 <? c then c else r). eexists. split; [reflexivity|].
  assert (Hn : n = if c =? 0 then r else c) by (unfold n; destruct c; reflexivity).
  repeat match goal with |- _ /\ _ => split end; auto.
  - apply wf_E; [discriminate|]. unfold wfE. cbn [elem IA nrow ncol]. split; [apply sorted_filter, Hs|]. split; [exact HI|].
    apply Forall_forall. intros e He. apply filter_In in He. rewrite Forall_forall in Hf. destruct He as [He Hp].
    specialize (Hf e He). unfold inR in *. lia.
  - intros i j. rewrite !stored_E by (auto; discriminate). cbn [elem nrow ncol].
    rewrite (val_filter_key (fun k => negb ((r <? fst k) || (n <? snd k)))). cbn [fst snd].
    replace (negb ((r <? i) || (n <? j))) with ((i <=? r) && (j <=? n)) by lia. reflexivity.
Qed.

(** repeated += on the map *)
Definition addTo' (m : vmap) (e : key * Qc) : vmap := mput (fst e) (fun x => (x + snd e)%Qc) m.
Lemma addFold_spec u : forall m, StronglySorted keyLt m ->
  StronglySorted keyLt (fold_left addTo' u m) /\
  (forall r c, val (fold_left addTo' u m) r c = (val m r c + val u r c)%Qc) /\
  (forall e, In e (fold_left addTo' u m) -> exists e', (In e' m \/ In e' u) /\ fst e' = fst e).
Proof.
  induction u as [|e u IH]; intros m Hs; cbn [fold_left].
  - split; [exact Hs|]. split; [intros; rewrite val_nil; ring|]. intros e He. exists e. auto.
  - assert (Hs1 : StronglySorted keyLt (addTo' m e)) by (apply mput_sorted, Hs).
    destruct (IH _ Hs1) as (I1 & I2 & I3). split; [exact I1|]. split.
    + intros r c. rewrite I2, val_cons. rewrite (val_mgetd (addTo' m e)) by (apply sorted_nodup; auto). rewrite (val_mgetd m) by (apply sorted_nodup; auto). unfold addTo'.
      rewrite mgetd_mput by exact Hs. destruct e as [[x y] v]. cbn [fst snd]. rewrite keq_pair, (Nat.eqb_sym x r), (Nat.eqb_sym y c).
      destruct ((r =? x) && (c =? y)) eqn:E; [|ring]. apply andb_true_iff in E. rewrite !Nat.eqb_eq in E. destruct E as [-> ->]. ring.
    + intros e' He. destruct (I3 e' He) as (e2 & [H1|H1] & H2).
      * unfold addTo' in H1. apply mput_keys in H1. destruct H1 as [H1|(e3 & H1 & H3)].
        -- exists e. split; [right; left; auto|congruence].
        -- exists e3. split; [left; auto|congruence].
      * exists e2. split; [right; right; auto|auto].
Qed.
Lemma val_shift l nr nc r0 c0 r c : Forall (inR nr nc) l ->
  val (map (fun e => ((r0 + fst (fst e), c0 + snd (fst e)), snd e)) l) r c = val l (r - r0) (c - c0).
Proof.
  intros Hf. induction Hf as [|e l He Hl IH]; [reflexivity|]. cbn [map]. rewrite !val_cons, IH. cbn [fst snd]. f_equal.
  unfold inR in He. replace ((r0 + fst (fst e) =? r) && (c0 + snd (fst e) =? c)) with ((fst (fst e) =? r - r0) && (snd (fst e) =? c - c0)) by lia. reflexivity.
Qed.
Lemma val_shiftT l nr nc r0 c0 r c : Forall (inR nr nc) l ->
  val (map (fun e => ((c0 + snd (fst e), r0 + fst (fst e)), snd e)) l) r c = val l (c - r0) (r - c0).
Proof.
  intros Hf. induction Hf as [|e l He Hl IH]; [reflexivity|]. cbn [map]. rewrite !val_cons, IH. cbn [fst snd]. f_equal.
  unfold inR in He. replace ((c0 + snd (fst e) =? r) && (r0 + fst (fst e) =? c)) with ((fst (fst e) =? c - r0) && (snd (fst e) =? r - c0)) by lia. reflexivity.
Qed.
Definition augUpd (r0 c0 : nat) (l : vmap) : vmap :=
  flat_map (fun e => [((r0 + fst (fst e), c0 + snd (fst e)), snd e); ((c0 + snd (fst e), r0 + fst (fst e)), snd e)]) l.
Lemma augUpd_val r0 c0 l r c : val (augUpd r0 c0 l) r c =
  (val (map (fun e : key * Qc => ((r0 + fst (fst e), c0 + snd (fst e))%nat, snd e)) l) r c +
   val (map (fun e : key * Qc => ((c0 + snd (fst e), r0 + fst (fst e))%nat, snd e)) l) r c)%Qc.
Proof. induction l as [|e l IH]; [cbn; ring|]. cbn [augUpd flat_map map]. rewrite val_app, !val_cons. fold (augUpd r0 c0 l). rewrite IH, val_nil. ring. Qed.
Lemma augment_spec B r0 c0 M : wf M -> wf B -> st M = EdP -> st B <> Compr ->
  exists M', augment B r0 c0 M = (true, M') /\ wf M' /\ st M' = EdP /\
    nrow M' = Nat.max (nrow M) (Nat.max (r0 + nrow B) (c0 + ncol B)) /\
    ncol M' = Nat.max (ncol M) (Nat.max (r0 + nrow B) (c0 + ncol B)) /\
    forall r c, val (stored M') r c =
      (val (stored M) r c + val (stored B) (r - r0)%nat (c - c0)%nat + val (stored B) (c - r0)%nat (r - c0)%nat)%Qc.
Proof.
  intros Hwf HwB Hst HB. assert (Hne : st M <> Compr) by congruence.
  pose proof (proj1 (wf_E M Hne) Hwf) as (Hs & HI & Hf). pose proof (proj1 (wf_E B HB) HwB) as (HsB & HIB & HfB).
  unfold augment. rewrite Hst, (proj2 (editable_iff B) HB). eexists. split; [reflexivity|].
  assert (Hfold : forall l m, fold_left (fun m e => mput (c0 + snd (fst e), r0 + fst (fst e)) (fun x => (x + snd e)%Qc)
             (mput (r0 + fst (fst e), c0 + snd (fst e)) (fun x => (x + snd e)%Qc) m)) l m = fold_left addTo' (augUpd r0 c0 l) m).
  { induction l as [|e l IH]; intros m; [reflexivity|]. cbn [fold_left augUpd flat_map app]. fold (augUpd r0 c0 l). rewrite IH. reflexivity. }
  rewrite Hfold. destruct (addFold_spec (augUpd r0 c0 (elem B)) (elem M) Hs) as (F1 & F2 & F3).
  set (n1 := if nrow M <? r0 + nrow B then r0 + nrow B else nrow M).
  set (m1 := if ncol M <? r0 + nrow B then r0 + nrow B else ncol M).
  assert (Hn1 : n1 = Nat.max (nrow M) (r0 + nrow B)) by (unfold n1; destruct (Nat.ltb_spec (nrow M) (r0 + nrow B)); lia).
  assert (Hm1 : m1 = Nat.max (ncol M) (r0 + nrow B)) by (unfold m1; destruct (Nat.ltb_spec (ncol M) (r0 + nrow B)); lia).
  assert (Hn2 : (if n1 <? c0 + ncol B then c0 + ncol B else n1) = Nat.max (nrow M) (Nat.max (r0 + nrow B) (c0 + ncol B)))
    by (destruct (Nat.ltb_spec n1 (c0 + ncol B)); lia).
  assert (Hm2 : (if m1 <? c0 + ncol B then c0 + ncol B else m1) = Nat.max (ncol M) (Nat.max (r0 + nrow B) (c0 + ncol B)))
    by (destruct (Nat.ltb_spec m1 (c0 + ncol B)); lia).
  rewrite Hn2, Hm2. repeat match goal with |- _ /\ _ => split end; try reflexivity.
  - apply wf_E; [discriminate|]. unfold wfE. cbn [elem IA nrow ncol]. split; [exact F1|]. split; [exact HI|].
    apply Forall_forall. intros e He. destruct (F3 e He) as (e' & [H1|H1] & H2).
    + rewrite Forall_forall in Hf. specialize (Hf e' H1). unfold inR in *. rewrite <- H2. lia.
    + unfold augUpd in H1. apply in_flat_map in H1. destruct H1 as (b & Hb & Hi). rewrite Forall_forall in HfB. specialize (HfB b Hb).
      unfold inR in *. rewrite <- H2. destruct Hi as [<-|[<-|[]]]; cbn [fst snd]; lia.
  - intros r c. rewrite !stored_E by (auto; discriminate). cbn [elem]. rewrite F2, augUpd_val.
    rewrite (val_shift _ _ _ _ _ _ _ HfB), (val_shiftT _ _ _ _ _ _ _ HfB). ring.
Qed.

(** ** truncate *)
Lemma qlt_spec a b : qlt a b = true <-> (a < b)%Qc.
Proof. unfold qlt. rewrite Qclt_alt. destruct (a ?= b)%Qc; split; congruence. Qed.
Lemma qle_spec a b : qle a b = true <-> (a <= b)%Qc.
Proof. unfold qle. rewrite Qcle_alt. destruct (a ?= b)%Qc; split; congruence. Qed.
Lemma Qc_lt_or_le a b : (a < b)%Qc \/ (b <= a)%Qc.
Proof. destruct (Qclt_le_dec a b); auto. Qed.
Lemma Qc_opp_le a b : (a <= b)%Qc <-> (- b <= - a)%Qc.
Proof. split; intros H; [apply Qcopp_le_compat, H|]. rewrite <- (Qcopp_involutive a), <- (Qcopp_involutive b). apply Qcopp_le_compat, H. Qed.
Lemma Qc_opp_lt a b : (a < b)%Qc <-> (- b < - a)%Qc.
Proof.
  split; intros H; apply Qcnot_le_lt; intros H1; apply (Qclt_not_le _ _ H).
  - apply Qc_opp_le, H1. - apply Qc_opp_le in H1. exact H1.
Qed.
Lemma Qc_opp0 : (- 0)%Qc = 0%Qc. Proof. reflexivity. Qed.
Lemma absQ_le x t : (absQ x <= t)%Qc <-> (- t <= x)%Qc /\ (x <= t)%Qc.
Proof.
  unfold absQ. destruct (Qclt_le_dec x 0) as [H|H].
  - split.
    + intros H1. split; [apply Qc_opp_le; rewrite Qcopp_involutive; exact H1|].
      apply Qcle_trans with 0%Qc; [apply Qclt_le_weak, H|]. apply Qcle_trans with (- x)%Qc; [|exact H1].
      apply Qc_opp_le. rewrite Qcopp_involutive, Qc_opp0. apply Qclt_le_weak, H.
    + intros [H1 _]. apply Qc_opp_le. rewrite Qcopp_involutive. exact H1.
  - split; [|tauto]. intros H1. split; [|exact H1]. apply Qcle_trans with 0%Qc; [|exact H].
    apply Qc_opp_le. rewrite Qcopp_involutive, Qc_opp0. apply Qcle_trans with x; auto.
Qed.
Lemma absQ_ge x t : (0 <= t)%Qc -> ((t <= absQ x)%Qc <-> (x <= - t)%Qc \/ (t <= x)%Qc).
Proof.
  intros Ht. unfold absQ. destruct (Qclt_le_dec x 0) as [H|H].
  - split.
    + intros H1. left. apply Qc_opp_le. rewrite Qcopp_involutive. exact H1.
    + intros [H1|H1]; [apply Qc_opp_le in H1; rewrite Qcopp_involutive in H1; exact H1|].
      exfalso. apply (Qclt_not_le _ _ H). apply Qcle_trans with t; auto.
  - split; [auto|]. intros [H1|H1]; [|exact H1]. apply Qcle_trans with 0%Qc; [|exact H].
    apply Qc_opp_le. rewrite Qc_opp0. apply Qcle_trans with x; auto.
Qed.
Lemma diagMax_fold m : forall t, (0 <= t)%Qc ->
  let t' := fold_left (fun tol e => if fst (fst e) =? snd (fst e) then
                            if qlt tol (snd e) then snd e
                            else if qlt (snd e) (- tol)%Qc then (- snd e)%Qc else tol
                          else tol) m t in
  (t <= t')%Qc /\ (forall e, In e m -> fst (fst e) = snd (fst e) -> (absQ (snd e) <= t')%Qc) /\
  (t' = t \/ exists e, In e m /\ fst (fst e) = snd (fst e) /\ t' = absQ (snd e)).
Proof.
  induction m as [|e m IH]; intros t Ht; cbn zeta.
  - cbn [fold_left]. split; [apply Qcle_refl|]. split; [intros e []|auto].
  - cbn [fold_left]. set (t1 := if fst (fst e) =? snd (fst e) then _ else t).
    assert (H1 : (t <= t1)%Qc /\ (fst (fst e) = snd (fst e) -> (absQ (snd e) <= t1)%Qc) /\
                 (t1 = t \/ (fst (fst e) = snd (fst e) /\ t1 = absQ (snd e)))).
    { unfold t1. destruct (Nat.eqb_spec (fst (fst e)) (snd (fst e))) as [Hd|Hd]; [|split; [apply Qcle_refl|]; split; [congruence|auto]].
      destruct (qlt t (snd e)) eqn:L1; [|destruct (qlt (snd e) (- t)%Qc) eqn:L2].
      - apply qlt_spec in L1. assert (E : absQ (snd e) = snd e).
        { unfold absQ. destruct (Qclt_le_dec (snd e) 0) as [H|H]; [|reflexivity]. exfalso.
          apply (Qclt_not_le _ _ H). apply Qcle_trans with t; [exact Ht|apply Qclt_le_weak, L1]. }
        split; [apply Qclt_le_weak, L1|]. rewrite E. split; [intros _; apply Qcle_refl|auto].
      - apply qlt_spec in L2. assert (E : absQ (snd e) = (- snd e)%Qc).
        { unfold absQ. destruct (Qclt_le_dec (snd e) 0) as [H|H]; [reflexivity|]. exfalso.
          apply (Qclt_not_le _ _ L2). apply Qcle_trans with 0%Qc; [|exact H]. apply Qc_opp_le. rewrite Qcopp_involutive, Qc_opp0. exact Ht. }
        rewrite E. split; [apply Qc_opp_lt in L2; rewrite Qcopp_involutive in L2; apply Qclt_le_weak, L2|].
        split; [intros _; apply Qcle_refl|auto].
      - split; [apply Qcle_refl|]. split; [|auto]. intros _. apply absQ_le.
        split; apply Qcnot_lt_le; intros H; apply qlt_spec in H; congruence. }
    destruct H1 as (A1 & A2 & A3).
    destruct (IH t1) as (I1 & I2 & I3); [apply Qcle_trans with t; auto|].
    split; [eapply Qcle_trans; eauto|]. split.
    + intros x [<-|Hx] Hd; [eapply Qcle_trans; [apply A2, Hd|exact I1]|apply I2; auto].
    + destruct I3 as [->|(x & Hx & Hd & ->)]; [|right; exists x; split; [right; auto|auto]].
      destruct A3 as [->|[Hd ->]]; [auto|]. right. exists e. split; [left; auto|auto].
Qed.
Lemma val_filter_v (p : Qc -> bool) l r c : NoDup (map fst l) ->
  val (filter (fun e => p (snd e)) l) r c = if p (val l r c) then val l r c else 0%Qc.
Proof.
  intros Hn. assert (E : forall l, NoDup (map fst l) -> val (filter (fun e => p (snd e)) l) r c = val (map (fun e => (fst e, if p (snd e) then snd e else 0%Qc)) l) r c).
  { clear. induction l as [|e l IH]; intros Hn; [reflexivity|]. inversion Hn; subst. cbn [filter map].
    rewrite val_cons. cbn [fst snd]. destruct (p (snd e)); [rewrite val_cons; f_equal; auto|]. rewrite IH by auto.
    destruct (_ && _); ring. }
  rewrite E by exact Hn. rewrite (val_map (fun v => if p v then v else 0%Qc)); [reflexivity|exact Hn|destruct (p 0%Qc); reflexivity].
Qed.
Lemma truncate_spec thr M : wf M -> st M <> Compr -> (0 <= thr)%Qc ->
  exists M' dm, truncate thr M = (true, M') /\ wf M' /\ st M' = st M /\ nrow M' = nrow M /\ ncol M' = ncol M /\
    (forall i, (absQ (val (stored M) i i) <= dm)%Qc) /\ (dm = 0%Qc \/ exists i, dm = absQ (val (stored M) i i)) /\
    forall r c, val (stored M') r c = if qlt (absQ (val (stored M) r c)) (dm * thr)%Qc then 0%Qc else val (stored M) r c.
Proof.
  intros Hwf Hne Hthr. pose proof (proj1 (wf_E M Hne) Hwf) as (Hs & HI & Hf). pose proof (sorted_nodup _ Hs) as Hn.
  destruct (diagMax_fold (elem M) 0%Qc (Qcle_refl _)) as (D1 & D2 & D3). fold (diagMax (elem M)) in *. cbv zeta in *.
  set (dm := diagMax (elem M)) in *. set (tol := (dm * thr)%Qc).
  assert (Htol : (0 <= tol)%Qc) by (unfold tol; rewrite <- (Qcmult_0_l thr); apply Qcmult_le_compat_r; auto).
  set (pk := fun v : Qc => qle v (- tol)%Qc || qle tol v).
  assert (Hpk : forall v, pk v = negb (qlt (absQ v) tol)).
  { intros v. unfold pk. destruct (qlt (absQ v) tol) eqn:E.
    - apply qlt_spec in E. apply not_true_is_false. rewrite orb_true_iff, !qle_spec. intros H. apply (absQ_ge v tol Htol) in H. apply (Qclt_not_le _ _ E H).
    - rewrite orb_true_iff, !qle_spec. apply (absQ_ge v tol Htol). apply Qcnot_lt_le. intros H. apply qlt_spec in H. congruence. }
  assert (Hdm1 : forall i, (absQ (val (stored M) i i) <= dm)%Qc).
  { intros i. rewrite stored_E by exact Hne. rewrite val_mgetd by exact Hn. unfold mgetd. destruct (mget (i,i) (elem M)) as [v|] eqn:E.
    - apply mget_in in E; [|exact Hn]. apply (D2 ((i,i),v) E). reflexivity.
    - exact D1. }
  assert (Hdm2 : dm = 0%Qc \/ exists i, dm = absQ (val (stored M) i i)).
  { destruct D3 as [D3|(e & He & Hd & D3)]; [auto|]. right. destruct e as [[i j] v]. cbn [fst snd] in *. subst j.
    exists i. rewrite stored_E by exact Hne. rewrite (val_in _ i i v Hn He). exact D3. }
  unfold truncate. fold dm tol. destruct (st M) eqn:Hst; [| |congruence].
  - eexists _, dm. split; [reflexivity|]. assert (Hw : wf (setElem M (filter (fun e => pk (snd e)) (elem M)))).
    { apply wf_E; [cbn; congruence|]. unfold wfE. cbn [setElem elem IA nrow ncol]. split; [apply sorted_filter, Hs|]. split; [exact HI|].
      apply Forall_forall. intros e He. apply filter_In in He. rewrite Forall_forall in Hf. apply Hf, He. }
    split; [exact Hw|]. repeat match goal with |- _ /\ _ => split end; auto.
    intros r c. rewrite !stored_E by (cbn; congruence). cbn [setElem elem]. rewrite (val_filter_v pk) by exact Hn. rewrite Hpk.
    destruct (qlt _ _); reflexivity.
  - eexists _, dm. split; [reflexivity|].
    assert (E : map (fun e : key * Qc => if qle (snd e) (- tol)%Qc || qle tol (snd e) then e else (fst e, 0%Qc)) (elem M) =
                map (fun e => (fst e, if pk (snd e) then snd e else 0%Qc)) (elem M)).
    { apply map_ext. intros [k v]. cbn [fst snd]. fold (pk v). destruct (pk v); reflexivity. }
    rewrite E. split.
    { apply wf_E; [cbn; congruence|]. unfold wfE. cbn [setElem elem IA nrow ncol].
      split; [apply (keyLt_map (fun e => if pk (snd e) then snd e else 0%Qc)), Hs|]. split; [exact HI|]. apply (inR_map (fun e => if pk (snd e) then snd e else 0%Qc)), Hf. }
    repeat match goal with |- _ /\ _ => split end; auto.
    intros r c. rewrite !stored_E by (cbn; congruence). cbn [setElem elem].
    rewrite (val_map (fun v => if pk v then v else 0%Qc)); [|exact Hn|destruct (pk 0%Qc); reflexivity]. rewrite Hpk.
    destruct (qlt _ _); reflexivity.
Qed.
