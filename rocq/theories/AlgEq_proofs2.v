(** Every operation on one system is defined and keeps the ownership invariant. *)
From Coq Require Import List Arith ZArith QArith Qcanon Bool Lia Permutation.
From Verif Require Import Base SAM_model SAM_spec SAM_proofs SAM_proofs2 SAM_proofs3 SAM_proofs4 Sparse_model Sparse_spec Sparse_proofs Sparse_proofs2 Sparse_proofs3 Sparse_proofs4 Sparse_proofs5 Sparse_proofs6 Sparse_proofs8 AlgEq_model AlgEq_spec AlgEq_proofs.
Import ListNotations.
Local Open Scope nat_scope.

Definition addr (p : option nat) : list nat := match p with Some k => [k] | None => [] end.
Definition aM (y : sys) : list nat := flat_map (fun a => addr (fst a)) (A y).
Definition aV (y : sys) : list nat := flat_map addr (b y).
Definition aD (y : sys) : list nat := match d y with DArr p => [p] | _ => [] end.
Definition strOK (y : sys) : Prop :=
  map fst (A y) = map Some (aM y) /\ b y = map Some (aV y) /\ forall a, In a (A y) -> snd a = None \/ In (snd a) (b y).

Definition sizes (s : tables) (sh : shape) (y : sys) : Prop :=
  length (A y) = nmat sh /\ length (b y) = nvec sh /\ length (c y) = nscl sh /\
  length (R y) = (if hasReact sh then nspdof s else 0).
Definition noArr (y : sys) : Prop := forall p, d y <> DArr p.
Definition bufOK (nthr : nat) (hd : list (option (list (list Qc)))) (y : sys) : Prop :=
  match c y with
  | [] => noArr y
  | _ => if 1 <? nthr then exists p bufs, d y = DArr p /\ nth_error hd p = Some (Some bufs) /\ length bufs = nthr /\ Forall (fun u => length u = length (c y)) bufs
         else d y = DSelf
  end.
Definition phaseOK (nthr : nat) (s : tables) (hd : list (option (list (list Qc)))) (y : sys) (ph : phase) : Prop :=
  match ph with
  | Clean => y = newSys
  | Ready sh => sizes s sh y /\ noArr y
  | Busy sh => sizes s sh y /\ bufOK nthr hd y
  end.
Definition lenV (s : tables) (v : list Qc) : Prop := length v = neq s.
Definition loc (s : tables) (sl : solverT) (h : heap) (y : sys) (rM rV rD : list nat) : Prop :=
  own (hM h) (aM y ++ rM) /\ own (hV h) (aV y ++ rV) /\ own (hD h) (aD y ++ rD) /\
  allv (ready s sl) (hM h) /\ allv (lenV s) (hV h).
Definition fr (rM rV rD : list nat) (h h' : heap) : Prop :=
  same rM (hM h) (hM h') /\ same rV (hV h) (hV h') /\ same rD (hD h) (hD h').

Lemma flat_addr_some l : flat_map addr (map Some l) = l.
Proof. induction l as [|x l IH]; [reflexivity|]. cbn. f_equal. exact IH. Qed.
Lemma flat_addr_fst {Y} (l : list nat) (g : nat -> Y) : flat_map (fun a : option nat * Y => addr (fst a)) (map (fun p => (Some p, g p)) l) = l.
Proof. induction l as [|x l IH]; [reflexivity|]. cbn. f_equal. exact IH. Qed.
Lemma aM_eq (l : list (option nat * option nat)) ps : map fst l = map Some ps -> flat_map (fun a => addr (fst a)) l = ps.
Proof.
  revert ps; induction l as [|[p q] l IH]; intros [|x ps] H; cbn in *; try discriminate; [reflexivity|]. injection H as -> H. cbn. f_equal. apply IH, H.
Qed.
Lemma aV_eq l ps : l = map Some ps -> flat_map addr l = ps.
Proof. intros ->. apply flat_addr_some. Qed.
Lemma own_live {X} (l : list (option X)) ps p : own l ps -> In p ps -> live l p. Proof. intros [_ H]. apply H. Qed.
Lemma own_nodup_l {X} (l : list (option X)) ps qs : own l (ps ++ qs) -> NoDup ps.
Proof. intros [N _]. induction ps as [|x ps IH]; [constructor|]. cbn in N. inversion N; subst. constructor; [|apply IH; auto]. intros H. apply H1, in_or_app. auto. Qed.
Lemma own_disj {X} (l : list (option X)) ps qs p : own l (ps ++ qs) -> In p qs -> ~ In p ps.
Proof.
  intros [N _] Hq Hp. induction ps as [|x ps IH]; [contradiction|]. cbn in N. inversion N; subst. destruct Hp as [->|Hp]; [|auto]. apply H1, in_or_app. auto.
Qed.
Lemma phaseOK_same nthr s hd hd' y ph : phaseOK nthr s hd y ph -> (forall p, In p (aD y) -> nth_error hd' p = nth_error hd p) -> phaseOK nthr s hd' y ph.
Proof.
  intros H E. destruct ph; auto. destruct H as [H1 H2]. split; [exact H1|]. unfold bufOK in *. destruct (c y); [exact H2|]. destruct (1 <? nthr); [|exact H2].
  destruct H2 as (p & bufs & D & G & L). exists p, bufs. split; [exact D|]. split; [|exact L]. rewrite E; [exact G|]. unfold aD. rewrite D. left. reflexivity.
Qed.

Lemma noArr_aD y : noArr y -> aD y = [].
Proof. unfold noArr, aD. destruct (d y) as [| |p]; auto. intros H. exfalso. exact (H p eq_refl). Qed.

(** ** clear, init, copy *)
Lemma clear_ok s sl h y rM rV rD : strOK y -> loc s sl h y rM rV rD ->
  exists h', clear h y = Some (h', newSys) /\ loc s sl h' newSys rM rV rD /\ fr rM rV rD h h'.
Proof.
  intros (SA & SB & _) (OM & OV & OD & VM & VV). unfold clear. rewrite SA.
  destruct (freeAll_own _ _ _ OM) as (m & E1 & O1 & S1 & F1). rewrite E1.
  rewrite SB. destruct (freeAll_own _ _ _ OV) as (v & E2 & O2 & S2 & F2). rewrite E2.
  assert (G : exists e, (match d y with DArr p => freeAll [Some p] (hD h) | _ => Some (hD h) end) = Some e /\ own e rD /\ same rD (hD h) e).
  { unfold aD in OD. destruct (d y) as [| |p]; try (exists (hD h); split; [reflexivity|]; split; [exact OD|apply same_refl]).
    destruct (freeAll_own [p] (hD h) rD OD) as (e & E3 & O3 & S3 & _). exists e. auto. }
  destruct G as (e & E3 & O3 & S3). rewrite E3. eexists. split; [reflexivity|]. split; [|split; [exact S1|split; [exact S2|exact S3]]].
  split; [exact O1|]. split; [exact O2|]. split; [exact O3|]. split; [eapply freeAll_allv; eauto|eapply freeAll_allv; eauto].
Qed.

Lemma initMats_ok s sl mode n m rM : consistent s -> mode <> Some false \/ colFmt sl = true -> own m rM -> allv (ready s sl) m ->
  exists m', initMats s sl mode n m = Some (map (fun p => (Some p, None)) (seq (length m) n), m') /\ own m' (seq (length m) n ++ rM) /\ same rM m m' /\ allv (ready s sl) m' /\
    forall p, In p (seq (length m) n) -> exists M, nth_error m' p = Some (Some M) /\ initAssembly s mode (create 0 0 sl) = Some M.
Proof.
  intros C Hm Ho Hv. destruct n as [|n].
  - exists m. split; [reflexivity|]. split; [exact Ho|]. split; [apply same_refl|]. split; [exact Hv|]. intros p [].
  - cbn [initMats]. destruct (create_ready s sl mode C Hm) as (M0 & E0 & R0 & _). rewrite E0. eexists. split; [reflexivity|].
    assert (G : forall k (m0 : list (option spm)) ps, own m0 ps -> allv (ready s sl) m0 ->
      own (m0 ++ repeat (Some M0) k) (seq (length m0) k ++ ps) /\ same ps m0 (m0 ++ repeat (Some M0) k) /\ allv (ready s sl) (m0 ++ repeat (Some M0) k)).
    { induction k as [|k IH]; intros m0 ps O V; [cbn; rewrite app_nil_r; split; [exact O|split; [apply same_refl|exact V]]|].
      cbn [repeat seq app]. change (m0 ++ Some M0 :: repeat (Some M0) k) with (m0 ++ ([Some M0] ++ repeat (Some M0) k)). rewrite app_assoc.
      destruct (IH (m0 ++ [Some M0]) (length m0 :: ps) (alloc_own m0 M0 ps O) (alloc_allv _ m0 M0 V R0)) as (O1 & S1 & V1).
      replace (length (m0 ++ [Some M0])) with (S (length m0)) in O1 by (rewrite app_length; cbn; lia).
      split; [eapply own_perm; [|exact O1]; apply Permutation_sym, Permutation_middle|]. split; [|exact V1].
      eapply same_trans; [apply alloc_same; exact O|]. eapply same_incl; [|exact S1]. intros; right; auto. }
    destruct (G (S n) m rM Ho Hv) as (O1 & S1 & V1). split; [exact O1|]. split; [exact S1|]. split; [exact V1|].
    intros p Hp. apply in_seq in Hp. exists M0. split; [|reflexivity]. rewrite nth_error_app2 by lia. rewrite nth_error_repeat by lia. reflexivity.
Qed.
Lemma initVecs_ok (n : nat) : forall v rV, own v rV -> exists v' ps, initVecs (repeat None n) v = (map Some ps, v') /\ length ps = n /\ own v' (ps ++ rV) /\ same rV v v' /\
    (forall p x, nth_error v' p = Some (Some x) -> nth_error v p = Some (Some x) \/ (In p ps /\ x = [])) /\ (forall p, In p ps -> nth_error v' p = Some (Some [])).
Proof.
  induction n as [|n IH]; intros v rV Ho; cbn [repeat initVecs].
  - exists v, []. repeat split; auto; try apply Ho. intros p [].
  - destruct (IH (v ++ [Some []]) (length v :: rV) (alloc_own v [] rV Ho)) as (v' & ps & E & L & O & S1 & V & Z). rewrite E.
    exists v', (length v :: ps). split; [reflexivity|]. split; [cbn; lia|]. split; [eapply own_perm; [|exact O]; apply Permutation_sym, Permutation_middle|].
    assert (E1 : nth_error v' (length v) = Some (Some [])) by (rewrite S1 by (left; reflexivity); rewrite nth_error_app2, Nat.sub_diag by lia; reflexivity).
    split; [|split].
    + eapply same_trans; [apply alloc_same; exact Ho|]. eapply same_incl; [|exact S1]. intros; right; auto.
    + intros p x Hp. destruct (V p x Hp) as [H|[H ->]]; [|right; split; [right; exact H|reflexivity]].
      destruct (Nat.lt_ge_cases p (length v)); [left; rewrite nth_error_app1 in H by auto; exact H|].
      right. rewrite nth_error_app2 in H by auto. destruct (p - length v) as [|k] eqn:Ek; [|destruct k; discriminate H]. injection H as <-. split; [left; lia|reflexivity].
    + intros p [<-|Hp]; [exact E1|auto].
Qed.
Lemma vresize_nil {X} n (x : X) : vresize n x [] = repeat x n.
Proof. unfold vresize. rewrite firstn_nil. cbn [length app]. rewrite Nat.sub_0_r. reflexivity. Qed.
Lemma vresize_length {X} n (x : X) l : length (vresize n x l) = n.
Proof. unfold vresize. rewrite app_length, firstn_length, repeat_length. lia. Qed.

Lemma init_ok nthr s sl mode nm nv nc rc h rM rV rD : consistent s -> mode <> Some false \/ colFmt sl = true -> loc s sl h newSys rM rV rD ->
  exists h' y', init s sl mode nm nv nc rc h newSys = Some (h', y') /\ loc s sl h' y' rM rV rD /\ strOK y' /\ fr rM rV rD h h' /\
    phaseOK nthr s (hD h') y' (Ready (mkShape nm nv nc rc)).
Proof.
  intros C Hm (OM & OV & OD & VM & VV). unfold init. cbn [newSys A b c d R]. rewrite !skipn_nil. cbn [map freeAll].
  destruct (initMats_ok s sl mode nm (hM h) rM C Hm OM VM) as (m2 & E1 & O1 & S1 & V1 & _). rewrite E1, vresize_nil.
  destruct (initVecs_ok nv (hV h) rV OV) as (v2 & pb & E2 & L2 & O2 & S2 & V2 & Z2). rewrite E2.
  destruct (mapAll_own (vresize (neq s) 0%Qc) pb v2 (pb ++ rV) O2 (own_nodup_l _ _ _ O2)) as (v3 & E3 & O3 & F3). { intros; apply in_or_app; auto. }
  rewrite E3, vresize_nil. set (pa := seq (length (hM h)) nm). eexists. eexists. split; [reflexivity|].
  set (single := match map (fun p : nat => (Some p, @None nat)) pa with [_] => _ | _ => _ end).
  assert (Sg : single = true -> nm = 1 /\ 0 < nv).
  { unfold single. rewrite <- L2. unfold pa. destruct nm as [|[|nm']]; cbn [seq map]; try discriminate. destruct pb; cbn; [discriminate|]. intros _. split; [reflexivity|lia]. }
  assert (Sf : single = false -> nm <> 1 \/ nv = 0).
  { unfold single. rewrite <- L2. unfold pa. destruct nm as [|[|nm']]; cbn [seq map]; try (intros _; left; lia). destruct pb; cbn; [intros _; right; reflexivity|discriminate]. }
  set (A' := if single then _ else _).
  assert (HA : map fst A' = map Some pa). { unfold A'. destruct single; rewrite ?map_map; cbn [fst]; reflexivity. }
  assert (HaM : forall c0 d0 R0, aM (mkY A' (map Some pb) c0 d0 R0) = pa) by (intros; apply aM_eq; exact HA).
  assert (HaV : forall c0 d0 R0, aV (mkY A' (map Some pb) c0 d0 R0) = pb) by (intros; apply aV_eq; reflexivity).
  split; [|split; [|split]].
  - unfold loc. rewrite HaM, HaV. cbn [hM hV hD]. split; [exact O1|]. split; [exact O3|]. split; [exact OD|]. split; [exact V1|].
    intros p x Hx. rewrite F3 in Hx. destruct (existsb (Nat.eqb p) pb) eqn:Ep.
    + destruct (nth_error v2 p) as [[u|]|]; cbn in Hx; try discriminate. injection Hx as <-. apply vresize_length.
    + destruct (V2 p x Hx) as [H|[H _]]; [eapply VV; exact H|]. exfalso. assert (existsb (Nat.eqb p) pb = true) by (apply existsb_exists; exists p; split; [exact H|apply Nat.eqb_refl]). congruence.
  - unfold strOK. rewrite HaM, HaV. cbn [A b]. split; [exact HA|]. split; [reflexivity|]. intros a Ha. unfold A' in Ha.
    destruct single eqn:Es; [|apply in_map_iff in Ha; destruct Ha as (z & <- & _); left; reflexivity].
    right. apply in_map_iff in Ha. destruct Ha as (z & <- & _). cbn [snd]. destruct (Sg eq_refl) as [_ Hp]. destruct pb; [cbn in L2; lia|left; reflexivity].
  - split; [exact S1|]. cbn [hV hD]. split; [|apply same_refl]. eapply same_trans; [exact S2|]. eapply mapAll_same; [exact F3|]. intros p Hp. eapply own_disj; eauto.
  - cbn [phaseOK]. unfold sizes, noArr, hasReact. cbn [A b c d R AlgEq_spec.nmat AlgEq_spec.nvec AlgEq_spec.nscl AlgEq_spec.react].
    assert (LA : length A' = nm). { rewrite <- (map_length fst), HA, map_length. apply seq_length. }
    split; [|discriminate]. split; [exact LA|]. split; [rewrite map_length; exact L2|]. split; [apply repeat_length|].
    destruct single eqn:Es; cbn [andb].
    + destruct (Sg eq_refl) as [-> Hp]. rewrite Nat.eqb_refl, andb_true_r. apply Nat.ltb_lt in Hp. rewrite Hp, andb_true_r. destruct rc; [apply repeat_length|reflexivity].
    + destruct (Sf eq_refl) as [Hn|Hn]; [apply Nat.eqb_neq in Hn; rewrite Hn, andb_false_r; reflexivity|rewrite Hn, andb_false_r; reflexivity].
Qed.

Lemma copySys_ok s sl h y z rM rV rD : strOK y -> loc s sl h y rM rV rD -> noArr y -> strOK z -> (forall p, In p (aM z) -> In p rM) -> (forall p, In p (aV z) -> In p rV) ->
  exists h' y', copySys h y z = Some (h', y') /\ loc s sl h' y' rM rV rD /\ strOK y' /\ fr rM rV rD h h' /\ d y' = DNull /\ c y' = c z /\ R y' = R z /\
    length (A y') = length (A z) /\ length (b y') = length (b z) /\
    (forall k p q, nth_error (A z) k = Some (p, q) -> exists p' q', nth_error (A y') k = Some (p', q') /\ getp (hM h') p' = getp (hM h) p) /\
    (forall k p, nth_error (b z) k = Some p -> exists p', nth_error (b y') k = Some p' /\ getp (hV h') p' = getp (hV h) p) /\
    (forall k a, nth_error (A y') k = Some a -> snd a = if length (A y') =? 1 then hd None (b y') else None).
Proof.
  intros (SA & SB & _) (OM & OV & OD & VM & VV) Nd (ZA & ZB & ZS) IM IV. unfold copySys. rewrite SA.
  destruct (freeAll_own _ _ _ OM) as (m1 & E1 & O1 & S1 & F1). rewrite E1. rewrite SB.
  destruct (freeAll_own _ _ _ OV) as (v1 & E2 & O2 & S2 & F2). rewrite E2. rewrite ZA.
  destruct (copyAll_own (aM z) m1 rM O1 IM) as (pa & m2 & E3 & O3 & S3 & L3 & V3 & C3). rewrite E3. rewrite ZB.
  destruct (copyAll_own (aV z) v1 rV O2 IV) as (pb & v2 & E4 & O4 & S4 & L4 & V4 & C4). rewrite E4.
  eexists. eexists. split; [reflexivity|]. set (A' := match map Some pa with [] => _ | _ => _ end).
  assert (HA : map fst A' = map Some pa).
  { unfold A'. destruct pa as [|a [|a2 pa']]; cbn [map]; try reflexivity; [destruct pb; reflexivity|]. f_equal. f_equal. rewrite !map_map. reflexivity. }
  assert (HaM : forall c0 d0 R0, aM (mkY A' (map Some pb) c0 d0 R0) = pa) by (intros; apply aM_eq; exact HA).
  assert (HaV : forall c0 d0 R0, aV (mkY A' (map Some pb) c0 d0 R0) = pb) by (intros; apply aV_eq; reflexivity).
  assert (LA : length A' = length pa) by (rewrite <- (map_length fst), HA, map_length; reflexivity).
  assert (HS : forall k a, nth_error A' k = Some a -> snd a = if length A' =? 1 then hd None (map Some pb) else None).
  { intros k a. rewrite LA. unfold A'. destruct pa as [|a1 [|a2 pa']]; cbn [map length Nat.eqb].
    - destruct k; discriminate.
    - destruct pb as [|q pb']; destruct k as [|[|k]]; cbn; intros [= <-]; reflexivity.
    - intros Ha. apply nth_error_In in Ha. destruct Ha as [<-|[<-|Ha]]; try reflexivity. apply in_map_iff in Ha. destruct Ha as (u & <- & _). reflexivity. }
  split; [|split; [|split; [|split; [|split; [|split; [|split; [|split; [|split; [|split]]]]]]]]].
  - unfold loc. rewrite HaM, HaV. cbn [hM hV hD aD d]. split; [exact O3|]. split; [exact O4|]. split; [rewrite (noArr_aD y Nd) in OD; exact OD|].
    split; [apply V3; eapply freeAll_allv; eauto|apply V4; eapply freeAll_allv; eauto].
  - unfold strOK. rewrite HaM, HaV. cbn [A b]. split; [exact HA|]. split; [reflexivity|]. intros a Ha. apply In_nth_error in Ha. destruct Ha as (k & Hk). rewrite (HS k a Hk).
    destruct (length A' =? 1); [|left; reflexivity]. destruct pb; [left; reflexivity|right; left; reflexivity].
  - split; [eapply same_trans; eauto|]. split; [eapply same_trans; eauto|]. apply same_refl.
  - reflexivity.
  - reflexivity.
  - reflexivity.
  - cbn [A]. rewrite LA, L3. rewrite <- (map_length Some), <- ZA, map_length. reflexivity.
  - cbn [b]. rewrite map_length, L4. rewrite <- (map_length Some), <- ZB. reflexivity.
  - cbn [A hM]. intros k p q Hk. assert (Hq : nth_error (map Some (aM z)) k = Some p) by (rewrite <- ZA; rewrite nth_error_map, Hk; reflexivity).
    rewrite nth_error_map in Hq. destruct (nth_error (aM z) k) as [x|] eqn:Ex; [|discriminate]. cbn in Hq. injection Hq as <-.
    destruct (C3 k x Ex) as (p' & Hp & Hv). assert (Hf : nth_error (map fst A') k = Some (Some p')) by (rewrite HA, nth_error_map, Hp; reflexivity).
    rewrite nth_error_map in Hf. destruct (nth_error A' k) as [[u1 u2]|]; [|discriminate]. cbn in Hf. injection Hf as ->. exists (Some p'), u2. split; [reflexivity|].
    cbn [getp]. rewrite Hv, S1 by (apply IM; eapply nth_error_In; exact Ex). reflexivity.
  - cbn [b hV]. intros k p Hk. rewrite ?ZB, nth_error_map in Hk. destruct (nth_error (aV z) k) as [x|] eqn:Ex; [|discriminate]. cbn in Hk. injection Hk as <-.
    destruct (C4 k x Ex) as (p' & Hp & Hv). exists (Some p'). split; [rewrite nth_error_map, Hp; reflexivity|]. cbn [getp]. rewrite Hv, S2 by (apply IV; eapply nth_error_In; exact Ex). reflexivity.
  - cbn [A b]. exact HS.
Qed.

(** ** add *)
Lemma addMats_ok s sl : forall qs ps l ow, consistent s -> own l ow -> allv (ready s sl) l -> (forall p, In p ps -> In p ow) -> (forall p, In p qs -> In p ow) ->
  exists l', addMats (map Some ps) (map Some qs) l = Some l' /\ own l' ow /\ allv (ready s sl) l' /\ forall rs, (forall p, In p rs -> ~ In p ps) -> same rs l l'.
Proof.
  intros qs ps. revert qs. induction ps as [|p ps IH]; intros qs l ow C Ho Hv Ip Iq; cbn [map addMats].
  - exists l. split; [reflexivity|]. split; [exact Ho|]. split; [exact Hv|]. intros; apply same_refl.
  - destruct qs as [|q qs]; cbn [map]; [exists l; split; [reflexivity|]; split; [exact Ho|]; split; [exact Hv|]; intros; apply same_refl|].
    pose proof (own_live _ _ _ Ho (Ip p (or_introl eq_refl))) as Lp. pose proof (own_live _ _ _ Ho (Iq q (or_introl eq_refl))) as Lq.
    destruct (getp_live _ _ Lp) as (M & -> & EM). destruct (getp_live _ _ Lq) as (B & -> & EB).
    destruct (add_ready s sl B M C (Hv _ _ EM) (Hv _ _ EB)) as (k & M' & -> & R').
    destruct (IH qs (setp l (Some p) M') ow C (setp_own _ _ _ _ Ho Lp) (setp_allv _ _ _ _ Lp Hv R')) as (l' & E & O & V & S1); [intros; apply Ip; right; auto|intros; apply Iq; right; auto|].
    exists l'. split; [exact E|]. split; [exact O|]. split; [exact V|]. intros rs Hr. eapply same_trans; [apply setp_same; [exact Lp|]|].
    + intros Hi. apply (Hr p Hi). left; reflexivity.
    + apply S1. intros u Hu Hi. apply (Hr u Hu). right; exact Hi.
Qed.
Lemma addPre_length : forall x y, length (addPre x y) = length y.
Proof. induction x as [|a x IH]; intros [|e y]; cbn; auto. Qed.
Lemma addVecs_ok s : forall n ps qs l ow, own l ow -> allv (lenV s) l -> n <= length qs -> (forall p, In p ps -> In p ow) -> (forall p, In p qs -> In p ow) ->
  exists l', addVecs n (map Some ps) (map Some qs) l = Some l' /\ own l' ow /\ allv (lenV s) l' /\ forall rs, (forall p, In p rs -> ~ In p ps) -> same rs l l'.
Proof.
  induction n as [|n IH]; intros ps qs l ow Ho Hv Hn Ip Iq; cbn [map addVecs].
  - exists l. split; [reflexivity|]. split; [exact Ho|]. split; [exact Hv|]. intros; apply same_refl.
  - destruct ps as [|p ps]; cbn [map]; [exists l; split; [reflexivity|]; split; [exact Ho|]; split; [exact Hv|]; intros; apply same_refl|].
    destruct qs as [|q qs]; [cbn in Hn; lia|]. cbn [map].
    pose proof (own_live _ _ _ Ho (Ip p (or_introl eq_refl))) as Lp. pose proof (own_live _ _ _ Ho (Iq q (or_introl eq_refl))) as Lq.
    destruct (getp_live _ _ Lp) as (M & -> & EM). destruct (getp_live _ _ Lq) as (B & -> & EB).
    rewrite (Hv _ _ EM), (Hv _ _ EB), Nat.eqb_refl.
    destruct (IH ps qs (setp l (Some p) (addPre B M)) ow (setp_own _ _ _ _ Ho Lp)) as (l' & E & O & V & S1).
    { apply setp_allv; [exact Lp|exact Hv|]. unfold lenV. rewrite addPre_length. exact (Hv _ _ EM). }
    { cbn in Hn. lia. } { intros; apply Ip; right; auto. } { intros; apply Iq; right; auto. }
    exists l'. split; [exact E|]. split; [exact O|]. split; [exact V|]. intros rs Hr. eapply same_trans; [apply setp_same; [exact Lp|]|].
    + intros Hi. apply (Hr p Hi). left; reflexivity.
    + apply S1. intros u Hu Hi. apply (Hr u Hu). right; exact Hi.
Qed.
Lemma addSys_ok s sl h y z rM rV rD : consistent s -> strOK y -> loc s sl h y rM rV rD -> strOK z ->
  (forall p, In p (aM z) -> In p (aM y ++ rM)) -> (forall p, In p (aV z) -> In p (aV y ++ rV)) -> length (A z) <= length (b z) -> length (R y) = length (R z) ->
  exists h' y', addSys h y z = Some (h', y') /\ loc s sl h' y' rM rV rD /\ fr rM rV rD h h' /\ A y' = A y /\ b y' = b y /\ d y' = d y /\ length (c y') = length (c y) /\ length (R y') = length (R y) /\ hD h' = hD h.
Proof.
  intros C (SA & SB & SS) (OM & OV & OD & VM & VV) (ZA & ZB & _) IM IV Hn HR. unfold addSys. rewrite SA, ZA.
  destruct (addMats_ok s sl (aM z) (aM y) (hM h) _ C OM VM) as (m & E1 & O1 & V1 & S1); [intros; apply in_or_app; auto|exact IM|]. rewrite E1.
  destruct (addVecs_ok s (length (A z)) (aV y) (aV z) (hV h) _ OV VV) as (v & E2 & O2 & V2 & S2).
  { rewrite ZB, map_length in Hn. exact Hn. } { intros; apply in_or_app; auto. } { exact IV. }
  rewrite <- SB, <- ZB in E2. rewrite E2. destruct (Nat.ltb_spec (length (R y)) (Nat.min (length (b y)) (length (R z)))) as [Hl|Hl]; [lia|].
  eexists. eexists. split; [reflexivity|]. split; [|split].
  - unfold loc, aM, aV, aD. cbn [A b d hM hV hD]. split; [exact O1|]. split; [exact O2|]. split; [exact OD|]. split; [exact V1|exact V2].
  - split; [apply S1; intros p Hp; eapply own_disj; eauto|]. split; [apply S2; intros p Hp; eapply own_disj; eauto|]. apply same_refl.
  - repeat split; cbn [A b d c R hD]; auto; rewrite addPre_length; reflexivity.
Qed.

(** ** initialize *)
Lemma initialize_ok nthr s sl lhs h y rM rV rD sh : strOK y -> loc s sl h y rM rV rD -> phaseOK nthr s (hD h) y (Ready sh) ->
  exists h' y', initialize nthr lhs h y = Some (h', y') /\ loc s sl h' y' rM rV rD /\ strOK y' /\ fr rM rV rD h h' /\ phaseOK nthr s (hD h') y' (Busy sh) /\ A y' = A y /\ b y' = b y.
Proof.
  intros (SA & SB & SS) (OM & OV & OD & VM & VV) [(Z1 & Z2 & Z3 & Z4) Nd]. unfold initialize. rewrite SA.
  assert (G : exists m, (if lhs =? 0 then Some (hM h) else mapAll (fun M => let M1 := resize (nrow M) (ncol M) false M in if lhs =? 2 then initFlags M1 else M1) (map Some (aM y)) (hM h)) = Some m /\
    own m (aM y ++ rM) /\ same rM (hM h) m /\ allv (ready s sl) m).
  { destruct (lhs =? 0); [exists (hM h); split; [reflexivity|]; split; [exact OM|]; split; [apply same_refl|exact VM]|].
    destruct (mapAll_own (fun M => let M1 := resize (nrow M) (ncol M) false M in if lhs =? 2 then initFlags M1 else M1) (aM y) (hM h) _ OM (own_nodup_l _ _ _ OM)) as (m & E & O & F); [intros; apply in_or_app; auto|].
    exists m. split; [exact E|]. split; [exact O|]. split; [eapply mapAll_same; [exact F|]; intros p Hp; eapply own_disj; eauto|]. eapply mapAll_allv; [exact F| |exact VM].
    intros M HM. cbv zeta. destruct (lhs =? 2); [apply initFlags_ready|]; apply resize_ready, HM. }
  destruct G as (m & E1 & O1 & S1 & V1). idtac. cbv zeta in E1 |- *. rewrite E1.
  destruct (mapAll_own (fun x => repeat 0%Qc (length x)) (aV y) (hV h) _ OV (own_nodup_l _ _ _ OV)) as (v & E2 & O2 & F2); [intros; apply in_or_app; auto|]. rewrite <- SB in E2. rewrite E2.
  assert (S2 : same rV (hV h) v) by (eapply mapAll_same; [exact F2|]; intros p Hp; eapply own_disj; eauto).
  assert (V2 : allv (lenV s) v) by (eapply mapAll_allv; [exact F2| |exact VV]; intros x Hx; unfold lenV in *; rewrite repeat_length; exact Hx).
  pose proof (noArr_aD y Nd) as HD. rewrite HD in OD. cbn [app] in OD. destruct (c y) as [|c1 cs] eqn:Ec.
  - eexists. eexists. split; [reflexivity|]. unfold loc, strOK, fr, phaseOK, sizes, bufOK, noArr, aM, aV, aD. cbn [A b c d R hM hV hD length repeat]. fold (aM y) (aV y) (aD y). rewrite HD.
    rewrite !repeat_length. repeat match goal with |- _ /\ _ => split end; auto; try apply same_refl.
  - destruct (1 <? nthr) eqn:En; eexists; eexists; (split; [reflexivity|]);
      unfold loc, strOK, fr, phaseOK, sizes, bufOK, aM, aV, aD; cbn [A b c d R hM hV hD]; fold (aM y) (aV y); rewrite !repeat_length.
    + split; [split; [exact O1|]; split; [exact O2|]; split; [apply (alloc_own (hD h)); exact OD|]; split; [exact V1|exact V2]|].
      split; [split; [exact SA|]; split; [exact SB|exact SS]|]. split; [split; [exact S1|]; split; [exact S2|apply alloc_same; exact OD]|].
      split; [|split; reflexivity]. split; [split; [exact Z1|]; split; [exact Z2|]; split; [cbn [length repeat] in *; rewrite ?repeat_length; exact Z3|exact Z4]|]. cbn [length repeat]. rewrite En. eexists. eexists. split; [reflexivity|]. split.
      { rewrite nth_error_app2, Nat.sub_diag by lia. reflexivity. } split; [apply repeat_length|]. apply Forall_forall. intros u Hu. apply repeat_spec in Hu. subst u. cbn [length]. rewrite !repeat_length. reflexivity.
    + split; [split; [exact O1|]; split; [exact O2|]; split; [exact OD|]; split; [exact V1|exact V2]|].
      split; [split; [exact SA|]; split; [exact SB|exact SS]|]. split; [split; [exact S1|]; split; [exact S2|apply same_refl]|].
      split; [|split; reflexivity]. split; [split; [exact Z1|]; split; [exact Z2|]; split; [cbn [length repeat] in *; rewrite ?repeat_length; exact Z3|exact Z4]|]. cbn [length repeat]. rewrite En. reflexivity.
Qed.
