(** Assembly of one element into a whole system, and finalize. *)
From Coq Require Import List Arith ZArith QArith Qcanon Bool Lia Permutation.
From Verif Require Import Base SAM_model SAM_spec SAM_proofs SAM_proofs2 SAM_proofs3 SAM_proofs4 Sparse_model Sparse_spec Sparse_proofs Sparse_proofs2 Sparse_proofs3 Sparse_proofs4 Sparse_proofs5 Sparse_proofs6 Sparse_proofs8 AlgEq_model AlgEq_spec AlgEq_proofs AlgEq_proofs2 AlgEq_proofs3.
Import ListNotations.
Local Open Scope nat_scope.

Definition vval (v : list (option (list Qc))) (q p : nat) : Qc := match nth_error v q with Some (Some x) => nth p x 0%Qc | _ => 0%Qc end.
Lemma vval_setp v q x q' p : live v q -> vval (setp v (Some q) x) q' p = if q' =? q then nth p x 0%Qc else vval v q' p.
Proof. intros H. unfold vval. rewrite setp_get by exact H. destruct (q' =? q); reflexivity. Qed.
Lemma vval_get v q x p : nth_error v q = Some (Some x) -> vval v q p = nth p x 0%Qc.
Proof. intros H. unfold vval. rewrite H. reflexivity. Qed.

Lemma asmVecs_ok s iel : forall ps es ok v ow, consistent s -> own v ow -> allv (lenV s) v -> (forall p, In p ps -> In p ow) ->
  exists ok' v', asmVecs s iel (map Some ps) es ok v = Some (ok', v') /\ own v' ow /\ allv (lenV s) v' /\ (forall rs, (forall p, In p rs -> ~ In p ps) -> same rs v v') /\
    (forall meen, getElmEqns s iel = Some meen -> (forall x, In x es -> x = [] \/ length x = length meen) -> ok = true ->
       ok' = true /\ forall q p, vval v' q p = (vval v q p + qs (fun t => if fst t =? q then vecTerm s meen (snd t) (S p) else 0) (combine ps es))%Qc).
Proof.
  assert (Stop : forall ps es ok v ow, own v ow -> allv (lenV s) v -> combine ps es = [] \/ ok = false ->
    exists ok' v', Some (ok, v) = Some (ok', v') /\ own v' ow /\ allv (lenV s) v' /\ (forall rs, (forall p, In p rs -> ~ In p ps) -> same rs v v') /\
    (forall meen, getElmEqns s iel = Some meen -> (forall x, In x es -> x = [] \/ length x = length meen) -> ok = true ->
       ok' = true /\ forall q p, vval v' q p = (vval v q p + qs (fun t => if fst t =? q then vecTerm s meen (snd t) (S p) else 0) (combine ps es))%Qc)).
  { intros ps es ok v ow Ho Hv Hc. exists ok, v. split; [reflexivity|]. split; [exact Ho|]. split; [exact Hv|]. split; [intros; apply same_refl|].
    intros meen _ _ Hk. split; [exact Hk|]. destruct Hc as [-> | Hc]; [|congruence]. intros q p. rewrite qs_nil. ring. }
  induction ps as [|p0 ps IH]; intros es ok v ow C Ho Hv Ip; cbn [map asmVecs].
  - apply Stop; auto.
  - destruct es as [|e es]; [apply Stop; auto|]. destruct ok; [|apply Stop; auto].
    pose proof (own_live _ _ _ Ho (Ip p0 (or_introl eq_refl))) as Lp. destruct (getp_live _ _ Lp) as (x & -> & Ex).
    destruct (asmVec_ok s e iel x None C (Hv _ _ Ex)) as (ok1 & x1 & r1 & -> & L1 & _ & V1); [congruence|].
    destruct (IH es ok1 (setp v (Some p0) x1) ow C (setp_own _ _ _ _ Ho Lp) (setp_allv _ _ _ _ Lp Hv L1)) as (ok' & v' & E & O & V & S1 & W); [intros; apply Ip; right; auto|].
    exists ok', v'. split; [exact E|]. split; [exact O|]. split; [exact V|]. split.
    { intros rs Hr. eapply same_trans; [apply setp_same; [exact Lp|]|].
      + intros Hi. apply (Hr p0 Hi). left; reflexivity.
      + apply S1. intros u Hu Hi. apply (Hr u Hu). right; exact Hi. }
    intros meen G Hf _. destruct (elmEqns_nodes s iel meen G) as (nodes & En).
    destruct (V1 meen nodes G En (Hf e (or_introl eq_refl))) as (-> & X1 & _). destruct (W meen G) as (-> & X2); [intros; apply Hf; right; auto|reflexivity|].
    split; [reflexivity|]. intros q p. rewrite X2, vval_setp by exact Lp. cbn [combine]. rewrite qs_cons. cbn [fst snd].
    rewrite (Nat.eqb_sym p0 q). destruct (Nat.eqb_spec q p0) as [->|Hn]; [rewrite X1, (vval_get v p0 x p Ex); ring|ring].
Qed.

Definition assocV (a : option nat * option nat) (q : nat) : bool := match snd a with Some k => k =? q | None => false end.
Lemma asmMats_ok s sl iel ro : forall ps es ok h owM owV, consistent s -> own (hM h) owM -> own (hV h) owV -> allv (ready s sl) (hM h) -> allv (lenV s) (hV h) ->
  (forall a, In a ps -> exists k, fst a = Some k /\ In k owM) -> (forall a k, In a ps -> snd a = Some k -> In k owV) -> NoDup (map fst ps) ->
  exists ok' h', asmMats s iel ro ps es ok h = Some (ok', h') /\ own (hM h') owM /\ own (hV h') owV /\ allv (ready s sl) (hM h') /\ allv (lenV s) (hV h') /\ hD h' = hD h /\
    (forall rs, (forall p, In p rs -> ~ In (Some p) (map fst ps)) -> same rs (hM h) (hM h')) /\
    (forall rs, (forall p, In p rs -> ~ In (Some p) (map snd ps)) -> same rs (hV h) (hV h')) /\
    (forall meen, getElmEqns s iel = Some meen -> (forall E, In E es -> fst E = 0 \/ fst E = length meen) -> ok = true ->
       ok' = true /\ (forall q p, vval (hV h') q p = (vval (hV h) q p - qs (fun t => if assocV (fst t) q then prescTerm s meen (snd t) (S p) else 0) (combine ps es))%Qc) /\
       forall k q z M, nth_error ps k = Some (Some q, z) -> nth_error (hM h) q = Some (Some M) ->
         exists M', assembleElms s (em1 ro meen (nth_error es k)) M = Some M' /\ nth_error (hM h') q = Some (Some M')).
Proof.
  assert (Stop : forall ps es ok h owM owV, own (hM h) owM -> own (hV h) owV -> allv (ready s sl) (hM h) -> allv (lenV s) (hV h) -> combine ps es = [] \/ ok = false ->
    exists ok' h', Some (ok, h) = Some (ok', h') /\ own (hM h') owM /\ own (hV h') owV /\ allv (ready s sl) (hM h') /\ allv (lenV s) (hV h') /\ hD h' = hD h /\
    (forall rs, (forall p, In p rs -> ~ In (Some p) (map fst ps)) -> same rs (hM h) (hM h')) /\
    (forall rs, (forall p, In p rs -> ~ In (Some p) (map snd ps)) -> same rs (hV h) (hV h')) /\
    (forall meen, getElmEqns s iel = Some meen -> (forall E, In E es -> fst E = 0 \/ fst E = length meen) -> ok = true ->
       ok' = true /\ (forall q p, vval (hV h') q p = (vval (hV h) q p - qs (fun t => if assocV (fst t) q then prescTerm s meen (snd t) (S p) else 0) (combine ps es))%Qc) /\
       forall k q z M, nth_error ps k = Some (Some q, z) -> nth_error (hM h) q = Some (Some M) ->
         exists M', assembleElms s (em1 ro meen (nth_error es k)) M = Some M' /\ nth_error (hM h') q = Some (Some M'))).
  { intros ps es ok h owM owV OM OV VM VV Hc. exists ok, h. split; [reflexivity|]. do 5 (split; [assumption || reflexivity|]). split; [intros; apply same_refl|]. split; [intros; apply same_refl|].
    intros meen _ _ Hk. split; [exact Hk|]. destruct Hc as [Hc|Hc]; [|congruence]. split; [intros q p; rewrite Hc, qs_nil; ring|].
    intros k q z M Hp HM. exists M. split; [|exact HM]. assert (nth_error es k = None) as ->; [|reflexivity].
    destruct (nth_error es k) as [E|] eqn:Ek; [|reflexivity]. exfalso. destruct ps as [|a ps], es as [|e es]; try discriminate Hc; destruct k; discriminate. }
  induction ps as [|[pA pb] ps IH]; intros es ok h owM owV C OM OV VM VV IA IV Nd.
  - cbn [asmMats]. apply Stop; auto.
  - destruct es as [|E es]; [replace (asmMats s iel ro ((pA, pb) :: ps) [] ok h) with (Some (ok, h)) by (cbn; destruct pb; reflexivity); apply Stop; auto|].
    destruct ok; [|replace (asmMats s iel ro ((pA, pb) :: ps) (E :: es) false h) with (Some (false, h)) by (cbn; destruct pb; reflexivity); apply Stop; auto].
    destruct (IA _ (or_introl eq_refl)) as (ka & Ea & Ha). cbn [fst] in Ea. subst pA. pose proof (own_live _ _ _ OM Ha) as La. destruct (getp_live _ _ La) as (M & GM & EM).
    cbn [map fst] in Nd. inversion Nd as [|? ? Na Nd']; subst.
    (* one step to a heap h1, with flag ok1 *)
    assert (Step : exists ok1 h1, asmMats s iel ro ((Some ka, pb) :: ps) (E :: es) true h = asmMats s iel ro ps es ok1 h1 /\
      own (hM h1) owM /\ own (hV h1) owV /\ allv (ready s sl) (hM h1) /\ allv (lenV s) (hV h1) /\ hD h1 = hD h /\
      (forall q, q <> ka -> nth_error (hM h1) q = nth_error (hM h) q) /\ (forall q, pb <> Some q -> nth_error (hV h1) q = nth_error (hV h) q) /\
      (forall meen, getElmEqns s iel = Some meen -> fst E = 0 \/ fst E = length meen -> ok1 = true /\
        (forall q p, vval (hV h1) q p = (vval (hV h) q p - if assocV (Some ka, pb) q then prescTerm s meen E (S p) else 0)%Qc) /\
        exists M', assembleElms s (em1 ro meen (Some E)) M = Some M' /\ nth_error (hM h1) ka = Some (Some M'))).
    { cbn [asmMats]. destruct pb as [kb|].
      - pose proof (own_live _ _ _ OV (IV _ kb (or_introl eq_refl) eq_refl)) as Lb. destruct (getp_live _ _ Lb) as (x & -> & Ex). destruct ro.
        + destruct (asmKVec_ok s E iel x None C (VV _ _ Ex)) as (ok1 & x1 & r1 & -> & L1 & _ & V1). eexists. eexists. split; [reflexivity|]. cbn [hM hV hD].
          split; [exact OM|]. split; [apply setp_own; auto|]. split; [exact VM|]. split; [apply setp_allv; auto|]. split; [reflexivity|]. split; [auto|].
          split; [intros q Hq; rewrite setp_get by exact Lb; destruct (Nat.eqb_spec q kb); [subst; congruence|reflexivity]|].
          intros meen G Hf. destruct (elmEqns_nodes s iel meen G) as (nodes & En). destruct (V1 meen nodes G En Hf) as (-> & X1 & _). split; [reflexivity|]. split.
          * intros q p. rewrite vval_setp by exact Lb. unfold assocV. cbn [snd]. rewrite (Nat.eqb_sym kb q). destruct (Nat.eqb_spec q kb) as [->|Hn]; [rewrite X1, (vval_get _ _ _ _ Ex); reflexivity|ring].
          * exists M. split; [reflexivity|exact EM].
        + rewrite GM. destruct (asmMat_ok s sl E iel M (Some x) None C (VM _ _ EM)) as (ok1 & M1 & x1 & r1 & EE & RM1 & L1 & _ & V1); [intros v [= <-]; exact (VV _ _ Ex)|].
          rewrite EE. destruct x1 as [x1|]; [|destruct L1]. eexists. eexists. split; [reflexivity|]. cbn [hM hV hD].
          split; [apply setp_own; auto|]. split; [apply setp_own; auto|]. split; [apply setp_allv; auto|]. split; [apply setp_allv; auto|]. split; [reflexivity|].
          split; [intros q Hq; rewrite setp_get by exact La; destruct (Nat.eqb_spec q ka); [contradiction|reflexivity]|].
          split; [intros q Hq; rewrite setp_get by exact Lb; destruct (Nat.eqb_spec q kb); [subst; congruence|reflexivity]|].
          intros meen G Hf. destruct (elmEqns_nodes s iel meen G) as (nodes & En). destruct (V1 meen nodes G En Hf) as (-> & X0 & X1 & _). split; [reflexivity|]. split.
          * intros q p. rewrite vval_setp by exact Lb. unfold assocV. cbn [snd]. rewrite (Nat.eqb_sym kb q). destruct (Nat.eqb_spec q kb) as [->|Hn]; [cbn in X1; rewrite X1, (vval_get _ _ _ _ Ex); reflexivity|ring].
          * exists M1. split; [exact X0|]. rewrite setp_get, Nat.eqb_refl by exact La. reflexivity.
      - destruct ro.
        + eexists. eexists. split; [reflexivity|]. do 5 (split; [assumption || reflexivity|]). split; [auto|]. split; [auto|]. intros meen G Hf. split; [reflexivity|]. split; [intros; cbn; ring|].
          exists M. split; [reflexivity|exact EM].
        + rewrite GM. destruct (asmMat_ok s sl E iel M None None C (VM _ _ EM)) as (ok1 & M1 & x1 & r1 & EE & RM1 & L1 & _ & V1); [discriminate|]. rewrite EE.
          eexists. eexists. split; [reflexivity|]. cbn [hM hV hD].
          split; [apply setp_own; auto|]. split; [exact OV|]. split; [apply setp_allv; auto|]. split; [exact VV|]. split; [reflexivity|].
          split; [intros q Hq; rewrite setp_get by exact La; destruct (Nat.eqb_spec q ka); [contradiction|reflexivity]|]. split; [auto|].
          intros meen G Hf. destruct (elmEqns_nodes s iel meen G) as (nodes & En). destruct (V1 meen nodes G En Hf) as (-> & X0 & _). split; [reflexivity|]. split; [intros; cbn; ring|].
          exists M1. split; [exact X0|]. rewrite setp_get, Nat.eqb_refl by exact La. reflexivity. }
    destruct Step as (ok1 & h1 & -> & OM1 & OV1 & VM1 & VV1 & HD1 & F1 & F2 & W1).
    destruct (IH es ok1 h1 owM owV C OM1 OV1 VM1 VV1) as (ok' & h' & E' & OM' & OV' & VM' & VV' & HD' & S1 & S2 & W); [intros; apply IA; right; auto|intros a k Hi; apply IV; right; auto|exact Nd'|].
    exists ok', h'. split; [exact E'|]. do 4 (split; [assumption|]). split; [congruence|]. cbn [map fst snd].
    split; [|split].
    + intros rs Hr p Hp. rewrite (S1 rs); auto; [apply F1; intros ->; apply (Hr ka Hp); left; reflexivity|]. intros u Hu Hi. apply (Hr u Hu). right; exact Hi.
    + intros rs Hr p Hp. rewrite (S2 rs); auto; [apply F2; intros ->; apply (Hr p Hp); left; reflexivity|]. intros u Hu Hi. apply (Hr u Hu). right; exact Hi.
    + intros meen G Hf _. destruct (W1 meen G (Hf E (or_introl eq_refl))) as (-> & X1 & M' & X2 & X3). destruct (W meen G) as (-> & Y1 & Y2); [intros; apply Hf; right; auto|reflexivity|].
      split; [reflexivity|]. split.
      * intros q p. rewrite Y1, X1. cbn [combine]. rewrite qs_cons. cbn [fst snd]. ring.
      * intros [|k] q z M0 Hk HM; cbn [nth_error] in *.
        -- injection Hk as <- <-. rewrite EM in HM. injection HM as <-. exists M'. split; [exact X2|]. rewrite (S1 [ka]); [exact X3| |left; reflexivity]. intros p [<-|[]]. exact Na.
        -- assert (q <> ka). { intros ->. apply Na. apply nth_error_In in Hk. apply in_map_iff. exists (Some ka, z). auto. }
           apply (Y2 k q z M0 Hk). rewrite F1 by assumption. exact HM.
Qed.
