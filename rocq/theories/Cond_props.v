(** C63-C64: property theorems about the static condensation and the recovery of the internal unknowns. *)
From Coq Require Import List Arith ZArith QArith Qcanon Bool Lia Permutation Sorted Ascii.
From Verif Require Import Base SAM_model SAM_spec SAM_proofs Sparse_model Sparse_spec Sparse_proofs Sparse_proofs2 Sparse_proofs3 Sparse_proofs6 Sparse_proofs7
  Sparse_props Mat_model Mat_spec Mat_proofs Mat_proofs2 Mat_proofs4 Mat_proofs6 Cond_model Cond_spec Cond_proofs Cond_proofs2 Cond_proofs3 Cond_proofs4.
Import ListNotations.
Local Open Scope nat_scope.

(** a solver for systems with one equation, to show that the hypotheses can be met *)
Definition solve1 (M : spm) (v : list Qc) : option (list Qc) :=
  if (nrow M =? 1) && (ncol M =? 1) && negb (Qc_eq_bool (val (stored M) 1 1) 0) then Some [(nth 0 v 0 / val (stored M) 1 1)%Qc] else None.
Definition exT : tables := mkS [1;2;3] [1;1]%Z [1] [] [1] [] [] [] 0 0.
Definition exS : tables := mkS [1;2;3] [1;1]%Z [1] [] [1] [] [] [1;2]%Z 2 0.
Definition exM : spm := Sparse_props.build 2 2 SuperLU [((1,1), Q2Qc 2); ((1,2), Q2Qc 1); ((2,1), Q2Qc 4); ((2,2), Q2Qc 3)].

Lemma exS_init : initEqs exT = Some (true, exS).
Proof. vm_compute. reflexivity. Qed.
Lemma one_retained s i e : dofEqs s (Z.to_nat i) = [e] /\ (1 <= e <= Z.of_nat (neq s))%Z -> retained s [i] [e].
Proof.
  intros [H1 H2]. split.
  - split; [apply SSorted_cons; [apply SSorted_nil|apply Forall_nil]|]. apply Forall_cons; [exact H2|apply Forall_nil].
  - cbn [flat_map]. rewrite H1. apply Permutation_refl.
Qed.
Lemma solve1_good : goodSolver solve1.
Proof.
  intros M v x _ _ Lv. unfold solve1. destruct ((nrow M =? 1) && (ncol M =? 1)) eqn:En; [|discriminate]. apply andb_true_iff in En. destruct En as [E1 E2]. apply Nat.eqb_eq in E1, E2. cbn [andb].
  destruct (Qc_eq_bool (val (stored M) 1 1) 0) eqn:Ev; [discriminate|]. intros Hx. assert (Hv : val (stored M) 1 1 <> 0%Qc) by (intros E0; rewrite E0 in Ev; discriminate Ev). injection Hx as <-.
  split.
  - split; [rewrite E2; reflexivity|]. intros r Hr. rewrite E1 in Hr. assert (r = 1) by lia. subst r. rewrite E2. cbn. field. exact Hv.
  - intros z [Lz Hz]. rewrite E2 in *. destruct z as [|z0 [|? ?]]; try discriminate Lz. specialize (Hz 1 ltac:(lia)). cbn in Hz. f_equal. rewrite <- Hz. field. exact Hv.
Qed.

(** ** C63 *)

(** The condensed system: if the reduction returns true, a vector solves the whole system if
    and only if its retained part solves the reduced system and its other part is given by
    the recovery matrix.  Missing: exact arithmetic; the last equation must be retained. *)
Theorem C63_condense_partial : forall solve s0 s As imat ext l M R A0 r0 c0 f0, goodSolver solve -> initEqs s0 = Some (true, s) -> nodesOK s ext -> retained s ext l ->
  In (Z.of_nat (neq s)) l -> length l < neq s ->
  nth_error As imat = Some (Some M, Some R) -> reachable M -> editable M = true -> Sparse_model.elem M <> [] -> nrow M = neq s -> ncol M = neq s -> length R = neq s -> isMat r0 c0 f0 A0 ->
  exists r, condense solve s As ext imat A0 = Some r /\ forall red, r = Some red ->
    let n2 := length l in let n1 := neq s - n2 in
    (exists f, isMat n2 n2 f (rA red)) /\ length (rb red) = n2 /\ length (rec red) = 1 + n2 /\ (forall col, In col (rec red) -> length col = n1) /\
    forall x, length x = neq s -> (solves M R x <-> solvesRed red (extPart l x) /\ recovered (rec red) (extPart l x) (intPart l (neq s) x)).
Proof.
  intros solve s0 s As imat ext l M R A0 r0 c0 f0 GS H0 NO RT HL Hlen HA HM He Hel Hr Hc HR HA0. apply (condense_ok solve s As imat ext l M R A0 r0 c0 f0 GS (initEqs_consistent _ _ H0) NO RT HL); try assumption.
  - destruct l; [destruct HL|]. cbn [length] in *. lia.
  - apply reachable_wf, HM.
Qed.
Print Assumptions C63_condense_partial.
Example C63_case : goodSolver solve1 /\ initEqs exT = Some (true, exS) /\ nodesOK exS [2%Z] /\ retained exS [2%Z] [2%Z] /\ In (Z.of_nat (neq exS)) [2%Z] /\ reachable exM /\
  match condense solve1 exS [(Some exM, Some [Q2Qc 7; Q2Qc 17])] [2%Z] 0 mclear with
  | Some (Some red) => map this (Mat_model.elem (rA red)) = [1#1]%Q /\ map this (rb red) = [3#1]%Q /\ map (map this) (rec red) = [[7#2]; [-1#2]]%Q /\
      solves exM [Q2Qc 7; Q2Qc 17] [Q2Qc 2; Q2Qc 3]
  | _ => False end.
Proof.
  split; [exact solve1_good|]. split; [exact exS_init|]. split.
  { intros i [<-|[]]. vm_compute; intuition (discriminate || lia). }
  split; [apply one_retained; vm_compute; intuition (discriminate || lia)|]. split; [left; reflexivity|]. split; [apply build_reachable|].
  destruct (condense solve1 exS [(Some exM, Some [Q2Qc 7; Q2Qc 17])] [2%Z] 0 mclear) as [[red|]|] eqn:E0; vm_compute in E0; try discriminate E0. injection E0 as <-. cbn [rA rb rec Mat_model.elem].
  split; [reflexivity|]. split; [reflexivity|]. split; [reflexivity|]. split; [reflexivity|]. intros r Hr. cbn in Hr. assert (Hr' : r = 1 \/ r = 2) by lia. destruct Hr' as [-> | ->]; apply Qc_is_canon; vm_compute; reflexivity.
Qed.

(** Recovery: from a solution of the reduced system and the recovery matrix we get the
    (expanded) solution of the whole system, and each solution is recovered from its retained part. *)
Theorem C63_recover_partial : forall solve s0 s As imat ext l M R A0 r0 c0 f0 red Rmat, goodSolver solve -> initEqs s0 = Some (true, s) -> nodesOK s ext -> retained s ext l ->
  In (Z.of_nat (neq s)) l -> length l < neq s ->
  nth_error As imat = Some (Some M, Some R) -> reachable M -> editable M = true -> Sparse_model.elem M <> [] -> nrow M = neq s -> ncol M = neq s -> length R = neq s -> isMat r0 c0 f0 A0 ->
  condense solve s As ext imat A0 = Some (Some red) -> isMat (neq s - length l) (1 + length l) (fun k j => nth k (nth j (rec red) []) 0%Qc) Rmat ->
  (forall xe, solvesRed red xe -> exists x, solves M R x /\ extPart l x = xe /\ recoverInternals s Rmat ext xe = Some (expandVector s 1%Qc x)) /\
  (forall x, solves M R x -> solvesRed red (extPart l x) /\ recoverInternals s Rmat ext (extPart l x) = Some (expandVector s 1%Qc x)).
Proof.
  intros solve s0 s As imat ext l M R A0 r0 c0 f0 red Rmat GS H0 NO RT HL Hlen HA HM He Hel Hr Hc HR HA0 HC HRm.
  destruct (C63_condense_partial solve s0 s As imat ext l M R A0 r0 c0 f0 GS H0 NO RT HL Hlen HA HM He Hel Hr Hc HR HA0) as (r & Er & Hred). rewrite HC in Er. injection Er as <-.
  destruct (Hred red eq_refl) as (_ & Lb & Lrec & _ & Heq). pose proof (initEqs_consistent _ _ H0) as C. split.
  - intros xe Hxe. assert (LX : length xe = length l) by (destruct Hxe as [Hx _]; congruence).
    destruct (recover_ok s ext l Rmat (rec red) xe C NO RT HL Hlen Lrec HRm LX) as (x & Lx & Ex & Rx & E). exists x. split; [|split; [exact Ex|exact E]]. apply Heq; [exact Lx|]. rewrite Ex. split; assumption.
  - intros x Hx. assert (Lx : length x = neq s) by (destruct Hx as [Hx _]; congruence). destruct (proj1 (Heq x Lx) Hx) as [Q1 Q2]. split; [exact Q1|].
    destruct (recover_ok s ext l Rmat (rec red) (extPart l x) C NO RT HL Hlen Lrec HRm ltac:(unfold extPart; apply map_length)) as (z & Lz & Ez & Rz & E). rewrite E. f_equal. f_equal.
    apply (parts_inj (neq s) l z x (proj1 RT) Lz Lx Ez). apply (recovered_inj (rec red) (extPart l x)); [|exact Rz|exact Q2]. unfold intPart. rewrite !map_length. reflexivity.
Qed.
Print Assumptions C63_recover_partial.
Example C63_recover_case :
  match condense solve1 exS [(Some exM, Some [Q2Qc 7; Q2Qc 17])] [2%Z] 0 mclear with
  | Some (Some red) => exists Rmat, isMat 1 2 (fun k j => nth k (nth j (rec red) []) 0%Qc) Rmat /\ solvesRed red [Q2Qc 3] /\
      option_map (option_map (map this)) (recoverInternals exS Rmat [2%Z] [Q2Qc 3]) = Some (Some [2#1; 3#1]%Q)
  | _ => False end.
Proof.
  destruct (condense solve1 exS [(Some exM, Some [Q2Qc 7; Q2Qc 17])] [2%Z] 0 mclear) as [[red|]|] eqn:E0; vm_compute in E0; try discriminate E0. injection E0 as <-.
  exists (mkMat 1 2 1 1 [Q2Qc (7#2); Q2Qc (-1#2)]). split.
  { repeat split; [left; auto|]. intros i j Hi Hj. assert (i = 0) by lia. subst i. assert (Hj' : j = 0 \/ j = 1) by lia. destruct Hj' as [-> | ->]; apply Qc_is_canon; vm_compute; reflexivity. }
  split; [split; [reflexivity|]; intros i Hi; cbn in Hi; assert (i = 0) by lia; subst i; apply Qc_is_canon; vm_compute; reflexivity|]. vm_compute. reflexivity.
Qed.

(** Refused: a node that does not exist, or a retained DOF that is not free. *)
Theorem C63_refused : forall solve s As imat ext A0, imat < length As ->
  (exists i, In i ext /\ ~ (1 <= i <= Z.of_nat (nnod s))%Z) \/ (nodesOK s ext /\ length (meqn s) = ndof s /\ exists i e, In i ext /\ In e (dofEqs s (Z.to_nat i)) /\ (e <= 0)%Z) ->
  condense solve s As ext imat A0 = Some None.
Proof. exact condense_refused. Qed.
Print Assumptions C63_refused.
Example C63_refused_case : condense solve1 exS [(Some exM, Some [Q2Qc 7; Q2Qc 17])] [3%Z] 0 mclear = Some None.
Proof. apply C63_refused; [cbn; lia|]. left. exists 3%Z. split; [left; reflexivity|]. cbn. lia. Qed.

(** If the last equation is not among the retained ones, the list of retained equations is
    read past its end: the behaviour is undefined for each such system. *)
Theorem C63_last_equation_refuted : forall solve s0 s As imat ext l M R A0, initEqs s0 = Some (true, s) -> nodesOK s ext -> retained s ext l ->
  ~ In (Z.of_nat (neq s)) l -> 1 <= length l < neq s ->
  nth_error As imat = Some (Some M, Some R) -> reachable M -> editable M = true -> Sparse_model.elem M <> [] -> nrow M = neq s -> ncol M = neq s ->
  condense solve s As ext imat A0 = None.
Proof.
  intros solve s0 s As imat ext l M R A0 H0 NO RT HL Hlen HA HM He Hel Hr Hc. apply (condense_undef solve s As imat ext l M R A0 (initEqs_consistent _ _ H0)); try assumption. apply reachable_wf, HM.
Qed.
Print Assumptions C63_last_equation_refuted.
Example C63_last_equation_case : nodesOK exS [1%Z] /\ retained exS [1%Z] [1%Z] /\ ~ In (Z.of_nat (neq exS)) [1%Z].
Proof. split; [intros i [<-|[]]; vm_compute; intuition (discriminate || lia)|]. split; [apply one_retained; vm_compute; intuition (discriminate || lia)|]. intros [H|[]]. discriminate H. Qed.
(** The matrix number is not checked correctly: the number of matrices itself is accepted. *)
Theorem C63_matrix_number_refuted : forall solve s As ext A0, condense solve s As ext (length As) A0 = None /\ forall imat, length As < imat -> condense solve s As ext imat A0 = Some None.
Proof.
  intros solve s As ext A0. unfold condense. split.
  - rewrite Nat.ltb_irrefl. rewrite (proj2 (nth_error_None As (length As))) by lia. reflexivity.
  - intros imat H. apply Nat.ltb_lt in H. rewrite H. reflexivity.
Qed.
Print Assumptions C63_matrix_number_refuted.
(** A node given twice: the reduction returns true, but with an equation of another node
    that was not to be retained. *)
Definition exT3 : tables := mkS [1;2;3;4] [1;1;1]%Z [1] [] [1] [] [] [] 0 0.
Theorem C63_duplicate_refuted : exists s M red, initEqs exT3 = Some (true, s) /\ reachable M /\ nodesOK s [2%Z; 2%Z] /\ dofEqs s 2 = [2%Z] /\ dofEqs s 3 = [3%Z] /\
  (forall r c, get M r c = Some (if (r =? 1) && (c =? 1) then Q2Qc 1 else if (r =? 2) && (c =? 2) then Q2Qc 2 else if (r =? 3) && (c =? 3) then Q2Qc 4 else 0%Qc)) /\
  condense solve1 s [(Some M, Some [Q2Qc 1; Q2Qc 6; Q2Qc 8])] [2%Z; 2%Z] 0 mclear = Some (Some red) /\
  map this (Mat_model.elem (rA red)) = [2#1; 0#1; 0#1; 4#1]%Q /\ map this (rb red) = [6#1; 8#1]%Q.
Proof.
  eexists. exists (build 3 3 SuperLU [((1,1), Q2Qc 1); ((2,2), Q2Qc 2); ((3,3), Q2Qc 4)]). eexists. split; [vm_compute; reflexivity|]. split; [apply build_reachable|]. split; [intros i [<-|[<-|[]]]; vm_compute; intuition (discriminate || lia)|].
  split; [vm_compute; reflexivity|]. split; [vm_compute; reflexivity|]. split.
  { intros r c. rewrite get_val by (apply reachable_wf, build_reachable). f_equal. destruct r as [|[|[|[|r]]]], c as [|[|[|[|c]]]]; vm_compute; reflexivity. }
  split; [vm_compute; reflexivity|]. split; vm_compute; reflexivity.
Qed.
Print Assumptions C63_duplicate_refuted.

(** ** C64 *)

(** A recovery matrix that was written is read back as it was (whatever follows in the file). *)
Theorem C64_read_back : forall enc dec, (forall x, length (enc x) = 8) ->
  forall n1 cols junk f M0 r0 c0 f0, 1 <= n1 -> 1 <= length cols -> (forall c, In c cols -> length c = n1 /\ forall x, In x c -> dec (enc x) = x) -> isMat r0 c0 f0 M0 -> recFile enc true n1 cols = Some f ->
  exists M, readRec dec (Some (f ++ junk)) M0 = Some (true, M) /\ isMat n1 (length cols) (fun k j => nth k (nth j cols []) 0%Qc) M.
Proof. exact read_written. Qed.
Print Assumptions C64_read_back.
(** Crash points: a file that was cut off anywhere before its end is refused. *)
Theorem C64_truncated : forall enc dec, (forall x, length (enc x) = 8) ->
  forall n1 cols k f M0 r0 c0 f0, 1 <= n1 -> 1 <= length cols -> (forall c, In c cols -> length c = n1 /\ forall x, In x c -> dec (enc x) = x) -> isMat r0 c0 f0 M0 -> recFile enc true n1 cols = Some f -> k < length f ->
  exists M, readRec dec (Some (firstn k f)) M0 = Some (false, M).
Proof. exact read_cut. Qed.
Print Assumptions C64_truncated.

Definition exEnc (x : Qc) : list ascii := map (fun b : bool => if b then "001"%char else "000"%char) (Qc_eq_bool x (Q2Qc 5) :: repeat false 7).
Definition exDec (l : list ascii) : Qc := if Ascii.eqb (nth 0 l "000"%char) "001"%char then Q2Qc 5 else Q2Qc 0.
Example C64_case : (forall x, length (exEnc x) = 8) /\ (forall c, In c [[Q2Qc 5; Q2Qc 0]; [Q2Qc 0; Q2Qc 0]; [Q2Qc 5; Q2Qc 5]] -> length c = 2 /\ forall x, In x c -> exDec (exEnc x) = x) /\
  match recFile exEnc true 2 [[Q2Qc 5; Q2Qc 0]; [Q2Qc 0; Q2Qc 0]; [Q2Qc 5; Q2Qc 5]] with
  | Some f => length f = 75 /\ option_map (fun r => (fst r, d1 (snd r), d2 (snd r), map this (Mat_model.elem (snd r)))) (readRec exDec (Some f) mclear) = Some (true, 2, 3, [5#1; 0#1; 0#1; 0#1; 5#1; 5#1]%Q) /\
      option_map fst (readRec exDec (Some (firstn 26 f)) mclear) = Some false /\ option_map fst (readRec exDec (Some (firstn 74 f)) mclear) = Some false
  | None => False end.
Proof.
  split; [intros x; reflexivity|]. split.
  - intros c Hc. cbn in Hc. assert (Q : forall x, x = Q2Qc 5 \/ x = Q2Qc 0 -> exDec (exEnc x) = x) by (intros x [-> | ->]; apply Qc_is_canon; vm_compute; reflexivity).
    intuition; subst; try reflexivity; apply Q; repeat match goal with H : In _ _ |- _ => cbn in H; intuition end.
  - vm_compute. repeat split.
Qed.
(** With no internal unknowns, or no column, a cut file can be accepted: the header alone is a
    valid file of a matrix without entries (here: cut before the line break). *)
Theorem C64_empty_refuted : exists enc dec cols f, recFile enc true 0 cols = Some f /\ length cols = 2 /\ option_map fst (readRec dec (Some (firstn (length f - 1) f)) mclear) = Some true.
Proof. exists exEnc, exDec, [[]; []]. eexists. split; [reflexivity|]. split; [reflexivity|]. vm_compute. reflexivity. Qed.
Print Assumptions C64_empty_refuted.
(** If the file cannot be opened the reduction goes on without any message: there is no file
    afterwards and the reading fails. *)
Theorem C64_not_opened_refuted : forall enc dec n1 cols M0, recFile enc false n1 cols = None /\ readRec dec (recFile enc false n1 cols) M0 = Some (false, M0).
Proof. intros. split; reflexivity. Qed.
Print Assumptions C64_not_opened_refuted.
(** From the reduction over the file to the solution of the whole system. *)
Theorem C64_end_to_end_partial : forall enc dec, (forall x, length (enc x) = 8) -> forall solve s0 s As imat ext l M R A0 r0 c0 f0 red f M0 r1 c1 f1, goodSolver solve -> initEqs s0 = Some (true, s) -> nodesOK s ext -> retained s ext l ->
  In (Z.of_nat (neq s)) l -> length l < neq s ->
  nth_error As imat = Some (Some M, Some R) -> reachable M -> editable M = true -> Sparse_model.elem M <> [] -> nrow M = neq s -> ncol M = neq s -> length R = neq s -> isMat r0 c0 f0 A0 ->
  condense solve s As ext imat A0 = Some (Some red) -> (forall c x, In c (rec red) -> In x c -> dec (enc x) = x) ->
  recFile enc true (neq s - length l) (rec red) = Some f -> isMat r1 c1 f1 M0 ->
  exists Rmat, readRec dec (Some f) M0 = Some (true, Rmat) /\
    forall xe, solvesRed red xe -> exists x, solves M R x /\ extPart l x = xe /\ recoverInternals s Rmat ext xe = Some (expandVector s 1%Qc x).
Proof.
  intros enc dec E8 solve s0 s As imat ext l M R A0 r0 c0 f0 red f M0 r1 c1 f1 GS H0 NO RT HL Hlen HA HM He Hel Hr Hc HR HA0 HC HED HF HM0.
  destruct (C63_condense_partial solve s0 s As imat ext l M R A0 r0 c0 f0 GS H0 NO RT HL Hlen HA HM He Hel Hr Hc HR HA0) as (r & Er & Hred). pose proof HC as HC'. rewrite HC in Er. injection Er as <-.
  destruct (Hred red eq_refl) as (_ & _ & Lrec & Lcol & _).
  destruct (read_written enc dec E8 (neq s - length l) (rec red) [] f M0 r1 c1 f1) as (Rmat & E & HRm); [lia|lia| |exact HM0|exact HF|].
  { intros c Hc'. split; [apply Lcol, Hc'|]. intros x Hx. apply (HED c x Hc' Hx). }
  rewrite app_nil_r in E. rewrite Lrec in HRm. exists Rmat. split; [exact E|].
  apply (C63_recover_partial solve s0 s As imat ext l M R A0 r0 c0 f0 red Rmat GS H0 NO RT HL Hlen HA HM He Hel Hr Hc HR HA0 HC' HRm).
Qed.
Print Assumptions C64_end_to_end_partial.
