(** C01-C04: property theorems about thread groups. *)
From Coq Require Import List Arith Bool Permutation ZArith QArith Qcanon Lia.
From Verif Require Import ThreadGroups_model ThreadGroups_spec ThreadGroups_proofs
  ThreadGroups_proofs2 ThreadGroups_proofs3 Race_model.
Import ListNotations.
Local Open Scope nat_scope.

(** ** C01: partition *)
Theorem C01_partition_2D : forall d maxthr n1 n2 minsize,
  d = ANY \/ d = U \/ d = V ->
  Permutation (allElms (calcGroups2 (fresh d) maxthr n1 n2 minsize)) (seq 0 (n1*n2)).
Proof.
  intros d maxthr n1 n2 m Hd. replace (n1*n2) with (n1*n2*1) by lia.
  exact (striped_partition _ _ _ _ _ _ (proj1 (calcGroups2_striped d maxthr n1 n2 m Hd))).
Qed.
Print Assumptions C01_partition_2D.

Theorem C01_partition_3D : forall d maxthr n1 n2 n3 minsize, d <> NONE ->
  Permutation (allElms (calcGroups3 (fresh d) maxthr n1 n2 n3 minsize)) (seq 0 (n1*n2*n3)).
Proof. exact (fun d maxthr n1 n2 n3 m Hd => striped_partition _ _ _ _ _ _ (calcGroups3_striped d maxthr n1 n2 n3 m Hd)). Qed.
Print Assumptions C01_partition_3D.

Theorem C01_thread_count_3D : forall d maxthr n1 n2 n3 minsize, d <> NONE ->
  let g := calcGroups3 (fresh d) maxthr n1 n2 n3 minsize in
  length (tg0 g) <= Nat.max 1 maxthr /\ length (tg1 g) <= Nat.max 1 maxthr.
Proof. exact threads_bound3. Qed.
Print Assumptions C01_thread_count_3D.

(** Witness that the groups are really multi-threaded in a concrete case. *)
Example C01_case : tg1 (calcGroups2 (fresh ANY) 2 8 3 1) = [[2;3;10;11;18;19];[6;7;14;15;22;23]]
  /\ length (tg0 (calcGroups3 (fresh W) 3 2 2 13 2)) = 3.
Proof. vm_compute. auto. Qed.

(** Limits of C01: the object must be fresh (groups are appended, not replaced),
    and for a surface the direction must not be W or NONE. *)
Theorem C01_recompute_refuted : exists g maxthr n1 n2 m,
  g = calcGroups2 (fresh ANY) maxthr n1 n2 m /\
  ~ NoDup (allElms (calcGroups2 g maxthr n1 n2 m)).
Proof.
  exists (calcGroups2 (fresh ANY) 2 8 3 1), 2, 8, 3, 1. split; [reflexivity|].
  intros H. rewrite (NoDup_count_occ Nat.eq_dec) in H. specialize (H 0). revert H. vm_compute. lia.
Qed.
Print Assumptions C01_recompute_refuted.
Theorem C01_surface_W_refuted : exists maxthr n1 n2 m,
  exists e, In e (allElms (calcGroups2 (fresh W) maxthr n1 n2 m)) /\ n1*n2 <= e.
Proof. exists 2, 3, 8, 1, 24. split; [vm_compute; tauto|vm_compute; lia]. Qed.
Print Assumptions C01_surface_W_refuted.

(** ** C02: separation and race freedom *)
Theorem C02_separation_3D : forall d maxthr n1 n2 n3 minsize, d <> NONE ->
  let g := calcGroups3 (fresh d) maxthr n1 n2 n3 minsize in
  forall grp, grp = tg0 g \/ grp = tg1 g ->
  forall t1 t2 e1 e2, t1 <> t2 -> In e1 (nth t1 grp []) -> In e2 (nth t2 grp []) ->
  sep (size_in (stripDir g) n1 n2 n3) minsize (coord (stripDir g) n1 n2 e1) (coord (stripDir g) n1 n2 e2).
Proof. exact (fun d maxthr n1 n2 n3 m Hd => striped_sep _ _ _ _ _ _ (calcGroups3_striped d maxthr n1 n2 n3 m Hd)). Qed.
Print Assumptions C02_separation_3D.

Theorem C02_separation_2D : forall d maxthr n1 n2 minsize, d = ANY \/ d = U \/ d = V ->
  let g := calcGroups2 (fresh d) maxthr n1 n2 minsize in
  forall grp, grp = tg0 g \/ grp = tg1 g ->
  forall t1 t2 e1 e2, t1 <> t2 -> In e1 (nth t1 grp []) -> In e2 (nth t2 grp []) ->
  sep (size_in (stripDir g) n1 n2 1) minsize (coord (stripDir g) n1 n2 e1) (coord (stripDir g) n1 n2 e2).
Proof. exact (fun d maxthr n1 n2 m Hd => striped_sep _ _ _ _ _ _ (proj1 (calcGroups2_striped d maxthr n1 n2 m Hd))). Qed.
Print Assumptions C02_separation_2D.

(** Every schedule of the threads, with unsynchronised read-modify-write
    updates, gives the sequential result (Lagrange elements, the width used by
    ASMs2DLag/ASMs3DLag is 1). *)
Theorem C02_parallel_assembly_lagrange_3D : forall d maxthr n1 n2 n3 minsize p1 p2 p3 upd m0 m2,
  d <> NONE -> 1 <= minsize -> 0 < p1 -> 0 < p2 -> 0 < p3 ->
  (forall e f h v, In ((f,h),v) (upd e) -> supp_lag n1 n2 p1 p2 p3 e f) ->
  par_assembly upd (calcGroups3 (fresh d) maxthr n1 n2 n3 minsize) m0 m2 ->
  forall c, m2 c = (m0 c + total cell_eq c (flat_map upd (seq 0 (n1*n2*n3))))%Qc.
Proof. exact par_lag3. Qed.
Print Assumptions C02_parallel_assembly_lagrange_3D.

Theorem C02_parallel_assembly_lagrange_2D : forall d maxthr n1 n2 minsize p1 p2 upd m0 m2,
  d = ANY \/ d = U \/ d = V -> 1 <= minsize -> 0 < p1 -> 0 < p2 ->
  (forall e f h v, In ((f,h),v) (upd e) -> supp_lag n1 n2 p1 p2 1 e f) ->
  par_assembly upd (calcGroups2 (fresh d) maxthr n1 n2 minsize) m0 m2 ->
  forall c, m2 c = (m0 c + total cell_eq c (flat_map upd (seq 0 (n1*n2))))%Qc.
Proof. exact par_lag2. Qed.
Print Assumptions C02_parallel_assembly_lagrange_2D.

(** Splines: the widths passed by ASMs2D/ASMs3D are the degrees. *)
Theorem C02_parallel_assembly_spline_3D : forall d maxthr el1 el2 el3 p1 p2 p3 upd m0 m2,
  d <> NONE ->
  (forall e f h v, In ((f,h),v) (upd e) -> supp_spline (length el1) (length el2) p1 p2 p3 e f) ->
  (forall e, e < length el1 * length el2 * length el3 -> ~ real_elm el1 el2 el3 e -> upd e = []) ->
  exists g, calcGroupsB3 (fresh d) maxthr el1 el2 el3 p1 p2 p3 = Some g /\
  (par_assembly upd g m0 m2 ->
   forall c, m2 c = (m0 c + total cell_eq c (flat_map upd (seq 0 (length el1 * length el2 * length el3))))%Qc).
Proof. exact par_spline3. Qed.
Print Assumptions C02_parallel_assembly_spline_3D.

Theorem C02_parallel_assembly_spline_2D : forall d maxthr el1 el2 p1 p2 upd m0 m2,
  d = ANY \/ d = U \/ d = V ->
  (forall e f h v, In ((f,h),v) (upd e) -> supp_spline (length el1) (length el2) p1 p2 0 e f) ->
  (forall e, e < length el1 * length el2 -> ~ real_elm el1 el2 [true] e -> upd e = []) ->
  exists g, calcGroupsB2 (fresh d) maxthr el1 el2 p1 p2 = Some g /\
  (par_assembly upd g m0 m2 ->
   forall c, m2 c = (m0 c + total cell_eq c (flat_map upd (seq 0 (length el1 * length el2))))%Qc).
Proof. exact par_spline2. Qed.
Print Assumptions C02_parallel_assembly_spline_2D.

(** Two elements in different threads share no function (the reason). *)
Example C02_case : (* 8x3 bilinear elements: elements 0 and 4 are in different threads of group 0 *)
  let g := calcGroups2 (fresh ANY) 2 8 3 1 in
  In 0 (nth 0 (tg0 g) []) /\ In 4 (nth 1 (tg0 g) []) /\
  supp_lag 8 3 1 1 1 0 10 /\ supp_lag 8 3 1 1 1 4 13.
Proof.
  assert (H : forall e f, forallb (fun d => (coord d 8 3 e * 1 <=? coord d (8*1+1) (3*1+1) f) &&
     (coord d (8*1+1) (3*1+1) f <=? (coord d 8 3 e + 1) * 1)) [U;V;W] = true -> supp_lag 8 3 1 1 1 e f).
  { intros e f Hb d Hd. rewrite forallb_forall in Hb. 
    assert (Hi : In d [U;V;W]) by (destruct Hd as [-> | [-> | ->]]; simpl; auto). apply Hb in Hi. apply andb_prop in Hi.
    destruct Hi as [A B]. apply Nat.leb_le in A. apply Nat.leb_le in B.
    unfold pdir. destruct Hd as [-> | [-> | ->]]; split; assumption. }
  cbv zeta. split; [vm_compute; auto|]. split; [vm_compute; auto|]. split; apply H; reflexivity.
Qed.
(** A complete run of two threads exists and a shared cell loses an update when
    the separation is violated: the model can express the race. *)
Example C02_race_possible : exists m2 ts,
  run cell_eq ((fun _ => 0%Qc), start [[((0,0),1%Qc)]; [((0,0),1%Qc)]]) (m2, ts) /\
  done ts /\ m2 (0,0) = 1%Qc.
Proof.
  eexists _, _. repeat split.
  - eapply run_step. eapply (p_step _ _ _ [] (mkT None [((0,0),1%Qc)])). constructor. simpl app.
    eapply run_step. eapply (p_step _ _ _ [_] (mkT None [((0,0),1%Qc)])). constructor. simpl app.
    eapply run_step. eapply (p_step _ _ _ []). constructor. simpl app.
    eapply run_step. eapply (p_step _ _ _ [_]). constructor. simpl app.
    apply run_refl.
  - repeat constructor.
  - vm_compute. apply Qc_is_canon. reflexivity.
Qed.

(** ** C03: knot-span masks *)
Theorem C03_masks_3D : forall d maxthr el1 el2 el3 p1 p2 p3, d <> NONE ->
  exists g, calcGroupsB3 (fresh d) maxthr el1 el2 el3 p1 p2 p3 = Some g /\
  NoDup (allElms g) /\ (forall e, In e (allElms g) -> e < length el1 * length el2 * length el3) /\
  (forall e, real_elm el1 el2 el3 e -> In e (allElms g)) /\
  (forall grp t1 t2 e1 e2, grp = tg0 g \/ grp = tg1 g -> t1 <> t2 ->
     In e1 (nth t1 grp []) -> In e2 (nth t2 grp []) ->
     let c1 := coord (stripDir g) (length el1) (length el2) e1 in
     let c2 := coord (stripDir g) (length el1) (length el2) e2 in
     c1 <> c2 /\ pdir p1 p2 p3 (stripDir g) <=
       nonzero_between (mask_in (stripDir g) el1 el2 el3) (Nat.min c1 c2) (Nat.max c1 c2)).
Proof. exact B3_cover. Qed.
Print Assumptions C03_masks_3D.

Theorem C03_masks_2D : forall d maxthr el1 el2 p1 p2, d = ANY \/ d = U \/ d = V ->
  exists g, calcGroupsB2 (fresh d) maxthr el1 el2 p1 p2 = Some g /\
  NoDup (allElms g) /\ (forall e, In e (allElms g) -> e < length el1 * length el2) /\
  (forall e, real_elm el1 el2 [true] e -> In e (allElms g)) /\
  (forall grp t1 t2 e1 e2, grp = tg0 g \/ grp = tg1 g -> t1 <> t2 ->
     In e1 (nth t1 grp []) -> In e2 (nth t2 grp []) ->
     let c1 := coord (stripDir g) (length el1) (length el2) e1 in
     let c2 := coord (stripDir g) (length el1) (length el2) e2 in
     c1 <> c2 /\ pdir p1 p2 0 (stripDir g) <=
       nonzero_between (mask_in (stripDir g) el1 el2 [true]) (Nat.min c1 c2) (Nat.max c1 c2)).
Proof. exact B2_cover. Qed.
Print Assumptions C03_masks_2D.

Example C03_case :
  calcGroupsB2 (fresh U) 2 [true;false;true;true;true;false] [true;true] 1 1 =
  Some (mkG U [[0;6];[3;9]] [[1;2;7;8];[4;10]]).
Proof. reflexivity. Qed.

(** ** C04: filter and map *)
Theorem C04_filter : forall g l,
  length (tg0 (filterGroups g l)) = length (tg0 g) /\
  length (tg1 (filterGroups g l)) = length (tg1 g) /\
  forall t,
    nth t (tg0 (filterGroups g l)) [] =
      filter (fun e => if in_dec Nat.eq_dec e l then true else false) (nth t (tg0 g) []) /\
    nth t (tg1 (filterGroups g l)) [] =
      filter (fun e => if in_dec Nat.eq_dec e l then true else false) (nth t (tg1 g) []).
Proof. exact filter_shape. Qed.
Print Assumptions C04_filter.

Theorem C04_filtered_parallel_assembly : forall d maxthr n1 n2 n3 minsize p1 p2 p3 upd l m0 m2,
  d <> NONE -> 1 <= minsize -> 0 < p1 -> 0 < p2 -> 0 < p3 ->
  (forall e f h v, In ((f,h),v) (upd e) -> supp_lag n1 n2 p1 p2 p3 e f) ->
  par_assembly upd (filterGroups (calcGroups3 (fresh d) maxthr n1 n2 n3 minsize) l) m0 m2 ->
  forall c, m2 c = (m0 c + total cell_eq c (flat_map upd (filter (memb l) (seq 0 (n1*n2*n3)))))%Qc.
Proof. exact par_lag3_filter. Qed.
Print Assumptions C04_filtered_parallel_assembly.

Theorem C04_map : forall g mp, (forall e, In e (allElms g) -> e < length mp) ->
  exists g', applyMap g mp = Some g' /\ stripDir g' = stripDir g /\
    tg0 g' = map (map (fun e => nth e mp 0)) (tg0 g) /\
    tg1 g' = map (map (fun e => nth e mp 0)) (tg1 g).
Proof. exact applyMap_some. Qed.
Print Assumptions C04_map.

(** out-of-range access happens exactly when some element is outside the map *)
Theorem C04_map_undefined : forall g mp,
  applyMap g mp = None <-> exists e, In e (allElms g) /\ length mp <= e.
Proof. exact applyMap_none. Qed.
Print Assumptions C04_map_undefined.

Example C04_case :
  filterGroups (mkG U [[0;6];[3;9]] [[1;2;7;8];[4;10]]) [9;2;6] = mkG ANY [[6];[9]] [[2];[]] /\
  applyMap (mkG U [[0;2];[3]] [[1]]) [10;11;12;13] = Some (mkG U [[10;12];[13]] [[11]]).
Proof. split; reflexivity. Qed.
