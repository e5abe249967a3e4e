(** Properties C65-C66: coloring of unstructured patches. *)
From Coq Require Import List Arith ZArith QArith Qcanon Bool Permutation Lia.
From Verif Require Import Base Race_model Color_model Color_spec Color_proofs Color_proofs2 Color_proofs3.
Import ListNotations.
Local Open Scope nat_scope.

(** ** C65: LR B-spline patches *)
(** one basis: the coloring ends, has every element once, and no two elements of a color
    have a function in common *)
Theorem colorsLR_one_basis : forall B, basisOK B ->
  exists cols, colorsLR B [] = Some cols /\ Permutation (concat cols) (seq 0 (length (elems B))) /\ raceFree (hasFunc B) cols.
Proof.
  intros B HB. destruct (colorsLR_ok B [] HB (Forall_nil _)) as (cols & E0 & P & H). exists cols. split; [exact E0|]. split; [exact P|]. intros col Hcol. destruct (H col Hcol) as [ND Hd]. split; [exact ND|]. intros e f d He Hf Hne A C. apply (Hd e f (0, d) He Hf Hne A C).
Qed.
Print Assumptions colorsLR_one_basis.

(** several bases: in addition, no two elements have a function of another basis in common.
    Missing: [otherOK] asks that the points of each element of another basis find all the
    elements within it, which does not hold for all meshes (see below) *)
Theorem colorsLR_race_free_partial : forall B os, basisOK B -> Forall (otherOK (length (elems B))) os ->
  exists cols, colorsLR B os = Some cols /\ Permutation (concat cols) (seq 0 (length (elems B))) /\ raceFree (hasDof B os) cols.
Proof. exact colorsLR_ok. Qed.
Print Assumptions colorsLR_race_free_partial.

(** so any parallel assembly gives the serial sum *)
Theorem colorsLR_parallel_partial : forall ceq upde B os cols m0 m2, basisOK B -> Forall (otherOK (length (elems B))) os -> colorsLR B os = Some cols ->
  (forall e r c v, In ((r, c), v) (upde e) -> hasDof B os e r /\ hasDof B os e c) -> par_colors ceq upde cols m0 m2 ->
  forall c, m2 c = (m0 c + total ceq c (flat_map upde (seq 0 (length (elems B)))))%Qc.
Proof. exact par_LR. Qed.
Print Assumptions colorsLR_parallel_partial.

(** there is a parallel execution of every coloring *)
Theorem par_colors_exists : forall (cell : Type) ceq (upde : nat -> list (cell * Qc)) cols m0, exists m2, par_colors ceq upde cols m0 m2.
Proof. exact @par_exists. Qed.
Print Assumptions par_colors_exists.

(** the check of a coloring says true if and only if no function occurs twice in a group *)
Theorem checkThreadGroups_exact : forall groups bs, (forall g e B w, In g groups -> In e g -> In (B, w) bs -> e < length w /\ nth e w 0 < length (funcs B)) ->
  exists b, checkThreadGroups groups bs = Some b /\
    (b = true <-> forall g B w, In g groups -> In (B, w) bs -> NoDup (concat (map (fun e => nth (nth e w 0) (funcs B) []) g))).
Proof. exact check_ok. Qed.
Print Assumptions checkThreadGroups_exact.

(** three linear elements in a row, numbered in another order *)
Definition bEx : basis := mkB [2; 0; 1] [[0; 1]; [1; 2]; [2; 3]] [[0]; [0; 1]; [1; 2]; [2]].
(** four elements with a constant function each, in one element of the other basis *)
Definition bEx4 : basis := mkB [0; 1; 2; 3] [[0]; [1]; [2]; [3]] [[0]; [1]; [2]; [3]].
Definition oEx : other := mkO (mkB [0] [[0; 1; 2; 3]] [[0]; [0]; [0]; [0]]) [0; 0; 0; 0] [[3; 0; 2; 1]].
Ltac small H := cbn in H; repeat match goal with H : ?n < S _ |- _ => destruct n as [|n]; [|apply Nat.succ_lt_mono in H] end; try (exfalso; lia).
Ltac fin := cbn in *; intuition (subst; cbn; try lia; try discriminate).
Example bEx_ok : basisOK bEx.
Proof.
  split; [apply NoDup_Permutation; [repeat (constructor; [cbn; lia|]); constructor|apply seq_NoDup|intros x; cbn; lia]|]. split; [reflexivity|]. split; [|split].
  - intros e b He Hb. small He; fin.
  - intros e b He Hb. small He; fin.
  - intros e He. small He; discriminate.
Qed.
Example bEx4_ok : basisOK bEx4 /\ Forall (otherOK (length (elems bEx4))) [oEx].
Proof.
  split.
  - split; [reflexivity|]. split; [reflexivity|]. split; [|split].
    + intros e b He Hb. small He; fin.
    + intros e b He Hb. small He; fin.
    + intros e He. small He; discriminate.
  - constructor; [|constructor]. split; [|split; [reflexivity|split; [reflexivity|split; [|split]]]].
    + split; [reflexivity|]. split; [reflexivity|]. split; [|split].
      * intros e b He Hb. small He; fin.
      * intros e b He Hb. small He; fin.
      * intros e He. small He; discriminate.
    + intros e He. small He; cbn; lia.
    + intros l e Hl He. cbn in *. intuition (subst; cbn in *; lia).
    + intros e He. small He; cbn; lia.
Qed.
Example bEx_colors : colorsLR bEx [] = Some [[2; 0]; [1]].
Proof. vm_compute. reflexivity. Qed.
Example bEx4_colors : colorsLR bEx4 [] = Some [[0; 1; 2; 3]] /\ colorsLR bEx4 [oEx] = Some [[0]; [1]; [2]; [3]].
Proof. vm_compute. auto. Qed.
(** an assembly with updates at all pairs of functions *)
Example bEx_upd : forall e r c v, In ((r, c), v) (flat_map (fun b => map (fun b' => (((0, b), (0, b')), 1%Qc)) (nth e (funcs bEx) [])) (nth e (funcs bEx) [])) -> hasDof bEx [] e r /\ hasDof bEx [] e c.
Proof.
  intros e r c v H. apply in_flat_map in H. destruct H as (b & Hb & H). apply in_map_iff in H. destruct H as (b' & Ec & Hb'). injection Ec as <- <- _. split; assumption.
Qed.
Example check_ex : checkThreadGroups [[2; 0]; [1]] [(bEx, [0; 1; 2])] = Some true /\ checkThreadGroups [[2; 1]; [0]] [(bEx, [0; 1; 2])] = Some false.
Proof. vm_compute. auto. Qed.

(** if an element of another basis covers three elements in a row, its quarter points find
    the outer two only, and two elements with a common function get the same color *)
Theorem colorsLR_quarter_points_refuted : exists B o cols col e f b, basisOK B /\ basisOK (ob o) /\ (forall x, x < length (elems B) -> nth x (within o) 0 < length (funcs (ob o))) /\
  colorsLR B [o] = Some cols /\ In col cols /\ In e col /\ In f col /\ e <> f /\ hasOther o e b /\ hasOther o f b.
Proof.
  exists (mkB [0; 1; 2] [[0]; [1]; [2]] [[0]; [1]; [2]]), (mkO (mkB [0] [[0]] [[0]]) [0; 0; 0] [[2; 0]]), [[0; 1]; [2]], [0; 1], 0, 1, 0. split; [|split; [|split]].
  - split; [reflexivity|]. split; [reflexivity|]. split; [|split]; [intros e b He Hb; small He; fin|intros e b He Hb; small He; fin|intros e He; small He; discriminate].
  - split; [reflexivity|]. split; [reflexivity|]. split; [|split]; [intros e b He Hb; small He; fin|intros e b He Hb; small He; fin|intros e He; small He; discriminate].
  - intros x Hx. small Hx; cbn; lia.
  - cbn. intuition lia.
Qed.
Print Assumptions colorsLR_quarter_points_refuted.

(** ** C66: unstructured Lagrange patches *)
(** the coloring ends and has every element once *)
Theorem colorsLag_partition : forall sep mlgn mnpc mpcs, nodesOK mlgn mnpc ->
  exists cols, colorsLag sep mlgn mnpc mpcs = Some cols /\ Permutation (concat cols) (seq 0 (length mnpc)).
Proof. exact colorsLag_part. Qed.
Print Assumptions colorsLag_partition.

(** no two elements of a color contribute to the same degree of freedom, neither directly
    nor over the constraints *)
Theorem colorsLag_race_free_partial : forall sep mlgn mnpc mpcs, nodesOK mlgn mnpc -> NoDup mlgn -> resolved mpcs -> mastersInside mlgn mpcs -> (sep = true -> singlesApart mnpc) ->
  exists cols, colorsLag sep mlgn mnpc mpcs = Some cols /\ Permutation (concat cols) (seq 0 (length mnpc)) /\ raceFree (reach mlgn mnpc mpcs) cols.
Proof. exact colorsLag_ok. Qed.
Print Assumptions colorsLag_race_free_partial.

(** so any parallel assembly gives the serial sum *)
Theorem colorsLag_parallel_partial : forall sep mlgn mnpc mpcs, nodesOK mlgn mnpc -> NoDup mlgn -> resolved mpcs -> mastersInside mlgn mpcs -> (sep = true -> singlesApart mnpc) ->
  forall ceq upde cols m0 m2, colorsLag sep mlgn mnpc mpcs = Some cols ->
  (forall e r c v, In ((r, c), v) (upde e) -> reach mlgn mnpc mpcs e r /\ reach mlgn mnpc mpcs e c) -> par_colors ceq upde cols m0 m2 ->
  forall c, m2 c = (m0 c + total ceq c (flat_map upde (seq 0 (length mnpc))))%Qc.
Proof. exact par_Lag. Qed.
Print Assumptions colorsLag_parallel_partial.

(** four elements on six nodes; nodes 15 and 16 follow node 11, and element 3 has one node *)
Definition lEx_nodes : list Z := [11; 12; 13; 14; 15; 16]%Z.
Definition lEx_elms : list (list nat) := [[0; 1]; [2; 4]; [3; 5]; [2]; [1; 2]].
Definition lEx_mpcs : list mpc := [mkMpc (15%Z, 1) [(11%Z, 1); (12%Z, 2)]; mkMpc (16%Z, 1) [(11%Z, 1)]; mkMpc (14%Z, 2) []].
Example lEx_ok : nodesOK lEx_nodes lEx_elms /\ NoDup lEx_nodes /\ resolved lEx_mpcs /\ mastersInside lEx_nodes lEx_mpcs /\ singlesApart lEx_elms.
Proof.
  split; [intros e a He Ha; small He; cbn in *; lia|]. split; [repeat (constructor; [cbn; lia|]); constructor|]. split; [|split].
  - intros c c' Hc Hc' H. cbn in Hc, Hc'. intuition (subst; cbn in *; intuition congruence).
  - intros c m Hc _ Hm. cbn in Hc. intuition (subst; cbn in Hm; intuition (subst; cbn; lia)).
  - intros e f a He Hf A B. small He; small Hf; cbn in A, B; congruence.
Qed.
Example lEx_colors : colorsLag true lEx_nodes lEx_elms lEx_mpcs = Some [[3]; [0]; [1]; [2; 4]] /\ colorsLag false lEx_nodes lEx_elms lEx_mpcs = Some [[0; 3]; [1]; [2; 4]].
Proof. vm_compute. auto. Qed.
Example lEx_reach : reach lEx_nodes lEx_elms lEx_mpcs 1 (12%Z, 2).
Proof. apply (r_master _ _ _ _ (mkMpc (15%Z, 1) [(11%Z, 1); (12%Z, 2)])); [left; reflexivity|apply (r_node lEx_nodes lEx_elms lEx_mpcs 1 4 1); cbn; auto|cbn; auto]. Qed.

(** the four hypotheses cannot be dropped *)
Definition conflicting sep mlgn mnpc mpcs : Prop := nodesOK mlgn mnpc /\ exists cols col e f d, colorsLag sep mlgn mnpc mpcs = Some cols /\ In col cols /\ In e col /\ In f col /\ e <> f /\ reach mlgn mnpc mpcs e d /\ reach mlgn mnpc mpcs f d.
(** a master that is itself constrained (the constraints are not resolved): the elements of
    the last master are not connected to the first slave *)
Theorem colorsLag_chain_refuted : exists mlgn mnpc mpcs, NoDup mlgn /\ mastersInside mlgn mpcs /\ conflicting false mlgn mnpc mpcs.
Proof.
  exists [10; 11; 12]%Z, [[0]; [2]], [mkMpc (10%Z, 1) [(11%Z, 1)]; mkMpc (11%Z, 1) [(12%Z, 1)]]. split; [repeat (constructor; [cbn; lia|]); constructor|]. split; [intros c m Hc _ Hm; cbn in Hc; intuition (subst; cbn in Hm; intuition (subst; cbn; lia))|]. split; [intros e a He Ha; small He; cbn in *; lia|].
  exists [[0; 1]], [0; 1], 0, 1, (12%Z, 1). split; [vm_compute; reflexivity|]. split; [left; reflexivity|]. split; [left; reflexivity|]. split; [right; left; reflexivity|]. split; [discriminate|]. split.
  - apply (r_master _ _ _ _ (mkMpc (11%Z, 1) [(12%Z, 1)])); [cbn; auto| |cbn; auto]. apply (r_master _ _ _ _ (mkMpc (10%Z, 1) [(11%Z, 1)])); [cbn; auto| |cbn; auto]. apply (r_node [10; 11; 12]%Z [[0]; [2]] _ 0 0 1). cbn. auto.
  - apply (r_node [10; 11; 12]%Z [[0]; [2]] _ 1 2 1). cbn. auto.
Qed.
Print Assumptions colorsLag_chain_refuted.
(** two nodes of the patch with a common master outside of it *)
Theorem colorsLag_outside_refuted : exists mlgn mnpc mpcs, NoDup mlgn /\ resolved mpcs /\ conflicting false mlgn mnpc mpcs.
Proof.
  exists [10; 11]%Z, [[0]; [1]], [mkMpc (10%Z, 1) [(99%Z, 1)]; mkMpc (11%Z, 1) [(99%Z, 1)]]. split; [repeat (constructor; [cbn; lia|]); constructor|]. split; [intros c c' Hc Hc' H; cbn in Hc, Hc'; intuition (subst; cbn in *; intuition congruence)|]. split; [intros e a He Ha; small He; cbn in *; lia|].
  exists [[0; 1]], [0; 1], 0, 1, (99%Z, 1). split; [vm_compute; reflexivity|]. split; [left; reflexivity|]. split; [left; reflexivity|]. split; [right; left; reflexivity|]. split; [discriminate|]. split.
  - apply (r_master _ _ _ _ (mkMpc (10%Z, 1) [(99%Z, 1)])); [cbn; auto| |cbn; auto]. apply (r_node [10; 11]%Z [[0]; [1]] _ 0 0 1). cbn. auto.
  - apply (r_master _ _ _ _ (mkMpc (11%Z, 1) [(99%Z, 1)])); [cbn; auto| |cbn; auto]. apply (r_node [10; 11]%Z [[0]; [1]] _ 1 1 1). cbn. auto.
Qed.
Print Assumptions colorsLag_outside_refuted.
(** two single-noded elements at the same node get the separate color *)
Theorem colorsLag_singles_refuted : exists mlgn mnpc, NoDup mlgn /\ conflicting true mlgn mnpc [].
Proof.
  exists [10; 11]%Z, [[0]; [0]]. split; [repeat (constructor; [cbn; lia|]); constructor|]. split; [intros e a He Ha; small He; cbn in *; lia|].
  exists [[0; 1]], [0; 1], 0, 1, (10%Z, 1). split; [vm_compute; reflexivity|]. split; [left; reflexivity|]. split; [left; reflexivity|]. split; [right; left; reflexivity|]. split; [discriminate|]. split.
  - apply (r_node [10; 11]%Z [[0]; [0]] _ 0 0 1). cbn. auto.
  - apply (r_node [10; 11]%Z [[0]; [0]] _ 1 0 1). cbn. auto.
Qed.
Print Assumptions colorsLag_singles_refuted.
(** two local nodes with the same global number *)
Theorem colorsLag_merged_refuted : exists mlgn mnpc, conflicting false mlgn mnpc [].
Proof.
  exists [10; 10]%Z, [[0]; [1]]. split; [intros e a He Ha; small He; cbn in *; lia|].
  exists [[0; 1]], [0; 1], 0, 1, (10%Z, 1). split; [vm_compute; reflexivity|]. split; [left; reflexivity|]. split; [left; reflexivity|]. split; [right; left; reflexivity|]. split; [discriminate|]. split.
  - apply (r_node [10; 10]%Z [[0]; [1]] _ 0 0 1). cbn. auto.
  - apply (r_node [10; 10]%Z [[0]; [1]] _ 1 1 1). cbn. auto.
Qed.
Print Assumptions colorsLag_merged_refuted.
