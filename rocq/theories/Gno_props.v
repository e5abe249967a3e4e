(** C85: functions of a multi-patch model get the same global number if and only
    if they are connected, and the numbers are consecutive. *)
From Coq Require Import List Arith ZArith Bool Lia Relations.
From Verif Require Import Gno_model Gno_spec Gno_proofs Gno_proofs2 Gno_proofs3.
Import ListNotations.

Lemma connected_by nf bnd ifs x y : ifs_ok nf bnd ifs ->
  connectedBy bnd ifs (length nf) x y <-> connected bnd ifs x y.
Proof.
  intros OK. unfold connectedBy, connected.
  split; intros H; induction H as [x y A| | |x y z _ IH1 _ IH2];
    try apply rst_refl; try (apply rst_sym; assumption); try (eapply rst_trans; eassumption).
  - apply rst_step. apply A.
  - apply rst_step. split; auto.
    destruct (joined_valid nf bnd ifs OK x y A) as ((V & _) & _). exact V.
Qed.

Lemma last_nth {A} (l : list A) d : last l d = nth (length l - 1) l d.
Proof.
  induction l as [|a [|b l] IH]; [reflexivity|reflexivity|].
  change (last (a :: b :: l) d) with (last (b :: l) d). rewrite IH.
  cbn [length]. rewrite !Nat.sub_succ, !Nat.sub_0_r. reflexivity.
Qed.

Theorem gno_numbering : forall nf bnd ifs,
  nf <> [] -> ifs_ok nf bnd ifs -> own nf bnd ifs -> consistent bnd ifs ->
  exists r N, calcGlobalNodes nf bnd ifs = Some r /\ numFunctions r = Some N /\
    map (@length nat) r = nf /\
    (forall x y, valid nf x -> valid nf y -> (num r x = num r y <-> connected bnd ifs x y)) /\
    (forall v, v < N <-> exists x, valid nf x /\ num r x = v).
Proof.
  intros nf bnd ifs NE OK OWN CONS.
  destruct (loop_inv nf bnd ifs OK OWN CONS (length nf) (le_n _)) as (r & M & E & [I1 I2 I3 I4 _] & X).
  assert (LN : 0 < length nf) by (destruct nf; [tauto|cbn; lia]).
  destruct (X LN) as [X1 X2]. exists r, M. split; [exact E|].
  split; [|split; [exact I1|split]].
  - unfold numFunctions. rewrite last_nth.
    assert (LR : length r = length nf) by (rewrite <- I1, map_length; reflexivity).
    rewrite LR, X1. f_equal. lia.
  - intros x y Hx Hy. rewrite I2 by auto. apply connected_by; auto.
  - intros v. split.
    + intros Hv. destruct (I4 v Hv) as (x & A & _ & B). exists x. auto.
    + intros (x & A & <-). apply I3; auto. apply A.
Qed.
Print Assumptions gno_numbering.

(** Without the consistency of the interfaces, the numbers are consecutive and
    no two functions that are not connected get the same number. *)
Theorem gno_sound : forall nf bnd ifs,
  nf <> [] -> ifs_ok nf bnd ifs -> own nf bnd ifs ->
  exists r N, calcGlobalNodes nf bnd ifs = Some r /\ numFunctions r = Some N /\
    map (@length nat) r = nf /\
    (forall x y, valid nf x -> valid nf y -> num r x = num r y -> connected bnd ifs x y) /\
    (forall v, v < N <-> exists x, valid nf x /\ num r x = v).
Proof.
  intros nf bnd ifs NE OK OWN.
  destruct (loop0 nf bnd ifs OK OWN (length nf) (le_n _)) as (r & M & E & [I1 I2 I3 I4 _] & X).
  assert (LN : 0 < length nf) by (destruct nf; [tauto|cbn; lia]).
  destruct (X LN) as [X1 X2]. exists r, M. split; [exact E|].
  split; [|split; [exact I1|split]].
  - unfold numFunctions. rewrite last_nth.
    assert (LR : length r = length nf) by (rewrite <- I1, map_length; reflexivity).
    rewrite LR, X1. f_equal. lia.
  - intros x y Hx Hy H. apply (connected_by nf); auto.
  - intros v. split.
    + intros Hv. destruct (I4 v Hv) as (x & A & _ & B). exists x. auto.
    + intros (x & A & <-). apply I3; auto. apply A.
Qed.
Print Assumptions gno_sound.

(* ---- bilinear surface patches of one element ---- *)
(** Edge 1 is u=0, edge 2 u=1, edge 3 v=0, edge 4 v=1. *)
Definition square : boundary := fun _ dim lidx orient =>
  if Z.eqb dim 0 then
    (if Z.eqb lidx 1 then [0] else if Z.eqb lidx 2 then [1] else if Z.eqb lidx 3 then [2] else [3])
  else
    let e := if Z.eqb lidx 1 then [0; 2] else if Z.eqb lidx 2 then [1; 3]
             else if Z.eqb lidx 3 then [0; 1] else [2; 3] in
    if Z.eqb orient 0 then e else rev e.

(** Patch 1 and patch 2 have the common neighbour 3 and meet at a corner only.
    The functions of patches 1 and 3 at that corner get different numbers,
    although they are opposite to each other at an interface. *)
Theorem gno_corner_refuted : exists ifs r x y,
  ifs_ok [4; 4; 4] square ifs /\ own [4; 4; 4] square ifs /\
  calcGlobalNodes [4; 4; 4] square ifs = Some r /\
  valid [4; 4; 4] x /\ valid [4; 4; 4] y /\
  joined square ifs x y /\ num r x <> num r y.
Proof.
  exists [mkIf 1 3 2 1 0 1; mkIf 2 3 3 4 0 1], [[0; 1; 2; 3]; [4; 5; 6; 7]; [1; 8; 4; 5]], (0, 3), (2, 2).
  split; [|split; [|split; [|split; [|split; [|split]]]]].
  - split.
    + intros it [<- |[<- |[]]]; cbn; repeat split; try lia; repeat constructor.
    + repeat constructor; cbn; intuition discriminate.
  - intros p Hp. cbn in Hp. assert (E : p = 0 \/ p = 1 \/ p = 2) by lia.
    destruct E as [-> |[-> | ->]]; [exists 0|exists 0|exists 1]; (split; [cbn; lia|]);
      intros x (it & n & [<- |[<- |[]]] & A & B & D & F); cbn in *; try lia;
      destruct n as [|[|[|n]]]; cbn in *; discriminate.
  - vm_compute. reflexivity.
  - split; cbn; lia.
  - split; cbn; lia.
  - exists (mkIf 1 3 2 1 0 1), 1. cbn. tauto.
  - discriminate.
Qed.
Print Assumptions gno_corner_refuted.

(** An interface whose master has the higher number has no effect. *)
Theorem gno_reversed_refuted : exists it r x y,
  i_master it = 2 /\ i_slave it = 1 /\
  calcGlobalNodes [4; 4] square [it] = Some r /\
  joined square [it] x y /\ num r x <> num r y.
Proof.
  exists (mkIf 2 1 1 2 0 1), [[0; 1; 2; 3]; [4; 5; 6; 7]], (1, 0), (0, 1).
  split; [reflexivity|]. split; [reflexivity|]. split; [vm_compute; reflexivity|].
  split; [|discriminate].
  exists (mkIf 2 1 1 2 0 1), 0. cbn. tauto.
Qed.
Print Assumptions gno_reversed_refuted.

(** The interfaces of a row of patches 1, 3, 2, 4 (from left to right). *)
Definition rowIfs := [mkIf 1 3 2 1 0 1; mkIf 2 3 1 2 0 1; mkIf 2 4 2 1 0 1].

Lemma row_sides x y : connected square rowIfs x y ->
  (fst x = 3 /\ (snd x = 1 \/ snd x = 3)) -> x = y.
Proof.
  assert (G : forall z, fst z = 3 -> snd z = 1 \/ snd z = 3 ->
     forall a b, connected square rowIfs a b -> (a = z <-> b = z)).
  { intros z Z1 Z2 a b H. induction H as [a b (it & n & A & B & D & E & F)| | |].
    - assert (NA : a <> z) by (intros ->; destruct A as [<- |[<- |[<- |[]]]]; cbn in B; lia).
      assert (NB : b <> z).
      { intros ->. destruct A as [<- |[<- |[<- |[]]]]; cbn in *; try lia.
        destruct n as [|[|[|n]]]; cbn in F; try discriminate; injection F as F; lia. }
      tauto.
    - tauto.
    - tauto.
    - tauto. }
  intros H [A B]. symmetry. apply (G x A B x y H). reflexivity.
Qed.

(** If a patch has no function of its own, two functions of one patch that are
    not connected may get the same number. *)
Theorem gno_noown_refuted : exists r x y,
  ifs_ok [4; 4; 4; 4] square rowIfs /\
  calcGlobalNodes [4; 4; 4; 4] square rowIfs = Some r /\
  valid [4; 4; 4; 4] x /\ valid [4; 4; 4; 4] y /\
  num r x = num r y /\ ~ connected square rowIfs x y.
Proof.
  exists [[0; 1; 2; 3]; [4; 5; 6; 7]; [1; 4; 3; 6]; [5; 7; 7; 8]], (3, 1), (3, 2).
  split; [|split; [|split; [|split; [|split]]]].
  - split.
    + intros it [<- |[<- |[<- |[]]]]; cbn; repeat split; try lia; repeat constructor.
    + repeat constructor; cbn; intuition discriminate.
  - vm_compute. reflexivity.
  - split; cbn; lia.
  - split; cbn; lia.
  - reflexivity.
  - intros H. apply row_sides in H; [discriminate|]. cbn. tauto.
Qed.
Print Assumptions gno_noown_refuted.

(** If the last patch has no function of its own, there are numbers beyond the
    number of functions that the refinement uses as size of the error array. *)
Theorem gno_count_refuted : exists ifs r N x,
  ifs_ok [4; 4; 4] square ifs /\
  calcGlobalNodes [4; 4; 4] square ifs = Some r /\ numFunctions r = Some N /\
  valid [4; 4; 4] x /\ N <= num r x.
Proof.
  exists [mkIf 1 3 2 1 0 1; mkIf 2 3 1 2 0 1], [[0; 1; 2; 3]; [4; 5; 6; 7]; [1; 4; 3; 6]], 7, (1, 3).
  split; [|split; [|split; [|split]]].
  - split.
    + intros it [<- |[<- |[]]]; cbn; repeat split; try lia; repeat constructor.
    + repeat constructor; cbn; intuition discriminate.
  - vm_compute. reflexivity.
  - vm_compute. reflexivity.
  - split; cbn; lia.
  - cbn. lia.
Qed.
Print Assumptions gno_count_refuted.

(* ---- non-vacuity: four patches around a corner ---- *)
Definition gridIfs := [mkIf 1 2 2 1 0 1; mkIf 1 3 4 3 0 1; mkIf 2 4 4 3 0 1; mkIf 3 4 2 1 0 1].

Example ex_grid : ifs_ok [4; 4; 4; 4] square gridIfs /\ own [4; 4; 4; 4] square gridIfs /\
  consistent square gridIfs /\
  calcGlobalNodes [4; 4; 4; 4] square gridIfs
    = Some [[0; 1; 2; 3]; [1; 4; 3; 5]; [2; 3; 6; 7]; [3; 5; 7; 8]].
Proof.
  assert (JL : forall x y, joined square gridIfs x y ->
     In (x, y) [((0,1),(1,0)); ((0,3),(1,2)); ((0,2),(2,0)); ((0,3),(2,1));
                ((1,2),(3,0)); ((1,3),(3,1)); ((2,1),(3,0)); ((2,3),(3,2))]).
  { intros [p a] [q b] (it & n & A & B & D & E & F).
    destruct A as [<- |[<- |[<- |[<- |[]]]]]; cbn in B, D;
      assert (p = p - 0) by lia; 
      (destruct n as [|[|[|n]]]; cbn in E, F; try discriminate; injection E as <-; injection F as <-).
    all: match type of B with ?m = _ => assert (p = m - 1) by lia end;
         match type of D with ?m = _ => assert (q = m - 1) by lia end; subst p q; cbn; tauto. }
  split; [|split; [|split]].
  - split.
    + intros it [<- |[<- |[<- |[<- |[]]]]]; cbn; repeat split; try lia; repeat constructor.
    + repeat constructor; cbn; intuition discriminate.
  - intros p Hp. cbn in Hp. exists (if p =? 0 then 0 else 3).
    assert (E : p = 0 \/ p = 1 \/ p = 2 \/ p = 3) by lia.
    split; [destruct E as [-> |[-> |[-> | ->]]]; cbn; lia|].
    intros x H. apply JL in H. destruct E as [-> |[-> |[-> | ->]]]; cbn in H;
      repeat destruct H as [H|H]; try discriminate; try contradiction.
  - intros x y z Hx Hy L. apply JL in Hx, Hy.
    assert (E : x = y \/ (x = (1, 2) /\ y = (2, 1))).
    { cbn in Hx, Hy. repeat destruct Hx as [Hx|Hx]; try contradiction;
        injection Hx as <- <-; repeat destruct Hy as [Hy|Hy]; try contradiction;
        try discriminate; injection Hy as <-; cbn in L; try lia; auto. }
    destruct E as [-> |[-> ->]]; [apply rst_refl|].
    apply rst_trans with (0, 3).
    + apply rst_sym. apply rst_step. split; [|cbn; lia]. exists (mkIf 1 2 2 1 0 1), 1. cbn. tauto.
    + apply rst_step. split; [|cbn; lia]. exists (mkIf 1 3 4 3 0 1), 1. cbn. tauto.
  - vm_compute. reflexivity.
Qed.
(** The numbers of src/ASM/LR/Test/TestGlobalNodes.C. *)
Example ex_test2D : calcGlobalNodes [4; 4; 4] square [mkIf 1 2 2 1 0 1; mkIf 2 3 4 3 0 1]
  = Some [[0; 1; 2; 3]; [1; 4; 3; 5]; [3; 5; 6; 7]].
Proof. vm_compute. reflexivity. Qed.
