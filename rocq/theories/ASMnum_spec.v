(** Specification-level notions for global node numbering. *)
From Coq Require Import List Sorted Arith ZArith QArith Qcanon Bool Lia.
From Verif Require Import Base MPC_model MPC_spec ASMbc_model ASMbc_spec ASMnum_model.
Import ListNotations.
Local Open Scope Z_scope.

(** global node numbers of one patch, and of the model, in the order they are stored *)
Definition nums (p : npatch) : list Z := pMLGN (nb p).
Definition allNodes (ps : list npatch) : list Z := concat (map nums ps).
(** number of different node numbers in a list *)
Definition distinct (l : list Z) : Z := Z.of_nat (length (nodup Z.eq_dec l)).
(** number of different node numbers up to [n] in a list *)
Definition rank (l : list Z) (n : Z) : Z := distinct (filter (fun k => k <=? n) l).
(** the table relates exactly the nodes of [l] to their image by [s] *)
Definition tableOf (m : list (Z * Z)) (l : list Z) (s : Z -> Z) : Prop :=
  forall a b, In (a, b) m <-> In a l /\ b = s a.
(** only the node numbers of the patch are changed, from [n] to [s n] *)
Definition renamed (s : Z -> Z) (p q : npatch) : Prop :=
  nums q = map s (nums p) /\
  pnf (nb q) = pnf (nb p) /\ pnnod (nb q) = pnnod (nb p) /\ pBC (nb q) = pBC (nb p) /\ pEQ (nb q) = pEQ (nb p) /\
  nMNPC q = nMNPC p /\ nMLGE q = nMLGE p.
(** number of positions where the number changes *)
Definition changes (s : Z -> Z) (l : list Z) : nat := length (filter (fun n => negb (n =? s n)) l).
(** one-to-one between the nodes of [l] and 1..N *)
Definition bijective (s : Z -> Z) (l : list Z) (N : Z) : Prop :=
  (forall a b, In a l -> In b l -> s a = s b -> a = b) /\
  (forall a, In a l -> 1 <= s a <= N) /\
  (forall k, 1 <= k <= N -> exists a, In a l /\ s a = k).

(** nodes referred to by fixations and constraint equations of a patch *)
Definition Refers (p : npatch) (n : Z) : Prop :=
  (exists b, In b (pBC (nb p)) /\ bnode b = n) \/
  (exists m, In m (eqns (nb p)) /\ (dnode (mslave m) = n \/ exists d, In d (mmast m) /\ dnode d = n)).
(** fixations and equations with renamed nodes *)
Definition moveBC (s : Z -> Z) (b : bc) : bc := mkBC (s (bnode b)) (bCX b) (bCY b) (bCZ b) (bRX b) (bRY b) (bRZ b).
Definition moveDof (s : Z -> Z) (d : dofT) : dofT := mkD (s (dnode d)) (dldof d) (dcoef d) (dnext d).
Definition moveMPC (s : Z -> Z) (m : mpc) : mpc := mkMPC (moveDof s (mslave m)) (map (moveDof s) (mmast m)).
(** the patch [q] is [p] with all nodes renamed, where the fixations of unknown nodes (those
    not in [l]) are dropped if [drop] *)
Definition renamedAll (s : Z -> Z) (drop : bool) (l : list Z) (p q : npatch) : Prop :=
  nums q = map s (nums p) /\
  pBC (nb q) = map (moveBC s) (filter (fun b => negb drop || if in_dec Z.eq_dec (bnode b) l then true else false) (pBC (nb p))) /\
  pEQ (nb q) = map (fun x => (moveMPC s (fst x), snd x)) (pEQ (nb p)) /\
  pnf (nb q) = pnf (nb p) /\ pnnod (nb q) = pnnod (nb p) /\ nMNPC q = nMNPC p /\ nMLGE q = nMLGE p.
(** a renaming of the nodes of [l]; other numbers stay *)
Definition total (s : Z -> Z) (l : list Z) (n : Z) : Z := if in_dec Z.eq_dec n l then s n else n.
(** the field seen through the renaming *)
Definition pullback (s : Z -> Z) (u : field) : field := fun k => u (s (fst k), snd k).
(** [r] is the first position with the same number as position [k] *)
Definition firstOf (l : list Z) (k r : nat) : Prop :=
  nth_error l r = nth_error l k /\ forall i, (i < r)%nat -> nth_error l i <> nth_error l k.
(** an element: local nodes and element number *)
Definition mergedElm (mlgn : list Z) (e e' : list nat * Z) : Prop :=
  Forall2 (firstOf mlgn) (fst e) (fst e') /\
  (length (fst e) <> 3%nat -> snd e' = snd e) /\
  (length (fst e) = 3%nat -> NoDup (fst e) -> (NoDup (fst e') -> snd e' = snd e) /\ (~ NoDup (fst e') -> snd e' = 0)).
(** ** Closed (periodic) patches *)
(** nodes of a structured patch, from position [off], I-index running fastest *)
Definition pos3 (n1 n2 off i j k : nat) : nat := (off + (k * n2 + j) * n1 + i)%nat.
(** wrap an index: the last position coincides with the first *)
Definition wrapIdx (closed : bool) (n i : nat) : nat := if closed && (i =? n - 1)%nat then 0%nat else i.
(** close several directions in turn *)
Definition closeSeq (close : nat -> npatch -> option npatch) (ds : list nat) (p : npatch) : option npatch :=
  fold_left (fun o d => match o with None => None | Some p => close d p end) ds (Some p).
Definition mem (d : nat) (ds : list nat) : bool := existsb (Nat.eqb d) ds.
(** conditions follow their nodes *)
Definition condsMoved (s : Z -> Z) (p q : npatch) : Prop :=
  pBC (nb q) = map (moveBC s) (pBC (nb p)) /\ pEQ (nb q) = map (fun x => (moveMPC s (fst x), snd x)) (pEQ (nb p)) /\
  pnf (nb q) = pnf (nb p) /\ pnnod (nb q) = pnnod (nb p) /\ nMNPC q = nMNPC p /\ nMLGE q = nMLGE p.
(** replace the number [a] by [b] *)
Definition subst1 (a b n : Z) : Z := if n =? a then b else n.
(** [q] is [p] closed in the directions [ds]: the node numbers of the block of n1*n2*n3 nodes
    from position [off] are those of a torus, each condition moves along with its node, and
    everything else is as before *)
Definition closedAs (n1 n2 n3 off : nat) (ds : list nat) (p q : npatch) : Prop :=
  length (nums q) = length (nums p) /\
  (forall i j k, (i < n1 /\ j < n2 /\ k < n3)%nat ->
     nth (pos3 n1 n2 off i j k) (nums q) 0 =
     nth (pos3 n1 n2 off (wrapIdx (mem 1 ds) n1 i) (wrapIdx (mem 2 ds) n2 j) (wrapIdx (mem 3 ds) n3 k)) (nums p) 0) /\
  (forall t, (t < off \/ off + n1 * n2 * n3 <= t)%nat -> nth t (nums q) 0 = nth t (nums p) 0) /\
  exists s, condsMoved s p q /\
    (forall t, (off <= t < off + n1 * n2 * n3)%nat -> s (nth t (nums p) 0) = nth t (nums q) 0) /\
    (forall n, (forall t, (off <= t < off + n1 * n2 * n3)%nat -> nth t (nums p) 0 <> n) -> s n = n).
(** ** Connected patches: a model is the list of patches with the neighbors of each *)
Definition patchAt (M : model) (k : nat) (p : npatch) : Prop := nth_error (fst M) k = Some p.
(** global number of the 1-based local node [n] of patch [k] *)
Definition numAt (M : model) (k n : nat) (g : Z) : Prop :=
  exists p, patchAt M k p /\ (1 <= n)%nat /\ nth_error (nums p) (n - 1) = Some g.
Definition neighborOf (M : model) (k j : nat) : Prop := exists l, nth_error (snd M) k = Some l /\ In j l.
(** neighbor lists refer to other patches of the model, in both directions *)
Definition modelOK (M : model) : Prop :=
  length (snd M) = length (fst M) /\ forall k j, neighborOf M k j -> (j < length (fst M))%nat /\ j <> k /\ neighborOf M j k.
(** number and conditions of a patch with the number [a] replaced by [b] everywhere *)
Definition substituted (a b : Z) (p q : npatch) : Prop := nums q = map (subst1 a b) (nums p) /\ condsMoved (subst1 a b) p q.
(** the node [n] of patch [k] gets the number [lo] instead of [hi]: only that entry changes in the
    patch itself (its conditions follow), every occurrence changes in its neighbors, and nothing
    in the other patches *)
Definition collapsedAt (M M' : model) (k n : nat) (hi lo : Z) : Prop :=
  length (fst M') = length (fst M) /\ snd M' = snd M /\
  forall j p, patchAt M j p -> exists q, patchAt M' j q /\
    (j = k -> nums q = upd (n - 1) lo (nums p) /\ condsMoved (subst1 hi lo) p q) /\
    (neighborOf M k j -> substituted hi lo p q) /\
    (j <> k -> ~ neighborOf M k j -> q = p).
