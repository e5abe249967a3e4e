(** Specification-level notions for building the tables from the patches. *)
From Coq Require Import List Arith ZArith QArith Qcanon Bool Lia.
From Verif Require Import Base SAM_model SAM_spec MPC_model MPC_spec SAMpatch_model.
Import ListNotations.
Local Open Scope Z_scope.

(** ** nodes and DOFs *)
(** [patch p has a node with global number n and nd DOFs] *)
Definition hasNode (ps : list patch) (n : Z) (nd : nat) : Prop :=
  exists p j, In p ps /\ nth_error (pMLGN p) j = Some n /\ nth j (pNdof p) 0%nat = nd.
(** some patch fixes local DOF [l] of node [n] *)
Definition fixedIn (ps : list patch) (n : Z) (l : nat) : Prop :=
  exists p b, In p ps /\ In b (pBC p) /\ bnode b = n /\ (1 <= l <= 6)%nat /\ nth (l-1) (bcodes b) 1 = 0.
(** nodal boundary conditions refer to nodes 1..nn and have six codes 0 or 1 *)
Definition bcOK (nn : nat) (ps : list patch) : Prop :=
  forall p b, In p ps -> In b (pBC p) -> 1 <= bnode b <= Z.of_nat nn /\ length (bcodes b) = 6%nat /\ Forall (fun c => c = 0 \/ c = 1) (bcodes b).

(** ** elements *)
(** [patch p has an element with external number e (non-zero), and the global nodes
    [ns] (negative for a node that does not take part)] *)
Definition globalNode (p : patch) (n g : Z) : Prop :=
  (0 <= n /\ nth_error (pMLGN p) (Z.to_nat n) = Some g) \/
  (n < 0 /\ n <> -2147483648 /\ nth_error (pMLGN p) (Z.to_nat (- n)) = Some (- g)) \/
  (n = -2147483648 /\ nth_error (pMLGN p) 0 = Some (- g)).
Definition hasElm (ps : list patch) (e : Z) (ns : list Z) : Prop :=
  exists p i id el, In p ps /\ nth_error (pMLGE p) i = Some id /\ Z.abs id = e /\ id <> 0 /\
    nth_error (pMNPC p) i = Some el /\ Forall2 (globalNode p) el ns.
(** local node indices are valid, one external number per element *)
Definition elmsOK (ps : list patch) : Prop :=
  forall p, In p ps -> length (pMLGE p) = length (pMNPC p) /\
    forall el n, In el (pMNPC p) -> In n el -> n = -2147483648 /\ pMLGN p <> [] \/ Z.abs n < Z.of_nat (length (pMLGN p)).
(** the external numbers in use *)
Definition extIds (ps : list patch) : list Z := map Z.abs (filter (fun e => negb (e =? 0)) (flat_map pMLGE ps)).
(** the connectivity of element [e] (1-based) in the tables [mpmnpc], [mmnpc] *)
Definition connOf (pn : list nat) (mn : list Z) (e : nat) : list Z :=
  firstn (nth e pn 0 - nth (e-1) pn 0)%nat (skipn (nth (e-1) pn 0 - 1)%nat mn).

(** ** constraint equations *)
(** global DOF number of local DOF [snd k] of node [fst k] *)
Definition dofOf (md : list nat) (k : Z * Z) : Z := Z.of_nat (nth (Z.to_nat (fst k - 1)) md 0%nat) + snd k - 1.
(** the node exists and has that local DOF *)
Definition isKey (md : list nat) (k : Z * Z) : Prop :=
  1 <= fst k < Z.of_nat (length md) /\ 1 <= snd k /\ dofOf md k < Z.of_nat (nth (Z.to_nat (fst k)) md 0%nat).
(** status code of a DOF number *)
Definition code (sc : list Z) (dof : Z) : Z := nth (Z.to_nat (dof - 1)) sc 0.
(** a complete DOF table with status codes: 0 (fixed) or 1 (free) *)
Definition dofTable (md : list nat) (sc : list Z) : Prop :=
  (1 <= length md)%nat /\ nth 0 md 0%nat = 1%nat /\ (forall i, (S i < length md)%nat -> (nth i md 0 <= nth (S i) md 0)%nat) /\
  nth (length md - 1) md 0%nat = S (length sc) /\ Forall (fun c => c = 0 \/ c = 1) sc.
(** slave DOFs of the equations [ks] of the heap [h] *)
Definition slavesOf (h : list mpc) (ks : list nat) : list (Z * Z) := map (fun k => dkey (mslave (nthM h k))) ks.
(** The equations [ks] have existing DOFs, one equation per slave DOF; a master that is a
    slave itself points to the equation defining it, which is not fixed; no cycles. *)
Definition chainsOK (md : list nat) (sc : list Z) (h : list mpc) (ks : list nat) : Prop :=
  NoDup (slavesOf h ks) /\
  (forall k, In k ks -> (k < length h)%nat /\ isKey md (dkey (mslave (nthM h k))) /\ Forall (fun d => isKey md (dkey d)) (mmast (nthM h k))) /\
  exists rank : nat -> nat, forall k d, In k ks -> In d (mmast (nthM h k)) ->
    match dnext d with
    | None => ~ In (dkey d) (slavesOf h ks)
    | Some j => In j ks /\ dkey (mslave (nthM h j)) = dkey d /\ code sc (dofOf md (dkey d)) <> 0 /\ (rank j < rank k)%nat
    end.
(** the values [v] of all DOFs satisfy equation [m]; they satisfy row [i] of the tables *)
Definition holdsDof (md : list nat) (v : Z -> Qc) (m : mpc) : Prop := holds (fun k => v (dofOf md k)) m.
Definition holdsRow (s : tables) (v : Z -> Qc) (i : nat) : Prop :=
  v (slaveDof s i) = (offset s i + qs (fun p => snd p * v (fst p)) (masterTerms s i))%Qc.

(** ** the same in terms of the patches only *)
(** node [fst k] (at most [nn]) has a local DOF [snd k] *)
Definition dofIn (nn : nat) (ps : list patch) (k : Z * Z) : Prop :=
  1 <= fst k <= Z.of_nat nn /\ exists nd, hasNode ps (fst k) nd /\ 1 <= snd k <= Z.of_nat nd.
Definition isFixed (ps : list patch) (k : Z * Z) : Prop := fixedIn ps (fst k) (Z.to_nat (snd k)).
Definition chainsIn (nn : nat) (ps : list patch) (h : list mpc) : Prop :=
  let ks := flat_map pMPC ps in
  NoDup (slavesOf h ks) /\
  (forall k, In k ks -> (k < length h)%nat /\ dofIn nn ps (dkey (mslave (nthM h k))) /\ Forall (fun d => dofIn nn ps (dkey d)) (mmast (nthM h k))) /\
  exists rank : nat -> nat, forall k d, In k ks -> In d (mmast (nthM h k)) ->
    match dnext d with
    | None => ~ In (dkey d) (slavesOf h ks)
    | Some j => In j ks /\ dkey (mslave (nthM h j)) = dkey d /\ ~ isFixed ps (dkey d) /\ (rank j < rank k)%nat
    end.
(** a consistent model: DOF counts positive and equal in all patches sharing a node, valid
    boundary conditions and elements, different external element numbers *)
Definition modelOK (nn : nat) (ps : list patch) : Prop :=
  (1 <= nn)%nat /\ (forall n nd, hasNode ps n nd -> (0 < nd)%nat) /\
  (forall n nd nd', hasNode ps n nd -> hasNode ps n nd' -> 1 <= n <= Z.of_nat nn -> nd = nd') /\
  bcOK nn ps /\ elmsOK ps /\ NoDup (extIds ps).
(** value of local DOF [snd k] of node [fst k] in a vector over all DOFs *)
Definition valueAt (md : list nat) (v : list Qc) (k : Z * Z) : Qc := nth (Z.to_nat (dofOf md k - 1)) v 0%Qc.
(** the nodal values satisfy the boundary conditions and all equations that are not overridden
    by a boundary condition of their slave *)
Definition fulfils (nn : nat) (ps : list patch) (h : list mpc) (u : field) : Prop :=
  (forall k, dofIn nn ps k -> isFixed ps k -> u k = 0%Qc) /\
  (forall j, In j (flat_map pMPC ps) -> ~ isFixed ps (dkey (mslave (nthM h j))) -> holds u (nthM h j)).

(** ** changed coefficients *)
(** the same slave, the same master DOFs in the same order, linked to the same equations;
    constants and coefficients may differ *)
Definition sameShape (m m2 : mpc) : Prop :=
  dkey (mslave m) = dkey (mslave m2) /\ map (fun d => (dkey d, dnext d)) (mmast m) = map (fun d => (dkey d, dnext d)) (mmast m2).
Definition sameHeap (h h2 : list mpc) : Prop := length h = length h2 /\ forall k, sameShape (nthM h k) (nthM h2 k).
(** the constant of an equation in incremental form: total constant [o], slave DOF number
    [dof], previous solution [v] *)
Definition incOffset (v : list Qc) (o : Qc) (dof : Z) : Qc :=
  if Qc_eq_dec o 0 then 0%Qc else if dof <=? Z.of_nat (length v) then (o - nth (Z.to_nat (dof-1)) v 0)%Qc else o.

(** ** merging *)
(** all node numbers are in 1..nn *)
Definition nodesIn (nn : nat) (ps : list patch) : Prop := forall n nd, hasNode ps n nd -> 1 <= n <= Z.of_nat nn.
(** all elements have a positive external number, the largest is the number of elements *)
Definition elmsFull (ps : list patch) : Prop :=
  (forall p e, In p ps -> In e (pMLGE p) -> 0 < e) /\ fold_right Z.max 0 (extIds ps) = Z.of_nat (length (extIds ps)).
(** no slave DOF has a boundary condition *)
Definition noIgnored (ps : list patch) (h : list mpc) : Prop := forall k, In k (flat_map pMPC ps) -> ~ isFixed ps (dkey (mslave (nthM h k))).
(** a signed node number of the second model after merging it with a model of [nn] nodes *)
Definition nodeAfter (nn : nat) (n : Z) : Z := if n <? 0 then n - Z.of_nat nn else n + Z.of_nat nn.
