(** Theorems on constraint equations (properties C13, C14, C15, C36). *)
From Coq Require Import List Sorted Permutation Arith ZArith QArith Qcanon Bool Lia.
From Verif Require Import Base MPC_model MPC_spec MPC_proofs MPC_proofs2 MPC_proofs3 MPC_proofs4.
Import ListNotations.
Local Open Scope Z_scope.

Notation qz n := (Q2Qc (inject_Z n)).
Notation dm n l c := (mkD n l (qz c) None).

(** ** C13: ordering and sets *)
Theorem C13_order : forall so, strictWeak (mpcLess so).
Proof. exact mpcLess_strictWeak. Qed.
Print Assumptions C13_order.
Theorem C13_slave_equiv : forall a b,
  (mpcLess true (Some a) (Some b) = false /\ mpcLess true (Some b) (Some a) = false) <-> dkey (mslave a) = dkey (mslave b).
Proof. exact mpcLess_equiv. Qed.
Print Assumptions C13_slave_equiv.
(** with the default mode, equations are equivalent iff all their terms are equal *)
Theorem C13_full_equiv : forall a b,
  (mpcLess false (Some a) (Some b) = false /\ mpcLess false (Some b) (Some a) = false) <-> sameTerms (mslave a :: mmast a) (mslave b :: mmast b).
Proof. exact mpcLess_equiv_full. Qed.
Print Assumptions C13_full_equiv.
(** inserting any sequence of equations into a set keeps it in order; in slave-only mode
    there is one equation for every slave DOF inserted, the first one *)
Theorem C13_set : forall so ms, increasing (mpcLess so) (insertAll so ms []) /\
  (so = true -> NoDup (slaves (insertAll so ms [])) /\
     forall k, withSlave k (insertAll so ms []) = match withSlave k ms with [] => [] | m :: _ => [m] end).
Proof.
  intros so ms. pose proof (insertAll_sorted so ms [] (SSorted_nil _)) as S. split; [exact S|]. intros ->.
  pose proof (increasing_distinct _ S) as N. split; [exact N|]. intros k. pose proof (insertAll_first ms [] k (SSorted_nil _)) as H. cbn [app] in H.
  assert (L : (length (withSlave k (insertAll true ms [])) <= 1)%nat).
  { clear - N. induction (insertAll true ms []) as [|x l IH]; cbn; [lia|]. cbn in N. inversion N as [|? ? N1 N2]; subst.
    destruct (keyEqb (dkey (mslave x)) k) eqn:E; [|apply IH; exact N2]. cbn. destruct (filter (fun m => keyEqb (dkey (mslave m)) k) l) as [|z r] eqn:F; [cbn; lia|]. exfalso. apply N1.
    assert (Hz : In z (withSlave k l)) by (unfold withSlave; rewrite F; left; reflexivity). apply withSlave_in in Hz. apply keyEqb_spec in E. rewrite E. destruct Hz as [Hz <-].
    apply (in_map (fun m => dkey (mslave m)) _ z Hz). }
  destruct (withSlave k (insertAll true ms [])) as [|x [|y r]]; cbn in L; [..|lia]; destruct (withSlave k ms) as [|z t]; cbn in H; congruence.
Qed.
Print Assumptions C13_set.
Example C13_case : let a := mkMPC (dm 2 1 0) [dm 1 1 1] in let b := mkMPC (dm 1 3 2) [] in let c := mkMPC (dm 2 1 5) [dm 7 1 4; dm 9 2 1] in
  insertAll true [a; b; c] [] = [b; a] /\ insertAll false [a; b; c] [] = [b; a; c] /\
  mpcLess false (Some a) (Some c) = true /\ mpcLess true (Some a) (Some c) = false.
Proof. vm_compute. auto. Qed.

(** ** C14: adding and merging masters *)
Theorem C14_add : forall tol d m,
  mslave (addMaster tol d m) = mslave m /\
  (forall u, rhs u (addMaster tol d m) = (rhs u m + if Qclt_le_dec tol (absv (dcoef d)) then dcoef d * u (dkey d) else 0)%Qc) /\
  (NoDup (map dkey (mmast m)) -> NoDup (map dkey (mmast (addMaster tol d m)))) /\
  (forall k, In k (map dkey (mmast (addMaster tol d m))) <-> In k (map dkey (mmast m)) \/ (k = dkey d /\ (tol < absv (dcoef d))%Qc)).
Proof.
  intros tol d m. split; [apply addMaster_slave|]. split; [|split; [apply addMaster_nodup|]].
  - intros u. rewrite addMaster_form, negligible_abs. destruct (Qclt_le_dec _ _); reflexivity.
  - intros k. unfold addMaster. rewrite negligible_abs. destruct (Qclt_le_dec tol (absv (dcoef d))) as [H|H].
    + cbn [mmast]. rewrite bump_in. tauto.
    + split; [auto|]. intros [Q|[_ Q]]; [exact Q|]. exfalso. exact (Qclt_not_le _ _ Q H).
Qed.
Print Assumptions C14_add.
Theorem C14_merge : forall tol m o b m', mergeMPC tol m o = (b, m') ->
  mslave m' = mslave m /\
  (b = true -> dkey (mslave m) = dkey (mslave o) /\ dcoef (mslave m) = dcoef (mslave o) /\
     forall u, rhs u m' = (rhs u m + qs (fun d => if Qclt_le_dec tol (absv (dcoef d)) then dcoef d * u (dkey d) else 0) (mmast o))%Qc) /\
  (b = false -> m' = m) /\
  (b = false <-> dkey (mslave m) <> dkey (mslave o) \/ dcoef (mslave m) <> dcoef (mslave o) \/
     Forall2 (fun x y => dkey x = dkey y /\ (absv (dcoef x - dcoef y) < tol)%Qc) (mmast m) (mmast o)) /\
  (NoDup (map dkey (mmast m)) -> NoDup (map dkey (mmast m'))).
Proof.
  intros tol m o b m' H. destruct (mergeMPC_spec _ _ _ _ _ H) as (A & B & C & D & E). split; [exact A|]. split; [|auto].
  intros Hb. destruct (B Hb) as (B1 & B2 & B3). split; [exact B1|]. split; [exact B2|]. intros u. rewrite B3. f_equal. apply qs_ext. intros d _. rewrite negligible_abs. destruct (Qclt_le_dec _ _); reflexivity.
Qed.
Print Assumptions C14_merge.
(** renumbering and shifting nodes: the new equation holds for the renumbered field iff the
    old one did; the returned number counts the terms with an unknown node *)
Theorem C14_renumber : forall old2new m u v,
  (forall n d, u (n, d) = v (match find (fun p => fst p =? n) old2new with Some p => snd p | None => n end, d)) ->
  (holds u m <-> holds v (snd (renumberMPC old2new m))) /\
  fst (renumberMPC old2new m) = length (filter (fun d => negb (existsb (fun p => fst p =? dnode d) old2new)) (mslave m :: mmast m)).
Proof.
  intros o m u v H.
  assert (Z1 : forall n, zfind n o = match find (fun p => fst p =? n) o with Some p => Some (snd p) | None => None end).
  { clear H. intros n. induction o as [|[a b] o IH]; cbn; [reflexivity|]. rewrite Z.eqb_sym. destruct (a =? n); [reflexivity|]. apply IH. }
  split.
  - destruct (renumber_form o m u v) as [A B].
    { intros n d. rewrite H, Z1. destruct (find _ o); reflexivity. }
    unfold holds. rewrite A, B. reflexivity.
  - rewrite renumber_invalid. f_equal. apply filter_ext. intros d. rewrite Z1. clear. induction o as [|[a b] o IH]; cbn; [reflexivity|]. destruct (a =? dnode d); cbn; auto.
Qed.
Print Assumptions C14_renumber.
Theorem C14_shift : forall k m u v, (forall n d, u (n, d) = v (n + k, d)) -> (holds u m <-> holds v (shiftMPC k m)).
Proof. intros k m u v H. destruct (shift_form k m u v H) as [A B]. unfold holds. rewrite A, B. reflexivity. Qed.
Print Assumptions C14_shift.
Example C14_case : let a := mkMPC (dm 2 1 0) [dm 1 1 1; dm 3 1 2] in let b := mkMPC (dm 2 1 0) [dm 3 1 5; dm 4 1 (-1)] in
  mergeMPC tol8 a b = (true, mkMPC (dm 2 1 0) [dm 1 1 1; dm 3 1 7; dm 4 1 (-1)]) /\ mergeMPC tol8 a a = (false, a) /\
  addMaster tol8 (dm 9 1 0) a = a /\ renumberMPC [(2, 5); (3, 6)] a = (1%nat, mkMPC (dm 5 1 0) [dm 1 1 1; dm 6 1 2]).
Proof. vm_compute. auto. Qed.

(** ** C15: resolving chains.
    [P] is any class of coefficients closed under sum and product in which nothing but
    zero is within the tolerance; [ks] is any order (and repetition) of visiting the
    equations *)
Theorem C15_resolve_partial : forall tol (P : Qc -> Prop) ks st,
  (forall a b, P a -> P b -> P (a + b)%Qc) -> (forall a b, P a -> P b -> P (a * b)%Qc) ->
  (forall a, P a -> (absv a <= tol)%Qc -> a = 0%Qc) ->
  NoDup (slaves st) -> acyclic st -> Forall (coefs P) st -> (forall k, In k ks <-> (k < length st)%nat) ->
  exists n0 c st', (forall fuel, (n0 <= fuel)%nat -> resolveAll tol fuel ks st = Some (c, st')) /\
    slaves st' = slaves st /\ (forall u, satisfies u st' <-> satisfies u st) /\
    (forall m d, In m st' -> In d (mmast m) -> ~ In (dkey d) (slaves st)) /\
    (forall j m, nth_error st j = Some m -> (forall d, In d (mmast m) -> ~ In (dkey d) (slaves st)) -> nth_error st' j = Some m).
Proof.
  intros tol P ks st Pa Pm Pn. apply resolveAll_spec; auto. intros a Ha Hn. rewrite negligible_abs in Hn.
  destruct (Qclt_le_dec tol (absv a)); [discriminate|auto].
Qed.
Print Assumptions C15_resolve_partial.
(** the tolerance of the code, integer coefficients (couplings, periodicity, averaging differences ...) *)
Theorem C15_resolve_integer : forall ks st, NoDup (slaves st) -> acyclic st -> Forall (coefs isInt) st -> (forall k, In k ks <-> (k < length st)%nat) ->
  exists n0 c st', (forall fuel, (n0 <= fuel)%nat -> resolveAll tol8 fuel ks st = Some (c, st')) /\
    slaves st' = slaves st /\ (forall u, satisfies u st' <-> satisfies u st) /\
    (forall m d, In m st' -> In d (mmast m) -> ~ In (dkey d) (slaves st)) /\
    (forall j m, nth_error st j = Some m -> (forall d, In d (mmast m) -> ~ In (dkey d) (slaves st)) -> nth_error st' j = Some m).
Proof. intros ks st. apply resolveAll_spec; [exact isInt_add|exact isInt_mul|exact isInt_neg]. Qed.
Print Assumptions C15_resolve_integer.
(** zero tolerance, all coefficients *)
Theorem C15_resolve_exact : forall ks st, NoDup (slaves st) -> acyclic st -> (forall k, In k ks <-> (k < length st)%nat) ->
  exists n0 c st', (forall fuel, (n0 <= fuel)%nat -> resolveAll 0 fuel ks st = Some (c, st')) /\
    slaves st' = slaves st /\ (forall u, satisfies u st' <-> satisfies u st) /\
    (forall m d, In m st' -> In d (mmast m) -> ~ In (dkey d) (slaves st)) /\
    (forall j m, nth_error st j = Some m -> (forall d, In d (mmast m) -> ~ In (dkey d) (slaves st)) -> nth_error st' j = Some m).
Proof.
  intros ks st N A K. apply (resolveAll_spec 0%Qc (fun _ => True)); auto; [intros a _; apply zero_tol_neg|].
  apply Forall_forall. intros m _. unfold coefs. apply Forall_forall. auto.
Qed.
Print Assumptions C15_resolve_exact.
(** pointer mode (time-dependent couplings): masters fixed by a boundary condition are
    dropped, chained masters get a pointer to the equation defining them.  For every field
    that is zero in the fixed DOFs, the equations with a non-fixed slave hold after linking
    iff they did before; for every order of visiting the equations *)
Theorem C15_link : forall (fixedDof : Z -> Z -> bool) ks st,
  NoDup (slaves st) -> acyclic st -> (forall m d, In m st -> In d (mmast m) -> dnext d = None) -> (forall k, In k ks <-> (k < length st)%nat) ->
  exists n0 st', (forall fuel, (n0 <= fuel)%nat -> resolveLnkAll fixedDof fuel ks st = Some st') /\
    map mslave st' = map mslave st /\
    (forall u, (forall n d, fixedDof n d = true \/ d <= 0 -> u (n, d) = 0%Qc) ->
       ((forall m, In m st' -> fixedDof (dnode (mslave m)) (dldof (mslave m)) = false -> holds u m) <->
        (forall m, In m st -> fixedDof (dnode (mslave m)) (dldof (mslave m)) = false -> holds u m))) /\
    (forall m d, In m st' -> In d (mmast m) -> fixedDof (dnode d) (dldof d) = false /\ 0 < dldof d /\
       match dnext d with
       | None => ~ In (dkey d) (slaves st)
       | Some j => exists m', nth_error st' j = Some m' /\ dkey (mslave m') = dkey d /\
                     (mmast m' <> [] \/ dcoef (mslave m') <> 0%Qc)
       end).
Proof. exact linkAll_spec. Qed.
Print Assumptions C15_link.
Example C15_link_case : let st := [mkMPC (dm 1 1 0) [dm 2 1 2; dm 5 1 1; dm 3 1 4]; mkMPC (dm 2 1 7) [dm 3 1 3; dm 6 1 (-2)]; mkMPC (dm 3 1 0) [dm 6 1 1]] in
  resolveLnkAll (fun n d => (n =? 6) && (d =? 1)) 100 [0;1;2]%nat st =
    Some [mkMPC (dm 1 1 0) [mkD 2 1 (qz 2) (Some 1%nat); dm 5 1 1]; mkMPC (dm 2 1 7) []; mkMPC (dm 3 1 0) []].
Proof. vm_compute. reflexivity. Qed.
(** without pointers, a chain through a fixed master is replaced by the master's own
    coupling: the field with the boundary conditions no longer satisfies what it did before *)
Theorem C15_fixed_master_refuted : exists (fixedDof : Z -> Z -> bool) st c st' u, NoDup (slaves st) /\ acyclic st /\
  resolveAll tol8 100 [0;1]%nat st = Some (c, st') /\
  (forall n d, fixedDof n d = true -> u (n, d) = 0%Qc) /\
  (forall m, In m st -> fixedDof (dnode (mslave m)) (dldof (mslave m)) = false -> holds u m) /\
  (exists m, In m st' /\ fixedDof (dnode (mslave m)) (dldof (mslave m)) = false /\ ~ holds u m).
Proof.
  exists (fun n d => n =? 2), [mkMPC (dm 1 1 0) [dm 2 1 1]; mkMPC (dm 2 1 0) [dm 3 1 1]], 1%nat,
         [mkMPC (dm 1 1 0) [dm 3 1 1]; mkMPC (dm 2 1 0) [dm 3 1 1]], (fun k => if fst k =? 3 then 1%Qc else 0%Qc).
  split; [cbv [slaves map]; repeat apply NoDup_cons; [..|apply NoDup_nil]; vm_compute; intuition congruence|].
  split; [exists (fun k => Z.to_nat (3 - fst k)); cbn; intros m d [<-|[<-|[]]] [<-|[]] _; cbn; lia|].
  split; [vm_compute; reflexivity|]. split; [intros n d H; cbn; destruct (Z.eqb_spec n 3); [apply Z.eqb_eq in H; lia|reflexivity]|]. split.
  - intros m [<-|[<-|[]]] H; [|discriminate]. vm_compute. apply Qc_is_canon. reflexivity.
  - eexists. split; [left; reflexivity|]. split; [reflexivity|]. intros H1. unfold holds, rhs in H1. apply (f_equal this) in H1. vm_compute in H1. discriminate.
Qed.
Print Assumptions C15_fixed_master_refuted.
(** small coefficients: the product along a chain is dropped and the solution set changes *)
Definition small : Qc := Q2Qc (1 # 100000).
Theorem C15_tolerance_refuted : exists st c st' u, NoDup (slaves st) /\ acyclic st /\
  resolveAll tol8 100 [0;1]%nat st = Some (c, st') /\ satisfies u st /\ ~ satisfies u st'.
Proof.
  exists [mkMPC (dm 1 1 0) [mkD 2 1 small None]; mkMPC (dm 2 1 0) [mkD 3 1 small None]], 1%nat,
         [mkMPC (dm 1 1 0) []; mkMPC (dm 2 1 0) [mkD 3 1 small None]],
         (fun k => if fst k =? 1 then (small * small)%Qc else if fst k =? 2 then small else 1%Qc).
  split; [cbv [slaves map]; repeat apply NoDup_cons; [..|apply NoDup_nil]; vm_compute; intuition congruence|]. split.
  { exists (fun k => Z.to_nat (3 - fst k)). cbn. intros m d [<-|[<-|[]]] [<-|[]] _; cbn; lia. }
  split; [vm_compute; reflexivity|]. split.
  - repeat constructor; vm_compute; apply Qc_is_canon; reflexivity.
  - intros H. inversion H as [|? ? H1 _]; subst. unfold holds, rhs in H1. apply (f_equal this) in H1. vm_compute in H1. discriminate.
Qed.
Print Assumptions C15_tolerance_refuted.
(** mutually dependent equations: the recursion does not end *)
Theorem C15_cyclic_refuted : exists st, NoDup (slaves st) /\ Forall (coefs isInt) st /\
  forall fuel, resolveAll tol8 fuel [0;1]%nat st = None.
Proof.
  set (st := [mkMPC (dm 1 1 0) [dm 2 1 1]; mkMPC (dm 2 1 0) [dm 1 1 1]]). exists st. split; [cbv [slaves map]; repeat apply NoDup_cons; [..|apply NoDup_nil]; vm_compute; intuition congruence|]. split.
  { repeat constructor; exists 1; reflexivity. }
  assert (H : forall fuel, resolve tol8 fuel st 0 0 = None /\ resolve tol8 fuel st 1 0 = None).
  { induction fuel as [|f [IH1 IH2]]; [split; reflexivity|].
    assert (E0 : resolve tol8 (S f) st 0 0 = match resolve tol8 f st 1 0 with None => None | Some (_, st1) =>
      match resolve tol8 f (upd 0 (substMaster tol8 (nthM st1 0) 0 (nthM st1 1)) st1) 0 0 with None => None | Some (_, st2) => Some (true, st2) end end) by reflexivity.
    assert (E1 : resolve tol8 (S f) st 1 0 = match resolve tol8 f st 0 0 with None => None | Some (_, st1) =>
      match resolve tol8 f (upd 1 (substMaster tol8 (nthM st1 1) 0 (nthM st1 0)) st1) 1 0 with None => None | Some (_, st2) => Some (true, st2) end end) by reflexivity.
    rewrite E0, E1, IH1, IH2. auto. }
  intros fuel. cbn [resolveAll]. rewrite (proj1 (H fuel)). reflexivity.
Qed.
Print Assumptions C15_cyclic_refuted.
Example C15_case : let st := [mkMPC (dm 1 1 0) [dm 2 1 2; dm 5 1 1]; mkMPC (dm 2 1 7) [dm 3 1 3; dm 5 1 (-2)]; mkMPC (dm 3 1 0) [dm 6 1 1]] in
  NoDup (slaves st) /\ acyclic st /\ Forall (coefs isInt) st /\
  resolveAll tol8 100 [0;1;2]%nat st = Some (1%nat,
    [mkMPC (dm 1 1 14) [dm 5 1 (-3); dm 6 1 6]; mkMPC (dm 2 1 7) [dm 5 1 (-2); dm 6 1 3]; mkMPC (dm 3 1 0) [dm 6 1 1]]).
Proof.
  split; [cbv [slaves map]; repeat apply NoDup_cons; [..|apply NoDup_nil]; vm_compute; intuition congruence|]. split; [|split].
  - exists (fun k => Z.to_nat (7 - fst k)). cbn. intros m d [<-|[<-|[<-|[]]]] Hd Hs; cbn in Hd; intuition subst; cbn in *; lia.
  - repeat constructor; eexists; reflexivity.
  - vm_compute. reflexivity.
Qed.

(** ** C36: merging the constraint sets of the patches *)
Theorem C36_merge : forall tol patches, Forall (increasing (mpcLess true)) patches ->
  increasing (mpcLess true) (map snd (mergeAll tol patches)) /\
  (forall k, In k (slaves (map snd (mergeAll tol patches))) <-> exists P, In P patches /\ In k (slaves P)) /\
  (forall p m, In (p, m) (mergeAll tol patches) -> exists P x, nth_error patches p = Some P /\ In x P /\ dkey (mslave x) = dkey (mslave m) /\
     (forall q Q, (q < p)%nat -> nth_error patches q = Some Q -> ~ In (dkey (mslave m)) (slaves Q)) /\
     combined tol x (flat_map (withSlave (dkey (mslave m))) (skipn (S p) patches)) m).
Proof. exact mergeAll_spec. Qed.
Print Assumptions C36_merge.
(** one equation per slave DOF over the whole model *)
Theorem C36_unique : forall tol patches, Forall (increasing (mpcLess true)) patches -> NoDup (slaves (map snd (mergeAll tol patches))).
Proof. intros tol patches H. apply increasing_distinct, mergeAll_spec, H. Qed.
Print Assumptions C36_unique.
Example C36_case : let p1 := [mkMPC (dm 1 1 0) [dm 4 1 1; dm 5 1 1]; mkMPC (dm 2 1 3) []] in
  let p2 := [mkMPC (dm 1 1 0) [dm 5 1 2; dm 6 1 1]; mkMPC (dm 2 1 0) [dm 8 1 1; dm 9 1 1]; mkMPC (dm 3 1 0) [dm 7 1 1]] in
  Forall (increasing (mpcLess true)) [p1; p2] /\
  mergeAll tol8 [p1; p2] = [(0%nat, mkMPC (dm 1 1 0) [dm 4 1 1; dm 5 1 3; dm 6 1 1]); (0%nat, mkMPC (dm 2 1 3) []); (1%nat, mkMPC (dm 3 1 0) [dm 7 1 1])].
Proof. split; [|vm_compute; reflexivity]. repeat constructor. Qed.
(** the order of the patches matters: a coupling superseded by a prescribed value or not *)
Theorem C36_patch_order_refuted : exists P Q, Forall (increasing (mpcLess true)) [P; Q] /\
  map snd (mergeAll tol8 [P; Q]) <> map snd (mergeAll tol8 [Q; P]) /\
  exists u, satisfies u (map snd (mergeAll tol8 [P; Q])) /\ ~ satisfies u (map snd (mergeAll tol8 [Q; P])).
Proof.
  exists [mkMPC (dm 1 1 3) []], [mkMPC (dm 1 1 0) [dm 2 1 1; dm 3 1 1]]. split; [repeat constructor|]. split; [vm_compute; discriminate|].
  exists (fun k => if fst k =? 1 then qz 3 else 0%Qc). split.
  - repeat constructor.
  - intros H. inversion H as [|? ? H1 _]; subst. unfold holds, rhs in H1. apply (f_equal this) in H1. vm_compute in H1. discriminate.
Qed.
Print Assumptions C36_patch_order_refuted.
