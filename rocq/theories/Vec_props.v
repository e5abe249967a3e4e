(** Properties C28 (gather), C48 (extracting and injecting nodal vectors), C49 (element results,
    solution fields, control points), C50 (deformed coordinates), C51 (parsing of integer
    lists) and C52 (array utilities). The reader needs [Vec_spec], and [isMat] of [Mat_spec]. *)
From Coq Require Import String.
From Coq Require Import List Sorted Arith ZArith QArith Qcanon Bool Lia Ascii.
From Verif Require Import Base QcLra Mat_model Mat_spec Mat_proofs Mat_proofs2 Vec_model Vec_spec Vec_proofs Vec_proofs2 Vec_proofs3 Vec_proofs4.
Import ListNotations.
Local Open Scope Z_scope.

Definition zq (z : Z) : Qc := Q2Qc (inject_Z z).
Definition v10 : list Qc := map zq [0; 1; 2; 3; 4; 5; 6; 7; 8; 9].

(** ** C28 *)
(** when the input consists of whole blocks: the selected blocks are copied in order, the
    indices past the end are counted, and the other entries of [out] are left as they are *)
Theorem C28_gather : forall index nr inp out off nskip, (length inp <= off)%nat \/ wholeBlocks off nr inp ->
  let n := (length index - nskip)%nat in
  exists cnt out', gather1 index nr inp out off nskip = Some (cnt, out') /\ length out' = (nr * n)%nat /\
    countOf (outsideOf off nr inp) (firstn n index) cnt /\
    forall i r, (i < n)%nat -> (r < nr)%nat -> let ix := nth i index 0 in
      (within off nr inp ix -> nth (i * nr + r) out' 0%Qc = nth (off + nr * Z.to_nat ix + r) inp 0%Qc) /\
      (~ within off nr inp ix -> nth (i * nr + r) out' 0%Qc = nth (i * nr + r) out 0%Qc).
Proof. exact gather1_ok. Qed.
Print Assumptions C28_gather.
Example C28_gather_ex : gather1 [3; -1; 7; 0; 2] 2 v10 (map zq [77; 78; 79]) 2 1 = Some (1%nat, map zq [8; 9; 79; 0; 0; 0; 2; 3]) /\ wholeBlocks 2 2 v10.
Proof. split; [vm_compute; reflexivity|exists 4%nat; reflexivity]. Qed.
(** without whole blocks the last block is read past the end of the input *)
Theorem C28_cut_block_refuted : forall index nr inp out off nskip i, (i < length index - nskip)%nat -> within off nr inp (nth i index 0) ->
  (length inp < off + nr * Z.to_nat (nth i index 0%Z) + nr)%nat -> gather1 index nr inp out off nskip = None.
Proof. exact gather1_partial. Qed.
Print Assumptions C28_cut_block_refuted.
Example C28_cut_block_ex : within 0 3 v10 3 /\ gather1 [3] 3 v10 [] 0 0 = None.
Proof. split; [unfold within; cbn; lia|vm_compute; reflexivity]. Qed.
(** the output is not cleared: an entry with a negative index keeps an old value *)
Theorem C28_stale_refuted : exists index inp out v, gather1 index 1 inp out 0 0 = Some (O, v) /\ nth 0 index 0 < 0 /\ nth 0 v 0%Qc <> 0%Qc.
Proof. exists [-1], v10, [zq 5], [zq 5]. split; [vm_compute; reflexivity|]. split; [reflexivity|]. intros H. vm_compute in H. discriminate H. Qed.
Print Assumptions C28_stale_refuted.
(** the variant with a matrix as output; [f0] is its content after the resize *)
Theorem C28_gather_matrix : forall index nr inp out off nskip f0, (length inp <= off)%nat \/ wholeBlocks off nr inp ->
  let n := (length index - nskip)%nat in isMat nr n f0 (mresize nr n false out) ->
  exists cnt out', gather2 index nr inp out off nskip = Some (cnt, out') /\
    countOf (outsideOf off nr inp) (firstn n index) cnt /\
    exists g, isMat nr n g out' /\
    forall i r, (i < n)%nat -> (r < nr)%nat -> let ix := nth i index 0 in
      (within off nr inp ix -> g r i = nth (off + nr * Z.to_nat ix + r) inp 0%Qc) /\
      (~ within off nr inp ix -> g r i = f0 r i).
Proof. intros index nr inp out off nskip f0 WB n M. eapply gather2_ok; [exact WB|exact M|reflexivity]. Qed.
Print Assumptions C28_gather_matrix.
(** a new matrix has only zeros after the resize *)
Theorem C28_gather_new : forall nr n, isMat nr n (fun _ _ => 0%Qc) (mresize nr n false mclear).
Proof.
  intros nr n. assert (M : isMat 0 0 (fun _ _ => 0%Qc) mclear) by (repeat split; cbn; intros; try lia; right; auto).
  destruct (Nat.eq_dec (nr * n) (0 * 0)) as [Q|Q].
  - destruct (resize_same _ _ nr n _ _ M Q) as (A & B & C & D & E2). repeat split; auto; [rewrite A; cbn; lia|]. intros i j Hi Hj. cbn in Q. nia.
  - pose proof (resize_keep _ _ nr n _ _ M Q) as R. eapply isMat_ext; [|exact R]. intros i j _ _. cbn beta. destruct ((nr =? 0)%nat && (j <? 0)%nat); reflexivity.
Qed.
Print Assumptions C28_gather_new.
Example C28_gather_matrix_ex : option_map (fun r => (fst r, elem (snd r))) (gather2 [3; 7; 0] 2 v10 mclear 2 0) = Some (1%nat, map zq [8; 9; 0; 0; 2; 3]).
Proof. vm_compute. reflexivity. Qed.
(** the variant for one row is in bounds for every input; the row must exist *)
Theorem C28_gather_row : forall index ir nr inp out off shift nskip, (ir < nr)%nat ->
  let n := (length index - nskip)%nat in
  exists cnt out', gather3 index ir nr inp out off shift nskip = Some (cnt, out') /\ length out' = n /\
    countOf (outside3 off ir nr inp shift) (firstn n index) cnt /\
    forall i, (i < n)%nat -> let ix := nth i index 0 in
      (within3 off ir nr inp shift ix -> nth i out' 0%Qc = nth (off + ir + nr * Z.to_nat (ix - shift)) inp 0%Qc) /\
      (~ within3 off ir nr inp shift ix -> nth i out' 0%Qc = nth i out 0%Qc).
Proof. exact gather3_ok. Qed.
Print Assumptions C28_gather_row.
Theorem C28_gather_norow : forall index ir nr inp out off shift nskip, (nr <= ir)%nat -> gather3 index ir nr inp out off shift nskip = Some (length index, out).
Proof. intros. unfold gather3. destruct (Nat.leb_spec nr ir); [reflexivity|lia]. Qed.
Print Assumptions C28_gather_norow.
Example C28_gather_row_ex : gather3 [1; 4; 0; -1] 1 3 v10 [] 0 1 0 = Some (2%nat, map zq [1; 0; 0; 0]) /\ gather3 [2; 3] 1 3 v10 [] 0 1 0 = Some (0%nat, map zq [4; 7]).
Proof. split; vm_compute; reflexivity. Qed.

(** ** C48 *)
(** the local vector is the sequence of the values of the patch nodes *)
Theorem C48_extract : forall chk MLGN nnod madof ngnod glob, okMADOF madof (length glob) -> nodesIn madof MLGN -> ngnod <> 0 -> ngnod <> -2 ->
  (0 < ngnod -> Forall (fun n => n <= ngnod) MLGN) ->
  extractNodalVec chk MLGN nnod madof ngnod glob = Some (true, flat_map (nodeVals madof glob) MLGN).
Proof.
  intros chk MLGN nnod madof ngnod glob K N H0 H2 G. unfold extractNodalVec. destruct (Z.eqb_spec ngnod 0); [contradiction|]. destruct (Z.eqb_spec ngnod (-2)); [contradiction|].
  rewrite (extractLoop_ok chk madof ngnod glob MLGN K N G []). reflexivity.
Qed.
Print Assumptions C48_extract.
(** the variant without the extra nodes *)
Theorem C48_extract_regular : forall chk MLGN nnod madof glob, okMADOF madof (length glob) -> nodesIn madof (firstn nnod MLGN) -> (nnod <= length MLGN)%nat ->
  extractNodalVec chk MLGN nnod madof (-2) glob = Some (true, flat_map (nodeVals madof glob) (firstn nnod MLGN)).
Proof.
  intros chk MLGN nnod madof glob K N L. unfold extractNodalVec. cbn [Z.eqb Pos.eqb]. rewrite (proj2 (Nat.leb_le _ _) L).
  rewrite (extractLoop_ok chk madof (-2) glob _ K N ltac:(lia) []). reflexivity.
Qed.
Print Assumptions C48_extract_regular.
Definition mad : list Z := [1; 3; 3; 6; 7].
Example C48_extract_ex : extractNodalVec false [3; 1; 2] 3 mad 4 (map zq [10; 11; 12; 13; 14; 15]) = Some (true, map zq [12; 13; 14; 10; 11])
  /\ okMADOF mad 6 /\ nodesIn mad [3; 1; 2] /\ flat_map (nodeVals mad (map zq [10; 11; 12; 13; 14; 15])) [3; 1; 2] = map zq [12; 13; 14; 10; 11].
Proof.
  split; [vm_compute; reflexivity|]. split; [|split; [repeat (apply Forall_cons; [cbn; lia|]); apply Forall_nil|vm_compute; reflexivity]]. split; [repeat (apply Forall_cons; [cbn; lia|]); apply Forall_nil|].
  intros n H. cbn in H. assert (n = 1 \/ n = 2 \/ n = 3 \/ n = 4) as [-> | [-> | [-> | ->]]] by lia; vm_compute; intros Q; discriminate Q.
Qed.
(** with INDEX_CHECK and a proper node count, no tables at all can make it read out of bounds *)
Theorem C48_extract_checked : forall MLGN nnod madof ngnod glob, 0 < ngnod -> ngnod + 1 <= Z.of_nat (length madof) ->
  exists r, extractNodalVec true MLGN nnod madof ngnod glob = Some r.
Proof.
  intros. unfold extractNodalVec. destruct (Z.eqb_spec ngnod 0); [lia|]. destruct (Z.eqb_spec ngnod (-2)); [lia|]. apply extractLoop_safe; auto.
Qed.
Print Assumptions C48_extract_checked.
(** the nodes of the patch that are on the given basis; 68 is 'D', 80 is 'P', 81 is 'Q', ... *)
Definition basisNodes (MLGN types : list Z) (basis : Z) : list Z :=
  map fst (filter (fun nt => (basis =? 0) || (snd nt =? (if basis =? 1 then 68 else 78 + basis))) (combine MLGN types)).
Lemma basisNodes_on MLGN types basis : length types = length MLGN ->
  onNodes (map (fun k => (nth k MLGN 0, (basis =? 0) || (nth k types 0 =? (if basis =? 1 then 68 else 80 + basis - 2)))) (seq 0 (length MLGN))) = basisNodes MLGN types basis.
Proof.
  unfold onNodes, basisNodes. replace (80 + basis - 2) with (78 + basis) by lia. set (b := if basis =? 1 then 68 else 78 + basis).
  revert types. induction MLGN as [|n MLGN IH]; intros [|t types] L; try discriminate L; [reflexivity|]. cbn [length seq map combine filter nth snd].
  rewrite <- seq_shift, map_map. specialize (IH types ltac:(cbn in L; lia)). cbn [nth] in *. destruct ((basis =? 0) || (t =? b)); cbn [filter snd map fst]; [f_equal|]; exact IH.
Qed.
(** injecting sets the values of the nodes on the basis, in order, and nothing else; what was
    injected can be extracted again *)
Theorem C48_inject : forall chk MLGN types madof basis nodeVec glob, let ns := basisNodes MLGN types basis in
  length types = length MLGN -> madof <> [] -> okMADOF madof (length glob) -> nodesIn madof ns ->
  length nodeVec = length (flat_map (nodeVals madof glob) ns) ->
  exists g, injectNodalVec chk MLGN types madof basis nodeVec glob = Some (true, g) /\ length g = length glob /\
    (NoDup ns -> flat_map (nodeVals madof g) ns = nodeVec) /\
    (forall p, (forall n, In n ns -> ~ ofNode madof n p) -> nth p g 0%Qc = nth p glob 0%Qc) /\
    (nodeVec = flat_map (nodeVals madof glob) ns -> g = glob).
Proof.
  intros chk MLGN types madof basis nodeVec glob ns LT NE K N L. unfold injectNodalVec. destruct madof as [|m0 madof']; [contradiction|]. set (madof := m0 :: madof') in *.
  set (sel := map _ _). assert (S1 : onNodes sel = ns) by (apply basisNodes_on; exact LT). rewrite flat_length in L.
  destruct (injectLoop_ok chk madof nodeVec sel ltac:(rewrite S1; exact N) 0 glob K ltac:(rewrite S1; lia)) as (g & E & Lg & U & V & I). rewrite S1 in *.
  cbn [skipn] in *. rewrite <- L, firstn_all in V, I. exists g. auto.
Qed.
Print Assumptions C48_inject.
Example C48_inject_ex : injectNodalVec false [3; 1; 2; 4] [68; 68; 80; 80] mad 1 (map zq [1; 2; 3; 4; 5]) (map zq [10; 11; 12; 13; 14; 15]) = Some (true, map zq [4; 5; 1; 2; 3; 15])
  /\ injectNodalVec false [3; 1; 2; 4] [68; 68; 80; 80] mad 2 (map zq [9]) (map zq [10; 11; 12; 13; 14; 15]) = Some (true, map zq [10; 11; 12; 13; 14; 9])
  /\ basisNodes [3; 1; 2; 4] [68; 68; 80; 80] 1 = [3; 1].
Proof. split; [vm_compute; reflexivity|]. split; vm_compute; reflexivity. Qed.
(** extracting after injecting all the nodes, and injecting what was extracted *)
Theorem C48_roundtrip : forall chk MLGN types nnod madof ngnod nodeVec glob, length types = length MLGN ->
  okMADOF madof (length glob) -> nodesIn madof MLGN -> madof <> [] -> NoDup MLGN ->
  ngnod <> 0 -> ngnod <> -2 -> (0 < ngnod -> Forall (fun n => n <= ngnod) MLGN) ->
  length nodeVec = length (flat_map (nodeVals madof glob) MLGN) ->
  exists g, injectNodalVec chk MLGN types madof 0 nodeVec glob = Some (true, g) /\ extractNodalVec chk MLGN nnod madof ngnod g = Some (true, nodeVec).
Proof.
  intros chk MLGN types nnod madof ngnod nodeVec glob LT K N NE D G0 G2 G L.
  assert (B : basisNodes MLGN types 0 = MLGN).
  { unfold basisNodes. cbn [Z.eqb]. clear -LT. revert types LT. induction MLGN as [|n l IH]; intros [|t types] LT; try discriminate LT; [reflexivity|]. cbn [combine filter orb map fst]. f_equal. apply IH. cbn in LT. lia. }
  destruct (C48_inject chk MLGN types madof 0 nodeVec glob LT NE K) as (g & E & Lg & V & _ & _); [rewrite B; exact N|rewrite B; exact L|]. rewrite B in V. specialize (V D).
  exists g. split; [exact E|]. rewrite C48_extract; [rewrite V; reflexivity|rewrite Lg; exact K|exact N|exact G0|exact G2|exact G].
Qed.
Print Assumptions C48_roundtrip.
(** a node number one past the last node passes the INDEX_CHECK test of the injection and reads
    the table out of bounds *)
Theorem C48_inject_check_refuted : forall madof nodeVec glob, madof <> [] ->
  injectNodalVec true [Z.of_nat (length madof)] [68] madof 0 nodeVec glob = None.
Proof.
  intros madof nodeVec glob NE. unfold injectNodalVec. destruct madof as [|m0 madof']; [contradiction|]. cbn [length seq map nth Z.eqb orb].
  destruct (inject_off_by_one (m0 :: madof') nodeVec glob [] 0) as [Q|Q]; [exact Q|discriminate Q].
Qed.
Print Assumptions C48_inject_check_refuted.
(** the variants for a fixed number of values per node; Lagrange multipliers come last *)
Theorem C48_extract_uniform : forall MLGN lms nf nndof glob v0, let nd := if (nndof =? 0)%nat then nf else nndof in
  (noLM MLGN lms <= length MLGN)%nat -> Forall (uIn nd glob) (firstn (noLM MLGN lms) MLGN) ->
  exists v, extractNodeVec MLGN lms nf nndof glob v0 = Some v /\ length v = (noLM MLGN lms * nd)%nat /\
    forall i c, (i < noLM MLGN lms)%nat -> (c < nd)%nat -> nth (i * nd + c) v 0%Qc = uval nd glob (nth i MLGN 0) c.
Proof. exact extractNodeVec_ok. Qed.
Print Assumptions C48_extract_uniform.
Theorem C48_inject_uniform : forall MLGN lms nf nndof nodeVec glob, let nd := if (nndof =? 0)%nat then nf else nndof in
  (noLM MLGN lms <= length MLGN)%nat -> length nodeVec = (noLM MLGN lms * nd)%nat ->
  exists g, injectNodeVec MLGN lms nf nndof nodeVec glob = Some (true, g) /\ length g = length glob /\
    (forall i c, (i < noLM MLGN lms)%nat -> (c < nd)%nat -> uIn nd glob (nth i MLGN 0) ->
       (forall j, (i < j < noLM MLGN lms)%nat -> nth j MLGN 0 <> nth i MLGN 0) ->
       uval nd g (nth i MLGN 0) c = nth (i * nd + c) nodeVec 0%Qc) /\
    (forall n c, 1 <= n -> (c < nd)%nat -> ~ In n (firstn (noLM MLGN lms) MLGN) -> uval nd g n c = uval nd glob n c).
Proof. exact injectNodeVec_ok. Qed.
Print Assumptions C48_inject_uniform.
Theorem C48_inject_uniform_size : forall MLGN lms nf nndof nodeVec glob, let nd := if (nndof =? 0)%nat then nf else nndof in
  length nodeVec <> (noLM MLGN lms * nd)%nat -> injectNodeVec MLGN lms nf nndof nodeVec glob = Some (false, glob).
Proof. exact injectNodeVec_size. Qed.
Print Assumptions C48_inject_uniform_size.
Example C48_uniform_ex : extractNodeVec [3; 1; 9] [3%nat] 2 0 (map zq [10; 11; 12; 13; 14; 15]) [] = Some (map zq [14; 15; 10; 11])
  /\ injectNodeVec [3; 1; 9] [] 2 0 (map zq [1; 2; 3; 4; 5; 6]) (map zq [10; 11; 12; 13; 14; 15]) = Some (true, map zq [3; 4; 12; 13; 1; 2]).
Proof. split; vm_compute; reflexivity. Qed.

(** ** C49 *)
(** one value for each active element, by its global number or counted from a first one; values
    beyond the end are zero *)
Theorem C49_elmRes : forall els glob,
  extractElmRes els glob 0 = Some (map (fun e => nth (Z.to_nat (fst e) - 1) glob 0%Qc) (filter active els)) /\
  forall first, (1 <= first)%nat -> extractElmRes els glob first = Some (map (fun k => nth k glob 0%Qc) (seq (first - 1) (length (filter active els)))).
Proof.
  intros els glob. unfold extractElmRes. split.
  - cbn [Nat.ltb Nat.leb]. rewrite (elmRes_ge els glob []). reflexivity.
  - intros first H. rewrite (proj2 (Nat.ltb_lt 0 first)) by lia. rewrite (elmRes_int els glob first [] H). reflexivity.
Qed.
Print Assumptions C49_elmRes.
Theorem C49_elmRow : forall els glob r c f irow, isMat r c f glob -> (1 <= irow <= r)%nat ->
  extractElmRow els glob irow = Some (map (fun e => if (Z.to_nat (fst e) <=? c)%nat then f (irow - 1)%nat (Z.to_nat (fst e) - 1)%nat else 0%Qc) (filter active els)).
Proof. intros els glob r c f irow M R. unfold extractElmRow. rewrite (elmRow_ok els glob r c f irow M R []). reflexivity. Qed.
Print Assumptions C49_elmRow.
Example C49_elm_ex : extractElmRes [(2, 4%nat); (0, 4%nat); (3, 1%nat); (11, 4%nat); (1, 4%nat)] v10 0 = Some (map zq [1; 0; 0])
  /\ extractElmRes [(2, 4%nat); (0, 4%nat); (3, 1%nat); (11, 4%nat); (1, 4%nat)] v10 9 = Some (map zq [8; 9; 0])
  /\ extractElmRow [(2, 4%nat); (7, 4%nat); (1, 4%nat)] (mkMat 2 5 1 1 v10) 2 = Some (map zq [3; 0; 1]).
Proof. repeat split; vm_compute; reflexivity. Qed.
(** the solution in given nodes, zero for Lagrange multipliers *)
Theorem C49_getSolution : forall nf maxNod lms locSol nodes sField r0 c0 f0, isMat r0 c0 f0 sField ->
  Forall (fun n => 1 <= n <= Z.of_nat maxNod) nodes ->
  Forall (fun n => ~ In (Z.to_nat n) lms -> (nf * Z.to_nat n <= length locSol)%nat) nodes ->
  exists m g, getSolution nf maxNod lms locSol nodes sField = Some (true, m) /\ isMat nf (length nodes) g m /\
    forall r j, (r < nf)%nat -> (j < length nodes)%nat -> let n := nth j nodes 0 in
      (In (Z.to_nat n) lms -> g r j = 0%Qc) /\ (~ In (Z.to_nat n) lms -> g r j = uval nf locSol n r).
Proof.
  intros nf maxNod lms locSol nodes sField r0 c0 f0 M R V. destruct (resize_any _ _ _ _ nf (length nodes) M) as (f1 & M1).
  destruct (getSolLoop_ok nf maxNod lms locSol nodes 0 (length nodes) f1 _ M1 eq_refl R V) as (m & E & g & Mg & G). exists m, g. split; [exact E|]. split; [exact Mg|].
  intros r j Hr Hj. destruct (G r j Hr Hj) as [_ G2]. specialize (G2 ltac:(lia)). rewrite Nat.sub_0_r in G2. exact G2.
Qed.
Print Assumptions C49_getSolution.
Theorem C49_getSolution_bad : forall nf maxNod lms locSol nodes sField r0 c0 f0, isMat r0 c0 f0 sField ->
  Exists (fun n => ~ 1 <= n <= Z.of_nat maxNod) nodes ->
  Forall (fun n => 1 <= n <= Z.of_nat maxNod -> ~ In (Z.to_nat n) lms -> (nf * Z.to_nat n <= length locSol)%nat) nodes ->
  exists m, getSolution nf maxNod lms locSol nodes sField = Some (false, m).
Proof.
  intros nf maxNod lms locSol nodes sField r0 c0 f0 M X V. destruct (resize_any _ _ _ _ nf (length nodes) M) as (f1 & M1).
  exact (getSolLoop_bad nf maxNod lms locSol nodes 0 (length nodes) f1 _ M1 (le_n _) X V).
Qed.
Print Assumptions C49_getSolution_bad.
Example C49_getSolution_ex : option_map (fun r => (fst r, elem (snd r))) (getSolution 2 5 [5%nat] v10 [2; 5; 1] (mkMat 2 1 1 1 (map zq [7; 7]))) = Some (true, map zq [2; 3; 0; 0; 0; 1]).
Proof. vm_compute. reflexivity. Qed.
(** the control point search returns the closest point within the tolerance *)
Theorem C49_searchCtrlPt : forall nsd dim X tol pts, (1 <= dim)%nat -> (nsd <= 3)%nat -> (nsd <= dim)%nat -> Forall (fun v => length v = dim) pts ->
  bestOf tol X (map (pt3 nsd) pts) (searchCtrlPt nsd dim X tol (concat pts)).
Proof. exact searchCtrlPt_ok. Qed.
Print Assumptions C49_searchCtrlPt.
Example C49_searchCtrlPt_ex : searchCtrlPt 2 3 (zq 4, zq 4, 0%Qc) (zq 2) (concat [map zq [0; 0; 1]; map zq [3; 3; 1]; map zq [4; 5; 1]; map zq [5; 4; 1]]) = 3%nat
  /\ searchCtrlPt 2 3 (zq 4, zq 4, zq 9) (zq 2) (concat [map zq [4; 4; 9]]) = 0%nat.
Proof. split; vm_compute; reflexivity. Qed.

(** ** C50 *)
(** with as many displacements as coordinates the deformed coordinates are X + u, stored as the
    second (on request) or last vector; everything else is kept *)
Theorem C50_deformed_partial : forall nsd nen f X eV rest force, isMat nsd nen f X -> length eV = (nsd * nen)%nat -> (1 <= nsd * nen)%nat ->
  exists D, deformedConfig X (eV :: rest) force = (true, if force && negb (length rest =? 0)%nat then eV :: upd 0 D rest else eV :: rest ++ [D]) /\
    length D = (nsd * nen)%nat /\ forall i j, (i < nsd)%nat -> (j < nen)%nat -> nth (i + nsd * j) D 0%Qc = (f i j + nth (i + nsd * j) eV 0)%Qc.
Proof. exact deformed_ok. Qed.
Print Assumptions C50_deformed_partial.
(** sizes that do not match are refused *)
Theorem C50_deformed_bad : forall X eV rest force, eV <> [] -> (length eV < d1 X * d2 X)%nat \/ (length eV mod d2 X <> 0)%nat -> deformedConfig X (eV :: rest) force = (false, eV :: rest).
Proof. exact deformed_bad. Qed.
Print Assumptions C50_deformed_bad.
Definition X22 : mat := mkMat 2 2 1 1 (map zq [0; 0; 10; 20]).
Example C50_deformed_ex : deformedConfig X22 [map zq [1; 2; 3; 4]; []] true = (true, [map zq [1; 2; 3; 4]; map zq [1; 2; 13; 24]]).
Proof. vm_compute. reflexivity. Qed.
(** with more values than coordinates per node the values of the wrong nodes are added *)
Theorem C50_deformed_refuted : exists X eV D, isMat 2 2 (fun i j => nth (i + 2 * j) (elem X) 0%Qc) X /\ length eV = (3 * 2)%nat /\
  deformedConfig X [eV] false = (true, [eV; D]) /\ nth (0 + 2 * 1) D 0%Qc <> (nth (0 + 2 * 1) (elem X) 0 + nth (0 + 3 * 1) eV 0)%Qc.
Proof.
  exists X22, (map zq [1; 2; 3; 4; 5; 6]). eexists. split; [repeat split; auto|]. split; [reflexivity|]. split; [vm_compute; reflexivity|]. intros H. vm_compute in H. discriminate H.
Qed.
Print Assumptions C50_deformed_refuted.

(** ** C51 *)
Definition txt (s : string) : list ascii := list_ascii_of_string s.
Theorem C51_parse_partial : forall vals s vs, IntList s vs -> parseIntegers vals s = Some (true, vals ++ vs).
Proof. exact parseIntegers_ok. Qed.
Print Assumptions C51_parse_partial.
(** every text is read to the end without endless loop, and the values read before are kept *)
Theorem C51_parse_total : forall vals s, exists b ws, parseIntegers vals s = Some (b, vals ++ ws).
Proof. exact parseIntegers_total. Qed.
Print Assumptions C51_parse_total.
Lemma numI n (c : ascii) : nat_of_ascii c = (48 + n)%nat -> (n < 10)%nat -> Number [c] (Z.of_nat n).
Proof. intros H L. apply num_pos. replace (Z.of_nat n) with (10 * 0 + Z.of_nat (nat_of_ascii c - 48)) by (rewrite H; lia). apply dig_one. lia. Qed.
Example C51_parse_ex : IntList (txt "1 3 5:8 2") [1; 3; 5; 6; 7; 8; 2] /\ parseIntegers [] (txt "1 3 5:8 2") = Some (true, [1; 3; 5; 6; 7; 8; 2])
  /\ parseIntegers [4] (txt ",1,,3,") = Some (true, [4; 0; 1; 0; 3; 0]) /\ parseIntegers [] (txt "5 2.4") = Some (false, [5; 2; 0]).
Proof.
  split; [|repeat split; vm_compute; reflexivity].
  apply (il_num_blank (txt "1") 1 (txt "3 5:8 2")); [apply (numI 1); [reflexivity|lia]|].
  apply (il_num_blank (txt " 3") 3 (txt "5:8 2")); [apply num_blank, (numI 3); [reflexivity|lia]|].
  apply (il_range_blank (txt " 5") 5 (txt "8") 8 (txt "2") [2]); [apply num_blank, (numI 5); [reflexivity|lia]|apply (numI 8); [reflexivity|lia]|].
  apply (il_num (txt " 2")), num_blank, (numI 2); [reflexivity|lia].
Qed.
(** a comma after a range inserts a zero; blanks in front of a comma or at the end are an error *)
Theorem C51_range_comma_refuted : parseIntegers [] (txt "1:3,5") = Some (true, [1; 2; 3; 0; 5]) /\
  parseIntegers [] (txt "1 ,2") = Some (false, [1; 0]) /\ parseIntegers [] (txt "1 2 ") = Some (false, [1; 2; 0]).
Proof. repeat split; vm_compute; reflexivity. Qed.
Print Assumptions C51_range_comma_refuted.

(** ** C52 *)
Theorem C52_find_closest : forall a v, a <> [] -> (forall i j, (i <= j < length a)%nat -> (nth i a 0 <= nth j a 0)%Qc) ->
  (find_closest a v < length a)%nat /\ forall j, (j < length a)%nat -> (qabs (nth (find_closest a v) a 0 - v) <= qabs (nth j a 0 - v))%Qc.
Proof. exact find_closest_ok. Qed.
Print Assumptions C52_find_closest.
Example C52_find_closest_ex : find_closest (map zq [1; 4; 6; 20]) (zq 5) = 1%nat /\ find_closest (map zq [1; 4; 6; 20]) (zq 14) = 3%nat /\ find_closest (map zq [1; 4]) (zq 0) = 0%nat /\ find_closest (map zq [1; 4]) (zq 9) = 1%nat.
Proof. repeat split; vm_compute; reflexivity. Qed.
Theorem C52_findKey : forall m v, ((forall k, ~ In (k, v) m) -> findKey m v = v) /\
  ((exists k, In (k, v) m) -> StronglySorted (fun x y => fst x < fst y) m -> In (findKey m v, v) m /\ forall k, In (k, v) m -> findKey m v <= k).
Proof. exact findKey_ok. Qed.
Print Assumptions C52_findKey.
Theorem C52_findIndex : forall a v, (~ In v a -> findIndex a v = -1) /\
  (In v a -> exists i, findIndex a v = Z.of_nat i /\ (i < length a)%nat /\ nth i a 0 = v /\ forall j, (j < i)%nat -> nth j a 0 <> v).
Proof. intros a v. exact (findIndexFrom_ok a v 0). Qed.
Print Assumptions C52_findIndex.
(** merging appends the new values, each once *)
Theorem C52_merge : forall a1 a2, exists t, mergeInts a1 a2 = a1 ++ t /\ NoDup t /\ forall x, In x t <-> In x a2 /\ ~ In x a1.
Proof. intros a1 a2. exact (mergeInts_ok a2 a1). Qed.
Print Assumptions C52_merge.
(** merging values by keys: each key keeps its value, the first array has priority *)
Theorem C52_merge_values_partial : forall k1 k2 a1 a2, NoDup k2 -> length a1 = length k1 -> length a2 = length k2 ->
  exists v, mergeVals a1 a2 k1 k2 = Some v /\ length v = length (mergeInts k1 k2) /\
  forall x y, In (x, y) (combine (mergeInts k1 k2) v) <-> In (x, y) (combine k1 a1) \/ (In (x, y) (combine k2 a2) /\ ~ In x k1).
Proof. exact merge_keys. Qed.
Print Assumptions C52_merge_values_partial.
Example C52_merge_ex : mergeInts [5; 2] [2; 7; 7; 1] = [5; 2; 7; 1] /\ mergeVals (map zq [50; 20]) (map zq [21; 70; 10]) [5; 2] [2; 7; 1] = Some (map zq [50; 20; 70; 10]).
Proof. split; vm_compute; reflexivity. Qed.
(** with repeated keys the values no longer match the merged keys *)
Theorem C52_merge_duplicate_refuted : exists k1 k2 a1 a2 v, length a1 = length k1 /\ length a2 = length k2 /\ mergeVals a1 a2 k1 k2 = Some v /\ length v <> length (mergeInts k1 k2).
Proof. exists [1], [7; 7], [zq 1], [zq 2; zq 3], (map zq [1; 2; 3]). repeat split; try (vm_compute; reflexivity). vm_compute. discriminate. Qed.
Print Assumptions C52_merge_duplicate_refuted.
(** interleaving two nodal fields *)
Theorem C52_interleave : forall v1 v2 n1 n2 k out, length v1 = (k * n1)%nat -> length v2 = (k * n2)%nat -> (1 <= n1 + n2)%nat ->
  exists o, interleave v1 v2 n1 n2 out = Some o /\ length o = (k * (n1 + n2))%nat /\
    (forall i r, (i < k)%nat -> ((r < n1)%nat -> nth (i * (n1 + n2) + r) o 0%Qc = nth (i * n1 + r) v1 0%Qc) /\
                               ((r < n2)%nat -> nth (i * (n1 + n2) + n1 + r) o 0%Qc = nth (i * n2 + r) v2 0%Qc)).
Proof. exact interleave_ok. Qed.
Print Assumptions C52_interleave.
Example C52_interleave_ex : interleave (map zq [1; 2; 3; 4]) (map zq [10; 20]) 2 1 [] = Some (map zq [1; 2; 10; 3; 4; 20]) /\ interleave (map zq [1; 2; 3]) (map zq [10; 20]) 2 1 [] = None.
Proof. split; vm_compute; reflexivity. Qed.
