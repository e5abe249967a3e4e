(** Proofs about uniform nodal vectors, element results, solution fields and control points. *)
From Coq Require Import List Sorted Arith ZArith QArith Qcanon Bool Lia.
From Verif Require Import Base QcLra Mat_model Mat_spec Mat_proofs Mat_proofs2 Mat_proofs4 Mat_proofs5 Mat_proofs8 Vec_model Vec_spec Vec_proofs.
Import ListNotations.
Local Open Scope Z_scope.

Lemma extractNodeVec_ok MLGN lms nf nndof glob v0 : let nd := if (nndof =? 0)%nat then nf else nndof in
  (noLM MLGN lms <= length MLGN)%nat -> Forall (uIn nd glob) (firstn (noLM MLGN lms) MLGN) ->
  exists v, extractNodeVec MLGN lms nf nndof glob v0 = Some v /\ length v = (noLM MLGN lms * nd)%nat /\
    forall i c, (i < noLM MLGN lms)%nat -> (c < nd)%nat -> nth (i * nd + c) v 0%Qc = uval nd glob (nth i MLGN 0) c.
Proof.
  intros nd L U. unfold extractNodeVec. fold nd. set (N := noLM MLGN lms) in *.
  assert (UI : forall i, (i < N)%nat -> uIn nd glob (nth i MLGN 0)).
  { intros i Hi. rewrite Forall_forall in U. apply U. rewrite <- (nth_firstn_lt 0 MLGN N i Hi). apply nth_In. rewrite firstn_length. lia. }
  set (f := fun (i : nat) (v : list Qc) => _).
  destruct (forN_inv (fun k v => length v = (N * nd)%nat /\ forall i c, (i < k)%nat -> (c < nd)%nat -> nth (i * nd + c) v 0%Qc = uval nd glob (nth i MLGN 0) c) f N (stdResize (nd * N) v0)) as (v & E & L1 & F).
  - split; [rewrite stdResize_length; lia|intros; lia].
  - intros k v Hk [Lv F]. unfold f. destruct (UI k Hk) as [U1 U2]. set (n := nth k MLGN 0) in *.
    destruct (Z.ltb_spec (Z.of_nat nd * n - Z.of_nat nd) 0) as [Q|Q]; [exfalso; nia|].
    assert (EQ : Z.to_nat (Z.of_nat nd * n - Z.of_nat nd) = (nd * (Z.to_nat n - 1))%nat) by nia.
    rewrite EQ. destruct (memcpy_ok 0%Qc nd (nd * (Z.to_nat n - 1)) glob (k * nd) v) as (v' & E' & L' & F1 & F2); [nia|rewrite Lv; nia|].
    exists v'. split; [exact E'|]. split; [lia|]. intros i c Hi Hc. destruct (Nat.eq_dec i k) as [->|NE].
    + unfold uval. apply F1. exact Hc.
    + rewrite F2; [apply F; [lia|auto]|]. left. assert (i < k)%nat by lia. nia.
  - exists v. split; [exact E|]. split; [exact L1|]. intros i c Hi Hc. apply F; auto.
Qed.
Lemma injectNodeVec_size MLGN lms nf nndof nodeVec glob : let nd := if (nndof =? 0)%nat then nf else nndof in
  length nodeVec <> (noLM MLGN lms * nd)%nat -> injectNodeVec MLGN lms nf nndof nodeVec glob = Some (false, glob).
Proof. intros nd H. unfold injectNodeVec. fold nd. destruct (Nat.eqb_spec (length nodeVec) (noLM MLGN lms * nd)); [contradiction|reflexivity]. Qed.
Lemma injectNodeVec_ok MLGN lms nf nndof nodeVec glob : let nd := if (nndof =? 0)%nat then nf else nndof in
  (noLM MLGN lms <= length MLGN)%nat -> length nodeVec = (noLM MLGN lms * nd)%nat ->
  exists g, injectNodeVec MLGN lms nf nndof nodeVec glob = Some (true, g) /\ length g = length glob /\
    (forall i c, (i < noLM MLGN lms)%nat -> (c < nd)%nat -> uIn nd glob (nth i MLGN 0) ->
       (forall j, (i < j < noLM MLGN lms)%nat -> nth j MLGN 0 <> nth i MLGN 0) ->
       uval nd g (nth i MLGN 0) c = nth (i * nd + c) nodeVec 0%Qc) /\
    (forall n c, 1 <= n -> (c < nd)%nat -> ~ In n (firstn (noLM MLGN lms) MLGN) -> uval nd g n c = uval nd glob n c).
Proof.
  intros nd L LV. unfold injectNodeVec. fold nd. rewrite (proj2 (Nat.eqb_eq _ _) LV). cbn [negb]. set (N := noLM MLGN lms) in *.
  set (f := fun (i : nat) (g : list Qc) => _).
  destruct (forN_inv (fun k g => length g = length glob /\
    (forall i c, (i < k)%nat -> (c < nd)%nat -> uIn nd glob (nth i MLGN 0) -> (forall j, (i < j < k)%nat -> nth j MLGN 0 <> nth i MLGN 0) ->
       uval nd g (nth i MLGN 0) c = nth (i * nd + c) nodeVec 0%Qc) /\
    (forall n c, 1 <= n -> (c < nd)%nat -> (forall i, (i < k)%nat -> nth i MLGN 0 <> n) -> uval nd g n c = uval nd glob n c)) f N glob) as (g & E & Lg & F & G).
  - split; [reflexivity|]. split; [intros; lia|auto].
  - intros k g Hk (Lg & F & G). unfold f. rewrite (nth_error_nth' MLGN 0) by lia. cbn [bind]. set (n := nth k MLGN 0) in *.
    destruct ((0 <? Z.of_nat nd * n) && (Z.of_nat nd * n <=? Z.of_nat (length glob))) eqn:W.
    + apply andb_true_iff in W. destruct W as [W1 W2]. apply Z.ltb_lt in W1. apply Z.leb_le in W2. assert (N1 : 1 <= n) by nia.
      assert (EQ : Z.to_nat (Z.of_nat nd * n - Z.of_nat nd) = (nd * (Z.to_nat n - 1))%nat) by nia. rewrite EQ.
      destruct (memcpy_ok 0%Qc nd (k * nd) nodeVec (nd * (Z.to_nat n - 1)) g) as (g' & E' & L' & F1 & F2); [rewrite LV; nia|rewrite Lg; nia|].
      exists g'. split; [exact E'|]. split; [lia|].
      assert (O : forall m c, 1 <= m -> m <> n -> (c < nd)%nat -> uval nd g' m c = uval nd g m c).
      { intros m c Hm NE Hc. unfold uval. apply F2. assert (Z.to_nat m <> Z.to_nat n) by lia. set (a := Z.to_nat m) in *. set (b := Z.to_nat n) in *. assert (1 <= a /\ 1 <= b)%nat by lia.
        destruct (Nat.lt_total a b) as [Q|[Q|Q]]; [left; nia|lia|right]. replace (nd * (b - 1) + nd)%nat with (nd * b)%nat by (destruct b; [lia|nia]). nia. }
      split.
      * intros i c Hi Hc Ui Hj. destruct (Nat.eq_dec i k) as [->|NE].
        -- unfold uval. apply F1. exact Hc.
        -- rewrite O; [apply F; auto; [lia|intros j Hj'; apply Hj; lia]|apply Ui| |exact Hc]. intros Q. apply (Hj k); [lia|]. unfold n in Q. auto.
      * intros m c Hm Hc Hi. rewrite O; [apply G; auto|exact Hm| |exact Hc]. intros Q. apply (Hi k); [lia|]. auto.
    + exists g. split; [reflexivity|]. split; [exact Lg|]. split.
      * intros i c Hi Hc Ui Hj. destruct (Nat.eq_dec i k) as [->|NE].
        -- exfalso. fold n in Ui. destruct Ui as [U1 U2]. apply andb_false_iff in W. destruct W as [W|W]; [apply Z.ltb_ge in W; nia|apply Z.leb_gt in W; lia].
        -- apply F; auto; [lia|]. intros j Hj'. apply Hj. lia.
      * intros m c Hm Hc Hi. apply G; auto.
  - exists g. rewrite E. cbn [bind]. split; [reflexivity|]. split; [exact Lg|]. split; [exact F|]. intros n c Hn Hc NI. apply G; auto. intros i Hi Q. apply NI. rewrite <- Q.
    rewrite <- (nth_firstn_lt 0 MLGN N i Hi). apply nth_In. rewrite firstn_length. lia.
Qed.

(** ** elements *)
Lemma elmRes_ge els glob : forall out, extractElmRes1 els glob false 0 out = Some (out ++ map (fun e => nth (Z.to_nat (fst e) - 1) glob 0%Qc) (filter active els)).
Proof.
  induction els as [|[ge np] els IH]; intros out; cbn [extractElmRes1 filter map]; [rewrite app_nil_r; reflexivity|].
  unfold active at 1. cbn [fst snd]. destruct ((0 <? ge) && (1 <? np)%nat) eqn:A; [|apply IH]. cbn [map fst].
  apply andb_true_iff in A. destruct A as [A _]. apply Z.ltb_lt in A.
  destruct (Nat.leb_spec (Z.to_nat ge) (length glob)).
  - rewrite rd_ok by lia. cbn [bind]. rewrite IH, <- app_assoc. reflexivity.
  - cbn [bind]. rewrite IH, <- app_assoc. rewrite (nth_overflow glob) by lia. reflexivity.
Qed.
Lemma elmRes_int els glob : forall j out, (1 <= j)%nat ->
  extractElmRes1 els glob true j out = Some (out ++ map (fun k => nth k glob 0%Qc) (seq (j - 1) (length (filter active els)))).
Proof.
  induction els as [|[ge np] els IH]; intros j out Hj; cbn [extractElmRes1 filter map]; [rewrite app_nil_r; reflexivity|].
  unfold active at 1. cbn [fst snd]. destruct ((0 <? ge) && (1 <? np)%nat) eqn:A; [|apply IH; exact Hj]. cbn [length seq map].
  destruct (Nat.leb_spec j (length glob)).
  - rewrite rd_ok by lia. cbn [bind]. rewrite IH by lia. rewrite <- app_assoc. replace (S (j - 1)) with (S j - 1)%nat by lia. reflexivity.
  - cbn [bind]. rewrite IH by lia. rewrite <- app_assoc. rewrite (nth_overflow glob) by lia. replace (S (j - 1)) with (S j - 1)%nat by lia. reflexivity.
Qed.
Lemma elmRow_ok els glob r c f irow : isMat r c f glob -> (1 <= irow <= r)%nat -> forall out,
  extractElmRow1 els glob irow out = Some (out ++ map (fun e => if (Z.to_nat (fst e) <=? c)%nat then f (irow - 1)%nat (Z.to_nat (fst e) - 1)%nat else 0%Qc) (filter active els)).
Proof.
  intros M R. induction els as [|[ge np] els IH]; intros out; cbn [extractElmRow1 filter map]; [rewrite app_nil_r; reflexivity|].
  unfold active at 1. cbn [fst snd]. destruct ((0 <? ge) && (1 <? np)%nat) eqn:A; [|apply IH]. cbn [map fst].
  apply andb_true_iff in A. destruct A as [A _]. apply Z.ltb_lt in A. destruct M as (M1 & M2 & M') eqn:Q. rewrite M2.
  destruct (Nat.leb_spec (Z.to_nat ge) c).
  - rewrite (isMat_rd2 r c f) by (first [exact M|lia]). cbn [bind]. rewrite IH, <- app_assoc. reflexivity.
  - cbn [bind]. rewrite IH, <- app_assoc. reflexivity.
Qed.

(** ** solution fields *)
Lemma resize_any r c f m r' c' : isMat r c f m -> exists g, isMat r' c' g (mresize r' c' false m).
Proof.
  intros M. destruct (Nat.eq_dec (r' * c') (r * c)) as [Q|Q].
  - destruct (resize_same _ _ r' c' _ _ M Q) as (A & B & C & D & E). exists (fun i j => nth (i + r' * j) (elem m) 0%Qc).
    destruct M as (_ & _ & _ & M & _). repeat split; auto; [rewrite A; lia|]. intros i j _ _. rewrite A. reflexivity.
  - eexists. apply (resize_keep _ _ _ _ _ _ M Q).
Qed.
Lemma getSolLoop_ok nf maxNod lms locSol nodes : forall i N f m, isMat nf N f m -> (i + length nodes = N)%nat ->
  Forall (fun n => 1 <= n <= Z.of_nat maxNod) nodes ->
  Forall (fun n => ~ In (Z.to_nat n) lms -> (nf * Z.to_nat n <= length locSol)%nat) nodes ->
  exists m', getSolLoop nf maxNod lms locSol i nodes m = Some (true, m') /\
   exists g, isMat nf N g m' /\ forall r j, (r < nf)%nat -> (j < N)%nat ->
     ((j < i)%nat -> g r j = f r j) /\
     ((i <= j)%nat -> let n := nth (j - i) nodes 0 in (In (Z.to_nat n) lms -> g r j = 0%Qc) /\ (~ In (Z.to_nat n) lms -> g r j = uval nf locSol n r)).
Proof.
  induction nodes as [|n nodes IH]; intros i N f m M L R V; cbn [getSolLoop].
  - exists m. split; [reflexivity|]. exists f. split; [exact M|]. cbn in L. intros r j Hr Hj. split; [auto|lia].
  - inversion R as [|? ? R1 R2]; subst. inversion V as [|? ? V1 V2]; subst. cbn [length] in *.
    destruct (Z.ltb_spec n 1); [lia|]. destruct (Z.ltb_spec (Z.of_nat maxNod) n); [lia|]. cbn [orb].
    set (o := if existsb (Nat.eqb (Z.to_nat n)) lms then _ else _).
    assert (S1 : exists m1, o = Some m1 /\ exists g1, isMat nf (i + S (length nodes)) g1 m1 /\ forall r j, (r < nf)%nat -> (j < i + S (length nodes))%nat ->
       (j <> i -> g1 r j = f r j) /\ (j = i -> (In (Z.to_nat n) lms -> g1 r j = 0%Qc) /\ (~ In (Z.to_nat n) lms -> g1 r j = uval nf locSol n r))).
    { unfold o. destruct (existsb (Nat.eqb (Z.to_nat n)) lms) eqn:Q.
      - assert (I : In (Z.to_nat n) lms) by (apply existsb_exists in Q; destruct Q as (x & Q1 & Q2); apply Nat.eqb_eq in Q2; congruence).
        destruct (fillColumn_ok nf _ f m (i + 1) (repeat 0%Qc nf) M) as (m1 & E1 & M1); [lia|]. exists m1. split; [exact E1|]. eexists. split; [exact M1|].
        intros r j Hr Hj. cbn beta. replace (i + 1 - 1)%nat with i by lia. destruct (Nat.eqb_spec j i) as [->|N].
        + rewrite repeat_length. destruct (Nat.ltb_spec r nf); [|lia]. cbn [andb]. split; [intros NN; exfalso; auto|]. intros _. split; [intros _; apply nth_repeat0|intros NI; contradiction].
        + cbn [andb]. split; [auto|intros; contradiction].
      - assert (I : ~ In (Z.to_nat n) lms).
        { intros I. assert (existsb (Nat.eqb (Z.to_nat n)) lms = true); [|congruence]. apply existsb_exists. exists (Z.to_nat n). split; [exact I|apply Nat.eqb_refl]. }
        specialize (V1 I). destruct (fillColumnPtr_ok nf _ f m (i + 1) locSol (nf * Z.to_nat n - nf) M) as (m1 & E1 & M1); [lia|nia|]. exists m1. split; [exact E1|]. eexists. split; [exact M1|].
        intros r j Hr Hj. cbn beta. replace (i + 1 - 1)%nat with i by lia. destruct (Nat.eqb_spec j i) as [->|N].
        + split; [intros NN; exfalso; auto|]. intros _. split; [intros NI; contradiction|intros _]. unfold uval. f_equal. assert (1 <= Z.to_nat n)%nat by lia. nia.
        + split; [auto|intros; contradiction]. }
    destruct S1 as (m1 & -> & g1 & M1 & G1). cbn [bind].
    destruct (IH (S i) _ g1 m1 M1 ltac:(lia) R2 V2) as (m' & E' & g & M' & G).
    exists m'. split; [exact E'|]. exists g. split; [exact M'|]. intros r j Hr Hj. destruct (G r j Hr Hj) as [Ga Gb]. destruct (G1 r j Hr Hj) as [Gc Gd]. split.
    + intros Q. rewrite Ga by lia. apply Gc. lia.
    + intros Q. destruct (Nat.eq_dec j i) as [->|N].
      * rewrite Nat.sub_diag. cbn [nth]. rewrite Ga by lia. apply Gd. reflexivity.
      * specialize (Gb ltac:(lia)). replace (j - i)%nat with (S (j - S i)) by lia. cbn [nth]. exact Gb.
Qed.
Lemma getSolLoop_bad nf maxNod lms locSol nodes : forall i N f m, isMat nf N f m -> (i + length nodes <= N)%nat ->
  Exists (fun n => ~ 1 <= n <= Z.of_nat maxNod) nodes ->
  Forall (fun n => 1 <= n <= Z.of_nat maxNod -> ~ In (Z.to_nat n) lms -> (nf * Z.to_nat n <= length locSol)%nat) nodes ->
  exists m', getSolLoop nf maxNod lms locSol i nodes m = Some (false, m').
Proof.
  induction nodes as [|n nodes IH]; intros i N f m M L X V; [inversion X|]. cbn [getSolLoop length] in *. inversion V as [|? ? V1 V2]; subst.
  destruct (Z.ltb_spec n 1); cbn [orb]; [eauto|]. destruct (Z.ltb_spec (Z.of_nat maxNod) n); [eauto|].
  inversion X as [? ? X1|? ? X1]; subst; [exfalso; lia|]. destruct (existsb (Nat.eqb (Z.to_nat n)) lms) eqn:Q.
  - destruct (fillColumn_ok nf _ f m (i + 1) (repeat 0%Qc nf) M) as (m1 & E1 & M1); [lia|]. rewrite E1. cbn [bind]. eapply IH; [exact M1|lia|exact X1|exact V2].
  - assert (I : ~ In (Z.to_nat n) lms).
    { intros I. assert (existsb (Nat.eqb (Z.to_nat n)) lms = true); [|congruence]. apply existsb_exists. exists (Z.to_nat n). split; [exact I|apply Nat.eqb_refl]. }
    specialize (V1 ltac:(lia) I). destruct (fillColumnPtr_ok nf _ f m (i + 1) locSol (nf * Z.to_nat n - nf) M) as (m1 & E1 & M1); [lia|nia|].
    rewrite E1. cbn [bind]. eapply IH; [exact M1|lia|exact X1|exact V2].
Qed.

(** ** deformed configuration *)
Lemma deformed_ok nsd nen f X eV rest force : isMat nsd nen f X -> length eV = (nsd * nen)%nat -> (1 <= nsd * nen)%nat ->
  exists D, deformedConfig X (eV :: rest) force = (true, if force && negb (length rest =? 0)%nat then eV :: upd 0 D rest else eV :: rest ++ [D]) /\
    length D = (nsd * nen)%nat /\ forall i j, (i < nsd)%nat -> (j < nen)%nat -> nth (i + nsd * j) D 0%Qc = (f i j + nth (i + nsd * j) eV 0)%Qc.
Proof.
  intros (M1 & M2 & _ & M4 & M5) L P. exists (vadd eV 1 0 1 0 1 (elem X)).
  assert (NE : elem X <> []) by (intros Q; rewrite Q in M4; cbn in M4; lia).
  destruct (vadd_nonempty eV 1 0 1 0 1 (elem X) ltac:(lia) ltac:(lia) NE) as (A & B & _). split; [|split].
  - unfold deformedConfig. destruct eV as [|x eV']; [cbn in L; lia|]. set (eV := x :: eV') in *. rewrite M1, M2. destruct (Nat.ltb_spec 0 nen); [|nia].
    assert (Q : (length eV / nen)%nat = nsd) by (rewrite L; apply Nat.div_mul; lia). rewrite Q. rewrite Nat.ltb_irrefl. rewrite L, Nat.eqb_refl. cbn [orb negb]. rewrite Nat.eqb_refl.
    destruct force; cbn [andb]; [|reflexivity]. destruct rest as [|y rest]; cbn [length]; [reflexivity|]. destruct (Nat.leb_spec 2 (S (S (length rest)))); [|lia]. reflexivity.
  - lia.
  - intros i j Hi Hj. assert (HL : (i + nsd * j < nsd * nen)%nat) by (apply idx_lt; auto). specialize (B (i + nsd * j)%nat). change (Z.to_nat 1) with 1%nat in B. rewrite !Nat.mul_1_r in B. cbn [Nat.add] in B.
    rewrite B by lia. destruct (Nat.ltb_spec (i + nsd * j) (length eV)); [|lia]. rewrite M5 by auto. rewrite Qcmult_1_l. reflexivity.
Qed.
Lemma deformed_bad X eV rest force : eV <> [] -> (length eV < d1 X * d2 X)%nat \/ (length eV mod d2 X <> 0)%nat -> deformedConfig X (eV :: rest) force = (false, eV :: rest).
Proof.
  intros NE H. unfold deformedConfig. destruct eV as [|x eV']; [contradiction|]. set (eV := x :: eV') in *.
  assert (L0 : (1 <= length eV)%nat) by (cbn; lia).
  destruct (Nat.ltb_spec 0 (d2 X)).
  - pose proof (Nat.div_mod (length eV) (d2 X) ltac:(lia)) as DM. set (q := (length eV / d2 X)%nat) in *. destruct (Nat.ltb_spec q (d1 X)); [reflexivity|].
    destruct (Nat.eqb_spec (q * d2 X) (length eV)) as [Q|Q]; [|reflexivity]. exfalso. destruct H as [H|H]; [nia|]. apply H. nia.
  - destruct (Nat.ltb_spec 0 (d1 X)); [reflexivity|]. cbn [orb]. destruct (Nat.eqb_spec (0 * d2 X) (length eV)); [lia|reflexivity].
Qed.

(** ** control points *)
Fixpoint fillFrom (nsd i : nat) (vals : list Qc) (X : Qc * Qc * Qc) : Qc * Qc * Qc :=
  match vals with [] => X | c :: r => fillFrom nsd (S i) r (if (i <? nsd)%nat then set3 i c X else X) end.
Lemma search_point nsd dim X tol rest : forall vals i Xn inod ic d, vals <> [] -> (i + length vals = dim)%nat ->
  searchLoop nsd dim X tol (vals ++ rest) i Xn inod ic d =
  let P := fillFrom nsd i vals Xn in
  if equal3 tol X P && ((ic =? 0)%nat || qltb (dist2 X P) d)
  then searchLoop nsd dim X tol rest 0 P (S inod) (S inod) (dist2 X P)
  else searchLoop nsd dim X tol rest 0 P (S inod) ic d.
Proof.
  induction vals as [|c vals IH]; intros i Xn inod ic d NE L; [contradiction|]. cbn [app searchLoop fillFrom length] in *.
  destruct (Nat.eqb_spec (S i) dim) as [Q|Q].
  - destruct vals; [|cbn in L; lia]. reflexivity.
  - rewrite IH; [reflexivity| |lia]. intros ->. cbn in L. lia.
Qed.
Definition zeroAbove (nsd : nat) (X : Qc * Qc * Qc) : Prop :=
  let '(x, y, z) := X in ((nsd <= 0)%nat -> x = 0%Qc) /\ ((nsd <= 1)%nat -> y = 0%Qc) /\ ((nsd <= 2)%nat -> z = 0%Qc).
Lemma fillFrom_above nsd vals : forall i X, (nsd <= i)%nat -> fillFrom nsd i vals X = X.
Proof. induction vals as [|c vals IH]; intros i X H; cbn [fillFrom]; [reflexivity|]. destruct (Nat.ltb_spec i nsd); [lia|]. apply IH. lia. Qed.
Lemma fillFrom_pt nsd vals X : (nsd <= 3)%nat -> (nsd <= length vals)%nat -> zeroAbove nsd X -> fillFrom nsd 0 vals X = pt3 nsd vals.
Proof.
  intros N L Z0. destruct X as [[x y] z]. destruct Z0 as (Z1 & Z2 & Z3).
  destruct nsd as [|[|[|[|nsd]]]]; [| | | |lia].
  - rewrite fillFrom_above by lia. unfold pt3. cbn. rewrite Z1, Z2, Z3 by lia. reflexivity.
  - destruct vals as [|a vals]; [cbn in L; lia|]. cbn [fillFrom]. rewrite fillFrom_above by lia. unfold pt3. cbn. rewrite Z2, Z3 by lia. reflexivity.
  - destruct vals as [|a [|b vals]]; try (cbn in L; lia). cbn [fillFrom]. rewrite fillFrom_above by lia. unfold pt3. cbn. rewrite Z3 by lia. reflexivity.
  - destruct vals as [|a [|b [|c vals]]]; try (cbn in L; lia). cbn [fillFrom]. rewrite fillFrom_above by lia. reflexivity.
Qed.
Lemma pt3_above nsd vals : zeroAbove nsd (pt3 nsd vals).
Proof. unfold zeroAbove, pt3. destruct (Nat.ltb_spec 0 nsd), (Nat.ltb_spec 1 nsd), (Nat.ltb_spec 2 nsd); repeat split; intros; try reflexivity; lia. Qed.
Lemma qabs_le a t : (qabs a <= t)%Qc <-> (- t <= a /\ a <= t)%Qc.
Proof. unfold qabs. pose proof (qltb_spec a 0) as Q. destruct (qltb a 0); split; intros H; [split|destruct H|split|destruct H]; qclra. Qed.
Lemma equal3_near tol a b : equal3 tol a b = true <-> near tol a b.
Proof.
  destruct a as [[x y] z], b as [[p q] r]. unfold equal3, near. rewrite !andb_true_iff.
  assert (B : forall u v, qleb u v = true <-> (u <= v)%Qc).
  { intros u v. pose proof (qleb_spec u v) as Q. destruct (qleb u v); split; intros H; auto; [discriminate|]. exfalso. apply (Qclt_not_le _ _ Q H). }
  rewrite !B, !qabs_le. tauto.
Qed.
Lemma search_points nsd dim X tol : (1 <= dim)%nat -> (nsd <= 3)%nat -> (nsd <= dim)%nat -> forall rest done Xn ic d,
  Forall (fun v => length v = dim) rest -> zeroAbove nsd Xn ->
  bestOf tol X (map (pt3 nsd) done) ic -> (ic <> O -> exists P, nth_error (map (pt3 nsd) done) (ic - 1) = Some P /\ d = sqDist X P) ->
  bestOf tol X (map (pt3 nsd) (done ++ rest)) (searchLoop nsd dim X tol (concat rest) 0 Xn (length done) ic d).
Proof.
  intros D N3 ND. induction rest as [|v rest IH]; intros done Xn ic d F Z0 B BD; cbn [concat].
  - rewrite app_nil_r. exact B.
  - inversion F as [|? ? F1 F2]; subst. rewrite search_point by (first [lia|destruct v; [cbn in D; lia|discriminate]]). cbv zeta.
    rewrite fillFrom_pt by (first [lia|exact Z0]). set (P := pt3 nsd v).
    replace (done ++ v :: rest) with ((done ++ [v]) ++ rest) by (rewrite <- app_assoc; reflexivity).
    replace (S (length done)) with (length (done ++ [v])) by (rewrite app_length; cbn; lia).
    assert (EN : forall b P', nth_error (map (pt3 nsd) (done ++ [v])) b = Some P' -> (b < length done)%nat /\ nth_error (map (pt3 nsd) done) b = Some P' \/ b = length done /\ P' = P).
    { intros b P' Q. rewrite map_app in Q. destruct (Nat.lt_ge_cases b (length done)) as [H|H].
      - left. split; [exact H|]. rewrite nth_error_app1 in Q by (rewrite map_length; exact H). exact Q.
      - right. rewrite nth_error_app2 in Q by (rewrite map_length; exact H). rewrite map_length in Q. destruct (b - length done)%nat as [|t] eqn:T; [|destruct t; discriminate Q]. cbn in Q. injection Q as <-. split; [lia|reflexivity]. }
    assert (LE : nth_error (map (pt3 nsd) (done ++ [v])) (length done) = Some P) by (rewrite map_app, nth_error_app2 by (rewrite map_length; lia); rewrite map_length, Nat.sub_diag; reflexivity).
    assert (ON : forall b P', nth_error (map (pt3 nsd) done) b = Some P' -> nth_error (map (pt3 nsd) (done ++ [v])) b = Some P').
    { intros b P' Q. rewrite map_app, nth_error_app1; [exact Q|]. apply nth_error_Some. congruence. }
    destruct (equal3 tol X P && ((ic =? 0)%nat || qltb (dist2 X P) d)) eqn:C.
    + apply andb_true_iff in C. destruct C as [C1 C2]. apply equal3_near in C1.
      apply IH; [exact F2|apply pt3_above| |].
      * rewrite app_length. cbn [length]. rewrite Nat.add_1_r. cbn [bestOf]. exists P. split; [exact LE|]. split; [exact C1|]. intros b P' Q NP. destruct (EN b P' Q) as [[H1 H2]|[-> ->]].
        -- assert (LT : (sqDist X P < sqDist X P')%Qc).
           { destruct ic as [|a].
             - exfalso. cbn [bestOf] in B. rewrite Forall_forall in B. apply (B P'); [|exact NP]. apply nth_error_In with b. exact H2.
             - cbn [Nat.eqb orb] in C2. destruct (BD ltac:(discriminate)) as (P0 & Q0 & ->). cbn [bestOf] in B. destruct B as (P1 & B1 & _ & B3). replace (S a - 1)%nat with a in Q0 by lia. assert (P1 = P0) by congruence. subst P1.
               destruct (B3 b P' H2 NP) as [B4 _]. pose proof (qltb_spec (dist2 X P) (sqDist X P0)) as LT. rewrite C2 in LT. change (dist2 X P) with (sqDist X P) in LT. eapply Qclt_le_trans; eauto. }
           split; [apply Qclt_le_weak, LT|auto].
        -- split; [apply Qcle_refl|lia].
      * intros _. exists P. split; [|reflexivity]. rewrite app_length. cbn [length]. replace (length done + 1 - 1)%nat with (length done) by lia. exact LE.
    + apply IH; [exact F2|apply pt3_above| |].
      * destruct ic as [|a]; cbn [bestOf] in *.
        -- rewrite map_app. apply Forall_app. split; [exact B|]. constructor; [|constructor]. intros Q. apply equal3_near in Q. fold P in Q. rewrite Q in C. discriminate C.
        -- destruct B as (P0 & B1 & B2 & B3). exists P0. split; [apply ON, B1|]. split; [exact B2|]. intros b P' Q NP. destruct (EN b P' Q) as [[H1 H2]|[-> ->]].
           ++ apply B3; auto.
           ++ apply equal3_near in NP. rewrite NP in C. cbn [andb Nat.eqb orb] in C. destruct (BD ltac:(discriminate)) as (P1 & Q1 & ->). replace (S a - 1)%nat with a in Q1 by lia. assert (P1 = P0) by congruence. subst P1.
              pose proof (qltb_spec (dist2 X P) (sqDist X P0)) as LT. rewrite C in LT. change (dist2 X P) with (sqDist X P) in LT. split; [exact LT|]. intros H. exfalso.
              assert (a < length done)%nat; [|lia]. rewrite <- (map_length (pt3 nsd) done). apply nth_error_Some. congruence.
      * intros Q. destruct (BD Q) as (P0 & Q0 & Q1). exists P0. split; [apply ON, Q0|exact Q1].
Qed.
Lemma searchCtrlPt_ok nsd dim X tol pts : (1 <= dim)%nat -> (nsd <= 3)%nat -> (nsd <= dim)%nat -> Forall (fun v => length v = dim) pts ->
  bestOf tol X (map (pt3 nsd) pts) (searchCtrlPt nsd dim X tol (concat pts)).
Proof.
  intros D N3 ND F. apply (search_points nsd dim X tol D N3 ND pts [] (0, 0, 0)%Qc O 0%Qc F).
  - cbn. auto.
  - cbn. constructor.
  - intros Q. contradiction.
Qed.
