(** Proofs: sequences of assembly calls; norms. *)
From Coq Require Import List Arith ZArith QArith Qcanon Bool Permutation Lia.
From Verif Require Import Base SAM_model Glb_model Glb_spec Glb_proofs.
Import ListNotations.
Local Open Scope nat_scope.

(** the state after the calls [cs] *)
Definition fInv (s : tables) (ns : list Z) (nf : nat) (cs : list (list Qc * Z)) (f : fvec) : Prop :=
  nfc f = nf /\ nums f = ns /\ length (fcols f) = length ns /\ (forall c, In c (fcols f) -> length c = nf) /\
  (forall p, p < length ns -> lookup (nmap f) (nth p ns 0%Z) = Some (S p)) /\ (forall g, ~ In g ns -> lookup (nmap f) g = None) /\
  (forall p j, p < length ns -> j < nf -> nth j (nth p (fcols f) []) 0%Qc = (- qs (fun c => contribution s c (nth p ns 0%Z) j) cs)%Qc).

Lemma map_rep {X Y} (f : X -> Y) x : forall n, map f (repeat x n) = repeat (f x) n.
Proof. induction n as [|n IH]; [reflexivity|]. cbn. rewrite IH. reflexivity. Qed.
Lemma init_ok s ns nf : NoDup ns -> (forall n, In n ns -> (1 <= n <= Z.of_nat (nnod s))%Z) ->
  exists f, initNodeMap s ns nf = (true, f) /\ fInv s ns nf [] (initialize f).
Proof.
  intros ND R. destruct (mapNodes_ok (Z.of_nat (nnod s)) ns 0 [] 0 ND (fun g Hg => conj (R g Hg) eq_refl)) as (m & E0 & L & A & B). unfold initNodeMap. rewrite E0. eexists. split; [reflexivity|].
  assert (Hc : map (map (fun _ : Qc => 0%Qc)) (repeat (repeat 0%Qc nf) (length m)) = repeat (repeat 0%Qc nf) (length ns)). { rewrite L. cbn [length Nat.add]. rewrite map_rep, map_rep. reflexivity. }
  unfold initialize. cbn [nfc fcols nums nmap]. rewrite Hc. repeat split; cbn [nfc fcols nums nmap].
  - apply repeat_length.
  - intros c H. apply repeat_spec in H. subst c. apply repeat_length.
  - exact A.
  - exact B.
  - intros p j Hp Hj. rewrite (nth_indep _ [] (repeat 0%Qc nf)) by (rewrite repeat_length; exact Hp). rewrite nth_repeat, nth_repeat. rewrite qs_nil. ring.
Qed.
Lemma filter_none_len {X} (p : X -> bool) : forall l, length (filter p l) < length l <-> exists x, In x l /\ p x = false.
Proof.
  induction l as [|x l IH]; [cbn; split; [lia|intros (x & [] & _)]|]. cbn [filter]. destruct (p x) eqn:Ep; cbn [length].
  - rewrite <- Nat.succ_lt_mono, IH. split; [intros (y & Hy & Py); exists y; split; [right; exact Hy|exact Py]|intros (y & [<-|Hy] & Py); [congruence|exists y; split; assumption]].
  - split; [intros _; exists x; split; [left; reflexivity|exact Ep]|]. intros _. assert (FL : length (filter p l) <= length l) by (clear; induction l as [|y l IHl]; [reflexivity|]; cbn; destruct (p y); cbn; lia). lia.
Qed.
Lemma assembleF_ok s ns nf cs f c : topologyOK s -> NoDup ns -> fInv s ns nf cs f -> callOK s ns nf c ->
  exists b f', assembleF s f (Some (fst c)) (snd c) = Some (b, f') /\ fInv s ns nf (cs ++ [c]) f' /\ (b = true <-> exists n, In n (enodes s (snd c)) /\ In n ns).
Proof.
  intros T ND (F1 & F2 & F3 & F4 & F5 & F6 & F7) [C1 C2]. unfold assembleF. rewrite (elmNodes_ok s (snd c) T C1). rewrite F1.
  destruct (addNodes_ok s ns (nmap f) nf (fst c) F5 F6 ND (enodes s (snd c)) 0 0 (fcols f)) as (cs' & -> & L & C & N).
  - apply (T (snd c) C1).
  - exact F3.
  - exact F4.
  - intros i Hi Hin. cbn [Nat.add]. apply C2; assumption.
  - eexists. eexists. split; [reflexivity|]. split.
    + repeat split; cbn [nfc fcols nums nmap]; try assumption. intros p j Hp Hj. rewrite N by assumption. rewrite F7 by assumption. rewrite terms_qs. rewrite qs_app, qs_cons, qs_nil. unfold contribution at 3. cbn [Nat.add]. ring.
    + rewrite Nat.ltb_lt. cbn [Nat.add]. rewrite filter_none_len. split; intros (n & H1 & H2); exists n; (split; [exact H1|]).
      * apply negb_false_iff, existsb_exists in H2. destruct H2 as (y & Hy & Ey). apply Z.eqb_eq in Ey. subst y. exact Hy.
      * apply negb_false_iff, existsb_exists. exists n. split; [exact H2|apply Z.eqb_refl].
Qed.
Lemma assembleAll_ok s ns nf : topologyOK s -> NoDup ns -> forall cs cs0 f, fInv s ns nf cs0 f -> Forall (callOK s ns nf) cs ->
  exists bs f', assembleAll s f cs = Some (bs, f') /\ fInv s ns nf (cs0 ++ cs) f' /\ length bs = length cs /\
   forall i, i < length cs -> (nth i bs false = true <-> exists n, In n (enodes s (snd (nth i cs ([], 0%Z)))) /\ In n ns).
Proof.
  intros T ND. induction cs as [|c cs IH]; intros cs0 f I H.
  - exists [], f. split; [reflexivity|]. rewrite app_nil_r. split; [exact I|]. split; [reflexivity|]. cbn. lia.
  - inversion H as [|? ? Hc Hcs]; subst. destruct (assembleF_ok s ns nf cs0 f c T ND I Hc) as (b & f1 & E1 & I1 & B1). destruct (IH (cs0 ++ [c]) f1 I1 Hcs) as (bs & f2 & E2 & I2 & L2 & B2). exists (b :: bs), f2. cbn [assembleAll]. rewrite E1, E2. split; [reflexivity|]. rewrite <- app_assoc in I2. split; [exact I2|]. split; [cbn; lia|].
    intros [|i] Hi; cbn [nth]; [exact B1|]. apply B2. cbn in Hi. lia.
Qed.

Lemma getColumn_ok cs p : p < length cs -> getColumn cs (S p) = Some (nth p cs []).
Proof.
  intros H. unfold getColumn. destruct (Nat.ltb_spec (length cs) 2) as [L|L].
  - destruct cs as [|c [|]]; cbn in H, L; try lia. destruct p; [|lia]. cbn. rewrite app_nil_r. reflexivity.
  - cbn [Nat.sub]. rewrite Nat.sub_0_r. apply nth_error_nth', H.
Qed.
Lemma force3_ext nf g h : (forall j, g j = h j) -> force3 nf g = force3 nf h.
Proof. intros H. unfold force3. apply map_ext. intros j. rewrite H. reflexivity. Qed.
Lemma vec3_force nf c (g : nat -> Qc) : length c = nf -> (forall j, j < nf -> nth j c 0%Qc = g j) -> vec3 c = force3 nf g.
Proof.
  intros L H. unfold vec3, force3. cbn [map]. assert (K : forall j, nth j c 0%Qc = if j <? nf then g j else 0%Qc). { intros j. destruct (Nat.ltb_spec j nf); [apply H; assumption|]. apply nth_overflow. lia. }
  rewrite !K. reflexivity.
Qed.
Lemma getForce_in s ns nf cs f n : fInv s ns nf cs f -> In n ns -> getForce f n = Some (force3 nf (fun j => (- qs (fun c => contribution s c n j) cs)%Qc)).
Proof.
  intros (F1 & F2 & F3 & F4 & F5 & F6 & F7) H. destruct (In_nth ns n 0%Z H) as (p & Hp & Ep). unfold getForce. assert (El : lookup (nmap f) n = Some (S p)) by (rewrite <- Ep; apply F5, Hp). rewrite El, getColumn_ok by lia. cbn [option_map]. f_equal.
  apply vec3_force; [apply F4, nth_In; lia|]. intros j Hj. rewrite F7 by assumption. rewrite Ep. reflexivity.
Qed.
Lemma getForce_out s ns nf cs f n : fInv s ns nf cs f -> ~ In n ns -> getForce f n = Some [0%Qc; 0%Qc; 0%Qc].
Proof. intros (F1 & F2 & F3 & F4 & F5 & F6 & F7) H. unfold getForce. rewrite F6 by exact H. reflexivity. Qed.
Lemma getForceAt_ok s ns nf cs f p : fInv s ns nf cs f -> p < length ns -> exists v, getForceAt f p = Some (nth p ns 0%Z, Some v) /\ getForce f (nth p ns 0%Z) = Some v.
Proof.
  intros (F1 & F2 & F3 & F4 & F5 & F6 & F7) H. unfold getForceAt, getForce. rewrite F2, F3. destruct (Nat.ltb_spec p (length ns)); [|lia]. cbn [andb]. rewrite F5 by exact H. rewrite getColumn_ok by lia. eexists. split; reflexivity.
Qed.
Lemma getForceAt_out s ns nf cs f p : fInv s ns nf cs f -> length ns <= p -> getForceAt f p = Some (0%Z, None).
Proof. intros (F1 & F2 & F3 & _) H. unfold getForceAt. rewrite F2, F3. destruct (Nat.ltb_spec p (length ns)); [lia|]. reflexivity. Qed.
Lemma sumCols_ok s ns nf cs f : fInv s ns nf cs f -> forall k p g, p + k = length ns ->
  sumCols (fcols f) (seq (S p) k) (force3 nf g) = Some (force3 nf (fun j => (g j + qs (fun n => - qs (fun c => contribution s c n j) cs) (skipn p ns))%Qc)).
Proof.
  intros (F1 & F2 & F3 & F4 & F5 & F6 & F7). induction k as [|k IH]; intros p g H.
  - rewrite skipn_all2 by lia. cbn [seq sumCols]. f_equal. apply force3_ext. intros j. cbv beta. rewrite qs_nil. ring.
  - cbn [seq sumCols]. rewrite getColumn_ok by lia. rewrite (vec3_force nf (nth p (fcols f) []) (fun j => (- qs (fun c => contribution s c (nth p ns 0%Z) j) cs)%Qc)); [|apply F4, nth_In; lia|intros j Hj; apply F7; [lia|exact Hj]].
    assert (Hs : skipn p ns = nth p ns 0%Z :: skipn (S p) ns). { clear - H. revert p H. induction ns as [|x l IHl]; intros p H; [cbn in H; lia|]. destruct p as [|p]; [reflexivity|]. cbn [length] in H. cbn [skipn nth]. apply IHl. lia. }
    rewrite Hs.
    assert (Ha : forall a b, vec3add (force3 nf a) (force3 nf b) = force3 nf (fun j => (a j + b j)%Qc)). { intros a b. unfold vec3add, force3. cbn [map nth]. repeat (destruct (_ <? nf)); repeat f_equal; ring. }
    rewrite Ha, IH by lia. f_equal. apply force3_ext. intros j. cbv beta. rewrite qs_cons. ring.
Qed.
Lemma getTotal_ok s ns nf cs f : fInv s ns nf cs f -> getTotalForce f = Some (force3 nf (fun j => qs (fun n => (- qs (fun c => contribution s c n j) cs)%Qc) ns)).
Proof.
  intros I. unfold getTotalForce. assert (L : length (fcols f) = length ns) by apply I. rewrite L. assert (Z0 : vec3 [] = force3 nf (fun _ => 0%Qc)) by (unfold vec3, force3; cbn [map nth]; repeat (destruct (_ <? nf)); reflexivity). rewrite Z0, (sumCols_ok s ns nf cs f I (length ns) 0 (fun _ => 0%Qc) eq_refl). cbn [skipn]. f_equal. apply force3_ext. intros j. cbv beta. ring.
Qed.

(** ** Norms *)
Fixpoint addAt (p : nat) (el : list Qc) (L : list Qc) : list Qc :=
  match el with [] => L | v :: r => addAt (S p) r (upd p (nth p L 0 + v)%Qc L) end.
Lemma addAt_length : forall el p L, length (addAt p el L) = length L.
Proof. induction el as [|v el IH]; intros p L; [reflexivity|]. cbn [addAt]. rewrite IH. apply upd_length. Qed.
Lemma addAt_nth q : forall el p L, p + length el <= length L -> nth q (addAt p el L) 0%Qc = (nth q L 0 + (if (p <=? q)%nat then nth (q - p) el 0 else 0))%Qc.
Proof.
  induction el as [|v el IH]; intros p L H; cbn [addAt length] in *.
  - destruct (p <=? q); [destruct (q - p)|]; cbn; ring.
  - rewrite IH by (rewrite upd_length; lia). destruct (Nat.eq_dec q p) as [->|Hne].
    + rewrite upd_nth_same by lia. destruct (Nat.leb_spec (S p) p); [lia|]. destruct (Nat.leb_spec p p); [|lia]. rewrite Nat.sub_diag. cbn [nth]. ring.
    + rewrite upd_nth_other by exact Hne. destruct (Nat.leb_spec (S p) q), (Nat.leb_spec p q); try lia; [|ring]. replace (q - p) with (S (q - S p)) by lia. cbn [nth]. ring.
Qed.
Definition pos (vals : list (list Qc)) (k j : nat) : nat := list_sum (map (@length Qc) (firstn k vals)) + j.
Lemma pos_next vals k : k < length vals -> pos vals (S k) 0 = pos vals k (length (nth k vals [])).
Proof.
  unfold pos. revert k. induction vals as [|g vals IH]; intros k H; [cbn in H; lia|]. destruct k as [|k]; [cbn; lia|]. cbn [length] in H. specialize (IH k ltac:(lia)). cbn [firstn map list_sum fold_right nth] in *. unfold list_sum in *. lia.
Qed.
Lemma concat_upd : forall vals k j x, k < length vals -> j < length (nth k vals []) -> concat (upd k (upd j x (nth k vals [])) vals) = upd (pos vals k j) x (concat vals).
Proof.
  assert (U1 : forall (a b : list Qc) n x, n < length a -> upd n x (a ++ b) = upd n x a ++ b). { induction a as [|y a IH]; intros b n x H; [cbn in H; lia|]. destruct n; [reflexivity|]. cbn. rewrite IH by (cbn in H; lia). reflexivity. }
  assert (U2 : forall (a b : list Qc) n x, upd (length a + n) x (a ++ b) = a ++ upd n x b). { induction a as [|y a IH]; intros b n x; [reflexivity|]. cbn. rewrite IH. reflexivity. }
  induction vals as [|g vals IH]; intros k j x H1 H2; [cbn in H1; lia|]. destruct k as [|k].
  - cbn [nth upd concat pos firstn map list_sum fold_right] in *. unfold pos. cbn [firstn map list_sum fold_right Nat.add]. rewrite U1 by exact H2. reflexivity.
  - cbn [length nth] in *. cbn [upd concat]. rewrite IH by lia. rewrite <- U2. f_equal. unfold pos. cbn [firstn map list_sum fold_right]. unfold list_sum. lia.
Qed.
Lemma nth_concat : forall vals k j, k < length vals -> j < length (nth k vals []) -> nth (pos vals k j) (concat vals) 0%Qc = nth j (nth k vals []) 0%Qc.
Proof.
  induction vals as [|g vals IH]; intros k j H1 H2; [cbn in H1; lia|]. destruct k as [|k].
  - unfold pos. cbn [nth concat firstn map list_sum fold_right Nat.add] in *. apply app_nth1, H2.
  - cbn [length nth] in *. specialize (IH k j ltac:(lia) H2). unfold pos in *. cbn [concat firstn map list_sum fold_right]. rewrite app_nth2 by lia. rewrite <- IH. f_equal. unfold list_sum. lia.
Qed.
Lemma pos_lt vals k j : k < length vals -> j < length (nth k vals []) -> pos vals k j < length (concat vals).
Proof.
  revert k. induction vals as [|g vals IH]; intros k H1 H2; [cbn in H1; lia|]. destruct k as [|k].
  - unfold pos. cbn [nth concat firstn map list_sum fold_right Nat.add] in *. rewrite app_length. lia.
  - cbn [length nth] in *. specialize (IH k ltac:(lia) H2). unfold pos in *. cbn [concat firstn map list_sum fold_right]. rewrite app_length. unfold list_sum in *. lia.
Qed.
Lemma pos_over vals k : (forall k', k <= k' -> length (nth k' vals []) = 0) -> pos vals k 0 = length (concat vals).
Proof.
  revert k. induction vals as [|g vals IH]; intros k H; [destruct k; reflexivity|]. unfold pos in *. destruct k as [|k].
  - cbn [firstn map list_sum fold_right concat Nat.add]. rewrite app_length. specialize (IH 0). cbn [firstn map list_sum fold_right Nat.add] in IH. rewrite <- IH by (intros k' _; apply (H (S k')); lia). specialize (H 0 ltac:(lia)). cbn in H. lia.
  - cbn [firstn map list_sum fold_right concat]. rewrite app_length. rewrite <- (IH k) by (intros k' Hk; apply (H (S k')); lia). unfold list_sum. lia.
Qed.
Lemma map_len_upd vals k j x : map (@length Qc) (upd k (upd j x (nth k vals [])) vals) = map (@length Qc) vals.
Proof. revert k. induction vals as [|g vals IH]; intros k; [destruct k; reflexivity|]. destruct k as [|k]; cbn [upd nth map]; [rewrite upd_length; reflexivity|]. rewrite IH. reflexivity. Qed.
Lemma addVals_ok : forall el vals k j, emptyLast (map (@length Qc) vals) -> (el <> [] -> k < length vals) -> (k < length vals -> j <= length (nth k vals [])) -> pos vals k j + length el <= length (concat vals) ->
  exists vals', addVals vals k j el = Some vals' /\ map (@length Qc) vals' = map (@length Qc) vals /\ concat vals' = addAt (pos vals k j) el (concat vals).
Proof.
  induction el as [|v el IH]; intros vals k j EL H1 H2 H3; [exists vals; repeat split|]. specialize (H1 ltac:(discriminate)). specialize (H2 H1). cbn [addVals]. rewrite (nth_error_nth' vals []) by exact H1. cbn [length] in H3.
  assert (Go : forall k j, k < length vals -> j < length (nth k vals []) -> pos vals k j + S (length el) <= length (concat vals) ->
    exists vals', (match nth_error vals k with Some g => if j <? length g then addVals (upd k (upd j (nth j g 0 + v)%Qc g) vals) k (S j) el else addVals vals k j el | None => addVals vals k j el end) = Some vals' /\ map (@length Qc) vals' = map (@length Qc) vals /\ concat vals' = addAt (S (pos vals k j)) el (upd (pos vals k j) (nth (pos vals k j) (concat vals) 0 + v)%Qc (concat vals))).
  { clear k j H1 H2 H3. intros k j H1 H2 H3. rewrite (nth_error_nth' vals []) by exact H1. destruct (Nat.ltb_spec j (length (nth k vals []))); [|lia]. set (vals1 := upd k (upd j (nth j (nth k vals []) 0 + v)%Qc (nth k vals [])) vals).
    assert (Em : map (@length Qc) vals1 = map (@length Qc) vals) by apply map_len_upd. assert (Ep : pos vals1 k (S j) = S (pos vals k j)).
    { unfold pos. rewrite <- !firstn_map, Em. lia. }
    assert (Ec : concat vals1 = upd (pos vals k j) (nth (pos vals k j) (concat vals) 0 + v)%Qc (concat vals)) by (unfold vals1; rewrite nth_concat by assumption; apply concat_upd; assumption).
    destruct (IH vals1 k (S j)) as (vals' & E' & M' & C').
    - rewrite Em. exact EL.
    - intros _. unfold vals1. rewrite upd_length. exact H1.
    - intros _. unfold vals1. rewrite upd_nth_same by exact H1. rewrite upd_length. lia.
    - rewrite Ep, Ec, upd_length. lia.
    - exists vals'. split; [exact E'|]. split; [congruence|]. rewrite C', Ep, Ec. reflexivity. }
  destruct (Nat.leb_spec (length (nth k vals [])) j) as [G|G].
  - assert (Ej : j = length (nth k vals [])) by lia. subst j. rewrite <- pos_next in * by exact H1. cbn [addAt]. destruct (Nat.eq_dec (nth (S k) (map (@length Qc) vals) 0) 0) as [Ez|Ez].
    + exfalso. rewrite pos_over in H3; [lia|]. intros k' Hk. specialize (EL (S k) k' Ez Hk). rewrite (map_nth (@length Qc) vals []) in EL. exact EL.
    + assert (Hk : S k < length vals). { destruct (Nat.lt_ge_cases (S k) (length vals)); [assumption|]. rewrite nth_overflow in Ez by (rewrite map_length; assumption). contradiction. }
      rewrite (map_nth (@length Qc) vals []) in Ez. apply Go; [exact Hk|lia|exact H3].
  - cbn [addAt]. apply Go; assumption.
Qed.
Definition vsumOK (n : nat) (L : list Qc) (ds : list (list Qc)) : Prop := L = sumVec n ds.
Lemma sumVec_length n ds : length (sumVec n ds) = n.
Proof. unfold sumVec. rewrite map_length, seq_length. reflexivity. Qed.
Lemma sumVec_nth n ds q : q < n -> nth q (sumVec n ds) 0%Qc = qs (fun d => nth q d 0%Qc) ds.
Proof. intros H. unfold sumVec. rewrite (nth_indep _ 0%Qc (qs (fun d => nth 0 d 0%Qc) ds)) by (rewrite map_length, seq_length; exact H). rewrite (map_nth (fun q => qs (fun d => nth q d 0%Qc) ds) (seq 0 n) 0 q), seq_nth by exact H. reflexivity. Qed.
Lemma list_eq_nth (a b : list Qc) : length a = length b -> (forall q, q < length a -> nth q a 0%Qc = nth q b 0%Qc) -> a = b.
Proof. intros L H. apply (nth_ext a b 0%Qc 0%Qc L H). Qed.
Lemma addAt_sumVec n ds d : length d = n -> addAt 0 d (sumVec n ds) = sumVec n (ds ++ [d]).
Proof.
  intros L. apply list_eq_nth; [rewrite addAt_length, !sumVec_length; reflexivity|]. intros q Hq. rewrite addAt_length, sumVec_length in Hq. rewrite addAt_nth by (rewrite sumVec_length; lia). rewrite !sumVec_nth by exact Hq. cbn [Nat.leb]. rewrite Nat.sub_0_r, qs_app, qs_cons, qs_nil. ring.
Qed.
Lemma vplus_length a d : length a = length d -> length (vplus a d) = length a.
Proof. intros H. unfold vplus. rewrite map_length, combine_length. lia. Qed.
Lemma vplus_nth a d q : length a = length d -> nth q (vplus a d) 0%Qc = (nth q a 0 + nth q d 0)%Qc.
Proof.
  revert d q. induction a as [|x a IH]; intros [|y d] q H; try discriminate H; [destruct q; cbn; ring|]. destruct q as [|q]; [cbn; ring|]. cbn [length] in H. apply (IH d q). lia.
Qed.
Lemma vplus_zero n d : length d = n -> vplus (repeat 0%Qc n) d = d.
Proof. intros H. apply list_eq_nth; [rewrite vplus_length; rewrite repeat_length; auto|]. intros q _. rewrite vplus_nth by (rewrite repeat_length; auto). rewrite nth_repeat. ring. Qed.
Lemma concat_zero : forall sizes, concat (map (repeat 0%Qc) sizes) = sumVec (list_sum sizes) [].
Proof.
  intros sizes. apply list_eq_nth; [rewrite sumVec_length; induction sizes as [|a l IH]; [reflexivity|]; cbn [map concat]; rewrite app_length, repeat_length, IH; reflexivity|].
  intros q _. destruct (Nat.lt_ge_cases q (list_sum sizes)) as [Hq|Hq]; [rewrite sumVec_nth by exact Hq|rewrite (nth_overflow (sumVec _ _)) by (rewrite sumVec_length; exact Hq)]; rewrite ?qs_nil; clear; revert q; induction sizes as [|a l IH]; intros q; cbn [map concat]; try (destruct q; reflexivity).
  - destruct (Nat.lt_ge_cases q a); [rewrite app_nth1 by (rewrite repeat_length; assumption); apply nth_repeat|rewrite app_nth2 by (rewrite repeat_length; assumption); apply IH].
  - destruct (Nat.lt_ge_cases q a); [rewrite app_nth1 by (rewrite repeat_length; assumption); apply nth_repeat|rewrite app_nth2 by (rewrite repeat_length; assumption); apply IH].
Qed.
Lemma map_len_zero sizes : map (@length Qc) (map (repeat 0%Qc) sizes) = sizes.
Proof. induction sizes as [|a l IH]; [reflexivity|]. cbn [map]. rewrite repeat_length, IH. reflexivity. Qed.

Section N.
Variable sqroot : Qc -> Qc.
Variables (op : finalOp) (sizes : list nat).
Hypothesis EL : emptyLast sizes.
Let N := list_sum sizes.
Definition gInv (ds : list (list Qc)) (vals : list (list Qc)) : Prop := map (@length Qc) vals = sizes /\ concat vals = sumVec N ds.
Lemma gInv0 : gInv [] (map (repeat 0%Qc) sizes).
Proof. split; [apply map_len_zero|apply concat_zero]. Qed.
Lemma sizes_pos : 0 < N -> 0 < length sizes.
Proof. unfold N. destruct sizes; cbn; lia. Qed.
Lemma addVals_inv ds vals d : gInv ds vals -> length d = N -> exists vals', addVals vals 0 0 d = Some vals' /\ gInv (ds ++ [d]) vals'.
Proof.
  intros [I1 I2] L. destruct (addVals_ok d vals 0 0) as (vals' & E' & M' & C').
  - rewrite I1. exact EL.
  - intros Hd. rewrite <- (map_length (@length Qc)), I1. apply sizes_pos. destruct d; [contradiction|]. cbn in L. lia.
  - lia.
  - rewrite I2, sumVec_length. unfold pos. cbn [firstn map list_sum fold_right]. lia.
  - exists vals'. split; [exact E'|]. split; [congruence|]. rewrite C', I2. unfold pos. cbn [firstn map list_sum fold_right Nat.add]. apply addAt_sumVec, L.
Qed.
Lemma int_ok : forall evs ds vals, gInv ds vals -> (forall ev, In ev evs -> length (snd ev) = N) -> exists vals', integrateInt sqroot op N evs vals = Some (true, vals') /\ gInv (ds ++ map snd evs) vals'.
Proof.
  induction evs as [|[e d] evs IH]; intros ds vals I H.
  - exists vals. rewrite app_nil_r. split; [reflexivity|exact I].
  - assert (L : length d = N) by apply (H (e, d) (or_introl eq_refl)). cbn [integrateInt]. unfold assembleN. rewrite andb_false_r, vplus_zero by exact L. destruct (addVals_inv ds vals d I L) as (v1 & -> & I1). destruct (IH (ds ++ [d]) v1 I1 (fun ev Hev => H ev (or_intror Hev))) as (v2 & -> & I2). exists v2. split; [reflexivity|]. rewrite <- app_assoc in I2. exact I2.
Qed.
Definition eInv (nelm : nat) (evs : list (nat * list Qc)) (en : list (list Qc)) : Prop :=
  length en = nelm /\ forall e, e < nelm -> nth e en [] = sumVec N (map snd (filter (fun ev => fst ev =? e) evs)).
Lemma vplus_sumVec ds d : length d = N -> vplus (sumVec N ds) d = sumVec N (ds ++ [d]).
Proof.
  intros L. apply list_eq_nth; [rewrite vplus_length; rewrite !sumVec_length; auto|]. intros q Hq. rewrite vplus_length, sumVec_length in Hq by (rewrite sumVec_length; auto). rewrite vplus_nth by (rewrite sumVec_length; auto). rewrite !sumVec_nth by exact Hq. rewrite qs_app, qs_cons, qs_nil. ring.
Qed.
Lemma ext_ok nelm vals : forall evs evs0 en, eInv nelm evs0 en -> (forall ev, In ev evs -> fst ev < nelm /\ length (snd ev) = N) -> exists en', integrateExt sqroot op evs vals en = Some (true, vals, en') /\ eInv nelm (evs0 ++ evs) en'.
Proof.
  induction evs as [|[e d] evs IH]; intros evs0 en I H.
  - exists en. rewrite app_nil_r. split; [reflexivity|exact I].
  - destruct (H (e, d) (or_introl eq_refl)) as [He L]. cbn [fst snd] in *. destruct I as [I1 I2]. cbn [integrateExt]. rewrite (nth_error_nth' en []) by lia. unfold assembleN. replace (0 <? Z.of_nat e + 1)%Z with true by (symmetry; apply Z.ltb_lt; lia). cbn [andb].
    destruct (IH (evs0 ++ [(e, d)]) (upd e (vplus (nth e en []) d) en)) as (en' & E' & I').
    + split; [rewrite upd_length; exact I1|]. intros q Hq. rewrite filter_app, map_app. cbn [filter fst]. destruct (Nat.eqb_spec e q) as [->|Hne].
      * rewrite upd_nth_same by lia. rewrite I2 by exact Hq. cbn [map snd]. apply vplus_sumVec, L.
      * rewrite upd_nth_other by congruence. cbn [map]. rewrite app_nil_r. apply I2, Hq.
    + intros ev Hev. apply H. right. exact Hev.
    + exists en'. split; [exact E'|]. rewrite <- app_assoc in I'. exact I'.
Qed.
Lemma final_ok : forall en ds vals, gInv ds vals -> (forall el, In el en -> length el = N) -> exists vals', finalLoop sqroot op vals en = Some (vals', map (map (applyOp sqroot op)) en) /\ gInv (ds ++ en) vals'.
Proof.
  induction en as [|el en IH]; intros ds vals I H.
  - exists vals. rewrite app_nil_r. split; [reflexivity|exact I].
  - cbn [finalLoop]. unfold assembleN. cbn [Z.ltb Z.compare andb]. destruct (addVals_inv ds vals el I (H el (or_introl eq_refl))) as (v1 & -> & I1). destruct (IH (ds ++ [el]) v1 I1 (fun x Hx => H x (or_intror Hx))) as (v2 & -> & I2). exists v2. split; [reflexivity|]. rewrite <- app_assoc in I2. exact I2.
Qed.
(** the sum over the elements of the sums over the events of the element *)
Lemma sum_by_elm (g : list Qc -> Qc) : forall evs nelm, (forall ev, In ev evs -> fst ev < nelm) -> qs (fun e => qs g (map snd (filter (fun ev : nat * list Qc => fst ev =? e) evs))) (seq 0 nelm) = qs g (map snd evs).
Proof.
  induction evs as [|[e d] evs IH]; intros nelm H; [apply qs_zero; intros e _; reflexivity|]. cbn [map snd]. rewrite qs_cons, <- (IH nelm) by (intros ev Hev; apply H; right; exact Hev).
  transitivity (qs (fun x => ((if (e =? x)%nat then g d else 0) + qs g (map snd (filter (fun ev : nat * list Qc => fst ev =? x) evs)))%Qc) (seq 0 nelm)).
  - apply qs_ext. intros x _. cbn [filter fst]. destruct (e =? x); cbn [map snd]; [rewrite qs_cons; reflexivity|ring].
  - rewrite qs_plus. f_equal. rewrite (qs_single _ _ e); [rewrite Nat.eqb_refl; reflexivity|apply seq_NoDup| |].
    + apply in_seq. specialize (H (e, d) (or_introl eq_refl)). cbn in H. lia.
    + intros x _ Hx. destruct (Nat.eqb_spec e x); [congruence|reflexivity].
Qed.
Lemma concat_inj : forall (a b : list (list Qc)), map (@length Qc) a = map (@length Qc) b -> concat a = concat b -> a = b.
Proof.
  induction a as [|x a IH]; intros [|y b] HL HC; try discriminate HL; [reflexivity|]. cbn [map] in HL. injection HL as L1 L2. cbn [concat] in HC. assert (x = y /\ concat a = concat b) as [-> Hc].
  { clear - L1 HC. revert y L1 HC. induction x as [|p x IHx]; intros [|q y] L HC; try discriminate L; [split; [reflexivity|exact HC]|]. cbn in *. injection HC as -> HC. injection L as L. destruct (IHx y L HC) as [-> ?]. split; [reflexivity|assumption]. }
  rewrite (IH b L2 Hc). reflexivity.
Qed.
Lemma norms_ok nelm evs : (forall ev, In ev evs -> fst ev < nelm /\ length (snd ev) = N) ->
  exists g en, normsInt sqroot op sizes evs = Some (true, g) /\ normsExt sqroot op sizes nelm evs = Some (true, g, en) /\ map (@length Qc) g = sizes /\
    concat g = map (applyOp sqroot op) (sumVec N (map snd evs)) /\ length en = nelm /\
    forall e, e < nelm -> nth e en [] = map (applyOp sqroot op) (sumVec N (map snd (filter (fun ev => fst ev =? e) evs))).
Proof.
  intros H. unfold normsInt, normsExt. fold N. destruct (int_ok evs [] _ gInv0 (fun ev Hev => proj2 (H ev Hev))) as (v1 & -> & I1). cbn [app] in I1.
  destruct (ext_ok nelm (map (repeat 0%Qc) sizes) evs [] (repeat (repeat 0%Qc N) nelm)) as (en & -> & J1 & J2); [|exact H|].
  { split; [apply repeat_length|]. intros e He. cbn [filter map]. rewrite (nth_indep _ [] (repeat 0%Qc N)) by (rewrite repeat_length; exact He). rewrite nth_repeat. apply list_eq_nth; [rewrite repeat_length, sumVec_length; reflexivity|]. intros q Hq. rewrite repeat_length in Hq. rewrite nth_repeat, sumVec_nth by exact Hq. reflexivity. }
  cbn [app] in J2. destruct (final_ok en [] _ gInv0) as (v2 & -> & I2).
  { intros el Hel. apply In_nth with (d := []) in Hel. destruct Hel as (q & Hq & <-). rewrite J2 by lia. apply sumVec_length. }
  cbn [app] in I2. assert (Ev : v1 = v2).
  { apply concat_inj; [destruct I1, I2; congruence|]. destruct I1 as [_ ->], I2 as [_ ->]. apply list_eq_nth; [rewrite !sumVec_length; reflexivity|]. intros q Hq. rewrite sumVec_length in Hq. rewrite !sumVec_nth by exact Hq. rewrite <- (sum_by_elm _ evs nelm) by (intros ev Hev; apply H, Hev).
    replace en with (map (fun e => nth e en []) (seq 0 nelm)) by (rewrite <- J1; apply nth_ext with (d := []) (d' := []); [rewrite map_length, seq_length; reflexivity|intros k Hk; rewrite map_length, seq_length in Hk; rewrite (nth_indep _ [] (nth 0 en [])) by (rewrite map_length, seq_length; exact Hk); rewrite (map_nth (fun e => nth e en [])), seq_nth by exact Hk; reflexivity]).
    rewrite qs_map. apply qs_ext. intros e He. apply in_seq in He. rewrite J2 by lia. rewrite sumVec_nth by exact Hq. reflexivity. }
  subst v2. exists (destroy sqroot op v1), (map (map (applyOp sqroot op)) en). destruct I1 as [K1 K2]. split; [reflexivity|]. split; [reflexivity|]. split; [unfold destroy; rewrite map_map; rewrite <- K1; apply map_ext; intros l; apply map_length|]. split; [unfold destroy; rewrite <- K2; symmetry; apply concat_map|]. split; [rewrite map_length; exact J1|].
  intros e He. change (@nil Qc) with (map (applyOp sqroot op) []). rewrite map_nth, J2 by exact He. reflexivity.
Qed.
End N.
Lemma sumVec_perm n a b : Permutation a b -> sumVec n a = sumVec n b.
Proof. intros P. unfold sumVec. apply map_ext. intros q. apply qs_perm, P. Qed.

Lemma resultant_ok n : forall ef, (forall el, In el ef -> length el = n) -> forceResultant n ef = sumVec n ef.
Proof.
  intros ef H. unfold forceResultant. assert (G : forall ef ds, (forall el, In el ef -> length el = n) -> fold_left (fun g el => map (fun j => if j <? length el then (nth j g 0 + nth j el 0)%Qc else nth j g 0%Qc) (seq 0 n)) ef (sumVec n ds) = sumVec n (ds ++ ef)).
  { clear. induction ef as [|el ef IH]; intros ds H; [rewrite app_nil_r; reflexivity|]. cbn [fold_left]. assert (E0 : map (fun j => if j <? length el then (nth j (sumVec n ds) 0 + nth j el 0)%Qc else nth j (sumVec n ds) 0%Qc) (seq 0 n) = sumVec n (ds ++ [el])).
    { unfold sumVec at 3. apply map_ext_in. intros j Hj. apply in_seq in Hj. rewrite (H el (or_introl eq_refl)). destruct (Nat.ltb_spec j n); [|lia]. rewrite sumVec_nth by lia. rewrite qs_app, qs_cons, qs_nil. ring. }
    rewrite E0, IH by (intros x Hx; apply H; right; exact Hx). rewrite <- app_assoc. reflexivity. }
  etransitivity; [|exact (G ef [] H)]. f_equal. apply list_eq_nth; [rewrite repeat_length, sumVec_length; reflexivity|]. intros q Hq. rewrite repeat_length in Hq. rewrite nth_repeat, sumVec_nth by exact Hq. reflexivity.
Qed.
