(** Proofs for the static condensation: the recovery of the internal unknowns, and the file. *)
From Coq Require Import List Arith ZArith QArith Qcanon Bool Lia Permutation Sorted Ascii.
From Verif Require Import Base SAM_model SAM_spec Sparse_model Sparse_spec Sparse_proofs Sparse_proofs2 Sparse_proofs3 Sparse_proofs6 Sparse_proofs7
  Mat_model Mat_spec Mat_proofs Mat_proofs2 Mat_proofs4 Mat_proofs6 Cond_model Cond_spec Cond_proofs Cond_proofs2 Cond_proofs3.
Import ListNotations.
Local Open Scope nat_scope.

Lemma recover_ok s ext l Rmat cols xe : consistent s -> nodesOK s ext -> retained s ext l -> In (Z.of_nat (neq s)) l -> length l < neq s ->
  length cols = 1 + length l -> isMat (neq s - length l) (1 + length l) (fun k j => nth k (nth j cols []) 0%Qc) Rmat -> length xe = length l ->
  exists x, length x = neq s /\ extPart l x = xe /\ recovered cols xe (intPart l (neq s) x) /\ recoverInternals s Rmat ext xe = Some (expandVector s 1%Qc x).
Proof.
  intros C NO RT Hlast Hlen LC HM LX. pose proof RT as [Hinc _]. destruct (retained_eqs s ext l) as (l0 & EN & ES & EX & _); [apply C|exact NO|exact RT|].
  destruct (mulVec_ok _ _ _ Rmat (1%Qc :: xe) [] false 0%Z HM ltac:(lia) ltac:(lia)) as (x1 & EM & L1 & N1); [cbn; lia|left; reflexivity|]. cbn [Z.eqb Z.ltb Z.compare] in N1.
  unfold recoverInternals. rewrite EM, EN. cbv zeta. rewrite ES. rewrite L1, LX, Nat.eqb_refl. destruct (Z.eqb_spec (Z.of_nat (neq s - length l)) (Z.of_nat (neq s) - Z.of_nat (length l))); [|lia]. cbn [andb negb].
  set (n := neq s) in *. pose proof (E1_len n l Hinc) as LE1. pose proof (E2_len n l Hinc) as LE2.
  destruct (joinVec_ok n 0 l x1 xe (win_inc n l Hinc)) as (x & EJ & Lx & M1 & M2); [right; exact Hlast|unfold E1 in LE1; unfold isB2; congruence|unfold E2 in LE2; congruence|].
  rewrite EJ. exists x. split; [exact Lx|]. split; [rewrite (extPart_E2 n l x Hinc); exact M2|]. split; [|reflexivity].
  assert (EI : intPart l n x = x1) by exact M1. rewrite EI. intros k Hk. rewrite L1 in Hk. rewrite N1 by exact Hk. rewrite LC.
  replace (0 + 1 * sumTo (1 + length l) (fun j => flip false (fun k j => nth k (nth j cols []) 0%Qc) k j * nth j (1 :: xe) 0))%Qc with (sumTo (1 + length l) (fun j => nth k (nth j cols []) 0%Qc * nth j (1 :: xe) 0)%Qc); [reflexivity|].
  unfold flip. ring.
Qed.
(** the matrix with given columns *)
Lemma ofCols_isMat n1 : forall cols, (forall c, In c cols -> length c = n1) -> 1 <= n1 -> forall i j, i < n1 -> j < length cols -> nth (i + n1 * j) (concat cols) 0%Qc = nth i (nth j cols []) 0%Qc.
Proof.
  induction cols as [|c cols IH]; intros HL H1 i j Hi Hj; [cbn in Hj; lia|]. pose proof (HL c (or_introl eq_refl)) as Lc. cbn [concat]. destruct j as [|j].
  - rewrite Nat.mul_0_r, Nat.add_0_r, app_nth1 by lia. reflexivity.
  - rewrite app_nth2 by nia. cbn [nth]. rewrite <- IH; [|intros; apply HL; right; assumption|exact H1|exact Hi|cbn in Hj; lia]. f_equal. rewrite Lc. nia.
Qed.

(** ** The file *)
Definition dval (l : list ascii) (a : nat) : nat := fold_left (fun a c => 10 * a + (nat_of_ascii c - 48)) l a.
Definition digits (l : list ascii) : Prop := l <> [] /\ (forall c, In c l -> isDigit c = true) /\ 1 <= dval (firstn 1 l) 0.
Lemma digit_nat d : d < 10 -> nat_of_ascii (digit d) = 48 + d.
Proof. intros H. unfold digit. apply nat_ascii_embedding. lia. Qed.
Lemma digit_ok d : d < 10 -> isDigit (digit d) = true.
Proof. intros H. unfold isDigit. rewrite digit_nat by exact H. apply andb_true_iff. split; apply Nat.leb_le; lia. Qed.
Lemma digs_ok : forall f n acc, n < f -> exists ds, digs f n acc = ds ++ acc /\ ds <> [] /\ (forall c, In c ds -> isDigit c = true) /\ dval ds 0 = n /\ (1 <= n -> 1 <= dval (firstn 1 ds) 0).
Proof.
  induction f as [|f IH]; intros n acc H; [lia|]. cbn [digs]. destruct (Nat.ltb_spec n 10) as [L|L].
  - exists [digit n]. split; [reflexivity|]. split; [discriminate|]. split; [intros c [<-|[]]; apply digit_ok; exact L|]. unfold dval. cbn [firstn fold_left]. rewrite digit_nat by exact L. lia.
  - assert (Hm : n mod 10 < 10) by (apply Nat.mod_upper_bound; lia). pose proof (Nat.div_mod n 10 ltac:(lia)) as DM. assert (Hd : n / 10 < n) by (apply Nat.div_lt; lia).
    destruct (IH (n / 10) (digit (n mod 10) :: acc) ltac:(lia)) as (ds & -> & N & A & Vd & F). exists (ds ++ [digit (n mod 10)]). split; [rewrite <- app_assoc; reflexivity|]. split; [destruct ds; discriminate|]. split; [|split].
    + intros c Hc. apply in_app_or in Hc. destruct Hc as [Hc|[<-|[]]]; [apply A, Hc|apply digit_ok, Hm].
    + unfold dval in *. rewrite fold_left_app, Vd. cbn [fold_left]. rewrite digit_nat by exact Hm. lia.
    + intros _. destruct ds as [|c ds]; [contradiction|]. cbn [app firstn] in *. apply F. lia.
Qed.
Lemma decimal_ok n : 1 <= n -> digits (decimal n) /\ dval (decimal n) 0 = n.
Proof. intros H. unfold decimal. destruct (digs_ok (S n) n [] ltac:(lia)) as (ds & -> & N & A & Vd & F). rewrite app_nil_r. split; [split; [exact N|split; [exact A|apply F, H]]|exact Vd]. Qed.
Definition stops (l : list ascii) : Prop := match l with [] => True | c :: _ => isDigit c = false end.
Lemma scanDigits_ok : forall ds rest a, (forall c, In c ds -> isDigit c = true) -> stops rest -> scanDigits (ds ++ rest) a = (dval ds a, rest).
Proof.
  induction ds as [|c ds IH]; intros rest a A Hs.
  - destruct rest as [|c rest]; [reflexivity|]. cbn in Hs. cbn [app scanDigits]. rewrite Hs. reflexivity.
  - cbn [app scanDigits]. rewrite (A c (or_introl eq_refl)). rewrite IH; [reflexivity|intros c' Hc; apply A; right; exact Hc|exact Hs].
Qed.
Lemma digit_space c : isDigit c = true -> isSpace c = false.
Proof.
  unfold isDigit, isSpace. intros H. apply andb_true_iff in H. destruct H as [H1 H2]. apply Nat.leb_le in H1, H2.
  destruct (Ascii.eqb_spec c " ") as [->|_]; [cbn in H1; lia|]. cbn [orb]. destruct (Nat.leb_spec (nat_of_ascii c) 13); [lia|]. apply andb_false_r.
Qed.
Lemma scanNum_ok ds rest : ds <> [] -> (forall c, In c ds -> isDigit c = true) -> stops rest -> scanNum (" "%char :: ds ++ rest) = Some (dval ds 0, rest).
Proof.
  intros N A Hs. unfold scanNum. cbn [skipSpace]. change (isSpace " ") with true. cbv iota. destruct ds as [|c ds]; [contradiction|]. pose proof (A c (or_introl eq_refl)) as Hc.
  cbn [app skipSpace]. rewrite (digit_space c Hc), Hc. f_equal. apply (scanDigits_ok (c :: ds)); assumption.
Qed.
Lemma dval_mono : forall l a, a <= dval l a.
Proof. induction l as [|c l IH]; intros a; [apply Nat.le_refl|]. unfold dval in *. cbn [fold_left]. etransitivity; [|apply IH]. lia. Qed.
Lemma dval_prefix ds m : digits ds -> 1 <= m -> 1 <= dval (firstn m ds) 0.
Proof.
  intros (N & _ & F) H. destruct ds as [|c ds]; [contradiction|]. destruct m as [|m]; [lia|]. cbn [firstn] in *. unfold dval in *. cbn [fold_left] in *. etransitivity; [exact F|]. apply dval_mono.
Qed.
Lemma firstn_In {X} : forall k (l : list X) c, In c (firstn k l) -> In c l.
Proof. induction k as [|k IH]; intros [|x l] c H; try (destruct H; fail). destruct H as [->|H]; [left; reflexivity|right; apply IH, H]. Qed.

(** getline *)
Lemma getline_no : forall h rest, ~ In newline h -> getline (h ++ newline :: rest) = (h ++ [newline], rest).
Proof.
  induction h as [|c h IH]; intros rest H; [reflexivity|]. cbn [app getline]. destruct (Ascii.eqb_spec c newline) as [->|_]; [exfalso; apply H; left; reflexivity|].
  rewrite IH by (intros Hc; apply H; right; exact Hc). reflexivity.
Qed.
Lemma getline_end : forall h, ~ In newline h -> getline h = (h, []).
Proof.
  induction h as [|c h IH]; intros H; [reflexivity|]. cbn [getline]. destruct (Ascii.eqb_spec c newline) as [->|_]; [exfalso; apply H; left; reflexivity|].
  rewrite IH by (intros Hc; apply H; right; exact Hc). reflexivity.
Qed.
Lemma prefixB_app : forall p l, prefixB p (p ++ l) = true.
Proof. induction p as [|a p IH]; intros l; [reflexivity|]. cbn. rewrite Ascii.eqb_refl. apply IH. Qed.
Lemma contains_app p l : contains p (p ++ l) = true.
Proof. destruct (p ++ l) eqn:E; cbn; rewrite <- E, prefixB_app; reflexivity. Qed.

(** the data *)
Section Data.
Variables (enc : Qc -> list ascii) (dec : list ascii -> Qc).
Hypothesis E8 : forall x, length (enc x) = 8.

Lemma enc_len : forall col, length (flat_map enc col) = 8 * length col.
Proof. induction col as [|x col IH]; [reflexivity|]. cbn [flat_map length]. rewrite app_length, E8, IH. lia. Qed.
Lemma fread_ok : forall col rest, (forall x, In x col -> dec (enc x) = x) -> fread dec (length col) (flat_map enc col ++ rest) = (col, rest).
Proof.
  induction col as [|x col IH]; intros rest ED; [reflexivity|]. cbn [length fread flat_map]. rewrite <- app_assoc. assert (L := E8 x).
  replace (length (enc x ++ flat_map enc col ++ rest) <? 8) with false by (symmetry; apply Nat.ltb_ge; rewrite app_length; lia).
  replace (skipn 8 (enc x ++ flat_map enc col ++ rest)) with (flat_map enc col ++ rest) by (rewrite <- L, skipn_app, skipn_all, Nat.sub_diag; reflexivity).
  replace (firstn 8 (enc x ++ flat_map enc col ++ rest)) with (enc x) by (rewrite <- L, firstn_app, firstn_all, Nat.sub_diag; cbn; rewrite app_nil_r; reflexivity).
  rewrite IH, ED; [reflexivity|left; reflexivity|]. intros y Hy. apply ED. right. exact Hy.
Qed.
Lemma fread_short : forall n f, 8 * length (fst (fread dec n f)) <= length f.
Proof.
  induction n as [|n IH]; intros f; [cbn; lia|]. cbn [fread]. destruct (Nat.ltb_spec (length f) 8); [cbn; lia|]. specialize (IH (skipn 8 f)). destruct (fread dec n (skipn 8 f)) as [a b]. cbn [fst length] in *.
  rewrite skipn_length in IH. lia.
Qed.
Lemma readCols_ok n1 n2 : forall cols c0 M f rest, (forall c, In c cols -> length c = n1 /\ forall x, In x c -> dec (enc x) = x) -> isMat n1 n2 f M -> c0 + length cols <= n2 ->
  exists M' f', readCols dec n1 (seq c0 (length cols)) (flat_map (flat_map enc) cols ++ rest) M = Some (true, M') /\ isMat n1 n2 f' M' /\
    forall i j, i < n1 -> j < n2 -> f' i j = if (c0 <=? j) && (j <? c0 + length cols) then nth i (nth (j - c0) cols []) 0%Qc else f i j.
Proof.
  induction cols as [|c cols IH]; intros c0 M f rest HL HM Hc.
  - exists M, f. split; [reflexivity|]. split; [exact HM|]. intros i j _ _. cbn [length]. replace ((c0 <=? j) && (j <? c0 + 0)) with false by lia. reflexivity.
  - destruct (HL c (or_introl eq_refl)) as [Lc EDc]. cbn [length seq readCols flat_map]. rewrite <- app_assoc. assert (EF : forall q, fread dec n1 (flat_map enc c ++ q) = (c, q)) by (intros q; rewrite <- Lc; apply fread_ok, EDc). rewrite EF.
    destruct (fillColumn_ok n1 n2 f M (c0 + 1) c HM) as (M1 & -> & HM1); [cbn in Hc; lia|]. replace (length c <? n1) with false by lia.
    destruct (IH (S c0) M1 _ rest (fun c' H => HL c' (or_intror H)) HM1) as (M' & f' & -> & HM' & Hf'); [cbn in Hc; lia|]. exists M', f'. split; [reflexivity|]. split; [exact HM'|].
    intros i j Hi Hj. rewrite Hf' by assumption. destruct (Nat.eq_dec j c0) as [->|Hne].
    + replace ((S c0 <=? c0) && (c0 <? S c0 + length cols)) with false by lia. replace ((c0 <=? c0) && (c0 <? c0 + S (length cols))) with true by lia. rewrite Lc, Nat.sub_diag.
      replace ((c0 =? c0 + 1 - 1) && (i <? n1)) with true by lia. reflexivity.
    + replace ((c0 <=? j) && (j <? c0 + S (length cols))) with ((S c0 <=? j) && (j <? S c0 + length cols)) by lia. destruct ((S c0 <=? j) && (j <? S c0 + length cols)) eqn:Eb.
      * replace (j - c0) with (S (j - S c0)) by lia. reflexivity.
      * replace (j =? c0 + 1 - 1) with false by lia. reflexivity.
Qed.
Lemma readCols_short n1 n2 : forall cols c0 M f m, (forall c, In c cols -> length c = n1 /\ forall x, In x c -> dec (enc x) = x) -> isMat n1 n2 f M -> c0 + length cols <= n2 -> m < length (flat_map (flat_map enc) cols) ->
  exists M', readCols dec n1 (seq c0 (length cols)) (firstn m (flat_map (flat_map enc) cols)) M = Some (false, M').
Proof.
  induction cols as [|c cols IH]; intros c0 M f m HL HM Hc Hm; [cbn in Hm; lia|]. destruct (HL c (or_introl eq_refl)) as [Lc EDc]. cbn [length seq readCols flat_map] in *. rewrite app_length, enc_len in Hm.
  destruct (Nat.le_gt_cases (8 * n1) m) as [G|G].
  - rewrite firstn_app, firstn_all2 by (rewrite enc_len; lia). assert (EF : forall q, fread dec n1 (flat_map enc c ++ q) = (c, q)) by (intros q; rewrite <- Lc; apply fread_ok, EDc). rewrite EF, enc_len.
    destruct (fillColumn_ok n1 n2 f M (c0 + 1) c HM) as (M1 & -> & HM1); [lia|]. replace (length c <? n1) with false by lia.
    apply (IH (S c0) M1 _ _ (fun c' H => HL c' (or_intror H)) HM1); lia.
  - pose proof (fread_short n1 (firstn m (flat_map enc c ++ flat_map (flat_map enc) cols))) as Sh. destruct (fread dec n1 _) as [a b]. cbn [fst] in Sh. rewrite firstn_length in Sh.
    destruct (fillColumn_ok n1 n2 f M (c0 + 1) a HM) as (M1 & -> & HM1); [lia|]. replace (length a <? n1) with true by lia. eexists. reflexivity.
Qed.

Definition header n1 n2 : list ascii := magic ++ [" "%char] ++ decimal n1 ++ [" "%char] ++ decimal n2.
Lemma no_newline n1 n2 : 1 <= n1 -> 1 <= n2 -> ~ In newline (header n1 n2).
Proof.
  intros H1 H2 H. destruct (decimal_ok n1 H1) as [(_ & A1 & _) _]. destruct (decimal_ok n2 H2) as [(_ & A2 & _) _]. unfold header in H.
  apply in_app_or in H. destruct H as [H|H]; [vm_compute in H; repeat (destruct H as [H|H]; [discriminate H|]); exact H|].
  cbn [app] in H. destruct H as [H|H]; [discriminate H|]. apply in_app_or in H. destruct H as [H|H]; [apply A1 in H; discriminate H|]. destruct H as [H|H]; [discriminate H|]. apply A2 in H. discriminate H.
Qed.
Lemma recFile_header n1 cols : recFile enc true n1 cols = Some (header n1 (length cols) ++ newline :: flat_map (flat_map enc) cols).
Proof. unfold recFile, header. f_equal. rewrite <- !app_assoc. reflexivity. Qed.
Lemma scan_header n1 n2 : 1 <= n1 -> 1 <= n2 -> exists t t', scanNum (skipn 22 (header n1 n2 ++ [newline])) = Some (n1, t) /\ scanNum t = Some (n2, t').
Proof.
  intros H1 H2. destruct (decimal_ok n1 H1) as [(N1 & A1 & _) V1]. destruct (decimal_ok n2 H2) as [(N2 & A2 & _) V2]. unfold header. rewrite <- app_assoc.
  change 22 with (length magic). rewrite skipn_app, skipn_all, Nat.sub_diag. cbn [app skipn]. rewrite <- app_assoc. cbn [app].
  exists (" "%char :: decimal n2 ++ [newline]), [newline]. rewrite scanNum_ok, V1 by (try assumption; reflexivity). split; [reflexivity|]. rewrite scanNum_ok, V2 by (try assumption; reflexivity). reflexivity.
Qed.
Lemma read_written n1 cols junk f M0 r0 c0 f0 : 1 <= n1 -> 1 <= length cols -> (forall c, In c cols -> length c = n1 /\ forall x, In x c -> dec (enc x) = x) -> isMat r0 c0 f0 M0 -> recFile enc true n1 cols = Some f ->
  exists M, readRec dec (Some (f ++ junk)) M0 = Some (true, M) /\ isMat n1 (length cols) (fun k j => nth k (nth j cols []) 0%Qc) M.
Proof.
  intros H1 H2 HL HM. rewrite recFile_header. intros HF. assert (Ef : f = header n1 (length cols) ++ newline :: flat_map (flat_map enc) cols) by congruence. clear HF. subst f. unfold readRec. rewrite <- app_assoc. cbn [app]. 
rewrite getline_no by (apply no_newline; assumption).
  set (h := header n1 (length cols) ++ [newline]). destruct h as [|c h'] eqn:Eh; [destruct (header n1 (length cols)); discriminate|]. rewrite <- Eh. unfold h. clear h c h' Eh.
  assert (Ec : contains magic (header n1 (length cols) ++ [newline]) = true) by (unfold header; rewrite <- app_assoc; apply contains_app). rewrite Ec.
  destruct (scan_header n1 (length cols) H1 H2) as (t & t' & -> & ->). destruct (resize_any r0 c0 n1 (length cols) f0 M0 HM) as (g & HB).
  destruct (readCols_ok n1 (length cols) cols 0 _ g junk HL HB ltac:(lia)) as (M & f' & E & HM' & Hf). exists M. split; [exact E|].
  destruct HM' as (Q1 & Q2 & Q3 & Q4 & Q5). repeat split; try assumption. intros i j Hi Hj. rewrite Q5, Hf by assumption. replace ((0 <=? j) && (j <? 0 + length cols)) with true by lia. rewrite Nat.sub_0_r. reflexivity.
Qed.
Lemma skipn_firstn {X} : forall a k (l : list X), skipn a (firstn k l) = firstn (k - a) (skipn a l).
Proof. intros a k l. apply skipn_firstn_comm. Qed.
Lemma readCols_empty n1 n2 M : 1 <= n1 -> 1 <= n2 -> exists M', readCols dec n1 (seq 0 n2) [] M = Some (false, M').
Proof.
  intros H1 H2. destruct n2 as [|n2]; [lia|]. destruct n1 as [|n1]; [lia|]. cbn [seq readCols fread length Nat.ltb Nat.leb]. unfold fillColumn. cbn [length].
  replace (if 0 <? d1 M then 0 else d1 M) with 0 by (destruct (Nat.ltb_spec 0 (d1 M)); lia). cbn [Nat.eqb]. exists M. reflexivity.
Qed.
Lemma read_cut n1 cols k f M0 r0 c0 f0 : 1 <= n1 -> 1 <= length cols -> (forall c, In c cols -> length c = n1 /\ forall x, In x c -> dec (enc x) = x) -> isMat r0 c0 f0 M0 -> recFile enc true n1 cols = Some f -> k < length f ->
  exists M, readRec dec (Some (firstn k f)) M0 = Some (false, M).
Proof.
  intros H1 H2 HL HM. rewrite recFile_header. intros HF. assert (Ef : f = header n1 (length cols) ++ newline :: flat_map (flat_map enc) cols) by congruence. clear HF. subst f. intros Hk. set (n2 := length cols) in *. set (H := header n1 n2) in *. pose proof (no_newline n1 n2 H1 H2) as NN. fold H in NN. unfold readRec.
  destruct (Nat.le_gt_cases k (length H)) as [G|G].
  - rewrite firstn_app. replace (k - length H) with 0 by lia. cbn [firstn]. rewrite app_nil_r. rewrite getline_end by (intros Hin; apply NN; apply (firstn_In k _ _ Hin)).
    destruct (firstn k H) as [|c h'] eqn:Eh; [eexists; reflexivity|]. rewrite <- Eh. destruct (contains magic (firstn k H)); [|eexists; reflexivity]. clear Eh c h'.
    rewrite skipn_firstn. unfold H, header. change 22 with (length magic) at 2. rewrite skipn_app, skipn_all, Nat.sub_diag. cbn [app skipn]. set (j := k - 22).
    destruct (decimal_ok n1 H1) as [Dg1 V1]. destruct (decimal_ok n2 H2) as [Dg2 V2]. pose proof Dg1 as (N1 & A1 & _). pose proof Dg2 as (N2 & A2 & _).
    destruct j as [|j]; [eexists; reflexivity|]. cbn [firstn]. rewrite firstn_app. destruct (Nat.le_gt_cases j (length (decimal n1))) as [G1|G1].
    + replace (j - length (decimal n1)) with 0 by lia. cbn [firstn]. destruct j as [|j]; [eexists; reflexivity|].
      rewrite scanNum_ok; [|destruct (decimal n1); [contradiction|discriminate]|intros c Hc; apply A1, (firstn_In _ _ _ Hc)|exact I]. eexists. reflexivity.
    + rewrite firstn_all2 by lia. destruct (j - length (decimal n1)) as [|m] eqn:Em; [lia|]. cbn [firstn].
      rewrite scanNum_ok; [|exact N1|exact A1|reflexivity]. rewrite V1. destruct m as [|m]; [eexists; reflexivity|].
      replace (firstn (S m) (decimal n2)) with (firstn (S m) (decimal n2) ++ []) by apply app_nil_r.
      rewrite scanNum_ok; [|destruct (decimal n2); [contradiction|discriminate]|intros c Hc; apply A2, (firstn_In _ _ _ Hc)|exact I].
      apply readCols_empty; [exact H1|]. apply dval_prefix; [exact Dg2|lia].
  - rewrite firstn_app, firstn_all2 by lia. destruct (k - length H) as [|m] eqn:Em; [lia|]. cbn [firstn]. rewrite getline_no by exact NN.
    set (h := H ++ [newline]). destruct h as [|c h'] eqn:Eh; [destruct H; discriminate|]. rewrite <- Eh. unfold h. clear h c h' Eh.
    assert (Ec : contains magic (H ++ [newline]) = true) by (unfold H, header; rewrite <- app_assoc; apply contains_app). rewrite Ec.
    destruct (scan_header n1 n2 H1 H2) as (t & t' & Q1 & Q2). fold H in Q1. rewrite Q1, Q2. destruct (resize_any r0 c0 n1 n2 f0 M0 HM) as (g & HB).
    apply (readCols_short n1 n2 cols 0 _ g m HL HB); [lia|]. rewrite app_length in Hk. cbn [length] in Hk. lia.
Qed.
End Data.

(** ** Uniqueness of the parts *)
Lemma recovered_inj cols xe a b : length a = length b -> recovered cols xe a -> recovered cols xe b -> a = b.
Proof. intros L A B. apply (nth_ext a b 0%Qc 0%Qc L). intros k Hk. rewrite A by exact Hk. rewrite B by lia. reflexivity. Qed.
Lemma parts_inj n l a b : increasing n l -> length a = n -> length b = n -> extPart l a = extPart l b -> intPart l n a = intPart l n b -> a = b.
Proof.
  intros Hi La Lb. rewrite !(extPart_E2 n l _ Hi). unfold intPart. intros H2 H1. apply (nth_ext a b 0%Qc 0%Qc); [congruence|]. intros k Hk.
  assert (Q : forall p, map (fun e => nth (e - 1) a 0%Qc) (filter p (seq 1 n)) = map (fun e => nth (e - 1) b 0%Qc) (filter p (seq 1 n)) -> p (S k) = true -> nth k a 0%Qc = nth k b 0%Qc).
  { intros p Hp Hk'. assert (Hin : In (S k) (filter p (seq 1 n))) by (apply filter_In; split; [apply in_seq; lia|exact Hk']). apply map_ext_in_iff with (a := S k) in Hp; [|exact Hin]. cbn [Nat.sub] in Hp. rewrite Nat.sub_0_r in Hp. exact Hp. }
  destruct (isB2 l (S k)) eqn:E; [apply (Q (isB2 l) H2 E)|]. apply (Q _ H1). unfold isB2 in E. rewrite E. reflexivity.
Qed.
(** ** Refused and undefined cases *)
Lemma nodesEqns_none s : forall ext, (exists i, In i ext /\ ~ (1 <= i <= Z.of_nat (nnod s))%Z) -> nodesEqns s ext = None.
Proof.
  induction ext as [|i r IH]; intros (j & Hj & Hn); [destruct Hj|]. cbn [nodesEqns]. destruct Hj as [->|Hj].
  - unfold getNodeEqns. destruct (Z.ltb_spec j 1), (Z.ltb_spec (Z.of_nat (nnod s)) j); try reflexivity. lia.
  - destruct (getNodeEqns s i); [|reflexivity]. rewrite IH; [reflexivity|]. exists j. auto.
Qed.
Lemma condense_refused solve s As imat ext A0 : imat < length As ->
  (exists i, In i ext /\ ~ (1 <= i <= Z.of_nat (nnod s))%Z) \/ (nodesOK s ext /\ length (meqn s) = ndof s /\ exists i e, In i ext /\ In e (dofEqs s (Z.to_nat i)) /\ (e <= 0)%Z) ->
  condense solve s As ext imat A0 = Some None.
Proof.
  intros Hi H. unfold condense. replace (length As <? imat) with false by lia. destruct (nth_error As imat) as [[[M|] [R|]]|] eqn:EA; try reflexivity.
  2:{ apply nth_error_None in EA. lia. }
  destruct H as [H|(NO & L & i & e & Hi' & He & Hle)].
  - rewrite nodesEqns_none by exact H. reflexivity.
  - rewrite nodesEqns_ok by assumption.
    assert (EX : existsb (fun e => (e <=? 0)%Z) (flat_map (fun i => dofEqs s (Z.to_nat i)) ext) = true).
    { apply existsb_exists. exists e. split; [apply in_flat_map; exists i; split; assumption|lia]. }
    rewrite EX. reflexivity.
Qed.
Lemma condense_undef solve s As imat ext l M R A0 : consistent s -> nodesOK s ext -> retained s ext l -> ~ In (Z.of_nat (neq s)) l -> 1 <= length l < neq s ->
  nth_error As imat = Some (Some M, Some R) -> wf M -> editable M = true -> Sparse_model.elem M <> [] -> nrow M = neq s -> ncol M = neq s ->
  condense solve s As ext imat A0 = None.
Proof.
  intros C NO RT Hlast Hlen HA Hwf Hed Hel Hr Hc. pose proof RT as [Hinc _]. destruct (retained_eqs s ext l) as (l0 & EN & ES & EX & _); [apply C|exact NO|exact RT|].
  unfold condense. assert (Himat : imat < length As) by (apply nth_error_Some; congruence). replace (length As <? imat) with false by lia. rewrite HA, EN, EX. cbv zeta. rewrite ES. apply editable_iff in Hed.
  destruct (split_spec2 M l Hwf Hed Hel) as (A11 & A21 & A12 & A22 & -> & _); [congruence|rewrite Hr; exact Hinc|rewrite Hr; exact Hlen|].
  rewrite Hr. rewrite (partVec_undef R (neq s) 0 l (win_inc _ _ Hinc)); [reflexivity|lia|exact Hlast].
Qed.
