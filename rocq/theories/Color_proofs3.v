(** Proofs: unstructured Lagrange patches. *)
From Coq Require Import List Arith ZArith QArith Qcanon Bool Permutation Lia.
From Verif Require Import Base Race_model Race_proofs Color_model Color_spec Color_proofs Color_proofs2.
Import ListNotations.
Local Open Scope nat_scope.

(** ** Sets and node numbers *)
Lemma in_ex x s : existsb (Nat.eqb x) s = true <-> In x s.
Proof.
  rewrite existsb_exists. split; [intros (y & Hy & Ey); apply Nat.eqb_eq in Ey; subst y; exact Hy|intros H; exists x; split; [exact H|apply Nat.eqb_refl]].
Qed.
Lemma sadd_in x y s : In y (sadd x s) <-> y = x \/ In y s.
Proof.
  unfold sadd. destruct (existsb (Nat.eqb x) s) eqn:Ex; [|cbn; intuition auto]. apply in_ex in Ex. split; [tauto|]. intros [->|H]; assumption.
Qed.
Lemma sunion_in y s : forall a, In y (sunion a s) <-> In y a \/ In y s.
Proof. induction a as [|x a IH]; cbn [sunion fold_right]; [cbn; tauto|]. rewrite sadd_in. fold (sunion a s). rewrite IH. cbn [In]. intuition auto. Qed.

Lemma nodeIndex_lt : forall mlgn g k, nodeIndex mlgn g = S k -> k < length mlgn /\ nth k mlgn 0%Z = g.
Proof.
  induction mlgn as [|x mlgn IH]; intros g k H; cbn [nodeIndex] in H; [discriminate|]. destruct (Z.eqb_spec x g) as [->|Hne]; [injection H as <-; cbn; split; [lia|reflexivity]|].
  destruct (nodeIndex mlgn g) as [|q] eqn:Eq; [discriminate|]. injection H as <-. destruct (IH g q Eq) as [A B]. cbn. split; [lia|exact B].
Qed.
Lemma nodeIndex_in : forall mlgn g, In g mlgn -> exists k, nodeIndex mlgn g = S k.
Proof.
  induction mlgn as [|x mlgn IH]; intros g H; [destruct H|]. cbn [nodeIndex]. destruct (Z.eqb_spec x g); [exists 0; reflexivity|]. destruct H as [H|H]; [contradiction|]. destruct (IH g H) as [k ->]. exists (S k). reflexivity.
Qed.
Lemma nodeIndex_nth mlgn a : NoDup mlgn -> a < length mlgn -> nodeIndex mlgn (nth a mlgn 0%Z) = S a.
Proof.
  intros ND H. destruct (nodeIndex_in mlgn (nth a mlgn 0%Z) (nth_In _ _ H)) as [k Hk]. destruct (nodeIndex_lt _ _ _ Hk) as [Hl Hn]. rewrite Hk. f_equal. apply (proj1 (NoDup_nth mlgn 0%Z) ND k a Hl H Hn).
Qed.

(** ** Couplings *)
(** [s] is a slave of [k] *)
Definition isCpl (mlgn : list Z) (mpcs : list mpc) (s k : nat) : Prop :=
  exists c m, In c mpcs /\ In m (masters c) /\ nodeIndex mlgn (fst (slave c)) = S s /\ nodeIndex mlgn (fst m) = S k.
Definition cplInv (mlgn : list Z) (P : nat -> nat -> Prop) (p : list nat * list (list nat)) : Prop :=
  length (snd p) = length mlgn /\ forall s k, P s k -> In s (fst p) /\ In s (nth k (snd p) []).

Lemma oneMpc_ok mlgn c P p : cplInv mlgn P p -> cplInv mlgn (fun s k => P s k \/ exists m, In m (masters c) /\ nodeIndex mlgn (fst (slave c)) = S s /\ nodeIndex mlgn (fst m) = S k) (oneMpc mlgn c p).
Proof.
  intros H. unfold oneMpc. destruct (nodeIndex mlgn (fst (slave c))) as [|s0] eqn:Es.
  - destruct H as [L H]. split; [exact L|]. intros s k [A|(m & _ & B & _)]; [apply H, A|discriminate B].
  - revert P p H. induction (masters c) as [|m ms IH]; intros P p H.
    + destruct H as [L H]. split; [exact L|]. intros s k [A|(m & [] & _)]; apply H, A.
    + cbn [fold_left]. set (p1 := match nodeIndex mlgn (fst m) with O => p | S k => (sadd s0 (fst p), upd k (sadd s0 (nth k (snd p) [])) (snd p)) end).
      assert (H1 : cplInv mlgn (fun s k => P s k \/ (S s0 = S s /\ nodeIndex mlgn (fst m) = S k)) p1).
      { destruct H as [L H]. unfold p1. destruct (nodeIndex mlgn (fst m)) as [|k0] eqn:Ek.
        - split; [exact L|]. intros s k [A|[_ B]]; [apply H, A|discriminate B].
        - destruct (nodeIndex_lt _ _ _ Ek) as [Hk _]. split; [cbn [snd]; rewrite upd_length; exact L|]. cbn [fst snd]. intros s k A. rewrite sadd_in. destruct (Nat.eq_dec k k0) as [->|Hne].
          + rewrite upd_nth_same by lia. rewrite sadd_in. destruct A as [A|[A _]]; [destruct (H s k0 A); tauto|injection A as ->; tauto].
          + rewrite upd_nth_other by exact Hne. destruct A as [A|[_ A]]; [destruct (H s k A); tauto|injection A as A; congruence]. }
      destruct (IH _ _ H1) as [L2 H2]. split; [exact L2|]. intros s k A. apply H2. destruct A as [A|(m' & [<-|Hm] & A & B)]; [left; left; exact A|left; right; split; assumption|right; exists m'; split; [exact Hm|split; assumption]].
Qed.
Lemma couplings_ok mlgn mpcs : cplInv mlgn (isCpl mlgn mpcs) (couplings mlgn mpcs).
Proof.
  unfold couplings. assert (H : cplInv mlgn (fun _ _ => False) ([], repeat [] (length mlgn))) by (split; [apply repeat_length|intros s k []]).
  assert (G : forall mpcs P p, cplInv mlgn P p -> cplInv mlgn (fun s k => P s k \/ isCpl mlgn mpcs s k) (fold_left (fun p c => oneMpc mlgn c p) mpcs p)).
  { clear. induction mpcs as [|c mpcs IH]; intros P p H.
    - destruct H as [L H]. split; [exact L|]. intros s k [A|(c & m & [] & _)]. apply H, A.
    - cbn [fold_left]. destruct (IH _ _ (oneMpc_ok mlgn c P p H)) as [L1 H1]. split; [exact L1|]. intros s k A. apply H1. destruct A as [A|(c' & m & [<-|Hc] & Hm & B)]; [left; left; exact A|left; right; exists m; tauto|right; exists c', m; tauto]. }
  destruct (G mpcs _ _ H) as [L1 H1]. split; [exact L1|]. intros s k A. apply H1. right. exact A.
Qed.

(** ** First pass *)
Lemma addConn_ok e : forall nodes conn, (forall a, In a nodes -> a < length conn) -> exists conn', addConn nodes e conn = Some conn' /\ length conn' = length conn /\
  forall a x, In x (nth a conn' []) <-> In x (nth a conn []) \/ (x = e /\ In a nodes).
Proof.
  induction nodes as [|a nodes IH]; intros conn H; [exists conn; split; [reflexivity|]; split; [reflexivity|]; cbn; tauto|].
  assert (Ha : a < length conn) by (apply H; left; reflexivity). cbn [addConn]. rewrite (nth_error_nth' conn []) by exact Ha. destruct (IH (upd a (sadd e (nth a conn [])) conn)) as (c' & -> & L & C); [intros b Hb; rewrite upd_length; apply H; right; exact Hb|].
  exists c'. split; [reflexivity|]. rewrite upd_length in L. split; [exact L|]. intros b x. rewrite C. destruct (Nat.eq_dec b a) as [->|Hne].
  - rewrite upd_nth_same by exact Ha. rewrite sadd_in. cbn [In]. tauto.
  - rewrite upd_nth_other by exact Hne. cbn [In]. intuition congruence.
Qed.
Section First.
Variables (sep : bool) (slaves : list nat) (mnpc : list (list nat)).
Definition sg (e : nat) : bool := isSingle sep slaves (nth e mnpc []).
Lemma skipn_nth {X} (d : X) : forall (l : list X) k, k < length l -> skipn k l = nth k l d :: skipn (S k) l.
Proof. induction l as [|x l IH]; intros k H; [cbn in H; lia|]. destruct k as [|k]; [reflexivity|]. cbn [length] in H. cbn [skipn nth]. rewrite (IH k) by lia. reflexivity. Qed.
Lemma firstPass_ok : forall m k status grp conn, k + m = length mnpc -> length status = length mnpc -> (forall e a, k <= e < length mnpc -> In a (nth e mnpc []) -> a < length conn) ->
  exists status' grp' conn', firstPass sep slaves (seq k m) (skipn k mnpc) status grp conn = Some (status', grp', conn') /\ length status' = length mnpc /\ grp' = grp ++ filter sg (seq k m) /\ length conn' = length conn /\
   (forall i, nth i status' 0%Z = if (k <=? i) && (i <? length mnpc) && sg i then 1%Z else nth i status 0%Z) /\
   (forall a x, In x (nth a conn' []) <-> In x (nth a conn []) \/ (k <= x < length mnpc /\ sg x = false /\ In a (nth x mnpc []))).
Proof.
  induction m as [|m IH]; intros k status grp conn Hk L R.
  - exists status, grp, conn. split; [reflexivity|]. split; [exact L|]. split; [cbn; rewrite app_nil_r; reflexivity|]. split; [reflexivity|]. split.
    + intros i. destruct (Nat.leb_spec k i), (Nat.ltb_spec i (length mnpc)); try reflexivity. lia.
    + intros a x. split; [tauto|]. intros [A|[A _]]; [exact A|lia].
  - cbn [seq]. rewrite (skipn_nth []) by lia. cbn [firstPass]. destruct (isSingle sep slaves (nth k mnpc [])) eqn:Es; fold (sg k) in Es.
    + destruct (IH (S k) (upd k 1%Z status) (grp ++ [k]) conn) as (st & g & c & -> & L1 & -> & L2 & N & C); [lia|rewrite upd_length; exact L|intros e a He; apply R; lia|]. exists st, ((grp ++ [k]) ++ filter sg (seq (S k) m)), c. split; [reflexivity|]. split; [exact L1|]. split; [cbn [filter]; rewrite Es, <- app_assoc; reflexivity|]. split; [exact L2|]. split.
      * intros i. rewrite N. destruct (Nat.eq_dec i k) as [->|Hne].
        -- rewrite upd_nth_same by lia. rewrite Es. destruct (Nat.leb_spec (S k) k); [lia|]. cbn [andb]. destruct (Nat.leb_spec k k); [|lia]. destruct (Nat.ltb_spec k (length mnpc)); [reflexivity|lia].
        -- rewrite upd_nth_other by exact Hne. destruct (Nat.leb_spec (S k) i), (Nat.leb_spec k i); try reflexivity; lia.
      * intros a x. rewrite C. split; (intros [A|(A & B & D)]; [left; exact A|right; split; [|split; assumption]]); [lia|]. assert (x <> k) by congruence. lia.
    + destruct (addConn_ok k (nth k mnpc []) conn) as (c0 & -> & L0 & C0); [intros a; apply R; lia|]. destruct (IH (S k) status grp c0) as (st & g & c & -> & L1 & -> & L2 & N & C); [lia|exact L|intros e a He; rewrite L0; apply R; lia|]. exists st, (grp ++ filter sg (seq (S k) m)), c. split; [reflexivity|]. split; [exact L1|]. split; [cbn [filter]; rewrite Es; reflexivity|]. split; [lia|]. split.
      * intros i. rewrite N. destruct (Nat.eq_dec i k) as [->|Hne].
        -- rewrite Es, !andb_false_r. reflexivity.
        -- destruct (Nat.leb_spec (S k) i), (Nat.leb_spec k i); try reflexivity; lia.
      * intros a x. rewrite C, C0. split.
        -- intros [[A|[-> A]]|(A & B & D)]; [left; exact A|right; split; [lia|split; assumption]|right; split; [lia|split; assumption]].
        -- intros [A|(A & B & D)]; [left; left; exact A|]. destruct (Nat.eq_dec x k) as [->|Hne]; [left; right; split; [reflexivity|exact D]|right; split; [lia|split; assumption]].
Qed.
End First.

(** ** Second pass *)
Lemma updAll_nth (v : list nat) a : forall sl cn, nth a (fold_left (fun cn s => upd s v cn) sl cn) [] = if existsb (Nat.eqb a) sl && (a <? length cn) then v else nth a cn [].
Proof.
  induction sl as [|s sl IH]; intros cn; [reflexivity|]. cbn [fold_left existsb]. rewrite IH, upd_length. destruct (Nat.eqb_spec a s) as [->|Hne].
  - cbn [orb]. destruct (Nat.ltb_spec s (length cn)) as [Hl|Hl].
    + rewrite andb_true_r, upd_nth_same by exact Hl. destruct (existsb _ sl); reflexivity.
    + rewrite !andb_false_r. rewrite !nth_overflow; [reflexivity|lia|rewrite upd_length; lia].
  - cbn [orb]. rewrite upd_nth_other by exact Hne. reflexivity.
Qed.
Lemma updAll_length (v : list nat) : forall sl (cn : list (list nat)), length (fold_left (fun cn s => upd s v cn) sl cn) = length cn.
Proof. induction sl as [|s sl IH]; intros cn; [reflexivity|]. cbn [fold_left]. rewrite IH. apply upd_length. Qed.
Lemma common_in conn x : forall sl c0, In x (fold_left (fun c s => sunion (nth s conn []) c) sl c0) <-> In x c0 \/ exists s, In s sl /\ In x (nth s conn []).
Proof.
  induction sl as [|s sl IH]; intros c0; [cbn; split; [tauto|intros [A|(s & [] & _)]; exact A]|]. cbn [fold_left]. rewrite IH, sunion_in. split.
  - intros [[A|A]|(s' & A & B)]; [right; exists s; split; [left; reflexivity|exact A]|left; exact A|right; exists s'; split; [right; exact A|exact B]].
  - intros [A|(s' & [<-|A] & B)]; [left; right; exact A|left; left; exact B|right; exists s'; split; assumption].
Qed.
(** what [couple] does at a node *)
Lemma couple_nth m nn conn a x : length conn = length nn -> m < length nn -> In x (nth a (couple m nn conn) []) <->
  (if (existsb (Nat.eqb a) (nth m nn []) || ((a =? m) && negb (match nth m nn [] with [] => true | _ => false end))) && (a <? length nn)
   then In x (nth m conn []) \/ exists s, In s (nth m nn []) /\ In x (nth s conn []) else In x (nth a conn [])).
Proof.
  intros L Hm. unfold couple. destruct (nth m nn []) as [|s0 sl0] eqn:En; [cbn [existsb negb orb]; rewrite andb_false_r; reflexivity|]. rewrite <- En. set (sl := nth m nn []) in *. cbn [negb]. rewrite andb_true_r.
  set (cm := fold_left (fun c s => sunion (nth s conn []) c) sl (nth m conn [])). rewrite updAll_nth, upd_length, L. destruct (existsb (Nat.eqb a) sl) eqn:Ea; cbn [orb andb].
  - destruct (Nat.ltb_spec a (length nn)) as [Hl|Hl]; [unfold cm; apply common_in|]. rewrite (upd_nth_other m a) by lia. reflexivity.
  - destruct (Nat.eqb_spec a m) as [->|Hne]; cbn [andb].
    + destruct (Nat.ltb_spec m (length nn)); [|lia]. rewrite upd_nth_same by lia. rewrite sunion_in. unfold cm. rewrite common_in. tauto.
    + rewrite upd_nth_other by exact Hne. reflexivity.
Qed.
Lemma couple_length m nn conn : length (couple m nn conn) = length conn.
Proof. unfold couple. destruct (nth m nn []); [reflexivity|]. rewrite updAll_length, upd_length. reflexivity. Qed.
Lemma couple_mono m nn conn a x : length conn = length nn -> m < length nn -> In x (nth a conn []) -> In x (nth a (couple m nn conn) []).
Proof.
  intros L Hm H. apply couple_nth; [exact L|exact Hm|]. destruct (existsb (Nat.eqb a) (nth m nn [])) eqn:Ea; cbn [orb].
  - destruct (a <? length nn); [|exact H]. right. exists a. split; [apply in_ex, Ea|exact H].
  - destruct (Nat.eqb_spec a m) as [->|Hne]; [|exact H]. destruct (nth m nn []); [exact H|]. cbn [negb andb]. destruct (m <? length nn); [left; exact H|exact H].
Qed.
Lemma couple_from m nn conn a x : length conn = length nn -> m < length nn -> In x (nth a (couple m nn conn) []) -> exists b, In x (nth b conn []).
Proof.
  intros L Hm H. apply couple_nth in H; [|exact L|exact Hm]. destruct (_ && _) in H; [|exists a; exact H]. destruct H as [H|(s & _ & H)]; [exists m|exists s]; exact H.
Qed.
Lemma fold_mono nn a x : forall ms conn, length conn = length nn -> (forall m, In m ms -> m < length nn) -> In x (nth a conn []) -> In x (nth a (fold_left (fun c m => couple m nn c) ms conn) []).
Proof.
  induction ms as [|m ms IH]; intros conn L H A; [exact A|]. cbn [fold_left]. apply IH; [rewrite couple_length; exact L|intros k Hk; apply H; right; exact Hk|]. apply couple_mono; [exact L|apply H; left; reflexivity|exact A].
Qed.
Lemma fold_from nn a x : forall ms conn, length conn = length nn -> (forall m, In m ms -> m < length nn) -> In x (nth a (fold_left (fun c m => couple m nn c) ms conn) []) -> exists b, In x (nth b conn []).
Proof.
  induction ms as [|m ms IH]; intros conn L H A; [exists a; exact A|]. cbn [fold_left] in A. apply IH in A; [|rewrite couple_length; exact L|intros k Hk; apply H; right; exact Hk]. destruct A as [b A]. apply couple_from in A; [exact A|exact L|apply H; left; reflexivity].
Qed.
Lemma fold_len nn : forall ms conn, length (fold_left (fun c m => couple m nn c) ms conn) = length conn.
Proof. induction ms as [|m ms IH]; intros conn; [reflexivity|]. cbn [fold_left]. rewrite IH. apply couple_length. Qed.

Lemma secondPass_gain nn conn m a b x : length conn = length nn -> m < length nn -> a < length nn -> nth m nn [] <> [] -> (a = m \/ In a (nth m nn [])) -> (b = m \/ In b (nth m nn [])) -> In x (nth b conn []) ->
  In x (nth a (secondPass nn conn) []).
Proof.
  intros L Hm Ha Hne A B H. unfold secondPass. replace (length nn) with (m + (length nn - m)) by lia. rewrite seq_app, fold_left_app. cbn [Nat.add]. replace (length nn - m) with (S (length nn - m - 1)) by lia. cbn [seq fold_left].
  apply fold_mono; [rewrite couple_length, fold_len; exact L|intros k Hk; apply in_seq in Hk; lia|]. apply couple_nth; [rewrite fold_len; exact L|exact Hm|].
  assert (M : forall c y, In y (nth c conn []) -> In y (nth c (fold_left (fun c m => couple m nn c) (seq 0 m) conn) [])) by (intros c y; apply fold_mono; [exact L|intros k Hk; apply in_seq in Hk; lia]).
  apply M in H. destruct (Nat.ltb_spec a (length nn)); [|lia]. rewrite andb_true_r. destruct (existsb (Nat.eqb a) (nth m nn [])) eqn:Ea; cbn [orb].
  - destruct B as [->|B]; [left; exact H|right; exists b; split; assumption].
  - destruct A as [->|A]; [|apply in_ex in A; congruence]. rewrite Nat.eqb_refl. destruct (nth m nn []) as [|s sl]; [contradiction|]. cbn [negb andb]. destruct B as [->|B]; [left; exact H|right; exists b; split; assumption].
Qed.
Lemma secondPass_mono nn conn a x : length conn = length nn -> In x (nth a conn []) -> In x (nth a (secondPass nn conn) []).
Proof. intros L. apply fold_mono; [exact L|]. intros m Hm. apply in_seq in Hm. lia. Qed.

(** ** The coloring *)
Lemma filter_split {X} (p : X -> bool) : forall l, Permutation l (filter p l ++ filter (fun x => negb (p x)) l).
Proof.
  induction l as [|x l IH]; [constructor|]. cbn [filter]. destruct (p x); cbn [negb app]; [constructor; exact IH|]. rewrite IH at 1. apply Permutation_middle.
Qed.
Lemma filter_ext' {X} (p q : X -> bool) : forall l, (forall x, In x l -> p x = q x) -> filter p l = filter q l.
Proof. induction l as [|x l IH]; intros H; [reflexivity|]. cbn. rewrite (H x (or_introl eq_refl)), IH by (intros y Hy; apply H; right; exact Hy). reflexivity. Qed.

Section Lag.
Variables (sep : bool) (mlgn : list Z) (mnpc : list (list nat)) (mpcs : list mpc).
Hypothesis Hnodes : forall e a, e < length mnpc -> In a (nth e mnpc []) -> a < length mlgn.
Let slaves := fst (couplings mlgn mpcs).
Let nn := snd (couplings mlgn mpcs).
Let single := sg sep slaves mnpc.

Lemma colorsLag_raw : exists conn0 cols, length conn0 = length mlgn /\
  (forall a x, In x (nth a conn0 []) <-> (x < length mnpc /\ single x = false /\ In a (nth x mnpc []))) /\
  colorsLag sep mlgn mnpc mpcs = Some (match filter single (seq 0 (length mnpc)) with [] => cols | g => g :: cols end) /\
  Permutation (concat cols) (filter (fun e => negb (single e)) (seq 0 (length mnpc))) /\
  forall col, In col cols -> NoDup col /\ ForallOrdPairs (fun i j => ~ In j (flat_map (fun a => nth a (secondPass nn conn0) []) (nth i mnpc []))) col.
Proof.
  set (n := length mnpc). unfold colorsLag. fold n. rewrite (surjective_pairing (couplings mlgn mpcs)). fold slaves nn.
  assert (Lnn : length nn = length mlgn) by apply (couplings_ok mlgn mpcs).
  destruct (firstPass_ok sep slaves mnpc n 0 (repeat 0%Z n) [] (repeat [] (length mlgn))) as (st & g & conn0 & E0 & L1 & -> & L2 & N & C); [reflexivity|apply repeat_length|intros e a He; rewrite repeat_length; apply Hnodes; lia|].
  cbn [skipn] in E0. rewrite E0. cbn [app] in *. fold single in E0, N, C |- *. rewrite repeat_length in L2.
  assert (C' : forall a x, In x (nth a conn0 []) <-> (x < n /\ single x = false /\ In a (nth x mnpc []))).
  { intros a x. rewrite C, nth_repeat. cbn [In]. fold n. split; [intros [[]|(A & B & D)]; split; [lia|tauto]|intros (A & B & D); right; split; [lia|tauto]]. }
  assert (U : filter (un st) (seq 0 n) = filter (fun e => negb (single e)) (seq 0 n)).
  { apply filter_ext'. intros i Hi. apply in_seq in Hi. unfold un. rewrite N, nth_repeat. destruct (Nat.leb_spec 0 i); [|lia]. destruct (Nat.ltb_spec i (length mnpc)); [|unfold n in Hi; lia]. cbn [andb]. fold single. destruct (single i); reflexivity. }
  assert (LU : length (filter single (seq 0 n)) + length (filter (un st) (seq 0 n)) = n). { rewrite U, <- app_length, <- (Permutation_length (filter_split single (seq 0 n))), seq_length. reflexivity. }
  set (k0 := match filter single (seq 0 n) with [] => 0 | _ => 1 end).
  destruct (loop_ok n (markLag mnpc (secondPass nn conn0)) (fun i => flat_map (fun a => nth a (secondPass nn conn0) []) (nth i mnpc []))) with (order := seq 0 n) (fuel := n) (k := k0) (fixed := length (filter single (seq 0 n))) (st := st) as (cols & EL & Pc & Hc).
  - intros i Hi. unfold markLag. rewrite (nth_error_nth' mnpc []) by exact Hi. apply flatM_ok. intros a Ha. apply nth_error_nth'. unfold secondPass. rewrite fold_len, L2. apply (Hnodes i a Hi Ha).
  - intros i j Hi Hj. apply in_flat_map in Hj. destruct Hj as (a & _ & Hj). unfold secondPass in Hj. apply fold_from in Hj; [|lia|intros m Hm; apply in_seq in Hm; lia]. destruct Hj as [b Hj]. apply C' in Hj. tauto.
  - reflexivity.
  - exact L1.
  - exact LU.
  - lia.
  - rewrite EL. exists conn0, cols. split; [exact L2|]. split; [exact C'|]. split; [destruct (filter single (seq 0 n)); reflexivity|]. split; [rewrite <- U; exact Pc|exact Hc].
Qed.
Lemma colorsLag_part : exists cols, colorsLag sep mlgn mnpc mpcs = Some cols /\ Permutation (concat cols) (seq 0 (length mnpc)).
Proof.
  destruct colorsLag_raw as (conn0 & cols & _ & _ & EQ & P & _). eexists. split; [exact EQ|]. eapply Permutation_trans; [|symmetry; apply (filter_split single)]. destruct (filter single (seq 0 (length mnpc))) as [|g0 g]; cbn [concat]; [exact P|]. apply Permutation_app_head, P.
Qed.

Hypothesis HND : NoDup mlgn.
Hypothesis HR : resolved mpcs.
Hypothesis HM : mastersInside mlgn mpcs.

(** a degree of freedom of an element: at one of its nodes, or a master of one of them *)
Lemma reach_inv e d : e < length mnpc -> reach mlgn mnpc mpcs e d ->
  exists a k, In a (nth e mnpc []) /\ nodeIndex mlgn (fst d) = S k /\ (a = k \/ isCpl mlgn mpcs a k).
Proof.
  intros He H.
  assert (G : (exists a, In a (nth e mnpc []) /\ nth a mlgn 0%Z = fst d) \/ exists c a, In c mpcs /\ In a (nth e mnpc []) /\ nth a mlgn 0%Z = fst (slave c) /\ In d (masters c)).
  { induction H as [a k Ha|c m Hc Hs IH Hm]; [left; exists a; split; [exact Ha|reflexivity]|]. destruct IH as [(a & Ha & Ea)|(c' & a & Hc' & Ha & Ea & Hd)].
    - right. exists c, a. repeat split; assumption.
    - exfalso. rewrite (HR c' c Hc' Hc Hd) in Hm. destruct Hm. }
  destruct G as [(a & Ha & Ea)|(c & a & Hc & Ha & Ea & Hd)].
  - exists a, a. split; [exact Ha|]. rewrite <- Ea. split; [apply nodeIndex_nth; [exact HND|apply (Hnodes e a He Ha)]|left; reflexivity].
  - assert (Hal : a < length mlgn) by apply (Hnodes e a He Ha). assert (Hsl : In (fst (slave c)) mlgn) by (rewrite <- Ea; apply nth_In, Hal). destruct (nodeIndex_in mlgn (fst d) (HM c d Hc Hsl Hd)) as [k Hk].
    exists a, k. split; [exact Ha|]. split; [exact Hk|]. right. exists c, d. repeat split; try assumption. rewrite <- Ea. apply nodeIndex_nth; assumption.
Qed.
Lemma conflict conn0 e f d : length conn0 = length mlgn -> (forall a x, In x (nth a conn0 []) <-> (x < length mnpc /\ single x = false /\ In a (nth x mnpc []))) ->
  e < length mnpc -> f < length mnpc -> single f = false -> reach mlgn mnpc mpcs e d -> reach mlgn mnpc mpcs f d -> In f (flat_map (fun a => nth a (secondPass nn conn0) []) (nth e mnpc [])).
Proof.
  intros L C He Hf Sf A B. destruct (couplings_ok mlgn mpcs) as [Lnn Cp]. fold nn slaves in Lnn, Cp. destruct (reach_inv e d He A) as (a & k & Ha & Ek & HA). destruct (reach_inv f d Hf B) as (b & k' & Hb & Ek' & HB). rewrite Ek in Ek'. injection Ek' as <-.
  destruct (nodeIndex_lt _ _ _ Ek) as [Hk _]. assert (Hbf : In f (nth b conn0 [])) by (apply C; repeat split; assumption). apply in_flat_map. exists a. split; [exact Ha|].
  destruct HA as [->|HA], HB as [->|HB].
  - apply secondPass_mono; [lia|exact Hbf].
  - destruct (Cp b k HB) as [_ H1]. apply (secondPass_gain nn conn0 k k b); [lia|lia|lia|destruct (nth k nn []); [destruct H1|discriminate]|left; reflexivity|right; exact H1|exact Hbf].
  - destruct (Cp a k HA) as [_ H1]. apply (secondPass_gain nn conn0 k a k); [lia|lia|rewrite Lnn; apply (Hnodes e a He Ha)|destruct (nth k nn []); [destruct H1|discriminate]|right; exact H1|left; reflexivity|exact Hbf].
  - destruct (Cp a k HA) as [_ H1], (Cp b k HB) as [_ H2]. apply (secondPass_gain nn conn0 k a b); [lia|lia|rewrite Lnn; apply (Hnodes e a He Ha)|destruct (nth k nn []); [destruct H1|discriminate]|right; exact H1|right; exact H2|exact Hbf].
Qed.
(** no two single-noded elements at the same node *)
Hypothesis HS : sep = true -> forall e f a, e < length mnpc -> f < length mnpc -> nth e mnpc [] = [a] -> nth f mnpc [] = [a] -> e = f.

Lemma single_inv e : single e = true -> sep = true /\ exists a, nth e mnpc [] = [a] /\ ~ In a slaves.
Proof.
  unfold single, sg, isSingle. intros H. apply andb_prop in H. destruct H as [H1 H2]. split; [exact H1|]. destruct (nth e mnpc []) as [|a [|]]; try discriminate H2. exists a. split; [reflexivity|]. intros Hin. apply in_ex in Hin. rewrite Hin in H2. discriminate H2.
Qed.
Lemma colorsLag_ok : exists cols, colorsLag sep mlgn mnpc mpcs = Some cols /\ Permutation (concat cols) (seq 0 (length mnpc)) /\
  forall col, In col cols -> NoDup col /\ forall e f d, In e col -> In f col -> e <> f -> reach mlgn mnpc mpcs e d -> reach mlgn mnpc mpcs f d -> False.
Proof.
  destruct colorsLag_raw as (conn0 & cols & L & C & EQ & P & Hc). destruct colorsLag_part as (cols' & EQ' & P'). rewrite EQ in EQ'. injection EQ' as <-. eexists. split; [exact EQ|]. split; [exact P'|].
  destruct (couplings_ok mlgn mpcs) as [Lnn Cp]. fold nn slaves in Lnn, Cp.
  intros col Hcol. assert (HH : col = filter single (seq 0 (length mnpc)) \/ In col cols) by (destruct (filter single (seq 0 (length mnpc))); [right; exact Hcol|destruct Hcol as [<-|Hcol]; [left; reflexivity|right; exact Hcol]]). clear Hcol. destruct HH as [->|Hcol].
  - split; [apply NoDup_filter, seq_NoDup|]. intros e f d He Hf Hne A B. apply filter_In in He, Hf. destruct He as [He Se], Hf as [Hf Sf]. apply in_seq in He, Hf.
    destruct (single_inv e Se) as (Hsep & a & Ea & Na), (single_inv f Sf) as (_ & b & Eb & Nb). destruct (reach_inv e d ltac:(lia) A) as (a' & k & Ha' & Ek & HA). destruct (reach_inv f d ltac:(lia) B) as (b' & k' & Hb' & Ek' & HB). rewrite Ek in Ek'. injection Ek' as <-.
    rewrite Ea in Ha'. rewrite Eb in Hb'. destruct Ha' as [<-|[]], Hb' as [<-|[]]. destruct HA as [->|HA]; [|apply Na; apply (Cp a k HA)]. destruct HB as [->|HB]; [|apply Nb; apply (Cp b k HB)]. apply Hne, (HS Hsep e f k); try assumption; lia.
  - destruct (Hc col Hcol) as [ND FP]. split; [exact ND|]. intros e f d He Hf Hne A B.
    assert (R : forall x, In x col -> x < length mnpc /\ single x = false). { intros x Hx. assert (Hs : In x (filter (fun e => negb (single e)) (seq 0 (length mnpc)))) by (apply (Permutation_in _ P); apply in_concat; exists col; split; assumption). apply filter_In in Hs. destruct Hs as [Hs1 Hs2]. apply in_seq in Hs1. split; [lia|]. destruct (single x); [discriminate Hs2|reflexivity]. }
    destruct (R e He) as [Re Se], (R f Hf) as [Rf Sf]. destruct (FOP_pair _ col e f FP He Hf Hne) as [H|H]; apply H; [apply (conflict conn0 e f d L C Re Rf Sf A B)|apply (conflict conn0 f e d L C Rf Re Se B A)].
Qed.
Lemma par_Lag ceq upde cols m0 m2 : colorsLag sep mlgn mnpc mpcs = Some cols ->
  (forall e r c v, In ((r, c), v) (upde e) -> reach mlgn mnpc mpcs e r /\ reach mlgn mnpc mpcs e c) -> par_colors ceq upde cols m0 m2 ->
  forall c, m2 c = (m0 c + total ceq c (flat_map upde (seq 0 (length mnpc))))%Qc.
Proof.
  intros HC HU HP c. destruct colorsLag_ok as (cols' & HC' & Pm & Hd). rewrite HC in HC'. injection HC' as <-. rewrite <- (total_perm ceq upde c _ _ Pm). apply (par_ok ceq upde cols m0 m2); [|exact HP].
  intros col Hcol. destruct (Hd col Hcol) as [ND Hx]. split; [exact ND|]. intros e f [r k] He Hf Hne A B. apply in_map_iff in A. destruct A as ([[r1 k1] v1] & E1 & A). apply in_map_iff in B. destruct B as ([[r2 k2] v2] & E2 & B). cbn [fst] in E1, E2. injection E1 as -> ->. injection E2 as -> ->.
  apply (Hx e f r He Hf Hne); [apply (HU _ _ _ _ A)|apply (HU _ _ _ _ B)].
Qed.
End Lag.
