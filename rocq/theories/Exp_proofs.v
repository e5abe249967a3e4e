(** Proofs for the results file. *)
From Coq Require Import List ZArith Bool String Lia.
From Verif Require Import Rst_model Exp_model Exp_spec.
Import ListNotations.
Open Scope Z_scope.

Lemma update_set : forall ds val en n v, update_field (fields_of ds val en) n (fun e => mkF (f_kind e) (f_once e) (f_enabled e) (PData v)) = fields_of ds (upd val n v) en.
Proof.
  intros ds val en n v; unfold update_field, fields_of; rewrite map_map; apply map_ext; intros d; simpl. unfold upd.
  destruct (String.eqb_spec (d_name d) n); reflexivity.
Qed.
Lemma update_enable : forall ds val en n b, update_field (fields_of ds val en) n (fun e => mkF (f_kind e) (f_once e) b (f_data e)) = fields_of ds val (upd en n b).
Proof.
  intros ds val en n v; unfold update_field, fields_of; rewrite map_map; apply map_ext; intros d; simpl. unfold upd.
  destruct (String.eqb_spec (d_name d) n); reflexivity.
Qed.

Lemma is_once_self : forall ds d, NoDup (map d_name ds) -> In d ds -> is_once ds (d_name d) = d_once d.
Proof.
  intros ds d; induction ds as [|a ds IH]; intros N I; [contradiction|]. simpl in N; inversion N as [|? ? N1 N2]; subst.
  unfold is_once; simpl. destruct I as [->|I].
  - rewrite String.eqb_refl. simpl. destruct (d_once d) eqn:E; [reflexivity|]. simpl.
    apply not_true_is_false. intros C. apply existsb_exists in C as [x [Hx C]]. apply andb_true_iff in C as [C _].
    apply String.eqb_eq in C. apply N1. rewrite <- C. apply in_map; exact Hx.
  - destruct (String.eqb_spec (d_name a) (d_name d)) as [E|E].
    + exfalso; apply N1; rewrite E; apply in_map; exact I.
    + simpl. exact (IH N2 I).
Qed.

Lemma disable_once_fields : forall ds val en, NoDup (map d_name ds) ->
  disable_once (fields_of ds val en) = fields_of ds val (fun n => en n && negb (is_once ds n)).
Proof.
  intros ds val en N; unfold disable_once, fields_of; rewrite map_map; apply map_ext_in; intros d I; simpl.
  rewrite (is_once_self ds d N I). destruct (d_once d); simpl; [rewrite andb_false_r|rewrite andb_true_r]; reflexivity.
Qed.

Lemma numbered_app : forall A (xs : list A) l y, numbered l (xs ++ [y]) = numbered l xs ++ [(l + Z.of_nat (List.length xs), y)].
Proof.
  intros A xs; induction xs as [|x xs IH]; intros l y; simpl; [replace (l + 0) with l by lia; reflexivity|].
  rewrite IH. replace (l + 1 + Z.of_nat (List.length xs)) with (l + Z.pos (Pos.of_succ_nat (List.length xs))) by lia. reflexivity.
Qed.
Lemma numbered_bound : forall A (xs : list A) l p, In p (numbered l xs) -> l <= fst p < l + Z.of_nat (List.length xs).
Proof.
  intros A xs; induction xs as [|x xs IH]; intros l p H; simpl in H; [contradiction|]. destruct H as [<-|H]; simpl; [lia|].
  apply IH in H. simpl length. lia.
Qed.

Definition fresh (ls : list (Z * list (string * Z))) (l : Z) : Prop := forall p, In p ls -> fst p <> l.
Lemma has_level_tail : forall ls l g root, has_level (mkFile (ls ++ [(l, g)]) root) l = true.
Proof. intros; unfold has_level; simpl. rewrite existsb_app; simpl. rewrite Z.eqb_refl. rewrite orb_true_r. reflexivity. Qed.
Lemma put_level_tail : forall ls l g root n v, fresh ls l -> put_level (mkFile (ls ++ [(l, g)]) root) l n v = mkFile (ls ++ [(l, add_data g n v)]) root.
Proof.
  intros ls l g root n v F; unfold put_level; simpl. rewrite map_app; simpl. rewrite Z.eqb_refl. f_equal. f_equal.
  rewrite <- (map_id ls) at 2. apply map_ext_in. intros p Hp. destruct (Z.eqb_spec (fst p) l) as [E|E]; [|reflexivity].
  exfalso; exact (F p Hp E).
Qed.
Lemma add_data_new : forall g n v, ~ In n (map fst g) -> add_data g n v = g ++ [(n, v)].
Proof.
  intros g n v H; unfold add_data. destruct (existsb _ g) eqn:E; [|reflexivity]. apply existsb_exists in E as [p [Hp E]].
  apply String.eqb_eq in E. exfalso; apply H; rewrite <- E; apply in_map; exact Hp.
Qed.


Lemma write_fields_tail : forall ds val en ls l root g, fresh ls l -> Forall storable ds ->
  NoDup (map fst g ++ map d_name ds) ->
  write_fields (mkFile (ls ++ [(l, g)]) root) l (fields_of ds val en) = Some (true, mkFile (ls ++ [(l, g ++ snapshot ds val en)]) root).
Proof.
  intros ds val en ls l root; induction ds as [|d ds IH]; intros g F S N; simpl.
  - rewrite app_nil_r. reflexivity.
  - inversion S as [|? ? S1 S2]; subst.
    assert (W : write_field (mkFile (ls ++ [(l, g)]) root) l (d_name d) (mkF (d_kind d) (d_once d) (en (d_name d)) (PData (val (d_name d)))) (val (d_name d))
                = mkFile (ls ++ [(l, if en (d_name d) then g ++ [(d_name d, val (d_name d))] else g)]) root).
    { assert (A : add_data g (d_name d) (val (d_name d)) = g ++ [(d_name d, val (d_name d))]).
      { apply add_data_new. intros C. simpl in N. apply NoDup_remove_2 in N. apply N. apply in_or_app; left; exact C. }
      unfold write_field; simpl. destruct S1 as [-> | ->]; destruct (en (d_name d)); try reflexivity.
      - rewrite has_level_tail, put_level_tail, A by exact F. reflexivity.
      - rewrite put_level_tail, A by exact F. reflexivity. }
    rewrite W. destruct (en (d_name d)).
    + rewrite (IH (g ++ [(d_name d, val (d_name d))]) F S2); [rewrite <- app_assoc; reflexivity|].
      rewrite map_app; simpl. rewrite <- app_assoc. exact N.
    + rewrite (IH g F S2); [reflexivity|]. simpl in N. eapply NoDup_remove_1. exact N.
Qed.

Definition writer_of (level0 : Z) (done : list (list (string * Z))) (d0 : option rfile) : writer :=
  match done with [] => mkW true false d0 | _ => mkW false false (Some (mkFile (numbered level0 done) [])) end.

Lemma dump_writer : forall level0 done d0 ds val en, Forall storable ds -> NoDup (map d_name ds) ->
  let l := level0 + Z.of_nat (List.length done) in
  let w1 := open_writer (writer_of level0 done d0) l in
  exists f, w_disk w1 = Some f /\ w_open w1 = true /\
    write_fields f l (fields_of ds val en) = Some (true, mkFile (numbered level0 (done ++ [snapshot ds val en])) []).
Proof.
  intros level0 done d0 ds val en S N l w1.
  assert (F : fresh (numbered level0 done) l).
  { intros p Hp. apply numbered_bound in Hp. unfold l. lia. }
  exists (mkFile (numbered level0 done ++ [(l, [])]) []). rewrite numbered_app. fold l. split; [|split].
  - unfold w1, writer_of, open_writer. destruct done as [|a done]; [reflexivity|]. simpl.
    destruct (has_level _ l) eqn:E; [|reflexivity]. exfalso. unfold has_level in E. apply existsb_exists in E as [p [Hp E]].
    apply Z.eqb_eq in E. exact (F p Hp E).
  - unfold w1, writer_of, open_writer. destruct done; reflexivity.
  - rewrite (write_fields_tail ds val en (numbered level0 done) l [] [] F S); [reflexivity|exact N].
Qed.

Lemma xrun_plain : forall ops ds ndump level0 d0 done val en lst, 1 <= ndump -> Forall storable ds -> NoDup (map d_name ds) -> Forall plain_op ops ->
  exists x', xrun (mkX (mkExpo ndump (level0 - 1 + Z.of_nat (List.length done)) lst) (fields_of ds val en) (writer_of level0 done d0)) ops = Some x' /\
  x_writer x' = writer_of level0 (done ++ snapshots ds ndump val en lst ops) d0 /\
  e_level (x_expo x') = level0 - 1 + Z.of_nat (List.length (done ++ snapshots ds ndump val en lst ops)).
Proof.
  induction ops as [|o ops IH]; intros ds ndump level0 d0 done val en lst Hn S N P; simpl.
  { eexists; split; [reflexivity|]. rewrite app_nil_r. split; reflexivity. }
  inversion P as [|? ? P1 P2]; subst. destruct o as [n k once|n [| |v]|n b|[s|]]; simpl in P1; try contradiction.
  - simpl. unfold set_value; cbn [x_expo x_fields x_writer]. rewrite update_set. apply IH; assumption.
  - simpl. unfold enable_field; cbn [x_expo x_fields x_writer]. rewrite update_enable. apply IH; assumption.
  - simpl. unfold dump_time_level; cbn [x_expo x_fields x_writer]. unfold dump_level; cbn [e_last e_ndump e_level].
    assert (C : (0 <? s) && (s <? Z.max 0 lst + ndump) = negb ((s <=? 0) || (Z.max 0 lst + ndump <=? s))).
    { rewrite negb_orb, Z.ltb_antisym, (Z.ltb_antisym (Z.max 0 lst + ndump) s). reflexivity. }
    rewrite C. destruct ((s <=? 0) || (Z.max 0 lst + ndump <=? s)) eqn:E; cbn [negb fst snd].
    + replace (level0 - 1 + Z.of_nat (List.length done) + 1) with (level0 + Z.of_nat (List.length done)) by lia.
      destruct (dump_writer level0 done d0 ds val en S N) as [f [E1 [E2 E3]]]. rewrite E1, E3.
      rewrite disable_once_fields by exact N.
      destruct (IH ds ndump level0 d0 (done ++ [snapshot ds val en]) val (fun n => en n && negb (is_once ds n)) s Hn S N P2) as [x' [R1 [R2 R3]]].
      exists x'. rewrite <- app_assoc in R2, R3. split; [|split; [exact R2|exact R3]].
      rewrite <- R1. f_equal. f_equal.
      * f_equal. rewrite app_length; simpl. lia.
      * unfold close_writer, writer_of; simpl. destruct (done ++ [snapshot ds val en]) eqn:E4; [|reflexivity].
        apply app_eq_nil in E4 as [_ E4]; discriminate.
    + apply IH; assumption.
Qed.

(** appending *)
Lemma has_level_numbered : forall (xs : list (list (string * Z))) l root k, has_level (mkFile (numbered l xs) root) k = true <-> l <= k < l + Z.of_nat (List.length xs).
Proof.
  intros xs; induction xs as [|x xs IH]; intros l root k; unfold has_level in *; simpl in *; [split; [discriminate|lia]|].
  rewrite orb_true_iff, Z.eqb_eq, IH by exact root. lia.
Qed.
Lemma count_levels_numbered : forall (xs : list (list (string * Z))) root fuel k, 0 <= k <= Z.of_nat (List.length xs) ->
  (List.length xs < Z.to_nat k + fuel)%nat -> count_levels (mkFile (numbered 0 xs) root) k fuel = Z.of_nat (List.length xs) + 1.
Proof.
  intros xs root; induction fuel as [|fuel IH]; intros k Hk Hf; [lia|]. simpl.
  destruct (has_level (mkFile (numbered 0 xs) root) k) eqn:E.
  - apply has_level_numbered in E. apply IH; lia.
  - assert (~ (0 <= k < 0 + Z.of_nat (List.length xs))) by (rewrite <- (has_level_numbered xs 0 root k); congruence). lia.
Qed.
Lemma numbered_length : forall A (xs : list A) l, List.length (numbered l xs) = List.length xs.
Proof. intros A xs; induction xs as [|x xs IH]; intros l; simpl; [reflexivity|]. rewrite IH; reflexivity. Qed.
