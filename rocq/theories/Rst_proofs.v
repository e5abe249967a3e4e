(** Proofs for the restart file and the output schedule. *)
From Coq Require Import List ZArith Bool Ascii String Lia.
From Verif Require Import Rst_model Rst_spec.
Import ListNotations.
Open Scope Z_scope.

(** ** the file as a table *)
Lemma find_grp_none : forall f l, find_grp f l = None <-> ~ In l (map fst f).
Proof.
  intros f l; unfold find_grp; induction f as [|[k g] f IH]; simpl; [tauto|].
  destruct (Z.eqb_spec k l) as [E|E]; split; intros H; try discriminate.
  - exfalso; apply H; left; exact E.
  - intros [C|C]; [lia|apply IH in H; tauto].
  - apply IH; tauto.
Qed.

Lemma find_grp_app : forall f h l, find_grp (f ++ h) l = match find_grp f l with Some x => Some x | None => find_grp h l end.
Proof.
  intros f h l; unfold find_grp; induction f as [|[k g] f IH]; simpl; [reflexivity|].
  destruct (k =? l); [reflexivity|exact IH].
Qed.

Lemma set_grp_absent : forall f l g, ~ In l (map fst f) -> set_grp f l g = f.
Proof.
  intros f l g; induction f as [|[k x] f IH]; simpl; intros H; [reflexivity|].
  destruct (Z.eqb_spec k l) as [E|E]; [tauto|]. f_equal; apply IH; tauto.
Qed.

Lemma set_grp_app : forall f h l g, set_grp (f ++ h) l g = set_grp f l g ++ set_grp h l g.
Proof. intros; unfold set_grp; apply map_app. Qed.

Lemma set_grp_fst : forall f l g, map fst (set_grp f l g) = map fst f.
Proof. intros f l g; induction f as [|[k x] f IH]; simpl; [reflexivity|]. rewrite IH; destruct (k =? l); reflexivity. Qed.

Lemma find_set_other : forall f l g l', l' <> l -> find_grp (set_grp f l g) l' = find_grp f l'.
Proof.
  intros f l g l' H; unfold find_grp; induction f as [|[k x] f IH]; simpl; [reflexivity|].
  destruct (Z.eqb_spec k l) as [E|E]; simpl; destruct (Z.eqb_spec k l'); try lia; auto.
Qed.

Lemma find_set_same : forall f l g, In l (map fst f) -> find_grp (set_grp f l g) l = Some g.
Proof.
  intros f l g; unfold find_grp; induction f as [|[k x] f IH]; simpl; intros H; [tauto|].
  destruct (Z.eqb_spec k l) as [E|E]; simpl.
  - subst; rewrite Z.eqb_refl; reflexivity.
  - destruct (Z.eqb_spec k l); [lia|]. apply IH; destruct H; [lia|auto].
Qed.

(** the last level of the file is the one being written *)
Lemma tail_find : forall f l x, ~ In l (map fst f) -> find_grp (f ++ [(l, x)]) l = Some x.
Proof.
  intros f l x H; rewrite find_grp_app; apply find_grp_none in H; rewrite H; unfold find_grp; simpl.
  rewrite Z.eqb_refl; reflexivity.
Qed.
Lemma tail_set : forall f l x y, ~ In l (map fst f) -> set_grp (f ++ [(l, x)]) l y = f ++ [(l, y)].
Proof.
  intros f l x y H; rewrite set_grp_app, set_grp_absent by exact H; simpl; rewrite Z.eqb_refl; reflexivity.
Qed.

Definition entry_set (e : string * string) : string * dset :=
  (fst e, match snd e with EmptyString => DEmpty | s => DData s end).

Lemma has_set_tail : forall f l g n, ~ In l (map fst f) ->
  has_set (f ++ [(l, Some g)]) l n = existsb (fun p => String.eqb (fst p) n) g.
Proof. intros f l g n H; unfold has_set; rewrite tail_find by exact H; reflexivity. Qed.
Lemma put_set_tail : forall f l g n v, ~ In l (map fst f) ->
  put_set (f ++ [(l, Some g)]) l n v = f ++ [(l, Some (g ++ [(n, v)]))].
Proof. intros f l g n v H; unfold put_set; rewrite tail_find by exact H; apply tail_set; exact H. Qed.
Lemma add_group_tail : forall f l x, ~ In l (map fst f) ->
  add_group (f ++ [(l, x)]) l = f ++ [(l, Some (match x with Some g => g | None => [] end))].
Proof.
  intros f l x H; unfold add_group; rewrite tail_find by exact H; destruct x; [reflexivity|apply tail_set; exact H].
Qed.

Lemma existsb_name : forall (g : grp) n, existsb (fun p => String.eqb (fst p) n) g = false <-> ~ In n (map fst g).
Proof.
  intros g n; induction g as [|[k v] g IH]; simpl; [tauto|].
  destruct (String.eqb_spec k n) as [E|E]; simpl; split; intros H; try discriminate; try tauto.
Qed.

Definition grp_of (x : option grp) : grp := match x with Some g => g | None => [] end.

Lemma entry_trace_tail : forall f l x e, ~ In l (map fst f) -> ~ In (fst e) (map fst (grp_of x)) ->
  exists t, entry_trace (f ++ [(l, x)]) l e
            = t ++ [f ++ [(l, Some (grp_of x ++ [entry_set e]))]]
         /\ (forall h, In h t -> h = f ++ [(l, Some (grp_of x))]
                              \/ h = f ++ [(l, Some (grp_of x ++ [(fst e, DEmpty)]))]).
Proof.
  intros f l x [n v] H N; unfold entry_trace; rewrite add_group_tail by exact H; fold (grp_of x).
  rewrite has_set_tail by exact H; simpl fst in *; apply existsb_name in N; rewrite N.
  rewrite !put_set_tail by exact H; destruct v as [|c v]; simpl.
  - exists [f ++ [(l, Some (grp_of x))]]; split; [reflexivity|]. intros h [E|[]]; left; symmetry; exact E.
  - exists [f ++ [(l, Some (grp_of x))]; f ++ [(l, Some (grp_of x ++ [(n, DEmpty)]))]]; split; [reflexivity|].
    intros h [E|[E|[]]]; [left|right]; symmetry; exact E.
Qed.

Lemma entries_trace_tail : forall f l data x, ~ In l (map fst f) ->
  NoDup (map fst (grp_of x) ++ map fst data) ->
  (forall h, In h (entries_trace (f ++ [(l, x)]) l data) ->
     exists k, (k <= List.length data)%nat /\
       (h = f ++ [(l, Some (grp_of x ++ map entry_set (firstn k data)))]
        \/ exists e, nth_error data k = Some e /\
           h = f ++ [(l, Some (grp_of x ++ map entry_set (firstn k data) ++ [(fst e, DEmpty)]))]))
  /\ (data <> [] -> forall h0, last (entries_trace (f ++ [(l, x)]) l data) h0 = f ++ [(l, Some (grp_of x ++ map entry_set data))]).
Proof.
  intros f l; induction data as [|e r IH]; intros x H N; simpl.
  { split; [intros h []|congruence]. }
  assert (N1 : ~ In (fst e) (map fst (grp_of x))).
  { intros C. simpl in N. apply NoDup_remove_2 in N. apply N; apply in_or_app; left; exact C. }
  destruct (entry_trace_tail f l x e H N1) as [t [Et Ht]]; rewrite Et.
  assert (El : forall d, last (t ++ [f ++ [(l, Some (grp_of x ++ [entry_set e]))]]) d = f ++ [(l, Some (grp_of x ++ [entry_set e]))]).
  { intros d; apply last_last. }
  rewrite El.
  destruct (IH (Some (grp_of x ++ [entry_set e])) H) as [I1 I2].
  { simpl. rewrite map_app; simpl. rewrite <- app_assoc. exact N. }
  split.
  - intros h Hh; apply in_app_or in Hh as [Hh|Hh].
    + apply in_app_or in Hh as [Hh|[Hh|[]]].
      * destruct (Ht h Hh) as [E|E].
        -- exists O; split; [lia|left]. simpl. rewrite app_nil_r. exact E.
        -- exists O; split; [lia|right; exists e; split; [reflexivity|exact E]].
      * exists 1%nat; split; [lia|left]. simpl. symmetry; exact Hh.
    + destruct (I1 h Hh) as [k [Hk E]]; exists (S k); split; [lia|]. simpl in E |- *.
      destruct E as [E|[e' [Ee E]]]; [left|right; exists e'; split; [exact Ee|]]; rewrite E, <- app_assoc; reflexivity.
  - intros _ h0. destruct r as [|e2 r2].
    + simpl. rewrite app_nil_r. apply El.
    + assert (R : forall A (u v : list A) d, v <> [] -> last (u ++ v) d = last v d).
      { clear; intros A u v d Hv; induction u as [|a u IHu]; [reflexivity|]. simpl. destruct (u ++ v) eqn:E.
        - apply app_eq_nil in E as [_ E]; congruence.
        - rewrite <- E in *; exact IHu. }
      rewrite R.
      * rewrite I2 by discriminate. simpl. rewrite <- app_assoc. reflexivity.
      * simpl. unfold entry_trace. destruct (has_set _ _ _); [discriminate|]. destruct (0 <? _)%nat; discriminate.
Qed.

Definition file_of (d : disk) : hfile := match d with Some f => f | None => [] end.

Lemma absent_file : forall d l, absent d l -> ~ In l (map fst (file_of d)).
Proof. intros [f|] l H; simpl; [apply H; reflexivity|tauto]. Qed.

Lemma write_level_absent : forall d l data, absent d l -> proper data ->
  write_level d l data = file_of d ++ [(l, Some (map entry_set data))].
Proof.
  intros d l data H [N0 N]; apply absent_file in H; unfold write_level, write_trace; fold (file_of d).
  unfold add_level; rewrite (proj2 (find_grp_none _ _) H).
  destruct (entries_trace_tail (file_of d) l data None H N) as [_ L]. specialize (L N0).
  destruct (entries_trace (file_of d ++ [(l, None)]) l data) as [|a t] eqn:E.
  - exfalso. destruct data as [|e r]; [congruence|]. simpl in E. apply app_eq_nil in E as [E _].
    unfold entry_trace in E. destruct (has_set _ _ _); [discriminate|]. destruct (0 <? _)%nat; discriminate.
  - change (last (file_of d :: (file_of d ++ [(l, None)]) :: a :: t) []) with (last (a :: t) (@nil (Z * option grp))).
    apply L.
Qed.

Lemma write_trace_absent : forall d l data h, absent d l -> NoDup (map fst data) -> In h (write_trace d l data) ->
  h = file_of d \/ h = file_of d ++ [(l, None)] \/
  exists k, (k <= List.length data)%nat /\
    (h = file_of d ++ [(l, Some (map entry_set (firstn k data)))]
     \/ exists e, nth_error data k = Some e /\
        h = file_of d ++ [(l, Some (map entry_set (firstn k data) ++ [(fst e, DEmpty)]))]).
Proof.
  intros d l data h H N Hh; apply absent_file in H; unfold write_trace in Hh; fold (file_of d) in Hh.
  unfold add_level in Hh; rewrite (proj2 (find_grp_none _ _) H) in Hh.
  destruct Hh as [Hh|[Hh|Hh]]; [left; auto|right; left; auto|right; right].
  destruct (entries_trace_tail (file_of d) l data None H N) as [L _]. destruct (L h Hh) as [k [Hk E]].
  exists k; split; [exact Hk|exact E].
Qed.

(** ** reading *)
Lemma contains_spec : forall pat s, contains pat s = true <-> exists a b, s = (a ++ pat ++ b)%string.
Proof.
  assert (PF : forall p s, String.prefix p s = true <-> exists b, s = (p ++ b)%string).
  { induction p as [|c p IH]; intros s.
    - simpl. split; [intros _; exists s; reflexivity|destruct s; reflexivity].
    - destruct s as [|c' s]; simpl.
      + split; [discriminate|intros [b E]; discriminate].
      + destruct (ascii_dec c c') as [->|NE].
        * rewrite IH. split; intros [b E]; exists b; [rewrite E; reflexivity|injection E as E; exact E].
        * split; [discriminate|]. intros [b E]. injection E as E1 _. congruence. }
  intros pat; induction s as [|c s IH].
  - change (contains pat EmptyString) with (String.prefix pat EmptyString || false).
    rewrite orb_false_r, PF. split.
    + intros [b E]; exists EmptyString, b; exact E.
    + intros [a [b E]]. destruct a; [exists b; exact E|discriminate].
  - change (contains pat (String c s)) with (String.prefix pat (String c s) || contains pat s).
    rewrite orb_true_iff, PF, IH. split.
    + intros [[b E]|[a [b E]]]; [exists EmptyString, b; exact E|exists (String c a), b; simpl; rewrite E; reflexivity].
    + intros [[|c' a] [b E]]; [left; exists b; exact E|right; injection E as _ E; exists a, b; exact E].
Qed.

Lemma is_basis_spec : forall n, is_basis n = true <-> basis_name n.
Proof. intros; apply contains_spec. Qed.

Lemma in_read_entries : forall g b n v,
  In (n, v) (read_entries g b) <-> In (n, DData v) g /\ (b = true <-> basis_name n).
Proof.
  intros g b n v; unfold read_entries; rewrite in_flat_map; rewrite <- is_basis_spec. split.
  - intros [[m [|s]] [Hi Hx]]; simpl in Hx; [contradiction|].
    destruct (Bool.eqb (is_basis m) b) eqn:E; [|contradiction]. destruct Hx as [Hx|[]]. injection Hx as -> ->.
    split; [exact Hi|]. apply eqb_prop in E; rewrite E; tauto.
  - intros [Hi Hb]; exists (n, DData v); split; [exact Hi|]; simpl.
    replace (Bool.eqb (is_basis n) b) with true; [left; reflexivity|].
    symmetry; apply eqb_true_iff. destruct (is_basis n), b; try reflexivity; destruct Hb as [B1 B2]; [symmetry; apply B2|apply B1]; reflexivity.
Qed.

Lemma in_entry_sets : forall data n v, In (n, DData v) (map entry_set data) <-> In (n, v) data /\ v <> EmptyString.
Proof.
  intros data n v; rewrite in_map_iff; unfold entry_set; split.
  - intros [[m s] [E Hi]]; simpl in E; destruct s as [|c s]; [discriminate|]. injection E as -> <-. split; [exact Hi|discriminate].
  - intros [Hi Hv]; exists (n, v); split; [simpl; destruct v; [congruence|reflexivity]|exact Hi].
Qed.

Lemma read_entries_fst : forall g b, NoDup (map fst g) -> NoDup (map fst (read_entries g b)).
Proof.
  intros g b; induction g as [|[n v] g IH]; simpl; intros N; [constructor|]. inversion N as [|? ? N1 N2]; subst.
  destruct v as [|s]; [exact (IH N2)|]. simpl. destruct (Bool.eqb (is_basis n) b); [|exact (IH N2)].
  simpl. constructor; [|exact (IH N2)]. intros C; apply N1. apply in_map_iff in C as [[m w] [E C]]; simpl in E; subst m.
  apply in_read_entries in C as [C _]. apply in_map_iff; exists (n, DData w); auto.
Qed.

Lemma entry_set_fst : forall data, map fst (map entry_set data) = map fst data.
Proof. intros; rewrite map_map; apply map_ext; intros [a b]; reflexivity. Qed.

Lemma read_level : forall f l b, 0 <= l ->
  read_data (Some f) l b = match find_grp f l with Some (Some g) => Some (l, read_entries g b) | _ => None end.
Proof. intros f l b H; unfold read_data; destruct (Z.ltb_spec l 0); [lia|]. reflexivity. Qed.

Lemma reads_as_grp : forall data b, reads_as data b (read_entries (map entry_set data) b).
Proof. intros data b n v; rewrite in_read_entries, in_entry_sets; tauto. Qed.
Lemma reads_as_grp_empty : forall data b n, reads_as data b (read_entries (map entry_set data ++ [(n, DEmpty)]) b).
Proof.
  intros data b n m v; rewrite in_read_entries, in_app_iff, in_entry_sets. simpl.
  split; [intros [[H|[H|[]]] Hb]; [tauto|discriminate]|tauto].
Qed.

(** ** other levels are not touched *)
Lemma find_add_level : forall f l l', l' <> l -> find_grp (add_level f l) l' = find_grp f l'.
Proof.
  intros f l l' H; unfold add_level; destruct (find_grp f l); [reflexivity|]. rewrite find_grp_app.
  destruct (find_grp f l'); [reflexivity|]. unfold find_grp; simpl. destruct (Z.eqb_spec l l'); [lia|reflexivity].
Qed.
Lemma find_add_group : forall f l l', l' <> l -> find_grp (add_group f l) l' = find_grp f l'.
Proof. intros f l l' H; unfold add_group; destruct (find_grp f l) as [[|]|]; try reflexivity. apply find_set_other; exact H. Qed.
Lemma find_put_set : forall f l n v l', l' <> l -> find_grp (put_set f l n v) l' = find_grp f l'.
Proof. intros f l n v l' H; unfold put_set; destruct (find_grp f l) as [[|]|]; try reflexivity. apply find_set_other; exact H. Qed.

Lemma entry_trace_other : forall f l e l' h, l' <> l -> In h (entry_trace f l e) -> find_grp h l' = find_grp f l'.
Proof.
  intros f l e l' h H; unfold entry_trace.
  assert (A : find_grp (add_group f l) l' = find_grp f l') by (apply find_add_group; exact H).
  destruct (has_set _ _ _); [intros [<-|[]]; exact A|].
  destruct (0 <? _)%nat; simpl; intros Hi;
    repeat (destruct Hi as [<-|Hi]; [try exact A; rewrite find_put_set by exact H; exact A|]); contradiction.
Qed.

Lemma entry_trace_last : forall f l e d, In (last (entry_trace f l e) d) (entry_trace f l e).
Proof.
  intros f l e d; unfold entry_trace; destruct (has_set _ _ _); [left; reflexivity|].
  destruct (0 <? _)%nat; simpl; auto.
Qed.

Lemma entries_trace_other : forall l l' data f h, l' <> l -> In h (entries_trace f l data) -> find_grp h l' = find_grp f l'.
Proof.
  intros l l'; induction data as [|e r IH]; intros f h H Hi; simpl in Hi; [contradiction|].
  apply in_app_or in Hi as [Hi|Hi]; [eapply entry_trace_other; eauto|].
  rewrite (IH _ _ H Hi). eapply entry_trace_other; [exact H|apply entry_trace_last].
Qed.

Lemma write_trace_other : forall d l l' data h, l' <> l -> In h (write_trace d l data) -> find_grp h l' = find_grp (file_of d) l'.
Proof.
  intros d l l' data h H; unfold write_trace; fold (file_of d); intros [<-|[<-|Hi]]; [reflexivity|apply find_add_level; exact H|].
  rewrite (entries_trace_other l l' data _ h H Hi). apply find_add_level; exact H.
Qed.

Lemma last_in : forall A (l : list A) d, l <> [] -> In (last l d) l.
Proof.
  intros A l d; induction l as [|a l IH]; intros H; [congruence|]. destruct l as [|b l]; [left; reflexivity|].
  right; apply IH; discriminate.
Qed.
Lemma write_level_in : forall d l data, In (write_level d l data) (write_trace d l data).
Proof. intros; apply last_in; discriminate. Qed.

Lemma read_file_of : forall d l b, 0 <= l ->
  read_data d l b = match find_grp (file_of d) l with Some (Some g) => Some (l, read_entries g b) | _ => None end.
Proof. intros [f|] l b H; [apply read_level; exact H|reflexivity]. Qed.

(** ** a level that exists already *)
Lemma has_set_find : forall f l g n, find_grp f l = Some (Some g) ->
  has_set f l n = existsb (fun p => String.eqb (fst p) n) g.
Proof. intros f l g n H; unfold has_set; rewrite H; reflexivity. Qed.

Lemma find_in : forall f l x, find_grp f l = Some x -> In l (map fst f).
Proof.
  intros f l x H. destruct (in_dec Z.eq_dec l (map fst f)) as [I|I]; [exact I|]. apply find_grp_none in I; congruence.
Qed.

Lemma entry_existing : forall f l g e d, find_grp f l = Some (Some g) ->
  (In (fst e) (map fst g) -> last (entry_trace f l e) d = f) /\
  (~ In (fst e) (map fst g) -> find_grp (last (entry_trace f l e) d) l = Some (Some (g ++ [entry_set e]))).
Proof.
  intros f l g [n v] d H; unfold entry_trace.
  assert (A : add_group f l = f) by (unfold add_group; rewrite H; reflexivity). rewrite A.
  rewrite (has_set_find f l g n H : has_set f l (fst (n, v)) = _). simpl fst; simpl snd. split; intros I.
  - destruct (existsb _ g) eqn:E; [reflexivity|]. apply existsb_name in E; contradiction.
  - apply existsb_name in I; rewrite I. unfold put_set; rewrite H. unfold entry_set; destruct v as [|c v]; simpl;
      apply find_set_same; eapply find_in; exact H.
Qed.

Fixpoint merged (g : grp) (data : sdata) : grp :=
  match data with
  | [] => g
  | e :: r => merged (if in_dec string_dec (fst e) (map fst g) then g else g ++ [entry_set e]) r
  end.

Lemma entries_existing : forall l data f g d, find_grp f l = Some (Some g) -> data <> [] ->
  find_grp (last (entries_trace f l data) d) l = Some (Some (merged g data)).
Proof.
  intros l; induction data as [|e r IH]; intros f g d H N; [congruence|]. simpl.
  destruct (entry_existing f l g e f H) as [E1 E2].
  set (f' := last (entry_trace f l e) f) in *.
  assert (H' : find_grp f' l = Some (Some (if in_dec string_dec (fst e) (map fst g) then g else g ++ [entry_set e]))).
  { destruct (in_dec string_dec (fst e) (map fst g)) as [I|I]; [rewrite E1 by exact I; exact H|apply E2; exact I]. }
  destruct r as [|e2 r2].
  - simpl. rewrite app_nil_r.
    assert (L : last (entry_trace f l e) d = f').
    { unfold f', entry_trace. destruct (has_set _ _ _); [reflexivity|]. destruct (0 <? _)%nat; reflexivity. }
    rewrite L. exact H'.
  - assert (R : forall A (u v : list A) d, v <> [] -> last (u ++ v) d = last v d).
    { clear; intros A u v d Hv; induction u as [|a u IHu]; [reflexivity|]. simpl. destruct (u ++ v) eqn:E.
      - apply app_eq_nil in E as [_ E]; congruence.
      - rewrite <- E in *; exact IHu. }
    rewrite R.
    + apply IH; [exact H'|discriminate].
    + simpl. unfold entry_trace. destruct (has_set _ _ _); [discriminate|]. destruct (0 <? _)%nat; discriminate.
Qed.

Lemma merged_old : forall data g n v, NoDup (map fst g) -> In n (map fst g) -> (In (n, v) (merged g data) <-> In (n, v) g).
Proof.
  induction data as [|e r IH]; intros g n v N H; simpl; [tauto|].
  destruct (in_dec string_dec (fst e) (map fst g)) as [I|I]; [apply IH; assumption|].
  rewrite IH.
  - rewrite in_app_iff; simpl. split; [|tauto]. intros [C|[C|[]]]; [exact C|].
    unfold entry_set in C; injection C as C _; subst n; contradiction.
  - rewrite map_app; simpl.     clear - N I. induction g as [|[a b] g IHg]; simpl in *; [constructor; [tauto|constructor]|].
    inversion N; subst. constructor; [rewrite in_app_iff; simpl; intros [C|[C|[]]]; [contradiction|]; apply I; left; symmetry; exact C|].
    apply IHg; [assumption|tauto].
  - rewrite map_app, in_app_iff; left; exact H.
Qed.
