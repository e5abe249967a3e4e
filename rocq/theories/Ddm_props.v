(** C94: the processes exchange their numbers without deadlock and with one result. *)
From Coq Require Import List Bool Arith Lia Sorted.
From Verif Require Import Ddm_model Ddm_spec Ddm_proofs.
Import ListNotations.

Section Props.
Context {V : Type}.
Variables (n : nat) (chn : nat -> list (nat * (list V -> V))) (ifs : list (gconn V)).

Lemma reach : rankedIfs n ifs -> sortedIfs ifs -> forall k c, steps k (initial n (program n chn ifs)) c ->
  (exists H, rel (oneByOne (rankOrder n chn ifs) (fun _ => [])) c H) /\ (forall p, n <= p -> rest c p = []).
Proof.
  intros HR HS k c S. split.
  - eapply rel_steps; [exact S | apply rel_initial; assumption].
  - assert (N0 : forall p, n <= p -> rest (initial n (program n chn ifs)) p = []).
    { intros p Hp. simpl. destruct (Nat.ltb_spec p n); [lia | reflexivity]. }
    revert N0. generalize (initial n (program n chn ifs)) S. clear S. intros c0 S.
    induction S as [c | k c c1 c2 S1 S2 IH]; intros N0; [exact N0|].
    apply IH. apply (step_left n c c1 N0 S1).
Qed.

Lemma rel_done : forall final (c : conf V) H, rel final c H -> (forall p, rest c p = []) -> H = [].
Proof.
  intros final c H R F. destruct H as [|x H]; [reflexivity|]. exfalso.
  destruct R as [R1 _ _ _]. destruct x as [s d t f | s d t v]; specialize (F d); rewrite R1 in F; simpl in F;
    rewrite Nat.eqb_refl in F; [destruct (s =? d); discriminate | discriminate].
Qed.

(** Whatever the schedule and whatever sends return early: at any time all processes are
    done, or some call completes without relying on a copy of a message. *)
Theorem msg_no_deadlock : rankedIfs n ifs -> sortedIfs ifs ->
  forall k c, steps k (initial n (program n chn ifs)) c -> finished n c \/ canProceed c.
Proof.
  intros HR HS k c S. destruct (reach HR HS k c S) as ((H & R) & N).
  destruct H as [|x H]; [left | right; eapply rel_progress; [exact R | discriminate]].
  intros p Hp. rewrite (r_rest _ _ _ R). reflexivity.
Qed.

(** Every execution ends after as many steps as there are calls at most. *)
Theorem msg_terminates : forall progs k c, steps k (initial (V := V) n progs) c ->
  k + callsLeft n c <= callsLeft n (initial n progs).
Proof.
  intros progs k c S. apply (steps_left n k _ _ S). intros p Hp. simpl.
  destruct (Nat.ltb_spec p n); [lia | reflexivity].
Qed.

(** At the end every process has received what it receives when the messages are
    passed one by one in rank order, and no message is left. *)
Theorem msg_result : rankedIfs n ifs -> sortedIfs ifs ->
  forall k c, steps k (initial n (program n chn ifs)) c -> finished n c ->
  (forall p, got c p = oneByOne (rankOrder n chn ifs) (fun _ => []) p) /\ (forall s d, chan c s d = []).
Proof.
  intros HR HS k c S F. destruct (reach HR HS k c S) as ((H & R) & N).
  assert (E : H = []).
  { eapply rel_done; [exact R|]. intros p. destruct (Nat.lt_ge_cases p n); [apply F | apply N]; assumption. }
  subst H. split; intros.
  - rewrite <- (r_run _ _ _ R). reflexivity.
  - rewrite (r_chan _ _ _ R). reflexivity.
Qed.

(** Every started execution can be completed. *)
Theorem msg_completes : rankedIfs n ifs -> sortedIfs ifs ->
  forall k c, steps k (initial n (program n chn ifs)) c ->
  exists k' c', steps k' c c' /\ finished n c'.
Proof.
  intros HR HS k c ST.
  assert (G : forall m k c, steps k (initial n (program n chn ifs)) c -> callsLeft n c < m ->
    exists k' c', steps k' c c' /\ finished n c').
  { clear k c ST. induction m; intros k c ST0 L; [lia|].
    destruct (msg_no_deadlock HR HS k c ST0) as [F | (c1 & SX)].
    - exists 0, c. split; [constructor | exact F].
    - assert (S1 : step c c1) by (unfold step; tauto).
      assert (SS : steps (S k) (initial n (program n chn ifs)) c1).
      { clear - ST0 S1. induction ST0 as [c | k c c0 c2 A B IH]; [econstructor; [exact S1 | constructor]|].
        econstructor; [exact A | apply IH; exact S1]. }
      destruct (reach HR HS k c ST0) as (_ & N). destruct (step_left n c c1 N S1) as (LT & _).
      destruct (IHm (S k) c1 SS ltac:(lia)) as (k' & c' & T & F).
      exists (S k'), c'. split; [econstructor; eassumption | exact F]. }
  apply (G (S (callsLeft n c)) k c ST). lia.
Qed.

(** A receive never meets a message of another kind first. *)
Theorem msg_kinds : rankedIfs n ifs -> sortedIfs ifs ->
  forall k c, steps k (initial n (program n chn ifs)) c ->
  forall p s t r t' v l, rest c p = Rcv s t :: r -> chan c s p = (t', v) :: l -> t' = t.
Proof.
  intros HR HS k c S p s t r t' v l E C. destruct (reach HR HS k c S) as ((H & R) & N).
  destruct R as [R1 R2 R3 R4]. rewrite R1 in E. rewrite R2 in C.
  destruct (first_touch p H _ _ R3 E) as (A & x & B & -> & U & P & _).
  rewrite halfs_app, halfs_untouched in C by exact U. assert (OB := okH_app _ _ R3).
  destruct x as [s1 d1 t1 f1 | s1 d1 t1 v1]; simpl in P.
  - exfalso. destruct (Nat.eqb_spec s1 p), (Nat.eqb_spec d1 p); simpl in P; inversion P; subst.
    simpl in OB, C. rewrite halfs_nil in C by apply OB. discriminate.
  - destruct (Nat.eqb_spec d1 p); inversion P; subst. simpl in C. rewrite !Nat.eqb_refl in C.
    simpl in C. inversion C. reflexivity.
Qed.
End Props.

(** Three processes with interfaces 0-1, 0-2 and 1-2: a process adds up what it has
    received and a number of its own. *)
Definition ex_sum (own : nat) (l : list nat) : nat := own + fold_right Nat.add 0 l.
Definition ex_chn (p : nat) : list (nat * (list nat -> nat)) := [(101, ex_sum (p + 1))].
Definition ex_gc (m s : nat) : gconn nat := {| gm := m; gs := s; gmsgs := [(101, ex_sum 1); (102, ex_sum (10 * m))] |}.
Example msg_ex : rankedIfs 3 [ex_gc 0 1; ex_gc 0 2; ex_gc 1 2] /\ sortedIfs [ex_gc 0 1; ex_gc 0 2; ex_gc 1 2] /\
  map (oneByOne (rankOrder 3 ex_chn [ex_gc 0 1; ex_gc 0 2; ex_gc 1 2]) (fun _ => [])) [0; 1; 2] =
  [[]; [1; 1; 0]; [4; 1; 0; 3; 12]] /\
  map (fun p => length (program 3 ex_chn [ex_gc 0 1; ex_gc 0 2; ex_gc 1 2] p)) [0; 1; 2] = [5; 6; 5].
Proof.
  split; [|split; [|split; reflexivity]].
  - intros it [<- | [<- | [<- | []]]]; simpl; lia.
  - repeat constructor; unfold before; simpl; lia.
Qed.

(** Refuted: an interface whose master is on a higher rank than its slave hangs the
    processes at once. *)
Theorem msg_rank_order_refuted :
  ~ (forall n chn (ifs : list (gconn nat)) k c, (forall it, In it ifs -> gm it < n /\ gs it < n /\ gm it <> gs it) ->
     sortedIfs ifs -> steps k (initial n (program n chn ifs)) c -> finished n c \/ canProceed c).
Proof.
  intros H. destruct (H 2 ex_chn [ex_gc 1 0] 0 (initial 2 (program 2 ex_chn [ex_gc 1 0]))) as [F | (c' & F)].
  - intros it [<- | []]. simpl. lia.
  - repeat constructor.
  - constructor.
  - specialize (F 0 ltac:(lia)). discriminate.
  - assert (R0 : forall p, rest (initial 2 (program 2 ex_chn [ex_gc 1 0])) p =
       match p with 0 => [Rcv 1 101; Rcv 1 102; Snd 1 101 (ex_sum 1)] |
                    1 => [Rcv 0 101; Snd 0 101 (ex_sum 1); Snd 0 102 (ex_sum 10)] | _ => [] end).
    { intros [|[|p]]; reflexivity. }
    destruct F as [F | F]; inversion F; subst.
    + match goal with A : chan _ _ _ = _ |- _ => simpl in A; destruct l1; discriminate end.
    + match goal with A : rest _ p = Snd _ _ _ :: _ |- _ => rewrite R0 in A; destruct p as [|[|p]]; discriminate end.
Qed.

(** Refuted: without the order of the set (slaves of one master in ascending rank) sends
    that wait for their receive hang. *)
Theorem msg_order_refuted :
  ~ (forall n chn (ifs : list (gconn nat)) k c, rankedIfs n ifs ->
     steps k (initial n (program n chn ifs)) c -> finished n c \/ canProceed c).
Proof.
  intros H.
  set (ifs := [ex_gc 0 2; ex_gc 0 1]).
  set (c1 := {| rest := fun p => match p with
        | 0 => [Snd 2 101 (ex_sum 1); Snd 2 102 (ex_sum 0); Snd 1 101 (ex_sum 1); Snd 1 102 (ex_sum 0)]
        | 1 => [Rcv 0 101; Rcv 0 102; Snd 2 101 (ex_sum 2)]
        | 2 => [Rcv 1 101; Rcv 0 101; Rcv 0 102] | _ => [] end;
      got := fun p => if p =? 1 then [1] else []; chan := fun _ _ => [] |} : conf nat).
  assert (G : forall c, (forall p, rest c p = rest c1 p) -> (forall s d, chan c s d = []) ->
    finished 3 c \/ canProceed c -> False).
  { intros c E1 E2 [F | (c' & [F | F])].
    - specialize (F 0 ltac:(lia)). rewrite E1 in F. discriminate.
    - inversion F; subst.
      match goal with A : chan _ _ _ = _ |- _ => rewrite E2 in A; destruct l1; discriminate end.
    - inversion F as [x p d t f r r' NPD E E' NT]; subst. rewrite E1 in E, E'.
      destruct p as [|[|[|p]]]; simpl in E; inversion E; subst.
      simpl in E'. discriminate. }
  assert (S : exists c, step (initial 3 (program 3 ex_chn ifs)) c /\
    (forall p, rest c p = rest c1 p) /\ (forall s d, chan c s d = [])).
  { eexists. split; [right; right; eapply (SyncStep _ 0 1 101)|].
    - lia.
    - reflexivity.
    - reflexivity.
    - intros x [].
    - split; [|reflexivity]. intros [|[|[|p]]]; reflexivity. }
  destruct S as (c & S & E1 & E2). apply (G c E1 E2).
  apply (H 3 ex_chn ifs 1 c).
  - intros it [<- | [<- | []]]; simpl; lia.
  - econstructor; [exact S | constructor].
Qed.

(** Refuted: when a process returns after an error that it finds in what it received
    (lines 541-546, 566-571), the processes after it wait forever. *)
Theorem msg_error_refuted :
  ~ (forall n chn (ifs : list (gconn nat)) (e : nat) k c, rankedIfs n ifs -> sortedIfs ifs ->
     steps k (initial n (fun p => if p =? e then match p with O => [] | S q => recvs q (chn q) end
                                  else program n chn ifs p)) c ->
     finished n c \/ exists c', step c c').
Proof.
  intros H.
  set (progs := fun p => if p =? 1 then match p with O => [] | S q => recvs q (ex_chn q) end else program 3 ex_chn [] p).
  assert (S : exists c, step (initial 3 progs) c /\
    (forall p, rest c p = match p with 2 => [Rcv 1 101] | _ => [] end) /\ (forall s d, chan c s d = [])).
  { eexists. split; [right; right; eapply (SyncStep _ 0 1 101)|].
    - lia.
    - reflexivity.
    - reflexivity.
    - intros x [].
    - split; [|reflexivity]. intros [|[|[|p]]]; reflexivity. }
  destruct S as (c & S & E1 & E2).
  destruct (H 3 ex_chn [] 1 1 c) as [F | (c' & [F | [F | F]])].
  - intros it [].
  - constructor.
  - econstructor; [exact S | constructor].
  - specialize (F 2 ltac:(lia)). rewrite E1 in F. discriminate.
  - inversion F as [x p d t f r E]; subst. rewrite E1 in E. destruct p as [|[|[|p]]]; discriminate.
  - inversion F as [x p s t r l1 v l2 E EC NT]; subst. rewrite E2 in EC. destruct l1; discriminate.
  - inversion F as [x p d t f r r' NPD E E' NT]; subst. rewrite E1 in E. destruct p as [|[|[|p]]]; discriminate.
Qed.

(** Refuted: a failure on some process makes setup fail.  The sum is over lok, which is
    always one, so every process goes on. *)
Theorem setup_failure_refuted :
  ~ (forall results p, p < length results -> (exists r, In r results /\ fst r && snd r = false) ->
     setupNodes results p = false).
Proof.
  intros H. specialize (H [(true, true); (false, true)] 0 ltac:(simpl; lia)).
  vm_compute in H. assert (true = false) by (apply H; exists (false, true); simpl; tauto). discriminate.
Qed.

Print Assumptions msg_no_deadlock.
Print Assumptions msg_terminates.
Print Assumptions msg_result.
Print Assumptions msg_completes.
Print Assumptions msg_kinds.
Print Assumptions msg_rank_order_refuted.
Print Assumptions msg_order_refuted.
Print Assumptions msg_error_refuted.
Print Assumptions setup_failure_refuted.
