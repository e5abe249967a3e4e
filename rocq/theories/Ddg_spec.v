(** Specification of the global numbering over processes (C93). *)
From Coq Require Import ZArith List Bool Relations.
From Verif Require Import Ddp_model Ddg_model.
Import ListNotations.
Local Open Scope Z_scope.

(** Number of equations (nodes) of process p, and the interfaces that it is slave of. *)
Definition size_of (procs : list (nat * list iface)) (p : nat) : Z := Z.of_nat (fst (nth p procs (O, []))).
Definition slave_ifs (procs : list (nat * list iface)) (p : nat) : list iface :=
  match p with O => [] | _ => snd (nth p procs (O, [])) end.
Definition is_eq (procs : list (nat * list iface)) (x : nat * Z) : Prop :=
  (fst x < length procs)%nat /\ 1 <= snd x <= size_of procs (fst x).

(** Local equation e of process p is joined by an interface to equation f of process q. *)
Definition link (procs : list (nat * list iface)) (x y : nat * Z) : Prop :=
  exists it i o, In it (slave_ifs procs (fst x)) /\ nth_error (ord it) i = Some o /\
    nth_error (slist it) i = Some (snd x) /\ nth_error (mlist it) o = Some (snd y) /\
    0 < snd x /\ fst y = mproc it.

(** The same unknown: joined directly or through others. *)
Definition same (procs : list (nat * list iface)) : relation (nat * Z) :=
  clos_refl_sym_trans _ (link procs).
(** ... through interfaces of the processes before p only. *)
Definition same_before (procs : list (nat * list iface)) (p : nat) : relation (nat * Z) :=
  clos_refl_sym_trans _ (fun x y => link procs x y /\ (fst x < p)%nat).

(** Well-formed interfaces: masters have lower rank, both sides have the same number
    of equations, joined ones are both free or both constrained. *)
Definition wf_if (procs : list (nat * list iface)) (p : nat) (it : iface) : Prop :=
  (mproc it < p)%nat /\ length (mlist it) = length (slist it) /\ length (ord it) = length (slist it) /\
  (forall e, In e (slist it) -> e <= size_of procs p) /\
  (forall f, In f (mlist it) -> f <= size_of procs (mproc it)) /\
  (forall i o, nth_error (ord it) i = Some o -> (o < length (mlist it))%nat) /\
  (forall i o e f, nth_error (ord it) i = Some o -> nth_error (slist it) i = Some e ->
     nth_error (mlist it) o = Some f -> (0 < e <-> 0 < f)).
Definition wf (procs : list (nat * list iface)) : Prop :=
  forall p it, (p < length procs)%nat -> In it (slave_ifs procs p) -> wf_if procs p it.

(** Two masters of one slave equation are already joined among themselves. *)
Definition consistent (procs : list (nat * list iface)) : Prop :=
  forall x y z, link procs x y -> link procs x z -> same_before procs (fst x) y z.

(** The number of an equation in the result. *)
Definition num (res : list pres) (x : nat * Z) : Z :=
  nth (Z.to_nat (snd x - 1)) (ml (nth (fst x) res {| ml := []; mn := 0; mx := 0 |})) 0.
Definition lo (res : list pres) (p : nat) : Z := mn (nth p res {| ml := []; mn := 0; mx := 0 |}).
Definition hi (res : list pres) (p : nat) : Z := mx (nth p res {| ml := []; mn := 0; mx := 0 |}).

(** The process numbers the equation itself. *)
Definition owned (procs : list (nat * list iface)) (x : nat * Z) : Prop :=
  is_eq procs x /\ forall y, ~ link procs x y.

(** Interfaces of nodes: not empty, and every node counts. *)
Definition node_wf (procs : list (nat * list iface)) : Prop :=
  forall p it, In it (slave_ifs procs p) -> slist it <> [] /\ forall e, In e (slist it) -> 0 < e.

(** What tells two ghost connections apart in the set. *)
Definition conn_key (own : Z -> Z) (c : conn) : Z * Z * Z * Z * Z * Z :=
  (own (master c), own (slave c), slave c, dim c, basis c, midx c).
