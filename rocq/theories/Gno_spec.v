(** Specification of the global numbering.  A function is a pair of a patch and
    a local number, both zero-based. *)
From Coq Require Import List Arith ZArith Bool Lia Relations.
From Verif Require Import Gno_model.
Import ListNotations.

Notation node := (nat * nat)%type.
Definition valid (nf : list nat) (x : node) : Prop :=
  fst x < length nf /\ snd x < nth (fst x) nf 0.

(** The global number of a function. *)
Definition num (r : list (list nat)) (x : node) : nat := nth (snd x) (nth (fst x) r []) 0.

(** Functions x of the master and y of the slave are at the same position of an
    interface. *)
Definition joined (bnd : boundary) (ifs : list iface) (x y : node) : Prop :=
  exists it n, In it ifs /\ i_master it = fst x + 1 /\ i_slave it = fst y + 1 /\
    nth_error (bnd (fst x) (i_dim it) (i_midx it) 0%Z) n = Some (snd x) /\
    nth_error (bnd (fst y) (i_dim it) (i_sidx it) (i_orient it)) n = Some (snd y).

(** Functions connected by a chain of interfaces, and by a chain of interfaces
    whose masters are among the first k patches. *)
Definition connected bnd ifs : node -> node -> Prop :=
  clos_refl_sym_trans node (joined bnd ifs).
Definition connectedBy bnd ifs (k : nat) : node -> node -> Prop :=
  clos_refl_sym_trans node (fun x y => joined bnd ifs x y /\ fst x < k).

(** Interfaces between existing boundaries of the same size, the patch with the
    lower number as master; no two of them at the same boundary of the master
    with the same slave. *)
Definition ifs_ok (nf : list nat) (bnd : boundary) (ifs : list iface) : Prop :=
  (forall it, In it ifs ->
     1 <= i_master it < i_slave it /\ i_slave it <= length nf /\
     length (bnd (i_master it - 1) (i_dim it) (i_midx it) 0%Z) =
     length (bnd (i_slave it - 1) (i_dim it) (i_sidx it) (i_orient it)) /\
     Forall (fun a => a < nth (i_master it - 1) nf 0)
            (bnd (i_master it - 1) (i_dim it) (i_midx it) 0%Z) /\
     Forall (fun a => a < nth (i_slave it - 1) nf 0)
            (bnd (i_slave it - 1) (i_dim it) (i_sidx it) (i_orient it))) /\
  NoDup (map (fun it => (i_master it, i_slave it, i_dim it, i_midx it)) ifs).

(** Every patch has a function that is not on an interface as slave. *)
Definition own (nf : list nat) (bnd : boundary) (ifs : list iface) : Prop :=
  forall p, p < length nf -> exists a, a < nth p nf 0 /\ forall x, ~ joined bnd ifs x (p, a).

(** Two functions with the same slave are connected by the patches before the
    last one of them. *)
Definition consistent (bnd : boundary) (ifs : list iface) : Prop :=
  forall x y z, joined bnd ifs x z -> joined bnd ifs y z -> fst x <= fst y ->
    connectedBy bnd ifs (fst y) x y.
