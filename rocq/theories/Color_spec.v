(** Specification-level notions for the coloring of unstructured patches. *)
From Coq Require Import List Arith ZArith QArith Qcanon Bool Permutation.
From Verif Require Import Base Race_model Color_model.
Import ListNotations.
Local Open Scope nat_scope.

(** ** Parallel assembly: one color after the other; the elements of a color are
    distributed to the threads in any way, the threads interleave in any way *)
Inductive par_colors {cell : Type} (ceq : forall a b : cell, {a = b} + {a <> b}) (upde : nat -> list (cell * Qc))
  : list (list nat) -> (cell -> Qc) -> (cell -> Qc) -> Prop :=
| pc_nil m : par_colors ceq upde [] m m
| pc_cons col cols parts m0 m1 m2 ts : Permutation (concat parts) col ->
    run ceq (m0, start (map (flat_map upde) parts)) (m1, ts) -> done ts ->
    par_colors ceq upde cols m1 m2 -> par_colors ceq upde (col :: cols) m0 m2.

(** no color has an element twice, or two elements with a common degree of freedom *)
Definition raceFree {D : Type} (dofs : nat -> D -> Prop) (cols : list (list nat)) : Prop :=
  forall col, In col cols -> NoDup col /\ forall e f d, In e col -> In f col -> e <> f -> dofs e d -> dofs f d -> False.

(** ** LR B-spline patches *)
(** a legal basis with [nf] functions: the elements are 0..n-1 in some order, and an element
    is in the support of a function if and only if the function is one of its functions;
    each element has functions *)
Definition basisOK (B : basis) : Prop :=
  Permutation (elems B) (seq 0 (length (elems B))) /\ length (funcs B) = length (elems B) /\
  (forall e b, e < length (funcs B) -> In b (nth e (funcs B) []) -> b < length (suppt B) /\ In e (nth b (suppt B) [])) /\
  (forall e b, b < length (suppt B) -> In e (nth b (suppt B) []) -> e < length (funcs B) /\ In b (nth e (funcs B) [])) /\
  (forall e, e < length (funcs B) -> nth e (funcs B) [] <> []).
(** another basis on the same domain as one with [n] elements: each element lies within one of its elements,
    and all the elements within one of its elements are found at the points of this element *)
Definition otherOK (n : nat) (o : other) : Prop :=
  basisOK (ob o) /\ length (within o) = n /\ length (points o) = length (funcs (ob o)) /\
  (forall e, e < n -> nth e (within o) 0 < length (funcs (ob o))) /\
  (forall l e, In l (points o) -> In e l -> e < n) /\
  (forall e, e < n -> In e (nth (nth e (within o) 0) (points o) [])).
(** element [e] has function [b] of the first basis / of the other basis [o] *)
Definition hasFunc (B : basis) (e b : nat) : Prop := In b (nth e (funcs B) []).
Definition hasOther (o : other) (e b : nat) : Prop := In b (nth (nth e (within o) 0) (funcs (ob o)) []).

(** the degrees of freedom of element [e]: function [b] of the first basis is (0,b), of the
    other basis number k it is (1+k,b) *)
Definition hasDof (B : basis) (os : list other) (e : nat) (d : nat * nat) : Prop :=
  match fst d with
  | O => hasFunc B e (snd d)
  | S k => exists o, nth_error os k = Some o /\ hasOther o e (snd d)
  end.

(** ** Unstructured Lagrange patches *)
(** the degrees of freedom (node, local DOF) element [e] contributes to: those of its nodes
    and those of the masters of constrained ones, directly or over other constraints *)
Inductive reach (mlgn : list Z) (mnpc : list (list nat)) (mpcs : list mpc) (e : nat) : Z * nat -> Prop :=
| r_node a d : In a (nth e mnpc []) -> reach mlgn mnpc mpcs e (nth a mlgn 0%Z, d)
| r_master c m : In c mpcs -> reach mlgn mnpc mpcs e (slave c) -> In m (masters c) -> reach mlgn mnpc mpcs e m.
(** the constraints are resolved: no master is a slave of a constraint with masters *)
Definition resolved (mpcs : list mpc) : Prop := forall c c', In c mpcs -> In c' mpcs -> In (slave c') (masters c) -> masters c' = [].
(** all the masters of constrained nodes of the patch are nodes of the patch *)
Definition mastersInside (mlgn : list Z) (mpcs : list mpc) : Prop :=
  forall c m, In c mpcs -> In (fst (slave c)) mlgn -> In m (masters c) -> In (fst m) mlgn.
(** no two elements are single-noded elements at the same node *)
Definition singlesApart (mnpc : list (list nat)) : Prop :=
  forall e f a, e < length mnpc -> f < length mnpc -> nth e mnpc [] = [a] -> nth f mnpc [] = [a] -> e = f.
(** the element nodes are nodes of the patch *)
Definition nodesOK (mlgn : list Z) (mnpc : list (list nat)) : Prop := forall e a, e < length mnpc -> In a (nth e mnpc []) -> a < length mlgn.
