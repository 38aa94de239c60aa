(** What a user expects of the one-component learner, without the model's helpers. *)

From Coq Require Import List Arith Reals.
From Verif Require Import Model.LocalScore.
Import ListNotations.
Open Scope nat_scope.

(** The matrix m of size N over n observed variables, m[i][j] about an edge from j
    to i: 1 an arrow j -> i, 2 (both ways) an undecided edge.  Two observed variables
    have at most one edge; nothing points at a latent variable; every latent variable has
    at least three observed children. *)
Definition one_edge (m : nat -> nat -> nat) (i j : nat) : Prop :=
  (m i j = 0 /\ m j i = 0) \/ (m i j = 2 /\ m j i = 2) \/ (m i j = 1 /\ m j i = 0) \/ (m i j = 0 /\ m j i = 1).
Definition measured_by_three (m : nat -> nat -> nat) (n l : nat) : Prop :=
  exists a b c, a < n /\ b < n /\ c < n /\ a <> b /\ a <> c /\ b <> c /\ m a l = 1 /\ m b l = 1 /\ m c l = 1.
Definition latent_graph (n N : nat) (m : nat -> nat -> nat) : Prop :=
  n <= N /\
  (forall i, i < N -> m i i = 0) /\
  (forall i j, i < n -> j < n -> one_edge m i j) /\
  (forall l j, n <= l < N -> j < N -> m l j = 0) /\
  (forall l i, n <= l < N -> i < n -> m i l = 0 \/ m i l = 1) /\
  (forall l, n <= l < N -> measured_by_three m n l).
