(** What a kernel independence test must not depend on. *)

From Coq Require Import List Arith Permutation Reals.
From Verif Require Import Model.LocalScore.
Import ListNotations.
Open Scope nat_scope.

(** Every column is measured in another unit: shifted and rescaled, possibly reversed. *)
Definition other_units (n d : nat) (X X' : rmat) : Prop :=
  exists a b : nat -> R, (forall c, c < d -> (a c <> 0)%R) /\ forall i c, i < n -> c < d -> X' i c = (a c * X i c + b c)%R.

(** The same samples in another order. *)
Definition reordered (n : nat) (p : nat -> nat) (X X' : rmat) : Prop :=
  Permutation (map p (seq 0 n)) (seq 0 n) /\ forall i c, X' i c = X (p i) c.

(** All rows agree. *)
Definition constant_data (n d : nat) (X : rmat) : Prop := forall i j c, i < n -> j < n -> c < d -> X i c = X j c.
