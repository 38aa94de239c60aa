(** Scores of directed graphs, stated without reference to the model. *)

From Coq Require Import List Arith Reals.
From Verif Require Import Spec.Digraphs.
Import ListNotations.

(** [l] lists the parents of [v], each once. *)
Definition lists_parents (E : nat -> nat -> Prop) (v : nat) (l : list nat) : Prop :=
  NoDup l /\ forall u, In u l <-> E u v.

(** A directed acyclic graph over the variables 0 .. n-1, with a listing of the
    parents of every variable. *)
Definition dag_on (n : nat) (E : nat -> nat -> Prop) (pa : nat -> list nat) : Prop :=
  acyclic E /\ (forall u v, E u v -> u < n /\ v < n) /\ (forall v, v < n -> lists_parents E v (pa v)).

(** Sum of f over the elements of a list, and over 0 .. n-1. *)
Fixpoint sumR (l : list nat) (f : nat -> R) : R :=
  match l with [] => 0%R | a :: r => (f a + sumR r f)%R end.
Definition sumRn (n : nat) (f : nat -> R) : R := sumR (seq 0 n) f.

(** A symmetric positive definite matrix over the indices 0 .. n-1, with ones on
    the diagonal: a non-degenerate matrix of correlations. *)
Definition correlations (n : nat) (C : nat -> nat -> R) : Prop :=
  (forall i j, i < n -> j < n -> C i j = C j i) /\
  (forall i, i < n -> C i i = 1%R) /\
  (forall w : nat -> R, (exists i, i < n /\ w i <> 0%R) -> (0 < sumRn n (fun i => sumRn n (fun j => w i * C i j * w j)))%R).

(** [B] is the inverse of the n by n matrix [A]. *)
Definition inverse_of (n : nat) (A B : nat -> nat -> R) : Prop :=
  forall i j, i < n -> j < n ->
    sumRn n (fun k => A i k * B k j)%R = (if Nat.eqb i j then 1 else 0)%R /\
    sumRn n (fun k => B i k * A k j)%R = (if Nat.eqb i j then 1 else 0)%R.
