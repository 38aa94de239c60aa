(** The total score of a directed graph, and scores that do not tell Markov
    equivalent DAGs apart.  Nothing here refers to the model of the code. *)

From Coq Require Import List Arith QArith.
From Verif Require Import Spec.Digraphs.
Import ListNotations.
Open Scope nat_scope.

(** Sum of f over the elements of a list. *)
Fixpoint sumQ (l : list nat) (f : nat -> Q) : Q :=
  match l with [] => 0%Q | a :: r => (f a + sumQ r f)%Q end.

(** A directed acyclic graph over the variables 0 .. n-1. *)
Definition dag_over (n : nat) (E : nat -> nat -> Prop) : Prop :=
  acyclic E /\ forall u v, E u v -> u < n /\ v < n.

(** [q] is the sum over all variables of the local score of the variable with
    its parents in [E]. *)
Definition total_score (sf : nat -> list nat -> Q) (n : nat) (E : nat -> nat -> Prop) (q : Q) : Prop :=
  exists pa, (forall v, v < n -> NoDup (pa v) /\ forall u, In u (pa v) <-> E u v) /\
    (q == sumQ (seq 0 n) (fun v => sf v (pa v)))%Q.

(** Markov equivalent DAGs have the same total score. *)
Definition score_equivalent (sf : nat -> list nat -> Q) (n : nat) : Prop :=
  forall E F a b, dag_over n E -> dag_over n F -> markov_equiv E F ->
    total_score sf n E a -> total_score sf n F b -> (a == b)%Q.
