(** Covered edges and their reversal (Chickering 1995), over a bare edge
    relation.  Nothing here refers to the model of the code. *)

From Coq Require Import List Arith.
From Verif Require Import Spec.Digraphs.
Import ListNotations.

(** x -> y is covered: apart from x itself, x and y have the same parents. *)
Definition covered (E : nat -> nat -> Prop) (x y : nat) : Prop :=
  E x y /\ forall z, z <> x -> (E z y <-> E z x).

(** The graph with the edge x -> y turned round. *)
Definition turned (E : nat -> nat -> Prop) (x y : nat) : nat -> nat -> Prop :=
  fun u v => (E u v /\ ~ (u = x /\ v = y)) \/ (u = y /\ v = x).

(** [F] is reached from the graph by turning one covered edge after another. *)
Inductive by_covered_turns (F : nat -> nat -> Prop) : (nat -> nat -> Prop) -> Prop :=
| turns_done : forall E : nat -> nat -> Prop, (forall u v, E u v <-> F u v) -> by_covered_turns F E
| turns_step : forall E x y, covered E x y -> by_covered_turns F (turned E x y) -> by_covered_turns F E.
