(** Partially directed graphs: consistent extensions and essential graphs.
    The observations are those of Spec/API.v. *)

From Coq Require Import List Arith.
From Verif Require Import Model.Py Model.Graph Spec.API Spec.Digraphs.
Import ListNotations.

(** The acyclic edge relation [E] is a consistent extension of the PDAG [p]:
    same skeleton, the directed edges of [p] keep their direction, and every
    v-structure of [E] is already directed in [p]. *)
Definition extension (p : graph) (E : nat -> nat -> Prop) : Prop :=
  acyclic E /\
  (forall u v, u <> v -> (connected p u v <-> adjacent E u v)) /\
  (forall u v, u <> v -> directed p u v -> E u v) /\
  (forall u w v, vstruct E u w v -> directed p u w /\ directed p v w).

(** u -> v in every acyclic digraph with the skeleton and the v-structures of
    [E]. *)
Definition compelled (E : nat -> nat -> Prop) (u v : nat) : Prop :=
  forall E', acyclic E' -> markov_equiv E E' -> E' u v.

(** [p] is the essential graph (CPDAG) of the acyclic [E]: same skeleton,
    exactly the compelled edges are directed, the others are undirected. *)
Definition essential (p : graph) (E : nat -> nat -> Prop) : Prop :=
  forall u v, u <> v ->
    (connected p u v <-> adjacent E u v) /\
    (directed p u v <-> adjacent E u v /\ compelled E u v) /\
    (undirected p u v <-> adjacent E u v /\ ~ compelled E u v /\ ~ compelled E v u).

(** Four mutually connected nodes. *)
Definition has_k4 (p : graph) : Prop := exists a b c d,
  a <> b /\ a <> c /\ a <> d /\ b <> c /\ b <> d /\ c <> d /\
  connected p a b /\ connected p a c /\ connected p a d /\
  connected p b c /\ connected p b d /\ connected p c d.

(** An edge that lies in two triangles. *)
Definition edge_in_two_triangles (A : nat -> nat -> Prop) : Prop := exists a b c d,
  a <> b /\ a <> c /\ a <> d /\ b <> c /\ b <> d /\ c <> d /\
  A a b /\ A a c /\ A b c /\ A a d /\ A b d.
