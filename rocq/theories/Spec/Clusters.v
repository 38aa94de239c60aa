(** Specification of overlap merging, independent of the graph and the search
    that the code uses. *)

From Coq Require Import List.
Import ListNotations.

(** Two variables are linked when a chain of clusters, each sharing a variable
    with the next one, leads from a cluster of the first to a cluster of the
    second. *)
Inductive linked (L : list (list nat)) : nat -> nat -> Prop :=
| linked_in : forall a x y, In a L -> In x a -> In y a -> linked L x y
| linked_step : forall a x y z, linked L x y -> In a L -> In y a -> In z a -> linked L x z.

(** No variable is in two different positions of the list. *)
Definition pairwise_disjoint (L : list (list nat)) : Prop :=
  forall i j x, i <> j -> In x (nth i L []) -> ~ In x (nth j L []).
