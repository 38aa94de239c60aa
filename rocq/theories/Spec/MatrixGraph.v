(** Graphs as matrices of 0 and 1. *)

From Coq Require Import List ZArith.
From Verif Require Import Model.Graph.
Import ListNotations.

(** An n x n matrix of zeros and ones. *)
Definition zero_one (n : nat) (m : list (list Z)) : Prop := length m = n /\ forall r, In r m -> length r = n /\ forall z, In z r -> z = 0%Z \/ z = 1%Z.
(** The number of its edges; an edge from j to i is a 1 in row j and column i. *)
Definition edge_count (n : nat) (m : list (list Z)) : nat :=
  length (filter (fun p => Z.eqb (mat_get m (fst p) (snd p)) 1) (list_prod (seq 0 n) (seq 0 n))).
