(** Operators of greedy equivalence search (Chickering 2002), stated on the
    observations of Spec/API.v.  Variables are positions 0 .. n-1 in the node
    list. *)

From Coq Require Import List Arith QArith Sorted.
From Verif Require Import Model.Py Model.Graph Spec.API.
Import ListNotations.
Open Scope nat_scope.

(** The node at position [i]. *)
Definition name (g : graph) (i : nat) : nat := nth i (nodes g) 0.
Definition vars (g : graph) : nat := length (nodes g).

Definition adj_i (g : graph) (a b : nat) : Prop := connected g (name g a) (name g b).
Definition und_i (g : graph) (a b : nat) : Prop := undirected g (name g a) (name g b).
(** An arrowhead at [b]. *)
Definition arrow_i (g : graph) (a b : nat) : Prop := is_arrow g (name g a) (name g b) = Ok true.

(** Pairwise connected. *)
Definition clique (g : graph) (S : nat -> Prop) : Prop :=
  forall a b, S a -> S b -> a <> b -> adj_i g a b.

(** Semi-directed paths: every step follows an arrow or an undirected edge. *)
Fixpoint semi_path (g : graph) (p : list nat) : Prop :=
  match p with
  | a :: (b :: _) as r => (arrow_i g a b \/ und_i g a b) /\ semi_path g r
  | _ => True
  end.
(** A path from [j] to [i] over the variables, without repeated nodes. *)
Definition semi_path_from_to (g : graph) (j i : nat) (p : list nat) : Prop :=
  NoDup p /\ (forall x, In x p -> x < vars g) /\ hd_error p = Some j /\ last p j = i /\ semi_path g p.
(** Every semi-directed path from j to i meets [S] in a node other than i. *)
Definition blocked (g : graph) (j i : nat) (S : nat -> Prop) : Prop :=
  forall p, semi_path_from_to g j i p -> exists x, In x p /\ x <> i /\ S x.

(** NA(j, i): neighbours of j (undirected edge) that are adjacent to i. *)
Definition NA (g : graph) (i j x : nat) : Prop := x < vars g /\ und_i g j x /\ adj_i g i x.

(** A subset of {0, .., n-1} listed in increasing order. *)
Definition listing (T : list nat) : Prop := StronglySorted lt T.

(** [l] lists the set [S]. *)
Definition lists (l : list nat) (S : nat -> Prop) : Prop := NoDup l /\ forall x, In x l <-> S x.

(** Validity of Insert(i, j, T): NA + T is a clique and blocks every
    semi-directed path from j to i. *)
Definition insert_valid (g : graph) (i j : nat) (T : list nat) : Prop :=
  clique g (fun x => NA g i j x \/ In x T) /\ blocked g j i (fun x => NA g i j x \/ In x T).

(** The Insert operators considered in graph [g]: i, j not adjacent, j has at
    most [max_p] parents, T consists of neighbours of j not adjacent to i. *)
Definition insert_op (g : graph) (max_p : Q) (i j : nat) (T : list nat) : Prop :=
  i < vars g /\ j < vars g /\ i <> j /\ ~ adj_i g i j /\
  (exists pa, lists pa (fun x => x < vars g /\ arrow_i g x j) /\ (inject_Z (Z.of_nat (length pa)) <= max_p)%Q) /\
  listing T /\ (forall x, In x T -> x < vars g /\ und_i g j x /\ ~ adj_i g i x).

(** The Delete operators: i - j or i -> j, H consists of neighbours of j that
    are adjacent to i. *)
Definition delete_op (g : graph) (i j : nat) (H : list nat) : Prop :=
  i < vars g /\ j < vars g /\ (und_i g i j \/ arrow_i g i j) /\
  listing H /\ (forall x, In x H -> NA g i j x).
(** Validity of Delete(i, j, H): NA without H is a clique. *)
Definition delete_valid (g : graph) (i j : nat) (H : list nat) : Prop :=
  clique g (fun x => NA g i j x /\ ~ In x H).

(** A local score that depends on the set of parents only. *)
Definition set_score (sf : nat -> list nat -> Q) : Prop :=
  forall j l l', (forall x, In x l <-> In x l') -> sf j l = sf j l'.

(** The score change of an operator: local score of j with the new parents
    minus local score with the old ones. *)
Definition insert_gain (sf : nat -> list nat -> Q) (g : graph) (i j : nat) (T : list nat) (q : Q) : Prop :=
  exists l0, lists l0 (fun x => NA g i j x \/ In x T \/ (x < vars g /\ arrow_i g x j)) /\
    q = (sf j (i :: l0) - sf j l0)%Q.
Definition delete_gain (sf : nat -> list nat -> Q) (g : graph) (i j : nat) (H : list nat) (q : Q) : Prop :=
  exists l0, lists l0 (fun x => ((NA g i j x /\ ~ In x H) \/ (x < vars g /\ arrow_i g x j)) /\ x <> i) /\
    q = (sf j l0 - sf j (i :: l0))%Q.
