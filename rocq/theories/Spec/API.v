(** Call histories of graph objects and observations made through the public
    API.  The vocabulary of the property statements in Props/ comes from here. *)

From Coq Require Import List Arith.
From Verif Require Import Model.Py Model.Graph.
Import ListNotations.

(** One mutating call on a graph object. *)
Inductive op : Type :=
| AddNode (u : nat)
| AddNodes (us : list nat)
| AddEdge (e : edge) (overwrite : bool)
| AddEdges (es : list edge) (overwrite : bool)
| RemoveNode (u : nat)
| RemoveNodes (us : list nat)
| RemoveEdge (u v : nat).

Definition call (o : op) : M unit :=
  match o with
  | AddNode u => add_node u
  | AddNodes us => add_nodes us
  | AddEdge e ow => add_edge e ow
  | AddEdges es ow => add_edges es ow
  | RemoveNode u => remove_node u
  | RemoveNodes us => remove_nodes_from us
  | RemoveEdge u v => remove_edge u v
  end.

(** The object after a sequence of calls; a call that raises is caught by the
    caller and leaves whatever state it left. *)
Fixpoint run (ops : list op) (g : graph) : graph :=
  match ops with
  | [] => g
  | o :: r => run r (fst (call o g))
  end.

(** A graph object of class [k] that some program can hold. *)
Definition reachable (k : kind) (g : graph) : Prop :=
  exists init ops g0, new_graph k init = Ok g0 /\ run ops g0 = g.

(** Structural consistency, as seen through the API. *)
Definition consistent (g : graph) : Prop :=
  NoDup (nodes g) /\
  (forall u, In u (node_set g) <-> In u (nodes g)) /\
  (forall u, In u (nodes g) -> exists ns, get_neighbours g u = Ok ns /\ NoDup ns /\
     (forall v, In v ns -> In v (nodes g))) /\
  (forall u v ns ns', get_neighbours g u = Ok ns -> get_neighbours g v = Ok ns' ->
     (In v ns <-> In u ns')).

(** Observations. *)
Definition connected (g : graph) (u v : nat) : Prop := is_connected g u v = Ok true.
Definition directed (g : graph) (u v : nat) : Prop := is_fully_directed g u v = Ok true.
Definition undirected (g : graph) (u v : nat) : Prop := is_fully_undirected g u v = Ok true.
Definition loop_free (g : graph) : Prop := forall u, ~ connected g u u.

(** [e] is an edge between [u] and [v], in either orientation. *)
Definition joins (u v : nat) (e : edge) : bool :=
  ((Nat.eqb (node_u e) u && Nat.eqb (node_v e) v) ||
   (Nat.eqb (node_u e) v && Nat.eqb (node_v e) u))%bool.

(** [a, b] and [u, v] are the same unordered pair. *)
Definition same_pair (a b u v : nat) : Prop := (a = u /\ b = v) \/ (a = v /\ b = u).

(** The class check that the classes document: a DiGraph takes tail/arrow
    edges, a PDAG takes tails and arrows, a Graph takes everything. *)
Definition marks_allowed (k : kind) (e : edge) : Prop :=
  match k with
  | KGraph => True
  | KDiGraph => mark_u e = Tail /\ mark_v e = Arrow
  | KPDAG => (mark_u e = Tail \/ mark_u e = Arrow) /\ (mark_v e = Tail \/ mark_v e = Arrow)
  end.
