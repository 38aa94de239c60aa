(** Model of /repo/cdmir/graph/mark.py, edge.py, graph.py and of the edge
    insertion overrides in digraph.py and pdag.py. *)

From Coq Require Import List Arith Bool ZArith.
From Verif Require Import Model.Py.
Import ListNotations.
Open Scope res_scope.

(** mark.py:4-8, [class Mark(IntEnum)]. *)
Inductive mark : Type := Tail | Null | Arrow | Circle.

(** mark.py:5-8, the integer values of the marks. *)
Definition mark_value (m : mark) : Z :=
  match m with Tail => -1 | Null => 0 | Arrow => 1 | Circle => 2 end%Z.

(** mark.py:4, equality of enum members. *)
Definition mark_eqb (a b : mark) : bool :=
  match a, b with
  | Tail, Tail | Null, Null | Arrow, Arrow | Circle, Circle => true
  | _, _ => false
  end.

(** mark.py:13-15 *)
Definition pdag_marks : list mark := [Tail; Arrow].

(** mark.py:17-19 *)
Definition pag_marks : list mark := [Tail; Arrow; Circle].

(** edge.py:6-10, [Edge(node_u, node_v, mark_u, mark_v)]. *)
Record edge : Type := Edge
  { node_u : nat; node_v : nat; mark_u : mark; mark_v : mark }.

(** edge.py:9, the default marks Tail/Arrow. *)
Definition DEdge (u v : nat) : edge := Edge u v Tail Arrow.

(** The run-time class of a graph object: graph.py:11, digraph.py:8, pdag.py:7. *)
Inductive kind : Type := KGraph | KDiGraph | KPDAG.

(** graph.py:12-22, the attributes [node_list], [node_set] and [_adj].
    [adj u v] is the mark at [v] on the edge between [u] and [v]. *)
Record graph : Type := mkGraph
  { g_kind : kind;
    node_list : list nat;
    node_set : list nat;
    adj : list (nat * list (nat * mark)) }.

(** graph.py:24-26 (init_graph): one empty row per node of the set.  The
    order of the rows of the outer dict is never observed. *)
Definition init_adj (nodes : list nat) : list (nat * list (nat * mark)) :=
  map (fun u => (u, [])) nodes.

(** graph.py:12-22, [Graph.__init__]; [None] is modelled as the empty list. *)
Definition new_graph (k : kind) (nodes : list nat) : res graph :=
  let s := py_set nodes in
  if Nat.eqb (length s) (length nodes)
  then Ok (mkGraph k nodes s (init_adj s))
  else Err AssertionError.

(** A method call on a graph object: the object afterwards and the result. *)
Definition M (A : Type) : Type := graph -> graph * res A.

(** Method bodies: return, sequencing, queries, raising. *)
Definition ret {A} (a : A) : M A := fun g => (g, Ok a).
Definition raise {A} (e : exn) : M A := fun g => (g, Err e).
Definition bind {A B} (m : M A) (f : A -> M B) : M B :=
  fun g => match m g with
           | (g', Ok a) => f a g'
           | (g', Err e) => (g', Err e)
           end.
(** A read-only expression evaluated in the current object state. *)
Definition query {A} (q : graph -> res A) : M A := fun g => (g, q g).
(** An in-place update that cannot raise. *)
Definition update (f : graph -> graph) : M unit := fun g => (f g, Ok tt).

Declare Scope meth_scope.
Delimit Scope meth_scope with meth.
Notation "x <- m ;; k" := (bind m (fun x => k))
  (at level 61, m at next level, right associativity) : meth_scope.
Notation "m ;;; k" := (bind m (fun _ => k))
  (at level 61, right associativity) : meth_scope.

(** Python [for x in l: s = body(s, x)] on a loop-carried variable [s];
    an exception ends the loop. *)
Fixpoint foldM {X S} (f : S -> X -> M S) (s : S) (l : list X) : M S :=
  match l with
  | [] => ret s
  | x :: r => bind (f s x) (fun s' => foldM f s' r)
  end.

(** Python [for x in l: body(x)]. *)
Fixpoint forM {X} (l : list X) (f : X -> M unit) : M unit :=
  match l with
  | [] => ret tt
  | x :: r => bind (f x) (fun _ => forM r f)
  end.

(** graph.py:150-151 (check_missing_node). *)
Definition check_missing_node (g : graph) (u : nat) : res unit :=
  rassert (memb u (node_set g)).

(** graph.py:153-154 (check_mark). *)
Definition check_mark (m : mark) (valid : list mark) : res unit :=
  rassert (existsb (mark_eqb m) valid).

(** [self._adj[u]] with KeyError (used throughout graph.py). *)
Definition row (g : graph) (u : nat) : res (list (nat * mark)) :=
  dgetE Nat.eqb (adj g) u.

(** [self._adj[u][v]] with KeyError. *)
Definition adj_at (g : graph) (u v : nat) : res mark :=
  r <-? row g u ;; dgetE Nat.eqb r v.

(** graph.py:110-113 (is_connected). *)
Definition is_connected (g : graph) (u v : nat) : res bool :=
  check_missing_node g u ;;?
  check_missing_node g v ;;?
  ru <-? row g u ;;
  if dmem Nat.eqb ru v
  then rv <-? row g v ;; Ok (dmem Nat.eqb rv u)
  else Ok false.

(** graph.py:119-126 (is_arrow, is_tail, is_circle): the mark at [v]. *)
Definition is_mark (m : mark) (g : graph) (u v : nat) : res bool :=
  c <-? is_connected g u v ;;
  if c then m' <-? adj_at g u v ;; Ok (mark_eqb m' m) else Ok false.
Definition is_arrow := is_mark Arrow.
Definition is_tail := is_mark Tail.
Definition is_circle := is_mark Circle.

(** graph.py:128-129 (is_fully_directed). *)
Definition is_fully_directed (g : graph) (u v : nat) : res bool :=
  c <-? is_connected g u v ;;
  if c then t <-? is_tail g v u ;; (if t then is_arrow g u v else Ok false)
  else Ok false.

(** graph.py:131-132 (is_fully_undirected). *)
Definition is_fully_undirected (g : graph) (u v : nat) : res bool :=
  c <-? is_connected g u v ;;
  if c then t <-? is_tail g v u ;; (if t then is_tail g u v else Ok false)
  else Ok false.

(** graph.py:115-117 (get_neighbours); a generator, returned as a list. *)
Definition get_neighbours (g : graph) (u : nat) : res (list nat) :=
  r <-? row g u ;; Ok (dkeys r).

(** graph.py:40-43 (nodes). *)
Definition nodes (g : graph) : list nat := node_list g.

(** graph.py:45-46 (number_of_nodes). *)
Definition number_of_nodes (g : graph) : nat := length (nodes g).

(** graph.py:65-68 (get_edge). *)
Definition get_edge (g : graph) (u v : nat) : res (option edge) :=
  c <-? is_connected g u v ;;
  if c then mu <-? adj_at g v u ;; mv <-? adj_at g u v ;;
            Ok (Some (Edge u v mu mv))
  else Ok None.

(** Collect the results of a read-only generator. *)
Fixpoint mapE {A B} (f : A -> res B) (l : list A) : res (list B) :=
  match l with
  | [] => Ok []
  | x :: r => b <-? f x ;; bs <-? mapE f r ;; Ok (b :: bs)
  end.

(** Drop the [None]s of a list of optional values ([if edge: yield edge]). *)
Fixpoint somes {A} (l : list (option A)) : list A :=
  match l with
  | [] => []
  | Some a :: r => a :: somes r
  | None :: r => somes r
  end.

(** graph.py:70-77 (edges): pairs of node_list with i < j. *)
Definition edges (g : graph) : res (list edge) :=
  es <-? mapE (fun p => get_edge g (fst p) (snd p)) (comb2 (node_list g)) ;;
  Ok (somes es).

(** graph.py:79-80 (number_of_edges). *)
Definition number_of_edges (g : graph) : res nat :=
  es <-? edges g ;; Ok (length es).

(** graph.py:28-34 (add_node); the warning is not modelled. *)
Definition add_node (u : nat) : M unit := fun g =>
  if memb u (node_set g) then (g, Ok tt)
  else (mkGraph (g_kind g) (node_list g ++ [u]) (node_set g ++ [u])
                (dset Nat.eqb (adj g) u []), Ok tt).

(** graph.py:36-38 (add_nodes). *)
Definition add_nodes (us : list nat) : M unit := forM us add_node.

(** graph.py:58, [self._adj[u].update({v: m})] with KeyError on [u]. *)
Definition adj_update (u v : nat) (m : mark) : M unit := fun g =>
  match row g u with
  | Ok r => (mkGraph (g_kind g) (node_list g) (node_set g)
               (dset Nat.eqb (adj g) u (dset Nat.eqb r v m)), Ok tt)
  | Err e => (g, Err e)
  end.

(** graph.py:87, [self._adj[u].pop(v, None)] with KeyError on [u]. *)
Definition adj_pop (u v : nat) : M unit := fun g =>
  match row g u with
  | Ok r => (mkGraph (g_kind g) (node_list g) (node_set g)
               (dset Nat.eqb (adj g) u (dpop Nat.eqb r v)), Ok tt)
  | Err e => (g, Err e)
  end.

Open Scope meth_scope.

(** graph.py:48-59 (Graph.add_edge). *)
Definition base_add_edge (e : edge) (overwrite : bool) : M unit :=
  query (fun g => check_missing_node g (node_u e)) ;;;
  query (fun g => check_missing_node g (node_v e)) ;;;
  (if overwrite then ret tt
   else c <- query (fun g => is_connected g (node_u e) (node_v e)) ;;
        query (fun _ => rassert (negb c))) ;;;
  adj_update (node_u e) (node_v e) (mark_v e) ;;;
  adj_update (node_v e) (node_u e) (mark_u e).

(** digraph.py:9-12 and pdag.py:8-11: the subclasses check the marks first. *)
Definition class_check (k : kind) (e : edge) : res unit :=
  match k with
  | KGraph => Ok tt
  | KDiGraph => (check_mark (mark_u e) [Tail] ;;? check_mark (mark_v e) [Arrow])%res
  | KPDAG => (check_mark (mark_u e) pdag_marks ;;? check_mark (mark_v e) pdag_marks)%res
  end.

(** [add_edge] with dynamic dispatch on the class of the object:
    graph.py:48-59, digraph.py:9-12, pdag.py:8-11. *)
Definition add_edge (e : edge) (overwrite : bool) : M unit :=
  query (fun g => class_check (g_kind g) e) ;;;
  base_add_edge e overwrite.

(** graph.py:61-63 (add_edges). *)
Definition add_edges (es : list edge) (overwrite : bool) : M unit :=
  forM es (fun e => add_edge e overwrite).

(** graph.py:97-104 (remove_edge); the warning is not modelled. *)
Definition remove_edge (u v : nat) : M unit :=
  c <- query (fun g => is_connected g u v) ;;
  if c : bool then adj_pop u v ;;; adj_pop v u else ret tt.

(** graph.py:82-92 (remove_node). *)
Definition remove_node (u : nat) : M unit :=
  query (fun g => check_missing_node g u) ;;;
  (fun g => forM (node_set g) (fun v => adj_pop v u) g) ;;;
  update (fun g => mkGraph (g_kind g) (node_list g) (node_set g)
                           (dpop Nat.eqb (adj g) u)) ;;;
  update (fun g => mkGraph (g_kind g) (lremove u (node_list g))
                           (lremove u (node_set g)) (adj g)).

(** graph.py:94-95 (remove_nodes_from). *)
Definition remove_nodes_from (us : list nat) : M unit := forM us remove_node.

(** [node_index = {node: i for i, node in enumerate(self.node_list)}],
    graph.py:136. *)
Fixpoint enumerate_from {A} (i : nat) (l : list A) : list (nat * A) :=
  match l with [] => [] | x :: r => (i, x) :: enumerate_from (S i) r end.
Definition node_index (g : graph) : list (nat * nat) :=
  fold_left (fun d p => dset Nat.eqb d (snd p) (fst p))
            (enumerate_from 0 (node_list g)) [].

(** A dense integer matrix as the list of its rows; [m[i, j] = x] on it
    (numpy item assignment, graph.py:141; indices are in range there). *)
Fixpoint set_nth {A} (i : nat) (x : A) (l : list A) : list A :=
  match l, i with
  | [], _ => []
  | _ :: r, 0 => x :: r
  | y :: r, S i' => y :: set_nth i' x r
  end.
Definition mat_set (m : list (list Z)) (i j : nat) (x : Z) : list (list Z) :=
  set_nth i (set_nth j x (nth i m [])) m.
Definition mat_get (m : list (list Z)) (i j : nat) : Z := nth j (nth i m []) 0%Z.
(** [np.zeros((n, n), dtype=int)], graph.py:137. *)
Definition zeros (n : nat) : list (list Z) := repeat (repeat 0%Z n) n.
(** [adj_matrix.T], graph.py:143, for an n x n matrix. *)
Definition transpose (n : nat) (m : list (list Z)) : list (list Z) :=
  map (fun i => map (fun j => mat_get m j i) (seq 0 n)) (seq 0 n).

(** graph.py:139-141: the inner loop over the row of one node. *)
Fixpoint numpy_row (idx : list (nat * nat)) (i : nat) (r : list (nat * mark))
    (m : list (list Z)) : res (list (list Z)) :=
  match r with
  | [] => Ok m
  | (v, mv) :: r' =>
      (iv <-? dgetE Nat.eqb idx v ;;
       numpy_row idx i r' (mat_set m iv i (mark_value mv)))%res
  end.
(** graph.py:139: the outer loop. *)
Fixpoint numpy_loop (g : graph) (idx : list (nat * nat)) (l : list (nat * nat))
    (m : list (list Z)) : res (list (list Z)) :=
  match l with
  | [] => Ok m
  | (i, u) :: l' =>
      (r <-? row g u ;; m' <-? numpy_row idx i r m ;; numpy_loop g idx l' m')%res
  end.
(** graph.py:134-145 (to_numpy). *)
Definition to_numpy (g : graph) (tr : bool) : res (list (list Z)) :=
  let n := length (node_list g) in
  (m <-? numpy_loop g (node_index g) (enumerate_from 0 (node_list g)) (zeros n) ;;
   Ok (if tr then transpose n m else m))%res.
