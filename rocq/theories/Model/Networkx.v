(** The part of the networkx library used by /repo/cdmir/discovery/point_process/SHP.py:24-25
    and /repo/cdmir/datasets/simlulators.py:114-129, 204-212, 282-290: a directed graph built
    from a square matrix, predecessors, the topological sort and the
    acyclicity test.

    networkx is not part of /repo and is not installed here.  The definitions
    follow its documented algorithm (networkx.algorithms.dag,
    topological_generations: Kahn's algorithm by generations).  A graph is
    given by its number of nodes [n] and by [adj u v], which is true when the
    matrix entry (u, v) is not 0; from_numpy_array adds the nodes 0 .. n-1 and
    then the edges in row-major order, so that predecessors and successors are
    listed in increasing order. *)

From Coq Require Import List Arith Bool.
From Verif Require Import Model.Py.
Import ListNotations.
Open Scope res_scope.

(** [G.predecessors(v)] for [G = from_numpy_array(..)] (simlulators.py:129). *)
Definition nx_predecessors (n : nat) (adj : nat -> nat -> bool) (v : nat) : list nat :=
  filter (fun u => adj u v) (seq 0 n).

(** [G.neighbors(u)], the successors of [u] (used inside topological_generations). *)
Definition nx_neighbors (n : nat) (adj : nat -> nat -> bool) (u : nat) : list nat :=
  filter (adj u) (seq 0 n).

(** [G.in_degree(v)] (used inside topological_generations). *)
Definition nx_in_degree (n : nat) (adj : nat -> nat -> bool) (v : nat) : nat :=
  length (nx_predecessors n adj v).

(** topological_generations: [for child in G.neighbors(node): indegree_map[child] -= 1;
    if indegree_map[child] == 0: zero_indegree.append(child); del indegree_map[child]]. *)
Fixpoint kahn_children (cs : list nat) (deg : list (nat * nat)) (zero : list nat) :
    res (list (nat * nat) * list nat) :=
  match cs with
  | [] => Ok (deg, zero)
  | c :: r =>
      k <-? dgetE Nat.eqb deg c ;;
      if Nat.eqb (k - 1) 0 then kahn_children r (dpop Nat.eqb deg c) (zero ++ [c])
      else kahn_children r (dset Nat.eqb deg c (k - 1)) zero
  end.

(** topological_generations: [for node in this_generation: ..]. *)
Fixpoint kahn_generation (n : nat) (adj : nat -> nat -> bool) (gen : list nat)
    (deg : list (nat * nat)) (zero : list nat) : res (list (nat * nat) * list nat) :=
  match gen with
  | [] => Ok (deg, zero)
  | u :: r =>
      p <-? kahn_children (nx_neighbors n adj u) deg zero ;;
      kahn_generation n adj r (fst p) (snd p)
  end.

(** topological_generations: [while zero_indegree: ..], then
    [if indegree_map: raise NetworkXUnfeasible].  [out] is what has been
    yielded so far, flattened as topological_sort does. *)
Fixpoint kahn_loop (fuel n : nat) (adj : nat -> nat -> bool) (zero : list nat)
    (deg : list (nat * nat)) (out : list nat) : res (list nat) :=
  match zero with
  | [] => match deg with [] => Ok out | _ => Err NetworkXUnfeasible end
  | _ =>
      match fuel with
      | 0 => Err OutOfFuel
      | S f =>
          p <-? kahn_generation n adj zero deg [] ;;
          kahn_loop f n adj (snd p) (fst p) (out ++ zero)
      end
  end.

(** [list(nx.topological_sort(G))] (simlulators.py:125, 208, 286). *)
Definition nx_topological_sort (n : nat) (adj : nat -> nat -> bool) : res (list nat) :=
  kahn_loop n n adj
    (filter (fun v => Nat.eqb (nx_in_degree n adj v) 0) (seq 0 n))
    (map (fun v => (v, nx_in_degree n adj v))
         (filter (fun v => negb (Nat.eqb (nx_in_degree n adj v) 0)) (seq 0 n))) [].

(** [nx.is_directed_acyclic_graph(G)] for a DiGraph: the topological sort does
    not raise NetworkXUnfeasible (SHP.py:25, simlulators.py:115, 205, 283). *)
Definition nx_is_dag (n : nat) (adj : nat -> nat -> bool) : res bool :=
  match nx_topological_sort n adj with
  | Ok _ => Ok true
  | Err NetworkXUnfeasible => Ok false
  | Err e => Err e
  end.
