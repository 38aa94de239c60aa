(** Model of /repo/cdmir/utils/metrics/graph_evaluation.py. *)

From Coq Require Import List Arith Bool ZArith QArith.
From Verif Require Import Model.Py Model.Graph.
Import ListNotations.
Open Scope nat_scope.
Open Scope res_scope.

(** Equality of run-time classes ([type(a) == type(b)], line 12). *)
Definition kind_eqb (a b : kind) : bool :=
  match a, b with
  | KGraph, KGraph | KDiGraph, KDiGraph | KPDAG, KPDAG => true
  | _, _ => false
  end.

(** Python equality of tuples of node names (line 16). *)
Fixpoint list_eqb {A} (eqb : A -> A -> bool) (a b : list A) : bool :=
  match a, b with
  | [], [] => true
  | x :: a', y :: b' => eqb x y && list_eqb eqb a' b'
  | _, _ => false
  end.

(** graph_evaluation.py:11-12 (_miss_match_graph_type). *)
Definition miss_match_graph_type (t e : graph) : res unit :=
  rassert (kind_eqb (g_kind t) (g_kind e)).

(** graph_evaluation.py:15-16 (_miss_match_graph_nodes). *)
Definition miss_match_graph_nodes (t e : graph) : res unit :=
  rassert (list_eqb Nat.eqb (nodes t) (nodes e)).

(** graph_evaluation.py:18-21 (graph_equal). *)
Definition graph_equal (t e : graph) : res bool :=
  miss_match_graph_type t e ;;?
  miss_match_graph_nodes t e ;;?
  a <-? to_numpy t false ;; b <-? to_numpy e false ;;
  Ok (list_eqb (list_eqb Z.eqb) a b).

(** Binary precision, recall and F1 of sklearn.metrics with its default
    [zero_division] (0 with a warning), used in lines 31-35, 45-49, 61-65.
    Exact rationals; the behaviour of sklearn on empty lists is not modelled. *)
Definition count_true (l : list bool) : nat := length (filter (fun b => b) l).
Definition both (t e : list bool) : list bool :=
  map (fun p => (fst p && snd p)%bool) (combine t e).
Definition ratio (a b : nat) : Q :=
  match b with O => 0%Q | S b' => (Z.of_nat a # Pos.of_succ_nat b')%Q end.
Definition precision_score (t e : list bool) : Q := ratio (count_true (both t e)) (count_true e).
Definition recall_score (t e : list bool) : Q := ratio (count_true (both t e)) (count_true t).
Definition f1_score (t e : list bool) : Q :=
  ratio (2 * count_true (both t e)) (count_true t + count_true e).

(** The dictionary returned by the three evaluation functions. *)
Record scores : Type := Scores { precision : Q; recall : Q; f1 : Q }.
Definition evaluate (t e : list bool) : scores :=
  Scores (precision_score t e) (recall_score t e) (f1_score t e).

(** graph_evaluation.py:24-35 (skeleton_evaluation). *)
Definition skeleton_evaluation (t e : graph) : res scores :=
  miss_match_graph_type t e ;;?
  miss_match_graph_nodes t e ;;?
  a <-? mapE (fun p => is_connected t (fst p) (snd p)) (comb2 (nodes t)) ;;
  b <-? mapE (fun p => is_connected e (fst p) (snd p)) (comb2 (nodes e)) ;;
  Ok (evaluate a b).

(** graph_evaluation.py:38-49 (arrow_evaluation). *)
Definition arrow_evaluation (t e : graph) : res scores :=
  miss_match_graph_type t e ;;?
  miss_match_graph_nodes t e ;;?
  a <-? mapE (fun p => is_arrow t (fst p) (snd p)) (perm2 (nodes t)) ;;
  b <-? mapE (fun p => is_arrow e (fst p) (snd p)) (perm2 (nodes e)) ;;
  Ok (evaluate a b).

(** graph_evaluation.py:52-65 (directed_edge_evaluation). *)
Definition directed_edge_evaluation (t e : graph) : res scores :=
  miss_match_graph_type t e ;;?
  miss_match_graph_nodes t e ;;?
  a <-? mapE (fun p => is_fully_directed t (fst p) (snd p)) (perm2 (nodes t)) ;;
  b <-? mapE (fun p => is_fully_directed e (fst p) (snd p)) (perm2 (nodes e)) ;;
  Ok (evaluate a b).

(** edge.py:6-10: equality of two optional edges (namedtuple equality). *)
Definition edge_eqb (a b : edge) : bool :=
  Nat.eqb (node_u a) (node_u b) && Nat.eqb (node_v a) (node_v b) &&
  mark_eqb (mark_u a) (mark_u b) && mark_eqb (mark_v a) (mark_v b).
Definition opt_edge_eqb (a b : option edge) : bool :=
  match a, b with
  | None, None => true
  | Some x, Some y => edge_eqb x y
  | _, _ => false
  end.

(** graph_evaluation.py:68-76 (shd). *)
Definition shd (t e : graph) : res nat :=
  miss_match_graph_type t e ;;?
  miss_match_graph_nodes t e ;;?
  ds <-? mapE (fun p => a <-? get_edge t (fst p) (snd p) ;;
                        b <-? get_edge e (fst p) (snd p) ;;
                        Ok (if opt_edge_eqb a b then 0 else 1)) (comb2 (nodes t)) ;;
  Ok (list_sum ds).
