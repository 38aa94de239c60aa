(** Concrete graph objects used beside the property theorems. *)

From Coq Require Import List Arith Bool.
From Verif Require Import Model.Py Model.Graph Spec.API.
Import ListNotations.

(** Build a graph object by calling the constructor and then [add_edge] for
    each edge. *)
Definition build (k : kind) (ns : list nat) (es : list edge) : graph :=
  match new_graph k ns with
  | Ok g => run (map (fun e => AddEdge e false) es) g
  | Err _ => mkGraph k [] [] []
  end.

Lemma build_reachable : forall k ns es g0, new_graph k ns = Ok g0 -> reachable k (build k ns es).
Proof.
  intros k ns es g0 H. exists ns, (map (fun e => AddEdge e false) es), g0. split; auto.
  unfold build. rewrite H. reflexivity.
Qed.

(** 0 -> 2 <- 1, 2 -> 3, 3 -> 4, 0 -> 4 (acyclic, one collider with a
    descendant, one directed four-cycle in the skeleton). *)
Definition ex_dag : graph :=
  build KDiGraph [4; 2; 0; 1; 3] [DEdge 0 2; DEdge 1 2; DEdge 2 3; DEdge 3 4; DEdge 0 4].
Lemma ex_dag_reachable : reachable KDiGraph ex_dag.
Proof. eapply build_reachable. reflexivity. Qed.

(** A directed cycle 0 -> 1 -> 2 -> 0 with a pendant 2 -> 3. *)
Definition ex_cyc : graph :=
  build KDiGraph [0; 1; 2; 3] [DEdge 0 1; DEdge 1 2; DEdge 2 0; DEdge 2 3].
Lemma ex_cyc_reachable : reachable KDiGraph ex_cyc.
Proof. eapply build_reachable. reflexivity. Qed.

(** A PDAG with an undirected, a directed and a bidirected edge. *)
Definition ex_pdag : graph :=
  build KPDAG [0; 1; 2; 3] [Edge 0 1 Tail Tail; Edge 1 2 Tail Arrow; Edge 2 3 Arrow Arrow].
Lemma ex_pdag_reachable : reachable KPDAG ex_pdag.
Proof. eapply build_reachable. reflexivity. Qed.
