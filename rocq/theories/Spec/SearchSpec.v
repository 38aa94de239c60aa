(** What an accepted step of the greedy search means for the DAGs that the two
    graphs of the step stand for. *)

From Coq Require Import List Arith QArith.
From Verif Require Import Model.Py Model.Graph Model.DiGraph Model.PDAG Model.Pdag2Dag Model.GES.
From Verif Require Import Spec.API Spec.Digraphs Spec.PDAGs Spec.Totals.
Import ListNotations.
Open Scope nat_scope.

(** The DAG that [pdag2dag] returned in an accepted step. *)
Definition step_dag (app_op : nat -> nat -> list nat -> M unit) (n : nat) (s : step) (d : graph) : Prop :=
  let '(i, j, T) := st_op s in exists p, run_on (app_op i j T) (st_graph s) = Ok p /\ pdag2dag n p = Ok d.

(** The next graph of the step is the essential graph of that DAG. *)
Definition right_step (app_op : nat -> nat -> list nat -> M unit) (n : nat) (s : step) : Prop :=
  forall d, step_dag app_op n s d -> essential (st_next s) (directed d).

(** The gain of the step is the difference of the total scores of the DAGs
    before and after it. *)
Definition true_gain (sf : nat -> list nat -> Q) (n : nat) (s : step) : Prop :=
  forall F F' a b, extension (st_graph s) F -> extension (st_next s) F' ->
    total_score sf n F a -> total_score sf n F' b -> (b - a == st_gain s)%Q.

(** The conversion to an essential graph went wrong in this step: an arrow of the
    next graph is not shared by all DAGs equivalent to the one that was
    converted. *)
Definition wrong_step (app_op : nat -> nat -> list nat -> M unit) (n : nat) (s : step) : Prop :=
  exists d u v, step_dag app_op n s d /\ directed (st_next s) u v /\ ~ compelled (directed d) u v.
