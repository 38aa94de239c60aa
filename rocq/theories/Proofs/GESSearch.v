(** GES: total scores along a search in which every conversion to an essential
    graph is right. *)

From Coq Require Import List Arith Bool Lia ZArith QArith Lqa.
From Verif Require Import Model.Py Model.Graph Model.DiGraph Model.PDAG Model.Pdag2Dag Model.GES.
From Verif Require Import Spec.API Spec.Digraphs Spec.PDAGs Spec.GESSpec Spec.Totals Spec.SearchSpec.
From Verif Require Import Proofs.PyFacts Proofs.GraphFacts Proofs.DiGraphFacts Proofs.RelExt Proofs.HistoryFacts Proofs.NumpyFacts
  Proofs.PDAGFacts Proofs.MeekFacts Proofs.CpdagFacts Proofs.Pdag2DagFacts Proofs.MeekComplete Proofs.TotalFacts
  Proofs.GESSubsets Proofs.GESPaths Proofs.GESScan Proofs.GESFit Proofs.GESDiverge Proofs.GESScore.
Import ListNotations.
Open Scope nat_scope.

Lemma compelled_self : forall E u v, acyclic E -> compelled E u v -> E u v.
Proof. intros E u v A C. apply C; auto. apply self_equiv. Qed.

(** A DAG extends its essential graph. *)
Lemma essential_extension : forall g E, acyclic E -> essential g E -> extension g E.
Proof.
  intros g E A Es. split; auto. split; [|split].
  - intros u v N. apply (proj1 (Es u v N)).
  - intros u v N D. apply (proj1 (proj2 (Es u v N))) in D. apply compelled_self; tauto.
  - intros u w v VS. assert (VS' := vs_sym E _ _ _ VS).
    assert (Ne : forall x y, E x y -> x <> y) by (intros x y H ->; apply (A y); econstructor; [exact H|constructor]).
    assert (Q : forall x y z, vstruct E x y z -> directed g x y).
    { intros x y z V. assert (Exy := proj1 V). apply (proj1 (proj2 (Es x y (Ne x y Exy)))). split; [left; auto|].
      intros E' A' [_ M]. apply M in V. apply V. }
    split; eapply Q; eauto.
Qed.

(** The graph is the essential graph of a DAG with total score [q]. *)
Definition class_scored (sf : nat -> list nat -> Q) (n : nat) (g : graph) (q : Q) : Prop :=
  exists (E : nat -> nat -> Prop) (Ed : forall u v, {E u v} + {~ E u v}),
    dag_over n E /\ essential g E /\ total_score sf n E q.

Lemma scored_all : forall sf n g q F b, good n g -> score_equivalent sf n -> class_scored sf n g q ->
  extension g F -> total_score sf n F b -> (b == q)%Q.
Proof.
  intros sf n g q F b G SE [E [Ed [DE [Es T]]]] X TF.
  apply (SE F E b q); auto.
  - eapply extension_over; eauto.
  - apply (extensions_equiv g F E); auto. apply essential_extension; auto. apply (proj1 DE).
Qed.

(** The possible results of [rebuild] on an extendable graph. *)
Lemma rebuild_dag : forall n fuel order p c, good n p -> n <= fuel -> (exists E, extension p E) -> rebuild fuel order p = Ok c ->
  exists d, pdag2dag n p = Ok d /\ reachable KDiGraph d /\ nodes d = seq 0 n /\ extension p (directed d) /\
    dag_over n (directed d) /\ dag2cpdag d (order d) = Ok c.
Proof.
  intros n fuel order p c G Hf Ex E. destruct (extendable_runs n p G Ex) as [d [Ed [R [N [X D]]]]].
  exists d. split; auto. split; auto. split; auto. split; auto. split; auto.
  unfold rebuild in E. rewrite (pdag2dag_more n fuel p d Hf Ed) in E. auto.
Qed.

Section Phase.
  Variables n fuel : nat.
  Variable order : graph -> nat -> nat -> nat -> list nat.
  Variable sf : nat -> list nat -> Q.
  Hypothesis Hf : n <= fuel.
  Hypothesis SE : score_equivalent sf n.
  Variable app_op : nat -> nat -> list nat -> M unit.
  Variable V : graph -> nat -> nat -> list nat -> Prop.
  Variable K : graph -> nat -> nat -> nat -> nat -> Prop.
  Variable R : graph -> nat -> nat -> list nat -> Q -> Prop.
  Variable Vis : graph -> Prop.
  Hypothesis op_true : forall g E (Ed : forall u v, {E u v} + {~ E u v}), good n g -> dag_over n E -> essential g E ->
    forall i j T q, V g i j T -> R g i j T q ->
    exists p, run_on (app_op i j T) g = Ok p /\ good n p /\ (exists F, extension p F) /\
      forall F a b, extension p F -> total_score sf n E a -> total_score sf n F b -> (b - a == q)%Q.

  (** What is known when the conversion of a DAG [d] to [c] is not right. *)
  Variable Bad : graph -> graph -> Prop.
  Hypothesis conv : forall d c, reachable KDiGraph d -> nodes d = seq 0 n -> dag_over n (directed d) ->
    dag2cpdag d (order d) = Ok c -> essential c (directed d) \/ Bad d c.
  Definition bad_step (s : step) : Prop := exists d, step_dag app_op n s d /\ Bad d (st_next s).

  Lemma step_scored : forall s q, step_ok n fuel order app_op V K R Vis s -> class_scored sf n (st_graph s) q ->
    (class_scored sf n (st_next s) (q + st_gain s)%Q /\ true_gain sf n s) \/ bad_step s.
  Proof using Hf SE op_true conv.
    intros s q [G1 G2 _ Va _ _] Sc. assert (Sc' := Sc). destruct Sc as [E [Ed [DE [Es T]]]].
    unfold bad_step, step_dag. destruct (st_op s) as [[i j] TT]. destruct Va as [Va [Ga [_ [p [Ep Er]]]]].
    destruct (op_true (st_graph s) E Ed G1 DE Es i j TT (st_gain s) Va Ga) as [p' [Ep' [Gp [Ex Tr]]]].
    rewrite Ep in Ep'. inversion Ep'; subst p'.
    destruct (rebuild_dag n fuel order p (st_next s) Gp Hf Ex Er) as [d [Pd [Rd [Nd [X [Dd Ec]]]]]].
    destruct (conv d (st_next s) Rd Nd Dd Ec) as [Esn|B]; [left|right; exists d; split; auto; exists p; auto].
    assert (Td := total_exists sf n (directed d) (directed_dec d) (proj2 Dd)).
    assert (Eq := Tr (directed d) q _ X T Td).
    assert (Sn : class_scored sf n (st_next s) (q + st_gain s)%Q).
    { exists (directed d), (directed_dec d). split; auto. split; auto. destruct Td as [pa [H1 H2]]. exists pa. split; auto.
      rewrite <- Eq. rewrite <- H2. ring. }
    split; auto. intros F F' a b XF XF' TF TF'.
    rewrite (scored_all sf n (st_graph s) q F a G1 SE Sc' XF TF), (scored_all sf n (st_next s) _ F' b G2 SE Sn XF' TF'). ring.
  Qed.

  Lemma chain_scored : forall tr g g' q, chain g tr g' -> Forall (step_ok n fuel order app_op V K R Vis) tr ->
    class_scored sf n g q ->
    (class_scored sf n g' (fold_left Qplus (map st_gain tr) q) /\ Forall (true_gain sf n) tr) \/ Exists bad_step tr.
  Proof using Hf SE op_true conv.
    induction tr as [|s tr IH]; intros g g' q Ch F1 Sc; simpl in *.
    - subst. auto.
    - destruct Ch as [<- Ch]. inversion F1; subst.
      destruct (step_scored s q) as [[S1 S2]|B]; auto.
      destruct (IH _ _ _ Ch H2 S1) as [[C1 C2]|B]; auto.
  Qed.
End Phase.

(** The empty graph is the essential graph of the empty DAG. *)
Lemma empty_scored : forall sf n g, good n g -> (forall x y, ~ conp g x y) -> class_scored sf n g (empty_score sf n).
Proof.
  intros sf n g G C. assert (W := pg_wf g (gd_pg n g G)).
  exists (fun _ _ => False), (fun _ _ => right (fun f => f)).
  split; [split; [intros u H; inversion H; auto|intros u v []]|]. split.
  - intros u v N. rewrite (connected_p g u v W), (directed_p g u v W), (undirected_p g u v W). unfold adjacent.
    pose proof (C u v). pose proof (dirp_con g u v). pose proof (undp_con g u v). tauto.
  - exists (fun _ => []). split; [intros v _; split; [constructor|intro u; simpl; tauto]|].
    unfold empty_score. assert (A : forall l q, (fold_left (fun s i => s + sf i []) l q == q + sumQ l (fun v => sf v []))%Q).
    { induction l as [|a l IH]; intro q; simpl; [ring|]. rewrite IH. ring. }
    rewrite A. ring.
Qed.
