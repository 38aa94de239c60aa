(** Invariants of call histories. *)

From Coq Require Import List Arith Bool Lia.
From Verif Require Import Model.Py Model.Graph Model.DiGraph Spec.API Spec.Digraphs.
From Verif Require Import Proofs.PyFacts Proofs.GraphFacts Proofs.DiGraphFacts.
Import ListNotations.

Definition pdag_table (g : graph) : Prop :=
  forall u v m, mk g u v = Some m -> m = Tail \/ m = Arrow.

Definition digraph_table (g : graph) : Prop :=
  (forall u v, u <> v -> mk g u v <> None ->
    (mk g u v = Some Arrow /\ mk g v u = Some Tail) \/
    (mk g u v = Some Tail /\ mk g v u = Some Arrow)) /\
  (forall u, mk g u u = None \/ mk g u u = Some Tail).

Definition class_table (g : graph) : Prop :=
  match g_kind g with
  | KGraph => True
  | KDiGraph => digraph_table g
  | KPDAG => pdag_table g
  end.

Definition Inv (k : kind) (g : graph) : Prop := WF g /\ g_kind g = k /\ class_table g.

Lemma forM_inv : forall {X} (I : graph -> Prop) (f : X -> M unit) l,
  (forall x g, I g -> I (fst (f x g))) -> forall g, I g -> I (fst (forM l f g)).
Proof.
  induction l as [|x l IH]; intros H g Hg; simpl; auto.
  unfold bind. specialize (H x g Hg) as H1. destruct (f x g) as [g' [a|e]]; simpl in *; auto.
Qed.

Lemma adds_digraph : forall g e, digraph_table g -> mark_u e = Tail -> mark_v e = Arrow ->
  forall g', (forall a b, mk g' a b = adds g e a b) -> digraph_table g'.
Proof.
  intros g e [T1 T2] Hu Hv g' M. split.
  - intros u v N H. rewrite !M in *. unfold adds in *. rewrite Hu, Hv in *.
    destruct (Nat.eqb_spec u (node_v e)), (Nat.eqb_spec v (node_u e)); simpl in *;
    destruct (Nat.eqb_spec u (node_u e)), (Nat.eqb_spec v (node_v e)); simpl in *;
      subst; try congruence; auto.
  - intro u. rewrite M. unfold adds. rewrite Hu, Hv.
    destruct (Nat.eqb_spec u (node_v e)), (Nat.eqb_spec u (node_u e)); simpl; subst; auto; congruence.
Qed.

Lemma check_mark_In : forall m l, check_mark m l = Ok tt -> In m l.
Proof.
  intros m l H. unfold check_mark, rassert in H. destruct (existsb (mark_eqb m) l) eqn:E; [|discriminate].
  apply existsb_exists in E. destruct E as [m' [H1 H2]]. apply mark_eqb_spec in H2. subst. auto.
Qed.

Lemma class_check_di : forall e, class_check KDiGraph e = Ok tt -> mark_u e = Tail /\ mark_v e = Arrow.
Proof.
  intros [u v [] []]; simpl; unfold check_mark, rassert; simpl; intro H; try discriminate; auto.
Qed.

Lemma class_check_pdag : forall e, class_check KPDAG e = Ok tt ->
  (mark_u e = Tail \/ mark_u e = Arrow) /\ (mark_v e = Tail \/ mark_v e = Arrow).
Proof.
  intros [u v [] []]; simpl; unfold check_mark, rassert; simpl; intro H; try discriminate; auto.
Qed.

Lemma adds_table : forall g e g', class_table g -> class_check (g_kind g) e = Ok tt ->
  g_kind g' = g_kind g -> (forall a b, mk g' a b = adds g e a b) -> class_table g'.
Proof.
  intros g e g' T C K M. unfold class_table in *. rewrite K. destruct (g_kind g); auto.
  - apply class_check_di in C. destruct C. eapply adds_digraph; eauto.
  - apply class_check_pdag in C. destruct C as [C1 C2]. intros u v m. rewrite M. unfold adds.
    destruct (Nat.eqb u (node_v e) && Nat.eqb v (node_u e))%bool; [intro H; inversion H; subst; auto|].
    destruct (Nat.eqb u (node_u e) && Nat.eqb v (node_v e))%bool; [intro H; inversion H; subst; auto|].
    apply T.
Qed.

(** A symmetric deletion of entries keeps the class discipline. *)
Lemma sub_table : forall g g' (del : nat -> nat -> bool), class_table g -> g_kind g' = g_kind g ->
  (forall a b, del a b = del b a) ->
  (forall a b, mk g' a b = if del a b then None else mk g a b) -> class_table g'.
Proof.
  intros g g' del T K S M. unfold class_table in *. rewrite K. destruct (g_kind g); auto.
  - destruct T as [T1 T2]. split.
    + intros u v N H. rewrite !M in *. rewrite (S v u). destruct (del u v); [congruence|auto].
    + intro u. rewrite M. destruct (del u u); auto.
  - intros u v m. rewrite M. destruct (del u v); [discriminate|]. apply T.
Qed.

Lemma add_edge_inv : forall k e ow g, Inv k g -> Inv k (fst (add_edge e ow g)).
Proof.
  intros k e ow g [W [K T]]. destruct (add_edge_cases g e ow W) as [[g' [E [W' [S [M [C _]]]]]]|[E _]];
    rewrite E; simpl.
  - destruct S as [Sk _]. split; auto. split; [congruence|]. eapply adds_table; eauto.
  - split; auto.
Qed.

Lemma remove_node_inv : forall k u g, Inv k g -> Inv k (fst (remove_node u g)).
Proof.
  intros k u g [W [K T]]. destruct (in_dec Nat.eq_dec u (node_list g)) as [H|H].
  - destruct (remove_node_ok g u W H) as [g' [E [W' [Sk [_ M]]]]]. rewrite E. simpl.
    split; auto. split; [congruence|].
    eapply sub_table with (del := fun a b => (Nat.eqb a u || Nat.eqb b u)%bool); eauto.
    intros. apply orb_comm.
  - rewrite (remove_node_err g u W H). simpl. split; auto.
Qed.

Lemma remove_edge_inv : forall k u v g, Inv k g -> Inv k (fst (remove_edge u v g)).
Proof.
  intros k u v g [W [K T]].
  destruct (remove_edge_cases g u v W) as [[g' [E [W' [S [M _]]]]]|[E _]]; rewrite E; simpl.
  - destruct S as [Sk _]. split; auto. split; [congruence|].
    eapply sub_table with (del := fun a b =>
      ((Nat.eqb a v && Nat.eqb b u) || (Nat.eqb a u && Nat.eqb b v))%bool); eauto.
    + intros a b. destruct (Nat.eqb a v), (Nat.eqb b u), (Nat.eqb b v), (Nat.eqb a u); auto.
    + intros a b. rewrite M. unfold subs.
      destruct (Nat.eqb a v && Nat.eqb b u)%bool, (Nat.eqb a u && Nat.eqb b v)%bool; auto.
  - split; auto.
Qed.

Lemma add_node_inv : forall k u g, Inv k g -> Inv k (fst (add_node u g)).
Proof.
  intros k u g [W [K T]]. destruct (add_node_ok g u W) as [g' [E [W' [Sk [_ M]]]]].
  rewrite E. simpl. split; auto. split; [congruence|].
  eapply sub_table with (del := fun _ _ => false); eauto.
Qed.

Lemma call_inv : forall k o g, Inv k g -> Inv k (fst (call o g)).
Proof.
  intros k o g H. destruct o; simpl.
  - apply add_node_inv; auto.
  - unfold add_nodes. apply (forM_inv (Inv k)); auto. intros; apply add_node_inv; auto.
  - apply add_edge_inv; auto.
  - unfold add_edges. apply (forM_inv (Inv k)); auto. intros; apply add_edge_inv; auto.
  - apply remove_node_inv; auto.
  - unfold remove_nodes_from. apply (forM_inv (Inv k)); auto. intros; apply remove_node_inv; auto.
  - apply remove_edge_inv; auto.
Qed.

Lemma new_graph_Inv : forall k l g, new_graph k l = Ok g -> Inv k g.
Proof.
  intros k l g H. apply new_graph_inv in H. destruct H as [ND [W [K [_ M]]]].
  split; auto. split; auto. unfold class_table. rewrite K. destruct k; auto.
  - split.
    + intros u v _ H. rewrite M in H. congruence.
    + intro u. rewrite M. auto.
  - intros u v m. rewrite M. discriminate.
Qed.

Theorem reachable_Inv : forall k g, reachable k g -> Inv k g.
Proof.
  intros k g [init [ops [g0 [H0 <-]]]]. apply new_graph_Inv in H0.
  revert g0 H0. induction ops as [|o ops IH]; intros g0 H0; simpl; auto.
  apply IH. apply call_inv. auto.
Qed.

Lemma reachable_WF : forall k g, reachable k g -> WF g.
Proof. intros k g H. apply reachable_Inv in H. apply H. Qed.

Lemma reachable_kind : forall k g, reachable k g -> g_kind g = k.
Proof. intros k g H. apply reachable_Inv in H. apply H. Qed.

Lemma reachable_DG : forall g, reachable KDiGraph g -> DG g.
Proof.
  intros g H. apply reachable_Inv in H. destruct H as [W [K T]].
  unfold class_table in T. rewrite K in T. destruct T. constructor; auto.
Qed.

Lemma reachable_PDAG : forall g, reachable KPDAG g -> pdag_table g.
Proof.
  intros g H. apply reachable_Inv in H. destruct H as [W [K T]].
  unfold class_table in T. rewrite K in T. auto.
Qed.

Lemma reachable_call : forall k o g, reachable k g -> reachable k (fst (call o g)).
Proof.
  intros k o g [init [ops [g0 [H0 <-]]]]. exists init, (ops ++ [o]), g0. split; auto.
  clear H0. revert g0. induction ops as [|a ops IH]; intro g0; simpl; auto.
Qed.

(** Observations in terms of the mark table. *)
Lemma connected_iff : forall g u v, WF g -> (connected g u v <-> mk g u v <> None).
Proof.
  intros g u v W. unfold connected. split.
  - intro H.
    assert (Hu : In u (node_list g)).
    { destruct (in_dec Nat.eq_dec u (node_list g)); auto. unfold is_connected in H.
      rewrite check_err in H by auto. discriminate. }
    assert (Hv : In v (node_list g)).
    { destruct (in_dec Nat.eq_dec v (node_list g)); auto. unfold is_connected in H.
      rewrite check_ok, check_err in H by auto. discriminate. }
    rewrite is_connected_ok in H by auto. inversion H as [H1]. apply connb_true in H1. auto.
  - intro H. rewrite is_connected_ok; auto.
    + f_equal. apply connb_true. auto.
    + eapply wf_in_l; eauto.
    + eapply wf_in; eauto.
Qed.

Lemma query_nodes : forall g u v, WF g -> is_connected g u v <> Err AssertionError ->
  In u (node_list g) /\ In v (node_list g).
Proof.
  intros g u v W H.
  destruct (in_dec Nat.eq_dec u (node_list g)) as [Hu|Hu].
  2:{ exfalso. apply H. unfold is_connected. rewrite check_err by auto. reflexivity. }
  destruct (in_dec Nat.eq_dec v (node_list g)) as [Hv|Hv]; auto.
  exfalso. apply H. unfold is_connected. rewrite check_ok, check_err by auto. reflexivity.
Qed.

Lemma directed_dirb : forall g u v, WF g -> (directed g u v <-> dirb g u v = true).
Proof.
  intros g u v W. unfold directed. split.
  - intro H. destruct (query_nodes g u v W) as [Hu Hv].
    { intro E. unfold is_fully_directed in H. rewrite E in H. discriminate. }
    rewrite is_fully_directed_ok in H by auto. congruence.
  - intro H. assert (mk g u v <> None).
    { unfold dirb in H. apply andb_true_iff in H. destruct H as [_ H].
      unfold markb in H. destruct (mk g u v); congruence. }
    rewrite is_fully_directed_ok; auto.
    + congruence.
    + eapply wf_in_l; eauto.
    + eapply wf_in; eauto.
Qed.

Lemma undirected_undb : forall g u v, WF g -> (undirected g u v <-> undb g u v = true).
Proof.
  intros g u v W. unfold undirected. split.
  - intro H. destruct (query_nodes g u v W) as [Hu Hv].
    { intro E. unfold is_fully_undirected in H. rewrite E in H. discriminate. }
    rewrite is_fully_undirected_ok in H by auto. congruence.
  - intro H. assert (mk g u v <> None).
    { unfold undb in H. apply andb_true_iff in H. destruct H as [_ H].
      unfold markb in H. destruct (mk g u v); congruence. }
    rewrite is_fully_undirected_ok; auto.
    + congruence.
    + eapply wf_in_l; eauto.
    + eapply wf_in; eauto.
Qed.

Lemma directed_arc : forall g, DG g -> forall u v, directed g u v <-> arc g u v.
Proof. intros g D u v. rewrite directed_dirb by apply D. apply arc_dirb. auto. Qed.

Lemma dirb_spec : forall g u v, dirb g u v = true <-> mk g u v = Some Arrow /\ mk g v u = Some Tail.
Proof.
  intros. unfold dirb, markb. rewrite andb_true_iff.
  destruct (mk g u v) as [m|], (mk g v u) as [m'|]; rewrite ?mark_eqb_spec; split; intuition congruence.
Qed.

Lemma undb_spec : forall g u v, undb g u v = true <-> mk g u v = Some Tail /\ mk g v u = Some Tail.
Proof.
  intros. unfold undb, markb. rewrite andb_true_iff.
  destruct (mk g u v) as [m|], (mk g v u) as [m'|]; rewrite ?mark_eqb_spec; split; intuition congruence.
Qed.

Theorem WF_consistent : forall g, WF g -> consistent g.
Proof.
  intros g W. split; [apply W|]. split; [apply W|]. split.
  - intros u Hu. exists (nbrs g u). rewrite get_neighbours_ok by auto.
    split; auto. split; [apply nbrs_NoDup; auto|].
    intros v Hv. apply nbrs_In in Hv. eapply wf_in; eauto.
  - assert (Gn : forall u ns, get_neighbours g u = Ok ns -> In u (node_list g)).
    { intros u ns H. apply (wf_rows g W). unfold get_neighbours, row, dgetE in H.
      destruct (nget (adj g) u); [congruence|discriminate]. }
    intros u v ns ns' Hu Hv. pose proof (Gn _ _ Hu). pose proof (Gn _ _ Hv).
    rewrite get_neighbours_ok in Hu, Hv by auto. inversion Hu; inversion Hv; subst.
    rewrite !nbrs_In. split; apply W.
Qed.
