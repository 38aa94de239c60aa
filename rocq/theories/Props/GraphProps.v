(** C01-C07: graph objects, edge writes, listings, matrices. *)

From Coq Require Import List Arith Bool Lia ZArith.
From Verif Require Import Model.Py Model.Graph Model.DiGraph Model.Metrics Spec.API Spec.Digraphs.
From Verif Require Import Proofs.PyFacts Proofs.GraphFacts Proofs.DiGraphFacts Proofs.TopoFacts
  Proofs.HistoryFacts Proofs.EdgeFacts Proofs.FrameFacts Proofs.NumpyFacts Proofs.RelExt.
From Verif Require Import Props.Examples.
Import ListNotations.

(* ------------------------------------------------------------------ C01 *)
(** After any history of mutating calls, raising or not, a graph object is
    structurally consistent. *)
Theorem C01_histories_stay_consistent : forall k init ops g0,
  new_graph k init = Ok g0 -> consistent (run ops g0).
Proof.
  intros k init ops g0 H. apply WF_consistent. apply (reachable_WF k). exists init, ops, g0. auto.
Qed.
Print Assumptions C01_histories_stay_consistent.

(** The constructor accepts exactly the duplicate-free node lists. *)
Theorem C01_constructor : forall k init,
  (NoDup init -> exists g, new_graph k init = Ok g /\ nodes g = init /\ forall u v, ~ connected g u v) /\
  (~ NoDup init -> new_graph k init = Err AssertionError).
Proof.
  intros k init. split.
  - intro ND. destruct (new_graph_ok k init ND) as [g [E [W [_ [N M]]]]].
    exists g. split; auto. split; auto. intros u v C. apply connected_iff in C; auto.
  - apply new_graph_err.
Qed.
Print Assumptions C01_constructor.

(** A history on a DiGraph in which two of the six calls raise. *)
Definition C01_history : list op :=
  [ AddEdge (DEdge 5 7) false; AddEdge (DEdge 7 5) false; AddNode 9;
    AddEdges [DEdge 9 5; DEdge 9 8] true; RemoveNode 7; AddEdge (DEdge 5 9) true ].
Example C01_example : exists g0, new_graph KDiGraph [5; 7] = Ok g0 /\
  snd (call (AddEdge (DEdge 7 5) false) (run [AddEdge (DEdge 5 7) false] g0)) = Err AssertionError /\
  nodes (run C01_history g0) = [5; 9] /\ directed (run C01_history g0) 5 9.
Proof. eexists. split; [reflexivity|]. repeat split. Qed.

(* ------------------------------------------------------------------ C02 *)
Theorem C02_add_edge_read_back : forall k g u v mu mv ow g',
  reachable k g -> u <> v -> add_edge (Edge u v mu mv) ow g = (g', Ok tt) ->
  get_edge g' u v = Ok (Some (Edge u v mu mv)) /\
  get_edge g' v u = Ok (Some (Edge v u mv mu)) /\
  nodes g' = nodes g /\
  forall a b, ~ same_pair a b u v -> get_edge g' a b = get_edge g a b.
Proof.
  intros k g u v mu mv ow g' R N H. assert (W := reachable_WF _ _ R).
  destruct (add_edge_cases g (Edge u v mu mv) ow W) as [[g2 [E [W' [S [M [_ [Hu [Hv _]]]]]]]]|[E _]];
    rewrite H in E; inversion E; subst.
  destruct S as [Sk [Sn Ss]]. simpl in *.
  assert (Muv : mk g2 u v = Some mv).
  { rewrite M. unfold adds. simpl. rewrite (proj2 (Nat.eqb_neq u v)) by auto. simpl.
    rewrite !Nat.eqb_refl. auto. }
  assert (Mvu : mk g2 v u = Some mu).
  { rewrite M. unfold adds. simpl. rewrite !Nat.eqb_refl. auto. }
  split; [|split; [|split]].
  - rewrite get_edge_ok by (rewrite ?Sn; auto). unfold edge_of. rewrite Muv, Mvu. auto.
  - rewrite get_edge_ok by (rewrite ?Sn; auto). unfold edge_of. rewrite Muv, Mvu. auto.
  - exact Sn.
  - intros a b P. apply get_edge_frame; auto; try (rewrite Sn; tauto).
    + rewrite M. apply adds_other. exact P.
    + rewrite M. apply adds_other. intro Q. apply P, same_pair_sym, Q.
Qed.
Print Assumptions C02_add_edge_read_back.

(** When [add_edge] succeeds. *)
Theorem C02_add_edge_succeeds_iff : forall k g e ow, reachable k g ->
  ((exists g', add_edge e ow g = (g', Ok tt)) <->
   marks_allowed k e /\ In (node_u e) (nodes g) /\ In (node_v e) (nodes g) /\
   (ow = true \/ ~ connected g (node_u e) (node_v e))).
Proof.
  intros k g e ow R. assert (W := reachable_WF _ _ R). assert (K := reachable_kind _ _ R).
  rewrite (connected_iff g _ _ W).
  destruct (add_edge_cases g e ow W) as [[g' [E [W' [S [M [C [Hu [Hv O]]]]]]]]|[E O]].
  - rewrite K in C. apply class_check_iff in C. split; [|intros _; eauto].
    intros _. repeat split; auto. destruct O as [O|O]; auto.
  - split.
    + intros [g' H]. rewrite H in E. discriminate.
    + intros [H1 [H2 [H3 H4]]]. exfalso. rewrite <- K in H1. apply class_check_iff in H1.
      unfold nodes in *. destruct O as [O|[O|[O|[O1 O2]]]]; try congruence; try tauto.
      destruct H4; [congruence|tauto].
Qed.
Print Assumptions C02_add_edge_succeeds_iff.

Theorem C02_remove_edge : forall k g u v, reachable k g -> In u (nodes g) -> In v (nodes g) ->
  exists g', remove_edge u v g = (g', Ok tt) /\
    get_edge g' u v = Ok None /\ get_edge g' v u = Ok None /\ nodes g' = nodes g /\
    forall a b, ~ same_pair a b u v -> get_edge g' a b = get_edge g a b.
Proof.
  intros k g u v R Hu Hv. assert (W := reachable_WF _ _ R).
  destruct (remove_edge_ok g u v W Hu Hv) as [g' [E [W' [S M]]]].
  destruct S as [Sk [Sn Ss]]. exists g'. split; auto.
  assert (M1 : mk g' u v = None).
  { rewrite M. unfold subs. rewrite !Nat.eqb_refl. simpl. destruct (Nat.eqb u v && Nat.eqb v u)%bool; auto. }
  assert (M2 : mk g' v u = None).
  { rewrite M. unfold subs. rewrite !Nat.eqb_refl. auto. }
  split; [|split; [|split]].
  - rewrite get_edge_ok by (rewrite ?Sn; auto). unfold edge_of. rewrite M2. auto.
  - rewrite get_edge_ok by (rewrite ?Sn; auto). unfold edge_of. rewrite M1. auto.
  - exact Sn.
  - intros a b P. apply get_edge_frame; auto; try (rewrite Sn; tauto).
    + rewrite M. apply subs_other. exact P.
    + rewrite M. apply subs_other. intro Q. apply P, same_pair_sym, Q.
Qed.
Print Assumptions C02_remove_edge.

Theorem C02_remove_node : forall k g w, reachable k g -> In w (nodes g) ->
  exists g', remove_node w g = (g', Ok tt) /\
    nodes g' = filter (fun x => negb (Nat.eqb w x)) (nodes g) /\
    (forall a, get_edge g' a w = Err AssertionError /\ get_edge g' w a = Err AssertionError) /\
    (forall a b, a <> w -> b <> w -> get_edge g' a b = get_edge g a b).
Proof.
  intros k g w R Hw. assert (W := reachable_WF _ _ R).
  destruct (remove_node_ok g w W Hw) as [g' [E [W' [Sk [Sn M]]]]].
  exists g'. split; auto. unfold nodes.
  rewrite Sn, lremove_filter by apply W. split; auto.
  assert (Nw : ~ In w (node_list g')) by (rewrite Sn, In_lremove by apply W; tauto).
  split.
  - intro a. split; apply get_edge_err; auto; tauto.
  - intros a b Na Nb. apply get_edge_frame; auto.
    + rewrite Sn, In_lremove by apply W. tauto.
    + rewrite Sn, In_lremove by apply W. tauto.
    + rewrite M. rewrite !(proj2 (Nat.eqb_neq _ _)) by eauto. auto.
    + rewrite M. rewrite !(proj2 (Nat.eqb_neq _ _)) by eauto. auto.
Qed.
Print Assumptions C02_remove_node.

Example C02_example : exists g', add_edge (Edge 3 1 Arrow Tail) true ex_pdag = (g', Ok tt) /\
  get_edge g' 1 3 = Ok (Some (Edge 1 3 Tail Arrow)) /\ get_edge g' 2 3 = Ok (Some (Edge 2 3 Arrow Arrow)).
Proof. exists (fst (add_edge (Edge 3 1 Arrow Tail) true ex_pdag)). vm_compute. auto. Qed.
Example C02_example_remove : exists g', remove_node 2 ex_dag = (g', Ok tt) /\ nodes g' = [4; 0; 1; 3] /\
  get_edge g' 3 4 = Ok (Some (Edge 3 4 Tail Arrow)) /\ get_edge g' 2 3 = Err AssertionError.
Proof. exists (fst (remove_node 2 ex_dag)). vm_compute. auto. Qed.

(* ------------------------------------------------------------------ C03 *)
Theorem C03_edges_listing : forall k g, reachable k g ->
  exists es, edges g = Ok es /\ number_of_edges g = Ok (length es) /\
    (forall e, In e es -> node_u e <> node_v e /\ get_edge g (node_u e) (node_v e) = Ok (Some e)) /\
    (forall u v, In u (nodes g) -> In v (nodes g) -> u <> v ->
       (connected g u v -> length (filter (joins u v) es) = 1) /\
       (~ connected g u v -> length (filter (joins u v) es) = 0)).
Proof.
  intros k g R. assert (W := reachable_WF _ _ R).
  eexists. split; [apply edges_ok; auto|]. split; [unfold number_of_edges; rewrite edges_ok by auto; reflexivity|].
  split.
  - intros e He. apply in_somes, in_map_iff in He. destruct He as [[u v] [E He]]. cbn [fst snd] in E.
    pose proof (in_comb2_neq _ _ _ (wf_nodup g W) He) as N. apply in_comb2_In in He.
    destruct (edge_of_ends _ _ _ _ E) as [-> ->]. split; auto. rewrite get_edge_ok by tauto. congruence.
  - intros u v Hu Hv N. rewrite (connected_iff g u v W).
    rewrite (edges_count g u v (node_list g) W) by (auto; apply W). unfold connb.
    destruct (mk g u v); split; intro H; congruence || auto. exfalso. apply H. congruence.
Qed.
Print Assumptions C03_edges_listing.

Theorem C03_degree_sums : forall g es, reachable KDiGraph g -> edges g = Ok es ->
  exists ins outs, mapE (in_degree g) (nodes g) = Ok ins /\ mapE (out_degree g) (nodes g) = Ok outs /\
    list_sum ins = length es /\ list_sum outs = length es.
Proof.
  intros g es R E. assert (W := reachable_WF _ _ R). destruct (degree_sums g es (reachable_DG _ R) E) as [H1 H2].
  exists (map (fun u => length (parents g u)) (nodes g)), (map (fun u => length (children g u)) (nodes g)).
  split; [|split; [|split; auto]].
  - apply mapE_ok. intros u Hu. apply in_degree_ok; auto.
  - apply mapE_ok. intros u Hu. unfold out_degree. rewrite get_children_ok by auto. reflexivity.
Qed.
Print Assumptions C03_degree_sums.

Example C03_example : edges ex_dag = Ok
  [Edge 4 0 Arrow Tail; Edge 4 3 Arrow Tail; Edge 2 0 Arrow Tail; Edge 2 1 Arrow Tail; Edge 2 3 Tail Arrow]
  /\ number_of_edges ex_dag = Ok 5.
Proof. vm_compute. auto. Qed.

(* ------------------------------------------------------------------ C04 *)
Theorem C04_raising_call_changes_nothing : forall k g o g' e, reachable k g ->
  (forall us, o <> AddNodes us) -> (forall es ow, o <> AddEdges es ow) -> (forall us, o <> RemoveNodes us) ->
  call o g = (g', Err e) -> g' = g.
Proof.
  intros k g o g' e R N1 N2 N3 H. assert (W := reachable_WF _ _ R). destruct o; simpl in H.
  - destruct (add_node_ok g u W) as [g2 [E _]]. congruence.
  - exfalso. eapply N1; eauto.
  - destruct (add_edge_cases g e0 overwrite W) as [[g2 [E _]]|[E _]]; congruence.
  - exfalso. eapply N2; eauto.
  - destruct (in_dec Nat.eq_dec u (node_list g)) as [Hu|Hu].
    + destruct (remove_node_ok g u W Hu) as [g2 [E _]]. congruence.
    + rewrite (remove_node_err g u W Hu) in H. congruence.
  - exfalso. eapply N3; eauto.
  - destruct (remove_edge_cases g u v W) as [[g2 [E _]]|[E _]]; congruence.
Qed.
Print Assumptions C04_raising_call_changes_nothing.

(** A raising [add_edges] has applied exactly the edges before the offender. *)
Theorem C04_add_edges_prefix : forall k g es ow g' e, reachable k g ->
  add_edges es ow g = (g', Err e) ->
  exists pre bad post, es = pre ++ bad :: post /\
    add_edges pre ow g = (g', Ok tt) /\ add_edge bad ow g' = (g', Err e).
Proof.
  intros k g es ow g' e R H. unfold add_edges in *.
  eapply (forM_err (Inv k)); eauto.
  - intros. apply add_edge_inv. auto.
  - intros x g1 g2 e1 [W1 _] E1. destruct (add_edge_cases g1 x ow W1) as [[g3 [E _]]|[E _]]; congruence.
  - apply reachable_Inv. auto.
Qed.
Print Assumptions C04_add_edges_prefix.

Theorem C04_remove_nodes_prefix : forall k g us g' e, reachable k g ->
  remove_nodes_from us g = (g', Err e) ->
  exists pre bad post, us = pre ++ bad :: post /\
    remove_nodes_from pre g = (g', Ok tt) /\ remove_node bad g' = (g', Err e).
Proof.
  intros k g es g' e R H. unfold remove_nodes_from in *.
  eapply (forM_err (Inv k)); eauto.
  - intros. apply remove_node_inv. auto.
  - intros x g1 g2 e1 [W1 _] E1. destruct (in_dec Nat.eq_dec x (node_list g1)) as [Hx|Hx].
    + destruct (remove_node_ok g1 x W1 Hx) as [g3 [E _]]. congruence.
    + rewrite (remove_node_err g1 x W1 Hx) in E1. congruence.
  - apply reachable_Inv. auto.
Qed.
Print Assumptions C04_remove_nodes_prefix.

Example C04_example : exists g', add_edges [DEdge 1 3; DEdge 3 2; DEdge 1 4] false ex_dag = (g', Err AssertionError) /\
  directed g' 1 3 /\ directed g' 2 3 /\ ~ connected g' 1 4.
Proof.
  exists (fst (add_edges [DEdge 1 3; DEdge 3 2; DEdge 1 4] false ex_dag)).
  split; [vm_compute; reflexivity|]. split; [vm_compute; reflexivity|].
  split; [vm_compute; reflexivity|]. intro H. vm_compute in H. discriminate H.
Qed.

(* ------------------------------------------------------------------ C05 *)
Theorem C05_digraph_marks : forall g u v, reachable KDiGraph g -> u <> v -> connected g u v ->
  (directed g u v /\ ~ directed g v u /\ get_edge g u v = Ok (Some (Edge u v Tail Arrow))) \/
  (directed g v u /\ ~ directed g u v /\ get_edge g u v = Ok (Some (Edge u v Arrow Tail))).
Proof.
  intros g u v R N C. assert (D := reachable_DG _ R). assert (W := dg_wf g D).
  rewrite !directed_arc by auto. apply connected_iff in C; auto.
  assert (Hu : In u (node_list g)) by (eapply wf_in_l; eauto).
  assert (Hv : In v (node_list g)) by (eapply wf_in; eauto).
  rewrite get_edge_ok by auto. unfold arc, edge_of.
  destruct (dg_marks g D u v N C) as [[-> ->]|[-> ->]]; [left|right]; repeat split; auto; congruence.
Qed.
Print Assumptions C05_digraph_marks.

(** Exactly one of the four shapes holds for each connected pair of a PDAG. *)
Theorem C05_pdag_marks : forall g u v, reachable KPDAG g -> connected g u v ->
  exists e, get_edge g u v = Ok (Some e) /\
  ((undirected g u v /\ mark_u e = Tail /\ mark_v e = Tail) \/
   (directed g u v /\ ~ directed g v u /\ mark_u e = Tail /\ mark_v e = Arrow) \/
   (directed g v u /\ ~ directed g u v /\ mark_u e = Arrow /\ mark_v e = Tail) \/
   (is_arrow g u v = Ok true /\ is_arrow g v u = Ok true /\ ~ directed g u v /\ ~ directed g v u /\
    ~ undirected g u v /\ mark_u e = Arrow /\ mark_v e = Arrow)).
Proof.
  intros g u v R C. assert (T := reachable_PDAG _ R). assert (W := reachable_WF _ _ R).
  apply connected_iff in C; auto.
  assert (C' := wf_sym g W _ _ C).
  assert (Hu : In u (node_list g)) by (eapply wf_in_l; eauto).
  assert (Hv : In v (node_list g)) by (eapply wf_in; eauto).
  rewrite get_edge_ok by auto. unfold is_arrow. rewrite !is_mark_ok by auto.
  unfold edge_of. pose proof (T u v) as T1. pose proof (T v u) as T2.
  destruct (mk g u v) as [m|] eqn:E1; [|congruence]. destruct (mk g v u) as [m'|] eqn:E2; [|congruence].
  exists (Edge u v m' m). split; auto.
  rewrite !directed_dirb, !undirected_undb, !dirb_spec, !undb_spec by auto.
  unfold markb. rewrite !E1, !E2. cbn [mark_u mark_v].
  destruct (T1 _ eq_refl) as [->| ->], (T2 _ eq_refl) as [->| ->]; simpl.
  - left. auto.
  - right. right. left. intuition congruence.
  - right. left. intuition congruence.
  - right. right. right. intuition congruence.
Qed.
Print Assumptions C05_pdag_marks.

Example C05_example : reachable KPDAG ex_pdag /\ connected ex_pdag 0 1 /\ connected ex_pdag 1 2 /\
  connected ex_pdag 2 3 /\ undirected ex_pdag 0 1 /\ directed ex_pdag 1 2 /\ is_arrow ex_pdag 3 2 = Ok true.
Proof. split; [apply ex_pdag_reachable|]. vm_compute. auto 10. Qed.

(* ------------------------------------------------------------------ C06 *)
Theorem C06_self_loop_lost : forall g u, reachable KDiGraph g -> In u (nodes g) -> ~ connected g u u ->
  exists g', add_edge (DEdge u u) false g = (g', Ok tt) /\
    connected g' u u /\
    edges g' = edges g /\
    (exists ps, get_parents g' u = Ok ps /\ ~ In u ps) /\
    get_edge g' u u = Ok (Some (Edge u u Tail Tail)) /\
    is_acyclic g' = is_acyclic g.
Proof.
  intros g u R Hu C. assert (D := reachable_DG _ R). assert (W := dg_wf g D).
  rewrite connected_iff in C by auto.
  destruct (add_edge_ok g (DEdge u u) false W) as [g' [E [W' [S M]]]]; simpl; auto.
  { rewrite (reachable_kind _ _ R). reflexivity. }
  { right. destruct (mk g u u); auto. exfalso. apply C. congruence. }
  exists g'. split; auto. destruct S as [Sk [Sn Ss]].
  assert (D' : DG g').
  { apply reachable_DG. pose proof (reachable_call _ (AddEdge (DEdge u u) false) _ R) as Q. simpl in Q.
    rewrite E in Q. exact Q. }
  assert (Muu : mk g' u u = Some Tail).
  { rewrite M. unfold adds. simpl. rewrite Nat.eqb_refl. auto. }
  assert (Mo : forall a b, a <> b -> mk g' a b = mk g a b).
  { intros a b N. rewrite M. apply adds_other. simpl. unfold same_pair. intros [[? ?]|[? ?]]; congruence. }
  split. { apply connected_iff; auto. congruence. }
  split.
  { rewrite !edges_ok by auto. rewrite Sn. f_equal. f_equal. apply map_ext_in. intros [a b] Hab. cbn [fst snd].
    apply in_comb2_neq in Hab; [|apply W]. unfold edge_of. rewrite !Mo by auto. auto. }
  split.
  { exists (parents g' u). split; [apply get_parents_ok; auto; rewrite Sn; auto|].
    rewrite in_parents by auto. unfold arc. congruence. }
  split.
  { rewrite get_edge_ok by (rewrite ?Sn; auto). unfold edge_of. rewrite Muu. auto. }
  destruct (is_acyclic_ok g W) as [b [Eb Hb]]. { intros x Hx. apply (dg_loop g D x). exact Hx. }
  destruct (is_acyclic_ok g' W') as [b' [Eb' Hb']]. { intros x Hx. apply (dg_loop g' D' x). exact Hx. }
  rewrite Eb, Eb'. f_equal.
  assert (A : acyclic (arc g') <-> acyclic (arc g)).
  { apply acyclic_ext. intros a c. destruct (Nat.eq_dec a c).
    - subst. unfold arc. pose proof (dg_loop g D c). pose proof (dg_loop g' D' c). tauto.
    - unfold arc. rewrite Mo by auto. tauto. }
  rewrite A, <- Hb in Hb'. destruct b, b'; auto; [apply Hb'|symmetry; apply Hb']; auto.
Qed.
Print Assumptions C06_self_loop_lost.

(** "An accepted edge is read back" is false. *)
Theorem C06_read_back_refuted : exists g u g', reachable KDiGraph g /\ In u (nodes g) /\
  add_edge (DEdge u u) false g = (g', Ok tt) /\ get_edge g' u u <> Ok (Some (DEdge u u)) /\
  is_acyclic g' = Ok true.
Proof.
  exists ex_dag, 2, (fst (add_edge (DEdge 2 2) false ex_dag)). split; [apply ex_dag_reachable|].
  split; [vm_compute; auto|]. split; [vm_compute; reflexivity|].
  split; [|vm_compute; reflexivity]. intro H. vm_compute in H. discriminate H.
Qed.
Print Assumptions C06_read_back_refuted.

Example C06_example : reachable KDiGraph ex_dag /\ In 3 (nodes ex_dag) /\ ~ connected ex_dag 3 3.
Proof. split; [apply ex_dag_reachable|]. split; [vm_compute; auto 10|]. intro H. vm_compute in H. discriminate H. Qed.

(* ------------------------------------------------------------------ C07 *)
Theorem C07_to_numpy_entries : forall k g, reachable k g ->
  exists m mt, to_numpy g false = Ok m /\ to_numpy g true = Ok mt /\
  length m = number_of_nodes g /\ (forall r, In r m -> length r = number_of_nodes g) /\
  forall i j u v o, nth_error (nodes g) i = Some u -> nth_error (nodes g) j = Some v ->
    get_edge g u v = Ok o ->
    nth i (nth j m []) 0%Z = match o with Some e => mark_value (mark_v e) | None => 0%Z end /\
    nth j (nth i mt []) 0%Z = match o with Some e => mark_value (mark_v e) | None => 0%Z end.
Proof.
  intros k g R. assert (W := reachable_WF _ _ R).
  destruct (to_numpy_ok g W) as [m [E [[S1 S2] F]]].
  exists m, (transpose (number_of_nodes g) m). split; auto. split.
  { unfold to_numpy in *. unfold number_of_nodes, nodes.
    destruct (numpy_loop g (node_index g) (enumerate_from 0 (node_list g)) (zeros (length (node_list g))));
      simpl in *; congruence. }
  split; auto. split; auto.
  intros i j u v o Hi Hj Ho.
  assert (G : mat_get m j i = match o with Some e => mark_value (mark_v e) | None => 0%Z end).
  { rewrite (F i j u v) by auto. rewrite get_edge_ok in Ho by (auto; eapply nth_error_In; eauto).
    inversion Ho. unfold edge_of, val. pose proof (wf_sym g W u v). pose proof (wf_sym g W v u).
    destruct (mk g v u), (mk g u v); simpl; auto; exfalso; intuition congruence. }
  split; [exact G|].
  rewrite <- G. symmetry. rewrite <- (mat_get_transpose (number_of_nodes g) m i j); auto.
  - unfold number_of_nodes, nodes. apply nth_error_Some. unfold nodes in Hi. congruence.
  - unfold number_of_nodes, nodes. apply nth_error_Some. unfold nodes in Hj. congruence.
Qed.
Print Assumptions C07_to_numpy_entries.

Theorem C07_graph_equal_iff : forall k g h, k <> KGraph -> reachable k g -> reachable k h -> nodes g = nodes h ->
  exists b, graph_equal g h = Ok b /\
    (b = true <-> forall u v, get_edge g u v = get_edge h u v).
Proof.
  intros k g h K Rg Rh N. assert (Wg := reachable_WF _ _ Rg). assert (Wh := reachable_WF _ _ Rh).
  assert (Kg := reachable_kind _ _ Rg). assert (Kh := reachable_kind _ _ Rh).
  destruct (graph_equal_ok g h Wg Wh ltac:(congruence) N) as [b [E H]].
  exists b. split; auto. rewrite H. unfold nodes in N.
  assert (NN : forall f, reachable k f -> forall u v, mk f u v <> Some Null).
  { intros f Rf u v Hn. destruct k; [congruence| |].
    - assert (D := reachable_DG _ Rf). destruct (Nat.eq_dec u v).
      + subst. destruct (dg_diag f D v); congruence.
      + destruct (dg_marks f D u v n) as [[? ?]|[? ?]]; congruence.
    - pose proof (reachable_PDAG _ Rf u v Null Hn) as Q. destruct Q; discriminate. }
  split.
  - intros Hv u v. apply get_edge_frame; auto; try (rewrite N; tauto).
    + destruct (mk g u v) eqn:M1; [|destruct (mk h u v) eqn:M2; auto].
      * rewrite <- M1. apply val_inj; auto. apply Hv; [apply (wf_in_l g u v Wg)|apply (wf_in g Wg u v)]; congruence.
      * rewrite <- M1, <- M2. apply val_inj; auto.
        apply Hv; rewrite N; [apply (wf_in_l h u v Wh)|apply (wf_in h Wh u v)]; congruence.
    + destruct (mk g v u) eqn:M1; [|destruct (mk h v u) eqn:M2; auto].
      * rewrite <- M1. apply val_inj; auto. apply Hv; [apply (wf_in_l g v u Wg)|apply (wf_in g Wg v u)]; congruence.
      * rewrite <- M1, <- M2. apply val_inj; auto.
        apply Hv; rewrite N; [apply (wf_in_l h v u Wh)|apply (wf_in h Wh v u)]; congruence.
  - intros He u v Hu Hv. specialize (He u v).
    rewrite !get_edge_ok in He by (rewrite <- ?N; auto). inversion He as [He'].
    unfold edge_of in He'. pose proof (wf_sym g Wg u v). pose proof (wf_sym g Wg v u).
    pose proof (wf_sym h Wh u v). pose proof (wf_sym h Wh v u).
    destruct (mk g u v), (mk g v u), (mk h u v), (mk h v u); inversion He'; subst; auto;
      exfalso; intuition congruence.
Qed.
Print Assumptions C07_graph_equal_iff.

(** On plain Graphs, where Null marks are allowed, graph_equal does not tell
    different graphs apart. *)
Theorem C07_graph_equal_null_refuted : exists g h, reachable KGraph g /\ reachable KGraph h /\
  nodes g = nodes h /\ graph_equal g h = Ok true /\ connected g 0 1 /\ ~ connected h 0 1.
Proof.
  exists (build KGraph [0; 1; 2] [Edge 0 1 Null Null; Edge 1 2 Circle Arrow]),
         (build KGraph [0; 1; 2] [Edge 1 2 Circle Arrow]).
  split; [eapply build_reachable; reflexivity|]. split; [eapply build_reachable; reflexivity|].
  split; [vm_compute; reflexivity|]. split; [vm_compute; reflexivity|].
  split; [vm_compute; reflexivity|]. intro H. vm_compute in H. discriminate H.
Qed.
Print Assumptions C07_graph_equal_null_refuted.

Example C07_example : to_numpy ex_dag false = Ok
  [[0; 0; 1; 0; 1]; [0; 0; 1; 1; -1]; [-1; -1; 0; 0; 0]; [0; -1; 0; 0; 0]; [-1; 1; 0; 0; 0]]%Z /\
  graph_equal ex_dag ex_dag = Ok true /\
  graph_equal ex_dag (build KDiGraph [4; 2; 0; 1; 3] [DEdge 0 2; DEdge 1 2; DEdge 2 3; DEdge 4 3; DEdge 0 4]) = Ok false.
Proof. vm_compute. auto. Qed.
