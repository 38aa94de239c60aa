(** C26-C27: structural Hamming distance and precision / recall / F1. *)

From Coq Require Import List Arith Bool Lia ZArith QArith.
From Verif Require Import Model.Py Model.Graph Model.DiGraph Model.Metrics Spec.API.
From Verif Require Import Proofs.PyFacts Proofs.GraphFacts Proofs.HistoryFacts Proofs.EdgeFacts Proofs.FrameFacts
  Proofs.NumpyFacts Proofs.MetricsFacts.
From Verif Require Import Props.Examples.
Import ListNotations.
Open Scope nat_scope.

(** Two objects that the metrics accept: same class, same node list. *)
Definition comparable (t e : graph) : Prop :=
  exists k, reachable k t /\ reachable k e /\ nodes t = nodes e.

Lemma comparable_facts : forall t e, comparable t e ->
  WF t /\ WF e /\ g_kind t = g_kind e /\ node_list t = node_list e.
Proof.
  intros t e [k [R1 [R2 N]]]. repeat split; try (eapply reachable_WF; eauto); auto.
  rewrite (reachable_kind _ _ R1), (reachable_kind _ _ R2). auto.
Qed.

(* ------------------------------------------------------------------ C26 *)
Theorem C26_shd_defined_and_bounded : forall t e, comparable t e ->
  exists n, shd t e = Ok n /\ 2 * n <= number_of_nodes t * (number_of_nodes t - 1).
Proof.
  intros t e C. destruct (comparable_facts t e C) as [Wt [We [K N]]].
  exists (sumf (dif t e) (comb2 (node_list t))). split; [apply shd_ok; auto|].
  unfold number_of_nodes, nodes. rewrite <- comb2_length.
  assert (H : sumf (dif t e) (comb2 (node_list t)) <= sumf (fun _ => 1) (comb2 (node_list t)))
    by (apply sumf_le; intros; apply dif_le).
  assert (L : forall (l : list (nat * nat)), sumf (fun _ => 1) l = length l).
  { induction l; auto. unfold sumf in *. simpl. auto. }
  rewrite L in H. lia.
Qed.
Print Assumptions C26_shd_defined_and_bounded.

Theorem C26_shd_zero_iff_same_edges : forall t e, comparable t e ->
  (shd t e = Ok 0 <-> forall u v, u <> v -> get_edge t u v = get_edge e u v).
Proof.
  intros t e C. destruct (comparable_facts t e C) as [Wt [We [K N]]].
  rewrite (shd_ok t e Wt We K N). split.
  - intros H u v Nuv. injection H as H. rewrite sumf_zero in H.
    destruct (in_dec Nat.eq_dec u (node_list t)) as [Hu|Hu]; [destruct (in_dec Nat.eq_dec v (node_list t)) as [Hv|Hv]|].
    + rewrite !get_edge_ok by (rewrite <- ?N; auto). f_equal.
      destruct (in_comb2_total _ _ _ Hu Hv Nuv) as [P|P]; apply H in P; apply dif_zero in P; simpl in P; auto.
      apply edge_of_flip; auto.
    + rewrite !get_edge_err by (rewrite <- ?N; tauto). auto.
    + rewrite !get_edge_err by (rewrite <- ?N; tauto). auto.
  - intro H. f_equal. apply sumf_zero. intros [u v] P. apply dif_zero. simpl.
    pose proof (in_comb2_neq _ _ _ (wf_nodup t Wt) P) as Nuv. apply in_comb2_In in P.
    specialize (H u v Nuv). rewrite !get_edge_ok in H by (rewrite <- ?N; tauto). congruence.
Qed.
Print Assumptions C26_shd_zero_iff_same_edges.

Theorem C26_shd_symmetric : forall t e, comparable t e -> shd t e = shd e t.
Proof.
  intros t e C. destruct (comparable_facts t e C) as [Wt [We [K N]]].
  rewrite (shd_ok t e), (shd_ok e t) by auto. rewrite N. f_equal. apply sumf_ext. intros. apply dif_sym.
Qed.
Print Assumptions C26_shd_symmetric.

Theorem C26_shd_triangle : forall a b c x y z, comparable a b -> comparable b c ->
  shd a b = Ok x -> shd b c = Ok y -> shd a c = Ok z -> z <= x + y.
Proof.
  intros a b c x y z C1 C2 H1 H2 H3.
  destruct (comparable_facts _ _ C1) as [Wa [Wb [K1 N1]]]. destruct (comparable_facts _ _ C2) as [_ [Wc [K2 N2]]].
  rewrite shd_ok in H1, H2, H3 by congruence. inversion H1. inversion H2. inversion H3.
  rewrite <- N1. rewrite <- sumf_add. apply sumf_le. intros. apply dif_triangle.
Qed.
Print Assumptions C26_shd_triangle.

(** Writing or removing the edge of one pair changes the distance by at most
    one. *)
Theorem C26_shd_one_edit : forall t e o e' u v n n', comparable t e ->
  (exists mu mv ow, o = AddEdge (Edge u v mu mv) ow) \/ o = RemoveEdge u v ->
  call o e = (e', Ok tt) -> shd t e = Ok n -> shd t e' = Ok n' -> n' <= n + 1 /\ n <= n' + 1.
Proof.
  intros t e o e' u v n n' C Ho Hc H1 H2. pose proof C as [k [Rt [Re Nn]]].
  destruct (comparable_facts t e C) as [Wt [We [K N]]].
  assert (Re' : reachable k e').
  { pose proof (reachable_call k o e Re) as Q. rewrite Hc in Q. exact Q. }
  assert (F : node_list e' = node_list e /\ forall a b, ~ same_pair a b u v -> mk e' a b = mk e a b).
  { destruct Ho as [[mu [mv [ow ->]]]| ->]; simpl in Hc.
    - destruct (add_edge_cases e (Edge u v mu mv) ow We) as [[g [E [_ [S [M _]]]]]|[E _]];
        rewrite Hc in E; inversion E; subst. split; [apply S|]. intros a b P. rewrite M. apply adds_other. auto.
    - destruct (remove_edge_cases e u v We) as [[g [E [_ [S [M _]]]]]|[E _]];
        rewrite Hc in E; inversion E; subst. split; [apply S|]. intros a b P. rewrite M. apply subs_other. auto. }
  destruct F as [Fn Fm]. assert (We' := reachable_WF _ _ Re').
  assert (K' : g_kind e = g_kind e') by (rewrite (reachable_kind _ _ Re), (reachable_kind _ _ Re'); auto).
  assert (L : sumf (dif e e') (comb2 (node_list e)) <= 1).
  { assert (S : forall p, sumf (dif e e') (comb2 (node_list e)) <= dif e e' p \/ True) by auto.
    destruct (in_dec (fun a b : nat * nat => ltac:(decide equality; apply Nat.eq_dec)) (u, v) (comb2 (node_list e)))
      as [P|P].
    - transitivity (dif e e' (u, v)); [|apply dif_le]. apply sumf_one; [apply comb2_NoDup, We|].
      intros [a b] Hab Hne. apply dif_zero. simpl. unfold edge_of.
      rewrite !Fm; auto; intros [[-> ->]|[-> ->]]; try congruence;
        apply (in_comb2_asym _ _ _ (wf_nodup e We) P); auto.
    - transitivity (dif e e' (v, u)); [|apply dif_le]. apply sumf_one; [apply comb2_NoDup, We|].
      intros [a b] Hab Hne. apply dif_zero. simpl. unfold edge_of.
      rewrite !Fm; auto; intros [[-> ->]|[-> ->]]; try congruence; contradiction. }
  rewrite shd_ok in H1, H2 by congruence. inversion H1. inversion H2. rewrite N.
  assert (T1 : sumf (dif t e') (comb2 (node_list e)) <=
               sumf (dif t e) (comb2 (node_list e)) + sumf (dif e e') (comb2 (node_list e))).
  { rewrite <- sumf_add. apply sumf_le. intros. apply dif_triangle. }
  assert (T2 : sumf (dif t e) (comb2 (node_list e)) <=
               sumf (dif t e') (comb2 (node_list e)) + sumf (dif e e') (comb2 (node_list e))).
  { rewrite <- sumf_add. apply sumf_le. intros x _. pose proof (dif_triangle t e' e x).
    pose proof (dif_sym e e' x). lia. }
  split; lia.
Qed.
Print Assumptions C26_shd_one_edit.

(** Objects of different classes or with different node lists are rejected. *)
Theorem C26_shd_mismatch : forall k k' t e, reachable k t -> reachable k' e ->
  k <> k' \/ nodes t <> nodes e -> shd t e = Err AssertionError.
Proof.
  intros k k' t e Rt Re H. unfold shd, miss_match_graph_type, miss_match_graph_nodes.
  rewrite (reachable_kind _ _ Rt), (reachable_kind _ _ Re).
  destruct (kind_eqb k k') eqn:E1; simpl; auto.
  destruct (list_eqb Nat.eqb (nodes t) (nodes e)) eqn:E2; simpl; auto.
  apply kind_eqb_spec in E1. apply list_eqb_spec in E2; [|apply Nat.eqb_eq]. tauto.
Qed.
Print Assumptions C26_shd_mismatch.

Definition ex_pdag2 : graph :=
  build KPDAG [0; 1; 2; 3] [Edge 0 1 Tail Arrow; Edge 1 2 Tail Arrow; Edge 0 3 Tail Tail].
Lemma ex_pdag2_reachable : reachable KPDAG ex_pdag2.
Proof. eapply build_reachable. reflexivity. Qed.
Lemma ex_comparable : comparable ex_pdag ex_pdag2.
Proof. exists KPDAG. split; [apply ex_pdag_reachable|]. split; [apply ex_pdag2_reachable|reflexivity]. Qed.

Example C26_example : comparable ex_pdag ex_pdag2 /\ shd ex_pdag ex_pdag2 = Ok 3 /\ shd ex_pdag ex_pdag = Ok 0 /\
  snd (call (RemoveEdge 0 3) ex_pdag2) = Ok tt /\
  shd ex_pdag (fst (call (RemoveEdge 0 3) ex_pdag2)) = Ok 2 /\ shd ex_pdag ex_dag = Err AssertionError.
Proof. split; [apply ex_comparable|]. vm_compute. auto 10. Qed.

(* ------------------------------------------------------------------ C27 *)
(** [s] scores the estimated items [E] against the true items [T], of which
    [C] are common. *)
Definition scored (s : scores) (T E C : list (nat * nat)) : Prop :=
  let n l := inject_Z (Z.of_nat (length l)) in
  (precision s * n E == n C /\ recall s * n T == n C /\ f1 s * (n T + n E) == 2 * n C)%Q.

(** The pairs of [l] on which [P] holds, each once, in the pairs of nodes of [g]. *)
Definition lists_ordered (P : nat -> nat -> Prop) (l : list (nat * nat)) : Prop :=
  NoDup l /\ forall u v, In (u, v) l <-> u <> v /\ P u v.

(** The unordered pairs on which the symmetric [P] holds, each once. *)
Definition lists_unordered (P : nat -> nat -> Prop) (l : list (nat * nat)) : Prop :=
  NoDup l /\ (forall u v, In (u, v) l -> u <> v /\ P u v /\ ~ In (v, u) l) /\
  (forall u v, u <> v -> P u v -> In (u, v) l \/ In (v, u) l).

Lemma scored_map : forall (f h : nat * nat -> bool) l,
  scored (evaluate (map f l) (map h l)) (filter f l) (filter h l) (filter (fun x => (f x && h x)%bool) l).
Proof.
  intros f h l. unfold scored, evaluate, precision_score, recall_score, f1_score. simpl precision. simpl recall. simpl f1.
  rewrite both_map, !count_true_map. pose proof (filter_and_le_l f h l). pose proof (filter_and_le_r f h l).
  split; [apply ratio_mul; lia|]. split; [apply ratio_mul; lia|].
  rewrite <- inject_Z_plus, <- Nat2Z.inj_add. rewrite ratio_mul by lia.
  unfold Qeq, Qmult, inject_Z. cbn [Qnum Qden]. lia.
Qed.

Lemma arrow_mk : forall g u v, WF g -> (is_arrow g u v = Ok true <-> markb Arrow g u v = true).
Proof.
  intros g u v W. unfold is_arrow.
  destruct (in_dec Nat.eq_dec u (node_list g)) as [Hu|Hu]; [destruct (in_dec Nat.eq_dec v (node_list g)) as [Hv|Hv]|].
  - rewrite is_mark_ok by auto. split; congruence.
  - unfold is_mark, is_connected. rewrite (check_ok g u), (check_err g v) by auto. simpl. split; [discriminate|].
    intro H. exfalso. apply Hv. apply (wf_in g W u v). unfold markb in H. destruct (mk g u v); congruence.
  - unfold is_mark, is_connected. rewrite (check_err g u) by auto. simpl. split; [discriminate|].
    intro H. exfalso. apply Hu. apply (wf_in_l g u v W). unfold markb in H. destruct (mk g u v); congruence.
Qed.

Lemma filter_ordered : forall g l (P : nat -> nat -> Prop) (f : nat -> nat -> bool), WF g -> l = node_list g ->
  (forall u v, P u v <-> f u v = true) -> (forall u v, f u v = true -> mk g u v <> None) ->
  lists_ordered P (filter (fun p => f (fst p) (snd p)) (perm2 l)).
Proof.
  intros g l P f W -> HP Hc. split; [apply NoDup_filter, perm2_NoDup, W|].
  intros u v. rewrite filter_In, in_perm2 by apply W. simpl. rewrite HP. split; [tauto|].
  intros [N F]. specialize (Hc u v F). repeat split; auto; [eapply wf_in_l|eapply wf_in]; eauto.
Qed.

Lemma filter_unordered : forall g l (P : nat -> nat -> Prop) (f : nat -> nat -> bool), WF g -> l = node_list g ->
  (forall u v, P u v <-> f u v = true) -> (forall u v, f u v = true -> f v u = true) ->
  (forall u v, f u v = true -> mk g u v <> None) ->
  lists_unordered P (filter (fun p => f (fst p) (snd p)) (comb2 l)).
Proof.
  intros g l P f W -> HP Hs Hc. split; [apply NoDup_filter, comb2_NoDup, W|]. split.
  - intros u v H. rewrite !filter_In in *. simpl in *. destruct H as [H F].
    split; [eapply in_comb2_neq; eauto; apply W|]. split; [apply HP; auto|].
    intros [H' _]. eapply in_comb2_asym; eauto. apply W.
  - intros u v N H. apply HP in H. rewrite !filter_In. simpl.
    destruct (in_comb2_total (node_list g) u v) as [Q|Q]; auto.
    + apply (wf_in_l g u v W). auto. + apply (wf_in g W u v). auto.
Qed.

Theorem C27_skeleton_counts : forall t e, comparable t e ->
  exists s T E C, skeleton_evaluation t e = Ok s /\ scored s T E C /\
    lists_unordered (connected t) T /\ lists_unordered (connected e) E /\
    lists_unordered (fun u v => connected t u v /\ connected e u v) C.
Proof.
  intros t e Cm. destruct (comparable_facts t e Cm) as [Wt [We [K N]]].
  exists (evaluate (map (fun p => connb t (fst p) (snd p)) (comb2 (node_list t)))
               (map (fun p => connb e (fst p) (snd p)) (comb2 (node_list t)))).
  exists (filter (fun p => connb t (fst p) (snd p)) (comb2 (node_list t))),
         (filter (fun p => connb e (fst p) (snd p)) (comb2 (node_list t))),
         (filter (fun p => (connb t (fst p) (snd p) && connb e (fst p) (snd p))%bool) (comb2 (node_list t))).
  split; [apply skel_ok; auto|]. split; [apply scored_map|].
  assert (Ht : forall u v, connected t u v <-> connb t u v = true)
    by (intros; rewrite connected_iff, connb_true by auto; tauto).
  assert (He : forall u v, connected e u v <-> connb e u v = true)
    by (intros; rewrite connected_iff, connb_true by auto; tauto).
  split; [|split].
  - apply (filter_unordered t _ (connected t) (connb t)); auto.
    + intros u v. rewrite connb_sym; auto. + intros u v. apply connb_true.
  - apply (filter_unordered e _ (connected e) (connb e)); auto.
    + intros u v. rewrite connb_sym; auto. + intros u v. apply connb_true.
  - apply (filter_unordered t _ _ (fun u v => (connb t u v && connb e u v)%bool)); auto.
    + intros u v. rewrite andb_true_iff, Ht, He. tauto.
    + intros u v. rewrite (connb_sym t), (connb_sym e); auto.
    + intros u v. rewrite andb_true_iff, connb_true. tauto.
Qed.
Print Assumptions C27_skeleton_counts.

Theorem C27_arrow_counts : forall t e, comparable t e ->
  exists s T E C, arrow_evaluation t e = Ok s /\ scored s T E C /\
    lists_ordered (fun u v => is_arrow t u v = Ok true) T /\
    lists_ordered (fun u v => is_arrow e u v = Ok true) E /\
    lists_ordered (fun u v => is_arrow t u v = Ok true /\ is_arrow e u v = Ok true) C.
Proof.
  intros t e Cm. destruct (comparable_facts t e Cm) as [Wt [We [K N]]].
  do 4 eexists. split; [apply arrow_ok; auto|]. split; [apply scored_map|].
  assert (Q : forall g u v, markb Arrow g u v = true -> mk g u v <> None)
    by (intros g u v H; unfold markb in H; destruct (mk g u v); congruence).
  split; [|split].
  - apply (filter_ordered t _ _ (markb Arrow t)); auto. intros. apply arrow_mk; auto.
  - apply (filter_ordered e _ _ (markb Arrow e)); auto. intros. apply arrow_mk; auto.
  - apply (filter_ordered t _ _ (fun u v => (markb Arrow t u v && markb Arrow e u v)%bool)); auto.
    + intros. rewrite andb_true_iff, !arrow_mk by auto. tauto.
    + intros u v. rewrite andb_true_iff. intros [H _]. auto.
Qed.
Print Assumptions C27_arrow_counts.

Theorem C27_directed_counts : forall t e, comparable t e ->
  exists s T E C, directed_edge_evaluation t e = Ok s /\ scored s T E C /\
    lists_ordered (directed t) T /\ lists_ordered (directed e) E /\
    lists_ordered (fun u v => directed t u v /\ directed e u v) C.
Proof.
  intros t e Cm. destruct (comparable_facts t e Cm) as [Wt [We [K N]]].
  do 4 eexists. split; [apply dire_ok; auto|]. split; [apply scored_map|].
  assert (Q : forall g u v, dirb g u v = true -> mk g u v <> None)
    by (intros g u v H; apply dirb_spec in H; destruct H; congruence).
  split; [|split].
  - apply (filter_ordered t _ _ (dirb t)); auto. intros. apply directed_dirb; auto.
  - apply (filter_ordered e _ _ (dirb e)); auto. intros. apply directed_dirb; auto.
  - apply (filter_ordered t _ _ (fun u v => (dirb t u v && dirb e u v)%bool)); auto.
    + intros. rewrite andb_true_iff, !directed_dirb by auto. tauto.
    + intros u v. rewrite andb_true_iff. intros [H _]. auto.
Qed.
Print Assumptions C27_directed_counts.

(** The three evaluations. *)
Definition evaluations : list (graph -> graph -> res scores) :=
  [skeleton_evaluation; arrow_evaluation; directed_edge_evaluation].

Lemma evaluations_ok : forall ev t e, In ev evaluations -> comparable t e ->
  exists (f : graph -> nat * nat -> bool) l, ev t e = Ok (evaluate (map (f t) l) (map (f e) l)) /\
    ev e t = Ok (evaluate (map (f e) l) (map (f t) l)) /\ ev t t = Ok (evaluate (map (f t) l) (map (f t) l)).
Proof.
  intros ev t e I C. destruct (comparable_facts t e C) as [Wt [We [K N]]].
  destruct I as [<-|[<-|[<-|[]]]].
  - exists (fun g p => connb g (fst p) (snd p)), (comb2 (node_list t)).
    rewrite (skel_ok t e), (skel_ok e t), (skel_ok t t) by auto. rewrite <- N. auto.
  - exists (fun g p => markb Arrow g (fst p) (snd p)), (perm2 (node_list t)).
    rewrite (arrow_ok t e), (arrow_ok e t), (arrow_ok t t) by auto. rewrite <- N. auto.
  - exists (fun g p => dirb g (fst p) (snd p)), (perm2 (node_list t)).
    rewrite (dire_ok t e), (dire_ok e t), (dire_ok t t) by auto. rewrite <- N. auto.
Qed.

Theorem C27_between_zero_and_one : forall ev t e s, In ev evaluations -> comparable t e -> ev t e = Ok s ->
  (0 <= precision s <= 1 /\ 0 <= recall s <= 1 /\ 0 <= f1 s <= 1)%Q.
Proof.
  intros ev t e s I C H. destruct (evaluations_ok ev t e I C) as [f [l [E _]]].
  rewrite E in H. inversion H. simpl. unfold precision_score, recall_score, f1_score.
  rewrite both_map, !count_true_map. pose proof (filter_and_le_l (f t) (f e) l). pose proof (filter_and_le_r (f t) (f e) l).
  split; [|split]; apply ratio_range; lia.
Qed.
Print Assumptions C27_between_zero_and_one.

Theorem C27_swap : forall ev t e s s', In ev evaluations -> comparable t e -> ev t e = Ok s -> ev e t = Ok s' ->
  precision s' = recall s /\ recall s' = precision s /\ f1 s' = f1 s.
Proof.
  intros ev t e s s' I C H H'. destruct (evaluations_ok ev t e I C) as [f [l [E [E' _]]]].
  rewrite E in H. rewrite E' in H'. inversion H. inversion H'. simpl.
  unfold precision_score, recall_score, f1_score. rewrite (both_sym (f e) (f t)).
  repeat split; auto. rewrite Nat.add_comm. auto.
Qed.
Print Assumptions C27_swap.

(** A graph compared with itself scores 1 unless there is nothing to score. *)
Theorem C27_self : forall ev t e s, In ev evaluations -> comparable t e -> ev t t = Ok s ->
  ((precision s == 1 /\ recall s == 1 /\ f1 s == 1) \/ (precision s == 0 /\ recall s == 0 /\ f1 s == 0))%Q /\
  ((exists s', ev t e = Ok s' /\ ~ recall s' == 0)%Q -> (precision s == 1 /\ recall s == 1 /\ f1 s == 1)%Q).
Proof.
  intros ev t e s I C H. destruct (evaluations_ok ev t e I C) as [f [l [E [_ E']]]].
  rewrite E' in H. inversion H. simpl.
  unfold precision_score, recall_score, f1_score. rewrite both_map, !count_true_map.
  assert (Q : forall p, (p && p)%bool = p) by (destruct p; auto).
  rewrite (filter_ext (fun x => (f t x && f t x)%bool) (f t)) by (intro; apply Q).
  destruct (Nat.eq_dec (length (filter (f t) l)) 0) as [Z|Z].
  - rewrite Z. split; [right; repeat split; reflexivity|].
    intros [s' [Hs R]]. exfalso. apply R. rewrite E in Hs. inversion Hs. simpl. unfold recall_score.
    rewrite both_map, !count_true_map, Z. reflexivity.
  - assert (W : ((ratio (length (filter (f t) l)) (length (filter (f t) l)) == 1) /\
      ratio (2 * length (filter (f t) l)) (length (filter (f t) l) + length (filter (f t) l)) == 1)%Q).
    { split; [apply ratio_one; auto|].
      replace (2 * length (filter (f t) l)) with (length (filter (f t) l) + length (filter (f t) l)) by lia.
      apply ratio_one. lia. }
    destruct W. split; [left|]; auto.
Qed.
Print Assumptions C27_self.

Example C27_example : arrow_evaluation ex_pdag ex_pdag2 = Ok (Scores (1 # 2) (1 # 3) (2 # 5)) /\
  directed_edge_evaluation ex_pdag ex_pdag2 = Ok (Scores (1 # 2) (1 # 1) (2 # 3)) /\
  skeleton_evaluation ex_pdag ex_pdag2 = Ok (Scores (2 # 3) (2 # 3) (4 # 6)).
Proof. vm_compute. auto. Qed.
