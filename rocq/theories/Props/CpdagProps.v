(** C13-C15: dag2cpdag. *)

From Coq Require Import List Arith Bool Lia.
From Verif Require Import Model.Py Model.Graph Model.DiGraph Model.PDAG Spec.API Spec.Digraphs Spec.PDAGs.
From Verif Require Import Proofs.PyFacts Proofs.GraphFacts Proofs.DSepTheory Proofs.RelExt Proofs.DiGraphFacts
  Proofs.HistoryFacts Proofs.FrameFacts Proofs.DagFacts Proofs.PDAGFacts Proofs.MeekComplete Proofs.MeekFacts Proofs.CpdagFacts.
From Verif Require Import Props.Examples.
Import ListNotations.

(** [order u v k] enumerates the set of nodes other than u and v; Python does
    not say in which order, and it may differ from round to round. *)
Definition set_orders (g : graph) (order : nat -> nat -> nat -> list nat) : Prop :=
  forall u v k, NoDup (order u v k) /\
    forall x, In x (order u v k) <-> In x (nodes g) /\ x <> u /\ x <> v.

Lemma reach_arc : forall g, reachable KDiGraph g -> acyclic (directed g) -> DG g /\ acyclic (arc g).
Proof.
  intros g R Ac. assert (D := reachable_DG _ R). split; auto.
  apply (acyclic_ext _ (arc g) (directed_arc g D)). auto.
Qed.

(* ------------------------------------------------------------------ C13 *)
Theorem C13_dag2cpdag_skeleton_and_vstructures : forall g order, reachable KDiGraph g ->
  acyclic (directed g) -> set_orders g order ->
  exists g0 p c, new_graph KPDAG (nodes g) = Ok g0 /\
    cpdag_pattern g order g0 = (p, Ok tt) /\ dag2cpdag g order = Ok c /\
    (* the object before the Meek rules *)
    nodes p = nodes g /\
    (forall u v, u <> v -> (connected p u v <-> connected g u v)) /\
    (forall u w, directed p u w <-> exists v, vstruct (directed g) u w v) /\
    (forall u v, connected p u v -> undirected p u v \/ directed p u v \/ directed p v u) /\
    (* the result *)
    nodes c = nodes g /\
    (forall u v, u <> v -> (connected c u v <-> connected g u v)) /\
    (forall u w v, vstruct (directed g) u w v -> directed c u w /\ directed c v w) /\
    (forall u v, connected c u v -> undirected c u v \/ directed c u v \/ directed c v u).
Proof.
  intros g order R Ac Ho. destruct (reach_arc g R Ac) as [D Aa]. assert (W := dg_wf g D).
  destruct (dag2cpdag_ok g order D Aa Ho) as [g0 [p [c [n [E0 [E1 [P [E2 [E3 [O Cl]]]]]]]]]].
  assert (Wp := pg_wf _ (pt_pg _ _ _ P)). assert (Pc := osteps_PG _ _ _ _ (pt_pg _ _ _ P) O).
  assert (Wc := pg_wf _ Pc).
  exists g0, p, c. split; auto. split; auto. split; auto.
  assert (HA : forall u v, u <> v -> (adjacent (arc g) u v <-> connected g u v)).
  { intros u v N. rewrite connected_p by auto. split.
    - intros [H|H]; [|apply conp_sym; auto]; unfold conp; unfold arc in H; congruence.
    - intro C. apply arc_some; auto. }
  assert (HV : forall u w v, vstruct (directed g) u w v <-> vstruct (arc g) u w v).
  { intros. apply vstruct_ext. apply directed_arc. auto. }
  split; [apply (pt_nodes _ _ _ P)|].
  split; [intros u v N; rewrite connected_p by auto; rewrite (pt_con _ _ _ P); auto|].
  split.
  { intros u w. rewrite directed_p, (pt_dir _ _ _ P) by auto.
    split; intros [v V]; exists v; apply HV; auto. }
  split; [intros u v; rewrite connected_p, undirected_p, !directed_p by auto; apply (pt_und _ _ _ P)|].
  split; [unfold nodes; rewrite (osteps_nodes _ _ _ _ O); apply (pt_nodes _ _ _ P)|].
  split.
  { intros u v N. rewrite connected_p by auto. rewrite (osteps_con _ _ _ _ any_sound O), (pt_con _ _ _ P). auto. }
  split.
  { intros u w v V. rewrite !directed_p by auto. apply HV in V.
    split; apply (osteps_dirp _ _ _ _ any_sound O); apply (pt_dir _ _ _ P); [exists v; auto|exists u; apply vs_sym; auto]. }
  intros u v. rewrite connected_p, undirected_p, !directed_p by auto.
  apply (osteps_und_dir p n c (pt_pg _ _ _ P) O (pt_und _ _ _ P)).
Qed.
Print Assumptions C13_dag2cpdag_skeleton_and_vstructures.

(** The iteration order of the node list itself. *)
Definition list_order (g : graph) (u v k : nat) : list nat := filter (fun x => negb (memb x [u; v])) (nodes g).
Lemma list_order_ok : forall k g, reachable k g -> set_orders g (list_order g).
Proof.
  intros k g R u v i. split.
  - apply NoDup_filter. apply (wf_nodup g (reachable_WF _ _ R)).
  - intro x. unfold list_order. rewrite filter_In, negb_true_iff, memb_false. simpl. intuition.
Qed.

Definition get_ok (r : res graph) (d : graph) : graph := match r with Ok g => g | Err _ => d end.

(** 0 -> 2 <- 1, 2 -> 3 -> 4, 0 -> 4. *)
Example C13_example : acyclic (directed ex_dag) /\ set_orders ex_dag (list_order ex_dag) /\
  vstruct (directed ex_dag) 0 2 1 /\
  directed (get_ok (dag2cpdag ex_dag (list_order ex_dag)) ex_dag) 0 2 /\
  connected (get_ok (dag2cpdag ex_dag (list_order ex_dag)) ex_dag) 3 4.
Proof.
  split; [apply C09_aux; [apply ex_dag_reachable|vm_compute; reflexivity]|].
  split; [apply (list_order_ok _ _ ex_dag_reachable)|].
  split; [split; [vm_compute; reflexivity|]; split; [vm_compute; reflexivity|]; split; [discriminate|];
    intros [H|H]; vm_compute in H; discriminate|].
  split; vm_compute; reflexivity.
Qed.

(* ------------------------------------------------------------------ C14 *)
Theorem C14_dag2cpdag_equivalence_class : forall g1 g2 o1 o2,
  reachable KDiGraph g1 -> reachable KDiGraph g2 -> acyclic (directed g1) -> acyclic (directed g2) ->
  set_orders g1 o1 -> set_orders g2 o2 -> nodes g1 = nodes g2 ->
  markov_equiv (directed g1) (directed g2) ->
  exists c1 c2, dag2cpdag g1 o1 = Ok c1 /\ dag2cpdag g2 o2 = Ok c2 /\
    nodes c1 = nodes c2 /\ forall u v, get_edge c1 u v = get_edge c2 u v.
Proof.
  intros g1 g2 o1 o2 R1 R2 A1 A2 H1 H2 EN ME.
  destruct (reach_arc g1 R1 A1) as [D1 B1]. destruct (reach_arc g2 R2 A2) as [D2 B2].
  destruct (dag2cpdag_ok g1 o1 D1 B1 H1) as [a0 [p1 [c1 [n1 [_ [_ [P1 [M1 [F1 [O1 _]]]]]]]]]].
  destruct (dag2cpdag_ok g2 o2 D2 B2 H2) as [b0 [p2 [c2 [n2 [_ [_ [P2 [M2 [F2 [O2 _]]]]]]]]]].
  exists c1, c2. split; auto. split; auto.
  assert (ME' : markov_equiv (arc g1) (arc g2)).
  { destruct ME as [MA MV]. split.
    - intros u v. rewrite <- (adjacent_ext _ _ (directed_arc g1 D1)), <- (adjacent_ext _ _ (directed_arc g2 D2)). auto.
    - intros u w v. rewrite <- (vstruct_ext _ _ (directed_arc g1 D1)), <- (vstruct_ext _ _ (directed_arc g2 D2)). auto. }
  assert (G : geq p1 p2).
  { apply (pattern_geq (arc g1) (arc g2) (node_list g1)); auto.
    replace (node_list g1) with (node_list g2) by (symmetry; exact EN). auto. }
  destruct (respects_meek p1 p2 G) as [c1' [c2' [r [Q1 [Q2 Q3]]]]].
  rewrite M1 in Q1. rewrite M2 in Q2. inversion Q1; inversion Q2; subst c1' c2'.
  split; [apply (geq_nodes _ _ Q3)|].
  intros u v. apply get_edge_frame.
  - apply (geq_r _ _ Q3). - apply (geq_l _ _ Q3).
  - rewrite (geq_nodes _ _ Q3). tauto. - rewrite (geq_nodes _ _ Q3). tauto.
  - apply (geq_mk _ _ Q3). - apply (geq_mk _ _ Q3).
Qed.
Print Assumptions C14_dag2cpdag_equivalence_class.

(** 2 -> 1 -> 0 and 0 -> 1 -> 2 with the collider 1 -> 3 <- 4 are equivalent
    and different. *)
Definition ex_m1 : graph := build KDiGraph [0; 1; 2; 3; 4] [DEdge 0 1; DEdge 1 2; DEdge 1 3; DEdge 4 3].
Definition ex_m2 : graph := build KDiGraph [0; 1; 2; 3; 4] [DEdge 2 1; DEdge 1 0; DEdge 1 3; DEdge 4 3].
Lemma ex_m1_reachable : reachable KDiGraph ex_m1.
Proof. eapply build_reachable. reflexivity. Qed.
Lemma ex_m2_reachable : reachable KDiGraph ex_m2.
Proof. eapply build_reachable. reflexivity. Qed.

(** Decide Markov equivalence of two concrete graphs. *)
Definition okb (r : res bool) : bool := match r with Ok b => b | Err _ => false end.
Definition dirt (g : graph) (u v : nat) : bool := okb (is_fully_directed g u v).
Definition adjt (g : graph) (u v : nat) : bool := dirt g u v || dirt g v u.
Definition vst (g : graph) (u w v : nat) : bool :=
  dirt g u w && dirt g v w && negb (Nat.eqb u v) && negb (adjt g u v).
Definition equivb (g h : graph) : bool :=
  forallb (fun u => forallb (fun v => Bool.eqb (adjt g u v) (adjt h u v) &&
    forallb (fun w => Bool.eqb (vst g u w v) (vst h u w v)) (nodes g)) (nodes g)) (nodes g).

Lemma dirt_iff : forall g u v, dirt g u v = true <-> directed g u v.
Proof. intros. unfold dirt, okb, directed. destruct (is_fully_directed g u v) as [[|]|]; split; congruence. Qed.
Lemma adjt_iff : forall g u v, adjt g u v = true <-> adjacent (directed g) u v.
Proof. intros. unfold adjt, adjacent. rewrite orb_true_iff, !dirt_iff. tauto. Qed.
Lemma vst_iff : forall g u w v, vst g u w v = true <-> vstruct (directed g) u w v.
Proof.
  intros. unfold vst, vstruct. rewrite !andb_true_iff, !negb_true_iff, !dirt_iff, Nat.eqb_neq.
  rewrite <- adjt_iff. destruct (adjt g u v); intuition congruence.
Qed.
Lemma directed_in : forall k g u v, reachable k g -> directed g u v -> In u (nodes g) /\ In v (nodes g).
Proof.
  intros k g u v R D. assert (W := reachable_WF _ _ R). apply directed_p in D; auto. apply dirp_con in D.
  apply con_nodes; auto.
Qed.
Lemma equivb_ok : forall g h, reachable KDiGraph g -> reachable KDiGraph h -> nodes g = nodes h ->
  equivb g h = true -> markov_equiv (directed g) (directed h).
Proof.
  intros g h Rg Rh EN H. unfold equivb in H. rewrite forallb_forall in H.
  assert (HB : forall u v, In u (nodes g) -> In v (nodes g) -> adjt g u v = adjt h u v /\
    forall w, In w (nodes g) -> vst g u w v = vst h u w v).
  { intros u v Hu Hv. specialize (H u Hu). rewrite forallb_forall in H. specialize (H v Hv).
    apply andb_true_iff in H. destruct H as [H1 H2]. apply Bool.eqb_prop in H1. split; auto.
    intros w Hw. rewrite forallb_forall in H2. apply Bool.eqb_prop. auto. }
  split.
  - intros u v. rewrite <- !adjt_iff.
    assert (Q : adjt g u v = true \/ adjt h u v = true -> In u (nodes g) /\ In v (nodes g)).
    { rewrite !adjt_iff. intros [[A|A]|[A|A]].
      - eapply directed_in; eauto. - apply and_comm. eapply directed_in; eauto.
      - rewrite EN. eapply directed_in; eauto. - rewrite EN. apply and_comm. eapply directed_in; eauto. }
    split; intro A; destruct Q as [Hu Hv]; auto; destruct (HB u v Hu Hv); congruence.
  - intros u w v. rewrite <- !vst_iff.
    assert (Q : vst g u w v = true \/ vst h u w v = true -> In u (nodes g) /\ In v (nodes g) /\ In w (nodes g)).
    { rewrite !vst_iff. intros [[A [B _]]|[A [B _]]].
      - destruct (directed_in _ _ _ _ Rg A), (directed_in _ _ _ _ Rg B). auto.
      - rewrite EN. destruct (directed_in _ _ _ _ Rh A), (directed_in _ _ _ _ Rh B). auto. }
    split; intro A; destruct Q as [Hu [Hv Hw]]; auto; destruct (HB u v Hu Hv) as [_ Z]; specialize (Z w Hw); congruence.
Qed.

Example C14_example : markov_equiv (directed ex_m1) (directed ex_m2) /\
  acyclic (directed ex_m1) /\ acyclic (directed ex_m2) /\ directed ex_m1 0 1 /\ ~ directed ex_m2 0 1 /\
  directed (get_ok (dag2cpdag ex_m2 (list_order ex_m2)) ex_m2) 1 3 /\
  undirected (get_ok (dag2cpdag ex_m2 (list_order ex_m2)) ex_m2) 0 1.
Proof.
  split; [apply equivb_ok; [apply ex_m1_reachable|apply ex_m2_reachable|reflexivity|vm_compute; reflexivity]|].
  split; [apply C09_aux; [apply ex_m1_reachable|vm_compute; reflexivity]|].
  split; [apply C09_aux; [apply ex_m2_reachable|vm_compute; reflexivity]|].
  split; [vm_compute; reflexivity|]. split; [intro H; vm_compute in H; discriminate|].
  split; vm_compute; reflexivity.
Qed.

(* ------------------------------------------------------------------ C15 *)
Lemma compelled_ext : forall E F : nat -> nat -> Prop, (forall u v, E u v <-> F u v) ->
  forall u v, compelled E u v <-> compelled F u v.
Proof.
  intros E F H u v. unfold compelled, markov_equiv.
  split; intros C E' A [M1 M2]; apply C; auto; split; intros.
  - rewrite (adjacent_ext _ _ H). auto.
  - rewrite (vstruct_ext _ _ H). auto.
  - rewrite <- (adjacent_ext _ _ H). auto.
  - rewrite <- (vstruct_ext _ _ H). auto.
Qed.

(** The result is the essential graph as soon as none of its arrows is wrong:
    no compelled edge is ever left undirected. *)
Theorem C15_essential_iff_sound_partial : forall g order, reachable KDiGraph g ->
  acyclic (directed g) -> set_orders g order ->
  exists c, dag2cpdag g order = Ok c /\
    (essential c (directed g) <-> forall u v, u <> v -> directed c u v -> compelled (directed g) u v).
Proof.
  intros g order R Ac Ho. destruct (reach_arc g R Ac) as [D Aa]. assert (W := dg_wf g D).
  destruct (dag2cpdag_ok g order D Aa Ho) as [g0 [p [c [n [_ [_ [P [_ [E3 [O Cl]]]]]]]]]].
  assert (Pc := osteps_PG _ _ _ _ (pt_pg _ _ _ P) O). assert (Wc := pg_wf _ Pc).
  exists c. split; auto. split.
  - intros Es u v N Dc. destruct (Es u v N) as [_ [H _]]. apply H. auto.
  - intro S. assert (CE := compelled_ext _ _ (directed_arc g D)). assert (AE := adjacent_ext _ _ (directed_arc g D)).
    assert (S' : forall x y, dirp c x y -> compelled (arc g) x y).
    { intros x y Dx. assert (N : x <> y).
      { intros ->. apply dirp_con in Dx. rewrite (out_con _ _ _ _ _ P O) in Dx. destruct Dx as [Z|Z]; apply (dg_loop g D y); exact Z. }
      apply (proj1 (CE x y)). apply S; auto. apply (proj2 (directed_p c x y Wc)). exact Dx. }
    assert (DI := dirp_iff (arc g) (node_list g) (arc_dec g) (wf_nodup g W) (fun u v => arc_nodes g u v W) Aa p c n P O Cl S').
    assert (UI := undp_iff (arc g) (node_list g) (arc_dec g) (wf_nodup g W) (fun u v => arc_nodes g u v W) Aa p c n P O Cl S').
    assert (CI := out_con (arc g) (node_list g) p c n P O).
    intros u v N. rewrite connected_p, directed_p, undirected_p by auto. rewrite !CE, AE, CI.
    split; [tauto|]. split.
    + split; [intro H; assert (A : adjacent (arc g) u v) by (apply CI; apply dirp_con; auto); split; auto; apply DI; auto|].
      intros [A H]. apply DI; auto.
    + split; [intro H; assert (A : adjacent (arc g) u v) by (apply CI; apply undp_con; auto); split; auto; apply UI; auto|].
      intros [A H]. apply UI; auto.
Qed.
Print Assumptions C15_essential_iff_sound_partial.

(** The claim holds when no edge of the skeleton lies in two triangles. *)
Theorem C15_essential_partial : forall g order, reachable KDiGraph g ->
  acyclic (directed g) -> set_orders g order ->
  ~ edge_in_two_triangles (adjacent (directed g)) ->
  exists c, dag2cpdag g order = Ok c /\ essential c (directed g).
Proof.
  intros g order R Ac Ho K.
  destruct (C15_essential_iff_sound_partial g order R Ac Ho) as [c [E H]]. exists c. split; auto. apply H. clear H.
  destruct (reach_arc g R Ac) as [D Aa]. assert (W := dg_wf g D).
  destruct (dag2cpdag_ok g order D Aa Ho) as [g0 [p [c' [n [_ [_ [P [_ [E3 [O Cl]]]]]]]]]].
  rewrite E in E3. inversion E3; subst c'.
  assert (Wp := pg_wf _ (pt_pg _ _ _ P)). assert (Wc := pg_wf _ (osteps_PG _ _ _ _ (pt_pg _ _ _ P) O)).
  intros u v N Dc E' A' M'. apply directed_p in Dc; auto.
  assert (X : ext c E').
  { apply (ext_diamond_free p n c E' Wp O).
    - apply (pattern_ext (arc g) (node_list g) p E' P A'). destruct M' as [M1 M2].
      split; intros; [rewrite <- (adjacent_ext _ _ (directed_arc g D))|rewrite <- (vstruct_ext _ _ (directed_arc g D))]; auto.
    - intros [a [b [x [y Q]]]]. apply K. exists a, b, x, y. rewrite !(pt_con _ _ _ P) in Q.
      rewrite !(adjacent_ext _ _ (directed_arc g D)). auto. }
  destruct X as [_ [_ [X _]]]. auto.
Qed.
Print Assumptions C15_essential_partial.

(** It also holds for every DAG without v-structures (any chordal skeleton):
    everything is left undirected. *)
Theorem C15_essential_chordal_partial : forall g order, reachable KDiGraph g ->
  acyclic (directed g) -> set_orders g order ->
  (forall u w v, ~ vstruct (directed g) u w v) ->
  exists c, dag2cpdag g order = Ok c /\ essential c (directed g) /\ forall u v, ~ directed c u v.
Proof.
  intros g order R Ac Ho K.
  destruct (C15_essential_iff_sound_partial g order R Ac Ho) as [c [E H]]. exists c. split; auto.
  destruct (reach_arc g R Ac) as [D Aa].
  destruct (dag2cpdag_ok g order D Aa Ho) as [g0 [p [c' [n [_ [_ [P [_ [E3 [O Cl]]]]]]]]]].
  rewrite E in E3. inversion E3; subst c'. assert (Wc := pg_wf _ (osteps_PG _ _ _ _ (pt_pg _ _ _ P) O)).
  assert (ND : forall x y, ~ dirp c x y).
  { assert (Np : forall x y, ~ dirp p x y).
    { intros x y Dx. apply (pt_dir _ _ _ P) in Dx. destruct Dx as [z V]. apply (K x y z).
      apply (vstruct_ext _ _ (directed_arc g D)). auto. }
    clear - O Np. induction O as [h Q|m h a b h' O IH S Or].
    - intros x y Dx. apply (Np x y). apply (geq_dirp _ _ Q). auto.
    - exfalso. destruct S as [[u S]|[[v S]|[[v [x S]]|[u [v S]]]]].
      + apply (IH u a). tauto. + apply (IH a v). tauto. + apply (IH v b). tauto. + apply (IH v b). tauto. }
  split.
  - apply H. intros u v _ Dc. apply directed_p in Dc; auto. exfalso. eapply ND; eauto.
  - intros u v Dc. apply directed_p in Dc; auto. eapply ND; eauto.
Qed.
Print Assumptions C15_essential_chordal_partial.

(** Witness for rule4: the result has 2 -> 1 although 1 -> 2 in the DAG. *)
Definition ex_bad4 : graph := build KDiGraph [0; 1; 2; 3; 4; 5]
  [DEdge 5 0; DEdge 4 0; DEdge 0 1; DEdge 4 1; DEdge 1 2; DEdge 4 2; DEdge 2 3; DEdge 4 3].
(** Witness for rule3: the result has 4 -> 1 although 1 -> 4 in the DAG. *)
Definition ex_bad3 : graph := build KDiGraph [0; 1; 2; 3; 4; 5]
  [DEdge 5 0; DEdge 3 0; DEdge 2 0; DEdge 3 2; DEdge 0 1; DEdge 3 1; DEdge 2 1; DEdge 1 4; DEdge 3 4; DEdge 2 4].
Lemma ex_bad4_reachable : reachable KDiGraph ex_bad4.
Proof. eapply build_reachable. reflexivity. Qed.
Lemma ex_bad3_reachable : reachable KDiGraph ex_bad3.
Proof. eapply build_reachable. reflexivity. Qed.

Theorem C15_essential_refuted : exists g order c, reachable KDiGraph g /\ acyclic (directed g) /\
  set_orders g order /\ dag2cpdag g order = Ok c /\ ~ essential c (directed g) /\
  exists u v, directed g u v /\ directed c v u.
Proof.
  exists ex_bad4, (list_order ex_bad4), (get_ok (dag2cpdag ex_bad4 (list_order ex_bad4)) ex_bad4).
  split; [apply ex_bad4_reachable|].
  assert (Ac : acyclic (directed ex_bad4)) by (apply C09_aux; [apply ex_bad4_reachable|vm_compute; reflexivity]).
  split; auto. split; [apply (list_order_ok _ _ ex_bad4_reachable)|].
  assert (H1 : directed ex_bad4 1 2) by (vm_compute; reflexivity).
  assert (H2 : directed (get_ok (dag2cpdag ex_bad4 (list_order ex_bad4)) ex_bad4) 2 1) by (vm_compute; reflexivity).
  split; [vm_compute; reflexivity|]. split; [|eauto].
  intro Es. destruct (Es 2 1 ltac:(discriminate)) as [_ [Q _]]. apply Q in H2. destruct H2 as [_ C].
  assert (C' := C (directed ex_bad4) Ac (self_equiv _)). apply (directed_asym ex_bad4 ex_bad4_reachable _ _ H1 C').
Qed.
Print Assumptions C15_essential_refuted.

Theorem C15_rule3_misfire_refuted : exists g order c, reachable KDiGraph g /\ acyclic (directed g) /\
  set_orders g order /\ dag2cpdag g order = Ok c /\ directed g 1 4 /\ directed c 4 1.
Proof.
  exists ex_bad3, (list_order ex_bad3), (get_ok (dag2cpdag ex_bad3 (list_order ex_bad3)) ex_bad3).
  split; [apply ex_bad3_reachable|].
  split; [apply C09_aux; [apply ex_bad3_reachable|vm_compute; reflexivity]|].
  split; [apply (list_order_ok _ _ ex_bad3_reachable)|].
  split; [vm_compute; reflexivity|]. split; vm_compute; reflexivity.
Qed.
Print Assumptions C15_rule3_misfire_refuted.

(** ex_dag has compelled and reversible edges and no edge in two triangles. *)
Example C15_example : ~ edge_in_two_triangles (adjacent (directed ex_m1)) /\
  vstruct (directed ex_m1) 1 3 4 /\ acyclic (directed ex_m1).
Proof.
  split.
  { intros [a [b [c [d [N1 [N2 [N3 [N4 [N5 [N6 [A1 [A2 [A3 [A4 A5]]]]]]]]]]]]]].
    assert (HN : forall x y, adjacent (directed ex_m1) x y -> In x [0; 1; 2; 3; 4] /\ In y [0; 1; 2; 3; 4]).
    { intros x y [Q|Q]; apply (directed_in _ _ _ _ ex_m1_reachable) in Q; tauto. }
    destruct (HN _ _ A1) as [Ha Hb]. destruct (HN _ _ A2) as [_ Hc].
    assert (HB : forall x y z, In x [0;1;2;3;4] -> In y [0;1;2;3;4] -> In z [0;1;2;3;4] ->
      adjt ex_m1 x y && adjt ex_m1 x z && adjt ex_m1 y z = true -> False).
    { intros x y z Hx Hy Hz T.
      assert (Q : forallb (fun x => forallb (fun y => forallb (fun z =>
        negb (adjt ex_m1 x y && adjt ex_m1 x z && adjt ex_m1 y z)) [0;1;2;3;4]) [0;1;2;3;4]) [0;1;2;3;4] = true)
        by (vm_compute; reflexivity).
      rewrite forallb_forall in Q. specialize (Q x Hx). rewrite forallb_forall in Q. specialize (Q y Hy).
      rewrite forallb_forall in Q. specialize (Q z Hz). rewrite T in Q. discriminate. }
    apply (HB a b c Ha Hb Hc). rewrite !andb_true_iff, !adjt_iff. auto. }
  split; [apply vst_iff; vm_compute; reflexivity|].
  apply C09_aux; [apply ex_m1_reachable|vm_compute; reflexivity].
Qed.
