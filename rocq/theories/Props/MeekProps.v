(** C16-C17: Meek's orientation rules. *)

From Coq Require Import List Arith Bool Lia.
From Verif Require Import Model.Py Model.Graph Model.DiGraph Model.PDAG Spec.API Spec.Digraphs Spec.PDAGs.
From Verif Require Import Proofs.PyFacts Proofs.GraphFacts Proofs.HistoryFacts Proofs.FrameFacts Proofs.DagFacts
  Proofs.PDAGFacts Proofs.MeekFacts.
From Verif Require Import Props.Examples.
Import ListNotations.

(* ------------------------------------------------------------------ C16 *)
(** The situations in which the four rules fire, read off a graph object. *)
Definition rule1_applies (g : graph) : Prop := exists u v w,
  u <> v /\ u <> w /\ v <> w /\ directed g u v /\ undirected g v w /\ ~ connected g u w.
Definition rule2_applies (g : graph) : Prop := exists u v w,
  u <> v /\ u <> w /\ v <> w /\ directed g u v /\ directed g v w /\ undirected g u w.
Definition rule3_applies (g : graph) : Prop := exists u v w x,
  NoDup [u; v; w; x] /\ undirected g u w /\ undirected g u v /\ directed g v w /\
  undirected g u x /\ directed g x w.
Definition rule4_applies (g : graph) : Prop := exists u v w x,
  NoDup [u; v; w; x] /\ ~ connected g u w /\ undirected g u v /\ directed g v w /\
  undirected g u x /\ undirected g x w /\ connected g v x.

Lemma NoDup4 : forall u v w x : nat, NoDup [u; v; w; x] <->
  (u <> v /\ u <> w /\ u <> x /\ v <> w /\ v <> x /\ w <> x).
Proof.
  intros. split.
  - intro H. inversion_clear H as [|? ? A B]. inversion_clear B as [|? ? C D]. inversion_clear D as [|? ? E F].
    simpl in *. repeat split; intro; subst; tauto.
  - intros. repeat constructor; simpl; intuition.
Qed.

Theorem C16_meek_terminates_and_closes : forall g, reachable KPDAG g ->
  exists g', orient_by_meek_rules g = (g', Ok tt) /\
    nodes g' = nodes g /\
    (forall u v, connected g' u v <-> connected g u v) /\
    (forall u v, ~ undirected g u v ->
       is_tail g' u v = is_tail g u v /\ is_arrow g' u v = is_arrow g u v) /\
    (forall u v, undirected g' u v -> undirected g u v) /\
    (forall u v, undirected g u v -> undirected g' u v \/ directed g' u v \/ directed g' v u) /\
    ~ rule1_applies g' /\ ~ rule2_applies g' /\ ~ rule3_applies g' /\ ~ rule4_applies g'.
Proof.
  intros g R. assert (P := reachable_PG _ R). assert (W := pg_wf g P).
  destruct (meek_ok g P) as [g' [n [E [O N]]]]. assert (P' := osteps_PG _ _ _ _ P O). assert (W' := pg_wf g' P').
  exists g'. split; auto. split; [apply (osteps_nodes _ _ _ _ O)|].
  assert (HC := osteps_con _ _ _ _ any_sound O).
  split; [intros u v; rewrite !connected_p by auto; auto|].
  split.
  { intros u v U. rewrite undirected_p in U by auto.
    assert (EQ : mk g' u v = mk g u v).
    { destruct (mk g u v) as [m|] eqn:M.
      - rewrite <- M. apply (osteps_keep _ _ _ _ any_sound O u v).
        assert (C : conp g v u) by (apply conp_sym; auto; unfold conp; congruence).
        destruct (mk g v u) as [m'|] eqn:M'; [|exfalso; apply C; auto].
        pose proof (pg_tab g P u v m M) as T1. pose proof (pg_tab g P v u m' M') as T2.
        destruct T1 as [->| ->]; [|auto]. destruct T2 as [->| ->]; [|auto]. exfalso. apply U. split; auto.
      - destruct (mk g' u v) eqn:M'; auto. exfalso.
        assert (C : conp g' u v) by (unfold conp; congruence). apply HC in C. auto. }
    unfold is_tail, is_arrow.
    destruct (in_dec Nat.eq_dec u (node_list g)) as [Hu|Hu]; [destruct (in_dec Nat.eq_dec v (node_list g)) as [Hv|Hv]|].
    - rewrite !is_mark_ok by (rewrite ?(osteps_nodes _ _ _ _ O); auto). unfold markb. rewrite EQ. auto.
    - unfold is_mark, is_connected. rewrite (check_ok g u), (check_ok g' u), (check_err g v), (check_err g' v);
        rewrite ?(osteps_nodes _ _ _ _ O); auto.
    - unfold is_mark, is_connected. rewrite (check_err g u), (check_err g' u);
        rewrite ?(osteps_nodes _ _ _ _ O); auto. }
  split; [intros u v; rewrite !undirected_p by auto; apply (osteps_undp _ _ _ _ any_sound O)|].
  split.
  { intros u v. rewrite !undirected_p, !directed_p by auto. intro U.
    assert (C := proj2 (HC u v) (undp_con _ _ _ U)). assert (C' := conp_sym _ _ _ W' C).
    pose proof (pg_tab g' P' u v) as T1. pose proof (pg_tab g' P' v u) as T2.
    unfold undp, dirp. clear - C C' T1 T2 U O W P.
    revert U C C' T1 T2. induction O as [h Q|n h a b h' O IH S Or]; intros U C C' T1 T2.
    - left. destruct U. rewrite <- !(geq_mk _ _ Q). auto.
    - destruct (any_sound _ _ _ S) as [Ua N].
      assert (P1 := osteps_PG _ _ _ _ P O).
      destruct IH as [IH|IH]; auto.
      1,2: apply (orients_con _ _ _ _ Or (undp_con _ _ _ Ua) (undp_con _ _ _ (undp_sym _ _ _ Ua))); auto.
      1,2: apply (pg_tab h P1).
      + destruct (pair_cases a b u v) as [[-> ->]|[[-> ->]|[H1 H2]]].
        * right. left. apply (orients_dir _ _ _ _ Or N).
        * right. right. apply (orients_dir _ _ _ _ Or N).
        * left. apply (orients_undp_other _ _ _ _ Or); auto.
      + right. destruct IH as [IH|IH]; [left|right]; apply (orients_dirp _ _ _ _ Or Ua); auto. }
  split; [|split; [|split]].
  - intros [u [v [w [N1 [N2 [N3 [D [U C]]]]]]]]. rewrite directed_p, undirected_p, connected_p in * by auto.
    apply (N v w). left. exists u. auto 10.
  - intros [u [v [w [N1 [N2 [N3 [D [D' U]]]]]]]]. rewrite !directed_p, undirected_p in * by auto.
    apply (N u w). right. left. exists v. auto 10.
  - intros [u [v [w [x [ND [U1 [U2 [D1 [U3 D2]]]]]]]]]. rewrite !directed_p, !undirected_p in * by auto.
    apply NoDup4 in ND. apply (N u w). right. right. left. exists v, x. intuition.
  - intros [u [v [w [x [ND [C [U2 [D1 [U3 [U4 C2]]]]]]]]]]. rewrite !directed_p, !undirected_p, !connected_p in * by auto.
    apply NoDup4 in ND. apply (N x w). right. right. right. exists u, v. intuition.
Qed.
Print Assumptions C16_meek_terminates_and_closes.

(** The loop bound of the model is not what stops it: every larger bound gives
    the same object. *)
Theorem C16_meek_fuel_irrelevant : forall g fuel, reachable KPDAG g ->
  length (comb2 (nodes g)) < fuel -> meek_loop fuel g = orient_by_meek_rules g.
Proof.
  intros g fuel R L. destruct (meek_ok g (reachable_PG _ R)) as [g' [n [E _]]]. rewrite E.
  eapply meek_loop_more; [exact E|]. exact L.
Qed.
Print Assumptions C16_meek_fuel_irrelevant.

(** 0 -> 1 - 2 - 3 with 3 - 4: the arrow travels down the chain. *)
Definition ex_chain : graph :=
  build KPDAG [0; 1; 2; 3; 4] [Edge 0 1 Tail Arrow; Edge 1 2 Tail Tail; Edge 3 2 Tail Tail; Edge 3 4 Tail Tail].
Lemma ex_chain_reachable : reachable KPDAG ex_chain.
Proof. eapply build_reachable. reflexivity. Qed.
Example C16_example :
  directed (fst (orient_by_meek_rules ex_chain)) 3 4 /\ undirected ex_chain 3 4 /\
  snd (orient_by_meek_rules ex_chain) = Ok tt /\ rule1_applies ex_chain.
Proof.
  split; [vm_compute; reflexivity|]. split; [vm_compute; reflexivity|]. split; [vm_compute; reflexivity|].
  exists 0, 1, 2. repeat split; try discriminate; vm_compute; try reflexivity.
Qed.

(* ------------------------------------------------------------------ C17 *)
Theorem C17_rule1_sound : forall g E, reachable KPDAG g -> extension g E ->
  exists g' ch, rule1 g = (g', Ok ch) /\ extension g' E.
Proof.
  intros g E R X. assert (P := reachable_PG _ R). destruct (rule1_spec g P) as [g' [ch [n [Er [O _]]]]].
  exists g', ch. split; auto. apply extension_ext in X; [|apply (pg_wf g P)].
  apply extension_ext; [apply (pg_wf g' (osteps_PG _ _ _ _ P O))|].
  apply (ext_osteps step1 g n g' E step1_sound); auto. intros. eapply step1_compelled; eauto.
Qed.
Print Assumptions C17_rule1_sound.

Theorem C17_rule2_sound : forall g E, reachable KPDAG g -> extension g E ->
  exists g' ch, rule2 g = (g', Ok ch) /\ extension g' E.
Proof.
  intros g E R X. assert (P := reachable_PG _ R). destruct (rule2_spec g P) as [g' [ch [n [Er [O _]]]]].
  exists g', ch. split; auto. apply extension_ext in X; [|apply (pg_wf g P)].
  apply extension_ext; [apply (pg_wf g' (osteps_PG _ _ _ _ P O))|].
  apply (ext_osteps step2 g n g' E step2_sound); auto. intros. eapply step2_compelled; eauto.
Qed.
Print Assumptions C17_rule2_sound.

(** Without four mutually connected nodes the test that rule3 omits is always
    satisfied. *)
Theorem C17_rule3_sound_partial : forall g E, reachable KPDAG g -> extension g E -> ~ has_k4 g ->
  exists g' ch, rule3 g = (g', Ok ch) /\ extension g' E.
Proof.
  intros g E R X K. assert (P := reachable_PG _ R). assert (W := pg_wf g P).
  destruct (rule3_spec g P) as [g' [ch [n [Er [O _]]]]].
  exists g', ch. split; auto. apply extension_ext in X; [|auto].
  apply extension_ext; [apply (pg_wf g' (osteps_PG _ _ _ _ P O))|].
  apply (ext_osteps step3 g n g' E step3_sound); auto. intros g1 a b X1 C [v [x H]].
  apply (step3n_compelled g1 E a b X1). exists v, x.
  destruct H as [N1 [N2 [N3 [N4 [N5 [N6 [U1 [U2 [D1 [U3 D2]]]]]]]]]].
  repeat (split; [assumption|]). intro Cvx. apply K. exists a, b, v, x.
  rewrite !connected_p by auto.
  apply undp_con in U1, U2, U3. apply dirp_con in D1, D2. rewrite C in *.
  repeat (split; [solve [auto]|]). split; [apply conp_sym; auto|]. split; [apply conp_sym; auto|auto].
Qed.
Print Assumptions C17_rule3_sound_partial.

(** On skeletons in which no edge lies in two triangles rule4 never fires, and
    the whole Meek loop keeps every consistent extension. *)
Theorem C17_meek_sound_partial : forall g E, reachable KPDAG g -> extension g E ->
  ~ edge_in_two_triangles (connected g) ->
  exists g', orient_by_meek_rules g = (g', Ok tt) /\ extension g' E.
Proof.
  intros g E R X K. assert (P := reachable_PG _ R). assert (W := pg_wf g P).
  destruct (meek_ok g P) as [g' [n [Er [O _]]]].
  exists g'. split; auto. apply extension_ext in X; [|auto].
  apply extension_ext; [apply (pg_wf g' (osteps_PG _ _ _ _ P O))|].
  apply (ext_diamond_free g n g' E); auto. intros [p [q [r [s H]]]]. apply K. exists p, q, r, s.
  rewrite !connected_p by auto. auto.
Qed.
Print Assumptions C17_meek_sound_partial.

(** rule3 without its non-adjacency test: v -> w <- x, u joined to all, v - x.
    The complete DAG v -> x -> w -> u is a consistent extension but the rule
    writes u -> w. *)
Definition ex_r3 : graph := build KPDAG [0; 1; 2; 3]
  [Edge 1 2 Tail Arrow; Edge 3 2 Tail Arrow; Edge 0 1 Tail Tail; Edge 0 2 Tail Tail;
   Edge 0 3 Tail Tail; Edge 1 3 Tail Tail].
Definition ex_r3_dag : graph := build KDiGraph [0; 1; 2; 3]
  [DEdge 1 3; DEdge 1 2; DEdge 3 2; DEdge 2 0; DEdge 1 0; DEdge 3 0].
Lemma ex_r3_reachable : reachable KPDAG ex_r3.
Proof. eapply build_reachable. reflexivity. Qed.
Lemma ex_r3_dag_reachable : reachable KDiGraph ex_r3_dag.
Proof. eapply build_reachable. reflexivity. Qed.

(** rule4: u - v -> w, u - x - w, v - x; the DAG v -> w -> x -> u. *)
Definition ex_r4 : graph := build KPDAG [0; 1; 2; 3]
  [Edge 0 1 Tail Tail; Edge 1 2 Tail Arrow; Edge 0 3 Tail Tail; Edge 3 2 Tail Tail; Edge 1 3 Tail Tail].
Definition ex_r4_dag : graph := build KDiGraph [0; 1; 2; 3]
  [DEdge 1 2; DEdge 2 3; DEdge 3 0; DEdge 1 3; DEdge 1 0].
Lemma ex_r4_reachable : reachable KPDAG ex_r4.
Proof. eapply build_reachable. reflexivity. Qed.
Lemma ex_r4_dag_reachable : reachable KDiGraph ex_r4_dag.
Proof. eapply build_reachable. reflexivity. Qed.

(** A decision procedure for [extension] on concrete graphs. *)
Definition okb (r : res bool) : bool := match r with Ok b => b | Err _ => false end.
Definition adjb (d : graph) (u v : nat) : bool := okb (is_fully_directed d u v) || okb (is_fully_directed d v u).
Definition extb (p d : graph) : bool :=
  okb (is_acyclic d) &&
  forallb (fun u => forallb (fun v => Nat.eqb u v ||
    (Bool.eqb (okb (is_connected p u v)) (adjb d u v) &&
     (negb (okb (is_fully_directed p u v)) || okb (is_fully_directed d u v)) &&
     (adjb d u v ||
      forallb (fun w => negb (okb (is_fully_directed d u w) && okb (is_fully_directed d v w)) ||
        (okb (is_fully_directed p u w) && okb (is_fully_directed p v w))) (nodes p)))) (nodes p)) (nodes p).

Lemma okb_true : forall r, okb r = true <-> r = Ok true.
Proof. intros [[|]|]; simpl; split; congruence. Qed.

Lemma directed_nodes : forall k g u v, reachable k g -> directed g u v -> In u (nodes g) /\ In v (nodes g).
Proof.
  intros k g u v R D. assert (W := reachable_WF _ _ R). apply directed_p in D; auto. apply dirp_con in D.
  apply con_nodes; auto.
Qed.
Lemma connected_nodes : forall k g u v, reachable k g -> connected g u v -> In u (nodes g) /\ In v (nodes g).
Proof.
  intros k g u v R D. assert (W := reachable_WF _ _ R). apply connected_p in D; auto. apply con_nodes; auto.
Qed.

Lemma adjb_iff : forall d u v, adjb d u v = true <-> adjacent (directed d) u v.
Proof. intros. unfold adjb, adjacent, directed. rewrite orb_true_iff, !okb_true. tauto. Qed.

Lemma extb_ok : forall p d, reachable KPDAG p -> reachable KDiGraph d -> nodes p = nodes d ->
  extb p d = true -> extension p (directed d).
Proof.
  intros p d Rp Rd EN H. unfold extb in H. apply andb_true_iff in H. destruct H as [Ha H]. rewrite okb_true in Ha.
  assert (HB : forall u v, In u (nodes p) -> In v (nodes p) -> u <> v ->
    (connected p u v <-> adjacent (directed d) u v) /\ (directed p u v -> directed d u v) /\
    (~ adjacent (directed d) u v -> forall w, In w (nodes p) -> directed d u w -> directed d v w ->
      directed p u w /\ directed p v w)).
  { intros u v Hu Hv N. rewrite forallb_forall in H. specialize (H u Hu). rewrite forallb_forall in H.
    specialize (H v Hv). apply orb_true_iff in H. destruct H as [H|H]; [apply Nat.eqb_eq in H; congruence|].
    apply andb_true_iff in H. destruct H as [H H3]. apply andb_true_iff in H. destruct H as [H1 H2].
    apply Bool.eqb_prop in H1. split; [|split].
    - unfold connected. rewrite <- okb_true, H1. apply adjb_iff.
    - intro D. apply orb_true_iff in H2. destruct H2 as [H2|H2].
      + apply negb_true_iff in H2. unfold directed in D. rewrite <- okb_true in D. congruence.
      + apply okb_true in H2. exact H2.
    - intros A w Hw Du Dv. apply orb_true_iff in H3. destruct H3 as [H3|H3]; [apply adjb_iff in H3; tauto|].
      rewrite forallb_forall in H3. specialize (H3 w Hw). unfold directed in *. rewrite <- okb_true in Du, Dv.
      rewrite Du, Dv in H3. simpl in H3. apply andb_true_iff in H3. rewrite !okb_true in H3. auto. }
  split; [apply C09_aux; auto|]. split; [|split].
  - intros u v N. split.
    + intro C. destruct (connected_nodes _ _ _ _ Rp C). apply (HB u v); auto.
    + intro A. assert (In u (nodes p) /\ In v (nodes p)).
      { rewrite EN. destruct A as [A|A]; destruct (directed_nodes _ _ _ _ Rd A); auto. }
      apply (HB u v); tauto.
  - intros u v N D. destruct (directed_nodes _ _ _ _ Rp D). apply (HB u v); auto.
  - intros u w v [D1 [D2 [N A]]]. destruct (directed_nodes _ _ _ _ Rd D1). destruct (directed_nodes _ _ _ _ Rd D2).
    rewrite <- EN in *. apply (HB u v); auto.
Qed.

Theorem C17_rule3_refuted : exists g E g' ch, reachable KPDAG g /\ extension g E /\
  rule3 g = (g', Ok ch) /\ ~ extension g' E.
Proof.
  exists ex_r3, (directed ex_r3_dag), (fst (rule3 ex_r3)), true.
  split; [apply ex_r3_reachable|]. split.
  { apply extb_ok; [apply ex_r3_reachable|apply ex_r3_dag_reachable|reflexivity|vm_compute; reflexivity]. }
  split; [vm_compute; reflexivity|].
  intros [_ [_ [H _]]]. specialize (H 0 2 ltac:(discriminate)).
  assert (D : directed (fst (rule3 ex_r3)) 0 2) by (vm_compute; reflexivity). apply H in D. vm_compute in D. discriminate.
Qed.
Print Assumptions C17_rule3_refuted.

Theorem C17_rule4_refuted : exists g E g' ch, reachable KPDAG g /\ extension g E /\
  rule4 g = (g', Ok ch) /\ ~ extension g' E.
Proof.
  exists ex_r4, (directed ex_r4_dag), (fst (rule4 ex_r4)), true.
  split; [apply ex_r4_reachable|]. split.
  { apply extb_ok; [apply ex_r4_reachable|apply ex_r4_dag_reachable|reflexivity|vm_compute; reflexivity]. }
  split; [vm_compute; reflexivity|].
  intros [_ [_ [H _]]]. specialize (H 3 2 ltac:(discriminate)).
  assert (D : directed (fst (rule4 ex_r4)) 3 2) by (vm_compute; reflexivity). apply H in D. vm_compute in D. discriminate.
Qed.
Print Assumptions C17_rule4_refuted.

(** The chain has the extension 0 -> 1 -> 2 -> 3 -> 4. *)
Definition ex_chain_dag : graph := build KDiGraph [0; 1; 2; 3; 4] [DEdge 0 1; DEdge 1 2; DEdge 2 3; DEdge 3 4].
Lemma ex_chain_dag_reachable : reachable KDiGraph ex_chain_dag.
Proof. eapply build_reachable. reflexivity. Qed.
Example C17_example : extension ex_chain (directed ex_chain_dag) /\
  undirected ex_chain 1 2 /\ directed (fst (rule1 ex_chain)) 1 2.
Proof.
  split; [apply extb_ok; [apply ex_chain_reachable|apply ex_chain_dag_reachable|reflexivity|vm_compute; reflexivity]|].
  split; vm_compute; reflexivity.
Qed.

(** rule2: 0 -> 1 -> 2, 0 - 2. *)
Definition ex_r2 : graph := build KPDAG [0; 1; 2] [Edge 0 1 Tail Arrow; Edge 1 2 Tail Arrow; Edge 0 2 Tail Tail].
Definition ex_r2_dag : graph := build KDiGraph [0; 1; 2] [DEdge 0 1; DEdge 1 2; DEdge 0 2].
(** rule3 with non-adjacent 1, 3: 1 -> 2 <- 3, 0 joined to all. *)
Definition ex_r3ok : graph := build KPDAG [0; 1; 2; 3]
  [Edge 1 2 Tail Arrow; Edge 3 2 Tail Arrow; Edge 0 1 Tail Tail; Edge 0 2 Tail Tail; Edge 0 3 Tail Tail].
Definition ex_r3ok_dag : graph := build KDiGraph [0; 1; 2; 3]
  [DEdge 1 2; DEdge 3 2; DEdge 0 1; DEdge 0 2; DEdge 0 3].
Example C17_example2 : extension ex_r2 (directed ex_r2_dag) /\ directed (fst (rule2 ex_r2)) 0 2 /\
  extension ex_r3ok (directed ex_r3ok_dag) /\ directed (fst (rule3 ex_r3ok)) 0 2 /\ undirected ex_r3ok 0 2.
Proof.
  split; [apply extb_ok; [eapply build_reachable; reflexivity|eapply build_reachable; reflexivity|reflexivity|vm_compute; reflexivity]|].
  split; [vm_compute; reflexivity|].
  split; [apply extb_ok; [eapply build_reachable; reflexivity|eapply build_reachable; reflexivity|reflexivity|vm_compute; reflexivity]|].
  split; vm_compute; reflexivity.
Qed.
