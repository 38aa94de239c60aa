(** C62 and the second half of C32: converting a DAG to a PDAG and back, and a
    score on which the greedy equivalence search never returns. *)

From Coq Require Import List Arith Bool Lia ZArith QArith.
From Verif Require Import Model.Py Model.Graph Model.DiGraph Model.PDAG Model.Pdag2Dag Model.GES.
From Verif Require Import Spec.API Spec.Digraphs Spec.PDAGs Spec.GESSpec Spec.Totals.
From Verif Require Import Proofs.PyFacts Proofs.GraphFacts Proofs.DiGraphFacts Proofs.RelExt Proofs.HistoryFacts
  Proofs.DSepTheory Proofs.DagFacts Proofs.PDAGFacts Proofs.MeekComplete Proofs.MeekFacts Proofs.CpdagFacts Proofs.Pdag2DagFacts Proofs.GESScan Proofs.GESFit Proofs.GESDiverge Proofs.TotalFacts.
From Verif Require Import Props.Examples Props.CpdagProps Props.Pdag2DagProps Props.GESProps.
Import ListNotations.
Open Scope nat_scope.

(* ------------------------------------------------------------------ C62 *)
(** The arrows of [c] contradict no arrow of [g]. *)
Definition agrees (c g : graph) : Prop := forall u v, directed c u v -> ~ directed g v u.

Lemma cpdag_out : forall g order, reachable KDiGraph g -> acyclic (directed g) -> set_orders g order ->
  exists c, dag2cpdag g order = Ok c /\ PG c /\ node_list c = nodes g /\
    (forall u v, conp c u v <-> adjacent (directed g) u v) /\ (forall u, ~ conp c u u) /\
    (forall u v, conp c u v -> dirp c u v \/ dirp c v u \/ undp c u v) /\
    (forall u w v, vstruct (directed g) u w v -> dirp c u w /\ dirp c v w).
Proof.
  intros g order R Ac Ho. destruct (reach_arc g R Ac) as [D Aa].
  destruct (dag2cpdag_ok g order D Aa Ho) as [g0 [p [c [n [_ [_ [P [_ [E3 [O Cl]]]]]]]]]].
  exists c. split; auto. assert (Pc := osteps_PG _ _ _ _ (pt_pg _ _ _ P) O). split; auto.
  split; [rewrite (osteps_nodes _ _ _ _ O); apply (pt_nodes _ _ _ P)|].
  assert (CI : forall u v, conp c u v <-> adjacent (directed g) u v).
  { intros u v. rewrite (adjacent_ext _ _ (directed_arc g D)). apply (out_con (arc g) (node_list g) p c n P O). }
  split; auto. split.
  { intros u C. apply CI in C. apply (Ac u). destruct C; apply dp1_intro with u; auto; apply dp_refl. }
  split.
  { intros u v C. destruct (osteps_und_dir p n c (pt_pg _ _ _ P) O (pt_und _ _ _ P) u v C); tauto. }
  intros u w v V. apply (vstruct_ext _ _ (directed_arc g D)) in V.
  split; apply (osteps_dirp _ _ _ _ any_sound O); apply (pt_dir _ _ _ P); [exists v; auto|exists u; apply vs_sym; auto].
Qed.

(** The round trip DAG -> PDAG -> DAG returns, and returns an equivalent DAG, as
    long as dag2cpdag reversed no arrow. *)
Theorem C62_round_trip_partial : forall g order, reachable KDiGraph g -> acyclic (directed g) -> set_orders g order ->
  exists c, dag2cpdag g order = Ok c /\
    (agrees c g -> forall fuel, length (nodes g) <= fuel -> exists d, pdag2dag fuel c = Ok d /\
       reachable KDiGraph d /\ nodes d = nodes g /\ acyclic (directed d) /\ markov_equiv (directed g) (directed d)).
Proof.
  intros g order R Ac Ho. destruct (cpdag_out g order R Ac Ho) as [c [E [P [Nd [CI [NL [NB V]]]]]]].
  exists c. split; auto. intros Ag fuel Hf. assert (W := pg_wf c P).
  assert (Dir : forall u v, dirp c u v -> directed g u v).
  { intros u v Dc. assert (C := dirp_con _ _ _ Dc). apply CI in C. destruct C as [C|C]; auto.
    exfalso. apply (Ag u v); auto. apply directed_p; auto. }
  destruct (pdag2dag_complete c P NL NB) with (fuel := fuel) as [d [Ed [Rd [Ndd [C [Acd [Dd Vd]]]]]]].
  - exists (directed g). split; auto. split; [|split].
    + intros u v _. rewrite connected_p by auto. apply CI.
    + intros u v _ H. apply Dir. apply directed_p in H; auto.
    + intros u w v H. rewrite !directed_p by auto. auto.
  - rewrite Nd. exact Hf.
  - exists d. split; auto. split; auto. split; [unfold nodes at 1; congruence|].
    assert (DGd := reachable_DG d Rd). assert (Wd := dg_wf d DGd).
    assert (DE : forall u v, directed d u v <-> dirp d u v) by (intros; apply directed_p; auto).
    split; [apply (acyclic_ext _ _ DE); auto|].
    assert (Adj : forall u v, adjacent (directed g) u v <-> adjacent (directed d) u v).
    { clear - CI C DGd NL. intros u v. rewrite <- CI, <- C. unfold adjacent. rewrite !directed_arc by auto.
      destruct (Nat.eq_dec u v) as [->|Ne].
      - split; intro H; exfalso.
        + apply (NL v). apply C. auto.
        + apply (dg_loop d DGd v). destruct H; auto.
      - symmetry. apply (adjacent_mk d DGd u v Ne). }
    split; auto. intros u w v. split.
    + intros [A1 [A2 [N A3]]]. destruct (V u w v) as [V1 V2]; [split; auto|].
      split; [apply DE, Dd, V1|]. split; [apply DE, Dd, V2|]. split; auto. rewrite <- Adj. auto.
    + intros H. assert (H' := proj1 (vstruct_ext _ _ DE u w v) H). destruct (Vd u w v H') as [V1 V2].
      destruct H as [_ [_ [N A3]]]. split; [auto|]. split; [auto|]. split; auto. rewrite Adj. auto.
Qed.
Print Assumptions C62_round_trip_partial.

(** In particular when no edge of the skeleton lies in two triangles. *)
Theorem C62_round_trip_triangles_partial : forall g order, reachable KDiGraph g -> acyclic (directed g) -> set_orders g order ->
  ~ edge_in_two_triangles (adjacent (directed g)) -> forall fuel, length (nodes g) <= fuel ->
  exists c d, dag2cpdag g order = Ok c /\ pdag2dag fuel c = Ok d /\
    reachable KDiGraph d /\ nodes d = nodes g /\ acyclic (directed d) /\ markov_equiv (directed g) (directed d).
Proof.
  intros g order R Ac Ho K fuel Hf. destruct (C62_round_trip_partial g order R Ac Ho) as [c [E H]].
  destruct (C15_essential_partial g order R Ac Ho K) as [c' [E' Es]]. assert (c' = c) by congruence. subst c'.
  destruct H with (fuel := fuel) as [d X]; auto.
  - intros u v Dc Dg. destruct (Nat.eq_dec u v) as [->|Ne].
    + apply (Ac v). apply dp1_intro with v; auto. apply dp_refl.
    + destruct (Es u v Ne) as [_ [Q _]]. apply Q in Dc. destruct Dc as [_ Co].
      assert (G := Co (directed g) Ac (self_equiv _)). apply (directed_asym g R _ _ G Dg).
  - exists c, d. split; auto.
Qed.
Print Assumptions C62_round_trip_triangles_partial.

Example C62_example : acyclic (directed ex_m1) /\ set_orders ex_m1 (list_order ex_m1) /\
  ~ edge_in_two_triangles (adjacent (directed ex_m1)) /\
  edges (get_ok (dag2cpdag ex_m1 (list_order ex_m1)) ex_m1) <> edges ex_m1.
Proof.
  destruct C15_example as [H _].
  split; [apply C09_aux; [apply ex_m1_reachable|vm_compute; reflexivity]|].
  split; [apply (list_order_ok _ _ ex_m1_reachable)|]. split; auto. vm_compute. discriminate.
Qed.

(** A DAG with seven nodes whose PDAG has the directed cycle 2 -> 0 -> 6 -> 2:
    pdag2dag never returns on it. *)
Definition ex_cyc : graph := build KDiGraph [0; 1; 2; 3; 4; 5; 6]
  [DEdge 0 6; DEdge 2 0; DEdge 2 3; DEdge 2 4; DEdge 2 6; DEdge 3 0; DEdge 3 1; DEdge 3 5; DEdge 3 6; DEdge 4 0;
   DEdge 5 1; DEdge 6 5].
Lemma ex_cyc_reachable : reachable KDiGraph ex_cyc.
Proof. eapply build_reachable. reflexivity. Qed.

Definition ex_cyc_cpdag : graph := Eval vm_compute in get_ok (dag2cpdag ex_cyc (list_order ex_cyc)) ex_cyc.
Lemma ex_cyc_runs : dag2cpdag ex_cyc (list_order ex_cyc) = Ok ex_cyc_cpdag.
Proof. vm_compute. reflexivity. Qed.

(** The round trip never returns. *)
Theorem C62_round_trip_refuted : exists g order c, reachable KDiGraph g /\ acyclic (directed g) /\ set_orders g order /\
  dag2cpdag g order = Ok c /\ ~ acyclic (directed c) /\ forall fuel, pdag2dag fuel c = Err OutOfFuel.
Proof.
  exists ex_cyc, (list_order ex_cyc), ex_cyc_cpdag.
  assert (Ac : acyclic (directed ex_cyc)) by (apply C09_aux; [apply ex_cyc_reachable|vm_compute; reflexivity]).
  assert (So := list_order_ok _ _ ex_cyc_reachable).
  split; [apply ex_cyc_reachable|]. split; auto. split; auto. split; [apply ex_cyc_runs|].
  assert (D1 : directed ex_cyc_cpdag 2 0) by (vm_compute; reflexivity).
  assert (D2 : directed ex_cyc_cpdag 0 6) by (vm_compute; reflexivity).
  assert (D3 : directed ex_cyc_cpdag 6 2) by (vm_compute; reflexivity).
  assert (Cy : forall E : nat -> nat -> Prop, E 2 0 -> E 0 6 -> E 6 2 -> ~ acyclic E).
  { intros E H1 H2 H3 A. apply (A 2). apply dp1_intro with 0; auto. apply dp_step with 6; auto. apply dp_step with 2; auto. apply dp_refl. }
  split; [apply Cy; auto|]. intro fuel.
  destruct (cpdag_out _ _ ex_cyc_reachable Ac So) as [c [E [P [Nd [CI [NL [NB V]]]]]]].
  assert (c = ex_cyc_cpdag) by (pose proof ex_cyc_runs; congruence). subst c. assert (W := pg_wf _ P).
  destruct (pdag2dag_cases ex_cyc_cpdag P NL NB fuel) as [[d [Ed [Rd [_ [_ [Acd [Dd _]]]]]]]|Ed]; auto.
  exfalso. apply (Cy (dirp d)); auto; apply Dd; apply directed_p; auto.
Qed.
Print Assumptions C62_round_trip_refuted.

(** With six nodes it can return a DAG that is not equivalent to the given one. *)
Definition ex_bad4_back : graph := Eval vm_compute in
  get_ok (pdag2dag 6 (get_ok (dag2cpdag ex_bad4 (list_order ex_bad4)) ex_bad4)) ex_bad4.
Theorem C62_equivalence_refuted : exists g order c d, reachable KDiGraph g /\ acyclic (directed g) /\ set_orders g order /\
  dag2cpdag g order = Ok c /\ (forall fuel, length (nodes g) <= fuel -> pdag2dag fuel c = Ok d) /\
  ~ markov_equiv (directed g) (directed d).
Proof.
  exists ex_bad4, (list_order ex_bad4), (get_ok (dag2cpdag ex_bad4 (list_order ex_bad4)) ex_bad4), ex_bad4_back.
  split; [apply ex_bad4_reachable|].
  split; [apply C09_aux; [apply ex_bad4_reachable|vm_compute; reflexivity]|].
  split; [apply (list_order_ok _ _ ex_bad4_reachable)|]. split; [vm_compute; reflexivity|]. split.
  - intros fuel L. apply (pdag2dag_more 6); [exact L|]. vm_compute. reflexivity.
  - intros [_ V]. destruct (V 0 1 2) as [_ H].
    assert (D1 : directed ex_bad4_back 0 1) by (vm_compute; reflexivity).
    assert (D2 : directed ex_bad4_back 2 1) by (vm_compute; reflexivity).
    destruct H as [_ [H _]].
    + split; auto. split; auto. split; [discriminate|]. intros [Q|Q]; vm_compute in Q; discriminate.
    + vm_compute in H. discriminate.
Qed.
Print Assumptions C62_equivalence_refuted.

(* ------------------------------------------------------------------ C32 *)
(** The model's bound on the loop of pdag2dag plays no role for the outcome of
    a search. *)
Theorem C32_fuel_irrelevant : forall fuel fuel' order ord sf max_p n, orders_ok order -> set_order ord ->
  n <= fuel -> n <= fuel' -> ges_fit fuel order ord sf max_p n = ges_fit fuel' order ord sf max_p n.
Proof. intros. apply ges_fit_same; auto. Qed.
Print Assumptions C32_fuel_irrelevant.

(** Scores from a set function: [z] lists the values on the sets of variables,
    the set S at position sum of 2^x for x in S; the local score of j with
    parents P is the value on P with j minus the value on P. *)
Definition set_value (z : list Z) (l : list nat) : Q :=
  inject_Z (nth (fold_left (fun a x => a + 2 ^ x) (np_unique l) 0) z 0%Z).
Definition table_score (z : list Z) : lscore := fun j l => (set_value z (j :: l) - set_value z l)%Q.
Lemma table_score_ok : forall z n, set_score (table_score z) /\ score_equivalent (table_score z) n.
Proof. intros z n. apply set_function_score. intros l l' H. unfold set_value. rewrite (np_unique_ext l l' H). auto. Qed.

(** A score on seven variables.  The values are -10 times the logarithm of the
    determinant of the covariance matrix of the set in a linear model (noise of
    variance 1), minus the number of pairs in the set, rounded: up to the
    rounding, the BIC score of a large sample.  The edges of the model are those
    of [ex_cyc] with other names.  Twelve insertions lead to a graph with a
    directed cycle (the defect of C62); the next best insertion leaves the cycle
    in place. *)
Definition hang_table : list Z :=
  [0; -19; -33; -28; 0; -19; -34; -28; -58; -58; -55; -49; -59; -55; -47; -41;
  -2; -20; -32; -25; -1; -10; -20; -15; -54; -48; -34; -28; -43; -38; -23; -19;
  -7; -24; -40; -31; -1; -19; -35; -27; -65; -58; -54; -47; -60; -54; -46; -40;
  -9; -15; -29; -21; -3; -6; -19; -12; -51; -44; -32; -25; -41; -35; -23; -17;
  -44; -26; -52; -34; -43; -24; -48; -29; -83; -65; -71; -54; -75; -56; -62; -43;
  -45; -27; -47; -30; -32; -13; -35; -17; -70; -53; -50; -34; -58; -40; -39; -22;
  -49; -31; -54; -37; -44; -24; -48; -29; -82; -65; -69; -53; -75; -56; -61; -43;
  -41; -23; -44; -27; -29; -10; -33; -15; -67; -50; -48; -32; -56; -38; -38; -21]%Z.
Definition hang_score : lscore := table_score hang_table.
Lemma hang_score_set : set_score hang_score.
Proof. apply (table_score_ok hang_table 0). Qed.

Lemma hang_7 : ges_fit 7 list_order (fun l => l) hang_score (default_max_p 7) 7 = Err OutOfFuel.
Proof. vm_compute. reflexivity. Qed.

(** Greedy equivalence search with the default bound on the number of parents
    need not stop, even when the score does not tell equivalent DAGs apart. *)
Theorem C32_termination_refuted : exists order ord sf n, orders_ok order /\ set_order ord /\ set_score sf /\ score_equivalent sf n /\
  (forall fuel r, ges_fit fuel order ord sf (default_max_p n) n <> Ok r) /\
  (forall fuel, n <= fuel -> ges_fit fuel order ord sf (default_max_p n) n = Err OutOfFuel).
Proof.
  exists list_order, (fun l => l), hang_score, 7. assert (Lo := list_orders). assert (Io := id_order).
  split; auto. split; auto. split; [apply hang_score_set|]. split; [apply table_score_ok|].
  assert (B : forall fuel, 7 <= fuel -> ges_fit fuel list_order (fun l => l) hang_score (default_max_p 7) 7 = Err OutOfFuel).
  { intros fuel H. rewrite (C32_fuel_irrelevant fuel 7 _ _ _ _ 7 Lo Io H (le_n 7)). exact hang_7. }
  split; auto. intros fuel r H. apply (ges_fit_more fuel (fuel + 7)) in H; [|lia]. rewrite B in H by lia. discriminate.
Qed.
Print Assumptions C32_termination_refuted.
