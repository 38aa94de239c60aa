(** Properties of the learner of hierarchical latent structure (C74-C78). *)

From Coq Require Import List Arith Bool Lia Permutation Relations.
From Verif Require Import Model.Py Model.LHS Model.LHM Spec.Clusters Spec.Hierarchy Spec.LHMRun.
From Verif Require Import Proofs.PyFacts Proofs.MergeFacts Proofs.LHSFacts Proofs.FindFacts Proofs.LHMMerge Proofs.LHMRound Proofs.LHMStep Proofs.LHMLoop.
Import ListNotations.
Open Scope nat_scope.

(* ---------- settings for the examples ---------- *)
Definition eg_cols (n : nat) : frame := map (fun i => (i, i)) (seq 0 n).
Definition eg_setting (vt : nat -> nat -> nat -> nat -> bool) (n : nat) : setting :=
  Setting (fun s => s) vt (fun k => 100 + k) (eg_cols n) 1000.

Lemma eg_setting_ok : forall vt n, n <= 100 -> setting_ok (eg_setting vt n).
Proof.
  intros vt n H.
  assert (C : columns (eg_cols n) = seq 0 n) by (unfold eg_cols, columns, dkeys; rewrite map_map; apply map_id).
  constructor; simpl.
  - intros s. apply Permutation_refl.
  - intros a b E. lia.
  - intros a F. rewrite C in F. apply in_seq in F. lia.
  - rewrite C. apply seq_NoDup.
Qed.

(** The tetrad test of a tree: [sets] are the leaves on one side of each edge;
    the tetrad of [a, b] against [c, e] does not vanish if an edge separates
    [a, c] from [b, e] or [a, e] from [b, c]. *)
Definition eg_split (sets : list (list nat)) (a c b e : nat) : bool :=
  existsb (fun S => (memb a S && memb c S && negb (memb b S) && negb (memb e S)) ||
                    (negb (memb a S) && negb (memb c S) && memb b S && memb e S)) sets.
Definition eg_tree (sets : list (list nat)) (a b c e : nat) : bool := negb (eg_split sets a c b e || eg_split sets a e b c).

(** Twelve variables in four groups of three; the groups come in two pairs. *)
Definition eg_two : setting := eg_setting (eg_tree [[0; 1; 2]; [3; 4; 5]; [6; 7; 8]; [9; 10; 11]; [0; 1; 2; 3; 4; 5]]) 12.
(** Nine variables in three groups. *)
Definition eg_three : setting := eg_setting (eg_tree [[0; 1; 2]; [3; 4; 5]; [6; 7; 8]]) 9.

Lemma eg_two_disjoint : always_disjoint eg_two.
Proof. apply (always_disjoint_run 3); [vm_compute; discriminate|vm_compute; reflexivity]. Qed.
Lemma eg_three_disjoint : always_disjoint eg_three.
Proof. apply (always_disjoint_run 3); [vm_compute; discriminate|vm_compute; reflexivity]. Qed.

(* ---------- C74: the hierarchy is a forest ---------- *)
(** In each state of the main loop, provided the clusters found in a round are
    disjoint, the latent variables and their members are a forest over the
    observed variables, the columns of the current data are its roots, and each
    observed variable is under exactly one of them. *)
Theorem C74_every_state_is_forest : forall G s, setting_ok G -> always_disjoint G -> reached G s ->
  forest (columns (g_ora G)) (columns (s_data s)) (s_latent s) /\
  forall v, In v (columns (g_ora G)) -> exists! r, In r (columns (s_data s)) /\ under (s_latent s) r v.
Proof.
  intros G s SO AD R. pose proof (reached_inv G SO AD s R) as IV. pose proof (inv_forest G s SO IV) as F. split; auto.
  intros v Hv. destruct (inv_root G s IV v (or_introl Hv)) as [r [R1 R2]]. exists r. split; auto.
  intros r' [R1' R2']. eapply forest_root_unique; eauto.
Qed.
Print Assumptions C74_every_state_is_forest.

Example C74_every_state_is_forest_example : exists s, reached eg_two s /\
  columns (s_data s) = [105] /\ below (s_latent s) 105 103 /\ below (s_latent s) 103 4 /\
  setting_ok eg_two /\ always_disjoint eg_two.
Proof.
  exists (nth 2 (run_states 3 eg_two (start eg_two)) (start eg_two)).
  split; [eapply reached_next; [eapply reached_next; [apply reached_start|]|]; vm_compute; reflexivity|].
  split; [vm_compute; reflexivity|].
  split; [exists [103; 104; 101; 102]; vm_compute; auto 12|].
  split; [exists [3; 4; 5]; vm_compute; auto 12|].
  split; [apply eg_setting_ok; lia|apply eg_two_disjoint].
Qed.

(** The same of the result.  The last round may move variables below a latent
    variable without taking them out of the data, so the roots are among the
    columns. *)
Theorem C74_result_is_forest : forall G fuel s, setting_ok G -> always_disjoint G ->
  lhm_loop fuel G (start G) = Ok s ->
  exists roots, incl roots (columns (s_data s)) /\ forest (columns (g_ora G)) roots (s_latent s) /\
  forall v, In v (columns (g_ora G)) -> exists! r, In r roots /\ under (s_latent s) r v.
Proof.
  intros G fuel s SO AD E.
  destruct (loop_errors G SO AD fuel (start G) (reached_start G)) as [[s' [t [d' [E' [_ [_ [IV IN]]]]]]]|[E'|[[E' _]|E']]]; rewrite E in E'; try discriminate.
  inversion E'; subst s'. exists (columns d'). split; auto.
  pose proof (inv_forest G _ SO IV) as F. simpl in F. split; auto.
  intros v Hv. destruct (inv_root G _ IV v (or_introl Hv)) as [r [R1 R2]]. simpl in R1, R2. exists r. split; auto.
  intros r' [R1' R2']. eapply forest_root_unique; eauto.
Qed.
Print Assumptions C74_result_is_forest.

Example C74_result_is_forest_example : exists s, lhm_loop 3 eg_two (start eg_two) = Ok s /\
  s_latent s = [(101, [9; 10; 11]); (102, [6; 7; 8]); (103, [3; 4; 5]); (104, [0; 1; 2]); (105, [103; 104; 101; 102])] /\
  setting_ok eg_two /\ always_disjoint eg_two.
Proof.
  eexists. split; [vm_compute; reflexivity|]. split; [reflexivity|]. split; [apply eg_setting_ok; lia|apply eg_two_disjoint].
Qed.

(** Without disjointness a variable can get two parents: clusters of three or
    more variables found in the same pass may overlap (FindCausalCluster.py:61-66). *)
Definition eg_overlap_test (a b c e : nat) : bool :=
  (Nat.eqb a 5 && Nat.eqb b 6) || (Nat.eqb a 7 && Nat.eqb b 8)
  || (Nat.ltb a b && memb a [0; 1; 2] && memb b [0; 1; 2] && negb (memb c [0; 1; 2]) && negb (memb e [0; 1; 2]))
  || (Nat.ltb a b && memb a [2; 3; 4] && memb b [2; 3; 4] && negb (memb c [2; 3; 4]) && negb (memb e [2; 3; 4]))
  || (Nat.eqb a 2 && Nat.eqb b 5 && memb c [0; 1; 7; 8] && memb e [0; 1; 7; 8])
  || (Nat.eqb a 0 && Nat.eqb b 7 && memb c [3; 4; 5; 6] && memb e [3; 4; 5; 6]).

Theorem C74_one_parent_refuted : exists G s v L L', setting_ok G /\ lhm_loop 2 G (start G) = Ok s /\
  below (s_latent s) L v /\ below (s_latent s) L' v /\ L <> L'.
Proof.
  exists (eg_setting eg_overlap_test 9). eexists. exists 2, 101, 102.
  split; [apply eg_setting_ok; lia|]. split; [vm_compute; reflexivity|].
  split; [exists [2; 3; 4; 5; 6]; simpl; auto 12|]. split; [exists [0; 1; 2; 7; 8]; simpl; auto 12|]. discriminate.
Qed.
Print Assumptions C74_one_parent_refuted.

(* ---------- C75: progress and termination ---------- *)
(** A round that goes on leaves fewer active variables, or it changes neither
    the set of active variables nor the hierarchy. *)
Theorem C75_round_progress : forall G s s', setting_ok G -> always_disjoint G -> reached G s ->
  lhm_round G s = Ok (false, s') ->
  length (columns (s_data s')) < length (columns (s_data s)) \/
  (Permutation (columns (s_data s)) (columns (s_data s')) /\ s_latent s' = s_latent s /\ s_num s' = s_num s).
Proof.
  intros G s s' SO AD R E.
  destruct (round_ok G s SO (reached_inv G SO AD s R) (AD s R)) as [[t [E' A]]|[[t [d' [E' _]]]|[E'|[E' _]]]]; rewrite E in E'; inversion E'; subst.
  apply A.
Qed.
Print Assumptions C75_round_progress.

Example C75_round_progress_example : exists s', lhm_round eg_two (start eg_two) = Ok (false, s') /\
  length (columns (s_data (start eg_two))) = 12 /\ length (columns (s_data s')) = 4 /\
  setting_ok eg_two /\ always_disjoint eg_two.
Proof.
  eexists. split; [vm_compute; reflexivity|]. split; [reflexivity|]. split; [reflexivity|]. split; [apply eg_setting_ok; lia|apply eg_two_disjoint].
Qed.

(** With more rounds than observed variables the loop is over, or one of the
    rounds changed nothing. *)
Theorem C75_loop_ends_or_idles : forall G fuel, setting_ok G -> always_disjoint G -> length (columns (g_ora G)) < fuel ->
  lhm_loop fuel G (start G) <> Err OutOfFuel \/
  exists s s', reached G s /\ lhm_round G s = Ok (false, s') /\
    Permutation (columns (s_data s)) (columns (s_data s')) /\ s_latent s' = s_latent s /\ s_num s' = s_num s.
Proof.
  intros G fuel SO AD HF.
  destruct (loop_outcome G SO AD fuel (start G) fuel (reached_start G)) as [[s' [d' [E _]]]|[E|[[E _]|H]]]; auto; left; rewrite E; discriminate.
Qed.
Print Assumptions C75_loop_ends_or_idles.

Example C75_loop_ends_or_idles_example : length (columns (g_ora eg_two)) < 13 /\ lhm_loop 13 eg_two (start eg_two) <> Err OutOfFuel /\
  setting_ok eg_two /\ always_disjoint eg_two.
Proof.
  split; [vm_compute; lia|]. split; [vm_compute; discriminate|]. split; [apply eg_setting_ok; lia|apply eg_two_disjoint].
Qed.

(** A round that goes on with the same data repeats: the program never ends. *)
Theorem C75_idle_runs_forever : forall G s s', setting_ok G -> always_disjoint G -> reached G s ->
  lhm_round G s = Ok (false, s') -> s_data s' = s_data s ->
  forall fuel, lhm_loop fuel G (start G) = Err OutOfFuel.
Proof.
  intros G s s' SO AD R E ED. apply (reached_loop G s R). apply (idle_forever G s s'); auto. apply reached_inv; auto.
Qed.
Print Assumptions C75_idle_runs_forever.

(** Six variables of which only 0 and 1 form a cluster, an impure one. *)
Definition eg_idle : setting := eg_setting (fun a b _ _ => Nat.eqb a 0 && Nat.eqb b 1) 6.

Lemma eg_idle_forever : forall fuel, lhm_loop fuel eg_idle (start eg_idle) = Err OutOfFuel.
Proof.
  assert (SO : setting_ok eg_idle) by (apply eg_setting_ok; lia).
  eapply idle_forever; [exact SO|apply start_inv; exact SO| |vm_compute; reflexivity|vm_compute; reflexivity].
  apply disjointb_ok. vm_compute. reflexivity.
Qed.

Lemma eg_idle_disjoint : always_disjoint eg_idle.
Proof.
  assert (D : forall s, reached eg_idle s -> s_data s = eg_cols 6 /\ s_pure s = [] /\ s_latent s = [] /\ s_num s = 1 /\ forall C, In C (s_impure s) -> C = [0; 1]).
  { assert (SO : setting_ok eg_idle) by (apply eg_setting_ok; lia).
    assert (DJ : pairwise_disjoint (found eg_idle (start eg_idle))) by (apply disjointb_ok; vm_compute; reflexivity).
    assert (SH : forall P Im, find_causal_cluster (g_ord eg_idle) (g_vt eg_idle) (eg_cols 6) P Im = Ok ([[0; 1]], P, Im ++ [[0; 1]], [[0; 1]])).
    { intros P Im. destruct (find_shift (g_ord eg_idle) (g_vt eg_idle) (eg_cols 6)) as [r F].
      assert (E0 : find_causal_cluster (g_ord eg_idle) (g_vt eg_idle) (eg_cols 6) [] [] = Ok ([[0; 1]], [], [[0; 1]], [[0; 1]])) by (vm_compute; reflexivity).
      rewrite F in E0. rewrite F. destruct r as [[[[a b] c] e]|e]; cbn [rbind] in *; [|discriminate]. simpl in E0. inversion E0; subst. rewrite app_nil_r. auto. }
    intros s R. induction R as [|s s' R IH E].
    - simpl. repeat split; auto. intros C [].
    - destruct IH as [D1 [D2 [D3 [D4 D5]]]]. unfold lhm_round in E. rewrite D1, D2, D3, D4, SH in E. cbn [rbind] in E.
      assert (MC : merge_causal_cluster eg_idle [[0; 1]] [] (s_impure s ++ [[0; 1]]) [] (eg_cols 6) = Ok (Merged [] [[0; 1]] [] [] [2; 3; 4; 5] [], s_impure s ++ [[0; 1]])).
      { unfold merge_causal_cluster.
        assert (SS : same_sets (s_impure s ++ [[0; 1]]) [[0; 1]]).
        { intro C. rewrite set_contains_app. destruct (set_contains C (s_impure s)) eqn:SC; auto. apply existsb_exists in SC. destruct SC as [D [HD SE]].
          apply D5 in HD. subst D. unfold set_contains. cbn [existsb]. rewrite SE. auto. }
        rewrite (early_dicts_same _ _ _ _ _ SS).
        replace (early_dicts eg_idle [[0; 1]] (remaining (eg_cols 6) [[0; 1]]) (eg_cols 6) [] [] [[0; 1]] [] []) with (@Ok (list (nat * list nat) * list (nat * list nat)) ([], [])) by (vm_compute; reflexivity).
        cbn [rbind fst snd]. rewrite (merge_loop_same _ _ _ _ _ SS). vm_compute. reflexivity. }
      rewrite MC in E. cbn [rbind] in E. vm_compute in E. inversion E; subst s'. cbn. repeat split; auto.
      intros C HC. assert (HC' : In C (s_impure s ++ [[0; 1]])) by exact HC. apply in_app_iff in HC'. destruct HC' as [H|[<-|[]]]; auto. }
  intros s R. apply D in R. destruct R as [D1 _]. unfold found. rewrite D1.
  destruct (find_shift (g_ord eg_idle) (g_vt eg_idle) (eg_cols 6)) as [r F]. rewrite F.
  assert (E0 : find_causal_cluster (g_ord eg_idle) (g_vt eg_idle) (eg_cols 6) [] [] = Ok ([[0; 1]], [], [[0; 1]], [[0; 1]])) by (vm_compute; reflexivity).
  rewrite F in E0. destruct r as [[[[a b] c] e]|e]; cbn [rbind] in *; [|discriminate]. inversion E0; subst.
  apply disjointb_ok. vm_compute. reflexivity.
Qed.

Example C75_idle_runs_forever_example : exists s', lhm_round eg_idle (start eg_idle) = Ok (false, s') /\ s_data s' = s_data (start eg_idle) /\
  reached eg_idle (start eg_idle) /\ setting_ok eg_idle /\ always_disjoint eg_idle.
Proof.
  eexists. split; [vm_compute; reflexivity|]. split; [reflexivity|]. split; [apply reached_start|]. split; [apply eg_setting_ok; lia|apply eg_idle_disjoint].
Qed.

(** So "the learner ends on every data set" is false. *)
Theorem C75_termination_refuted : exists G, setting_ok G /\ always_disjoint G /\ forall fuel, lhm_loop fuel G (start G) = Err OutOfFuel.
Proof. exists eg_idle. split; [apply eg_setting_ok; lia|]. split; [apply eg_idle_disjoint|apply eg_idle_forever]. Qed.
Print Assumptions C75_termination_refuted.

(* ---------- C76: how the learner can fail ---------- *)
(** A run that raises raises SystemExit, which the program does on purpose, or
    IndexError; the latter only in a state with an active latent variable that has
    no pure cluster among its members. *)
Theorem C76_only_two_exceptions : forall G fuel e, setting_ok G -> always_disjoint G ->
  lhm_loop fuel G (start G) = Err e -> e <> OutOfFuel ->
  e = SystemExit \/
  (e = IndexError /\ exists s L, reached G s /\ In L (columns (s_data s)) /\ no_pure_inside (s_latent s) (pure_now G s) L).
Proof.
  intros G fuel e SO AD E NF.
  destruct (loop_errors G SO AD fuel (start G) (reached_start G)) as [[s' [t [d' [E' _]]]]|[E'|[[E' [t [R [L [H1 [H2 H3]]]]]]|E']]]; rewrite E in E'; inversion E'; subst; auto; [|congruence].
  right. split; auto. exists t, L. auto.
Qed.
Print Assumptions C76_only_two_exceptions.

(** Three impure pairs no test joins: SystemExit. *)
Definition eg_exit : setting :=
  eg_setting (fun a b _ _ => (Nat.eqb a 0 && Nat.eqb b 1) || (Nat.eqb a 2 && Nat.eqb b 3) || (Nat.eqb a 4 && Nat.eqb b 5)) 6.
(** Two impure pairs merge; their latent variable, 101, then is in a cluster: IndexError. *)
Definition eg_index_test (a b c e : nat) : bool :=
  (Nat.eqb a 0 && Nat.eqb b 1) || (Nat.eqb a 2 && Nat.eqb b 3)
  || (Nat.eqb a 2 && Nat.eqb b 0 && Nat.leb 4 c && Nat.leb 4 e)
  || (Nat.eqb a 6 && Nat.eqb b 7 && memb c [2; 4; 5] && memb e [2; 4; 5]).
Definition eg_index : setting := eg_setting eg_index_test 8.

Example C76_only_two_exceptions_example :
  (setting_ok eg_exit /\ always_disjoint eg_exit /\ lhm_loop 1 eg_exit (start eg_exit) = Err SystemExit) /\
  (setting_ok eg_index /\ always_disjoint eg_index /\ lhm_loop 2 eg_index (start eg_index) = Err IndexError).
Proof.
  split.
  - split; [apply eg_setting_ok; lia|]. split; [|vm_compute; reflexivity]. apply (always_disjoint_run 1); [vm_compute; discriminate|vm_compute; reflexivity].
  - split; [apply eg_setting_ok; lia|]. split; [|vm_compute; reflexivity]. apply (always_disjoint_run 2); [vm_compute; discriminate|vm_compute; reflexivity].
Qed.

(** So "the learner answers or says it cannot go on" is false. *)
Theorem C76_no_index_error_refuted : exists G fuel, setting_ok G /\ always_disjoint G /\ lhm_loop fuel G (start G) = Err IndexError.
Proof. exists eg_index, 2. apply C76_only_two_exceptions_example. Qed.
Print Assumptions C76_no_index_error_refuted.

(* ---------- C77: the edges that are drawn ---------- *)
(** The graph has an edge from [L] to [v] if and only if [v] is a member of [L] or [L]
    is a latent variable that comes before [v] in an impure cluster. *)
Theorem C77_drawn_edges : forall ord latent impure, (forall s, Permutation (ord s) s) -> NoDup (map fst latent) ->
  forall L v, below (tran_impure ord latent impure) L v <->
    below latent L v \/ (In L (map fst latent) /\ exists C, In C impure /\ before C L v).
Proof. intros ord latent impure O ND. apply (tran_impure_ok ord O impure latent ND). Qed.
Print Assumptions C77_drawn_edges.

Example C77_drawn_edges_example :
  below (tran_impure (fun s => s) [(101, [2; 3]); (102, [0; 1; 101])] [[101; 102]; [4; 102]]) 101 102 /\
  ~ below (tran_impure (fun s => s) [(101, [2; 3]); (102, [0; 1; 101])] [[101; 102]; [4; 102]]) 4 102.
Proof.
  split; [exists [2; 3; 102]; simpl; auto|]. intros [C [H _]]. vm_compute in H. destruct H as [H|[H|[]]]; inversion H.
Qed.

(** When a round finds no cluster the list of all active variables is recorded
    as an impure cluster (MergeCluster.py:49-50), so in the graph each active latent variable has an
    edge to each active variable listed after it, although neither is a member
    of any latent variable. *)
Theorem C77_leftovers_are_joined : forall G s L v, setting_ok G -> always_disjoint G -> reached G s -> found G s = [] ->
  In L (map fst (s_latent s)) -> before (columns (s_data s)) L v ->
  exists s', lhm_round G s = Ok (true, s') /\ below (tran_impure (g_ord G) (s_latent s') (s_impure s')) L v /\
    forall L', ~ below (s_latent s') L' v.
Proof.
  intros G s L v SO AD R F HL B. pose proof (reached_inv G SO AD s R) as IV.
  destruct (found_ok G s SO (i_data _ _ IV)) as [P [Im [pairs [EF _]]]]. rewrite F in EF.
  eexists. split; [unfold lhm_round; rewrite EF; cbn; reflexivity|]. cbn [s_latent s_impure].
  split.
  - apply C77_drawn_edges; [exact (g_ord_ok _ SO)|apply IV|]. right. split; auto. exists (columns (s_data s)).
    split; auto. apply in_app_iff. right. left. auto.
  - intros L' HB. apply below_dget in HB; [|apply IV]. destruct HB as [C [E HC]].
    assert (HV : In v (columns (s_data s))).
    { destruct B as [a [b [c EB]]]. rewrite EB. apply in_app_iff. right. right. apply in_app_iff. right. left. auto. }
    apply (i_roots _ _ IV) in HV. destruct HV as [_ HV]. exact (HV L' C E HC).
Qed.
Print Assumptions C77_leftovers_are_joined.

Example C77_leftovers_are_joined_example : exists s, reached eg_three s /\ found eg_three s = [] /\
  In 101 (map fst (s_latent s)) /\ before (columns (s_data s)) 101 103 /\ setting_ok eg_three /\ always_disjoint eg_three /\
  lhm_graph 3 eg_three = Ok [(101, [6; 7; 8; 102; 103]); (102, [3; 4; 5; 103]); (103, [0; 1; 2])].
Proof.
  exists (nth 1 (run_states 3 eg_three (start eg_three)) (start eg_three)).
  split; [eapply reached_next; [apply reached_start|]; vm_compute; reflexivity|].
  split; [vm_compute; reflexivity|]. split; [vm_compute; auto|]. split; [exists [], [102], []; vm_compute; reflexivity|].
  split; [apply eg_setting_ok; lia|]. split; [apply eg_three_disjoint|vm_compute; reflexivity].
Qed.

(** So "the graph is the hierarchy found" and "the graph is acyclic" are false:
    here 101 is a member of 102 by early learning, and 102 becomes a member of 101
    because the two were an impure cluster. *)
Definition eg_cycle_test (a b c e : nat) : bool :=
  (Nat.eqb a 0 && Nat.eqb b 1 && negb (Nat.eqb c 1)) || (Nat.eqb a 2 && Nat.eqb b 3)
  || (Nat.eqb a 0 && Nat.eqb b 4 && Nat.eqb c 1 && Nat.eqb e 5) || (Nat.eqb a 2 && Nat.eqb b 4 && Nat.eqb c 3 && Nat.eqb e 5)
  || (Nat.eqb a 6 && Nat.eqb b 7 && memb c [0; 2; 4; 5] && memb e [0; 2; 4; 5])
  || (Nat.eqb a 0 && Nat.eqb b 6 && Nat.eqb c 1 && memb e [0; 2; 4; 5]).
Definition eg_cycle : setting := eg_setting eg_cycle_test 8.

Theorem C77_acyclic_graph_refuted : exists G g v, setting_ok G /\ always_disjoint G /\
  lhm_graph 3 G = Ok g /\ clos_trans nat (below g) v v.
Proof.
  exists eg_cycle. eexists. exists 101. split; [apply eg_setting_ok; lia|].
  split; [apply (always_disjoint_run 3); [vm_compute; discriminate|vm_compute; reflexivity]|].
  split; [vm_compute; reflexivity|].
  apply t_trans with 102; apply t_step; [exists [2; 3; 102]|exists [0; 1; 101]]; simpl; auto.
Qed.
Print Assumptions C77_acyclic_graph_refuted.

(* ---------- C78: merging without evidence ---------- *)
(** Two impure clusters that leave at most one other variable are merged
    whatever the data say. *)
Theorem C78_merge_without_test : forall ord vt C1 C2 d, (forall s, Permutation (ord s) s) -> C1 <> [] -> C2 <> [] ->
  (forall x y, In x (columns d) -> In y (columns d) -> ~ In x (C1 ++ C2) -> ~ In y (C1 ++ C2) -> x = y) ->
  test_II ord vt C1 C2 d = Ok true.
Proof.
  intros ord vt C1 C2 d O N1 N2 H. unfold test_II. destruct C1 as [|a C1]; [congruence|]. destruct C2 as [|b C2]; [congruence|].
  set (ix := set_minus (set_minus (py_set (columns d)) (a :: C1)) (b :: C2)).
  assert (ND : NoDup (ord ix)).
  { apply (Permutation_NoDup (Permutation_sym (O ix))). unfold ix, set_minus. apply NoDup_filter, NoDup_filter, py_set_NoDup. }
  assert (HI : forall x, In x (ord ix) -> In x (columns d) /\ ~ In x ((a :: C1) ++ (b :: C2))).
  { intros x Hx. apply (Permutation_in _ (O ix)) in Hx. unfold ix in Hx. rewrite !set_minus_In, py_set_In in Hx. rewrite in_app_iff. tauto. }
  destruct (ord ix) as [|x [|y l]]; [reflexivity|reflexivity|]. exfalso.
  assert (x = y) by (apply H; apply HI; simpl; auto). subst y. inversion ND; subst. simpl in *. tauto.
Qed.
Print Assumptions C78_merge_without_test.

Example C78_merge_without_test_example :
  test_II (fun s => s) (fun _ _ _ _ => false) [0; 1] [2; 3] (eg_cols 5) = Ok true /\
  (forall x y, In x (columns (eg_cols 5)) -> In y (columns (eg_cols 5)) -> ~ In x ([0; 1] ++ [2; 3]) -> ~ In y ([0; 1] ++ [2; 3]) -> x = y).
Proof.
  split; [reflexivity|]. intros x y Hx Hy. simpl in *. lia.
Qed.

(** So "four members of one latent variable pass the tetrad tests" is false even
    when every test is answered as in a tree: the latent variables 101 to 104
    (surrogates 9, 6, 3 and 0) come in two pairs, but end up below one latent variable. *)
Theorem C78_members_pass_tests_refuted : exists G s, setting_ok G /\ always_disjoint G /\ lhm_loop 3 G (start G) = Ok s /\
  (forall v, In v [101; 102; 103; 104] -> below (s_latent s) 105 v) /\
  below (s_latent s) 101 9 /\ below (s_latent s) 102 6 /\ below (s_latent s) 103 3 /\ below (s_latent s) 104 0 /\
  g_vt G 9 3 6 0 = false.
Proof.
  exists eg_two. eexists. split; [apply eg_setting_ok; lia|]. split; [apply eg_two_disjoint|]. split; [vm_compute; reflexivity|].
  split; [intros v Hv; exists [103; 104; 101; 102]; simpl in *; intuition|].
  split; [exists [9; 10; 11]; simpl; auto|]. split; [exists [6; 7; 8]; simpl; auto|]. split; [exists [3; 4; 5]; simpl; auto|].
  split; [exists [0; 1; 2]; simpl; auto 8|reflexivity].
Qed.
Print Assumptions C78_members_pass_tests_refuted.
