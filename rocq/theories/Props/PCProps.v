(** C20-C25: adjacency search, PC and the independence-test cache. *)

From Coq Require Import String List Arith Bool Lia ZArith QArith Permutation.
From Verif Require Import Model.Py Model.Graph Model.DiGraph Model.Metrics Model.PDAG Model.Independence Model.PC.
From Verif Require Import Spec.API Spec.Digraphs Spec.PDAGs.
From Verif Require Import Proofs.PyFacts Proofs.GraphFacts Proofs.DSepTheory Proofs.RelExt Proofs.DiGraphFacts
  Proofs.HistoryFacts Proofs.FrameFacts Proofs.NumpyFacts Proofs.DagFacts Proofs.PDAGFacts Proofs.MeekComplete Proofs.MeekFacts
  Proofs.CpdagFacts Proofs.SearchFacts Proofs.PCFacts Proofs.CacheFacts.
From Verif Require Import Props.Examples Props.CpdagProps.
Import ListNotations.
Open Scope nat_scope.

(** The test answers every query about two different variables and a set of
    other variables (it may answer anything). *)
Definition answers (t : citest) (names : list nat) : Prop :=
  forall u v z, In u names -> In v names -> u <> v -> NoDup z -> (forall x, In x z -> In x names /\ x <> u /\ x <> v) ->
    exists p, t u v z = Ok p.

(** The two searches. *)
Inductive a_search : (citest -> list nat -> Q -> res (graph * seps * list tcall)) -> Prop :=
| plain : a_search adjacency_search
| fast : a_search fast_adjacency_search.

(** A call for the pair u, v (in either order) was answered with p >= alpha. *)
Definition accepted (alpha : Q) (calls : list tcall) (u v : nat) (z : list nat) : Prop :=
  exists p, (In (u, v, z, p) calls \/ In (v, u, z, p) calls) /\ (alpha <= p)%Q.

Definition tvof (t : citest) (u v : nat) (z : list nat) : Q := match t u v z with Ok p => p | Err _ => 0%Q end.
Lemma answers_total : forall t names, answers t names -> forall u v z, legal names u v z -> t u v z = Ok (tvof t u v z).
Proof.
  intros t names A u v z (Hu & Hv & N & Nz & Hz & Nu & Nv). unfold tvof.
  destruct (A u v z Hu Hv N Nz) as [p ->]; auto.
  intros x Hx. split; auto. split; intros ->; auto.
Qed.

Lemma search_outcome : forall S t names alpha, a_search S -> NoDup names -> answers t names ->
  exists g sep calls, S t names alpha = Ok (g, sep, calls) /\
    outcome alpha names (tvof t) (length names - 1) g calls /\ sep_inv alpha names sep calls.
Proof.
  intros S t names alpha HS ND A. assert (T := answers_total t names A). destruct HS.
  - destruct (adjacency_search_ok t alpha names ND (tvof t) T) as [g [sep [calls [E [St I]]]]].
    exists g, sep, calls. split; auto. split; auto. apply stage_outcome; auto.
  - apply (fast_adjacency_search_ok t alpha names ND (tvof t) T).
Qed.

Lemma accepted_dec : forall alpha calls u v, (exists z, accepted alpha calls u v z) \/ ~ (exists z, accepted alpha calls u v z).
Proof.
  intros alpha calls u v.
  destruct (existsb (fun c : tcall => let '(a, b, z, p) := c in samepb a b u v && Qle_bool alpha p)%bool calls) eqn:X.
  - left. apply existsb_exists in X. destruct X as [[[[a b] z] p] [H1 H2]]. apply andb_true_iff in H2.
    destruct H2 as [H2 H3]. apply samepb_spec in H2. apply Qle_bool_iff in H3. exists z, p.
    destruct H2 as [[-> ->]|[-> ->]]; auto.
  - right. intros [z [p [H L]]].
    assert (T : existsb (fun c : tcall => let '(a, b, z, p) := c in samepb a b u v && Qle_bool alpha p)%bool calls = true).
    { apply existsb_exists. apply Qle_bool_iff in L. destruct H as [H|H].
      - exists (u, v, z, p). split; auto. rewrite L, andb_true_r. apply samepb_spec. left. auto.
      - exists (v, u, z, p). split; auto. rewrite L, andb_true_r. apply samepb_spec. right. auto. }
    congruence.
Qed.

(* ------------------------------------------------------------------ C20 *)
Theorem C20_search_removes_iff_accepted : forall S t names alpha, a_search S -> NoDup names -> answers t names ->
  exists g sep calls, S t names alpha = Ok (g, sep, calls) /\
    (* an undirected graph over the variables *)
    nodes g = names /\ loop_free g /\ (forall u v, connected g u v -> undirected g u v) /\
    (* the calls are genuine *)
    (forall u v z p, In (u, v, z, p) calls -> t u v z = Ok p /\ In u names /\ In v names /\ u <> v /\ NoDup z /\
       forall x, In x z -> In x names /\ x <> u /\ x <> v) /\
    (* edges *)
    (forall u v, In u names -> In v names -> u <> v ->
       (~ connected g u v <-> exists z, accepted alpha calls u v z)) /\
    (* separating sets *)
    (forall u v, In u names -> In v names -> u <> v -> exists s s',
       dget pair_eqb sep (u, v) = Some s /\ dget pair_eqb sep (v, u) = Some s' /\
       (forall w, In w s <-> In w s') /\
       (forall w, In w s <-> exists z, accepted alpha calls u v z /\ In w z) /\ ~ In u s /\ ~ In v s) /\
    (* an edge that stays was tested, and rejected, for every set of at most
       n-2 remaining neighbours of its first node *)
    (forall u v z, connected g u v -> NoDup z -> length z + 2 <= length names ->
       (forall x, In x z -> connected g u x /\ x <> v) ->
       exists z' p, (In (u, v, z', p) calls \/ In (v, u, z', p) calls) /\ (forall x, In x z' <-> In x z) /\ (p < alpha)%Q).
Proof.
  intros S t names alpha HS ND A.
  destruct (search_outcome S t names alpha HS ND A) as [g [sep [calls [E [[U So Co Fu] I]]]]].
  assert (W := ug_wf _ _ U). exists g, sep, calls. split; auto. split; [apply (ug_nodes _ _ U)|].
  split. { intros x C. apply connected_p in C; auto. apply C. apply (ug_diag _ _ U). }
  split. { intros u v C. apply connected_p in C; auto. apply undirected_p; auto. eapply ug_und; eauto. }
  split.
  { intros u v z p H. destruct (So _ _ _ _ H) as [Lg ->]. split; [apply (answers_total t names A); auto|].
    destruct Lg as (Hu & Hv & N & Nz & Hz & Nu & Nv). repeat (split; [assumption|]).
    intros x Hx. split; auto. split; intros ->; auto. }
  split.
  { intros u v Hu Hv N. rewrite connected_p by auto. rewrite Co. unfold some_acc.
    change (acc_call alpha calls) with (accepted alpha calls). destruct (accepted_dec alpha calls u v); tauto. }
  split.
  { intros u v Hu Hv N. destruct (I u v Hu Hv N) as [s [E1 H1]]. destruct (I v u Hv Hu ltac:(auto)) as [s' [E2 H2]].
    exists s, s'. split; auto. split; auto.
    assert (LG : forall w, In w s -> w <> u /\ w <> v).
    { intros w Hw. apply H1 in Hw. destruct Hw as [z [[p [[H|H] _]] Hz]]; destruct (So _ _ _ _ H) as [(_ & _ & _ & _ & _ & N1 & N2) _];
        split; intros ->; auto. }
    split; [|split; [exact H1|split; intro H; apply LG in H; tauto]].
    intro w. rewrite H1, H2. split; intros [z [H Hz]]; exists z; split; auto; apply acc_sym; auto. }
  intros u v z C Nz Lz Hz. apply connected_p in C; auto.
  destruct (Fu u v z C Nz) as [z' [p [H1 H2]]]; [lia| |].
  { intros x Hx. destruct (Hz x Hx) as [H3 H4]. apply connected_p in H3; auto. }
  exists z', p. split; auto. split; auto. apply Qnot_le_lt. intro L. apply Co in C. destruct C as [_ C]. apply C.
  exists z', p. auto.
Qed.
Print Assumptions C20_search_removes_iff_accepted.

(** Repeated variable names are rejected. *)
Theorem C20_repeated_names : forall S t names alpha, a_search S -> ~ NoDup names ->
  S t names alpha = Err AssertionError.
Proof.
  intros S t names alpha HS ND. destruct HS; unfold adjacency_search, fast_adjacency_search; rewrite new_graph_err; auto.
Qed.
Print Assumptions C20_repeated_names.

(** A test with inconsistent, asymmetric answers: accepts (u, v | z) when u < v
    and z is the single node 2. *)
Definition odd_test : citest := fun u v z =>
  Ok (if (Nat.ltb u v && match z with [w] => Nat.eqb w 2 | _ => false end)%bool then 1 # 2 else 1 # 100)%Q.
Definition get_search (r : res (graph * seps * list tcall)) : graph * seps * list tcall :=
  match r with Ok x => x | Err _ => (ex_pdag, [], []) end.
Definition g_of (r : res (graph * seps * list tcall)) : graph := fst (fst (get_search r)).

Example C20_example : answers odd_test [3; 2; 1; 0] /\
  ~ connected (g_of (adjacency_search odd_test [3; 2; 1; 0] (1 # 20))) 1 3 /\
  connected (g_of (adjacency_search odd_test [3; 2; 1; 0] (1 # 20))) 2 3 /\
  ~ connected (g_of (fast_adjacency_search odd_test [0; 1; 2; 3] (1 # 20))) 1 3.
Proof.
  split; [intros u v z _ _ _ _ _; eexists; reflexivity|].
  split; [intro H; vm_compute in H; discriminate|]. split; [vm_compute; reflexivity|].
  intro H; vm_compute in H; discriminate.
Qed.

(* ------------------------------------------------------------------ C21 *)
(** Symmetric in the two variables and a function of the conditioning set. *)
Definition set_symmetric (t : citest) : Prop :=
  (forall u v z, t u v z = t v u z) /\ (forall u v z z', (forall x, In x z <-> In x z') -> t u v z = t u v z').

Theorem C21_adjacency_search_order_independent : forall t n1 n2 alpha, NoDup n1 -> Permutation n1 n2 ->
  answers t n1 -> set_symmetric t ->
  exists g1 s1 c1 g2 s2 c2, adjacency_search t n1 alpha = Ok (g1, s1, c1) /\ adjacency_search t n2 alpha = Ok (g2, s2, c2) /\
    (forall u v, connected g1 u v <-> connected g2 u v) /\
    (forall u v, In u n1 -> In v n1 -> u <> v -> exists a b,
       dget pair_eqb s1 (u, v) = Some a /\ dget pair_eqb s2 (u, v) = Some b /\ forall w, In w a <-> In w b).
Proof.
  intros t n1 n2 alpha ND P A [_ TS]. assert (ND2 := Permutation_NoDup P ND).
  assert (HI : forall x, In x n2 <-> In x n1).
  { intro x. split; apply Permutation_in; auto. apply Permutation_sym. auto. }
  assert (A2 : answers t n2).
  { intros u v z Hu Hv N Nz Hz. apply A; auto; try (apply HI; auto).
    intros x Hx. destruct (Hz x Hx) as [H1 H2]. split; auto. apply HI. auto. }
  destruct (adjacency_search_ok t alpha n1 ND (tvof t) (answers_total t n1 A)) as [g1 [s1 [c1 [E1 [S1 I1]]]]].
  destruct (adjacency_search_ok t alpha n2 ND2 (tvof t) (answers_total t n2 A2)) as [g2 [s2 [c2 [E2 [S2 I2]]]]].
  exists g1, s1, c1, g2, s2, c2. split; auto. split; auto.
  rewrite <- (Permutation_length P) in S2.
  assert (TT : forall u v z z', legal n1 u v z -> legal n1 u v z' -> seteq z z' -> tvof t u v z = tvof t u v z').
  { intros u v z z' _ _ E. unfold tvof. rewrite (TS u v z z' E). auto. }
  destruct (stage_transfer alpha n1 n2 ND P (tvof t) TT _ _ _ S1 _ _ S2) as [C [T1 T2]].
  split.
  { intros u v. rewrite !connected_p; auto; [apply (ug_wf _ _ (stage_UG _ _ _ _ _ _ S2))|apply (ug_wf _ _ (stage_UG _ _ _ _ _ _ S1))]. }
  intros u v Hu Hv N. destruct (I1 u v Hu Hv N) as [a [Ea Ha]].
  destruct (I2 u v (proj2 (HI u) Hu) (proj2 (HI v) Hv) N) as [b [Eb Hb]].
  exists a, b. split; auto. split; auto. intro w. rewrite Ha, Hb. split; intros [z [H Hw]].
  - destruct (T1 _ _ _ H) as [z' [E H']]. exists z'. split; auto. apply E. auto.
  - destruct (T2 _ _ _ H) as [z' [E H']]. exists z'. split; auto. apply E. auto.
Qed.
Print Assumptions C21_adjacency_search_order_independent.

(** A symmetric test that depends on the set only, not a d-separation oracle:
    accept when u + v + the number of distinct conditioning nodes is 4. *)
Definition sum_test : citest := fun u v z =>
  Ok (if Nat.eqb (u + v + (if memb 0 z then 1 else 0) + (if memb 1 z then 1 else 0) + (if memb 2 z then 1 else 0)
                   + (if memb 3 z then 1 else 0)) 4 then 1 # 2 else 1 # 100)%Q.
Lemma memb_ext : forall x z z', (forall y : nat, In y z <-> In y z') -> memb x z = memb x z'.
Proof.
  intros x z z' H. destruct (memb x z) eqn:E.
  - symmetry. apply memb_In. apply H. apply memb_In. auto.
  - symmetry. apply memb_false. intro Q. apply memb_false in E. apply E. apply H. auto.
Qed.
Example C21_example : set_symmetric sum_test /\ answers sum_test [0; 1; 2; 3] /\
  Permutation [0; 1; 2; 3] [3; 0; 2; 1] /\
  connected (g_of (adjacency_search sum_test [0; 1; 2; 3] (1 # 20))) 2 3 /\
  ~ connected (g_of (adjacency_search sum_test [3; 0; 2; 1] (1 # 20))) 1 3 /\
  ~ connected (g_of (adjacency_search sum_test [3; 0; 2; 1] (1 # 20))) 0 3.
Proof.
  split.
  { split.
    - intros u v z. unfold sum_test. rewrite (Nat.add_comm u v). auto.
    - intros u v z z' H. unfold sum_test. rewrite !(memb_ext _ z z' H). auto. }
  split; [intros u v z _ _ _ _ _; eexists; reflexivity|].
  split. { apply NoDup_Permutation; [repeat constructor; simpl; intuition discriminate|repeat constructor; simpl; intuition discriminate|].
    intro x. simpl. tauto. }
  split; [vm_compute; reflexivity|]. split; intro H; vm_compute in H; discriminate.
Qed.

(* ------------------------------------------------------------------ C22 *)
Lemma oracle_answers : forall g names, DG g -> Permutation names (nodes g) -> answers (dsep_test g names) names.
Proof.
  intros g names D P u v z Hu Hv N Nz Hz. rewrite (oracle_total g D names P).
  - eexists. reflexivity.
  - repeat (split; [assumption|]). split; [intros x Hx; apply Hz; auto|].
    split; intro H; apply Hz in H; tauto.
Qed.
Lemma oracle_tv : forall g names u v z, DG g -> Permutation names (nodes g) -> legal names u v z ->
  tvof (dsep_test g names) u v z = otv g u v z.
Proof. intros. unfold tvof. rewrite (oracle_total g H names H0); auto. Qed.

Lemma oracle_run : forall S g names alpha, a_search S -> DG g -> Permutation names (nodes g) ->
  exists h sep calls, S (dsep_test g names) names alpha = Ok (h, sep, calls) /\
    outcome alpha names (otv g) (length names - 1) h calls /\ sep_inv alpha names sep calls.
Proof.
  intros S g names alpha HS D P. assert (ND := names_nd g D names P).
  destruct (search_outcome S (dsep_test g names) names alpha HS ND (oracle_answers g names D P)) as [h [sep [calls [E [[U So Co Fu] I]]]]].
  exists h, sep, calls. split; auto. split; auto. constructor; auto.
  intros u v z p H. destruct (So _ _ _ _ H) as [Lg ->]. split; auto. apply oracle_tv; auto.
Qed.

Theorem C22_oracle_search_skeleton : forall S g names alpha, a_search S -> reachable KDiGraph g -> acyclic (directed g) ->
  Permutation names (nodes g) -> (0 < alpha <= 1)%Q ->
  exists h sep calls, S (dsep_test g names) names alpha = Ok (h, sep, calls) /\
    nodes h = names /\ loop_free h /\ (forall u v, connected h u v -> undirected h u v) /\
    (forall u v, u <> v -> (connected h u v <-> connected g u v)) /\
    (forall u v w, In u names -> In v names -> u <> v -> ~ connected g u v ->
       adjacent (directed g) u w -> adjacent (directed g) v w ->
       exists s, dget pair_eqb sep (u, v) = Some s /\ (In w s <-> ~ (directed g u w /\ directed g v w))).
Proof.
  intros S g names alpha HS R Ac P [L0 L1]. destruct (reach_arc g R Ac) as [D Aa]. assert (W := dg_wf g D).
  destruct (oracle_run S g names alpha HS D P) as [h [sep [calls [E [O I]]]]].
  assert (U := oc_ug _ _ _ _ _ _ O). assert (Wh := ug_wf _ _ U).
  assert (SK := oracle_skeleton g D Aa names P alpha L0 L1 h calls O).
  exists h, sep, calls. split; auto. split; [apply (ug_nodes _ _ U)|].
  split. { intros x C. apply connected_p in C; auto. apply C. apply (ug_diag _ _ U). }
  split. { intros u v C. apply connected_p in C; auto. apply undirected_p; auto. eapply ug_und; eauto. }
  assert (HA : forall u v, u <> v -> (adjacent (arc g) u v <-> connected g u v)).
  { intros u v N. rewrite connected_p by auto. split.
    - intros [H|H]; [|apply conp_sym; auto]; unfold conp; unfold arc in H; congruence.
    - intro C. apply arc_some; auto. }
  split. { intros u v N. rewrite connected_p, SK by auto. auto. }
  intros u v w Hu Hv N NC Au Av.
  destruct (oracle_sep g D Aa names P alpha L0 L1 h sep calls O I u v w Hu Hv N) as [s [Es Hs]].
  - rewrite HA; auto.
  - apply (adjacent_ext _ _ (directed_arc g D)). auto.
  - apply (adjacent_ext _ _ (directed_arc g D)). auto.
  - exists s. split; auto. rewrite Hs, !(directed_arc g D). tauto.
Qed.
Print Assumptions C22_oracle_search_skeleton.

Example C22_example : acyclic (directed ex_dag) /\ Permutation [4; 0; 3; 1; 2] (nodes ex_dag) /\
  ~ connected (g_of (adjacency_search (dsep_test ex_dag [4; 0; 3; 1; 2]) [4; 0; 3; 1; 2] 1)) 0 3 /\
  connected (g_of (fast_adjacency_search (dsep_test ex_dag [4; 0; 3; 1; 2]) [4; 0; 3; 1; 2] (1 # 20))) 0 4.
Proof.
  split; [apply C09_aux; [apply ex_dag_reachable|vm_compute; reflexivity]|].
  split. { apply NoDup_Permutation; [repeat constructor; simpl; intuition discriminate|
    apply (wf_nodup _ (reachable_WF _ _ ex_dag_reachable))|]. intro x. vm_compute. tauto. }
  split; [intro H; vm_compute in H; discriminate|vm_compute; reflexivity].
Qed.

(* ------------------------------------------------------------------ C23 *)
Theorem C23_pc_oracle_equals_dag2cpdag : forall S g alpha order, a_search S -> reachable KDiGraph g ->
  acyclic (directed g) -> (0 < alpha <= 1)%Q -> set_orders g order ->
  exists sk cg sep c, pc_fit S (dsep_test g (nodes g)) (nodes g) alpha = Ok (sk, cg, sep) /\
    dag2cpdag g order = Ok c /\ graph_equal cg c = Ok true /\ forall u v, get_edge cg u v = get_edge c u v.
Proof.
  intros S g alpha order HS R Ac [L0 L1] Ho. destruct (reach_arc g R Ac) as [D Aa].
  destruct (oracle_run S g (nodes g) alpha HS D (Permutation_refl _)) as [h [sep [calls [E [O I]]]]].
  destruct (oracle_pattern g D Aa (nodes g) (Permutation_refl _) alpha L0 L1 h sep calls O I) as [p [E0 P]].
  destruct (dag2cpdag_ok g order D Aa Ho) as [g0 [p2 [c2 [n2 [_ [_ [P2 [M2 [F2 [O2 _]]]]]]]]]].
  assert (G : geq p p2) by (apply (pattern_geq (arc g) (arc g) (nodes g)); auto; apply self_equiv).
  destruct (respects_meek p p2 G) as [c1 [c2' [r [Q1 [Q2 Q3]]]]]. rewrite M2 in Q2. inversion Q2; subst c2' r.
  exists h, c1, sep, c2. split.
  { unfold pc_fit. rewrite E. unfold run_on. rewrite (bind_run _ _ _ _ _ E0), Q1. auto. }
  split; auto. split.
  - destruct (graph_equal_ok c1 c2 (geq_l _ _ Q3) (geq_r _ _ Q3) (geq_kind _ _ Q3) (geq_nodes _ _ Q3)) as [b [Eb Hb]].
    rewrite Eb. f_equal. apply Hb. intros u v _ _. rewrite (geq_mk _ _ Q3). auto.
  - intros u v. apply get_edge_frame.
    + apply (geq_r _ _ Q3). + apply (geq_l _ _ Q3).
    + rewrite (geq_nodes _ _ Q3). tauto. + rewrite (geq_nodes _ _ Q3). tauto.
    + apply (geq_mk _ _ Q3). + apply (geq_mk _ _ Q3).
Qed.
Print Assumptions C23_pc_oracle_equals_dag2cpdag.

Definition cg_of (r : res (graph * graph * seps)) : graph := match r with Ok (_, c, _) => c | Err _ => ex_pdag end.
Example C23_example : acyclic (directed ex_m1) /\
  directed (cg_of (pc_fit adjacency_search (dsep_test ex_m1 (nodes ex_m1)) (nodes ex_m1) (1 # 20))) 1 3 /\
  undirected (cg_of (pc_fit fast_adjacency_search (dsep_test ex_m1 (nodes ex_m1)) (nodes ex_m1) (1 # 20))) 0 1.
Proof.
  split; [apply C09_aux; [apply ex_m1_reachable|vm_compute; reflexivity]|].
  split; vm_compute; reflexivity.
Qed.

(* ------------------------------------------------------------------ C24 *)
Theorem C24_pc_keeps_skeleton : forall S t names alpha, a_search S -> NoDup names -> answers t names ->
  exists sk cg sep, pc_fit S t names alpha = Ok (sk, cg, sep) /\
    nodes sk = names /\ nodes cg = names /\
    (forall u v, connected cg u v <-> connected sk u v) /\
    (forall u v, connected sk u v -> undirected sk u v) /\
    (forall u v, connected cg u v -> undirected cg u v \/ directed cg u v \/ directed cg v u) /\ loop_free cg.
Proof.
  intros S t names alpha HS ND A.
  destruct (search_outcome S t names alpha HS ND A) as [g [sep [calls [E [O I]]]]].
  assert (U := oc_ug _ _ _ _ _ _ O). assert (W := ug_wf _ _ U).
  destruct (rule0_kept sep g (ug_pg _ _ U)) as [p [E0 K0]].
  { intros x y C. left. eapply ug_und; eauto. }
  { intros x C. apply C. apply (ug_diag _ _ U). }
  { intros u v H. rewrite (ug_nodes _ _ U) in H. destruct (in_comb2_In _ _ _ H) as [Hu Hv].
    destruct (I u v Hu Hv) as [s [Es _]]; eauto. eapply in_comb2_neq; eauto. }
  destruct (meek_kept p (kp_pg _ _ K0) (kp_one _ _ K0)) as [cg [E1 K1]].
  assert (K := kept_trans _ _ _ K0 K1). assert (Wc := pg_wf _ (kp_pg _ _ K)).
  exists g, cg, sep. split.
  { unfold pc_fit. rewrite E. unfold run_on. rewrite (bind_run _ _ _ _ _ E0), E1. auto. }
  split; [apply (ug_nodes _ _ U)|]. split; [unfold nodes; rewrite (kp_nodes _ _ K); apply (ug_nodes _ _ U)|].
  split. { intros u v. rewrite !connected_p by auto. apply (kp_con _ _ K). }
  split. { intros u v C. apply connected_p in C; auto. apply undirected_p; auto. eapply ug_und; eauto. }
  split. { intros u v C. apply connected_p in C; auto. rewrite undirected_p, !directed_p by auto. apply (kp_one _ _ K). auto. }
  intros x C. apply connected_p in C; auto. apply (kp_con _ _ K) in C. apply C. apply (ug_diag _ _ U).
Qed.
Print Assumptions C24_pc_keeps_skeleton.

(** Contradictory separating sets: 0 - 1, 1 - 2, 2 - 3, and every remaining triple
    looks like a collider. *)
Definition chain_test : citest := fun u v z =>
  Ok (if (Nat.eqb u (S v) || Nat.eqb v (S u))%bool then 0 else 1)%Q.
Example C24_example : answers chain_test [0; 1; 2; 3] /\
  directed (cg_of (pc_fit adjacency_search chain_test [0; 1; 2; 3] (1 # 20))) 0 1 /\
  directed (cg_of (pc_fit adjacency_search chain_test [0; 1; 2; 3] (1 # 20))) 1 2 /\
  directed (cg_of (pc_fit adjacency_search chain_test [0; 1; 2; 3] (1 # 20))) 3 2.
Proof.
  split; [intros u v z _ _ _ _ _; eexists; reflexivity|]. repeat split; vm_compute; reflexivity.
Qed.

(* ------------------------------------------------------------------ C25 *)
(** Two queries share a cache entry exactly when they are the same query up to
    swapping the variables and permuting the condition. *)
Theorem C25_cache_key_identifies_query : forall x y z x' y' z',
  get_cache_key x y z = get_cache_key x' y' z' <->
  ((x = x' /\ y = y') \/ (x = y' /\ y = x')) /\
  match z, z' with None, None => True | Some l, Some l' => Permutation l l' | _, _ => False end.
Proof. intros. apply key_iff. Qed.
Print Assumptions C25_cache_key_identifies_query.

(** Any sequence of calls on one test object, starting with an empty cache,
    returns what computing each statistic afresh returns. *)
Theorem C25_cache_transparent : forall (V : Type) (truthy : V -> bool) (stat : Z -> Z -> option (list Z) -> res V),
  (forall x y z, stat x y z = stat y x z) ->
  (forall x y l l', Permutation l l' -> stat x y (Some l) = stat x y (Some l')) ->
  forall qs : list (Z * Z * option (list Z)),
    snd (itests truthy stat [] qs) = map (fun q => stat (fst (fst q)) (snd (fst q)) (snd q)) qs.
Proof.
  intros V truthy stat Sy Pe qs.
  rewrite (itests_ok truthy stat (fun _ _ _ => True)).
  - apply map_ext. intros [[x y] z]. auto.
  - intros x y z x' y' z' _ _ [[[-> ->]|[-> ->]] H].
    + destruct z, z'; try tauto. auto.
    + rewrite Sy. destruct z, z'; try tauto. auto.
  - intros k v H. discriminate.
  - auto.
Qed.
Print Assumptions C25_cache_transparent.

(** The same for the d-separation test, whose statistic is symmetric. *)
Definition valid_ids (names : list nat) (x y : Z) (z : option (list Z)) : Prop :=
  let ok := fun i => (0 <= i < Z.of_nat (length names))%Z in
  ok x /\ ok y /\ exists l, z = Some l /\ forall i, In i l -> ok i.

Lemma name_of_ok : forall names i, (0 <= i < Z.of_nat (length names))%Z ->
  name_of names (Z.to_nat i) = Ok (nth (Z.to_nat i) names 0) /\ In (nth (Z.to_nat i) names 0) names.
Proof.
  intros names i H. assert (L : Z.to_nat i < length names) by lia.
  split; [|apply nth_In; auto]. unfold name_of. destruct (nth_error names (Z.to_nat i)) eqn:E.
  - rewrite (nth_error_nth _ _ _ E). auto.
  - apply nth_error_None in E. lia.
Qed.
Lemma names_of_ok : forall names l, (forall i, In i l -> (0 <= i < Z.of_nat (length names))%Z) ->
  mapE (name_of names) (map Z.to_nat l) = Ok (map (fun i => nth (Z.to_nat i) names 0) l).
Proof.
  intros names l. induction l as [|i l IH]; intro H; simpl; auto.
  destruct (name_of_ok names i) as [-> _]; [apply H; simpl; auto|]. simpl. rewrite IH; auto. intros; apply H; simpl; auto.
Qed.

Theorem C25_dsep_cache_transparent : forall g names truthy qs, reachable KDiGraph g -> incl names (nodes g) ->
  (forall x y z, In (x, y, z) qs -> valid_ids names x y z) ->
  snd (itests truthy (dsep_stat g names) [] qs) = map (fun q => dsep_stat g names (fst (fst q)) (snd (fst q)) (snd q)) qs.
Proof.
  intros g names truthy qs R Hn Hq. assert (D := reachable_DG _ R).
  rewrite (itests_ok truthy (dsep_stat g names) (valid_ids names)).
  - apply map_ext. intros [[x y] z]. auto.
  - intros x y z x' y' z' (V1 & V2 & l & -> & Vl) (V3 & V4 & l' & -> & Vl') [HP P].
    unfold dsep_stat, dsep_cal_stats. rewrite !names_of_ok by auto. cbn [rbind].
    destruct (name_of_ok names x V1) as [-> Ix]. destruct (name_of_ok names y V2) as [-> Iy].
    destruct (name_of_ok names x' V3) as [-> Ix']. destruct (name_of_ok names y' V4) as [-> Iy']. cbn [rbind].
    assert (IL : forall m, (forall i, In i m -> (0 <= i < Z.of_nat (length names))%Z) ->
      incl (map (fun i => nth (Z.to_nat i) names 0) m) (node_list g)).
    { intros m Hm w Hw. apply in_map_iff in Hw. destruct Hw as [i [<- Hi]]. apply Hn. apply name_of_ok. auto. }
    rewrite !sepb_ok by auto. cbn [rbind].
    assert (SE : forall w, In w (map (fun i => nth (Z.to_nat i) names 0) l) <-> In w (map (fun i => nth (Z.to_nat i) names 0) l')).
    { intro w. split; apply Permutation_in; apply Permutation_map; auto. apply Permutation_sym. auto. }
    match goal with |- Ok (if ?a then _ else _) = Ok (if ?b then _ else _) => assert (EQ : a = true <-> b = true) end.
    { rewrite !sepb_iff by auto. rewrite (dsep_Zext (arc g) _ _ _ _ SE).
      destruct HP as [[-> ->]|[-> ->]]; [tauto|]. apply dsep_sym. }
    repeat match goal with |- context [sepb g ?a ?b ?c] => destruct (sepb g a b c) end; auto; exfalso; intuition discriminate.
  - intros k v H. discriminate.
  - auto.
Qed.
Print Assumptions C25_dsep_cache_transparent.

Example C25_example : valid_ids [4; 0; 3; 1; 2] 1 3 (Some [2; 0]%Z) /\ valid_ids [4; 0; 3; 1; 2] 3 1 (Some [0; 2]%Z) /\
  get_cache_key 12 3 (Some [2; 11]%Z) = get_cache_key 3 12 (Some [11; 2]%Z) /\
  get_cache_key 12 3 (Some [2; 11]%Z) = "I(3, 12 | 2, 11)"%string /\
  get_cache_key 1 23 (Some []) <> get_cache_key 12 3 (Some []) /\
  get_cache_key 1 2 None <> get_cache_key 1 2 (Some []).
Proof.
  assert (V : forall l, forallb (fun i => (0 <=? i) && (i <? 5))%Z l = true -> forall i, In i l -> (0 <= i < 5)%Z).
  { intros l H i Hi. rewrite forallb_forall in H. specialize (H i Hi). apply andb_true_iff in H.
    rewrite Z.leb_le, Z.ltb_lt in H. auto. }
  split; [split; [simpl; lia|split; [simpl; lia|eexists; split; [reflexivity|apply V; reflexivity]]]|].
  split; [split; [simpl; lia|split; [simpl; lia|eexists; split; [reflexivity|apply V; reflexivity]]]|].
  split; [reflexivity|]. split; [reflexivity|]. split; intro H; vm_compute in H; discriminate.
Qed.
