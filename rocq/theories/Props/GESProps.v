(** C28-C33: greedy equivalence search. *)

From Coq Require Import List Arith Bool Lia ZArith QArith Sorted Permutation.
From Verif Require Import Model.Py Model.Graph Model.DiGraph Model.PDAG Model.Pdag2Dag Model.GES.
From Verif Require Import Spec.API Spec.Digraphs Spec.PDAGs Spec.GESSpec.
From Verif Require Import Proofs.PyFacts Proofs.GraphFacts Proofs.HistoryFacts Proofs.PDAGFacts Proofs.MeekFacts
  Proofs.Pdag2DagFacts Proofs.GESSubsets Proofs.GESPaths Proofs.GESScan Proofs.GESFit.
From Verif Require Import Props.Examples Props.CpdagProps Props.Pdag2DagProps.
Import ListNotations.
Open Scope nat_scope.

(* ------------------------------------------------------------------ C28 *)
Theorem C28_every_subset_once : forall T0, NoDup T0 ->
  (forall c, In c (Combinatorial T0) -> NoDup c /\ incl c T0) /\
  forall S : nat -> bool, exists k, k < length (Combinatorial T0) /\
    (forall x, In x (nth k (Combinatorial T0) []) <-> In x T0 /\ S x = true) /\
    forall k', k' < length (Combinatorial T0) ->
      (forall x, In x (nth k' (Combinatorial T0) []) <-> In x T0 /\ S x = true) -> k' = k.
Proof.
  intros T0 ND. split.
  - intros c H. apply (Combinatorial_In T0 c) in H; auto. destruct H as [f ->]. split; [apply NoDup_filter; auto|].
    intros x Hx. apply filter_In in Hx. tauto.
  - intro S. assert (H : In (filter S T0) (Combinatorial T0)) by (apply Combinatorial_In; eauto).
    destruct (In_nth _ _ [] H) as [k [Hk Ek]]. exists k. split; auto. split; [intro x; rewrite Ek; apply filter_In|].
    intros k' Hk' H'. apply (NoDup_nth (Combinatorial T0) []); auto; [apply Combinatorial_NoDup; auto|].
    rewrite Ek. assert (Hin : In (nth k' (Combinatorial T0) []) (Combinatorial T0)) by (apply nth_In; auto).
    apply Combinatorial_In in Hin; auto. destruct Hin as [f Ef]. rewrite Ef in *.
    apply filter_ext_in. intros x Hx. specialize (H' x). rewrite filter_In in H'. destruct (f x), (S x); auto.
    + symmetry. apply H'. auto.
    + apply H'. auto.
Qed.
Print Assumptions C28_every_subset_once.

Theorem C28_find_subset_include : forall s sub,
  length (find_subset_include s sub) = length sub /\
  forall k, k < length sub -> (nth k (find_subset_include s sub) false = true <-> incl s (nth k sub [])).
Proof. intros s sub. split; [apply find_subset_length|]. intros k Hk. apply find_subset_ok. auto. Qed.
Print Assumptions C28_find_subset_include.

Theorem C28_check_clique : forall g S, reachable KPDAG g -> NoDup S -> (forall a, In a S -> a < vars g) ->
  exists b, check_clique g S = Ok b /\
    (b = true <-> forall a c, In a S -> In c S -> a <> c -> connected g (name g a) (name g c)).
Proof.
  intros g S R ND HS. destruct (clique_test g (reachable_PG g R) S ND HS) as [b [E H]]. exists b. split; auto.
Qed.
Print Assumptions C28_check_clique.

(** 0 - 1, 0 - 2, 1 -> 2, 2 - 3 on the nodes 10 .. 13. *)
Definition ex_tri : graph :=
  build KPDAG [10; 11; 12; 13] [Edge 10 11 Tail Tail; Edge 10 12 Tail Tail; Edge 11 12 Tail Arrow; Edge 12 13 Tail Tail].
Lemma ex_tri_reachable : reachable KPDAG ex_tri.
Proof. eapply build_reachable. reflexivity. Qed.

Example C28_example :
  Combinatorial [4; 7; 9] = [[]; [4]; [7]; [9]; [4; 7]; [4; 9]; [7; 9]; [4; 7; 9]] /\
  find_subset_include [7] (Combinatorial [4; 7; 9]) = [false; false; true; false; true; false; true; true] /\
  check_clique ex_tri [2; 0; 1] = Ok true /\ check_clique ex_tri [1; 2; 3] = Ok false.
Proof. repeat split; vm_compute; reflexivity. Qed.

(* ------------------------------------------------------------------ C29 *)
Theorem C29_path_condition : forall g i j NAT, reachable KPDAG g -> loop_free g -> j < vars g ->
  exists b, Insert_vC2_new g j i NAT = Ok b /\
    (b = true <-> forall p, semi_path_from_to g j i p -> exists x, In x p /\ x <> i /\ In x NAT).
Proof.
  intros g i j NAT R L Hj. assert (P := reachable_PG g R).
  assert (NL : forall u, ~ conp g u u) by (intros u C; apply (L u); apply connected_p; auto; apply (pg_wf g P)).
  destruct (vC2_ok g P NL j i NAT Hj) as [b [E H]]. exists b. split; auto. rewrite H.
  apply blocked_iff; auto. apply (pg_wf g P).
Qed.
Print Assumptions C29_path_condition.

Example C29_example : loop_free ex_tri /\ vars ex_tri = 4 /\
  semi_path_from_to ex_tri 1 3 [1; 2; 3] /\ semi_path_from_to ex_tri 1 3 [1; 0; 2; 3] /\
  Insert_vC2_new ex_tri 1 3 [] = Ok false /\ Insert_vC2_new ex_tri 1 3 [0; 3] = Ok false /\
  Insert_vC2_new ex_tri 1 3 [2] = Ok true.
Proof.
  assert (W : WF ex_tri) by (eapply reachable_WF; apply ex_tri_reachable).
  split; [apply lfb_ok; [exact W|vm_compute; reflexivity]|]. split; [reflexivity|].
  assert (A12 : arrow_i ex_tri 1 2) by (vm_compute; reflexivity).
  assert (U : und_i ex_tri 1 0 /\ und_i ex_tri 0 2 /\ und_i ex_tri 2 3) by (repeat split; vm_compute; reflexivity).
  destruct U as [U1 [U2 U3]].
  split; [|split; [|repeat split; vm_compute; reflexivity]].
  - split; [repeat constructor; simpl; intuition discriminate|].
    split; [simpl; intros x [<-|[<-|[<-|[]]]]; vm_compute; lia|]. split; [reflexivity|]. split; [reflexivity|].
    simpl. auto.
  - split; [repeat constructor; simpl; intuition discriminate|].
    split; [simpl; intros x [<-|[<-|[<-|[<-|[]]]]]; vm_compute; lia|]. split; [reflexivity|]. split; [reflexivity|].
    simpl. auto.
Qed.

(* ------------------------------------------------------------------ C30 *)
(** The operators whose score a scan computes, in order. *)
Definition scored (s : scan) : list (nat * nat * list nat) := map fst (sc_evals s).

Lemma scan_hyps : forall g, reachable KPDAG g -> loop_free g -> PG g /\ forall u, ~ conp g u u.
Proof.
  intros g R L. assert (P := reachable_PG g R). split; auto.
  intros u C; apply (L u); apply connected_p; auto; apply (pg_wf g P).
Qed.

Theorem C30_forward_scan_exact : forall g sf max_p m, reachable KPDAG g -> loop_free g ->
  exists s, forward_scan sf max_p g (vars g) m = Ok s /\ NoDup (scored s) /\
    forall i j T, In (i, j, T) (scored s) <-> insert_op g max_p i j T /\ insert_valid g i j T.
Proof.
  intros g sf max_p m R L. destruct (scan_hyps g R L) as [P NL].
  destruct (forward_scan_ok g P NL sf (fun _ => True) (fun _ _ _ _ => True)) with (max_p := max_p) (m := m)
    as [s [ops [E [[_ [_ [Ev _]]] [ND H]]]]]; auto.
  { intros i j T m' Hi Hj _. destruct (insert_score_total g P sf i j T m' Hi Hj) as [[q m''] E]. exists q, m''. auto. }
  exists s. split; auto. unfold scored. rewrite Ev. auto.
Qed.
Print Assumptions C30_forward_scan_exact.

Theorem C30_backward_scan_exact : forall g ord sf m, reachable KPDAG g -> loop_free g -> set_order ord ->
  exists s, backward_scan ord sf g (vars g) m = Ok s /\ NoDup (scored s) /\
    forall i j H, In (i, j, H) (scored s) <-> delete_op g i j H /\ delete_valid g i j H.
Proof.
  intros g ord sf m R L Ho. destruct (scan_hyps g R L) as [P NL].
  destruct (backward_scan_ok g P sf (fun _ => True) (fun _ _ _ _ => True) ord Ho) with (m := m)
    as [s [ops [E [[_ [_ [Ev _]]] [ND H]]]]]; auto.
  { intros i j T m' Hi Hj _. destruct (delete_score_total g P sf ord i j T m' Hi Hj) as [[q m''] E]. exists q, m''. auto. }
  exists s. split; auto. unfold scored. rewrite Ev. auto.
Qed.
Print Assumptions C30_backward_scan_exact.

(** 2 - 1, 2 - 3: T = [1; 3] is not a clique, so Insert(0, 2, [1; 3]) is skipped. *)
Definition ex_vee : graph := build KPDAG [0; 1; 2; 3] [Edge 2 1 Tail Tail; Edge 2 3 Tail Tail].
Lemma ex_vee_reachable : reachable KPDAG ex_vee.
Proof. eapply build_reachable. reflexivity. Qed.
Definition zero_score : lscore := fun _ _ => 0%Q.
Definition get_scan (r : res scan) : scan := match r with Ok s => s | Err _ => start_scan [] end.

(** 0 - 1 with the common neighbours 2 and 3: Delete(0, 1, []) is not valid. *)
Definition ex_diamond : graph :=
  build KPDAG [0; 1; 2; 3] [Edge 0 1 Tail Tail; Edge 0 2 Tail Tail; Edge 0 3 Tail Tail; Edge 1 2 Tail Tail; Edge 1 3 Tail Tail].
Lemma ex_diamond_reachable : reachable KPDAG ex_diamond.
Proof. eapply build_reachable. reflexivity. Qed.

Example C30_example : loop_free ex_vee /\ loop_free ex_diamond /\ set_order (fun l => l) /\
  scored (get_scan (forward_scan zero_score 2 ex_vee 4 (repeat [] 4)))
    = [(0, 1, []); (0, 1, [2]); (0, 2, []); (0, 2, [1]); (0, 2, [3]); (0, 3, []); (0, 3, [2]); (1, 0, []);
       (1, 3, []); (2, 0, []); (3, 0, []); (3, 1, [])] /\
  filter (fun o => Nat.ltb (fst (fst o)) 1) (scored (get_scan (backward_scan (fun l => l) zero_score ex_diamond 4 (repeat [] 4))))
    = [(0, 1, [2]); (0, 1, [3]); (0, 1, [2; 3]); (0, 2, []); (0, 2, [1]); (0, 3, []); (0, 3, [1])].
Proof.
  split; [apply lfb_ok; [eapply reachable_WF; apply ex_vee_reachable|vm_compute; reflexivity]|].
  split; [apply lfb_ok; [eapply reachable_WF; apply ex_diamond_reachable|vm_compute; reflexivity]|].
  split; [intros l ND; split; [auto|intro; tauto]|]. split; vm_compute; reflexivity.
Qed.

(* ------------------------------------------------------------------ C31 *)
(** The tables that arise from calls of the two score functions. *)
Inductive memo_history (sf : lscore) (ord : list nat -> list nat) (n : nat) : memo -> Prop :=
| mh_start : memo_history sf ord n (repeat [] n)
| mh_insert : forall m g i j T q m', memo_history sf ord n m -> reachable KPDAG g -> vars g = n -> i < n -> j < n ->
    Insert_changed_score g i j T m sf = Ok (q, m') -> memo_history sf ord n m'
| mh_delete : forall m g i j H q m', memo_history sf ord n m -> reachable KPDAG g -> vars g = n -> i < n -> j < n ->
    Delete_changed_score ord g i j H m sf = Ok (q, m') -> memo_history sf ord n m'.

Lemma memo_history_ok : forall sf ord n m, set_score sf -> set_order ord -> memo_history sf ord n m -> memo_ok sf n m.
Proof.
  intros sf ord n m HS Ho H. induction H as [|m g i j T q m' H IH R En Hi Hj E|m g i j T q m' H IH R En Hi Hj E].
  - apply memo_start.
  - subst n. destruct (insert_score_ok g (reachable_PG g R) sf i j T m Hi Hj HS IH) as [q' [m'' [E' [HM _]]]].
    assert (m'' = m') by congruence. subst. auto.
  - subst n. destruct (delete_score_ok g (reachable_PG g R) sf ord Ho i j T m Hi Hj HS IH) as [q' [m'' [E' [HM _]]]].
    assert (m'' = m') by congruence. subst. auto.
Qed.

Theorem C31_operator_scores_exact : forall sf ord n m g i j T,
  set_score sf -> set_order ord -> memo_history sf ord n m -> reachable KPDAG g -> vars g = n -> i < n -> j < n ->
  (exists q m', Insert_changed_score g i j T m sf = Ok (q, m') /\ insert_gain sf g i j T q) /\
  (exists q m', Delete_changed_score ord g i j T m sf = Ok (q, m') /\ delete_gain sf g i j T q).
Proof.
  intros sf ord n m g i j T HS Ho H R En Hi Hj. assert (HM := memo_history_ok sf ord n m HS Ho H). subst n.
  destruct (insert_score_ok g (reachable_PG g R) sf i j T m Hi Hj HS HM) as [q [m' [E [_ Q]]]].
  destruct (delete_score_ok g (reachable_PG g R) sf ord Ho i j T m Hi Hj HS HM) as [q' [m'' [E' [_ Q']]]].
  split; [exists q, m'|exists q', m'']; auto.
Qed.
Print Assumptions C31_operator_scores_exact.

(** The table itself: row j records local scores of variable j; the marker -1
    stands for the empty parent set. *)
Theorem C31_table_correct : forall sf ord n m j ps s,
  set_score sf -> set_order ord -> memo_history sf ord n m -> j < n -> In (ps, s) (nth j m []) ->
  exists l, s = sf j l /\ ((ps = [(-1)%Z] /\ l = []) \/ ps = map Z.of_nat l).
Proof.
  intros sf ord n m j ps s HS Ho H Hj Hin. destruct (memo_history_ok sf ord n m HS Ho H) as [_ M].
  destruct (M j ps s Hj Hin) as [[-> ->]|[l [-> ->]]]; eauto.
Qed.
Print Assumptions C31_table_correct.

(** Without the assumption on the score the claim fails: a score that looks at
    the first listed parent. *)
Definition first_score : lscore := fun _ l => inject_Z (match l with a :: _ => Z.of_nat a + 1 | [] => 0 end).

(** The parents of 2 in [ex_col]: 0 -> 2 <- 1. *)
Definition ex_col : graph := build KPDAG [0; 1; 2; 3] [Edge 0 2 Tail Arrow; Edge 1 2 Tail Arrow].
Lemma ex_col_reachable : reachable KPDAG ex_col.
Proof. eapply build_reachable. reflexivity. Qed.
(** A score that depends on the parent set. *)
Definition sum_score : lscore := fun j l => inject_Z (fold_right Z.add 0%Z (map (fun x => Z.of_nat ((x + 1) * (x + 1))) (np_unique l))).
Lemma np_unique_ext : forall l l', (forall x, In x l <-> In x l') -> np_unique l = np_unique l'.
Proof.
  intros l l' H. apply sorted_ext; try apply np_unique_sorted. intro x. rewrite !np_unique_In. auto.
Qed.
Lemma sum_score_set : set_score sum_score.
Proof. intros j l l' H. unfold sum_score. rewrite (np_unique_ext l l' H). auto. Qed.

Definition ex_memo : memo :=
  match Insert_changed_score ex_col 3 2 [] (repeat [] 4) sum_score with Ok (_, m) => m | Err _ => [] end.
Definition gain_of (r : res (Q * memo)) : Q := match r with Ok (q, _) => q | Err _ => 0%Q end.
Example C31_example : set_score sum_score /\ memo_history sum_score (fun l => l) 4 ex_memo /\
  ex_memo = [[]; []; [([0; 1; 3]%Z, 21%Q); ([0; 1]%Z, 5%Q)]; []] /\
  gain_of (Insert_changed_score ex_col 3 2 [] ex_memo zero_score) = 16%Q /\
  gain_of (Delete_changed_score (@rev nat) ex_col 1 2 [] ex_memo sum_score) = (-4)%Q /\
  ~ set_score first_score.
Proof.
  split; [apply sum_score_set|]. split.
  { apply (mh_insert _ _ _ (repeat [] 4) ex_col 3 2 [] 16%Q); try lia.
    - apply mh_start.
    - apply ex_col_reachable.
    - reflexivity.
    - vm_compute. reflexivity. }
  split; [vm_compute; reflexivity|]. split; [vm_compute; reflexivity|]. split; [vm_compute; reflexivity|].
  intro H. specialize (H 0 [1; 2] [2; 1]). assert (X : first_score 0 [1; 2] = first_score 0 [2; 1]).
  { apply H. simpl. tauto. } discriminate.
Qed.

(* ------------------------------------------------------------------ C32 *)
(** The change of the skeleton in one step. *)
Definition adds_one_pair (s : step) : Prop :=
  let '(i, j, _) := st_op s in i <> j /\ ~ connected (st_graph s) i j /\
    forall x y, connected (st_next s) x y <-> connected (st_graph s) x y \/ same_pair x y i j.
Definition removes_one_pair (s : step) : Prop :=
  let '(i, j, _) := st_op s in i <> j /\ connected (st_graph s) i j /\
    forall x y, connected (st_next s) x y <-> connected (st_graph s) x y /\ ~ same_pair x y i j.
(** A valid operator turns the visited graph [h] into [p]. *)
Definition operator_result (max_p : Q) (h p : graph) : Prop := exists i j T,
  (insert_op h max_p i j T /\ insert_valid h i j T /\ run_on (Insert i j T) h = Ok p) \/
  (delete_op h i j T /\ delete_valid h i j T /\ run_on (Delete i j T) h = Ok p).

Lemma good_con : forall n g, good n g -> forall u v, connected g u v <-> conp g u v.
Proof. intros n g G u v. apply connected_p. apply (pg_wf g (gd_pg n g G)). Qed.

Theorem C32_one_edge_per_step_and_termination : forall fuel order ord sf max_p n,
  orders_ok order -> set_order ord -> n <= fuel ->
  (exists g0 g1 g s tr1 tr2, ges_fit fuel order ord sf max_p n = Ok (g, s, tr1, tr2) /\
     (forall x y, ~ connected g0 x y) /\ chain g0 tr1 g1 /\ chain g1 tr2 g /\
     Forall adds_one_pair tr1 /\ Forall removes_one_pair tr2 /\
     length tr1 <= n * (n - 1) / 2 /\ length tr2 <= n * (n - 1) / 2) \/
  (ges_fit fuel order ord sf max_p n = Err OutOfFuel /\
     exists h p, visited fuel order max_p n h /\ operator_result max_p h p /\
       forall fuel', pdag2dag fuel' p = Err OutOfFuel).
Proof.
  intros fuel order ord sf max_p n Ho Hord Hf.
  destruct (fit_ok n fuel order ord sf max_p Ho Hord Hf (fun _ => True) (fun _ _ _ _ _ => True) (fun _ _ _ _ _ => True))
    as [[g0 [g1 [g2 [s1 [s2 [tr1 [tr2 H]]]]]]]|[E [h [i [j [T [p [Gh [Vh [Gp [Nx [Op _]]]]]]]]]]]]; auto.
  - intros g i j T m G Hi Hj _. assert (Ev := good_vars n g G).
    destruct (insert_score_total g (gd_pg n g G) sf i j T m) as [[q m'] E]; try (rewrite Ev; auto). exists q, m'. auto.
  - intros g i j T m G Hi Hj _. assert (Ev := good_vars n g G).
    destruct (delete_score_total g (gd_pg n g G) sf ord i j T m) as [[q m'] E]; try (rewrite Ev; auto). exists q, m'. auto.
  - destruct H as [E [G0 [G [V [C0 [Ch1 [Ch2 [L1 [L2 [_ [_ [F1 [F2 _]]]]]]]]]]]]].
    left. exists g0, g1, g2, s2, tr1, tr2. split; auto. split; [|split; auto; split; auto; split; [|split]].
    + intros x y. rewrite (good_con n g0 G0). auto.
    + eapply Forall_impl; [|exact F1]. intros st [S1 S2 _ S3 _ _]. red. destruct (st_op st) as [[i j] T].
      destruct S3 as [[O _] [_ [K _]]]. destruct (insert_step n _ max_p i j T S1 O) as [_ [_ [N [C _]]]].
      split; auto. split; [rewrite (good_con n _ S1); auto|]. intros x y. rewrite (good_con n _ S1), (good_con n _ S2). apply K.
    + eapply Forall_impl; [|exact F2]. intros st [S1 S2 _ S3 _ _]. red. destruct (st_op st) as [[i j] T].
      destruct S3 as [[O _] [_ [K _]]]. destruct (delete_step n _ i j T S1 O) as [_ [_ [N [C _]]]].
      split; auto. split; [rewrite (good_con n _ S1); auto|]. intros x y. rewrite (good_con n _ S1), (good_con n _ S2). apply K.
    + auto.
  - right. split; auto. exists h, p. split; auto. split.
    + exists i, j, T. tauto.
    + apply (not_extendable n p Gp Nx).
Qed.
Print Assumptions C32_one_edge_per_step_and_termination.

(** Variable 2 prefers 0, then 0 and 1, then 0, 1 and 3, and best of all 1 and 3:
    three insertions, then one deletion. *)
Definition ex_table (j : nat) (ps : list nat) : Z :=
  match j, ps with
  | _, [] => 0%Z | 2, [0] => 5%Z | 2, [1] => 1%Z | 2, [0; 1] => 7%Z | 2, [0; 3] => 6%Z | 2, [0; 1; 3] => 10%Z
  | 2, [1; 3] => 12%Z | _, _ => (-1)%Z
  end.
Definition ex_score : lscore := fun j ps => inject_Z (ex_table j (np_unique ps)).
Lemma ex_score_set : set_score ex_score.
Proof. intros j l l' H. unfold ex_score. rewrite (np_unique_ext l l' H). auto. Qed.
Lemma list_orders : orders_ok list_order.
Proof. intros d u v k R. apply (list_order_ok _ d R). Qed.
Lemma id_order : set_order (fun l => l).
Proof. intros l ND; split; [auto|intro; tauto]. Qed.

Definition ex_fit : graph * Q * list step * list step :=
  match ges_fit 4 list_order (fun l => l) ex_score (default_max_p 4) 4 with Ok r => r | Err _ => (ex_vee, 0%Q, [], []) end.
Example C32_example : orders_ok list_order /\ set_order (fun l => l) /\
  ges_fit 4 list_order (fun l => l) ex_score (default_max_p 4) 4 = Ok ex_fit /\
  let '(g, s, tr1, tr2) := ex_fit in
  edges g = Ok [Edge 1 2 Tail Arrow; Edge 2 3 Arrow Tail] /\ (s == 12)%Q /\
  map st_op tr1 = [(0, 2, []); (1, 2, [0]); (3, 2, [])] /\ map st_op tr2 = [(0, 2, [])].
Proof.
  split; [apply list_orders|]. split; [apply id_order|]. split; [vm_compute; reflexivity|].
  vm_compute. repeat split; reflexivity.
Qed.

(* ------------------------------------------------------------------ C33 *)
(** The accepted operator is valid, its gain is its score change, positive, and
    no valid operator of the same kind has a larger one. *)
Definition best_insert (sf : lscore) (max_p : Q) (s : step) : Prop :=
  let '(i, j, T) := st_op s in let g := st_graph s in
  insert_op g max_p i j T /\ insert_valid g i j T /\ insert_gain sf g i j T (st_gain s) /\ (0 < st_gain s)%Q /\
  forall i' j' T' q, insert_op g max_p i' j' T' -> insert_valid g i' j' T' -> insert_gain sf g i' j' T' q -> (q <= st_gain s)%Q.
Definition best_delete (sf : lscore) (s : step) : Prop :=
  let '(i, j, H) := st_op s in let g := st_graph s in
  delete_op g i j H /\ delete_valid g i j H /\ delete_gain sf g i j H (st_gain s) /\ (0 < st_gain s)%Q /\
  forall i' j' H' q, delete_op g i' j' H' -> delete_valid g i' j' H' -> delete_gain sf g i' j' H' q -> (q <= st_gain s)%Q.

Lemma insert_gain_fun : forall sf g i j T q q', set_score sf -> insert_gain sf g i j T q -> insert_gain sf g i j T q' -> q = q'.
Proof.
  intros sf g i j T q q' HS [l [[_ L] ->]] [l' [[_ L'] ->]]. rewrite (HS j (i :: l) (i :: l')), (HS j l l'); auto.
  - intro x. rewrite L, L'. tauto.
  - intro x. simpl. rewrite L, L'. tauto.
Qed.
Lemma delete_gain_fun : forall sf g i j T q q', set_score sf -> delete_gain sf g i j T q -> delete_gain sf g i j T q' -> q = q'.
Proof.
  intros sf g i j T q q' HS [l [[_ L] ->]] [l' [[_ L'] ->]]. rewrite (HS j (i :: l) (i :: l')), (HS j l l'); auto.
  - intro x. rewrite L, L'. tauto.
  - intro x. simpl. rewrite L, L'. tauto.
Qed.

Theorem C33_score_and_local_optimum : forall fuel order ord sf max_p n g s tr1 tr2,
  set_score sf -> orders_ok order -> set_order ord -> n <= fuel ->
  ges_fit fuel order ord sf max_p n = Ok (g, s, tr1, tr2) ->
  exists g0 g1, (forall x y, ~ connected g0 x y) /\ chain g0 tr1 g1 /\ chain g1 tr2 g /\
    s = fold_left Qplus (map st_gain (tr1 ++ tr2)) (fold_left (fun a i => (a + sf i [])%Q) (seq 0 n) 0%Q) /\
    Forall (best_insert sf max_p) tr1 /\ Forall (best_delete sf) tr2 /\
    (forall i j T q, insert_op g1 max_p i j T -> insert_valid g1 i j T -> insert_gain sf g1 i j T q -> (q <= 0)%Q) /\
    (forall i j H q, delete_op g i j H -> delete_valid g i j H -> delete_gain sf g i j H q -> (q <= 0)%Q).
Proof.
  intros fuel order ord sf max_p n g s tr1 tr2 HS Ho Hord Hf E.
  destruct (fit_ok n fuel order ord sf max_p Ho Hord Hf (memo_ok sf n) (insert_gain sf) (delete_gain sf))
    as [[g0 [g1 [g2 [s1 [s2 [t1 [t2 H]]]]]]]|[E' _]].
  - apply memo_start.
  - intros h i j T m G Hi Hj HM. assert (Ev := good_vars n h G).
    rewrite <- Ev in HM |- *. apply insert_score_ok; auto; try (rewrite Ev; auto). apply (gd_pg n h G).
  - intros h i j T m G Hi Hj HM. assert (Ev := good_vars n h G).
    rewrite <- Ev in HM |- *. apply delete_score_ok; auto; try (rewrite Ev; auto). apply (gd_pg n h G).
  - destruct H as [E' [G0 [G [V [C0 [Ch1 [Ch2 [L1 [L2 [Es1 [Es2 [F1 [F2 [O1 O2]]]]]]]]]]]]]].
    rewrite E in E'. inversion E'; subst g2 t1 t2. subst s1. exists g0, g1.
    split; [intros x y; rewrite (good_con n g0 G0); auto|]. split; auto. split; auto.
    split; [rewrite map_app, fold_left_app; fold (empty_score sf n); congruence|]. split; [|split; [|split]].
    + eapply Forall_impl; [|exact F1]. intros st [S1 S2 _ S3 S4 S5]. red. destruct (st_op st) as [[i j] T].
      destruct S3 as [[Op Va] [Ga _]]. split; auto. split; auto. split; auto. split; auto.
      intros i' j' T' q X1 X2 X3. destruct (S5 i' j' T' (conj X1 X2)) as [q' [Q1 Q2]].
      rewrite (insert_gain_fun _ _ _ _ _ _ _ HS X3 Q1). auto.
    + eapply Forall_impl; [|exact F2]. intros st [S1 S2 _ S3 S4 S5]. red. destruct (st_op st) as [[i j] T].
      destruct S3 as [[Op Va] [Ga _]]. split; auto. split; auto. split; auto. split; auto.
      intros i' j' T' q X1 X2 X3. destruct (S5 i' j' T' (conj X1 X2)) as [q' [Q1 Q2]].
      rewrite (delete_gain_fun _ _ _ _ _ _ _ HS X3 Q1). auto.
    + intros i j T q X1 X2 X3. destruct (O1 i j T (conj X1 X2)) as [q' [Q1 Q2]].
      rewrite (insert_gain_fun _ _ _ _ _ _ _ HS X3 Q1). auto.
    + intros i j T q X1 X2 X3. destruct (O2 i j T (conj X1 X2)) as [q' [Q1 Q2]].
      rewrite (delete_gain_fun _ _ _ _ _ _ _ HS X3 Q1). auto.
  - congruence.
Qed.
Print Assumptions C33_score_and_local_optimum.

Example C33_example : set_score ex_score /\
  let '(g, s, tr1, tr2) := ex_fit in
  map (fun st => Qred (st_gain st)) tr1 = [5%Q; 2%Q; 3%Q] /\ map (fun st => Qred (st_gain st)) tr2 = [2%Q].
Proof. split; [apply ex_score_set|]. vm_compute. split; reflexivity. Qed.

(* ------------------------------------------------------------------ C50 *)
(** The pair x, y looks the same in both graphs. *)
Definition same_edge (g g' : graph) (x y : nat) : Prop :=
  (connected g' x y <-> connected g x y) /\ (directed g' x y <-> directed g x y) /\ (undirected g' x y <-> undirected g x y).

Lemma same_edge_mk : forall g g' x y, WF g -> WF g' -> mk g' x y = mk g x y -> mk g' y x = mk g y x -> same_edge g g' x y.
Proof.
  intros g g' x y W W' H1 H2. unfold same_edge. rewrite !connected_p, !directed_p, !undirected_p by auto.
  unfold conp, dirp, undp. rewrite H1, H2. tauto.
Qed.

Theorem C50_insert_effect : forall g i j T, reachable KPDAG g -> i < vars g -> j < vars g -> i <> j ->
  (forall t, In t T -> t < vars g /\ t <> j) ->
  exists g', Insert i j T g = (g', Ok tt) /\ nodes g' = nodes g /\
    (forall t, t = i \/ In t T -> directed g' (name g t) (name g j)) /\
    forall x y, (forall t, t = i \/ In t T -> ~ same_pair x y (name g t) (name g j)) -> same_edge g g' x y.
Proof.
  intros g i j T R Hi Hj N HT. assert (P := reachable_PG g R). assert (W := pg_wf g P).
  assert (Inj : forall a b, a < vars g -> b < vars g -> name g a = name g b -> a = b).
  { intros a b Ha Hb. apply (NoDup_nth (node_list g) 0); auto. apply (wf_nodup g W). }
  destruct (Insert_ok g P i j T Hi Hj) as [g' [E [P' N' An Ao]]].
  { intro Q. apply N. apply Inj; auto. }
  { intros t Ht. destruct (HT t Ht) as [H1 H2]. split; auto. }
  exists g'. split; auto. split; auto. assert (W' := pg_wf g' P').
  assert (St : forall t, t = i \/ In t T -> name g t = name g i \/ In (name g t) (map (name g) T)).
  { intros t [->|H]; auto. right. apply in_map. auto. }
  split.
  - intros t Ht. apply (directed_p g' _ _ W'). apply An. auto.
  - intros x y H.
    assert (Sx : forall z, z = name g i \/ In z (map (name g) T) -> exists t, (t = i \/ In t T) /\ z = name g t).
    { intros z [->|Hz]; [exists i; auto|]. apply in_map_iff in Hz. destruct Hz as [t [<- Ht]]. exists t. auto. }
    assert (A : ~ (y = name g j /\ (x = name g i \/ In x (map (name g) T)))).
    { intros [-> S]. destruct (Sx x S) as [t [Ht ->]]. apply (H t Ht). left. auto. }
    assert (B : ~ (x = name g j /\ (y = name g i \/ In y (map (name g) T)))).
    { intros [-> S]. destruct (Sx y S) as [t [Ht ->]]. apply (H t Ht). right. auto. }
    apply same_edge_mk; auto.
Qed.
Print Assumptions C50_insert_effect.

Theorem C50_delete_effect : forall g i j H, reachable KPDAG g -> i < vars g -> j < vars g -> i <> j ->
  (forall h, In h H -> h < vars g /\ h <> i /\ h <> j) ->
  exists g', Delete i j H g = (g', Ok tt) /\ nodes g' = nodes g /\
    ~ connected g' (name g i) (name g j) /\
    (forall h, In h H -> directed g' (name g i) (name g h) /\ directed g' (name g j) (name g h)) /\
    forall x y, ~ same_pair x y (name g i) (name g j) ->
      (forall h, In h H -> ~ same_pair x y (name g i) (name g h) /\ ~ same_pair x y (name g j) (name g h)) -> same_edge g g' x y.
Proof.
  intros g i j H R Hi Hj N HT. assert (P := reachable_PG g R). assert (W := pg_wf g P).
  assert (Inj : forall a b, a < vars g -> b < vars g -> name g a = name g b -> a = b).
  { intros a b Ha Hb. apply (NoDup_nth (node_list g) 0); auto. apply (wf_nodup g W). }
  destruct (Delete_ok g P i j H Hi Hj) as [g' [E [P' N' Ag An Ao]]].
  { intro Q. apply N. apply Inj; auto. }
  { intros t Ht. destruct (HT t Ht) as [H1 [H2 H3]]. split; auto. }
  exists g'. split; auto. split; auto. assert (W' := pg_wf g' P'). split; [|split].
  - rewrite connected_p by auto. unfold conp. tauto.
  - intros h Hh. rewrite !directed_p by auto. apply An. apply in_map. auto.
  - intros x y S H0.
    assert (A : forall a b, same_pair a b x y -> ~ ((a = name g i \/ a = name g j) /\ In b (map (name g) H))).
    { intros a b Sab [Q Hb]. apply in_map_iff in Hb. destruct Hb as [h [<- Hh]]. destruct (H0 h Hh) as [H1 H2].
      destruct Q as [->| ->]; [apply H1|apply H2]; destruct Sab as [[E1 E2]|[E1 E2]]; [left|right|left|right]; split; congruence. }
    assert (S' : ~ same_pair y x (name g i) (name g j)) by (unfold same_pair in *; tauto).
    apply same_edge_mk; auto; apply Ao; auto; try (apply A; unfold same_pair; tauto).
Qed.
Print Assumptions C50_delete_effect.

Example C50_example : exists g' g'',
  Insert 0 3 [2] ex_tri = (g', Ok tt) /\
  edges g' = Ok [Edge 10 11 Tail Tail; Edge 10 12 Tail Tail; Edge 10 13 Tail Arrow; Edge 11 12 Tail Arrow; Edge 12 13 Tail Arrow] /\
  Delete 0 1 [2] ex_tri = (g'', Ok tt) /\
  edges g'' = Ok [Edge 10 12 Tail Arrow; Edge 11 12 Tail Arrow; Edge 12 13 Tail Tail].
Proof.
  exists (fst (Insert 0 3 [2] ex_tri)), (fst (Delete 0 1 [2] ex_tri)). repeat split; vm_compute; reflexivity.
Qed.
