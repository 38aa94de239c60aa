(** C63: what get_performance measures. *)

From Coq Require Import List Arith Bool ZArith QArith Qabs Qround Lia Lqa.
From Verif Require Import Model.Py Model.Graph Model.DiGraph Model.Metrics Model.Performance Spec.API.
From Verif Require Import Proofs.PyFacts Proofs.GraphFacts Proofs.DiGraphFacts Proofs.HistoryFacts Proofs.PDAGFacts Proofs.MeekFacts Proofs.Pdag2DagFacts Proofs.NumpyFacts Proofs.PerformanceFacts.
From Verif Require Import Props.Examples Props.MetricProps.
Import ListNotations.
Open Scope nat_scope.

(** [l] lists the index pairs of an n x n matrix on which [P] holds, each once. *)
Definition lists_cells (n : nat) (P : nat -> nat -> Prop) (l : list (nat * nat)) : Prop :=
  NoDup l /\ forall i j, In (i, j) l <-> i < n /\ j < n /\ P i j.
(** The adjacency matrix of a directed graph: entries 0 and 1. *)
Definition zero_one (n : nat) (m : list (list Q)) : Prop := forall i j, i < n -> j < n ->
  (at_ij m i j == 0)%Q \/ (at_ij m i j == 1)%Q.

(** What counts as an edge of the true and of the estimated matrix. *)
Definition true_cell (dd : bool) (r : list (list Q)) (i j : nat) : Prop :=
  (at_ij r i j == 1)%Q /\ (dd = true -> i <> j).
Definition est_cell (dd : bool) (thr : Q) (f : list (list Q)) (i j : nat) : Prop :=
  if (dd && Nat.eqb i j)%bool then (thr < 0)%Q else (thr < Qabs (at_ij f i j))%Q.

Lemma est_in : forall n f thr dd, square n f -> forall i j, i < n -> j < n ->
  (negb (Qle_bool (at_ij (if dd : bool then minus_diag (map (map Qabs) f) else map (map Qabs) f) i j) thr) = true <->
   est_cell dd thr f i j).
Proof.
  intros n f thr dd Sf i j Hi Hj. assert (Sa := map_square n f Qabs Sf). rewrite negb_true_iff.
  assert (E : forall x, Qle_bool x thr = false <-> (thr < x)%Q).
  { intro x. split; intro H.
    - apply Qnot_le_lt. intro Q. apply Qle_bool_iff in Q. congruence.
    - destruct (Qle_bool x thr) eqn:B; auto. apply Qle_bool_iff in B. exfalso. lra. }
  rewrite E. unfold est_cell. destruct dd; cbn [andb].
  - rewrite (at_minus_diag n) by auto. rewrite (at_map n) by auto. destruct (Nat.eqb i j).
    + assert (Qabs (at_ij f i j) - Qabs (at_ij f i j) == 0)%Q by ring. split; intro H'; lra.
    + split; intro H'; lra.
  - rewrite (at_map n) by auto. tauto.
Qed.

(** For a 0/1 truth the function returns precision, recall and F1 of the cells
    of the estimate above the threshold in absolute value. *)
Theorem C63_matrix_scores : forall n f r thr dd, square n f -> square n r -> zero_one n r ->
  exists s T E C, get_performance (PArray f) (PArray r) thr dd = Ok (s, thr) /\ scored s T E C /\
    lists_cells n (true_cell dd r) T /\ lists_cells n (est_cell dd thr f) E /\
    lists_cells n (fun i j => true_cell dd r i j /\ est_cell dd thr f i j) C.
Proof.
  intros n f r thr dd Sf Sr Z. unfold get_performance. cbn [as_array rbind].
  set (r' := if dd then minus_diag r else r). set (f' := if dd then minus_diag (map (map Qabs) f) else map (map Qabs) f).
  assert (Sf' : square n f').
  { unfold f'. destruct dd; [apply minus_diag_square|]; apply map_square; auto. }
  assert (Sr' : square n r') by (unfold r'; destruct dd; [apply minus_diag_square|]; auto).
  assert (Er : forall i j, i < n -> j < n -> (at_ij r' i j == (if (dd && Nat.eqb i j)%bool then 0 else at_ij r i j))%Q).
  { intros i j Hi Hj. unfold r'. destruct dd; cbn [andb]; [|reflexivity]. rewrite (at_minus_diag n) by auto.
    destruct (Nat.eqb i j); ring. }
  rewrite (concat_ij n r' Sr'), (concat_ij n f' Sf'), map_map.
  rewrite sk_scores_01.
  2:{ rewrite !map_length. auto. }
  2:{ intros x Hx. apply in_map_iff in Hx. destruct Hx as [[i j] [<- H]]. apply in_ij in H. destruct H as [Hi Hj]. cbn [fst snd].
      specialize (Er i j Hi Hj). destruct (dd && Nat.eqb i j)%bool; [left; auto|]. destruct (Z i j Hi Hj); [left|right]; lra. }
  cbn [rbind]. rewrite map_map.
  set (ft := fun p : nat * nat => Z.eqb 1 (Qfloor (at_ij r' (fst p) (snd p)))).
  set (fe := fun p : nat * nat => negb (Qle_bool (at_ij f' (fst p) (snd p)) thr)).
  exists (evaluate (map ft (ij n)) (map fe (ij n))), (filter ft (ij n)), (filter fe (ij n)), (filter (fun p => ft p && fe p)%bool (ij n)).
  split; auto. split; [apply scored_map|].
  assert (HT : forall i j, i < n -> j < n -> (ft (i, j) = true <-> true_cell dd r i j)).
  { intros i j Hi Hj. unfold ft, true_cell. cbn [fst snd]. rewrite Z.eqb_eq. specialize (Er i j Hi Hj).
    destruct (dd && Nat.eqb i j)%bool eqn:B.
    - rewrite (floor_eq _ 0%Z) by auto. apply andb_true_iff in B. destruct B as [-> B]. apply Nat.eqb_eq in B.
      split; [discriminate|]. intros [_ H]. exfalso. exact (H eq_refl B).
    - destruct (Z i j Hi Hj) as [Q|Q].
      + rewrite (floor_eq _ 0%Z) by (rewrite Er; auto). split; [discriminate|]. intros [H _]. rewrite Q in H. discriminate H.
      + rewrite (floor_eq _ 1%Z) by (rewrite Er; auto). split; auto. intros _. split; auto.
        intros ->. cbn [andb] in B. apply Nat.eqb_neq in B. auto. }
  assert (HE : forall i j, i < n -> j < n -> (fe (i, j) = true <-> est_cell dd thr f i j)).
  { intros i j Hi Hj. unfold fe, f'. cbn [fst snd]. apply (est_in n); auto. }
  assert (Gen : forall (b : nat * nat -> bool) (P : nat -> nat -> Prop), (forall i j, i < n -> j < n -> (b (i, j) = true <-> P i j)) ->
    lists_cells n P (filter b (ij n))).
  { intros b P H. split; [apply NoDup_filter, ij_NoDup|]. intros i j. rewrite filter_In, in_ij. split.
    - intros [[Hi Hj] B]. split; auto. split; auto. apply H; auto.
    - intros [Hi [Hj B]]. split; auto. apply H; auto. }
  split; [apply Gen; auto|]. split; [apply Gen; auto|]. apply Gen. intros i j Hi Hj.
  rewrite andb_true_iff, HT, HE by auto. tauto.
Qed.
Print Assumptions C63_matrix_scores.

(** With a negative threshold every cell counts as predicted, the dropped
    diagonal included. *)
Theorem C63_negative_threshold : forall n f r thr dd, square n f -> square n r -> zero_one n r -> (thr < 0)%Q ->
  exists s T, get_performance (PArray f) (PArray r) thr dd = Ok (s, thr) /\ lists_cells n (true_cell dd r) T /\
    (precision s * inject_Z (Z.of_nat (n * n)) == inject_Z (Z.of_nat (length T)))%Q.
Proof.
  intros n f r thr dd Sf Sr Z N. destruct (C63_matrix_scores n f r thr dd Sf Sr Z) as [s [T [E [C [G [Sc [HT [HE HC]]]]]]]].
  exists s, T. split; auto. split; auto.
  assert (Al : forall i j, est_cell dd thr f i j).
  { intros i j. unfold est_cell. destruct (dd && Nat.eqb i j)%bool; auto. pose proof (Qabs_nonneg (at_ij f i j)). lra. }
  assert (Len : forall P l l', lists_cells n P l -> lists_cells n P l' -> length l = length l').
  { intros P l l' [N1 H1] [N2 H2]. apply Nat.le_antisymm; apply NoDup_incl_length; auto; intros [i j] H.
    - apply H2, H1, H. - apply H1, H2, H. }
  assert (LE : length E = n * n).
  { rewrite (Len (est_cell dd thr f) E (ij n)); auto.
    - unfold ij. rewrite prod_length, seq_length. auto.
    - split; [apply ij_NoDup|]. intros i j. rewrite in_ij. specialize (Al i j). tauto. }
  assert (LC : length C = length T).
  { apply (Len (true_cell dd r)); auto. destruct HC as [N1 H1]. split; auto. intros i j. rewrite H1. specialize (Al i j). tauto. }
  destruct Sc as [Sc _]. rewrite LE, LC in Sc. exact Sc.
Qed.
Print Assumptions C63_negative_threshold.

Definition ex_fit_m : list (list Q) := [[3; 1 # 2; 0]; [0; -1; -(7 # 10)]; [1 # 10; 0; 0]]%Q.
Definition ex_true_m : list (list Q) := [[0; 1; 0]; [0; 0; 0]; [1; 0; 0]]%Q.
Example C63_example : square 3 ex_fit_m /\ square 3 ex_true_m /\ zero_one 3 ex_true_m /\
  get_performance (PArray ex_fit_m) (PArray ex_true_m) (3 # 10) true = Ok (Scores (1 # 2) (1 # 2) (2 # 4), 3 # 10) /\
  get_performance (PArray ex_fit_m) (PArray ex_true_m) (-1) true = Ok (Scores (2 # 9) (2 # 2) (4 # 11), -1)%Q.
Proof.
  assert (S1 : square 3 ex_fit_m) by (split; [reflexivity|intros q [<-|[<-|[<-|[]]]]; reflexivity]).
  assert (S2 : square 3 ex_true_m) by (split; [reflexivity|intros q [<-|[<-|[<-|[]]]]; reflexivity]).
  split; auto. split; auto. split.
  - intros i j Hi Hj. destruct i as [|[|[|i]]]; [| | |lia]; destruct j as [|[|[|j]]]; try lia; vm_compute; auto.
  - split; vm_compute; reflexivity.
Qed.

(** The arguments that can be converted to an array. *)
Definition usable (a : perf_arg) : Prop :=
  match a with PGraph h => exists k, reachable k h | PArray _ => True end.
Lemma usable_ok : forall a, usable a -> exists m, as_array a = Ok m.
Proof.
  intros [h|m] H; [|eexists; reflexivity]. destruct H as [k R]. cbn [as_array].
  destruct (to_numpy_ok h (reachable_WF _ _ R)) as [m [E _]]. rewrite E. cbn [rbind]. eauto.
Qed.

Lemma graph_array : forall k g, reachable k g -> exists m, as_array (PGraph g) = Ok m /\ square (length (nodes g)) m /\
  forall i j u v, nth_error (nodes g) i = Some u -> nth_error (nodes g) j = Some v ->
    at_ij m j i = inject_Z (val (mk g u v)).
Proof.
  intros k g R. destruct (to_numpy_ok g (reachable_WF _ _ R)) as [m [E [[S1 S2] F]]]. cbn [as_array]. rewrite E. cbn [rbind].
  exists (map (map inject_Z) m). split; auto. split.
  - split; [rewrite map_length; auto|]. intros r H. apply in_map_iff in H. destruct H as [x [<- H]]. rewrite map_length. auto.
  - intros i j u v Hi Hj. rewrite <- (F i j u v Hi Hj). unfold at_ij, mat_get.
    assert (Li : i < length (node_list g)) by (apply nth_error_Some; unfold nodes in Hi; congruence).
    assert (Lj : j < length m) by (rewrite S1; apply nth_error_Some; unfold nodes in Hj; congruence).
    rewrite (nth_map' _ _ j []) by auto. rewrite (nth_map' _ _ i 0%Z); auto. rewrite S2; auto. apply nth_In. auto.
Qed.

(** A graph object with a tail anywhere cannot serve as the truth: the labels are
    not those of a binary problem. *)
Theorem C63_graph_truth_fails : forall k g u v fitted thr dd, reachable k g -> usable fitted -> u <> v ->
  is_tail g u v = Ok true -> dd = true \/ loop_free g ->
  get_performance fitted (PGraph g) thr dd = Err ValueError.
Proof.
  intros k g u v fitted thr dd R U Ne Ht Dd. assert (W := reachable_WF _ _ R).
  destruct (usable_ok fitted U) as [f Ef]. destruct (graph_array k g R) as [r [Er [Sr F]]].
  assert (Hm : mk g u v = Some Tail).
  { unfold is_tail in Ht.
    destruct (in_dec Nat.eq_dec u (node_list g)) as [Hu|Hu]; [destruct (in_dec Nat.eq_dec v (node_list g)) as [Hv|Hv]|].
    - rewrite is_mark_ok in Ht by auto. inversion Ht as [B]. apply (markb_p g) in B. auto.
    - unfold is_mark, is_connected in Ht. rewrite (check_ok g u), (check_err g v) in Ht by auto. discriminate.
    - unfold is_mark, is_connected in Ht. rewrite (check_err g u) in Ht by auto. discriminate. }
  assert (Hu : In u (nodes g)) by (apply (wf_in_l g u v W); congruence).
  assert (Hv : In v (nodes g)) by (apply (wf_in g W u v); congruence).
  apply In_nth_error in Hu, Hv. destruct Hu as [i Hi], Hv as [j Hj].
  assert (Li : i < length (nodes g)) by (apply nth_error_Some; congruence).
  assert (Lj : j < length (nodes g)) by (apply nth_error_Some; congruence).
  assert (Nij : j <> i) by (intros ->; congruence).
  assert (V := F i j u v Hi Hj). rewrite Hm in V. cbn [val mark_value] in V.
  unfold get_performance. rewrite Ef, Er. cbn [rbind].
  set (r' := if dd then minus_diag r else r). set (n := length (nodes g)) in *.
  assert (Sr' : square n r') by (unfold r'; destruct dd; [apply minus_diag_square|]; auto).
  assert (Cell : forall a b, a < n -> b < n -> In (at_ij r' a b) (concat r')).
  { intros a b Ha Hb. rewrite (concat_ij n r' Sr'). apply in_map_iff. exists (a, b). split; auto. apply in_ij. auto. }
  assert (V1 : (at_ij r' j i == inject_Z (-1))%Q).
  { unfold r'. destruct dd; [|rewrite V; reflexivity]. rewrite (at_minus_diag n) by auto.
    destruct (Nat.eqb_spec j i); [congruence|]. rewrite V. reflexivity. }
  assert (V0 : (at_ij r' i i == 0)%Q).
  { unfold r'. destruct dd.
    - rewrite (at_minus_diag n), Nat.eqb_refl by auto. ring.
    - destruct Dd as [Dd|Dd]; [discriminate|]. rewrite (F i i u u Hi Hi).
      destruct (mk g u u) as [m0|] eqn:Em; [|reflexivity]. exfalso. apply (Dd u). apply connected_p; auto.
      unfold conp. congruence. }
  rewrite (sk_scores_bad (concat r') _ (at_ij r' i i) (at_ij r' j i)); auto.
  - rewrite V1. discriminate.
  - rewrite V1. discriminate.
Qed.
Print Assumptions C63_graph_truth_fails.

(** Every edge of a DiGraph has a tail, so no DiGraph with an edge can serve. *)
Corollary C63_digraph_truth_fails : forall g u v fitted thr, reachable KDiGraph g -> usable fitted -> u <> v -> connected g u v ->
  get_performance fitted (PGraph g) thr true = Err ValueError.
Proof.
  intros g u v fitted thr R U Ne C. assert (W := reachable_WF _ _ R). assert (D := reachable_DG g R).
  assert (T : forall a b, In a (node_list g) -> In b (node_list g) -> mk g a b = Some Tail -> is_tail g a b = Ok true).
  { intros a b Ha Hb H. unfold is_tail. rewrite is_mark_ok by auto. f_equal. apply (markb_p g). auto. }
  apply connected_p in C; auto. assert (C1 : mk g u v <> None) by exact C.
  assert (Hu : In u (node_list g)) by (apply (wf_in_l g u v W); auto).
  assert (Hv : In v (node_list g)) by (apply (wf_in g W u v); auto).
  destruct (dg_marks g D u v Ne C1) as [[M1 M2]|[M1 M2]].
  - apply (C63_graph_truth_fails KDiGraph g v u); auto.
  - apply (C63_graph_truth_fails KDiGraph g u v); auto.
Qed.
Print Assumptions C63_digraph_truth_fails.

(** As an estimate a graph object stands for its skeleton: two graphs with the
    same nodes and the same connected pairs get the same scores. *)
Theorem C63_graph_estimate_is_skeleton : forall k k' g h real thr dd, k <> KGraph -> k' <> KGraph ->
  reachable k g -> reachable k' h -> nodes g = nodes h -> (forall u v, connected g u v <-> connected h u v) ->
  get_performance (PGraph g) real thr dd = get_performance (PGraph h) real thr dd.
Proof.
  intros k k' g h real thr dd K K' Rg Rh N C.
  destruct (graph_array k g Rg) as [a [Ea [Sa Fa]]]. destruct (graph_array k' h Rh) as [b [Eb [Sb Fb]]].
  rewrite <- N in Sb, Fb. unfold get_performance. rewrite Ea, Eb. cbn [rbind].
  assert (E : map (map Qabs) a = map (map Qabs) b); [|rewrite E; auto].
  assert (Ab : forall f kf, kf <> KGraph -> reachable kf f -> forall u v,
    Qabs (inject_Z (val (mk f u v))) = inject_Z (if connb f u v then 1 else 0)%Z).
  { intros f kf Kf Rf u v. unfold connb. destruct (mk f u v) as [m|] eqn:E; auto. destruct m; auto; exfalso.
    - destruct kf; [congruence| |].
      + assert (D := reachable_DG _ Rf). destruct (Nat.eq_dec u v) as [->|Ne].
        * destruct (dg_diag f D v); congruence.
        * destruct (dg_marks f D u v Ne) as [[? ?]|[? ?]]; congruence.
      + pose proof (reachable_PDAG _ Rf u v Null E) as Q. destruct Q; discriminate.
    - destruct kf; [congruence| |].
      + assert (D := reachable_DG _ Rf). destruct (Nat.eq_dec u v) as [->|Ne].
        * destruct (dg_diag f D v); congruence.
        * destruct (dg_marks f D u v Ne) as [[? ?]|[? ?]]; congruence.
      + pose proof (reachable_PDAG _ Rf u v Circle E) as Q. destruct Q; discriminate. }
  assert (Cb : forall u v, connb g u v = connb h u v).
  { intros u v. apply eq_true_iff_eq. rewrite !connb_p. specialize (C u v).
    rewrite !connected_p in C by (eapply reachable_WF; eauto). exact C. }
  set (n := length (nodes g)) in *.
  assert (Ext : forall x y, square n x -> square n y -> (forall i j, i < n -> j < n -> at_ij x i j = at_ij y i j) -> x = y).
  { intros x y [L1 R1] [L2 R2] H. apply nth_ext with (d := []) (d' := []); [congruence|]. intros i Hi.
    assert (Lx : length (nth i x []) = n) by (apply R1, nth_In; auto).
    assert (Ly : length (nth i y []) = n) by (apply R2, nth_In; lia).
    apply nth_ext with (d := 0%Q) (d' := 0%Q); [lia|]. intros j Hj. apply H; lia. }
  apply Ext; [apply map_square; auto|apply map_square; auto|]. intros j i Hj Hi.
  rewrite !(at_map n) by auto.
  destruct (nth_error (nodes g) i) as [u|] eqn:Ei; [|apply nth_error_None in Ei; unfold n in *; lia].
  destruct (nth_error (nodes g) j) as [v|] eqn:Ej; [|apply nth_error_None in Ej; unfold n in *; lia].
  rewrite (Fa i j u v Ei Ej), (Fb i j u v Ei Ej), (Ab g k), (Ab h k'), Cb; auto.
Qed.
Print Assumptions C63_graph_estimate_is_skeleton.

Definition ex_fwd : graph := build KDiGraph [0; 1; 2] [DEdge 0 1; DEdge 0 2].
Definition ex_back : graph := build KDiGraph [0; 1; 2] [DEdge 1 0; DEdge 2 0].
Example C63_graph_example : reachable KDiGraph ex_fwd /\ reachable KDiGraph ex_back /\ nodes ex_fwd = nodes ex_back /\
  connected ex_fwd 0 1 /\ usable (PGraph ex_back) /\
  (forall u v, connected ex_fwd u v <-> connected ex_back u v) /\
  get_performance (PGraph ex_back) (PArray [[0; 1; 1]; [0; 0; 0]; [0; 0; 0]]%Q) 0 true = Ok (Scores (2 # 4) (2 # 2) (4 # 6), 0%Q).
Proof.
  assert (R1 : reachable KDiGraph ex_fwd) by (eapply build_reachable; reflexivity).
  assert (R2 : reachable KDiGraph ex_back) by (eapply build_reachable; reflexivity).
  split; auto. split; auto. split; [reflexivity|]. split; [vm_compute; reflexivity|].
  split; [exists KDiGraph; auto|]. split; [|vm_compute; reflexivity].
  assert (W1 := reachable_WF _ _ R1). assert (W2 := reachable_WF _ _ R2).
  assert (In3 : forall g u v, WF g -> node_list g = [0; 1; 2] -> connb g u v = true -> In u [0; 1; 2] /\ In v [0; 1; 2]).
  { intros g u v W E H. apply connb_p in H. rewrite <- E. split; [apply (wf_in_l g u v W); auto|apply (wf_in g W u v); auto]. }
  intros u v. rewrite !connected_p by auto. rewrite <- !connb_p.
  split; intro H.
  - destruct (In3 ex_fwd u v W1 eq_refl H) as [Hu Hv].
    destruct Hu as [<-|[<-|[<-|[]]]]; destruct Hv as [<-|[<-|[<-|[]]]]; vm_compute in H |- *; auto.
  - destruct (In3 ex_back u v W2 eq_refl H) as [Hu Hv].
    destruct Hu as [<-|[<-|[<-|[]]]]; destruct Hv as [<-|[<-|[<-|[]]]]; vm_compute in H |- *; auto.
Qed.
