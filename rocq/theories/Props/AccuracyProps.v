(** C49: count_accuracy. *)

From Coq Require Import List Arith Bool Lia ZArith QArith Permutation Lqa.
From Verif Require Import Model.Py Model.Networkx Model.LHS Model.Accuracy Spec.Digraphs.
From Verif Require Import Proofs.PyFacts Proofs.FinGraph Proofs.RelExt Proofs.AccuracyFacts.
From Verif Require Proofs.NxFacts.
Import ListNotations.
Open Scope nat_scope.

(** The graph of a matrix on the nodes below [d]. *)
Definition graph_of (d : nat) (B : zmat) (i j : nat) : Prop := i < d /\ j < d /\ B i j <> 0%Z.
Definition edge (B : zmat) (i j : nat) : bool := negb (Z.eqb (B i j) 0).
(** 0/1 entries. *)
Definition binary (d : nat) (B : zmat) : Prop := forall i j, i < d -> j < d -> B i j = 0%Z \/ B i j = 1%Z.

Lemma all2_spec : forall d p, all2 d p = true <-> forall i j, i < d -> j < d -> p i j = true.
Proof.
  intros d p. unfold all2. rewrite forallb_forall. split.
  - intros H i j Hi Hj. assert (X : In i (seq 0 d)) by (apply in_seq; lia). specialize (H i X). rewrite forallb_forall in H.
    apply H. apply in_seq. lia.
  - intros H i Hi. apply forallb_forall. intros j Hj. apply in_seq in Hi, Hj. apply H; lia.
Qed.
Lemma any2_spec : forall d p, any2 d p = true <-> exists i j, i < d /\ j < d /\ p i j = true.
Proof.
  intros d p. unfold any2. rewrite existsb_exists. split.
  - intros [i [Hi H]]. apply existsb_exists in H. destruct H as [j [Hj H]]. apply in_seq in Hi, Hj. exists i, j. repeat split; auto; lia.
  - intros [i [j [Hi [Hj H]]]]. exists i. split; [apply in_seq; lia|]. apply existsb_exists. exists j. split; [apply in_seq; lia|auto].
Qed.

Lemma is_dag_mat_ok : forall d B, exists b, is_dag_mat d B = Ok b /\ (b = true <-> acyclic (graph_of d B)).
Proof.
  intros d B. destruct (NxFacts.is_dag_ok d (fun i j => negb (Z.eqb (B i j) 0))) as [b [E H]]. exists b. split; [exact E|].
  rewrite H. apply acyclic_ext. intros u v. unfold NxFacts.E, graph_of. rewrite negb_true_iff, Z.eqb_neq. tauto.
Qed.

(** Which estimates are accepted. *)
Theorem C49_accepted : forall d B T, (exists r, count_accuracy d T B = Ok r) <->
  ((forall i j, i < d -> j < d -> B i j = 0%Z \/ B i j = 1%Z \/ B i j = (-1)%Z) /\
   (forall i j, i < d -> j < d -> B i j = (-1)%Z -> B j i <> (-1)%Z) /\
   ((exists i j, i < d /\ j < d /\ B i j = (-1)%Z) \/ acyclic (graph_of d B))).
Proof.
  intros d B T.
  assert (X : (exists r, count_accuracy d T B = Ok r) <-> check_est d B = Ok tt).
  { unfold count_accuracy. destruct (check_est d B) as [[]|e]; cbn [rbind]; split; intro H; auto.
    - eexists. reflexivity.
    - destruct H; discriminate.
    - discriminate. }
  rewrite X. clear X. unfold check_est. destruct (any2 d (fun i j => Z.eqb (B i j) (-1))) eqn:A.
  - apply any2_spec in A. destruct A as [a [b [Ha [Hb Hab]]]]. apply Z.eqb_eq in Hab.
    destruct (all2 d (fun i j => Z.eqb (B i j) 0 || Z.eqb (B i j) 1 || Z.eqb (B i j) (-1))) eqn:L; cbn [negb].
    + rewrite all2_spec in L. destruct (any2 d (fun i j => Z.eqb (B i j) (-1) && Z.eqb (B j i) (-1))) eqn:M; (split; [intro H|intros [V [N C]]]); try discriminate; auto.
      * exfalso. apply any2_spec in M. destruct M as [i [j [Hi [Hj M]]]]. apply andb_true_iff in M. destruct M as [M1 M2].
        apply Z.eqb_eq in M1, M2. apply (N i j); auto.
      * split; [|split; [|left; exists a, b; auto]].
        -- intros i j Hi Hj. specialize (L i j Hi Hj). rewrite !orb_true_iff, !Z.eqb_eq in L. tauto.
        -- intros i j Hi Hj E1 E2. assert (any2 d (fun i j => Z.eqb (B i j) (-1) && Z.eqb (B j i) (-1)) = true); [|congruence].
           apply any2_spec. exists i, j. rewrite E1, E2. auto.
    + split; [discriminate|]. intros [V _]. exfalso.
      assert (all2 d (fun i j => Z.eqb (B i j) 0 || Z.eqb (B i j) 1 || Z.eqb (B i j) (-1)) = true); [|congruence].
      apply all2_spec. intros i j Hi Hj. rewrite !orb_true_iff, !Z.eqb_eq. specialize (V i j Hi Hj). tauto.
  - assert (NM : forall i j, i < d -> j < d -> B i j <> (-1)%Z).
    { intros i j Hi Hj E. assert (any2 d (fun i j => Z.eqb (B i j) (-1)) = true); [|congruence]. apply any2_spec. exists i, j. rewrite E. auto. }
    destruct (all2 d (fun i j => Z.eqb (B i j) 0 || Z.eqb (B i j) 1)) eqn:L; cbn [negb].
    + rewrite all2_spec in L. destruct (is_dag_mat_ok d B) as [b [E H]]. rewrite E. cbn [rbind]. destruct b; cbn [negb].
      * split; auto. intros _. split; [|split].
        -- intros i j Hi Hj. specialize (L i j Hi Hj). rewrite !orb_true_iff, !Z.eqb_eq in L. tauto.
        -- intros i j Hi Hj E1. exfalso. apply (NM i j); auto.
        -- right. apply H. auto.
      * split; [discriminate|]. intros [_ [_ [[i [j [Hi [Hj E1]]]]|Ac]]]; [exfalso; apply (NM i j); auto|]. apply H in Ac. discriminate.
    + split; [discriminate|]. intros [V _]. exfalso.
      assert (all2 d (fun i j => Z.eqb (B i j) 0 || Z.eqb (B i j) 1) = true); [|congruence].
      apply all2_spec. intros i j Hi Hj. rewrite !orb_true_iff, !Z.eqb_eq. destruct (V i j Hi Hj) as [?|[?|?]]; auto. exfalso. apply (NM i j); auto.
Qed.
Print Assumptions C49_accepted.

(** A true graph without loops and two-cycles. *)
Definition antisym (d : nat) (B : zmat) : Prop := forall i j, i < d -> j < d -> B i j <> 0%Z -> B j i = 0%Z.

Lemma acyclic_antisym : forall d B, acyclic (graph_of d B) -> antisym d B.
Proof.
  intros d B A i j Hi Hj N. destruct (Z.eq_dec (B j i) 0) as [|N2]; auto. exfalso.
  apply (acyclic_asym _ A i j); unfold graph_of; auto.
Qed.

Lemma skeleton_nodup : forall d T, antisym d T ->
  NoDup (flatnonzero d (fun i j => negb (Z.eqb (T i j) 0)) ++ flatnonzero d (fun i j => negb (Z.eqb (T j i) 0))).
Proof.
  intros d T A. apply NoDup_app_intro; try apply flat_nodup.
  intros k H1 H2. apply memb_In in H1, H2. rewrite flat_memb in H1, H2.
  apply andb_true_iff in H1, H2. destruct H1 as [L H1], H2 as [_ H2]. apply Nat.ltb_lt in L.
  assert (d <> 0) by (intro; subst; lia).
  apply negb_true_iff, Z.eqb_neq in H1, H2. apply H2. apply A; auto.
  - apply Nat.div_lt_upper_bound; auto.
  - apply Nat.mod_upper_bound; auto.
Qed.

(** All quantities as counts of index pairs. *)
Definition isv (B : zmat) (v : Z) (i j : nat) : bool := Z.eqb (B i j) v.
Lemma ca_counts : forall d T B, antisym d T -> check_est d B = Ok tt ->
  exists r, count_accuracy d T B = Ok r /\
    let rev := nsum2 d (fun i j => b2n (isv B 1 i j && negb (edge T i j) && edge T j i)) in
    let fp := nsum2 d (fun i j => b2n (isv B 1 i j && negb (edge T i j || edge T j i)))
              + nsum2 d (fun i j => b2n (isv B (-1) i j && negb (edge T i j || edge T j i))) in
    let tp := nsum2 d (fun i j => b2n (isv B 1 i j && edge T i j))
              + nsum2 d (fun i j => b2n (isv B (-1) i j && (edge T i j || edge T j i))) in
    let low (X : zmat) i j := Nat.leb j i && negb (Z.eqb (X i j + X j i) 0) in
    nnz r = nsum2 d (fun i j => b2n (isv B 1 i j)) + nsum2 d (fun i j => b2n (isv B (-1) i j)) /\
    fdr r = ratio (rev + fp) (qn (nnz r)) /\
    tpr r = ratio tp (qn (nsum2 d (fun i j => b2n (edge T i j)))) /\
    fpr r = ratio (rev + fp) ((1 # 2) * qn d * (qn d - 1) - qn (nsum2 d (fun i j => b2n (edge T i j))))%Q /\
    shd r = nsum2 d (fun i j => b2n (low B i j && negb (low T i j))) + nsum2 d (fun i j => b2n (low T i j && negb (low B i j))) + rev.
Proof.
  intros d T B A C. unfold count_accuracy. rewrite C. cbn [rbind]. eexists. split; [reflexivity|]. cbn zeta. cbn [nnz fdr tpr fpr shd].
  rewrite !app_length, !flat_diff_app, !flat_diff.
  rewrite (Permutation_length (intersect1d_spec _ _ (flat_nodup _ _) (flat_nodup _ _))), flat_inter.
  rewrite (Permutation_length (intersect1d_spec _ _ (flat_nodup _ _) (flat_nodup _ _))), flat_inter.
  rewrite (Permutation_length (intersect1d_spec _ _ (flat_nodup _ _) (skeleton_nodup d T A))), flat_inter_app.
  rewrite !flat_length. repeat split.
Qed.

Lemma ratio_bounds : forall a b, a <= b -> (0 <= ratio a (qn b) /\ ratio a (qn b) <= 1)%Q.
Proof.
  intros a b H. unfold ratio, qn. assert (Ha : (0 <= inject_Z (Z.of_nat a))%Q) by (change 0%Q with (inject_Z 0); rewrite <- Zle_Qle; lia).
  assert (Hb : (inject_Z (Z.of_nat a) <= inject_Z (Z.of_nat b))%Q) by (rewrite <- Zle_Qle; lia).
  destruct (Qle_bool (inject_Z (Z.of_nat b)) 1) eqn:L.
  - apply Qle_bool_iff in L. setoid_replace (inject_Z (Z.of_nat a) / 1)%Q with (inject_Z (Z.of_nat a)) by field. lra.
  - assert (P : (1 < inject_Z (Z.of_nat b))%Q) by (apply Qnot_le_lt; intro X; apply Qle_bool_iff in X; congruence).
    split; [apply Qle_shift_div_l; lra|apply Qle_shift_div_r; lra].
Qed.

(** For 0/1 estimates and an acyclic truth: the rates are the fraction of wrong
    predictions and the fraction of edges found, both in [0,1]; nnz is the
    number of predicted edges; shd is the number of unordered pairs of nodes on
    which the two graphs differ. *)
Theorem C49_dag : forall d T B, binary d T -> acyclic (graph_of d T) -> binary d B -> acyclic (graph_of d B) ->
  exists r, count_accuracy d T B = Ok r /\
    nnz r = count2 d (edge B) /\
    fdr r = ratio (count2 d (fun i j => edge B i j && negb (edge T i j))) (qn (count2 d (edge B))) /\
    tpr r = ratio (count2 d (fun i j => edge B i j && edge T i j)) (qn (count2 d (edge T))) /\
    (0 <= fdr r /\ fdr r <= 1)%Q /\ (0 <= tpr r /\ tpr r <= 1)%Q /\
    shd r = count2 d (fun i j => (j <? i) && negb (Bool.eqb (edge B i j) (edge T i j) && Bool.eqb (edge B j i) (edge T j i))).
Proof.
  intros d T B BT AT BB AB.
  assert (C : check_est d B = Ok tt).
  { destruct (proj2 (C49_accepted d B T)) as [r H].
    - split; [|split; [|right; auto]].
      + intros i j Hi Hj. destruct (BB i j Hi Hj); auto.
      + intros i j Hi Hj E. destruct (BB i j Hi Hj) as [X|X]; rewrite X in E; discriminate.
    - unfold count_accuracy in H. destruct (check_est d B) as [[]|]; [auto|discriminate]. }
  pose proof (acyclic_antisym d T AT) as ST. pose proof (acyclic_antisym d B AB) as SB.
  destruct (ca_counts d T B ST C) as [r [E H]]. cbn zeta in H. destruct H as [H1 [H2 [H3 [_ H5]]]].
  assert (V1 : forall i j, i < d -> j < d -> isv B 1 i j = edge B i j).
  { intros i j Hi Hj. unfold isv, edge. destruct (BB i j Hi Hj) as [->| ->]; reflexivity. }
  assert (Vm : forall i j, i < d -> j < d -> isv B (-1) i j = false).
  { intros i j Hi Hj. unfold isv. destruct (BB i j Hi Hj) as [->| ->]; reflexivity. }
  assert (N : nnz r = count2 d (edge B)).
  { rewrite H1, count2_sum. rewrite <- nsum2_add. apply nsum2_ext. intros i j Hi Hj. rewrite V1, Vm by auto. simpl. lia. }
  assert (F : fdr r = ratio (count2 d (fun i j => edge B i j && negb (edge T i j))) (qn (count2 d (edge B)))).
  { rewrite H2, N. f_equal. rewrite count2_sum, <- !nsum2_add. apply nsum2_ext. intros i j Hi Hj. rewrite V1, Vm by auto.
    destruct (edge B i j), (edge T i j), (edge T j i); reflexivity. }
  assert (P : tpr r = ratio (count2 d (fun i j => edge B i j && edge T i j)) (qn (count2 d (edge T)))).
  { rewrite H3, !count2_sum. f_equal. rewrite <- nsum2_add. apply nsum2_ext. intros i j Hi Hj. rewrite V1, Vm by auto.
    destruct (edge B i j), (edge T i j); reflexivity. }
  exists r. split; [exact E|]. split; [exact N|]. split; [exact F|]. split; [exact P|]. split; [|split].
  - rewrite F. apply ratio_bounds. rewrite !count2_sum. apply nsum2_le. intros i j _ _. destruct (edge B i j), (edge T i j); simpl; lia.
  - rewrite P. apply ratio_bounds. rewrite !count2_sum. apply nsum2_le. intros i j _ _. destruct (edge B i j), (edge T i j); simpl; lia.
  - rewrite H5, count2_sum.
    assert (An : forall X : zmat, antisym d X -> forall i j, i < d -> j < d -> edge X i j = true -> edge X j i = false).
    { intros X SX i j Hi Hj Y. unfold edge in *. apply negb_true_iff, Z.eqb_neq in Y. apply negb_false_iff, Z.eqb_eq. apply SX; auto. }
    assert (Dg : forall X : zmat, antisym d X -> forall i, i < d -> edge X i i = false).
    { intros X SX i Hi. destruct (edge X i i) eqn:Y; auto. pose proof (An X SX i i Hi Hi Y). congruence. }
    assert (Lo : forall X : zmat, binary d X -> antisym d X -> forall i j, i < d -> j < d ->
       (j <=? i) && negb (Z.eqb (X i j + X j i) 0) = (j <? i) && (edge X i j || edge X j i)).
    { intros X BX SX i j Hi Hj. pose proof (Dg X SX i Hi) as Di. unfold edge in *.
      destruct (Nat.leb_spec j i), (Nat.ltb_spec j i); try lia; simpl; auto.
      - destruct (BX i j Hi Hj) as [Q| Q], (BX j i Hj Hi) as [R|R]; rewrite Q, R; reflexivity.
      - assert (i = j) by lia. subst. apply negb_false_iff, Z.eqb_eq in Di. rewrite Di. reflexivity. }
    rewrite (nsum2_pairs d (fun i j => b2n (isv B 1 i j && negb (edge T i j) && edge T j i))).
    2:{ intros i Hi. rewrite (Dg T ST i Hi). simpl. rewrite andb_false_r. reflexivity. }
    rewrite <- !nsum2_add. apply nsum2_ext. intros i j Hi Hj.
    rewrite (Lo B BB SB i j Hi Hj), (Lo T BT ST i j Hi Hj), (V1 i j Hi Hj), (V1 j i Hj Hi).
    pose proof (An B SB i j Hi Hj) as A1. pose proof (An T ST i j Hi Hj) as A2.
    destruct (j <? i); simpl; [|reflexivity].
    destruct (edge B i j), (edge B j i), (edge T i j), (edge T j i); simpl; try reflexivity; exfalso; try (specialize (A1 eq_refl)); try (specialize (A2 eq_refl)); discriminate.
Qed.
Print Assumptions C49_dag.

(** shd is 0 exactly when the estimate is the truth; a perfect estimate has fdr
    0, and tpr 1 when there is an edge to find. *)
Theorem C49_perfect : forall d T B, binary d T -> acyclic (graph_of d T) -> binary d B -> acyclic (graph_of d B) ->
  exists r, count_accuracy d T B = Ok r /\
    (shd r = 0 <-> forall i j, i < d -> j < d -> B i j = T i j) /\
    ((forall i j, i < d -> j < d -> B i j = T i j) ->
       (fdr r == 0)%Q /\ ((exists i j, graph_of d T i j) -> (tpr r == 1)%Q)).
Proof.
  intros d T B BT AT BB AB. destruct (C49_dag d T B BT AT BB AB) as [r [E [N [F [P [_ [_ S]]]]]]]. exists r. split; [exact E|].
  pose proof (acyclic_antisym d T AT) as ST. pose proof (acyclic_antisym d B AB) as SB.
  assert (Eq : forall i j, i < d -> j < d -> edge B i j = edge T i j -> B i j = T i j).
  { intros i j Hi Hj H. unfold edge in H. destruct (BB i j Hi Hj) as [Q|Q], (BT i j Hi Hj) as [R|R]; rewrite Q, R in *; auto; discriminate. }
  split.
  - rewrite S, count2_sum, nsum2_0_iff. split.
    + intros H i j Hi Hj. destruct (lt_eq_lt_dec i j) as [[L|Eij]|L].
      * specialize (H j i Hj Hi). apply Nat.ltb_lt in L. rewrite L in H. simpl in H.
        apply Eq; auto. destruct (Bool.eqb (edge B j i) (edge T j i)) eqn:Q1, (Bool.eqb (edge B i j) (edge T i j)) eqn:Q2; try discriminate. apply eqb_prop. auto.
      * subst. assert (Z : forall X : zmat, antisym d X -> X j j = 0%Z).
        { intros X SX. destruct (Z.eq_dec (X j j) 0); auto. }
        rewrite (Z B SB), (Z T ST). reflexivity.
      * specialize (H i j Hi Hj). apply Nat.ltb_lt in L. rewrite L in H. simpl in H.
        apply Eq; auto. destruct (Bool.eqb (edge B i j) (edge T i j)) eqn:Q1; try discriminate. apply eqb_prop. auto.
    + intros H i j Hi Hj. unfold edge. rewrite (H i j Hi Hj), (H j i Hj Hi), !Bool.eqb_reflx. simpl. rewrite andb_false_r. reflexivity.
  - intro H. split.
    + rewrite F. assert (Z : count2 d (fun i j => edge B i j && negb (edge T i j)) = 0).
      { rewrite count2_sum. apply nsum2_0_iff. intros i j Hi Hj. unfold edge. rewrite (H i j Hi Hj). destruct (Z.eqb (T i j) 0); reflexivity. }
      rewrite Z. unfold ratio. simpl. unfold Qdiv. ring.
    + intros [i [j [Hi [Hj NZ]]]]. rewrite P.
      assert (Z : count2 d (fun i j => edge B i j && edge T i j) = count2 d (edge T)).
      { rewrite !count2_sum. apply nsum2_ext. intros a b Ha Hb. unfold edge. rewrite (H a b Ha Hb). destruct (Z.eqb (T a b) 0); reflexivity. }
      rewrite Z. assert (P0 : count2 d (edge T) <> 0).
      { intro C. rewrite count2_sum, nsum2_0_iff in C. specialize (C i j Hi Hj). unfold edge in C. apply Z.eqb_neq in NZ. rewrite NZ in C. discriminate. }
      unfold ratio, qn. set (k := count2 d (edge T)) in *. destruct (Qle_bool (inject_Z (Z.of_nat k)) 1) eqn:L.
      * apply Qle_bool_iff in L. change 1%Q with (inject_Z 1) in L. rewrite <- Zle_Qle in L. assert (k = 1) by lia.
        replace (Z.of_nat k) with 1%Z by lia. reflexivity.
      * field. intro X. unfold Qeq in X. simpl in X. lia.
Qed.
Print Assumptions C49_perfect.

(** The chain 0 -> 1 -> 2, and the same with the second edge reversed. *)
Definition ex_T : zmat := fun i j => if (Nat.eqb i 0 && Nat.eqb j 1) || (Nat.eqb i 1 && Nat.eqb j 2) then 1%Z else 0%Z.
Definition ex_B : zmat := fun i j => if (Nat.eqb i 0 && Nat.eqb j 1) || (Nat.eqb i 2 && Nat.eqb j 1) then 1%Z else 0%Z.
Example C49_case : binary 3 ex_T /\ acyclic (graph_of 3 ex_T) /\ binary 3 ex_B /\ acyclic (graph_of 3 ex_B) /\
  exists r, count_accuracy 3 ex_T ex_B = Ok r /\ (fdr r == 1 # 2)%Q /\ (tpr r == 1 # 2)%Q /\ shd r = 1.
Proof.
  assert (X : forall u v, graph_of 3 ex_T u v -> u < v).
  { intros u v [Hu [Hv N]]. unfold ex_T in N. destruct (Nat.eqb_spec u 0), (Nat.eqb_spec v 1), (Nat.eqb_spec u 1), (Nat.eqb_spec v 2); simpl in N; try congruence; lia. }
  assert (Y : forall u v, graph_of 3 ex_B u v -> (if Nat.eqb u 1 then 1 else 0) < (if Nat.eqb v 1 then 1 else 0)).
  { intros u v [Hu [Hv N]]. unfold ex_B in N. destruct (Nat.eqb_spec u 0), (Nat.eqb_spec v 1), (Nat.eqb_spec u 1), (Nat.eqb_spec u 2); simpl in N; try congruence; lia. }
  split; [intros i j _ _; unfold ex_T; destruct (_ || _); auto|]. split; [apply (rank_acyclic _ (fun v => v)); auto|].
  split; [intros i j _ _; unfold ex_B; destruct (_ || _); auto|]. split; [apply (rank_acyclic _ (fun v => if Nat.eqb v 1 then 1 else 0)); auto|].
  eexists. split; [vm_compute; reflexivity|]. repeat split; reflexivity.
Qed.

(** Estimates with undirected edges: when each pair of nodes carries at most
    one mark, the rates are bounded as well. *)
Theorem C49_cpdag_bounds : forall d T B, acyclic (graph_of d T) ->
  (forall i j, i < d -> j < d -> B i j = 0%Z \/ B i j = 1%Z \/ B i j = (-1)%Z) ->
  (forall i j, i < d -> j < d -> B i j <> 0%Z -> B j i = 0%Z) ->
  (exists i j, i < d /\ j < d /\ B i j = (-1)%Z) ->
  exists r, count_accuracy d T B = Ok r /\ (0 <= fdr r /\ fdr r <= 1)%Q /\ (0 <= tpr r /\ tpr r <= 1)%Q.
Proof.
  intros d T B AT V SB Ex.
  assert (C : check_est d B = Ok tt).
  { destruct (proj2 (C49_accepted d B T)) as [r H].
    - split; [auto|split; [|left; auto]]. intros i j Hi Hj E X. rewrite (SB i j Hi Hj) in X; [discriminate|rewrite E; discriminate].
    - unfold count_accuracy in H. destruct (check_est d B) as [[]|]; [auto|discriminate]. }
  pose proof (acyclic_antisym d T AT) as ST.
  destruct (ca_counts d T B ST C) as [r [E H]]. cbn zeta in H. destruct H as [H1 [H2 [H3 _]]].
  assert (Dg : forall X : zmat, antisym d X -> forall i, i < d -> X i i = 0%Z).
  { intros X SX i Hi. destruct (Z.eq_dec (X i i) 0); auto. }
  exists r. split; [exact E|]. split.
  - rewrite H2. apply ratio_bounds. rewrite H1. rewrite <- !nsum2_add. apply nsum2_le. intros i j _ _.
    unfold isv. destruct (Z.eqb_spec (B i j) 1) as [e|], (Z.eqb_spec (B i j) (-1)); try (rewrite e in *; discriminate); destruct (edge T i j), (edge T j i); simpl; lia.
  - rewrite H3. apply ratio_bounds. rewrite <- nsum2_add.
    rewrite (nsum2_pairs d (fun i j => b2n (isv B 1 i j && edge T i j) + b2n (isv B (-1) i j && (edge T i j || edge T j i)))).
    2:{ intros i Hi. unfold isv. rewrite (Dg B SB i Hi). reflexivity. }
    rewrite (nsum2_pairs d (fun i j => b2n (edge T i j))).
    2:{ intros i Hi. unfold edge. rewrite (Dg T ST i Hi). reflexivity. }
    apply nsum2_le. intros i j Hi Hj. destruct (j <? i); auto. unfold isv.
    pose proof (SB i j Hi Hj) as S1. destruct (V i j Hi Hj) as [Q|[Q|Q]]; rewrite Q in *.
    + destruct (V j i Hj Hi) as [R|[R|R]]; rewrite R; simpl; destruct (edge T i j), (edge T j i); simpl; lia.
    + rewrite S1 by discriminate. simpl. destruct (edge T i j), (edge T j i); simpl; lia.
    + rewrite S1 by discriminate. simpl. destruct (edge T i j), (edge T j i); simpl; lia.
Qed.
Print Assumptions C49_cpdag_bounds.
Definition ex_U : zmat := fun i j => if Nat.eqb i 1 && Nat.eqb j 0 then (-1)%Z else if Nat.eqb i 0 && Nat.eqb j 2 then 1%Z else 0%Z.
Example C49_cpdag_case : exists r, count_accuracy 3 ex_T ex_U = Ok r /\ (tpr r == 1 # 2)%Q /\ (fdr r == 1 # 2)%Q.
Proof. eexists. split; [vm_compute; reflexivity|]. split; reflexivity. Qed.

(** Nothing forbids a directed and an undirected mark on one pair: then tpr
    exceeds 1, and the pair cancels out of the skeleton used for shd. *)
Theorem C49_tpr_refuted : exists d T B r, binary d T /\ acyclic (graph_of d T) /\ count_accuracy d T B = Ok r /\ (1 < tpr r)%Q /\
  (forall i j, i < d -> j < d -> T i j = 1%Z -> B i j = 1%Z) /\ shd r = 1.
Proof.
  exists 2, (fun i j => if Nat.eqb i 0 && Nat.eqb j 1 then 1%Z else 0%Z),
    (fun i j => if Nat.eqb i 0 && Nat.eqb j 1 then 1%Z else if Nat.eqb i 1 && Nat.eqb j 0 then (-1)%Z else 0%Z). eexists.
  split; [intros i j _ _; destruct (_ && _); auto|]. split.
  { apply (rank_acyclic _ (fun v => v)). intros u v [Hu [Hv N]]. destruct (Nat.eqb_spec u 0), (Nat.eqb_spec v 1); simpl in N; try congruence; lia. }
  split; [vm_compute; reflexivity|]. split; [reflexivity|]. split; [|reflexivity].
  intros i j _ _ H. destruct (_ && _); auto. discriminate.
Qed.
Print Assumptions C49_tpr_refuted.

(** The empty graph, estimated perfectly, gets tpr 0. *)
Theorem C49_empty_tpr : forall d, exists r, count_accuracy d (fun _ _ => 0%Z) (fun _ _ => 0%Z) = Ok r /\ (tpr r == 0)%Q /\ (fdr r == 0)%Q /\ shd r = 0.
Proof.
  intro d. assert (B : binary d (fun _ _ => 0%Z)) by (intros i j _ _; auto).
  assert (A : acyclic (graph_of d (fun _ _ => 0%Z))) by (apply (rank_acyclic _ (fun v => v)); intros u v [_ [_ N]]; congruence).
  destruct (C49_dag d _ _ B A B A) as [r [E [N [F [P [_ [_ S]]]]]]]. exists r. split; [exact E|].
  assert (Z : forall p, (forall i j, p i j = false) -> count2 d p = 0).
  { intros p H. rewrite count2_sum. apply nsum2_0_iff. intros i j _ _. rewrite H. reflexivity. }
  rewrite P, F, S. rewrite !Z; [repeat split; reflexivity|..]; intros i j; simpl; auto. apply andb_false_r.
Qed.
Print Assumptions C49_empty_tpr.

(** fpr is not a rate: reversed edges are counted against the pairs without an
    edge. *)
Theorem C49_fpr_refuted : exists d T B r, binary d T /\ acyclic (graph_of d T) /\ binary d B /\ acyclic (graph_of d B) /\
  count_accuracy d T B = Ok r /\ (fpr r == 3)%Q.
Proof.
  exists 3, (fun i j => if i <? j then 1%Z else 0%Z), (fun i j => if j <? i then 1%Z else 0%Z). eexists.
  split; [intros i j _ _; destruct (_ <? _); auto|]. split.
  { apply (rank_acyclic _ (fun v => v)). intros u v [Hu [Hv N]]. destruct (Nat.ltb_spec u v); auto. congruence. }
  split; [intros i j _ _; destruct (_ <? _); auto|]. split.
  { apply (rank_acyclic _ (fun v => 3 - v)). intros u v [Hu [Hv N]]. destruct (Nat.ltb_spec v u); try lia; congruence. }
  split; [vm_compute; reflexivity|]. reflexivity.
Qed.
Print Assumptions C49_fpr_refuted.
