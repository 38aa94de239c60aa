(** C43, C57: ICA-LiNGAM. *)

From Coq Require Import List Arith Bool Lia QArith Qabs Permutation.
From Verif Require Import Model.SHP Model.Matrix Model.Lingam Spec.Sums Spec.Digraphs.
From Verif Require Import Proofs.SimFacts Proofs.MatrixFacts Proofs.LingamFacts Proofs.FinGraph.
Import ListNotations.
Open Scope nat_scope.

(** The graph that [fit] reports: an edge from [j] to [i] when the coefficient
    of [j] in the equation of [i] is not zero. *)
Definition reported (r : qmat * (nat -> nat -> bool)) (j i : nat) : Prop := snd r i j = true.

(** The result never has an entry on or above the diagonal, so every reported
    edge goes from an earlier to a later column and the graph is acyclic,
    whatever the unmixing matrix, the p-values and the regressions are. *)
Theorem C43_lower_triangular : forall ordP pv coef alpha n W,
  let r := lingam_fit ordP pv coef alpha n W in
  (forall i j, i <= j -> (fst r i j == 0)%Q) /\
  (forall j i, reported r j i -> j < i) /\
  acyclic (reported r) /\
  (forall i j, reported r j i <-> ~ (fst r i j == 0)%Q).
Proof.
  intros ordP pv coef alpha n W r.
  assert (Z : forall i j, i <= j -> (fst r i j == 0)%Q).
  { intros i j H. unfold r, lingam_fit. cbn [fst]. unfold regress, wald_prune, prune_upper.
    apply Nat.leb_le in H. rewrite H. destruct (pv _ _ i j); reflexivity. }
  assert (R : forall i j, reported r j i <-> ~ (fst r i j == 0)%Q).
  { intros i j. unfold reported, r, lingam_fit. cbn [fst snd]. rewrite negb_true_iff. split.
    - intros H C. apply Qeq_bool_iff in C. congruence.
    - intro H. destruct (Qeq_bool _ 0) eqn:E; auto. apply Qeq_bool_iff in E. contradiction. }
  assert (L : forall j i, reported r j i -> j < i).
  { intros j i H. destruct (le_lt_dec i j); auto. exfalso. apply R in H. apply H. apply Z. auto. }
  split; [exact Z|]. split; [exact L|]. split; [|exact R].
  apply (rank_acyclic _ (fun v => v)). exact L.
Qed.
Print Assumptions C43_lower_triangular.

(** The significance level of the constructor has no effect. *)
Theorem C43_alpha_ignored : forall ordP pv coef a1 a2 n W, lingam_fit ordP pv coef a1 n W = lingam_fit ordP pv coef a2 n W.
Proof. reflexivity. Qed.
Print Assumptions C43_alpha_ignored.

(** A model that the method should find: variable 0 is 2 times variable 1 plus
    noise.  Its unmixing matrix is I - B.  The only edge, from 1 to 0, is not
    reported whatever the other parts of the method do. *)
Theorem C43_recovery_refuted : exists n W (B : qmat),
  meq n W (msub meye B) /\ ~ (B 0%nat 1%nat == 0)%Q /\ acyclic (fun j i => j < n /\ i < n /\ ~ (B i j == 0)%Q) /\
  forall ordP pv coef alpha, ~ reported (lingam_fit ordP pv coef alpha n W) 1 0.
Proof.
  set (B := fun i j : nat => if Nat.eqb i 0 && Nat.eqb j 1 then 2%Q else 0%Q).
  exists 2, (msub meye B), B. split; [apply meq_refl|]. split; [vm_compute; discriminate|]. split.
  - apply (rank_acyclic _ (fun v => 2 - v)). intros j i [Hj [Hi H]].
    assert (i = 0 /\ j = 1); [|lia]. unfold B in H. destruct (Nat.eqb_spec i 0), (Nat.eqb_spec j 1); simpl in H; try (exfalso; apply H; reflexivity); auto.
  - intros ordP pv coef alpha H. pose proof (C43_lower_triangular ordP pv coef alpha 2 (msub meye B)) as [_ [L _]].
    apply L in H. lia.
Qed.
Print Assumptions C43_recovery_refuted.

(** The row order for [W]: when no entry is zero it minimises the sum of the
    inverse absolute diagonal entries over all row orders, the diagonal is not
    zero, and the diagonal of the estimated [B] is. *)
Theorem C43_row_order : forall ordP n W, (forall l, Permutation (ordP l) l) ->
  (forall i j, i < n -> j < n -> ~ (W i j == 0)%Q) ->
  exists s, Permutation s (seq 0 n) /\ find_W_wave ordP n W = (fun i j => W (nth i s 0) j) /\
    (forall t, Permutation t (seq 0 n) ->
       (sumQ n (fun i => Qabs (/ W (nth i s 0%nat) i)) <= sumQ n (fun i => Qabs (/ W (nth i t 0%nat) i)))%Q) /\
    (forall i, i < n -> (b_hat (find_W_wave ordP n W) i i == 0)%Q).
Proof.
  intros ordP n W O NZ. exists (choose ordP n (w_score n W)).
  destruct (choose_spec ordP n (w_score n W) O) as [P M]. split; [exact P|]. split; [reflexivity|]. split.
  - intros t Pt. specialize (M t Pt).
    destruct (w_score_fin n W _ NZ P) as [q1 [E1 Q1]], (w_score_fin n W t NZ Pt) as [q2 [E2 Q2]].
    rewrite E1, E2 in M. simpl in M. apply negb_false_iff, Qle_bool_iff in M. rewrite <- Q1, <- Q2. exact M.
  - intros i Hi. unfold b_hat, msub, normalise, meye. rewrite Nat.eqb_refl.
    assert (Z : ~ (find_W_wave ordP n W i i == 0)%Q).
    { unfold find_W_wave, mrows. apply NZ; auto. set (s := choose ordP n (w_score n W)) in *.
      assert (H : In (nth i s 0) (seq 0 n)).
      { eapply Permutation_in; [exact P|]. apply nth_In. rewrite (Permutation_length P), seq_length. auto. }
      apply in_seq in H. lia. }
    destruct (Qeq_bool (find_W_wave ordP n W i i) 0) eqn:E; [apply Qeq_bool_iff in E; contradiction|].
    field. exact Z.
Qed.
Print Assumptions C43_row_order.

(** The row order for [B] minimises the squares on and above the diagonal over
    the orders of the rows alone; the columns keep their order. *)
Theorem C43_b_order : forall ordP n B, (forall l, Permutation (ordP l) l) ->
  exists s, Permutation s (seq 0 n) /\ find_B_wave ordP n B = (fun i j => B (nth i s 0) j) /\
    forall t, Permutation t (seq 0 n) ->
      (sumQ n (fun i => sumQ n (fun k => if Nat.leb i k then B (nth i s 0%nat) k * B (nth i s 0%nat) k else 0))
       <= sumQ n (fun i => sumQ n (fun k => if Nat.leb i k then B (nth i t 0%nat) k * B (nth i t 0%nat) k else 0)))%Q.
Proof.
  intros ordP n B O. exists (choose ordP n (b_score n B)).
  destruct (choose_spec ordP n (b_score n B) O) as [P M]. split; [exact P|]. split; [reflexivity|].
  intros t Pt. specialize (M t Pt).
  destruct (b_score_sum n B (choose ordP n (b_score n B))) as [q1 [E1 Q1]], (b_score_sum n B t) as [q2 [E2 Q2]].
  rewrite E1, E2 in M. simpl in M. apply negb_false_iff, Qle_bool_iff in M. rewrite <- Q1, <- Q2. exact M.
Qed.
Print Assumptions C43_b_order.

(** A chain of three variables with an unmixing matrix without zeros. *)
Definition case_W : qmat := fun i j => nth j (nth i [[1; 1#10; 1#10]; [-(2); 1; 1#10]; [1#10; -(3); 1]]%Q []) 0%Q.
Example C43_case :
  let r := lingam_fit (fun l => l) (fun _ _ _ _ => false) (fun i vs j => 2%Q) (1 # 20) 3 case_W in
  map (fun i => map (fun j => snd r i j) [0; 1; 2]) [0; 1; 2] = [[false; false; false]; [true; false; false]; [true; true; false]].
Proof. vm_compute. reflexivity. Qed.
Example C43_case_nonzero : forall i j, i < 3 -> j < 3 -> ~ (case_W i j == 0)%Q.
Proof.
  intros i j Hi Hj. destruct i as [|[|[|i]]]; try lia; destruct j as [|[|[|j]]]; try lia; vm_compute; discriminate.
Qed.

(* ---------- C57 ---------- *)
(** As soon as one row of [W] has two zero entries, the choice of the row order
    ignores [W]: every score is not a number and the first order of the
    unspecified enumeration is taken.  The exact unmixing matrix of every model
    with a variable that misses two parents is of this kind. *)
Theorem C57_zeros_ignore_data : forall ordP n W r j k, (forall l, Permutation (ordP l) l) ->
  r < n -> j < n -> k < n -> j <> k -> (W r j == 0)%Q -> (W r k == 0)%Q ->
  exists s l, ordP (find_all_P n) = s :: l /\ find_W_wave ordP n W = (fun x y => W (nth x s 0) y).
Proof.
  intros ordP n W r j k O Hr Hj Hk N Zj Zk. unfold find_W_wave, choose.
  assert (M : forall s, In s (ordP (find_all_P n)) <-> Permutation s (seq 0 n)).
  { intro s. rewrite <- permutations_of_In. split; apply Permutation_in; [|symmetry]; apply O. }
  destruct (ordP (find_all_P n)) as [|s l] eqn:E.
  - exfalso. apply (proj2 (M (seq 0 n)) (Permutation_refl _)).
  - exists s, l. split; auto. rewrite (fl_argmin_same _ _ _ Nan); [reflexivity|].
    intros a Ha. apply M in Ha. exact (w_score_nan n W a r j k Ha Hr Hj Hk N Zj Zk).
Qed.
Print Assumptions C57_zeros_ignore_data.

(** So the row order with a nonzero diagonal is missed: with three independent
    variables (W the identity) and an enumeration that starts with the cyclic
    shift, the reordered matrix has zeros all along its diagonal. *)
Theorem C57_good_order_refuted : exists ordP n W, (forall l, Permutation (ordP l) l) /\
  (forall i, i < n -> ~ (W i i == 0)%Q) /\
  (forall i, i < n -> (find_W_wave ordP n W i i == 0)%Q).
Proof.
  set (f := fun l : list (list nat) => match l with [a; b; c; d; e; g] => [c; a; b; d; e; g] | _ => l end).
  exists f, 3, meye. split; [|split].
  - intro l. unfold f. destruct l as [|a [|b [|c [|d [|e [|g [|h l]]]]]]]; auto.
    apply (Permutation_middle [a; b] [d; e; g] c).
  - intros i Hi. unfold meye. rewrite Nat.eqb_refl. discriminate.
  - intros i Hi. destruct i as [|[|[|i]]]; try lia; vm_compute; reflexivity.
Qed.
Print Assumptions C57_good_order_refuted.

Example C57_case : (meye 0%nat 1%nat == 0)%Q /\ (meye 0%nat 2%nat == 0)%Q /\
  map (fun s => w_score 3 meye s) (find_all_P 3) = repeat Nan 6.
Proof. split; [reflexivity|]. split; [reflexivity|]. vm_compute. reflexivity. Qed.
