(** C82: the linear learner with the entropy loss (linear_ent.py). *)

From Coq Require Import List Arith Bool Lia QArith Qabs Lqa.
From Verif Require Import Model.Py Model.SHP Model.Matrix Model.Notears Model.NotearsNet Model.LinearEnt Spec.Sums Spec.Digraphs Spec.Packing.
From Verif Require Import Proofs.SimFacts Proofs.MatrixFacts Proofs.NotearsFacts Proofs.NotearsGrad Proofs.PackFacts Proofs.NetFacts Proofs.LinearEntFacts.
From Verif Require Import Props.NotearsProps Props.NotearsNetProps.
Import ListNotations.
Open Scope nat_scope.

(** With [rho_max] above 1 training finishes for every optimiser that respects its
    bounds.  The result has no self-loops and no weight below the threshold; it is the
    truncation of a matrix [W0] such that the trained prediction is [X W0], plus the
    biases; no prediction depends on the column it predicts.  Without iterations the
    graph is empty. *)
Theorem C82_trained : forall bias init d minimize max_iter h_tol rho_max thr beta anneal,
  (forall b r a, within_bounds (minimize b r a)) -> ~ (rho_max <= 1)%Q ->
  exists ps bs W W0 c, train_LBFGSB minimize bias d max_iter h_tol rho_max thr beta anneal (lin_init bias init d) = Ok (ps, bs, W) /\
    W = threshold thr W0 /\
    (forall i, i < d -> (W0 i i == 0)%Q /\ (W i i == 0)%Q) /\ (forall i j, (W i j == 0)%Q \/ (thr <= Qabs (W i j))%Q) /\
    (max_iter = 0 -> forall i j, (W i j == 0)%Q) /\
    (forall x r j, (lin_forward bias d ps x r j == sumQ d (fun i => x r i * W0 i j) + c j)%Q) /\ (bias = false -> forall j, (c j == 0)%Q) /\
    (forall x x' r j, j < d -> same_but j x x' -> (lin_forward bias d ps x r j == lin_forward bias d ps x' r j)%Q).
Proof.
  intros bias init d minimize n h_tol rho_max thr beta anneal WB NB.
  destruct (train_ok minimize (lin_h bias d) h_tol rho_max anneal (fun b r a bs x0 E => proj1 (WB b r a bs x0 E)) n beta 1 0 None _ (lin_wf bias init d) (Qle_refl 1) NB)
    as [ps [bs [E [LY [G [Z _]]]]]].
  exists ps, bs, (threshold thr (weight_test bias d ps)), (weight_test bias d ps), (fun j => if bias then entry (par ps 1) j - entry (par ps 3) j else 0)%Q.
  unfold train_LBFGSB. rewrite E. cbn [rbind fst snd]. split; auto. split; auto.
  assert (Z0 : forall k i, k = 0 \/ k = neg_at bias -> entry (par (lin_init bias init d) k) i = 0%Q).
  { assert (R : forall m i, nth i (repeat 0%Q m) 0%Q = 0%Q) by (induction m; intros [|i]; simpl; auto).
    intros k i Hk. rewrite (proj2 (lin_layout bias init d k Hk)). unfold entry. simpl. apply R. }
  assert (D : forall i, i < d -> (weight_test bias d ps i i == 0)%Q).
  { intros i Hi. unfold weight_test, lin_weight. destruct n as [|n].
    - rewrite (Z eq_refl), !Z0 by auto. ring.
    - specialize (G ltac:(lia) WB (proj1 (feas_layout _ _ LY) (lin_feas bias init d))).
      destruct (lin_bound bias init d ps LY G 0 i i) as [_ E1]; auto. destruct (lin_bound bias init d ps LY G (neg_at bias) i i) as [_ E2]; auto.
      rewrite E1, E2 by auto. ring. }
  split; [|split; [|split; [|split; [|split]]]].
  - intros i Hi. split; auto. apply threshold_zero; auto.
  - intros i j. apply threshold_or.
  - intros -> i j. apply threshold_zero. unfold weight_test, lin_weight. rewrite (Z eq_refl), !Z0 by auto. ring.
  - intros x r j. apply lin_forward_val.
  - intros ->. reflexivity.
  - intros x x' r j Hj S. rewrite !lin_forward_val. apply Qplus_comp; [|reflexivity]. apply sumQ_ext. intros i Hi.
    destruct (Nat.eq_dec i j) as [->|NE]; [rewrite (D j Hj); ring|rewrite (S r i NE); reflexivity].
Qed.
Print Assumptions C82_trained.

(** A penalty below [(thr^2 / d)^d] makes the result acyclic, as for the others. *)
Theorem C82_dag : forall bias d ps thr, 0 < d -> (0 <= thr)%Q -> (thr * thr <= inject_Z (Z.of_nat d))%Q ->
  (lin_h bias d ps < cycle_bound d thr)%Q -> acyclic (support d (threshold thr (weight_test bias d ps))).
Proof.
  intros bias d ps thr Hd H0 H1 H. apply C80_linear; auto. unfold lin_h in H.
  destruct (C44_ent d (lin_weight bias d ps) Hd) as [E _]. rewrite E in H. exact H.
Qed.
Print Assumptions C82_dag.

(** Annealing lowers the weight of the entropy loss by 0.1 in each round as long as it
    is above 0.1; it is never zero, against the comment in the code. *)
Theorem C82_anneal : forall bias init d minimize max_iter h_tol rho_max thr beta ps bs W,
  (forall b r a, within_bounds (minimize b r a)) -> ~ (rho_max <= 1)%Q -> (0 < beta)%Q ->
  train_LBFGSB minimize bias d max_iter h_tol rho_max thr beta true (lin_init bias init d) = Ok (ps, bs, W) ->
  length bs <= max_iter /\ forall i, i < length bs ->
    (0 < nth i bs 0%Q <= beta)%Q /\
    ((inject_Z (Z.of_nat (S i)) * (1 # 10) < beta)%Q -> (nth i bs 0%Q == beta - inject_Z (Z.of_nat (S i)) * (1 # 10))%Q) /\
    ((beta <= inject_Z (Z.of_nat (S i)) * (1 # 10))%Q -> (nth i bs 0%Q <= 1 # 10)%Q).
Proof.
  intros bias init d minimize n h_tol rho_max thr beta ps bs W WB NB HB H.
  destruct (train_ok minimize (lin_h bias d) h_tol rho_max true (fun b r a bs x0 E => proj1 (WB b r a bs x0 E)) n beta 1 0 None _ (lin_wf bias init d) (Qle_refl 1) NB)
    as [ps1 [bs1 [E [_ [_ [_ [k [Hk ->]]]]]]]].
  unfold train_LBFGSB in H. rewrite E in H. cbn [rbind fst snd] in H. inversion H; subst. rewrite betas_len. split; auto. intros i Hi.
  destruct (betas_annealed k beta HB i Hi) as [A [B C]]. auto.
Qed.
Print Assumptions C82_anneal.

(** The weight [lambda2] of the L2 penalty only shifts the objective: the penalty is
    computed from the data, not from the weights.  So [lambda2] cannot change what the
    optimiser prefers. *)
Theorem C82_l2_no_effect : forall ent bias n d x lambda1 beta gama rho alpha lambda2 lambda2' ps ps',
  (objective ent bias n d x lambda1 lambda2 beta gama rho alpha ps <= objective ent bias n d x lambda1 lambda2 beta gama rho alpha ps' <->
   objective ent bias n d x lambda1 lambda2' beta gama rho alpha ps <= objective ent bias n d x lambda1 lambda2' beta gama rho alpha ps')%Q.
Proof.
  intros. unfold objective. cbv zeta.
  generalize ((1 # 2) * lambda2 * L2 n d x)%Q as a, ((1 # 2) * lambda2' * L2 n d x)%Q as b.
  match goal with [ |- forall a b, (?u + ?v + ?w + a + ?z <= ?u' + ?v' + ?w' + a + ?z')%Q <-> _ ] =>
    generalize u, v, w, z, u', v', w', z' end.
  intros. split; intro; lra.
Qed.
Print Assumptions C82_l2_no_effect.

(** The exceptions of training. *)
Theorem C82_only_exception : forall bias init d minimize max_iter h_tol rho_max thr beta anneal,
  (forall b r a bs x0, length bs = length x0 -> length (minimize b r a bs x0) = length x0) ->
  (train_LBFGSB minimize bias d max_iter h_tol rho_max thr beta anneal (lin_init bias init d) = Err TypeError <-> (rho_max <= 1)%Q /\ 0 < max_iter) /\
  (forall e, train_LBFGSB minimize bias d max_iter h_tol rho_max thr beta anneal (lin_init bias init d) = Err e -> e = TypeError).
Proof.
  intros bias init d minimize k h_tol rho_max thr beta anneal L.
  destruct k as [|k]; [unfold train_LBFGSB; simpl; split; [split; [discriminate|lia]|discriminate]|].
  destruct (Qlt_le_dec 1 rho_max) as [Lt|Ge].
  - destruct (train_ok minimize (lin_h bias d) h_tol rho_max anneal L (S k) beta 1 0 None _ (lin_wf bias init d) (Qle_refl 1)) as [ps [bs [E _]]]; [lra|].
    unfold train_LBFGSB. rewrite E. cbn [rbind]. split; [split; [discriminate|intros [? _]; lra]|discriminate].
  - assert (train_LBFGSB minimize bias d (S k) h_tol rho_max thr beta anneal (lin_init bias init d) = Err TypeError) as E.
    { unfold train_LBFGSB. cbn [train_loop]. unfold dual_ascent_step. apply Qle_bool_iff in Ge.
      destruct (inner_fuel rho_max); cbn [ascent_loop]; rewrite Ge; reflexivity. }
    rewrite E. split; [split; auto; intros _; split; auto; lia|]. intros e K. inversion K. auto.
Qed.
Print Assumptions C82_only_exception.

(** train_dam returns for no input; with the usual parameters it ends, after the
    whole training, with AttributeError; with [rho] above [rho_max] with TypeError. *)
Theorem C82_train_dam_refuted :
  (forall epochs bias d max_iter fuel rho alpha h_tol rho_max thr ps W,
     train_dam epochs bias d max_iter fuel rho alpha h_tol rho_max thr ps <> Ok W) /\
  (forall epochs bias d max_iter rho alpha h_tol rho_max thr ps, (1 <= rho)%Q -> (rho <= rho_max)%Q ->
     exists fuel, train_dam epochs bias d max_iter fuel rho alpha h_tol rho_max thr ps = Err AttributeError) /\
  (forall epochs bias d max_iter fuel rho alpha h_tol rho_max thr ps, ~ (rho <= rho_max)%Q -> 0 < max_iter ->
     train_dam epochs bias d max_iter fuel rho alpha h_tol rho_max thr ps = Err TypeError).
Proof.
  split; [exact dam_never|]. split.
  - intros epochs bias d n rho alpha h_tol rho_max thr ps H1 H2. exists (S (inner_fuel rho_max)). unfold train_dam.
    destruct (dam_outer_ok epochs (lin_h bias d) rho_max h_tol (S (inner_fuel rho_max))) with (n := n) (alpha := alpha) (h := @None Q) (rho := rho) (ps := ps) as [ps' E]; auto.
    { intros r Hr. pose proof (inner_fuel_ok rho_max r Hr) as F. rewrite Nat2Z.inj_succ, Z.pow_succ_r, inject_Z_mult by lia. change (inject_Z 2) with 2%Q.
      assert (0 < inject_Z (2 ^ Z.of_nat (inner_fuel rho_max)))%Q by (change 0%Q with (inject_Z 0); rewrite <- Zlt_Qlt; apply Z.pow_pos_nonneg; lia). nra. }
    rewrite E. reflexivity.
  - intros epochs bias d n fuel rho alpha h_tol rho_max thr ps H Hn. destruct n as [|n]; [lia|]. unfold train_dam. cbn [dam_outer].
    assert (Qle_bool rho rho_max = false) as B by (destruct (Qle_bool rho rho_max) eqn:B; auto; apply Qle_bool_iff in B; contradiction).
    destruct fuel; cbn [dam_loop]; rewrite B; reflexivity.
Qed.
Print Assumptions C82_train_dam_refuted.

(** An optimiser within its bounds that finds an edge and one weight below the
    threshold, with annealing. *)
Definition eg_min (b r a : Q) (bs : list bound) (x0 : list Q) : list Q :=
  map (fun q => clip (fst q) (match snd q with 1%nat => 1 | 2%nat => (1 # 50) | _ => 0 end)%Q) (combine bs (seq 0 (length x0))).
Example C82_optimiser : forall b r a, within_bounds (eg_min b r a).
Proof.
  intros b r a bs x0 L. unfold eg_min, bound in *. split; [rewrite map_length, combine_length, seq_length; lia|]. intros F i Hi.
  assert (i < length (combine bs (seq 0 (length x0)))) as Hc by (rewrite combine_length, seq_length; lia).
  set (g := fun q : option Q * option Q * nat => clip (fst q) (match snd q with 1%nat => 1 | 2%nat => (1 # 50) | _ => 0 end)%Q).
  rewrite (nth_indep _ 0%Q (g ((None, None), 0))) by (rewrite map_length; auto).
  rewrite (map_nth g), combine_nth by (rewrite seq_length; auto). unfold g. simpl fst. apply clip_between. apply F. apply nth_In. lia.
Qed.
Example C82_example :
  match train_LBFGSB eg_min false 2 3 (1 # 100000000) 100 (3 # 10) 1 true (lin_init false (fun _ _ => 0%Q) 2) with
  | Ok (ps, bs, W) => (0 < lin_h false 2 ps < cycle_bound 2 (3 # 10))%Q /\ (weight_test false 2 ps 1%nat 0%nat == 1)%Q /\ (weight_test false 2 ps 0%nat 1%nat == 1 # 50)%Q
      /\ (W 1%nat 0%nat == 1)%Q /\ (W 0%nat 1%nat == 0)%Q /\ bs = [(1 - (1 # 10))%Q; (1 - (1 # 10) - (1 # 10))%Q]
  | Err _ => False end.
Proof. vm_compute. repeat split; reflexivity. Qed.
Example C82_l2_example : let x := fun r c => inject_Z (Z.of_nat (r + 2 * c)) in let p v := [Param [0; v; 0; 0]%Q None; Param [0; 0; 0; 0]%Q None] in
  ~ (objective (fun _ _ => 0%Q) false 3 2 x 0 0 0 1 1 0 (p 1%Q) == objective (fun _ _ => 0%Q) false 3 2 x 0 0 0 1 1 0 (p 0%Q))%Q /\ (0 < L2 3 2 x)%Q.
Proof. vm_compute. split; [discriminate|reflexivity]. Qed.
