(** C86: the matrix that stands for infinitely many samples of a linear model. *)

From Coq Require Import List Arith Bool Lia QArith Qreals Reals Lra.
From Verif Require Import Model.Py Model.Graph Model.Networkx Model.SHP Model.Simulators Model.LocalScore Model.KCI Model.EntSim.
From Verif Require Import Spec.Digraphs Spec.Scores Spec.LinearSem.
From Verif Require Import Proofs.FinGraph Proofs.NxFacts Proofs.RelExt Proofs.BicFacts Proofs.KCIFacts Proofs.PopulationFacts Proofs.EqualScales Props.SimulatorProps.
Import ListNotations.
Open Scope nat_scope.

(* ---------- vocabulary ---------- *)
(** An inverse that is right on the matrices I - W of DAGs, which are all invertible
    (C86_invertible). *)
Definition inverts (inv : nat -> rmat -> res rmat) : Prop := forall d W, acyclic (weighted d W) ->
  exists M, inv d (fun i j => ((if Nat.eqb i j then 1 else 0) - W i j)%R) = Ok M /\
    inverse_of d (fun i j => ((if Nat.eqb i j then 1 else 0) - W i j)%R) M.

(** The weights and the scales as real numbers. *)
Definition weight (W : list (list Q)) (i j : nat) : R := Q2R (qget W i j).
Definition sd (a : scale_arg) (j : nat) : R := Q2R (scale_of a j).

(* ---------- proofs ---------- *)
Lemma Q2R_zero : forall q, Q2R q = 0%R <-> (q == 0)%Q.
Proof.
  intro q. split; intro H.
  - apply eqR_Qeq. rewrite H. symmetry. apply RMicromega.Q2R_0.
  - rewrite (Qeq_eqR _ _ H). apply RMicromega.Q2R_0.
Qed.

Lemma weight_weighted : forall W u v, weighted (length W) (weight W) u v <-> weight_edge W u v.
Proof. intros W u v. unfold weighted, weight_edge, weight. rewrite Q2R_zero. tauto. Qed.

Lemma weight_acyclic_r : forall W, acyclic (weight_edge W) -> acyclic (weighted (length W) (weight W)).
Proof. intros W A u C. apply (A u). revert C. apply dpath1_ext1. apply weight_weighted. Qed.

Lemma weighted_up : forall d W, acyclic (weighted d W) ->
  exists rk, (forall u v, u < d -> v < d -> W u v <> 0%R -> rk u < rk v) /\ forall u, u < d -> rk u < d.
Proof.
  intros d W A. apply (weighted_rank d (fun u v => W u v <> 0%R)); auto.
  intros u v. destruct (Req_EM_T (W u v) 0); [right|left]; auto.
Qed.

(** I - W is invertible for every DAG, and its inverse are the sums over paths. *)
Theorem C86_invertible : forall d W, acyclic (weighted d W) ->
  inverse_of d (fun i j => ((if Nat.eqb i j then 1 else 0) - W i j)%R) (effect d W).
Proof. intros d W A. destruct (weighted_up d W A) as [rk [U L]]. exact (effect_inverse d W rk U L). Qed.
Print Assumptions C86_invertible.

Lemma sqrt_INR : forall d, (sqrt (INR d) * sqrt (INR d) = INR d)%R.
Proof. intro d. apply sqrt_sqrt. apply pos_INR. Qed.

Lemma population_value : forall inv W sv, inverts inv -> acyclic (weight_edge W) ->
  exists X, population inv W sv = Ok X /\
    forall r j, r < length W -> j < length W -> X r j = (sqrt (INR (length W)) * Q2R (nth r sv 0%Q) * effect (length W) (weight W) r j)%R.
Proof.
  intros inv W sv HI A. apply weight_acyclic_r in A. destruct (HI _ _ A) as [M [E1 E2]].
  unfold population. change (eye_minus (real_mat W)) with (fun i j => ((if Nat.eqb i j then 1 else 0) - weight W i j)%R).
  rewrite E1. cbn [rbind]. eexists. split; [reflexivity|]. intros r j Hr Hj.
  unfold rdot. rewrite rsumn_sumR.
  rewrite (sum_ext _ _ (fun k => ((if Nat.eqb r k then 1 else 0) * (sqrt (INR (length W)) * Q2R (nth r sv 0%Q) * M k j))%R)).
  2:{ intros k _. destruct (Nat.eqb r k); ring. }
  rewrite sum_delta by auto. f_equal.
  apply (inverse_unique (length W) _ _ _ E2 (C86_invertible _ _ A)); auto.
Qed.

Lemma is_dag_true : forall W, acyclic (weight_edge W) -> nx_is_dag (length W) (nonzero W) = Ok true.
Proof.
  intros W A. apply weight_acyclic in A. destruct (is_dag_ok (length W) (nonzero W)) as [b [E1 H]]. rewrite E1. f_equal. apply H. auto.
Qed.

Lemma is_dag_false : forall W, ~ acyclic (weight_edge W) -> nx_is_dag (length W) (nonzero W) = Ok false.
Proof.
  intros W A. rewrite weight_acyclic in A. destruct (is_dag_ok (length W) (nonzero W)) as [b [E1 H]]. rewrite E1. f_equal.
  destruct b; auto. exfalso. apply A, H. auto.
Qed.

Lemma inf_value : forall inv W a, inverts inv -> fits (length W) a -> acyclic (weight_edge W) ->
  exists X, linear_sem_inf inv W SemGauss a = Ok X /\ linear_anm_inf inv W Gauss a = Ok X /\
    forall r j, r < length W -> j < length W -> X r j = (sqrt (INR (length W)) * sd a r * effect (length W) (weight W) r j)%R.
Proof.
  intros inv W a HI Ha A. destruct (scale_vec_ok (length W) a Ha) as [sv [Es Hs]].
  destruct (population_value inv W sv HI A) as [X [E1 E2]]. exists X.
  unfold linear_sem_inf, linear_anm_inf, is_dag_w. cbn [rassert rbind]. rewrite Es, is_dag_true by auto. cbn [rbind negb].
  repeat split; auto. intros r j Hr Hj. rewrite E2, Hs by auto. auto.
Qed.

(* ---------- C86 ---------- *)
(** Both functions return the same matrix.  Its columns satisfy the structural
    equations, row [r] having noise only in variable [r]; and X'X / d is the
    covariance matrix of the model. *)
Theorem C86_covariance : forall inv W a, inverts inv -> fits (length W) a -> acyclic (weight_edge W) ->
  exists X, linear_sem_inf inv W SemGauss a = Ok X /\ linear_anm_inf inv W Gauss a = Ok X /\
    forall r j, r < length W -> j < length W ->
      X r j = (sumRn (length W) (fun i => X r i * weight W i j) + (if Nat.eqb r j then sqrt (INR (length W)) * sd a j else 0))%R /\
      (/ INR (length W) * sumRn (length W) (fun k => X k r * X k j) = covariance (length W) (weight W) (sd a) r j)%R.
Proof.
  intros inv W a HI Ha A. destruct (inf_value inv W a HI Ha A) as [X [E1 [E2 V]]]. exists X. repeat split; auto.
  - destruct (weighted_up _ _ (weight_acyclic_r W A)) as [rk [U L]].
    apply (X_step (length W) (weight W) X (sd a) (sqrt (INR (length W))) rk U L V); auto.
  - unfold covariance. rewrite <- sum_scal. apply sum_ext. intros k Hk. rewrite !V by auto.
    assert (INR (length W) <> 0)%R as N by (apply not_0_INR; lia).
    replace (/ INR (length W) * (sqrt (INR (length W)) * sd a k * effect (length W) (weight W) k r *
      (sqrt (INR (length W)) * sd a k * effect (length W) (weight W) k j)))%R
      with (/ INR (length W) * (sqrt (INR (length W)) * sqrt (INR (length W))) * (sd a k * sd a k * (effect (length W) (weight W) k r * effect (length W) (weight W) k j)))%R by ring.
    rewrite sqrt_INR. field. auto.
Qed.
Print Assumptions C86_covariance.

(** Population risk: among all weights whose edges together with those of [W] form a
    DAG, the true weights have the least mean squared error on this matrix, and with
    positive scales no others have it. *)
Theorem C86_risk : forall inv W a X, inverts inv -> fits (length W) a -> acyclic (weight_edge W) -> 0 < length W ->
  linear_sem_inf inv W SemGauss a = Ok X ->
  risk (length W) X (weight W) = sumRn (length W) (fun j => sd a j * sd a j)%R /\
  forall B, acyclic (fun u v => weighted (length W) (weight W) u v \/ weighted (length W) B u v) ->
    (risk (length W) X (weight W) <= risk (length W) X B)%R /\
    ((forall j, j < length W -> (0 < scale_of a j)%Q) -> risk (length W) X B = risk (length W) X (weight W) ->
       forall i j, i < length W -> j < length W -> B i j = weight W i j).
Proof.
  intros inv W a X HI Ha A Hd HX. destruct (inf_value inv W a HI Ha A) as [X' [E1 [_ V]]].
  rewrite HX in E1. inversion E1; subst X'. clear E1. set (d := length W) in *.
  assert (INR d <> 0)%R as N by (apply not_0_INR; lia). assert (0 < INR d)%R as PD by (apply lt_0_INR; lia).
  assert (risk d X (weight W) = sumRn d (fun j => sd a j * sd a j)%R) as RW.
  { destruct (weighted_up _ _ (weight_acyclic_r W A)) as [rk [U L]].
    rewrite (risk_split d (weight W) (weight W) X (sd a) (sqrt (INR d)) rk U U L V Hd (sqrt_INR d)).
    rewrite (sum_zero d (fun r => sumRn d (fun j => Rsqr (diff d (weight W) (weight W) X r j)))); [ring|].
    intros r _. apply sum_zero. intros j _. unfold diff. rewrite sum_zero; [unfold Rsqr; ring|]. intros; ring. }
  split; auto. intros B AB.
  destruct (weighted_rank d (fun u v => weight W u v <> 0%R \/ B u v <> 0%R)) as [rk [U L]].
  { intros u v. destruct (Req_EM_T (weight W u v) 0); [|left; auto]. destruct (Req_EM_T (B u v) 0); [right|left]; tauto. }
  { intros u C. apply (AB u). revert C. apply dpath1_ext1. intros x y. unfold weighted, d. tauto. }
  assert (forall u v, u < d -> v < d -> weight W u v <> 0%R -> rk u < rk v) as UW by (intros; apply U; auto).
  assert (forall u v, u < d -> v < d -> B u v <> 0%R -> rk u < rk v) as UB by (intros; apply U; auto).
  pose proof (risk_split d (weight W) B X (sd a) (sqrt (INR d)) rk UW UB L V Hd (sqrt_INR d)) as RB.
  assert (forall r, r < d -> (0 <= sumRn d (fun j => Rsqr (diff d (weight W) B X r j)))%R) as P1.
  { intros r _. apply sum_nonneg. intros; apply Rle_0_sqr. }
  rewrite RW, RB. split.
  - pose proof (sum_nonneg d _ P1). pose proof (Rinv_0_lt_compat _ PD). pose proof (Rmult_le_pos (/ INR d) _ (Rlt_le _ _ H0) H). lra.
  - intros Hs Eq.
    assert (sumRn d (fun r => sumRn d (fun j => Rsqr (diff d (weight W) B X r j))) = 0)%R as Z.
    { apply (Rmult_eq_reg_l (/ INR d)); [|apply Rinv_neq_0_compat; auto]. lra. }
    apply (diff_zero d (weight W) B X (sd a) (sqrt (INR d)) rk UW L V).
    + intros r Hr. pose proof (sqrt_lt_R0 _ PD). assert (0 < sd a r)%R as PS.
      { unfold sd. rewrite <- RMicromega.Q2R_0. apply Qlt_Rlt. apply Hs. auto. }
      apply Rmult_integral_contrapositive. lra.
    + intros r j Hr Hj. apply Rsqr_0_uniq.
      pose proof (sum_nonneg_zero d _ P1 Z r Hr) as Z1.
      apply (sum_nonneg_zero d (fun j => Rsqr (diff d (weight W) B X r j)) (fun j _ => Rle_0_sqr _) Z1 j Hj).
Qed.
Print Assumptions C86_risk.

(** With equal scales the true weights have the least risk among all DAGs, whatever
    their order, and no other DAG has it. *)
Theorem C86_equal_scales : forall inv W a X sigma, inverts inv -> fits (length W) a -> acyclic (weight_edge W) -> 0 < length W ->
  (0 < sigma)%Q -> (forall j, j < length W -> (scale_of a j == sigma)%Q) ->
  linear_sem_inf inv W SemGauss a = Ok X ->
  forall B, acyclic (weighted (length W) B) ->
    (risk (length W) X (weight W) <= risk (length W) X B)%R /\
    (risk (length W) X B = risk (length W) X (weight W) -> forall i j, i < length W -> j < length W -> B i j = weight W i j).
Proof.
  intros inv W a X sigma HI Ha A Hd Hs Eq HX B AB.
  destruct (C86_risk inv W a X HI Ha A Hd HX) as [RW Un].
  destruct (inf_value inv W a HI Ha A) as [X' [E1 [_ V]]]. rewrite HX in E1. inversion E1; subst X'. clear E1.
  assert (forall j, j < length W -> sd a j = Q2R sigma) as Sd by (intros j Hj; apply Qeq_eqR; apply Eq; auto).
  assert (0 < Q2R sigma)%R as Ps by (rewrite <- RMicromega.Q2R_0; apply Qlt_Rlt; auto).
  assert (risk (length W) X (weight W) = (INR (length W) * (Q2R sigma * Q2R sigma))%R) as RW2.
  { rewrite RW. rewrite (sum_ext _ _ (fun _ => (Q2R sigma * Q2R sigma)%R)) by (intros; rewrite Sd by auto; auto).
    rewrite <- rsumn_sumR. apply KCIFacts.rsumn_const. }
  destruct (equal_least (length W) (weight W) B X (Q2R sigma) (sqrt (INR (length W))) Hd (sqrt_INR _) Ps (weight_acyclic_r W A) AB) as [L1 L2].
  { intros r j Hr Hj. rewrite V, Sd by auto. auto. }
  rewrite RW2 in *. split; auto. intro EQ. destruct (L2 EQ) as [l [F1 F2]].
  apply (Un B (forward_acyclic _ _ _ l F1 F2)); auto.
  intros j Hj. rewrite (Eq j Hj). auto.
Qed.
Print Assumptions C86_equal_scales.

(** The other noise types, cyclic weights and scales of the wrong length raise
    ValueError; unknown names raise ValueError in one function and AssertionError in
    the other. *)
Theorem C86_rejects : forall inv W t u a,
  (t <> SemGauss \/ ~ acyclic (weight_edge W) \/ ~ fits (length W) a -> linear_sem_inf inv W t a = Err ValueError) /\
  (u <> Unknown -> u <> Gauss \/ ~ acyclic (weight_edge W) \/ ~ fits (length W) a -> linear_anm_inf inv W u a = Err ValueError) /\
  linear_anm_inf inv W Unknown a = Err AssertionError.
Proof.
  intros inv W t u a.
  assert (forall (P : Prop) (k : list Q -> res rmat), (forall sv, ~ P \/ ~ acyclic (weight_edge W) -> scale_vec (length W) a = Ok sv -> k sv = Err ValueError) ->
    ~ P \/ ~ acyclic (weight_edge W) \/ ~ fits (length W) a -> rbind (scale_vec (length W) a) k = Err ValueError) as K.
  { intros P k H C. destruct (scale_vec (length W) a) as [sv|e] eqn:Es.
    - simpl. apply H; auto. destruct C as [C|[C|C]]; auto. exfalso. apply C.
      destruct a as [|q|l]; simpl in *; auto. destruct (Nat.eqb_spec (length l) (length W)); [auto|discriminate].
    - destruct a as [|q|l]; simpl in *; try discriminate. destruct (Nat.eqb_spec (length l) (length W)); [discriminate|]. inversion Es. auto. }
  repeat split.
  - apply K. intros sv C _. unfold is_dag_w.
    destruct (is_dag_ok (length W) (nonzero W)) as [b [E1 E2]]. rewrite E1. cbn [rbind].
    destruct b; cbn [negb]; auto. destruct C as [C|C]; [destruct t; congruence|]. exfalso. apply C, weight_acyclic, E2. auto.
  - intros Hu C. unfold linear_anm_inf. replace (rassert _) with (@Ok unit tt) by (destruct u; auto; congruence). cbn [rbind].
    revert C. apply K. intros sv C _.
    destruct (is_dag_ok (length W) (nonzero W)) as [b [E1 E2]]. rewrite E1. cbn [rbind].
    destruct b; cbn [negb]; auto. destruct C as [C|C]; [destruct u; congruence|]. exfalso. apply C, weight_acyclic, E2. auto.
Qed.
Print Assumptions C86_rejects.

(* ---------- concrete case ---------- *)
(** An inverse as assumed: the sums over paths. *)
Definition path_inv (d : nat) (A : rmat) : res rmat := Ok (effect d (fun i j => ((if Nat.eqb i j then 1 else 0) - A i j)%R)).

Lemma along_ext : forall d W V k r j, (forall i j, W i j = V i j) -> along d W k r j = along d V k r j.
Proof.
  intros d W V k. induction k as [|k IH]; intros r j H; simpl; auto. apply sum_ext. intros i _. rewrite IH, H by auto. auto.
Qed.

Lemma effect_ext : forall d W V r j, (forall i j, W i j = V i j) -> effect d W r j = effect d V r j.
Proof. intros. unfold effect. apply sum_ext. intros. apply along_ext. auto. Qed.

Lemma path_inverts : inverts path_inv.
Proof.
  intros d W A. eexists. split; [reflexivity|]. pose proof (C86_invertible d W A) as H.
  intros i j Hi Hj. destruct (H i j Hi Hj) as [H1 H2].
  assert (forall a b, effect d (fun i j => (if Nat.eqb i j then 1 else 0) - ((if Nat.eqb i j then 1 else 0) - W i j))%R a b = effect d W a b) as K.
  { intros a b. apply effect_ext. intros; ring. }
  split; [rewrite <- H1|rewrite <- H2]; apply sum_ext; intros k _; rewrite K; auto.
Qed.

(** x1 = x0 / 2 + e1, where the noise of x0 has twice the scale of that of x1. *)
Definition two_weights : list (list Q) := [[0; 1 # 2]; [0; 0]]%Q.
Definition two_scales : scale_arg := ScaleList [2; 1]%Q.
(** Predict x0 by x1 instead. *)
Definition reversed (i j : nat) : R := if andb (Nat.eqb i 1) (Nat.eqb j 0) then 1%R else 0%R.

Example two_ok : inverts path_inv /\ fits (length two_weights) two_scales /\ acyclic (weight_edge two_weights) /\ 0 < length two_weights /\
  (forall j, j < length two_weights -> (0 < scale_of two_scales j)%Q) /\ acyclic (weighted 2 reversed).
Proof.
  split; [apply path_inverts|]. split; [reflexivity|]. split.
  { apply (rank_acyclic _ (fun u => u)). intros u v [Hu [Hv H]]. simpl in Hu, Hv.
    destruct u as [|[|u]]; destruct v as [|[|v]]; try lia; exfalso; apply H; reflexivity. }
  split; [simpl; lia|]. split.
  { intros j Hj. simpl in Hj. destruct j as [|[|j]]; try lia; reflexivity. }
  apply (rank_acyclic _ (fun u => 2 - u)). intros u v [Hu [Hv H]].
  destruct u as [|[|u]]; destruct v as [|[|v]]; try lia; exfalso; apply H; reflexivity.
Qed.

(** The same weights with equal scales meet the hypotheses of C86_equal_scales. *)
Example two_equal : exists X, linear_sem_inf path_inv two_weights SemGauss (ScaleScalar 3) = Ok X /\
  fits (length two_weights) (ScaleScalar 3) /\ (forall j, j < length two_weights -> (scale_of (ScaleScalar 3) j == 3)%Q).
Proof.
  destruct two_ok as [HI [_ [A _]]]. destruct (inf_value path_inv two_weights (ScaleScalar 3) HI I A) as [X [E1 _]].
  exists X. split; auto. split; [exact I|]. intros; reflexivity.
Qed.

(** The true weights do not have the least risk among all DAGs: here the reversed
    edge fits better.  So the order of the variables cannot be recovered from the
    population risk when the scales differ. *)
Theorem C86_risk_refuted : exists W a X B,
  fits (length W) a /\ acyclic (weight_edge W) /\ (forall j, j < length W -> (0 < scale_of a j)%Q) /\
  linear_sem_inf path_inv W SemGauss a = Ok X /\
  acyclic (weighted (length W) B) /\ (risk (length W) X B < risk (length W) X (weight W))%R.
Proof.
  destruct two_ok as [HI [Ha [A [Hd [Hs AB]]]]].
  destruct (inf_value path_inv two_weights two_scales HI Ha A) as [X [E1 [_ V]]].
  exists two_weights, two_scales, X, reversed. repeat split; auto.
  destruct (C86_risk path_inv two_weights two_scales X HI Ha A Hd E1) as [RW _]. rewrite RW.
  change (length two_weights) with 2 in *.
  assert (sd two_scales 0 = 2%R /\ sd two_scales 1 = 1%R) as [S0 S1] by (unfold sd, Q2R; simpl; split; lra).
  assert (weight two_weights 0 0 = 0%R /\ weight two_weights 0 1 = (/ 2)%R /\ weight two_weights 1 0 = 0%R /\ weight two_weights 1 1 = 0%R) as [W00 [W01 [W10 W11]]].
  { unfold weight, qget, Q2R; simpl; repeat split; lra. }
  assert (forall r j, r < 2 -> j < 2 -> X r j = (sqrt 2 * (if Nat.eqb r 0 then (if Nat.eqb j 0 then 2 else 1) else (if Nat.eqb j 0 then 0 else 1)))%R) as VV.
  { intros r j Hr Hj. rewrite V by auto. replace (INR 2) with 2%R by (simpl; lra).
    unfold effect, along, sumRn. cbn [seq sumR].
    destruct r as [|[|r]]; destruct j as [|[|j]]; try lia; cbn [Nat.eqb]; rewrite ?S0, ?S1, ?W00, ?W01, ?W10, ?W11; field. }
  unfold risk, sumRn. cbn [seq sumR]. rewrite !VV by lia. unfold reversed. cbn [Nat.eqb andb]. rewrite S0, S1.
  replace (INR 2) with 2%R by (simpl; lra). unfold Rsqr.
  assert (sqrt 2 * sqrt 2 = 2)%R as S2 by (apply sqrt_sqrt; lra).
  match goal with |- (/ 2 * ?e < ?f)%R => assert (e = sqrt 2 * sqrt 2 * 4)%R as -> by ring end.
  rewrite S2. lra.
Qed.
Print Assumptions C86_risk_refuted.

(** The matrix and the covariances of this model. *)
Example C86_example : exists X, linear_sem_inf path_inv two_weights SemGauss two_scales = Ok X /\
  X 0 0 = (sqrt 2 * 2)%R /\ X 0 1 = sqrt 2 /\ X 1 0 = 0%R /\ X 1 1 = sqrt 2 /\
  covariance 2 (weight two_weights) (sd two_scales) 0 1 = 2%R.
Proof.
  destruct two_ok as [HI [Ha [A _]]].
  destruct (inf_value path_inv two_weights two_scales HI Ha A) as [X [E1 [_ V]]]. exists X. split; auto.
  change (length two_weights) with 2 in *.
  assert (sd two_scales 0 = 2%R /\ sd two_scales 1 = 1%R) as [S0 S1] by (unfold sd, Q2R; simpl; split; lra).
  assert (weight two_weights 0 0 = 0%R /\ weight two_weights 0 1 = (/ 2)%R /\ weight two_weights 1 0 = 0%R /\ weight two_weights 1 1 = 0%R) as [W00 [W01 [W10 W11]]].
  { unfold weight, qget, Q2R; simpl; repeat split; lra. }
  assert (forall r j, r < 2 -> j < 2 -> effect 2 (weight two_weights) r j = (if Nat.eqb r 0 then (if Nat.eqb j 0 then 1 else / 2) else (if Nat.eqb j 0 then 0 else 1))%R) as F.
  { intros r j Hr Hj. unfold effect, along, sumRn. cbn [seq sumR].
    destruct r as [|[|r]]; destruct j as [|[|j]]; try lia; cbn [Nat.eqb]; rewrite ?W00, ?W01, ?W10, ?W11; field. }
  assert (covariance 2 (weight two_weights) (sd two_scales) 0 1 = 2%R) as Cv.
  { unfold covariance, sumRn. cbn [seq sumR]. rewrite !F by lia. cbn [Nat.eqb]. rewrite S0, S1. field. }
  rewrite !V, !F by lia. cbn [Nat.eqb]. rewrite S0, S1. replace (INR 2) with 2%R by (simpl; lra). repeat split; auto; field.
Qed.
