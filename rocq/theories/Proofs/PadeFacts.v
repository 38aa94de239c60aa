(** The Pade approximants of the exponential as exp (A) (1 + G) with a small series G. *)

From Coq Require Import List Arith Lia Bool ZArith QArith Qreals Reals Lra Setoid Morphisms.
From Verif Require Import Model.Py Model.LocalScore Model.KCI Model.Expm Spec.Scores Spec.ExpmSpec Proofs.BicFacts Proofs.PopulationFacts Proofs.KCIFacts Proofs.GaussianFacts Proofs.ExpmFacts Proofs.TaylorFacts Proofs.MajorFacts Proofs.ExpFacts Proofs.ExpAccuracyFacts Proofs.SeriesFacts.
Import ListNotations.
Open Scope R_scope.

(* ---------- coefficients ---------- *)
Definition bz (b : list Z) (k : nat) : R := IZR (nth k b 0%Z).
Definition b0 (b : list Z) : R := bz b 0.
Definition pcoef (b : list Z) (k : nat) : R := bz b k / b0 b.
Definition qcoef (b : list Z) (k : nat) : R := (-1) ^ k * pcoef b k.
Definition half (k : nat) : R := (/ 2) ^ k * / INR (fact k).
Definition nhalf (k : nat) : R := (-1) ^ k * half k.
Definition phi (b : list Z) : nat -> R := conv (qcoef b) half.
Definition psi (b : list Z) : nat -> R := conv (nhalf) (pcoef b).
Definition omega (b : list Z) (k : nat) : R := psi b k - phi b k.

Lemma sign_square : forall k, (-1) ^ k * (-1) ^ k = 1.
Proof. intro k. rewrite <- Rpow_mult_distr. replace (-1 * -1) with 1 by ring. apply pow1. Qed.
Lemma sign_sub : forall k i, (i <= k)%nat -> (-1) ^ (k - i) = (-1) ^ k * (-1) ^ i.
Proof. intros k i H. rewrite <- (Nat.sub_add i k) at 2 by auto. rewrite pow_add, Rmult_assoc, sign_square. ring. Qed.
Lemma pow_split : forall x k i, (i <= k)%nat -> x ^ k = x ^ i * x ^ (k - i).
Proof. intros x k i H. rewrite <- pow_add. f_equal. lia. Qed.
Lemma psi_phi : forall b k, psi b k = (-1) ^ k * phi b k.
Proof.
  intros b k. unfold psi, phi. rewrite conv_comm. unfold conv. rewrite scal_sum. apply sum_eq. intros i Hi. unfold qcoef, nhalf. rewrite (sign_sub k i Hi). ring.
Qed.
Lemma half_pos : forall k, 0 < half k.
Proof. intro k. apply Rmult_lt_0_compat; [apply pow_lt; lra|apply inv_fact_pos]. Qed.
Lemma half_half : forall k, conv half half k = / INR (fact k).
Proof.
  intro k. unfold conv. assert (forall i, (i <= k)%nat -> half i * half (k - i) = / INR (fact i) * / INR (fact (k - i)) * (/ 2) ^ k) as E.
  { intros i Hi. unfold half. rewrite (pow_split (/ 2) k i Hi). ring. }
  rewrite (sum_eq _ _ k E). rewrite <- scal_sum, binomial_half. rewrite Rmult_comm, Rmult_assoc, <- Rpow_mult_distr. replace (2 * / 2) with 1 by field. rewrite pow1. ring.
Qed.
Lemma half_nhalf : forall k, conv half nhalf k = delta k.
Proof.
  intro k. unfold conv. assert (forall i, (i <= k)%nat -> half i * nhalf (k - i) = C k i * 1 ^ i * (-1) ^ (k - i) * ((/ 2) ^ k * / INR (fact k))) as E.
  { intros i Hi. unfold nhalf, half, C. rewrite pow1. rewrite (pow_split (/ 2) k i Hi). pose proof (INR_fact_neq_0 k). pose proof (INR_fact_neq_0 i). pose proof (INR_fact_neq_0 (k - i)). field. auto. }
  rewrite (sum_eq _ _ k E). rewrite <- scal_sum, <- binomial. replace (1 + -1) with 0 by ring. destruct k; [simpl; field|]. simpl. ring.
Qed.
Lemma half_bounded : forall t, 0 <= t -> bounded t half (exp (t / 2)).
Proof.
  intros t Ht K. rewrite wsum_sum. apply Rle_trans with (T K (t / 2)); [|apply T_exp; lra]. right. apply sum_eq. intros k _. rewrite Rabs_pos_eq by (left; apply half_pos).
  unfold half, Rdiv. rewrite Rpow_mult_distr. ring.
Qed.
Lemma nhalf_bounded : forall t, 0 <= t -> bounded t nhalf (exp (t / 2)).
Proof.
  intros t Ht K. rewrite (wsum_ext t nhalf half); [apply half_bounded; auto|]. intros k _. unfold nhalf. rewrite Rabs_mult, pow_1_abs. ring.
Qed.
Lemma exp_bounded : forall t, 0 <= t -> bounded t (fun k => / INR (fact k)) (exp t).
Proof.
  intros t Ht K. rewrite wsum_sum. apply Rle_trans with (T K t); [|apply T_exp; lra]. right. apply sum_eq. intros k _. rewrite Rabs_pos_eq by (left; apply inv_fact_pos). ring.
Qed.

(** b_k 2^k k! <= b_0: the coefficients are below those of exp (x / 2). *)
Definition small_coefs (b : list Z) : Prop := (0 < nth 0 b 0)%Z /\ forall k, (0 <= nth k b 0 /\ nth k b 0 * 2 ^ Z.of_nat k * zfact k <= nth 0 b 0)%Z.
Lemma pcoef_le : forall b k, small_coefs b -> 0 <= pcoef b k <= half k.
Proof.
  intros b k [H0 H]. destruct (H k) as [Hp Hk]. assert (0 < b0 b) as P by (unfold b0, bz; apply (IZR_lt 0); auto). unfold pcoef, half. split.
  - apply Rmult_le_pos; [apply (IZR_le 0); auto|left; apply Rinv_0_lt_compat; auto].
  - apply IZR_le in Hk. rewrite !mult_IZR in Hk. rewrite zfact_fact, <- INR_IZR_INZ in Hk. rewrite <- pow_IZR in Hk. pose proof (INR_fact_lt_0 k) as F. assert (0 < 2 ^ k) as P2 by (apply pow_lt; lra).
    rewrite pow_inv. apply (Rmult_le_reg_r (b0 b)); auto. unfold Rdiv. rewrite Rmult_assoc, Rinv_l by lra. apply (Rmult_le_reg_r (2 ^ k * INR (fact k))); [apply Rmult_lt_0_compat; auto|].
    unfold b0, bz in *. replace (/ 2 ^ k * / INR (fact k) * IZR (nth 0 b 0%Z) * (2 ^ k * INR (fact k))) with (IZR (nth 0 b 0%Z)) by (field; split; apply Rgt_not_eq; auto). lra.
Qed.
Lemma qcoef_abs : forall b k, small_coefs b -> Rabs (qcoef b k) <= half k.
Proof. intros b k H. unfold qcoef. rewrite Rabs_mult, pow_1_abs, Rmult_1_l. destruct (pcoef_le b k H). rewrite Rabs_pos_eq; auto. Qed.
Lemma phi_abs : forall b k, small_coefs b -> Rabs (phi b k) <= / INR (fact k).
Proof.
  intros b k H. rewrite <- half_half. unfold phi. eapply Rle_trans; [apply conv_abs|]. unfold conv. apply sum_Rle. intros i Hi. unfold absq. apply Rmult_le_compat; try apply Rabs_pos; [apply qcoef_abs; auto|rewrite Rabs_pos_eq; [lra|left; apply half_pos]].
Qed.
Lemma qcoef_bounded : forall b t, small_coefs b -> 0 <= t -> bounded t (qcoef b) (exp (t / 2)).
Proof.
  intros b t H Ht K. eapply Rle_trans; [|apply (half_bounded t Ht K)]. apply wsum_le; auto. intros k _. rewrite (Rabs_pos_eq (half k)) by (left; apply half_pos). apply qcoef_abs. auto.
Qed.
Lemma pcoef_bounded : forall b t, small_coefs b -> 0 <= t -> bounded t (pcoef b) (exp (t / 2)).
Proof.
  intros b t H Ht K. eapply Rle_trans; [|apply (half_bounded t Ht K)]. apply wsum_le; auto. intros k _. rewrite (Rabs_pos_eq (half k)) by (left; apply half_pos). destruct (pcoef_le b k H). rewrite Rabs_pos_eq; auto.
Qed.
Lemma phi_zero : forall b, small_coefs b -> phi b 0 = 1.
Proof.
  intros b [H _]. unfold phi, conv. simpl. unfold qcoef, pcoef, half, b0, bz. simpl. assert (IZR (nth 0 b 0%Z) <> 0) by (apply not_0_IZR; lia). field. auto.
Qed.

(* ---------- the approximant in terms of the exponential ---------- *)
Lemma ser_one : forall n A, ser n A delta rident.
Proof.
  intros n A. apply (ser_ext n A (fun k => nth k [1] 0)); [intros [|[|k]]; auto|]. apply (ser_meq n A _ (peval n A [1])); [|apply ser_list]. symmetry. apply (rep_id n A).
Qed.
Lemma ser_exp : forall n A E, is_exp n A E <-> ser n A (fun k => / INR (fact k)) E.
Proof. intros. apply is_exp_mcv. Qed.

(** What the numbers have to satisfy: the part phi of the denominator differs from 1 by
    at most D, and the difference of numerator and denominator is at most u t (1 - D). *)
Record numbers (b : list Z) (m : nat) (t D u : R) : Prop := {
  nb_small : small_coefs b;
  nb_t : 0 < t;
  nb_D : 0 <= D < 1;
  nb_phi : forall K, wsum t (phi b) K <= 1 + D;
  nb_omega : forall K, wsum t (omega b) K <= u * t * (1 - D);
  nb_order : forall k, (k <= 2 * m)%nat -> omega b k = 0
}.
Definition commute (n : nat) (A B : rmat) : Prop := meq n (rdot n A B) (rdot n B A).

Lemma pade_relative : forall b m t D u n A M E P Q, numbers b m t D u -> 0 <= M -> powers_within n A M t ->
  (forall k, (2 * m < k)%nat -> norm1 n (rpow n A k) * t <= norm1 n A * t ^ k) ->
  is_exp n A E -> ser n A (pcoef b) P -> ser n A (qcoef b) Q ->
  exists Y G, meq n (rdot n Y Q) rident /\ meq n (rdot n Q Y) rident /\ norm1 n G <= u * norm1 n A /\ commute n E G /\
    forall X, meq n (rdot n Q X) P -> meq n X (rdot n E (radd rident G)).
Proof.
  intros b m t D u n A M E P Q NB HM HA HT HE HP HQ. destruct NB as [SC Pt HD Hphi Hom Hord]. assert (0 <= t) as Ht by lra.
  pose proof (half_bounded t Ht) as Bh. pose proof (nhalf_bounded t Ht) as Bn. pose proof (qcoef_bounded b t SC Ht) as Bq. pose proof (pcoef_bounded b t SC Ht) as Bp.
  assert (bounded t (phi b) (1 + D)) as Bf by exact Hphi. assert (bounded t (omega b) (u * t * (1 - D))) as Bo by exact Hom.
  pose proof (inverse_bounded t (phi b) D Ht (phi_zero b SC) HD Hphi) as Bv.
  destruct (ser_exists n A M t half _ HM Ht HA Bh) as [H SH]. destruct (ser_exists n A M t nhalf _ HM Ht HA Bn) as [H' SH']. destruct (ser_exists n A M t (inverse (phi b)) _ HM Ht HA Bv) as [V SV].
  pose proof (ser_mul n A M t _ _ _ _ _ _ HM Ht HA Bq Bh HQ SH) as SF. fold (phi b) in SF. pose proof (ser_mul n A M t _ _ _ _ _ _ HM Ht HA Bn Bp SH' HP) as SP. fold (psi b) in SP.
  assert (meq n (rdot n (rdot n Q H) V) rident) as I1.
  { apply (ser_unique n A (conv (phi b) (inverse (phi b)))); [exact (ser_mul n A M t _ _ _ _ _ _ HM Ht HA Bf Bv SF SV)|]. apply (ser_ext n A delta); [intro k; symmetry; apply inverse_conv; apply phi_zero; auto|apply ser_one]. }
  assert (meq n (rdot n H H') rident) as I2.
  { apply (ser_unique n A (conv half nhalf)); [exact (ser_mul n A M t _ _ _ _ _ _ HM Ht HA Bh Bn SH SH')|]. apply (ser_ext n A delta); [intro k; symmetry; apply half_nhalf|apply ser_one]. }
  assert (meq n (rdot n H H) E) as I3.
  { apply (ser_unique n A (conv half half)); [exact (ser_mul n A M t _ _ _ _ _ _ HM Ht HA Bh Bh SH SH)|]. apply (ser_ext n A (fun k => / INR (fact k))); [intro k; symmetry; apply half_half|apply ser_exp; auto]. }
  assert (meq n (rdot n H V) (rdot n V H)) as C1 by exact (ser_commute n A M t _ _ _ _ _ _ HM Ht HA Bh Bv SH SV).
  assert (meq n (rdot n Q H) (rdot n H Q)) as C2 by exact (ser_commute n A M t _ _ _ _ _ _ HM Ht HA Bq Bh HQ SH).
  assert (meq n (rdot n (rdot n Q H) V) (rdot n V (rdot n Q H))) as C3 by exact (ser_commute n A M t _ _ _ _ _ _ HM Ht HA Bf Bv SF SV).
  pose proof (ser_sub n A _ _ _ _ SP SF) as SO. set (O := difference (rdot n H' P) (rdot n Q H)) in *.
  assert (ser n A (omega b) O) as SO' by exact SO.
  pose proof (ser_mul n A M t _ _ _ _ _ _ HM Ht HA Bv Bo SV SO') as SG. set (G := rdot n V O) in *.
  exists (rdot n V H), G.
  assert (meq n (rdot n (rdot n V H) Q) rident) as IY by (rewrite dot_assoc, <- C2, <- C3; exact I1).
  assert (meq n (radd rident G) (rdot n V (rdot n H' P))) as EG.
  { unfold G. assert (meq n (rdot n H' P) (radd (rdot n Q H) O)) as S0 by (intros i j _ _; unfold O, radd, difference; ring). rewrite S0, dot_add_r. apply radd_proper; [|reflexivity]. rewrite <- C3. symmetry. exact I1. }
  split; [exact IY|]. split; [rewrite <- C1, <- dot_assoc; exact I1|]. split; [|split].
  - apply (ser_norm n A _ _ _ SG). intro K.
    assert (forall k, (k <= 2 * m)%nat -> conv (inverse (phi b)) (omega b) k = 0) as Z.
    { intros k Hk. unfold conv. rewrite <- rsumn_sum_f. apply rs_zero. intros i Hi. rewrite Hord by lia. ring. }
    apply Rle_trans with (norm1 n A / t * wsum t (conv (inverse (phi b)) (omega b)) K).
    + rewrite wsum_sum. unfold Rdiv. rewrite scal_sum. apply sum_Rle. intros k _. destruct (le_lt_dec k (2 * m)) as [L|L]; [rewrite (Z k L), Rabs_R0; lra|].
      rewrite Rmult_assoc. apply Rmult_le_compat_l; [apply Rabs_pos|]. apply (Rmult_le_reg_r t); auto. replace (t ^ k * (norm1 n A * / t) * t) with (norm1 n A * t ^ k) by (field; lra). auto.
    + pose proof (conv_bounded t _ _ _ _ Ht Bv Bo K) as W. apply Rle_trans with (norm1 n A / t * (/ (1 - D) * (u * t * (1 - D)))).
      * apply Rmult_le_compat_l; auto. apply Rmult_le_pos; [apply norm1_nonneg|left; apply Rinv_0_lt_compat; auto].
      * right. field. lra.
  - assert (bounded t (fun k => / INR (fact k)) (exp t)) as Be by (apply exp_bounded; auto). pose proof (conv_bounded t _ _ _ _ Ht Bv Bo) as Bg.
    exact (ser_commute n A M t _ _ _ _ _ _ HM Ht HA Be Bg (proj1 (ser_exp n A E) HE) SG).
  - intros X HX. rewrite EG. assert (meq n X (rdot n (rdot n V H) P)) as E1 by (rewrite <- HX, <- dot_assoc, IY, dot_id_l; reflexivity).
    rewrite E1, <- I3. rewrite !dot_assoc. rewrite <- (dot_assoc n H V), C1, dot_assoc. rewrite <- (dot_assoc n H V), C1, !dot_assoc. apply rdot_proper; [reflexivity|]. apply rdot_proper; [reflexivity|].
    rewrite <- (dot_assoc n H H' P), I2, dot_id_l. reflexivity.
Qed.
