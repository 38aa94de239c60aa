(** C90: the matrix exponential of pytorch_expm and its gradient. *)

From Coq Require Import List Arith Lia Bool ZArith QArith Qreals Reals Lra Setoid Morphisms Permutation Sorted.
From Verif Require Import Model.Py Model.LocalScore Model.KCI Model.Expm Spec.Scores Spec.ExpmSpec Proofs.BicFacts Proofs.PopulationFacts Proofs.KCIFacts Proofs.GaussianFacts Proofs.ExpmFacts Proofs.TaylorFacts Proofs.MajorFacts Proofs.ExpFacts Proofs.ExpAccuracyFacts Proofs.BatchFacts Proofs.FrechetFacts.
Import ListNotations.
Open Scope R_scope.

(* ---------- the approximants ---------- *)
(** The approximants of degree 1, 2, 4 and 8 are the truncated series, although they
    are computed with one, two and three products only. *)
Theorem C90_truncated : forall n A d, In d [1; 2; 4; 8]%nat -> same_matrix n (taylor n A d) (truncated n d A).
Proof.
  intros n A d H. assert (rep n A (taylor n A d) (tcoef d)) as R by (destruct H as [<-|[<-|[<-|[<-|[]]]]]; [apply rep_taylor1|apply rep_taylor2|apply rep_taylor4|apply rep_taylor8]).
  intros i j Hi Hj. rewrite (R i j Hi Hj). symmetry. apply truncated_peval; auto.
Qed.
Print Assumptions C90_truncated.

(** Those of degree 12 and 18 are polynomials of that degree whose coefficients are
    those of the series up to the factor 1 +- 10^-15: the decimals of the tables. *)
Theorem C90_coefficients : forall d, In d [12; 18]%nat -> exists c,
  (forall n A, same_matrix n (taylor n A d) (polynomial n c A)) /\
  (forall k, (k <= d)%nat -> Rabs (nth k c 0 - / INR (fact k)) <= / 10 ^ 15 / INR (fact k)) /\
  (forall k, (d < k)%nat -> nth k c 0 = 0).
Proof.
  assert (forall d c, close_to_exp (/ 10 ^ 15) d c -> (forall n A, rep n A (taylor n A d) c) -> exists c,
    (forall n A, same_matrix n (taylor n A d) (polynomial n c A)) /\ (forall k, (k <= d)%nat -> Rabs (nth k c 0 - / INR (fact k)) <= / 10 ^ 15 / INR (fact k)) /\ (forall k, (d < k)%nat -> nth k c 0 = 0)) as G.
  { intros d c [H0 H1] R. exists c. split; [|auto]. intros n A i j Hi Hj. rewrite (R n A i j Hi Hj). symmetry. apply polynomial_peval; auto. }
  intros d [<-|[<-|[]]]; eapply G; [apply close12|apply rep_taylor12|apply close18|apply rep_taylor18].
Qed.
Print Assumptions C90_coefficients.

(** A nilpotent matrix: 1 + A + A^2 / 2, by every approximant. *)
Definition nil3 : rmat := fun i j => match i, j with O, S O => 1 | S O, S (S O) => 1 | _, _ => 0 end.
Example C90_example_truncated : In 4%nat [1; 2; 4; 8]%nat /\ taylor 3 nil3 4 0%nat 2%nat = / 2 /\ truncated 3 4 nil3 0%nat 2%nat = / 2 /\ taylor 3 nil3 1 0%nat 2%nat = 0.
Proof.
  assert (taylor 3 nil3 4 0%nat 2%nat = / 2) as E.
  { unfold taylor, taylor_approx, radd, rscale, rident, rdot, rsumn. cbn [seq map Nat.eqb]. unfold rsum. cbn [fold_right nil3]. lra. }
  split; [simpl; tauto|]. split; [exact E|]. split; [rewrite <- (C90_truncated 3 nil3 4 ltac:(simpl; tauto) 0%nat 2%nat) by lia; exact E|].
  unfold taylor, taylor_approx, radd, rident. cbn [Nat.eqb nil3]. ring.
Qed.

(* ---------- accuracy ---------- *)
(** The unit of rounding, slightly enlarged. *)
Definition unit_of (double : bool) : R := if double then 12 / 10 ^ 17 else 61 / 10 ^ 9.
(** The largest norm that needs no scaling, slightly lowered. *)
Definition limit_of (double : bool) : R := if double then 109 / 100 else 301 / 100.
(** The error per unit of norm. *)
Definition rate_of (double : bool) : R := if double then 21 / 10 ^ 16 else 13 / 10 ^ 8.

Lemma entry_sum_model : forall n A, entry_sum n A = norm1 n A.
Proof. intros. unfold entry_sum, norm1. rewrite <- rsumn_sumR. apply rs_ext. intros. rewrite rsumn_sumR. auto. Qed.
Lemma frobenius_model : forall n A, frobenius n A = norm_fro n A.
Proof. intros. unfold frobenius, norm_fro. f_equal. rewrite <- rsumn_sumR. apply rs_ext. intros. rewrite rsumn_sumR. auto. Qed.
Lemma row_sum_le : forall n A, norm_at_most n A (norm1 n A).
Proof. intros. apply (nl_sum _ _ _ (normlike_row n)). Qed.
Lemma row_min : forall n A a, norm_at_most n A a -> norm_at_most n A (Rmin a (norm1 n A)).
Proof. intros n A a H i Hi. apply Rmin_glb; [apply H; auto|apply row_sum_le; auto]. Qed.
Lemma rate_ok : forall b, 2 * etaR b / theta_max b <= rate_of b.
Proof.
  intro b. pose proof (theta_pos b) as P. apply (Rmult_le_reg_r (theta_max b)); [lra|]. unfold Rdiv. rewrite Rmult_assoc, Rinv_l by lra. rewrite Rmult_1_r.
  unfold etaR. destruct b; unfold unitR, rate_of, theta_max, thetas; cbn [map last thetas_double thetas_single]; unfold Q2R; cbn [Qnum Qden]; lra.
Qed.
Lemma limit_ok : forall b, limit_of b <= theta_max b.
Proof. intros []; unfold limit_of, theta_max, thetas; cbn [map last thetas_double thetas_single]; unfold Q2R; cbn [Qnum Qden]; lra. Qed.
Lemma rpow_one : forall n X, meq n (rpow n X 1) X.
Proof. intros. cbn [rpow]. apply dot_id_r. Qed.
Lemma taylor_accuracy : forall n b A a E d t, 0 <= a -> norm_at_most n A a -> In (d, t) (combine degs (thetas b)) -> a <= t -> is_exp n A E ->
  norm_at_most n (difference (taylor n A d) E) ((/ 10 ^ 15 + unitR b * a) * exp a).
Proof.
  intros n b A a E d t Ha HA Hd Ht HE. destruct (taylor_close n A d (degs_in b d t Hd)) as (p & Cp & Rp).
  assert (0 <= unitR b * a) as HU by (pose proof (unit_pos b); apply Rmult_le_pos; lra).
  pose proof (power_accuracy n (norm_at_most n) 1 A a p d (/ 10 ^ 15) (unitR b * a) _ E 1 (normlike_row n) eps_pos HU Ha HA Cp Rp (theta_bound b d t a Hd (conj Ha Ht)) HE) as P.
  apply (nl_ext _ _ _ (normlike_row n)) with (B := difference (taylor n A d) E) in P; [|apply difference_proper; apply rpow_one].
  eapply (nl_mono _ _ _ (normlike_row n)); [exact P|]. rewrite pow_1. simpl (INR 1). rewrite !Rmult_1_l. right. ring.
Qed.
Lemma one_exact : forall A E, is_exp 1 A E -> meq 1 (fun i j => exp (A i j)) E.
Proof. intros A E H i j Hi Hj. replace i with 0%nat by lia. replace j with 0%nat by lia. symmetry. apply is_exp_one. auto. Qed.
Lemma exact_norm : forall n X E b, meq n X E -> 0 <= b -> norm_at_most n (difference X E) b.
Proof.
  intros n X E b H Hb. apply (nl_ext _ _ _ (normlike_row n)) with mzero; [intros i j Hi Hj; unfold difference, mzero; rewrite (H i j) by auto; ring|].
  apply (nl_mono _ _ _ (normlike_row n)) with (norm1 n mzero); [apply row_sum_le|rewrite norm1_zero; auto].
Qed.

(** Without scaling: if the sum of all absolute values is below the limit, the error of
    expm_taylor in the maximum norm is at most (10^-15 + u a) e^a, where a bounds the
    rows of A and u is the unit of rounding. *)
Theorem C90_small : forall double n A a E, 0 <= a -> norm_at_most n A a -> entry_sum n A <= limit_of double -> is_exp n A E ->
  norm_at_most n (difference (expm_taylor double n A) E) ((/ 10 ^ 15 + unit_of double * a) * exp a).
Proof.
  intros b n A a E Ha HA HL HE. rewrite entry_sum_model in HL. change (unit_of b) with (unitR b). unfold expm_taylor.
  assert (0 <= (/ 10 ^ 15 + unitR b * a) * exp a) as P.
  { pose proof eps_pos. pose proof (unit_pos b). pose proof (exp_pos a). apply Rmult_le_pos; [|lra]. apply Rplus_le_le_0_compat; [lra|apply Rmult_le_pos; lra]. }
  destruct (Nat.eqb_spec n 1) as [->|N1]; [apply exact_norm; auto; apply one_exact; auto|].
  destruct (first_degree (norm1 n A) (combine degs (thetas b))) as [d|] eqn:ED.
  - destruct (first_degree_some _ _ _ ED) as (t & Hd & Ht). set (c := Rmin a (norm1 n A)). assert (0 <= c) as Hc by (apply Rmin_glb; auto; apply norm1_nonneg).
    assert (c <= t) as Hct by (eapply Rle_trans; [apply Rmin_r|auto]). assert (c <= a) as Hca by apply Rmin_l.
    eapply (nl_mono _ _ _ (normlike_row n)); [apply (taylor_accuracy n b A c E d t); auto; apply row_min; auto|].
    apply Rmult_le_compat; auto.
    + apply Rplus_le_le_0_compat; [apply eps_pos|apply Rmult_le_pos; auto; left; apply unit_pos].
    + left; apply exp_pos.
    + apply Rplus_le_compat_l. apply Rmult_le_compat_l; auto. left; apply unit_pos.
    + destruct (Rle_lt_or_eq_dec _ _ Hca) as [L|L]; [left; apply exp_increasing; auto|rewrite L; lra].
  - exfalso. pose proof (first_degree_none _ _ ED _ _ (theta_last b)). pose proof (limit_ok b). lra.
Qed.
Print Assumptions C90_small.

(** For every matrix, with scaling and squaring where needed. *)
Theorem C90_accuracy : forall double n A a E, 0 <= a -> norm_at_most n A a -> is_exp n A E ->
  norm_at_most n (difference (expm_taylor double n A) E) ((exp (rate_of double * (1 + entry_sum n A)) - 1) * exp a).
Proof.
  intros b n A a E Ha HA HE. rewrite entry_sum_model. set (w := norm1 n A). assert (0 <= w) as Hw by apply norm1_nonneg.
  assert (0 < rate_of b) as Hr by (destruct b; unfold rate_of; lra).
  assert (forall x, 0 <= x -> 1 + x <= exp x) as EX by (intros x Hx; destruct (Req_dec x 0) as [->|Z]; [rewrite exp_0; lra|left; apply exp_ineq1; auto]).
  assert (0 <= rate_of b * (1 + w)) as Hrw by (apply Rmult_le_pos; lra).
  assert (0 <= (exp (rate_of b * (1 + w)) - 1) * exp a) as P.
  { apply Rmult_le_pos; [|left; apply exp_pos]. specialize (EX _ Hrw). lra. }
  assert (forall x y, x <= y -> exp x <= exp y) as EM by (intros x y H; destruct (Rle_lt_or_eq_dec _ _ H) as [L|L]; [left; apply exp_increasing; auto|rewrite L; lra]).
  unfold expm_taylor. fold w. destruct (Nat.eqb_spec n 1) as [->|N1]; [apply exact_norm; auto; apply one_exact; auto|].
  set (c := Rmin a w). assert (0 <= c) as Hc by (apply Rmin_glb; auto). assert (c <= a) as Hca by apply Rmin_l. assert (c <= w) as Hcw by apply Rmin_r.
  assert (norm_at_most n A c) as HAc by (apply row_min; auto).
  destruct (first_degree w (combine degs (thetas b))) as [d|] eqn:ED.
  - destruct (first_degree_some _ _ _ ED) as (t & Hd & Ht).
    eapply (nl_mono _ _ _ (normlike_row n)); [exact (taylor_accuracy n b A c E d t Hc HAc Hd (Rle_trans _ _ _ Hcw Ht) HE)|].
    apply Rmult_le_compat; [|left; apply exp_pos| |apply EM; auto].
    + apply Rplus_le_le_0_compat; [apply eps_pos|apply Rmult_le_pos; auto; left; apply unit_pos].
    + apply Rle_trans with (rate_of b * (1 + w)); [|specialize (EX _ Hrw); lra].
      apply Rle_trans with (/ 10 ^ 15 + unitR b * w); [apply Rplus_le_compat_l; apply Rmult_le_compat_l; auto; left; apply unit_pos|]. destruct b; unfold unitR, rate_of; lra.
  - pose proof (first_degree_none _ _ ED _ _ (theta_last b)) as Hth. pose proof (theta_pos b) as Tp. unfold scale_square. fold w.
    destruct (halvings_spec w (theta_max b) ltac:(lra) Hth) as (H1 & H2 & _). set (s := halvings w (theta_max b)) in *. assert (0 < 2 ^ s) as Ps by (apply pow_lt; lra).
    assert (c / 2 ^ s <= theta_max b) as Hcs.
    { eapply Rle_trans; [|exact H1]. apply Rmult_le_compat_r; [left; apply Rinv_0_lt_compat|]; auto. }
    pose proof (scaled_accuracy n (norm_at_most n) 1 b A c E s (normlike_row n) Hc HAc Hcs HE) as Q.
    eapply (nl_mono _ _ _ (normlike_row n)); [exact Q|]. rewrite Rmult_1_l. pose proof (eta_pos b) as Ep.
    assert (1 <= (1 + etaR b) ^ (2 ^ s)) as P1 by (apply pow_R1_Rle; lra).
    apply Rmult_le_compat; [lra|left; apply exp_pos| |apply EM; auto].
    apply Rplus_le_compat_r. eapply Rle_trans; [apply pow_exp; lra|]. apply EM. rewrite pow_INR. change (INR 2) with 2.
    apply Rle_trans with (etaR b * (2 * (w / theta_max b))); [apply Rmult_le_compat_l; lra|].
    replace (etaR b * (2 * (w / theta_max b))) with (2 * etaR b / theta_max b * w) by (field; lra).
    apply Rle_trans with (rate_of b * w); [apply Rmult_le_compat_r; auto; apply rate_ok|]. apply Rmult_le_compat_l; lra.
Qed.
Print Assumptions C90_accuracy.

(** The exponential exists for every matrix, so these bounds are never empty. *)
Theorem C90_exists : forall n A, exists E, is_exp n A E.
Proof. exact exp_exists. Qed.
Print Assumptions C90_exists.

(** A matrix that needs two halvings: norm 8 in double precision. *)
Definition rotation (x : R) : rmat := fun i j => match i, j with O, S O => x | S O, O => - x | _, _ => 0 end.
Example C90_example_scaled : exists E, is_exp 2 (rotation 4) E /\ norm_at_most 2 (rotation 4) 4 /\ theta_max true < norm1 2 (rotation 4) /\
  norm_at_most 2 (difference (expm_taylor true 2 (rotation 4)) E) ((exp (rate_of true * 9) - 1) * exp 4).
Proof.
  destruct (exp_exists 2 (rotation 4)) as [E HE]. exists E. split; auto.
  assert (entry_sum 2 (rotation 4) = 8) as W.
  { unfold entry_sum, sumRn, sumR. cbn [seq map fold_right rotation]. rewrite Rabs_R0, Rabs_Ropp, (Rabs_pos_eq 4) by lra. ring. }
  assert (norm_at_most 2 (rotation 4) 4) as HA.
  { intros i Hi. unfold sumRn, sumR. destruct i as [|[|i]]; [| |lia]; cbn [seq map fold_right rotation]; rewrite ?Rabs_Ropp, Rabs_R0, (Rabs_pos_eq 4) by lra; lra. }
  split; auto. split; [rewrite <- entry_sum_model, W; unfold theta_max, thetas; cbn [map last thetas_double]; unfold Q2R; cbn [Qnum Qden]; lra|].
  replace 9 with (1 + entry_sum 2 (rotation 4)) by (rewrite W; lra). apply C90_accuracy; auto. lra.
Qed.

(* ---------- batches ---------- *)
Lemma nth_map_lt : forall {T U} (f : T -> U) l p d d', (p < length l)%nat -> nth p (map f l) d' = f (nth p l d).
Proof. intros T U f l p d d' H. rewrite (nth_indep _ d' (f d)) by (rewrite map_length; auto). apply map_nth. Qed.
Lemma sorts_sorting : forall idx k, sorts idx k -> sorting idx k.
Proof.
  intros idx k (N & I & S0). assert (Permutation idx (seq 0 (length k))) as P.
  { apply NoDup_Permutation; auto; [apply seq_NoDup|]. intro x. rewrite I, in_seq. lia. }
  split; auto. assert (length idx = length k) as L by (rewrite (Permutation_length P), seq_length; auto). rewrite <- L in S0. clear -S0.
  induction idx as [|a l IH]; constructor.
  - apply IH. intros x y Hxy. apply (S0 (S x) (S y)). simpl. lia.
  - apply Forall_forall. intros x Hx. destruct (In_nth l x 0%nat Hx) as (q & Hq & E). specialize (S0 0%nat (S q)). simpl in S0. rewrite E in S0. apply S0. lia.
Qed.
(** matrix_power_two_batch raises each matrix of the batch to its own power of two, in
    whatever order the sort puts equal exponents. *)
Theorem C90_power_batch : forall n As k idx, k <> [] -> length As = length k -> sorts idx k ->
  exists B, matrix_power_two_batch n idx As k = Ok B /\ length B = length k /\
    forall p, (p < length k)%nat -> same_matrix n (nth p B (fun _ _ => 0)) (power n (nth p As (fun _ _ => 0)) (2 ^ nth p k 0%nat)).
Proof.
  intros n As k idx Hk HL HS. destruct (power_batch_spec n As k idx Hk HL (sorts_sorting idx k HS)) as (B & E & L & H). exists B. split; auto. split; auto.
  intros p Hp i j Hi Hj. rewrite power_model by auto. apply (H p Hp); auto.
Qed.
Print Assumptions C90_power_batch.

(** The exponents 1, 0, 2, 1: places 1, then 3 and 0 in either order, then 2. *)
Example C90_example_power : sorts [1; 3; 0; 2]%nat [1; 0; 2; 1]%nat /\ sorts [1; 0; 3; 2]%nat [1; 0; 2; 1]%nat /\
  exists B, matrix_power_two_batch 1 [1; 3; 0; 2]%nat (repeat (fun _ _ => 3) 4) [1; 0; 2; 1]%nat = Ok B /\ map (fun X : rmat => X 0%nat 0%nat) B = [9; 3; 81; 9].
Proof.
  assert (forall l, l = [1; 3; 0; 2]%nat \/ l = [1; 0; 3; 2]%nat -> sorts l [1; 0; 2; 1]%nat) as S0.
  { intros l [-> | ->]; (split; [|split]).
    1, 4: repeat constructor; simpl; lia.
    1, 3: intro p; simpl; split; intro H; lia.
    all: intros a b [H1 H2]; do 4 (try destruct a as [|a]; try destruct b as [|b]); simpl in *; lia. }
  split; [apply S0; auto|]. split; [apply S0; auto|]. eexists. split; [reflexivity|]. cbn -[Rmult Rplus]. unfold rdot, rsumn, rsum, rident. cbn -[Rmult Rplus IZR]. repeat (f_equal; try lra).
Qed.

(** A batch is computed as its matrices one by one would be: with the Frobenius norm
    for the halvings, and the identity if all norms are 0. *)
Theorem C90_batch : forall double n sort As E, (forall k, sorts (sort k) k) -> length E = length As -> (forall p, (p < length As)%nat -> is_exp n (nth p As (fun _ _ => 0)) (nth p E (fun _ _ => 0))) ->
  exists B, expm_batch sort double n As = Ok B /\ length B = length As /\
    forall p, (p < length As)%nat -> let A := nth p As (fun _ _ => 0) in
      frobenius n (difference (nth p B (fun _ _ => 0)) (nth p E (fun _ _ => 0))) <= sqrt (INR n) * ((exp (rate_of double * (1 + frobenius n A)) - 1) * exp (frobenius n A)).
Proof.
  intros b n sort As E HS HLE HE. change (fun _ _ : nat => 0) with mzero in *.
  assert (0 < rate_of b) as Hr by (destruct b; unfold rate_of; lra).
  assert (forall x, 0 <= x -> 1 + x <= exp x) as EX by (intros x Hx; destruct (Req_dec x 0) as [->|Z]; [rewrite exp_0; lra|left; apply exp_ineq1; auto]).
  assert (forall x y, x <= y -> exp x <= exp y) as EM by (intros x y H; destruct (Rle_lt_or_eq_dec _ _ H) as [L|L]; [left; apply exp_increasing; auto|rewrite L; lra]).
  assert (forall w, 0 <= w -> 0 <= sqrt (INR n) * ((exp (rate_of b * (1 + w)) - 1) * exp w)) as P.
  { intros w Hw. apply Rmult_le_pos; [apply sqrt_pos|]. apply Rmult_le_pos; [|left; apply exp_pos]. assert (0 <= rate_of b * (1 + w)) as Q by (apply Rmult_le_pos; lra). specialize (EX _ Q). lra. }
  assert (forall X Y w, meq n X Y -> 0 <= w -> frobenius n (difference X Y) <= w) as EXACT.
  { intros X Y w H Hw. rewrite frobenius_model. apply fro_le; auto. unfold square_sum. rewrite rs_zero; [apply Rmult_le_pos; auto|]. intros i Hi. apply rs_zero. intros j Hj. unfold difference. rewrite (H i j) by auto. ring. }
  unfold expm_batch. destruct (Nat.eqb_spec n 1) as [->|N1].
  { eexists. split; [reflexivity|]. rewrite map_length. split; auto. intros p Hp. cbv zeta. set (A := nth p As mzero). apply EXACT; [|apply P; rewrite frobenius_model; apply fro_nonneg].
    rewrite (nth_map_lt _ As p mzero mzero Hp). apply one_exact. apply HE. auto. }
  destruct (forallb (fun A => if Req_EM_T (norm_fro n A) 0 then true else false) As) eqn:EZ.
  { eexists. split; [reflexivity|]. rewrite map_length. split; auto. intros p Hp. cbv zeta. set (A := nth p As mzero). apply EXACT; [|apply P; rewrite frobenius_model; apply fro_nonneg].
    rewrite (nth_map_lt _ As p mzero mzero Hp).
    rewrite forallb_forall in EZ. specialize (EZ A (nth_In _ _ Hp)). destruct (Req_EM_T (norm_fro n A) 0) as [Z|]; [|discriminate].
    assert (meq n A mzero) as AZ.
    { intros i j Hi Hj. pose proof (fro_square n A) as F. rewrite Z, Rmult_0_l in F. symmetry in F. unfold square_sum in F.
      pose proof (rs_nonneg_zero n _ (fun i Hi => row_nonneg n A i) F i Hi) as F1. cbv beta in F1. pose proof (rs_nonneg_zero n _ (fun j _ => Rle_0_sqr (A i j)) F1 j Hj) as F2. apply Rsqr_0_uniq. exact F2. }
    apply (exp_unique n A); [|apply HE; auto]. apply (is_exp_ext n mzero); [symmetry; auto|]. apply (proj2 (is_exp_mcv n mzero rident)). intros i j Hi Hj. apply (cv_ext (fun _ => rident i j)); [|apply cv_const].
    intro N. unfold tcoef. cbn [seq map peval]. unfold radd, rscale. rewrite dot_zero_l by auto. unfold mzero. simpl (INR (fact 0)). rewrite Rinv_1. ring. }
  set (k := map (batch_halvings n b) As). set (Xs := map (fun A => taylor n (rscale (/ 2 ^ batch_halvings n b A) A) 18) As).
  assert (As <> []) as NE by (intros ->; discriminate).
  assert (length k = length As) as Lk by apply map_length. assert (length Xs = length As) as LX by apply map_length.
  destruct (power_batch_spec n Xs k (sort k)) as (B & EB & LB & HB); [intro Z; apply NE; destruct As; [auto|discriminate]|congruence|apply sorts_sorting; apply HS|].
  exists B. split; [exact EB|]. split; [congruence|]. intros p Hp. cbv zeta. set (A := nth p As mzero). rewrite !frobenius_model. set (w := norm_fro n A). assert (0 <= w) as Hw by apply fro_nonneg.
  assert (nth p k 0%nat = batch_halvings n b A) as Ek by (apply nth_map_lt; auto).
  assert (nth p Xs mzero = taylor n (rscale (/ 2 ^ batch_halvings n b A) A) 18) as EXs.
  { unfold Xs. rewrite (nth_map_lt _ As p mzero mzero Hp). auto. }
  specialize (HB p ltac:(lia)). rewrite Ek, EXs in HB. set (s := batch_halvings n b A) in *. pose proof (theta_pos b) as Tp.
  destruct (Rlt_dec (theta_max b) w) as [L|L].
  - assert (s = halvings w (theta_max b)) as Es by (unfold s, batch_halvings; fold w; destruct (Rlt_dec (theta_max b) w); [auto|contradiction]).
    destruct (halvings_spec w (theta_max b) ltac:(lra) L) as (H1 & H2 & _). rewrite <- Es in H1, H2. pose proof (rate_ok b) as RO. pose proof (eta_pos b) as Ep.
    pose proof (scaled_accuracy n (Nfro n) (sqrt (INR n)) b A w _ s (normlike_fro n) Hw (Rle_refl _) H1 (HE p Hp)) as Q.
    apply (nl_ext _ _ _ (normlike_fro n)) with (B := difference (nth p B mzero) (nth p E mzero)) in Q; [|apply difference_proper; [symmetry; exact HB|reflexivity]].
    eapply Rle_trans; [exact Q|]. apply Rmult_le_compat_l; [apply sqrt_pos|]. apply Rmult_le_compat_r; [left; apply exp_pos|]. apply Rplus_le_compat_r.
    eapply Rle_trans; [apply pow_exp; lra|]. apply EM. rewrite pow_INR. change (INR 2) with 2.
    apply Rle_trans with (etaR b * (2 * (w / theta_max b))); [apply Rmult_le_compat_l; lra|].
    replace (etaR b * (2 * (w / theta_max b))) with (2 * etaR b / theta_max b * w) by (field; lra).
    apply Rle_trans with (rate_of b * w); [apply Rmult_le_compat_r; auto|]. apply Rmult_le_compat_l; lra.
  - assert (s = 0%nat) as Es by (unfold s, batch_halvings; fold w; destruct (Rlt_dec (theta_max b) w); [contradiction|auto]). rewrite Es in HB.
    set (A0 := rscale (/ 2 ^ 0) A) in *. assert (meq n A A0) as EA by (intros i j _ _; unfold A0, rscale; simpl (2 ^ 0); field).
    destruct (taylor_close n A0 18) as (q & Cq & Rq); [unfold degs; simpl; tauto|].
    assert (0 <= unitR b * w) as HU by (pose proof (unit_pos b); apply Rmult_le_pos; lra).
    assert (Nfro n A0 w) as HA0 by (apply (nl_ext _ _ _ (normlike_fro n)) with A; auto; unfold Nfro, w; lra).
    pose proof (power_accuracy n (Nfro n) (sqrt (INR n)) A0 w q 18 (/ 10 ^ 15) (unitR b * w) _ (nth p E mzero) 1 (normlike_fro n) eps_pos HU Hw HA0 Cq Rq
      (theta_bound b 18 (theta_max b) w (theta_last b) ltac:(lra)) (is_exp_ext n A A0 _ EA (HE p Hp))) as Q.
    apply (nl_ext _ _ _ (normlike_fro n)) with (B := difference (nth p B mzero) (nth p E mzero)) in Q; [|apply difference_proper; [symmetry; exact HB|apply rpow_one]].
    eapply Rle_trans; [exact Q|]. apply Rmult_le_compat_l; [apply sqrt_pos|]. simpl (INR 1). rewrite Rmult_1_l, pow_1. apply Rmult_le_compat_r; [left; apply exp_pos|].
    assert (0 <= rate_of b * (1 + w)) as Hrw by (apply Rmult_le_pos; lra). specialize (EX _ Hrw).
    assert (/ 10 ^ 15 + unitR b * w <= rate_of b * (1 + w)) as K by (destruct b; unfold unitR, rate_of; lra). lra.
Qed.
Print Assumptions C90_batch.

(** A sort as the theorem asks for exists. *)
Fixpoint insert_by (k : list nat) (a : nat) (l : list nat) : list nat :=
  match l with [] => [a] | b :: r => if Nat.leb (nth a k 0%nat) (nth b k 0%nat) then a :: l else b :: insert_by k a r end.
Definition some_sort (k : list nat) : list nat := fold_right (insert_by k) [] (seq 0 (length k)).
Lemma insert_perm : forall k a l, Permutation (insert_by k a l) (a :: l).
Proof.
  intros k a l. induction l as [|b r IH]; cbn [insert_by]; auto. destruct (Nat.leb (nth a k 0%nat) (nth b k 0%nat)); auto. rewrite IH. apply perm_swap.
Qed.
Lemma insert_sorted : forall k a l, StronglySorted (fun a b => nth a k 0 <= nth b k 0)%nat l -> StronglySorted (fun a b => nth a k 0 <= nth b k 0)%nat (insert_by k a l).
Proof.
  intros k a l H. induction H as [|b r H IH F]; cbn [insert_by]; [repeat constructor|]. destruct (Nat.leb_spec (nth a k 0%nat) (nth b k 0%nat)) as [L|L].
  - constructor; [constructor; auto|]. constructor; auto. rewrite Forall_forall in *. intros x Hx. specialize (F x Hx). lia.
  - constructor; auto. rewrite Forall_forall in *. intros x Hx. apply (Permutation_in _ (insert_perm k a r)) in Hx. destruct Hx as [<-|Hx]; [lia|auto].
Qed.
Lemma some_sort_sorts : forall k, sorts (some_sort k) k.
Proof.
  intro k. assert (forall l, Permutation (fold_right (insert_by k) [] l) l /\ StronglySorted (fun a b => nth a k 0 <= nth b k 0)%nat (fold_right (insert_by k) [] l)) as G.
  { induction l as [|a l [IP IS]]; [split; constructor|]. cbn [fold_right]. split; [rewrite insert_perm; auto|apply insert_sorted; auto]. }
  destruct (G (seq 0 (length k))) as [P S0]. fold (some_sort k) in P, S0. split; [apply (Permutation_NoDup (Permutation_sym P)); apply seq_NoDup|]. split.
  - intro p. split; intro H; [apply (Permutation_in _ P) in H; apply in_seq in H; lia|apply (Permutation_in _ (Permutation_sym P)); apply in_seq; lia].
  - assert (length (some_sort k) = length k) as L by (rewrite (Permutation_length P), seq_length; auto). rewrite <- L. clear -S0.
    induction S0 as [|a l H IH F]; intros x y Hxy; [simpl in Hxy; lia|]. rewrite Forall_forall in F. destruct x as [|x], y as [|y]; simpl in *; try lia.
    + apply F. apply nth_In. lia.
    + apply IH. lia.
Qed.
Example C90_example_batch : exists E B, (forall k, sorts (some_sort k) k) /\ length E = 2%nat /\
  (forall p, (p < 2)%nat -> is_exp 2 (nth p [rotation 4; nil3] (fun _ _ => 0)) (nth p E (fun _ _ => 0))) /\
  expm_batch some_sort true 2 [rotation 4; nil3] = Ok B /\ length B = 2%nat.
Proof.
  destruct (exp_exists 2 (rotation 4)) as [E HE]. destruct (exp_exists 2 nil3) as [E' HE'].
  assert (forall p, (p < 2)%nat -> is_exp 2 (nth p [rotation 4; nil3] (fun _ _ => 0)) (nth p [E; E'] (fun _ _ => 0))) as H by (intros [|[|p]] Hp; simpl; auto; lia).
  destruct (C90_batch true 2 some_sort [rotation 4; nil3] [E; E'] some_sort_sorts eq_refl H) as (B & EB & LB & _). exists [E; E'], B. auto using some_sort_sorts.
Qed.

(* ---------- the backward pass ---------- *)
(** Outside A = 0 the backward pass is the exact gradient of a polynomial: there is one
    polynomial p, an approximant for the double matrix, such that for every direction E
    the product of the result with E is the product of G with the derivative of p. *)
Theorem C90_backward : forall double n A G, (0 < n)%nat -> (exists i j, (i < n)%nat /\ (j < n)%nat /\ A i j <> 0) ->
  exists p, same_matrix (2 * n) (expm_taylor double (2 * n) (block n (transposed A) G)) (polynomial (2 * n) p (block n (transposed A) G)) /\
    forall E, exists D, directional n (polynomial n p) A E D /\ inner n (backward double n A G) E = inner n G D.
Proof.
  intros b n A G Hn (i0 & j0 & Hi0 & Hj0 & HZ). change (transposed A) with (rtranspose A). set (M := block n (rtranspose A) G).
  assert (all_zero n A = false) as AZ.
  { apply not_true_is_false. intro Z. unfold all_zero in Z. rewrite forallb_forall in Z. specialize (Z i0). rewrite forallb_forall in Z. specialize (Z ltac:(apply in_seq; lia) j0 ltac:(apply in_seq; lia)).
    destruct (Req_EM_T (A i0 j0) 0); [contradiction|discriminate]. }
  assert (exists p, rep (2 * n) M (expm_taylor b (2 * n) M) p) as [p Rp].
  { unfold expm_taylor. destruct (Nat.eqb_spec (2 * n) 1); [lia|]. destruct (first_degree (norm1 (2 * n) M) (combine degs (thetas b))) as [d|] eqn:ED.
    - destruct (first_degree_some _ _ _ ED) as (t & Hd & _). destruct (taylor_close (2 * n) M d (degs_in b d t Hd)) as (p & _ & R). exists p. auto.
    - unfold scale_square. set (s := halvings (norm1 (2 * n) M) (theta_max b)). destruct (taylor_close (2 * n) (rscale (/ 2 ^ s) M) 18) as (p & _ & R); [simpl; tauto|].
      eexists. apply rep_pow. unfold rep in *. rewrite R. apply peval_doubled. }
  exists p. split; [intros i j Hi Hj; rewrite (Rp i j Hi Hj); symmetry; apply polynomial_peval; auto|].
  intro E. exists (dpoly n A E p). split.
  - intros i j Hi Hj. apply (derivable_ext (fun t => peval n (fun a b => A a b + t * E a b) p i j)); [intro t; symmetry; apply polynomial_peval; auto|]. apply directional_poly; auto.
  - rewrite !inner_model, <- adjoint. apply rinner_ext; [|reflexivity]. intros i j Hi Hj. unfold backward. rewrite AZ. unfold differential. fold M.
    rewrite (Rp i (n + j)%nat) by lia. unfold M. rewrite (block_peval n (rtranspose A) G p i (n + j)%nat) by lia. unfold block. destruct (Nat.ltb_spec i n); [|lia]. destruct (Nat.ltb_spec (n + j) n); [lia|]. f_equal. lia.
Qed.
Print Assumptions C90_backward.

Lemma block_row : forall n A G, norm_at_most (2 * n) (block n A G) (norm1 n A + norm1 n G).
Proof.
  intros n A G i Hi. rewrite <- rsumn_sumR. replace (2 * n)%nat with (n + n)%nat by lia. rewrite rs_split. pose proof (norm1_nonneg n A). pose proof (norm1_nonneg n G).
  assert (forall X k, (k < n)%nat -> rsumn n (fun j => Rabs (X k j)) <= norm1 n X) as RB by (intros X k Hk; pose proof (row_sum_le n X k Hk) as Q; rewrite <- rsumn_sumR in Q; auto).
  destruct (Nat.ltb_spec i n) as [L|L].
  - apply Rplus_le_compat.
    + rewrite (rs_ext n _ (fun j => Rabs (A i j))); [apply RB; auto|]. intros j Hj. blk. auto.
    + rewrite (rs_ext n _ (fun j => Rabs (G i j))); [apply RB; auto|]. intros j Hj. blk. do 2 f_equal. lia.
  - rewrite rs_zero; [|intros j Hj; blk; apply Rabs_R0]. rewrite (rs_ext n _ (fun j => Rabs (A (i - n)%nat j))); [specialize (RB A (i - n)%nat ltac:(lia)); lra|]. intros j Hj. blk. do 2 f_equal. lia.
Qed.
Lemma block_norm1 : forall n A G, norm1 (2 * n) (block n A G) = 2 * norm1 n A + norm1 n G.
Proof.
  intros n A G. unfold norm1 at 1. replace (2 * n)%nat with (n + n)%nat by lia. rewrite rs_split.
  assert (rsumn n (fun i => rsumn (n + n) (fun j => Rabs (block n A G i j))) = norm1 n A + norm1 n G) as E1.
  { unfold norm1. rewrite <- rs_plus. apply rs_ext. intros i Hi. rewrite rs_split. f_equal; apply rs_ext; intros j Hj; blk; auto. do 2 f_equal. lia. }
  assert (rsumn n (fun k => rsumn (n + n) (fun j => Rabs (block n A G (n + k)%nat j))) = norm1 n A) as E2.
  { unfold norm1. apply rs_ext. intros i Hi. rewrite rs_split. rewrite rs_zero; [|intros j Hj; blk; apply Rabs_R0]. rewrite Rplus_0_l. apply rs_ext. intros j Hj. blk. do 2 f_equal; lia. }
  rewrite E1, E2. ring.
Qed.
Lemma norm1_transpose : forall n A, norm1 n (rtranspose A) = norm1 n A.
Proof. intros. unfold norm1. rewrite rs_swap. auto. Qed.

(** The derivative of the exponential is the corner of the exponential of the double
    matrix, for every A and every direction. *)
Theorem C90_derivative : forall n A E F f, is_exp (2 * n) (block n A E) F -> (forall X, is_exp n X (f X)) -> directional n f A E (fun i j => F i (n + j)%nat).
Proof. exact exp_directional. Qed.
Print Assumptions C90_derivative.

Lemma directional_unique : forall n f A E D D', directional n f A E D -> directional n f A E D' -> meq n D D'.
Proof. intros n f A E D D' H H' i j Hi Hj. eapply uniqueness_limite; [apply H; auto|apply H'; auto]. Qed.
Lemma rinner_bound : forall n X E b, norm_at_most n X b -> Rabs (rinner n X E) <= b * norm1 n E.
Proof.
  intros n X E b H. unfold rinner. eapply Rle_trans; [apply rs_abs|]. unfold norm1. rewrite <- rs_scal. apply rs_le. intros i Hi. eapply Rle_trans; [apply rs_abs|]. rewrite <- rs_scal. apply rs_le. intros j Hj.
  rewrite Rabs_mult. apply Rmult_le_compat_r; [apply Rabs_pos|]. specialize (H i Hi). rewrite <- rsumn_sumR in H. eapply Rle_trans; [|exact H]. apply (rs_bound_one n (fun j => Rabs (X i j))); auto. intros. apply Rabs_pos.
Qed.
(** The backward pass is the gradient of the exponential: its product with a direction E
    differs from that of G with the derivative D of the exponential in the direction E
    by at most the error of the forward pass for the double matrix. *)
Theorem C90_gradient : forall double n A G E D f, (forall X, is_exp n X (f X)) -> directional n f A E D ->
  Rabs (inner n (backward double n A G) E - inner n G D) <=
    (exp (rate_of double * (1 + 2 * entry_sum n A + entry_sum n G)) - 1) * exp (entry_sum n A + entry_sum n G) * entry_sum n E.
Proof.
  intros b n A G E D f Hf HD. rewrite !entry_sum_model, !inner_model.
  set (x := norm1 n A). set (g := norm1 n G). assert (0 <= x) as Hx by apply norm1_nonneg. assert (0 <= g) as Hg by apply norm1_nonneg. pose proof (norm1_nonneg n E) as HE.
  assert (0 < rate_of b) as Hr by (destruct b; unfold rate_of; lra).
  destruct (exp_exists (2 * n) (block n A E)) as [F HF]. pose proof (exp_directional n A E F f HF Hf) as HD'.
  pose proof (directional_unique n f A E _ _ HD HD') as ED. rewrite (rinner_ext n G G D _ ltac:(reflexivity) ED).
  unfold backward. destruct (all_zero n A) eqn:AZ.
  - assert (meq n A mzero) as ZA.
    { intros i j Hi Hj. unfold all_zero in AZ. rewrite forallb_forall in AZ. specialize (AZ i ltac:(apply in_seq; lia)). rewrite forallb_forall in AZ. specialize (AZ j ltac:(apply in_seq; lia)).
      destruct (Req_EM_T (A i j) 0); [auto|discriminate]. }
    assert (meq n (fun i j => F i (n + j)%nat) E) as EF.
    { apply (mcv_unique n (fun N => dpoly n A E (tcoef (N + 1)))); [apply (mcv_shift n (fun N => dpoly n A E (tcoef N))); apply corner_limit; auto|].
      intros i j Hi Hj. apply (cv_ext (fun _ => E i j)); [|apply cv_const]. intro N. rewrite (dpoly_ext n A mzero E (tcoef (N + 1)) ZA i j) by auto.
      rewrite Nat.add_1_r. unfold tcoef. cbn [seq map dpoly]. unfold radd. rewrite dot_zero_l by auto.
      assert (meq n (peval n mzero (/ INR (fact 1) :: map (fun k => / INR (fact k)) (seq 2 N))) rident) as EI.
      { cbn [peval]. intros u v Hu Hv. unfold radd. rewrite dot_zero_l by auto. unfold rscale, mzero. simpl (INR (fact 1)). rewrite Rinv_1. ring. }
      rewrite (rdot_proper n E E ltac:(reflexivity) _ _ EI i j Hi Hj). rewrite dot_id_r by auto. unfold mzero. ring. }
    rewrite (rinner_ext n G G _ E ltac:(reflexivity) EF). rewrite Rminus_eq_0, Rabs_R0. apply Rmult_le_pos; auto. apply Rmult_le_pos; [|left; apply exp_pos].
    assert (0 <= rate_of b * (1 + 2 * x + g)) as Q by (apply Rmult_le_pos; lra). destruct (Req_dec (rate_of b * (1 + 2 * x + g)) 0) as [->|Z]; [rewrite exp_0; lra|]. pose proof (exp_ineq1 _ Z). lra.
  - set (M := block n (rtranspose A) G). destruct (exp_exists (2 * n) M) as [H HH].
    assert (norm_at_most (2 * n) M (x + g)) as HM by (unfold x; rewrite <- (norm1_transpose n A); apply block_row).
    pose proof (C90_accuracy b (2 * n) M (x + g) H ltac:(lra) HM HH) as B. rewrite entry_sum_model in B. unfold M in B at 2. rewrite block_norm1, norm1_transpose in B. fold x g in B.
    replace (1 + (2 * x + g)) with (1 + 2 * x + g) in B by ring. set (bd := (exp (rate_of b * (1 + 2 * x + g)) - 1) * exp (x + g)) in *.
    assert (rinner n (fun i j => H i (n + j)%nat) E = rinner n G (fun i j => F i (n + j)%nat)) as EH.
    { assert (forall X Y L, mcv n X L -> Un_cv (fun k => rinner n (X k) Y) (rinner n L Y)) as CL.
      { intros X Y L HX. unfold rinner. apply (cv_rsumn n (fun k i => rsumn n (fun j => X k i j * Y i j))). intros i Hi. apply (cv_rsumn n (fun k j => X k i j * Y i j)). intros j Hj. apply (CV_mult (fun k => X k i j) (fun _ => Y i j)); [apply HX; auto|apply cv_const]. }
      apply (UL_sequence (fun N => rinner n (dpoly n (rtranspose A) G (tcoef N)) E)); [apply CL; apply corner_limit; auto|].
      apply (cv_ext (fun N => rinner n (dpoly n A E (tcoef N)) G)).
      - intro N. rewrite adjoint. unfold rinner. apply rs_ext2. intros. ring.
      - replace (rinner n G (fun i j => F i (n + j)%nat)) with (rinner n (fun i j => F i (n + j)%nat) G); [apply CL; apply corner_limit; auto|]. unfold rinner. apply rs_ext2. intros. ring. }
    rewrite <- EH. unfold differential. fold M.
    replace (rinner n (fun i j => expm_taylor b (2 * n) M i (n + j)%nat) E - rinner n (fun i j => H i (n + j)%nat) E) with (rinner n (fun i j => difference (expm_taylor b (2 * n) M) H i (n + j)%nat) E).
    2:{ unfold rinner. rewrite <- rs_minus. apply rs_ext. intros i Hi. rewrite <- rs_minus. apply rs_ext. intros j Hj. unfold difference. ring. }
    apply rinner_bound. intros i Hi. specialize (B i ltac:(lia)). rewrite <- rsumn_sumR in *. eapply Rle_trans; [|exact B].
    assert (forall h : nat -> R, (forall k, 0 <= h k) -> rsumn n (fun k => h (n + k)%nat) <= rsumn (2 * n) h) as TL.
    { intros h Hh. replace (2 * n)%nat with (n + n)%nat by lia. rewrite rs_split. assert (0 <= rsumn n h) by (apply rs_nonneg; auto). lra. }
    apply (TL (fun k => Rabs (difference (expm_taylor b (2 * n) M) H i k))). intro. apply Rabs_pos.
Qed.
Print Assumptions C90_gradient.

Example C90_example_gradient : exists f D, (forall X, is_exp 2 X (f X)) /\ directional 2 f (rotation 4) nil3 D /\ (exists i j, (i < 2)%nat /\ (j < 2)%nat /\ rotation 4 i j <> 0).
Proof.
  destruct (exp_exists (2 * 2) (block 2 (rotation 4) nil3)) as [F HF].
  assert (exists f : rmat -> rmat, forall X, is_exp 2 X (f X)) as [f Hf] by (exists (fun X => fun i j => exp_limit 2 X i j); intro X; apply exp_limit_ok).
  exists f, (fun i j => F i (2 + j)%nat). split; auto. split; [apply exp_directional; auto|]. exists 0%nat, 1%nat. split; [lia|]. split; [lia|]. unfold rotation. lra.
Qed.

(** A gradient is linear in G; the backward pass is not, since G has a part in the
    choice of the degree. *)
Theorem C90_linear_refuted : exists n A G c, ~ same_matrix n (backward true n A (fun i j => c * G i j)) (fun i j => c * backward true n A G i j).
Proof.
  exists 1%nat, (fun _ _ => 5 / 10 ^ 17), (fun _ _ => / 10 ^ 16), 10. intro H. specialize (H 0%nat 0%nat ltac:(lia) ltac:(lia)).
  assert (forall g, 0 < g -> norm1 2 (block 1 (rtranspose (fun _ _ => 5 / 10 ^ 17)) (fun _ _ => g)) = / 10 ^ 16 + g) as NB.
  { intros g Hg. rewrite (block_norm1 1). unfold norm1, rtranspose, rsumn, rsum. cbn [seq map fold_right]. rewrite !Rabs_right by lra. lra. }
  unfold backward in H. assert (all_zero 1 (fun _ _ => 5 / 10 ^ 17) = false) as Z by (unfold all_zero; cbn [seq forallb]; destruct (Req_EM_T (5 / 10 ^ 17) 0); [lra|auto]).
  rewrite Z in H. unfold differential, expm_taylor in H. cbn [Nat.mul Nat.add Nat.eqb] in H. rewrite !NB in H by lra.
  assert (first_degree (/ 10 ^ 16 + / 10 ^ 16) (combine degs (thetas true)) = Some 1%nat) as D1.
  { unfold thetas, thetas_double, degs. cbn [map combine first_degree]. destruct (Rle_dec _ _) as [L|L]; auto. exfalso. apply L. unfold Q2R. cbn [Qnum Qden]. lra. }
  assert (first_degree (/ 10 ^ 16 + 10 * / 10 ^ 16) (combine degs (thetas true)) = Some 2%nat) as D2.
  { unfold thetas, thetas_double, degs. cbn [map combine first_degree]. destruct (Rle_dec _ _) as [L|L]; [exfalso; unfold Q2R in L; cbn [Qnum Qden] in L; lra|]. destruct (Rle_dec _ _) as [L'|L']; auto. exfalso. apply L'. unfold Q2R. cbn [Qnum Qden]. lra. }
  rewrite D1, D2 in H. unfold taylor, taylor_approx, radd, rscale, rident, rdot, rsumn, rsum, block, rtranspose in H. cbn [seq map fold_right Nat.eqb Nat.ltb Nat.leb] in H. lra.
Qed.
Print Assumptions C90_linear_refuted.
