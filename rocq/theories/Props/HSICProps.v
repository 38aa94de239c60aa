(** C87: the HSIC test with the gamma approximation. *)

From Coq Require Import List Arith Lia Bool Permutation Reals Lra.
From Verif Require Import Model.Py Model.LocalScore Model.KCI Model.HSIC Spec.Scores Spec.KCISpec Spec.KernelSpec Proofs.BicFacts Proofs.PopulationFacts
  Proofs.KCIFacts Proofs.GaussianFacts Proofs.HSICFacts Proofs.MedianFacts.
Import ListNotations.
Open Scope nat_scope.

Lemma sum2_model : forall n f, sumRn n (fun i => sumRn n (fun j => f i j)) = rsumn n (fun i => rsumn n (fun j => f i j)).
Proof. intros. rewrite rsumn_sumR. apply sum_ext. intros. symmetry. apply rsumn_sumR. Qed.

Lemma stat_biased : forall n K L, 0 < n -> sym n K -> sym n L -> hsic_stat n K L = (INR n * hsic_biased n K L)%R.
Proof.
  intros n K L Hn SK SL. unfold hsic_stat, sum_prod. rewrite (stat_sums n Hn K L SK SL). unfold hsic_biased. cbv zeta.
  assert (sumRn n (fun i => sumRn n (fun j => sumRn n (fun q => K i j * L i q)%R)) = rsumn n (fun i => rsumn n (fun j => K i j) * rsumn n (fun j => L i j))%R) as ->.
  { rewrite rsumn_sumR. apply sum_ext. intros i Hi. rewrite !rsumn_sumR. rewrite <- sum_scalr. apply sum_ext. intros j Hj. apply sum_scal. }
  rewrite !sum2_model. assert (INR n <> 0%R) by (apply not_0_INR; lia). field. auto.
Qed.
Lemma stat_some : forall ppf n dx X dy Y alph s t, hsic_gam ppf n dx X dy Y alph = (Some s, t) -> exists K L,
  median_kernel n dx X = Some K /\ median_kernel n dy Y = Some L /\ s = hsic_stat n K L.
Proof.
  intros ppf n dx X dy Y alph s t H. unfold hsic_gam in H. destruct (median_kernel n dx X) as [K|]; [|discriminate]. destruct (median_kernel n dy Y) as [L|]; [|discriminate].
  injection H as <- _. exists K, L. auto.
Qed.
Lemma kernel_pos_n : forall n d X K, median_kernel n d X = Some K -> 0 < n.
Proof.
  intros n d X K H. destruct n as [|n]; [|lia]. exfalso. assert (median_kernel 0 d X = None) as E by (apply median_kernel_none; intros i j c Hi; lia). rewrite E in H. discriminate.
Qed.

(** The statistic is n times the biased Hilbert-Schmidt criterion of two Gaussian
    kernels whose widths follow the median heuristic. *)
Theorem C87_statistic : forall ppf n dx X dy Y alph s t, hsic_gam ppf n dx X dy Y alph = (Some s, t) ->
  exists K L, median_heuristic n dx X K /\ median_heuristic n dy Y L /\ s = (INR n * hsic_biased n K L)%R.
Proof.
  intros ppf n dx X dy Y alph s t H. apply stat_some in H. destruct H as [K [L [HK [HL ->]]]]. exists K, L.
  split; [apply median_kernel_heuristic; auto|]. split; [apply median_kernel_heuristic; auto|].
  pose proof (kernel_pos_n _ _ _ _ HK). apply median_kernel_inv in HK, HL. destruct HK as [w [_ [-> _]]], HL as [u [_ [-> _]]].
  apply stat_biased; auto; apply rbf_sym.
Qed.
Print Assumptions C87_statistic.

(** It is never negative. *)
Theorem C87_nonneg : forall ppf n dx X dy Y alph s t, hsic_gam ppf n dx X dy Y alph = (Some s, t) -> (0 <= s)%R.
Proof.
  intros ppf n dx X dy Y alph s t H. apply stat_some in H. destruct H as [K [L [HK [HL ->]]]].
  apply median_kernel_inv in HK, HL. destruct HK as [w [Hw [-> _]]], HL as [u [Hu [-> _]]]. apply hsic_stat_nonneg; auto.
Qed.
Print Assumptions C87_nonneg.

(** A variable that varies has a positive statistic with itself. *)
Lemma delta2 : forall n i j f, i < n -> j < n ->
  rsumn n (fun k => ((if Nat.eqb i k then 1 else 0) - (if Nat.eqb j k then 1 else 0)) * f k)%R = (f i - f j)%R.
Proof.
  intros n i j f Hi Hj. rewrite (rs_ext n _ (fun k => (if Nat.eqb i k then 1 else 0) * f k - (if Nat.eqb j k then 1 else 0) * f k)%R) by (intros; ring).
  rewrite rs_minus, !rs_delta by auto. auto.
Qed.
Lemma quad_delta : forall n i j K, i < n -> j < n ->
  quad n (fun k => ((if Nat.eqb i k then 1 else 0) - (if Nat.eqb j k then 1 else 0))%R) K = (K i i + K j j - K i j - K j i)%R.
Proof.
  intros n i j K Hi Hj. unfold quad.
  rewrite (rs_ext n _ (fun a => ((if Nat.eqb i a then 1 else 0) - (if Nat.eqb j a then 1 else 0)) * (K a i - K a j))%R).
  - rewrite (delta2 n i j (fun a => K a i - K a j)%R) by auto. ring.
  - intros a Ha. rewrite <- (delta2 n i j (fun b => K a b)) by auto. rewrite <- rs_scal. apply rs_ext. intros. ring.
Qed.
Lemma self_pos : forall n d X w, w <> 0%R -> ~ constant_data n d X -> (0 < hsic_stat n (rbf d X w) (rbf d X w))%R.
Proof.
  intros n d X w Hw NC. destruct (not_const_varies n d X NC) as [i [j [Hi [Hj D]]]]. set (K := rbf d X w).
  assert (0 < n) as Hn by lia. assert (0 < INR n)%R as HN by (apply lt_0_INR; auto).
  destruct (Rle_lt_or_eq_dec 0 (hsic_stat n K K) (hsic_stat_nonneg n d X d X w w Hw Hw)) as [|Z]; auto. exfalso.
  unfold hsic_stat in Z. assert (sum_prod n (fun i j => centered n K j i) (centered n K) = 0%R) as Z1.
  { symmetry in Z. unfold Rdiv in Z. apply Rmult_integral in Z. destruct Z as [|Z]; auto. exfalso. pose proof (Rinv_0_lt_compat _ HN). lra. }
  assert (forall a b, a < n -> b < n -> centered n K a b = 0%R) as C.
  { assert (forall a b, a < n -> b < n -> centered n K b a = centered n K a b) as S by (intros; apply (sym_centered n Hn K (rbf_sym n d X w)); auto).
    unfold sum_prod in Z1. rewrite (rs_ext2 n n _ (fun a b => centered n K a b * centered n K a b)%R) in Z1 by (intros; rewrite S; auto).
    intros a b Ha Hb. pose proof (rs_nonneg_zero n _ (fun a _ => rs_nonneg n _ (fun b _ => Rle_0_sqr (centered n K a b))) Z1 a Ha) as Z2. cbv beta in Z2.
    pose proof (rs_nonneg_zero n _ (fun b _ => Rle_0_sqr (centered n K a b)) Z2 b Hb) as Z3. apply Rsqr_0_uniq in Z3. auto. }
  set (v := fun k => ((if Nat.eqb i k then 1 else 0) - (if Nat.eqb j k then 1 else 0))%R).
  assert (quad n v (centered n K) = 0%R) as Q0 by (unfold quad; apply rs_zero; intros a Ha; apply rs_zero; intros b Hb; rewrite C by auto; ring).
  rewrite quad_centered in Q0.
  assert (quad n (fun a => rsumn n (fun k => centering n a k * v k)%R) K = quad n v K) as E.
  { unfold quad. apply rs_ext2. intros a b Ha Hb. rewrite !(centering_apply n) by auto.
    assert (rsumn n v = 0%R) as ->; [|unfold Rdiv; ring].
    rewrite (rs_ext n v (fun k => v k * 1)%R) by (intros; ring). unfold v. rewrite (delta2 n i j (fun _ => 1%R)) by auto. ring. }
  rewrite E in Q0. unfold v in Q0. rewrite quad_delta in Q0 by auto. unfold K in Q0. rewrite !rbf_diag, (rbf_sym n d X w j i Hj Hi) in Q0.
  pose proof (rbf_lt1 d X w i j Hw D). lra.
Qed.
Theorem C87_self : forall ppf n d X alph, varies n d X -> exists s t, hsic_gam ppf n d X d X alph = (Some s, t) /\ (0 < s)%R.
Proof.
  intros ppf n d X alph [i [j [c [Hi [Hj [Hc D]]]]]]. assert (~ constant_data n d X) as NC by (intro H; apply D; apply H; auto).
  unfold hsic_gam. destruct (median_kernel n d X) as [K|] eqn:E; [|apply median_kernel_none in E; contradiction].
  apply median_kernel_inv in E. destruct E as [w [Hw [-> _]]]. eexists _, _. split; [reflexivity|]. apply self_pos; auto.
Qed.
Print Assumptions C87_self.

(** Neither the order of the two variables nor that of the samples matters. *)
Theorem C87_symmetric : forall ppf n dx X dy Y alph, hsic_gam ppf n dx X dy Y alph = hsic_gam ppf n dy Y dx X alph.
Proof. exact hsic_gam_comm. Qed.
Print Assumptions C87_symmetric.

Theorem C87_sample_order : forall ppf n p dx X X' dy Y Y' alph, reordered n p X X' -> reordered n p Y Y' ->
  hsic_gam ppf n dx X' dy Y' alph = hsic_gam ppf n dx X dy Y alph.
Proof.
  intros ppf n p dx X X' dy Y Y' alph [Hp HX] [_ HY]. rewrite <- (hsic_gam_rows n p Hp ppf dx X dy Y alph).
  apply hsic_gam_ext; apply (kernel_dists _ _ _ _ _ 1%R); try lra; intros i j _ _; rewrite !dist2_sq, Rmult_1_l; apply rs_ext; intros c _; unfold rows.
  - rewrite !HX. auto.
  - rewrite !HY. auto.
Qed.
Print Assumptions C87_sample_order.

(** Units do not matter when all columns of a variable share the factor. *)
Theorem C87_units : forall ppf n dx X X' dy Y Y' alph, similar_units n dx X X' -> similar_units n dy Y Y' ->
  hsic_gam ppf n dx X' dy Y' alph = hsic_gam ppf n dx X dy Y alph.
Proof. intros. apply hsic_gam_ext; apply kernel_rescaled; auto. Qed.
Print Assumptions C87_units.

Corollary C87_test_units : forall ppf n x y alpha a b c e, (a <> 0)%R -> (c <> 0)%R ->
  hsic_test ppf n (fun i => a * x i + b)%R (fun i => c * y i + e)%R alpha = hsic_test ppf n x y alpha.
Proof.
  intros ppf n x y alpha a b c e Ha Hc. unfold hsic_test.
  rewrite (C87_units ppf n 1 (fun i _ => x i) (fun i _ => a * x i + b)%R 1 (fun i _ => y i) (fun i _ => c * y i + e)%R alpha); auto.
  - exists a, (fun _ => b). auto.
  - exists c, (fun _ => e). auto.
Qed.
Print Assumptions C87_test_units.

(** The test decides only with six or more samples of two variables that vary; else it
    returns None. *)
Theorem C87_decides : forall ppf n x y alpha b, hsic_test ppf n x y alpha = Some b ->
  6 <= n /\ varies n 1 (fun i _ => x i) /\ varies n 1 (fun i _ => y i).
Proof.
  intros ppf n x y alpha b H. unfold hsic_test, hsic_gam in H.
  destruct (median_kernel n 1 (fun i _ => x i)) as [K|] eqn:HK; [|discriminate].
  destruct (median_kernel n 1 (fun i _ => y i)) as [L|] eqn:HL; [|discriminate].
  assert (forall z, median_kernel n 1 (fun i _ => z i) <> None -> varies n 1 (fun i _ => z i)) as V.
  { intros z Hz. rewrite median_kernel_none in Hz. destruct (not_const_varies n 1 (fun i _ => z i) Hz) as [i [j [Hi [Hj D]]]].
    exists i, j, 0. repeat split; auto. intro E. apply D. rewrite dist2_sq. apply rs_zero. intros c Hc. rewrite E. ring. }
  split; [|split; apply V; congruence].
  destruct (Nat.leb_spec n 3) as [|G]; [discriminate|]. destruct (Req_EM_T (var_hsic n K L) 0) as [|NV]; [discriminate|].
  destruct (Nat.le_gt_cases 6 n) as [|B]; auto. exfalso. apply NV. unfold var_hsic. cbv zeta.
  assert (n = 4 \/ n = 5) as [->| ->] by lia.
  - replace (INR 4) with 4%R by (simpl; ring). unfold Rdiv. ring.
  - replace (INR 5) with 5%R by (simpl; ring). unfold Rdiv. ring.
Qed.
Print Assumptions C87_decides.

(** The quantile function is only used with positive shape and scale. *)
Theorem C87_parameters : forall ppf ppf' n dx X dy Y alph, (forall q a s, (0 < a)%R -> (0 < s)%R -> ppf q a s = ppf' q a s) ->
  hsic_gam ppf n dx X dy Y alph = hsic_gam ppf' n dx X dy Y alph.
Proof.
  intros ppf ppf' n dx X dy Y alph H. unfold hsic_gam.
  destruct (median_kernel n dx X) as [K|] eqn:HK; auto. destruct (median_kernel n dy Y) as [L|] eqn:HL; auto. f_equal.
  destruct (Nat.leb_spec n 3) as [|G]; auto. destruct (Req_EM_T (var_hsic n K L) 0) as [|NV]; auto. destruct (Req_EM_T (mean_hsic n K L) 0) as [|NM]; auto.
  assert (0 < var_hsic n K L)%R as PV by (pose proof (var_nonneg n K L G); lra).
  assert (0 < mean_hsic n K L)%R as PM.
  { assert (~ constant_data n dx X) as CX by (rewrite <- median_kernel_none; congruence). assert (~ constant_data n dy Y) as CY by (rewrite <- median_kernel_none; congruence).
    apply median_kernel_inv in HK, HL. destruct HK as [w [Hw [-> _]]], HL as [u [Hu [-> _]]]. apply mean_hsic_pos; auto. }
  f_equal. apply H.
  - apply Rmult_lt_0_compat; [apply Rmult_lt_0_compat; auto|apply Rinv_0_lt_compat; auto].
  - apply Rmult_lt_0_compat; [apply Rmult_lt_0_compat; auto; apply lt_0_INR; lia|apply Rinv_0_lt_compat; auto].
Qed.
Print Assumptions C87_parameters.

(** The threshold is the quantile of the gamma distribution with the mean and the
    variance of the literature. *)
Lemma pair_mean_model : forall n f, pair_mean n f = (rsumn n (fun i => rsumn n (fun j => if Nat.eqb i j then 0 else f i j)) / (INR n * (INR n - 1)))%R.
Proof. intros. unfold pair_mean. rewrite sum2_model. auto. Qed.
Lemma mean_spec : forall n K L, 2 <= n -> mean_hsic n K L = null_mean n K L.
Proof.
  intros n K L Hn. assert (2 <= INR n)%R as G by (apply (le_INR 2); auto). unfold mean_hsic, null_mean. cbv zeta.
  assert (forall K, off_mean n K = pair_mean n K) as E; [|rewrite !E; field; lra].
  intro M. rewrite pair_mean_model. unfold off_mean.
  rewrite (rs_ext2 n n (fun i j => if Nat.eqb i j then M i j - M i j else M i j)%R (fun i j => if Nat.eqb i j then 0 else M i j)%R) by (intros i j _ _; destruct (Nat.eqb i j); auto; ring).
  field. lra.
Qed.
Lemma var_spec : forall n K L, 4 <= n -> var_hsic n K L = null_variance n K L.
Proof.
  intros n K L Hn. assert (4 <= INR n)%R as G by (replace 4%R with (INR 4) by (simpl; ring); apply le_INR; auto). unfold var_hsic, null_variance. cbv zeta. rewrite pair_mean_model.
  assert (forall K i j, i < n -> j < n -> centered n K i j = doubly_centered n K i j) as C.
  { intros M i j Hi Hj. rewrite centered_formula by (auto; lia). unfold doubly_centered. rewrite sum2_model, <- !rsumn_sumR. ring. }
  set (v := fun i j : nat => (centered n K i j * centered n L i j / 6 * (centered n K i j * centered n L i j / 6))%R).
  change (rsumn n (fun i => rsumn n (fun j => centered n K i j * centered n L i j / 6 * (centered n K i j * centered n L i j / 6)))%R) with (rsumn n (fun i => rsumn n (fun j => v i j))).
  rewrite (rs_ext2 n n (fun i j => if Nat.eqb i j then 0%R else Rsqr (doubly_centered n K i j * doubly_centered n L i j)) (fun i j => 36 * (v i j - (if Nat.eqb i j then 1 else 0) * v i j))%R).
  - rewrite (rs_ext n (fun i => rsumn n (fun j => 36 * (v i j - (if Nat.eqb i j then 1 else 0) * v i j))%R) (fun i => 36 * (rsumn n (fun j => v i j) - v i i))%R).
    + rewrite rs_scal, rs_minus. unfold rtrace. field. repeat split; lra.
    + intros i Hi. rewrite rs_scal, rs_minus, (rs_delta n i (fun j => v i j)) by auto. auto.
  - intros i j Hi Hj. unfold v, Rsqr. rewrite <- !C by auto. destruct (Nat.eqb i j); field.
Qed.
Theorem C87_threshold : forall ppf n dx X dy Y alph s t, hsic_gam ppf n dx X dy Y alph = (Some s, Some t) ->
  exists K L shape scale, median_heuristic n dx X K /\ median_heuristic n dy Y L /\ (0 < shape)%R /\ (0 < scale)%R /\
    (shape * scale = INR n * null_mean n K L)%R /\ (shape * scale * scale = INR n * INR n * null_variance n K L)%R /\ t = ppf (1 - alph)%R shape scale.
Proof.
  intros ppf n dx X dy Y alph s t H. unfold hsic_gam in H.
  destruct (median_kernel n dx X) as [K|] eqn:HK; [|discriminate]. destruct (median_kernel n dy Y) as [L|] eqn:HL; [|discriminate].
  destruct (Nat.leb_spec n 3) as [|G]; [discriminate|]. destruct (Req_EM_T (var_hsic n K L) 0) as [|NV]; [discriminate|]. destruct (Req_EM_T (mean_hsic n K L) 0) as [|NM]; [discriminate|].
  injection H as _ <-. exists K, L, (mean_hsic n K L * mean_hsic n K L / var_hsic n K L)%R, (var_hsic n K L * INR n / mean_hsic n K L)%R.
  assert (0 < var_hsic n K L)%R as PV by (pose proof (var_nonneg n K L G); lra).
  assert (0 < mean_hsic n K L)%R as PM.
  { assert (~ constant_data n dx X) as CX by (rewrite <- median_kernel_none; congruence). assert (~ constant_data n dy Y) as CY by (rewrite <- median_kernel_none; congruence).
    clear NV NM PV. apply median_kernel_inv in HK, HL. destruct HK as [w [Hw [-> _]]], HL as [u [Hu [-> _]]]. apply mean_hsic_pos; auto. }
  split; [apply median_kernel_heuristic; auto|]. split; [apply median_kernel_heuristic; auto|].
  split; [apply Rmult_lt_0_compat; [apply Rmult_lt_0_compat; auto|apply Rinv_0_lt_compat; auto]|].
  split; [apply Rmult_lt_0_compat; [apply Rmult_lt_0_compat; auto; apply lt_0_INR; lia|apply Rinv_0_lt_compat; auto]|].
  rewrite <- mean_spec, <- var_spec by lia. split; [|split; auto]; field; auto.
Qed.
Print Assumptions C87_threshold.

(** A stricter level never turns independence into dependence. *)
Theorem C87_level : forall ppf n x y alpha alpha', (forall q q' a s, (q <= q')%R -> (ppf q a s <= ppf q' a s)%R) -> (alpha' <= alpha)%R ->
  hsic_test ppf n x y alpha = Some true -> hsic_test ppf n x y alpha' = Some true.
Proof.
  intros ppf n x y alpha alpha' M L H. unfold hsic_test, hsic_gam in *.
  destruct (median_kernel n 1 (fun i _ => x i)) as [K|]; [|discriminate]. destruct (median_kernel n 1 (fun i _ => y i)) as [K'|]; [|discriminate].
  destruct (Nat.leb n 3); [discriminate|]. destruct (Req_EM_T (var_hsic n K K') 0); [discriminate|]. destruct (Req_EM_T (mean_hsic n K K') 0); [discriminate|].
  pose proof (M (1 - alpha)%R (1 - alpha')%R (mean_hsic n K K' * mean_hsic n K K' / var_hsic n K K')%R (var_hsic n K K' * INR n / mean_hsic n K K')%R ltac:(lra)) as P.
  destruct (Rlt_dec (hsic_stat n K K') _) as [A|A] in H.
  - destruct (Rlt_dec _ _) as [B|B]; auto. exfalso. apply B. lra.
  - destruct (Rlt_dec _ _) in H; discriminate.
Qed.
Print Assumptions C87_level.

(** Two samples: squared distance 1 is the median, the kernel is exp (-1) off the
    diagonal and the statistic (1 - exp (-1))^2 / 2. *)
Definition step2 : rmat := fun i _ => INR i.
Example C87_example_kernel : median_kernel 2 1 step2 = Some (rbf 1 step2 (sqrt (/ 2))).
Proof.
  unfold median_kernel, median_width. rewrite positives_upper. unfold ups. simpl list_prod. cbn [filter fst snd Nat.ltb Nat.leb map].
  assert (dist2 1 step2 0 1 = 1%R) as -> by (unfold dist2, step2; rewrite !rs_one; simpl; ring).
  unfold positives. cbn [filter]. destruct (Rlt_dec 0 1); [|exfalso; lra]. unfold median. simpl. rewrite Rmult_1_r. auto.
Qed.
Example C87_example : forall ppf, hsic_gam ppf 2 1 step2 1 step2 0 = (Some ((1 - exp (-1)) * (1 - exp (-1)) / 2)%R, None).
Proof.
  intro ppf. unfold hsic_gam. rewrite C87_example_kernel. cbv zeta. simpl Nat.leb. cbv iota. do 2 f_equal.
  rewrite stat_biased by (try lia; apply rbf_sym). unfold hsic_biased, sumRn. cbv zeta. simpl sumR. rewrite !rbf_diag.
  assert (forall i j, (i = 0 /\ j = 1) \/ (i = 1 /\ j = 0) -> rbf 1 step2 (sqrt (/ 2)) i j = exp (-1)) as E.
  { intros i j Hij. unfold rbf. rewrite sqrt_sqrt by lra. f_equal. destruct Hij as [[-> ->]|[-> ->]]; unfold dist2, step2; rewrite !rs_one; simpl; field. }
  rewrite !E by auto. simpl INR. field.
Qed.

(** Six samples in two groups: the variance is positive, so the test decides. *)
Lemma var_zero : forall n K L, 6 <= n -> var_hsic n K L = 0%R -> forall i j, i < n -> j < n -> i <> j -> (centered n K i j * centered n L i j = 0)%R.
Proof.
  intros n K L Hn E i j Hi Hj NE. unfold var_hsic in E. set (v := fun i j : nat => let x := (centered n K i j * centered n L i j / 6)%R in (x * x)%R) in E. cbv zeta in E.
  change (rsumn n (fun i => rsumn n (fun j => centered n K i j * centered n L i j / 6 * (centered n K i j * centered n L i j / 6)))%R) with (rsumn n (fun i => rsumn n (fun j => v i j))) in E.
  destruct (var_factor n ltac:(lia)) as [_ F]. specialize (F ltac:(lia)).
  assert (6 <= INR n)%R as G6 by (replace 6%R with (INR 6) by (simpl; ring); apply le_INR; auto).
  set (T := (rsumn n (fun i => rsumn n (fun j => v i j)) - rtrace n v)%R) in *.
  assert (T = 0%R) as TZ.
  { assert (T * (/ INR n * / (INR n - 1) * (72 * (INR n - 4) * (INR n - 5) / INR n / (INR n - 1) / (INR n - 2) / (INR n - 3))) = 0)%R as Z by (rewrite <- E; unfold Rdiv; ring).
    apply Rmult_integral in Z. destruct Z as [|Z]; auto. exfalso.
    assert (0 < / INR n * / (INR n - 1))%R as I by (apply Rmult_lt_0_compat; apply Rinv_0_lt_compat; lra).
    pose proof (Rmult_lt_0_compat _ _ I F). lra. }
  assert (T = rsumn n (fun i => rsumn n (fun j => v i j - (if Nat.eqb i j then 1 else 0) * v i j)%R)) as TE.
  { unfold T, rtrace. rewrite <- rs_minus. apply rs_ext. intros a Ha. rewrite rs_minus. f_equal. symmetry. apply (rs_delta n a (fun b => v a b)); auto. }
  assert (forall a b, 0 <= v a b - (if Nat.eqb a b then 1 else 0) * v a b)%R as P by (intros a b; assert (0 <= v a b)%R by apply Rle_0_sqr; destruct (Nat.eqb a b); lra).
  rewrite TZ in TE. symmetry in TE.
  pose proof (rs_nonneg_zero n _ (fun a _ => rs_nonneg n _ (fun b _ => P a b)) TE i Hi) as Z1. cbv beta in Z1.
  pose proof (rs_nonneg_zero n _ (fun b _ => P i b) Z1 j Hj) as Z2. cbv beta in Z2.
  destruct (Nat.eqb_spec i j); [contradiction|]. assert (v i j = 0)%R as Z3 by lra. unfold v in Z3. cbv zeta in Z3. apply Rsqr_0_uniq in Z3. lra.
Qed.
Definition two_groups (i : nat) : R := if Nat.ltb i 3 then 0%R else 1%R.
Lemma two_groups_dist : forall i j, dist2 1 (fun i _ => two_groups i) i j = if Bool.eqb (Nat.ltb i 3) (Nat.ltb j 3) then 0%R else 1%R.
Proof. intros i j. unfold dist2, two_groups. rewrite !rs_one. destruct (Nat.ltb i 3), (Nat.ltb j 3); simpl; ring. Qed.
Lemma median_all : forall l c, l <> [] -> (forall x, In x l -> x = c) -> median l = Some c.
Proof.
  intros l c NE H. unfold median. destruct (Nat.eqb_spec (length l) 0) as [E|NZ]; [destruct l; [contradiction|discriminate]|].
  assert (forall k, k < length l -> nth k (rsort l) 0%R = c) as P.
  { intros k Hk. apply H. apply (Permutation_in _ (rsort_perm l)). apply nth_In. rewrite (Permutation_length (rsort_perm l)). auto. }
  pose proof (half_lt _ NZ) as HL. assert (length l / 2 - 1 < length l) as HL' by lia. rewrite (P _ HL), (P _ HL'). destruct (Nat.even (length l)); f_equal. lra.
Qed.
Lemma two_groups_kernel : median_kernel 6 1 (fun i _ => two_groups i) = Some (rbf 1 (fun i _ => two_groups i) (sqrt (/ 2))).
Proof.
  unfold median_kernel, median_width. rewrite positives_upper. rewrite (median_all _ 1%R).
  - rewrite Rmult_1_r. auto.
  - intro E. assert (In 1%R (positives (map (fun p => dist2 1 (fun i _ => two_groups i) (fst p) (snd p)) (ups 6)))) as I; [|rewrite E in I; destruct I].
    apply in_positives. split; [|lra]. apply in_map_iff. exists (0, 3). split; [rewrite two_groups_dist; auto|]. apply in_ups. simpl. lia.
  - intros x Hx. apply in_positives in Hx. destruct Hx as [Hx P]. apply in_map_iff in Hx. destruct Hx as [p [<- _]]. rewrite two_groups_dist in *.
    destruct (Bool.eqb _ _); lra.
Qed.
Lemma two_groups_entry : forall i j, rbf 1 (fun i _ => two_groups i) (sqrt (/ 2)) i j = if Bool.eqb (Nat.ltb i 3) (Nat.ltb j 3) then 1%R else exp (-1).
Proof.
  intros i j. unfold rbf. rewrite two_groups_dist, sqrt_sqrt by lra. destruct (Bool.eqb _ _); [|f_equal; field].
  replace (- 0 / 2 / / 2)%R with 0%R by field. apply exp_0.
Qed.
Example C87_example_decision : forall ppf, (forall q a s, ppf q a s = 0)%R -> hsic_test ppf 6 two_groups two_groups (5 / 100) = Some false.
Proof.
  intros ppf H. unfold hsic_test, hsic_gam. rewrite two_groups_kernel. cbv zeta. set (K := rbf 1 (fun i _ => two_groups i) (sqrt (/ 2))).
  assert (sqrt (/ 2) <> 0)%R as SW by (apply Rgt_not_eq; apply sqrt_lt_R0; lra).
  assert (~ constant_data 6 1 (fun i _ => two_groups i)) as NC. { intro C. specialize (C 0 3 0 ltac:(lia) ltac:(lia) ltac:(lia)). unfold two_groups in C. simpl in C. lra. }
  assert (0 < hsic_stat 6 K K)%R as P by (apply self_pos; auto).
  assert (exp (-1) < 1)%R as E1 by (rewrite <- exp_0; apply exp_increasing; lra).
  simpl Nat.leb. cbv iota. destruct (Req_EM_T (var_hsic 6 K K) 0) as [V|V].
  - exfalso. pose proof (var_zero 6 K K ltac:(lia) V 0 1 ltac:(lia) ltac:(lia) ltac:(lia)) as Z. rewrite centered_formula in Z by lia.
    assert (forall a b, K a b = if Bool.eqb (Nat.ltb a 3) (Nat.ltb b 3) then 1%R else exp (-1)) as EK by (intros; apply two_groups_entry).
    clearbody K. assert (forall b, rsumn 6 (fun k => K k b) = (3 + 3 * exp (-1))%R) as C6.
    { intro b. rewrite !rs_S. unfold rsumn, rsum. cbn [seq map fold_right]. rewrite !EK. destruct (Nat.ltb b 3); cbn [Bool.eqb Nat.ltb Nat.leb]; ring. }
    assert (forall a, rsumn 6 (fun k => K a k) = (3 + 3 * exp (-1))%R) as R6.
    { intro a. rewrite !rs_S. unfold rsumn, rsum. cbn [seq map fold_right]. rewrite !EK. destruct (Nat.ltb a 3); cbn [Bool.eqb Nat.ltb Nat.leb]; ring. }
    rewrite C6, R6 in Z. rewrite (rs_ext 6 (fun k => rsumn 6 (fun l => K k l)) (fun _ => 3 + 3 * exp (-1))%R) in Z by auto. rewrite rs_const, EK in Z.
    cbn [Bool.eqb Nat.ltb Nat.leb] in Z. replace (INR 6) with 6%R in Z by (simpl; ring). apply Rsqr_0_uniq in Z. lra.
  - destruct (Req_EM_T (mean_hsic 6 K K) 0) as [M|M].
    + exfalso. pose proof (mean_hsic_pos 6 1 _ 1 _ _ _ SW SW NC NC) as Q. fold K in Q. lra.
    + rewrite H. destruct (Rlt_dec (hsic_stat 6 K K) 0); [exfalso; lra|]. destruct (Rlt_dec 0 (hsic_stat 6 K K)); auto. contradiction.
Qed.
