(** The objective of the marginal scores and their parts. *)

From Coq Require Import List Arith Lia Bool Reals Lra FunctionalExtensionality.
From Verif Require Import Model.Py Model.LocalScore Model.KCI Model.HSIC Model.Expm Model.CVScore Model.Minimize Model.Marginal Spec.Scores Spec.KernelSpec Spec.KCISpec Spec.CVSpec Spec.MinimizeSpec Spec.MarginalSpec.
From Verif Require Import Proofs.BicFacts Proofs.ScoreFacts Proofs.KCIFacts Proofs.HSICFacts Proofs.MedianFacts Proofs.GaussianFacts Proofs.ExpmFacts Proofs.FrechetFacts Proofs.CholeskyFacts Proofs.WoodburyFacts Proofs.CVFacts Proofs.MinimizeFacts.
Import ListNotations.
Open Scope R_scope.

(* ---------- the covariance ---------- *)
Lemma sq_dist_sym : forall D ell x i j, sq_dist D ell x i j = sq_dist D ell x j i.
Proof. intros. unfold sq_dist. apply rs_ext. intros c _. ring. Qed.
Lemma covSEard_psd : forall n D x theta, psd n (covSEard D x theta).
Proof.
  intros n D x theta. pose proof (gaussian_multiplier n D (fun i c => 1 / exp (theta c) * x i c) (/ 2) ltac:(lra)) as M.
  apply (psd_ext n (fun i j => exp (2 * theta D) * exp (- / 2 * rsumn D (fun a => (1 / exp (theta a) * x i a - 1 / exp (theta a) * x j a) * (1 / exp (theta a) * x i a - 1 / exp (theta a) * x j a))))).
  - intros i j _ _. unfold covSEard. f_equal. f_equal. unfold sq_dist. replace (- rsumn D (fun c => (1 / exp (theta c) * x j c - 1 / exp (theta c) * x i c) * (1 / exp (theta c) * x j c - 1 / exp (theta c) * x i c)) / 2) with
      (- / 2 * rsumn D (fun c => (1 / exp (theta c) * x j c - 1 / exp (theta c) * x i c) * (1 / exp (theta c) * x j c - 1 / exp (theta c) * x i c))) by (unfold Rdiv; ring).
    f_equal. apply rs_ext. intros c _. ring.
  - apply multiplier_psd. apply (multiplier_scal n (exp (2 * theta D))); [left; apply exp_pos|exact M].
Qed.
Lemma covSum_pd : forall n D x theta, sym n (covSum D x theta) /\ bounded_below n (exp (2 * theta (D + 1)%nat)) (covSum D x theta).
Proof.
  intros n D x theta. split.
  - intros i j _ _. unfold covSum, radd, covNoise, rscale, rident, covSEard. rewrite (sq_dist_sym D _ x i j), (Nat.eqb_sym i j). reflexivity.
  - intro v. pose proof (proj1 (psd_quad n _) (covSEard_psd n D x theta) v) as P.
    assert (quad n v (covSum D x theta) = quad n v (covSEard D x theta) + exp (2 * theta (D + 1)%nat) * rsumn n (fun i => v i * v i)) as ->; [|lra].
    unfold quad. rewrite <- rs_scal, <- rs_plus. apply rs_ext. intros i Hi. unfold covSum, radd, covNoise, rscale, rident.
    rewrite (rs_ext n _ (fun j => v i * v j * covSEard D x theta i j + (if Nat.eqb i j then 1 else 0) * (exp (2 * theta (D + 1)%nat) * (v i * v j)))) by (intros j Hj; destruct (Nat.eqb i j); ring).
    rewrite rs_plus. f_equal. apply (rs_delta n i (fun j => exp (2 * theta (D + 1)%nat) * (v i * v j)) Hi).
Qed.

(* ---------- the objective ---------- *)
Lemma solve_chol_solves : forall inv n K L y, inverts_factors inv -> triangular_factor n K L ->
  forall a c, (a < n)%nat -> rsumn n (fun b => K a b * solve_chol inv n L y b c) = y a c.
Proof.
  intros inv n K L y Hinv HL a c Ha. destruct (Hinv n K L HL) as [I1 I2]. apply inverse_meq in I1. apply inverse_meq in I2. change (fun i j => L j i) with (rtranspose L) in I2. destruct I1 as [I1 _]. destruct I2 as [I2 _].
  change (rsumn n (fun b => K a b * solve_chol inv n L y b c)) with (rdot n K (solve_chol inv n L y) a c).
  assert (forall b, (b < n)%nat -> K a b = rdot n L (rtranspose L) a b) as HK.
  { intros b Hb. destruct HL as (_ & _ & H). rewrite <- (H a b Ha Hb), <- rsumn_sumR. reflexivity. }
  unfold rdot at 1. rewrite (rs_ext n _ (fun b => rdot n L (rtranspose L) a b * solve_chol inv n L y b c)) by (intros b Hb; rewrite HK by auto; reflexivity).
  change (rsumn n (fun b => rdot n L (rtranspose L) a b * solve_chol inv n L y b c)) with (rdot n (rdot n L (rtranspose L)) (solve_chol inv n L y) a c).
  unfold solve_chol. set (B := inv n (rtranspose L)) in *. set (A := inv n L) in *. set (z := rdot n A y).
  rewrite (rdot_assoc n n L (rtranspose L) (rdot n B z)).
  assert (forall b, (b < n)%nat -> rdot n (rtranspose L) (rdot n B z) b c = z b c) as E1.
  { intros b Hb. rewrite <- (rdot_assoc n n (rtranspose L) B z). change (mv n (rdot n (rtranspose L) B) (fun k => z k c) b = z b c). apply (mv_id n _ (fun k => z k c) b I2 Hb). }
  unfold rdot at 1. rewrite (rs_ext n _ (fun b => L a b * z b c)) by (intros b Hb; rewrite E1 by auto; reflexivity).
  change (rsumn n (fun b => L a b * z b c)) with (rdot n L z a c). unfold z. rewrite <- (rdot_assoc n n L A y). change (mv n (rdot n L A) (fun k => y k c) a = y a c). apply (mv_id n _ (fun k => y k c) a I1 Ha).
Qed.

Lemma gpr_total : forall inv n D m x y theta, exists v g, gpr inv n D m x y theta = Some (v, g) /\ forall j, j <> (D + 1)%nat -> g j = 0.
Proof.
  intros inv n D m x y theta. destruct (covSum_pd n D x theta) as [S B]. destruct (cholesky_total n _ _ (exp_pos _) S B) as (L & E & _). unfold gpr. rewrite E. eexists. eexists. split; [reflexivity|].
  intros j Hj. cbv beta. rewrite (proj2 (Nat.eqb_neq _ _) Hj). reflexivity.
Qed.
Lemma gpr_value : forall inv n D m x y theta v g, inverts_factors inv -> gpr inv n D m x y theta = Some (v, g) -> log_marginal n (covSum D x theta) m y (- v).
Proof.
  intros inv n D m x y theta v g Hinv H. destruct (covSum_pd n D x theta) as [S B]. destruct (cholesky_total n _ _ (exp_pos _) S B) as (L & E & T & _). unfold gpr in H. rewrite E in H. injection H as <- _.
  exists L, (solve_chol inv n L y). split; auto. split; [intros a c Ha _; rewrite <- rsumn_sumR; apply solve_chol_solves; auto|].
  rewrite <- rsumn_sumR. symmetry.
  transitivity (rsumn m (fun c => - / 2 * rsumn n (fun k => y k c * solve_chol inv n L y k c) + - (rsumn n (fun a => ln (L a a)) + INR n / 2 * ln (2 * PI)))).
  - apply rs_ext. intros c _. rewrite <- !rsumn_sumR, rs_scal. field.
  - rewrite rs_plus, rs_scal, rs_const. field.
Qed.

(* ---------- log_marginal depends on the entries only ---------- *)
Lemma log_marginal_ext : forall n K K' m m' y y' s, (forall a b, (a < n)%nat -> (b < n)%nat -> K a b = K' a b) -> m = m' -> (forall a c, (a < n)%nat -> (c < m)%nat -> y a c = y' a c) ->
  log_marginal n K m y s -> log_marginal n K' m' y' s.
Proof.
  intros n K K' m m' y y' s HK <- Hy (L & alpha & (T1 & T2 & T3) & HA & ->). exists L, alpha. split; [split; auto; split; auto; intros i j Hi Hj; rewrite <- HK by auto; auto|]. split.
  - intros a c Ha Hc. rewrite <- Hy by auto. rewrite <- HA by auto. rewrite <- !rsumn_sumR. apply rs_ext. intros b Hb. rewrite HK by auto. reflexivity.
  - rewrite <- !rsumn_sumR. apply rs_ext. intros c Hc. rewrite <- !rsumn_sumR. do 3 f_equal. f_equal. apply rs_ext. intros a Ha. rewrite Hy by auto. reflexivity.
Qed.
(** The value is determined by covariance and columns. *)
Lemma log_marginal_unique : forall n K m y s s', log_marginal n K m y s -> log_marginal n K m y s' -> s = s'.
Proof.
  intros n K m y s s' (L & al & T & HA & ->) (L' & al' & T' & HA' & ->). destruct (cholesky_unique n K L T) as (C & EC & HC). destruct (cholesky_unique n K L' T') as (C' & EC' & HC'). rewrite EC in EC'. injection EC' as <-.
  assert (forall a b, (a < n)%nat -> (b < n)%nat -> K a b = K b a) as Sy.
  { destruct T as (_ & _ & T). intros a b Ha Hb. rewrite <- (T a b Ha Hb), <- (T b a Hb Ha), <- !rsumn_sumR. apply rs_ext. intros k _. ring. }
  rewrite <- !rsumn_sumR. apply rs_ext. intros c Hc. rewrite <- !rsumn_sumR. f_equal. f_equal.
  - f_equal. f_equal.
    rewrite (rs_ext n _ (fun a => rsumn n (fun b => al a c * (K a b * al' b c)))) by (intros a Ha; rewrite rs_scal, rsumn_sumR, HA' by auto; ring). rewrite rs_swap. apply rs_ext. intros b Hb.
    rewrite (rs_ext n _ (fun a => al' b c * (K b a * al a c))) by (intros a Ha; rewrite (Sy a b) by auto; ring). rewrite rs_scal, rsumn_sumR, HA by auto. ring.
  - f_equal. apply rs_ext. intros a Ha. rewrite <- HC, <- HC' by auto. reflexivity.
Qed.

(* ---------- widths ---------- *)
Lemma median_width_value : forall T data cols w, median_width T (length cols) (select data cols) = Some w ->
  exists m, is_median (distances T (length cols) (columns data cols)) m /\ 0 < m /\ w = sqrt (m / 2) /\ 0 < w.
Proof.
  intros T data cols w H. change (select data cols) with (columns data cols) in H. unfold median_width in H. rewrite distances_model in H.
  destruct (median (distances T (length cols) (columns data cols))) as [m|] eqn:M; [|discriminate]. injection H as <-.
  assert (Pm : 0 < m). { apply (median_pos (distances T (length cols) (columns data cols)) m); auto. intros x Hx. unfold distances in Hx. apply filter_In in Hx. destruct (Rlt_dec 0 x); tauto || (destruct Hx; discriminate). }
  exists m. split; [apply median_is; auto|]. split; auto. split; [f_equal; field|apply sqrt_lt_R0; lra].
Qed.
Lemma median_width_total : forall T data cols, varies T (length cols) (columns data cols) -> exists w, median_width T (length cols) (select data cols) = Some w.
Proof.
  intros T data cols H. change (select data cols) with (columns data cols). destruct (median_width T (length cols) (columns data cols)) as [w|] eqn:E; [eauto|].
  apply width_none in E. destruct (varies_constant _ _ _ H E).
Qed.
Lemma width_square : forall m, 0 < m -> (sqrt (m / 2) * (5 / 2)) * (sqrt (m / 2) * (5 / 2)) = 25 / 8 * m.
Proof. intros m Pm. replace (sqrt (m / 2) * (5 / 2) * (sqrt (m / 2) * (5 / 2))) with (25 / 4 * (sqrt (m / 2) * sqrt (m / 2))) by field. rewrite sqrt_sqrt by lra. field. Qed.

Lemma regressed_value : forall T data cols K, regressed T data cols = Some K ->
  exists K', scaled_heuristic (25 / 4) T (length cols) (columns data cols) K' /\ K = centered T K' /\ (forall i j, K' i j = K' j i) /\ forall i, K' i i = 1.
Proof.
  intros T data cols K H. unfold regressed in H. destruct (median_width T (length cols) (select data cols)) as [w|] eqn:E; [|discriminate]. injection H as <-.
  destruct (median_width_value _ _ _ _ E) as (m & M & Pm & -> & Pw). exists (kernel (length cols) (select data cols) (1 / (sqrt (m / 2) * (5 / 2)) ^ 2)).
  assert (forall i j, kernel (length cols) (select data cols) (1 / (sqrt (m / 2) * (5 / 2)) ^ 2) i j = exp (- squared_distance (length cols) (columns data cols) i j / (25 / 4 * m))) as EK.
  { intros i j. rewrite kernel_exp. f_equal. change (select data cols) with (columns data cols). cbn [pow]. rewrite Rmult_1_r, width_square by auto. field. lra. }
  split; [exists m; split; auto|]. split; auto. split.
  - intros i j. rewrite !EK. do 3 f_equal. unfold squared_distance. rewrite <- !rsumn_sumR. apply rs_ext. intros c _. ring.
  - intro i. rewrite EK. replace (squared_distance (length cols) (columns data cols) i i) with 0; [unfold Rdiv; rewrite Ropp_0, Rmult_0_l; apply exp_0|]. unfold squared_distance. rewrite <- rsumn_sumR. symmetry. apply rs_zero. intros c _. ring.
Qed.

Lemma nth_repeat_in : forall (a d : R) k c, (c < k)%nat -> nth c (repeat a k) d = a.
Proof. intros a d k. induction k as [|k IH]; intros c H; [lia|]. destruct c; cbn; auto. apply IH. lia. Qed.
Lemma widths_spec : forall T data label parents w, widths T data label parents = Some w ->
  length w = length (flat_map label parents) /\ (forall x, In x w -> 0 < x) /\
  exists Ks, (forall p, In p parents -> scaled_heuristic (25 / 4) T (length (label p)) (columns data (label p)) (Ks p)) /\
    forall i j, (i < T)%nat -> (j < T)%nat -> exp (- rsumn (length w) (fun c => (data j (nth c (flat_map label parents) 0%nat) - data i (nth c (flat_map label parents) 0%nat)) / nth c w 0 * ((data j (nth c (flat_map label parents) 0%nat) - data i (nth c (flat_map label parents) 0%nat)) / nth c w 0)) / 2)
      = product parents (fun p => Ks p i j).
Proof.
  intros T data label. induction parents as [|p rest IH]; intros w H; cbn [widths] in H.
  - injection H as <-. split; auto. split; [intros x []|]. exists (fun _ _ _ => 0). split; [intros p []|]. intros i j _ _. cbn [length product]. replace (- rsumn 0 _ / 2) with 0 by (unfold rsumn; simpl; field). apply exp_0.
  - destruct (median_width T (length (label p)) (select data (label p))) as [w0|] eqn:E; [|discriminate]. destruct (widths T data label rest) as [l|] eqn:E2; [|discriminate]. injection H as <-.
    destruct (IH l eq_refl) as (L & P & Ks & HK & HE). destruct (median_width_value _ _ _ _ E) as (m & M & Pm & -> & Pw).
    split; [cbn [flat_map]; rewrite !app_length, repeat_length, L; reflexivity|]. split.
    { intros x I. apply in_app_or in I. destruct I as [I|I]; auto. apply repeat_spec in I. subst. lra. }
    set (Kp := fun i j => exp (- squared_distance (length (label p)) (columns data (label p)) i j / (25 / 4 * m))).
    exists (fun q => if Nat.eq_dec q p then Kp else Ks q). split.
    { intros q Hq. destruct (Nat.eq_dec q p) as [->|N]; [exists m; split; auto|]. destruct Hq as [->|Hq]; [contradiction|auto]. }
    intros i j Hi Hj. cbn [product flat_map]. destruct (Nat.eq_dec p p) as [_|N]; [|contradiction].
    rewrite app_length, repeat_length, rs_split. rewrite Ropp_plus_distr, Rdiv_plus_distr, exp_plus. f_equal.
    + unfold Kp. f_equal. unfold squared_distance. rewrite <- rsumn_sumR.
      rewrite (rs_ext (length (label p)) _ (fun c => / (25 / 8 * m) * ((columns data (label p) i c - columns data (label p) j c) * (columns data (label p) i c - columns data (label p) j c)))).
      * rewrite rs_scal. field. lra.
      * intros c Hc. rewrite !app_nth1 by (rewrite ?repeat_length; auto). rewrite nth_repeat_in by auto. unfold columns. rewrite <- (width_square m Pm). field. lra.
    + transitivity (product rest (fun q => Ks q i j)).
      * rewrite <- HE by auto. f_equal. f_equal. f_equal. apply rs_ext. intros c Hc. rewrite !(app_nth2 (label p)) by lia. rewrite !(app_nth2 (repeat _ _)) by (rewrite repeat_length; lia). rewrite repeat_length. replace (length (label p) + c - length (label p))%nat with c by lia. reflexivity.
      * apply product_ext. intros q Hq. destruct (Nat.eq_dec q p) as [->|]; auto.
        specialize (HK p Hq). destruct HK as (m' & M' & EK). unfold Kp. rewrite (is_median_unique _ _ _ M M'). apply EK; auto.
Qed.

(** The covariance at parameters whose length scales are the initial ones. *)
Lemma covSum_fixed : forall T data label parents w theta, widths T data label parents = Some w -> (forall j, (j <= length (flat_map label parents))%nat -> theta j = theta0 w j) ->
  covariance T data label parents (exp (2 * theta (length (flat_map label parents) + 1)%nat)) (covSum (length (flat_map label parents)) (select data (flat_map label parents)) theta).
Proof.
  intros T data label parents w theta H HT. destruct (widths_spec _ _ _ _ _ H) as (L & P & Ks & HK & HE). exists Ks. split; auto. intros a b Ha Hb.
  set (D := length (flat_map label parents)) in *. unfold covSum, radd, covNoise, rscale, rident, covSEard.
  rewrite (HT D) by lia. unfold theta0. rewrite (proj2 (Nat.ltb_ge D (length w))) by lia. rewrite (proj2 (Nat.eqb_eq D (length w))) by lia.
  replace (exp (2 * 0)) with 1 by (rewrite Rmult_0_r, exp_0; auto). rewrite Rmult_1_l. f_equal; [|destruct (Nat.eqb a b); ring].
  rewrite <- HE by auto. f_equal. f_equal. f_equal. unfold sq_dist. rewrite L. apply rs_ext. intros c Hc.
  rewrite (HT c) by lia. unfold theta0. rewrite (proj2 (Nat.ltb_lt c (length w))) by lia. rewrite exp_ln by (apply P, nth_In; lia). unfold select. assert (nth c w 0 <> 0) by (assert (0 < nth c w 0) by (apply P, nth_In; lia); lra). field. auto.
Qed.

(* ---------- the eigenvalues kept ---------- *)
Lemma kept_seq : forall N (eig : vec), (forall c c', (c <= c')%nat -> (c' < N)%nat -> eig c' <= eig c) ->
  exists m, kept N eig = seq 0 m /\ (m <= N)%nat /\ forall c, (c < N)%nat -> ((c < m)%nat <-> eig 0%nat / 100000 < eig c).
Proof.
  intros N eig D. unfold kept. assert (forall k, (k <= N)%nat -> exists m, filter (fun c => gt (eig c) (eig 0%nat * / 100000)) (seq 0 k) = seq 0 m /\ (m <= k)%nat /\ forall c, (c < k)%nat -> ((c < m)%nat <-> eig 0%nat / 100000 < eig c)) as A.
  - induction k as [|k IH]; intro Hk; [exists 0%nat; split; auto; split; auto; intros c Hc; lia|]. destruct IH as (m & E & Lm & HC); [lia|]. rewrite seq_S, filter_app, E. cbn [filter plus].
    destruct (gt (eig k) (eig 0%nat * / 100000)) eqn:G.
    + apply gt_true in G. assert (m = k) as ->. { destruct (Nat.eq_dec m k); auto. exfalso. assert (~ (m < m)%nat) by lia. apply H. apply HC; [lia|]. specialize (D m k ltac:(lia) ltac:(lia)). unfold Rdiv. lra. }
      exists (S k). split; [rewrite <- seq_S; reflexivity|]. split; auto. intros c Hc. split; [|lia]. intros _. specialize (D c k ltac:(lia) ltac:(lia)). unfold Rdiv. lra.
    + apply gt_false in G. exists m. split; [apply app_nil_r|]. split; [lia|]. intros c Hc. destruct (Nat.eq_dec c k) as [->|N0]; [|apply HC; lia]. split; [lia|]. unfold Rdiv. intro. lra.
  - apply A. lia.
Qed.
Lemma leading_ext : forall n N K K' lam V, (forall a b, (a < n)%nat -> (b < n)%nat -> K a b = K' a b) -> leading_eigenpairs n N K lam V -> leading_eigenpairs n N K' lam V.
Proof.
  intros n N K K' lam V H (E1 & E2 & E3 & E4). split; [|split; [auto|split; auto]].
  - intros a c Ha Hc. rewrite <- E1 by auto. rewrite <- !rsumn_sumR. apply rs_ext. intros b Hb. rewrite H by auto. reflexivity.
  - intros c v Hc HO. specialize (E4 c v Hc HO). rewrite <- !rsumn_sumR in *. erewrite rs_ext; [exact E4|]. intros a Ha. cbv beta. rewrite <- !rsumn_sumR. apply rs_ext. intros b Hb. rewrite H by auto. reflexivity.
Qed.
Lemma outputs_value : forall T eig eix m r c, (c < m)%nat -> 0 < eig 0%nat -> 0 < eig c -> outputs T eig eix (seq 0 m) r c = 2 * sqrt (INR T * (eig c / eig 0%nat)) * eix r c.
Proof.
  intros T eig eix m r c Hc P0 Pc. unfold outputs. rewrite !seq_nth by lia. cbn [plus]. rewrite sqrt_mult; [|apply pos_INR|apply Rlt_le, Rdiv_lt_0_compat; auto]. rewrite sqrt_div_alt by auto. assert (sqrt (eig 0%nat) <> 0) by (apply Rgt_not_eq, sqrt_lt_R0; auto). field. auto.
Qed.

(** The largest eigenvalue of the centred kernel of columns that vary is positive. *)
Lemma quad_pair : forall n (K : rmat) i j, (i < n)%nat -> (j < n)%nat -> quad n (fun a => (if Nat.eqb i a then 1 else 0) - (if Nat.eqb j a then 1 else 0)) K = K i i - K i j - K j i + K j j.
Proof.
  intros n K i j Hi Hj. unfold quad.
  rewrite (rs_ext n _ (fun a => ((if Nat.eqb i a then 1 else 0) * (K a i - K a j)) - ((if Nat.eqb j a then 1 else 0) * (K a i - K a j)))).
  - rewrite rs_minus, !rs_delta by auto. ring.
  - intros a Ha. rewrite (rs_ext n _ (fun b => ((if Nat.eqb i a then 1 else 0) - (if Nat.eqb j a then 1 else 0)) * (((if Nat.eqb i b then 1 else 0) * K a b) - ((if Nat.eqb j b then 1 else 0) * K a b)))) by (intros; ring).
    rewrite rs_scal, rs_minus, (rs_delta n i (fun b => K a b)), (rs_delta n j (fun b => K a b)) by auto. ring.
Qed.
Lemma centering_pair : forall n i j a, (i < n)%nat -> (j < n)%nat -> (a < n)%nat ->
  rsumn n (fun k => centering n a k * ((if Nat.eqb i k then 1 else 0) - (if Nat.eqb j k then 1 else 0))) = (if Nat.eqb i a then 1 else 0) - (if Nat.eqb j a then 1 else 0).
Proof.
  intros n i j a Hi Hj Ha. rewrite (rs_ext n _ (fun k => (if Nat.eqb i k then 1 else 0) * centering n a k - (if Nat.eqb j k then 1 else 0) * centering n a k)) by (intros; ring).
  rewrite rs_minus, (rs_delta n i (fun k => centering n a k)), (rs_delta n j (fun k => centering n a k)) by auto. unfold centering. rewrite (Nat.eqb_sym a i), (Nat.eqb_sym a j). destruct (Nat.eqb i a), (Nat.eqb j a); ring.
Qed.
Lemma largest_positive : forall T data cols K lam V N, varies T (length cols) (columns data cols) -> scaled_heuristic (25 / 4) T (length cols) (columns data cols) K -> (0 < N)%nat ->
  leading_eigenpairs T N (doubly_centered T K) lam V -> 0 < lam 0%nat.
Proof.
  intros T data cols K lam V N Hv (m & M & EK) HN (_ & _ & _ & E4).
  assert (0 < m) as Pm. { destruct (median_width_total T data cols Hv) as [w E]. destruct (median_width_value _ _ _ _ E) as (m' & M' & Pm & _). rewrite (is_median_unique _ _ _ M M'). auto. }
  destruct Hv as (i & j & c & Hi & Hj & Hc & Hne). set (X := columns data cols) in *.
  assert (0 < squared_distance (length cols) X i j) as Pd.
  { unfold squared_distance. rewrite <- rsumn_sumR. assert (0 <= rsumn (length cols) (fun c => (X i c - X j c) * (X i c - X j c))) as G by (apply rs_nonneg; intros; apply Rle_0_sqr). destruct G as [G|G]; auto. exfalso. apply Hne.
    assert ((X i c - X j c) * (X i c - X j c) = 0) as Z by (apply (rs_nonneg_zero (length cols) (fun c => (X i c - X j c) * (X i c - X j c))); auto; intros; apply Rle_0_sqr). apply Rmult_integral in Z. destruct Z; lra. }
  assert (K i j < 1 /\ K j i < 1) as [K1 K2].
  { assert (squared_distance (length cols) X j i = squared_distance (length cols) X i j) as Sy by (unfold squared_distance; rewrite <- !rsumn_sumR; apply rs_ext; intros; ring).
    rewrite !EK by auto. rewrite Sy. rewrite <- exp_0. assert (- squared_distance (length cols) X i j / (25 / 4 * m) < 0) by (unfold Rdiv; rewrite Ropp_mult_distr_l_reverse; assert (0 < squared_distance (length cols) X i j * / (25 / 4 * m)) by (apply Rmult_lt_0_compat; auto; apply Rinv_0_lt_compat; lra); lra). split; apply exp_increasing; auto. }
  assert (forall a, (a < T)%nat -> K a a = 1) as K0.
  { intros a Ha. rewrite EK by auto. replace (squared_distance (length cols) X a a) with 0; [unfold Rdiv; rewrite Ropp_0, Rmult_0_l; apply exp_0|]. unfold squared_distance. rewrite <- rsumn_sumR. symmetry. apply rs_zero. intros; ring. }
  set (v := fun a => (if Nat.eqb i a then 1 else 0) - (if Nat.eqb j a then 1 else 0)).
  specialize (E4 0%nat v HN ltac:(intros; lia)).
  assert (quad T v (doubly_centered T K) = K i i - K i j - K j i + K j j) as Q.
  { transitivity (quad T v (centered T K)); [unfold quad; apply rs_ext; intros a Ha; apply rs_ext; intros b Hb; rewrite centered_doubly by auto; reflexivity|].
    rewrite quad_centered. rewrite <- (quad_pair T K i j Hi Hj). unfold quad. apply rs_ext. intros a Ha. apply rs_ext. intros b Hb. unfold v. rewrite !centering_pair by auto. reflexivity. }
  assert (sumRn T (fun a => sumRn T (fun b => v a * v b * doubly_centered T K a b)) = quad T v (doubly_centered T K)) as Q2 by (unfold quad; rewrite <- rsumn_sumR; apply rs_ext; intros; rewrite <- rsumn_sumR; reflexivity).
  rewrite Q2, Q, !K0 in E4 by auto. assert (0 <= sumRn T (fun a => v a * v a)) as NN by (rewrite <- rsumn_sumR; apply rs_nonneg; intros; apply Rle_0_sqr).
  destruct (Rlt_le_dec 0 (lam 0%nat)) as [G|G]; auto. exfalso. nra.
Qed.
