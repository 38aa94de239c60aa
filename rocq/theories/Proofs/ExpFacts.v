(** The exponential of a matrix as a limit: existence, doubling, bounds. *)

From Coq Require Import List Arith Lia Bool ZArith QArith Qreals Reals Lra Setoid Morphisms.
From Verif Require Import Model.Py Model.LocalScore Model.KCI Model.Expm Spec.Scores Spec.ExpmSpec Proofs.BicFacts Proofs.PopulationFacts Proofs.KCIFacts Proofs.GaussianFacts Proofs.ExpmFacts Proofs.TaylorFacts Proofs.MajorFacts.
Import ListNotations.
Open Scope R_scope.

(* ---------- the three norms ---------- *)
Lemma rs_abs : forall n f, Rabs (rsumn n f) <= rsumn n (fun i => Rabs (f i)).
Proof.
  intros n f. induction n as [|n IH]; [unfold rsumn; simpl; rewrite Rabs_R0; lra|]. rewrite !rs_S. eapply Rle_trans; [apply Rabs_triang|]. lra.
Qed.
Lemma rs_bound_one : forall n f i, (forall j, (j < n)%nat -> 0 <= f j) -> (i < n)%nat -> f i <= rsumn n f.
Proof.
  intros n f i H Hi. assert (rsumn n (fun j => (if Nat.eqb i j then 1 else 0) * f j) <= rsumn n f) as L; [|rewrite rs_delta in L; auto].
  apply rs_le. intros j Hj. specialize (H j Hj). destruct (Nat.eqb i j); lra.
Qed.
Lemma dot_abs : forall n A B i, rsumn n (fun j => Rabs (rdot n A B i j)) <= rsumn n (fun k => Rabs (A i k) * rsumn n (fun j => Rabs (B k j))).
Proof.
  intros n A B i. apply Rle_trans with (rsumn n (fun j => rsumn n (fun k => Rabs (A i k) * Rabs (B k j)))).
  - apply rs_le. intros j Hj. unfold rdot. eapply Rle_trans; [apply rs_abs|]. right. apply rs_ext. intros k Hk. apply Rabs_mult.
  - right. rewrite rs_swap. apply rs_ext. intros k Hk. apply rs_scal.
Qed.
Definition Nsum (n : nat) (A : rmat) (a : R) : Prop := norm1 n A <= a.
Lemma normlike_sum : forall n, normlike n (Nsum n) (INR n).
Proof.
  intro n. constructor; unfold Nsum.
  - intros A B a H HA. rewrite <- (norm1_ext n A B); auto.
  - intros. lra.
  - intros A B a b HA HB. apply Rle_trans with (norm1 n A + norm1 n B); [|lra]. unfold norm1. rewrite <- rs_plus. apply rs_le. intros i Hi. rewrite <- rs_plus. apply rs_le. intros j Hj. apply Rabs_triang.
  - intros A a c Ha HA. apply Rle_trans with (Rabs c * norm1 n A); [|apply Rmult_le_compat_l; auto using Rabs_pos]. right. unfold norm1. rewrite <- rs_scal. apply rs_ext. intros i Hi. rewrite <- rs_scal. apply rs_ext. intros j Hj. apply Rabs_mult.
  - intros A B a b Ha Hb HA HB. apply Rle_trans with (norm1 n A * norm1 n B); [|apply Rmult_le_compat; auto using norm1_nonneg].
    unfold norm1 at 1 2. rewrite <- rs_scalr. apply rs_le. intros i Hi. eapply Rle_trans; [apply dot_abs|]. rewrite <- rs_scalr. apply rs_le. intros k Hk.
    apply Rmult_le_compat_l; [apply Rabs_pos|]. unfold norm1. apply (rs_bound_one n (fun k => rsumn n (fun j => Rabs (B k j)))); auto. intros j Hj. apply rs_nonneg. intros. apply Rabs_pos.
  - right. unfold norm1, rident. rewrite <- (Rmult_1_r (INR n)), <- rs_const. apply rs_ext. intros i Hi.
    rewrite (rs_ext n _ (fun j => (if Nat.eqb i j then 1 else 0) * 1)); [apply rs_delta; auto|]. intros j _. destruct (Nat.eqb i j); [rewrite Rabs_R1|rewrite Rabs_R0]; ring.
  - apply pos_INR.
  - intros. lra.
  - intros A a H. apply le_epsilon. auto.
Qed.
Lemma normlike_row : forall n, normlike n (norm_at_most n) 1.
Proof.
  intro n. constructor; unfold norm_at_most; intros.
  - rewrite <- rsumn_sumR. rewrite (rs_ext n _ (fun j => Rabs (A i j))); [rewrite rsumn_sumR; auto|]. intros j Hj. rewrite (H i j); auto.
  - specialize (H i H1). lra.
  - specialize (H i H1). specialize (H0 i H1). rewrite <- rsumn_sumR in *. apply Rle_trans with (rsumn n (fun j => Rabs (A i j)) + rsumn n (fun j => Rabs (B i j))); [|lra]. rewrite <- rs_plus. apply rs_le. intros j Hj. apply Rabs_triang.
  - specialize (H0 i H1). rewrite <- rsumn_sumR in *. apply Rle_trans with (Rabs c * rsumn n (fun j => Rabs (A i j))); [|apply Rmult_le_compat_l; auto using Rabs_pos].
    right. rewrite <- rs_scal. apply rs_ext. intros j Hj. apply Rabs_mult.
  - rewrite <- rsumn_sumR. eapply Rle_trans; [apply dot_abs|]. apply Rle_trans with (rsumn n (fun k => Rabs (A i k) * b)).
    + apply rs_le. intros k Hk. apply Rmult_le_compat_l; [apply Rabs_pos|]. specialize (H2 k Hk). rewrite <- rsumn_sumR in H2. auto.
    + rewrite rs_scalr. apply Rmult_le_compat_r; auto. rewrite rsumn_sumR. auto.
  - rewrite <- rsumn_sumR. right. unfold rident. rewrite (rs_ext n _ (fun j => (if Nat.eqb i j then 1 else 0) * 1)); [apply rs_delta; auto|]. intros j _. destruct (Nat.eqb i j); [rewrite Rabs_R1|rewrite Rabs_R0]; ring.
  - lra.
  - rewrite <- rsumn_sumR. unfold norm1. apply (rs_bound_one n (fun k => rsumn n (fun j => Rabs (A k j)))); auto. intros j Hj. apply rs_nonneg. intros. apply Rabs_pos.
  - apply le_epsilon. intros e He. apply (H e He). auto.
Qed.

(* ---------- the Frobenius norm ---------- *)
Lemma cauchy_schwarz : forall n f g, rsumn n (fun i => f i * g i) * rsumn n (fun i => f i * g i) <= rsumn n (fun i => f i * f i) * rsumn n (fun i => g i * g i).
Proof.
  intros n f g. induction n as [|n IH]; [unfold rsumn; simpl; lra|]. rewrite !rs_S.
  assert (0 <= rsumn n (fun i => f i * f i)) as F by (apply rs_nonneg; intros; apply Rle_0_sqr).
  assert (0 <= rsumn n (fun i => g i * g i)) as G by (apply rs_nonneg; intros; apply Rle_0_sqr).
  set (S0 := rsumn n (fun i => f i * g i)) in *. set (F0 := rsumn n (fun i => f i * f i)) in *. set (G0 := rsumn n (fun i => g i * g i)) in *.
  set (x := f n). set (y := g n).
  assert (2 * (S0 * (x * y)) <= F0 * (y * y) + G0 * (x * x)) as H.
  { assert (0 <= F0 * (y * y) + G0 * (x * x)) as P by (apply Rplus_le_le_0_compat; apply Rmult_le_pos; auto; apply Rle_0_sqr).
    destruct (Rle_lt_dec (2 * (S0 * (x * y))) 0) as [L|L]; [lra|]. apply Rsqr_incr_0; [|lra|auto]. unfold Rsqr.
    apply Rle_trans with (4 * (F0 * G0) * ((x * y) * (x * y))).
    - replace (2 * (S0 * (x * y)) * (2 * (S0 * (x * y)))) with (4 * (S0 * S0) * ((x * y) * (x * y))) by ring. apply Rmult_le_compat_r; [apply Rle_0_sqr|lra].
    - pose proof (Rle_0_sqr (F0 * (y * y) - G0 * (x * x))) as Q. unfold Rsqr in Q. lra. }
  lra.
Qed.
Lemma cs_sqrt : forall n f g, rsumn n (fun i => f i * g i) <= sqrt (rsumn n (fun i => f i * f i)) * sqrt (rsumn n (fun i => g i * g i)).
Proof.
  intros n f g. rewrite <- sqrt_mult by (apply rs_nonneg; intros; apply Rle_0_sqr).
  destruct (Rle_lt_dec (rsumn n (fun i => f i * g i)) 0) as [L|L]; [apply Rle_trans with 0; auto; apply sqrt_pos|].
  apply Rle_trans with (sqrt (rsumn n (fun i => f i * g i) * rsumn n (fun i => f i * g i))); [rewrite sqrt_square; lra|]. apply sqrt_le_1_alt. apply cauchy_schwarz.
Qed.
Definition square_sum (n : nat) (A : rmat) : R := rsumn n (fun i => rsumn n (fun j => A i j * A i j)).
Lemma row_nonneg : forall n (A : rmat) i, 0 <= rsumn n (fun j => A i j * A i j).
Proof. intros. apply rs_nonneg. intros. apply Rle_0_sqr. Qed.
Lemma square_nonneg : forall n A, 0 <= square_sum n A.
Proof. intros. apply rs_nonneg. intros. apply row_nonneg. Qed.
Lemma inner_fro : forall n A B, rsumn n (fun i => rsumn n (fun j => A i j * B i j)) <= norm_fro n A * norm_fro n B.
Proof.
  intros n A B. eapply Rle_trans; [apply rs_le; intros i Hi; apply cs_sqrt|]. eapply Rle_trans; [apply (cs_sqrt n (fun i => sqrt (rsumn n (fun j => A i j * A i j))) (fun i => sqrt (rsumn n (fun j => B i j * B i j))))|].
  right. unfold norm_fro. f_equal; f_equal; apply rs_ext; intros i Hi; apply sqrt_sqrt; apply row_nonneg.
Qed.
Lemma fro_square : forall n A, norm_fro n A * norm_fro n A = square_sum n A.
Proof. intros. apply sqrt_sqrt. apply square_nonneg. Qed.
Lemma fro_le : forall n A b, 0 <= b -> square_sum n A <= b * b -> norm_fro n A <= b.
Proof. intros n A b Hb H. unfold norm_fro. apply Rle_trans with (sqrt (b * b)); [apply sqrt_le_1_alt; auto|rewrite sqrt_square; lra]. Qed.
Lemma fro_nonneg : forall n A, 0 <= norm_fro n A.
Proof. intros. apply sqrt_pos. Qed.
Lemma fro_add : forall n A B, norm_fro n (radd A B) <= norm_fro n A + norm_fro n B.
Proof.
  intros n A B. pose proof (fro_nonneg n A). pose proof (fro_nonneg n B). apply fro_le; [lra|].
  replace (square_sum n (radd A B)) with (square_sum n A + 2 * rsumn n (fun i => rsumn n (fun j => A i j * B i j)) + square_sum n B).
  - pose proof (inner_fro n A B). pose proof (fro_square n A). pose proof (fro_square n B). lra.
  - unfold square_sum. rewrite <- rs_scal, <- !rs_plus. apply rs_ext. intros i Hi. rewrite <- rs_scal, <- !rs_plus. apply rs_ext. intros j Hj. unfold radd. ring.
Qed.
Lemma fro_scale : forall n c A, norm_fro n (rscale c A) = Rabs c * norm_fro n A.
Proof.
  intros n c A. rewrite <- sqrt_Rsqr_abs. unfold norm_fro. rewrite <- sqrt_mult; [|apply Rle_0_sqr|apply square_nonneg]. f_equal. rewrite <- rs_scal. apply rs_ext. intros i Hi.
  rewrite <- rs_scal. apply rs_ext. intros j Hj. unfold rscale, Rsqr. ring.
Qed.
Lemma fro_dot : forall n A B, norm_fro n (rdot n A B) <= norm_fro n A * norm_fro n B.
Proof.
  intros n A B. apply fro_le; [apply Rmult_le_pos; apply fro_nonneg|].
  replace (norm_fro n A * norm_fro n B * (norm_fro n A * norm_fro n B)) with (square_sum n A * square_sum n B) by (rewrite <- !fro_square; ring).
  unfold square_sum at 1 2. rewrite <- rs_scalr. apply rs_le. intros i Hi.
  apply Rle_trans with (rsumn n (fun j => rsumn n (fun k => A i k * A i k) * rsumn n (fun k => B k j * B k j))).
  - apply rs_le. intros j Hj. apply (cauchy_schwarz n (fun k => A i k) (fun k => B k j)).
  - rewrite rs_scal. right. f_equal. rewrite rs_swap. auto.
Qed.
Definition Nfro (n : nat) (A : rmat) (a : R) : Prop := norm_fro n A <= a.
Lemma normlike_fro : forall n, normlike n (Nfro n) (sqrt (INR n)).
Proof.
  intro n. constructor; unfold Nfro.
  - intros A B a H HA. replace (norm_fro n B) with (norm_fro n A); auto. unfold norm_fro. f_equal. apply rs_ext2. intros i j Hi Hj. rewrite (H i j); auto.
  - intros. lra.
  - intros A B a b HA HB. pose proof (fro_add n A B). lra.
  - intros A a c Ha HA. rewrite fro_scale. apply Rmult_le_compat_l; auto using Rabs_pos.
  - intros A B a b Ha Hb HA HB. eapply Rle_trans; [apply fro_dot|]. apply Rmult_le_compat; auto using fro_nonneg.
  - unfold norm_fro. right. f_equal. rewrite <- (Rmult_1_r (INR n)), <- rs_const. apply rs_ext. intros i Hi. unfold rident.
    rewrite (rs_ext n _ (fun j => (if Nat.eqb i j then 1 else 0) * 1)); [apply rs_delta; auto|]. intros j _. destruct (Nat.eqb i j); ring.
  - apply sqrt_pos.
  - intro A. pose proof (norm1_nonneg n A) as P. apply fro_le; auto. unfold norm1 at 1. rewrite <- rs_scalr. apply rs_le. intros i Hi. rewrite <- rs_scalr. apply rs_le. intros j Hj.
    rewrite <- (Rabs_pos_eq (A i j * A i j)) by apply Rle_0_sqr. rewrite Rabs_mult. apply Rmult_le_compat_l; [apply Rabs_pos|].
    apply Rle_trans with (rsumn n (fun j => Rabs (A i j))); [apply (rs_bound_one n (fun j => Rabs (A i j))); auto; intros; apply Rabs_pos|].
    apply (rs_bound_one n (fun i => rsumn n (fun j => Rabs (A i j)))); auto. intros. apply rs_nonneg. intros. apply Rabs_pos.
  - intros A a H. apply le_epsilon. auto.
Qed.

(* ---------- the scalar series ---------- *)
Definition T (N : nat) (a : R) : R := sum_f_R0 (fun k => / INR (fact k) * a ^ k) N.
Lemma seval_sum : forall a p, seval a p = rsumn (length p) (fun k => nth k p 0 * a ^ k).
Proof.
  intros a p. induction p as [|c p IH]; [reflexivity|]. cbn [seval length]. rewrite IH. unfold rsumn. cbn [seq map]. rewrite <- seq_shift, map_map. cbn [rsum fold_right].
  change (fold_right Rplus 0) with rsum. simpl (nth 0 _ _). rewrite pow_O, Rmult_1_r. f_equal. change (a * rsumn (length p) (fun k => nth k p 0 * a ^ k) = rsumn (length p) (fun k => nth k p 0 * (a * a ^ k))).
  rewrite <- rs_scal. apply rs_ext. intros. ring.
Qed.
Lemma rsumn_sum_f : forall N f, rsumn (S N) f = sum_f_R0 f N.
Proof. intros N f. induction N as [|N IH]; [rewrite rs_one; auto|]. rewrite rs_S, IH. auto. Qed.
Lemma seval_seq : forall a f N, seval a (map f (seq 0 (S N))) = sum_f_R0 (fun k => f k * a ^ k) N.
Proof.
  intros a f N. rewrite seval_sum, map_length, seq_length, <- rsumn_sum_f. apply rs_ext. intros k Hk. rewrite nth_map_seq. destruct (Nat.ltb_spec k (S N)); [auto|lia].
Qed.
Lemma seval_tcoef : forall a N, seval a (tcoef N) = T N a.
Proof. intros. apply seval_seq. Qed.
Lemma T_cv : forall a, Un_cv (fun N => T N a) (exp a).
Proof. intro a. unfold exp. destruct (exist_exp a) as [l Hl]. exact Hl. Qed.
Lemma T_grow : forall a N, 0 <= a -> T N a <= T (S N) a.
Proof. intros a N Ha. unfold T. assert (0 <= / INR (fact (S N)) * a ^ S N); [apply Rmult_le_pos; [left; apply Rinv_0_lt_compat; apply INR_fact_lt_0|apply pow_le; auto]|]. rewrite tech5. lra. Qed.
Lemma T_mono : forall a N M, 0 <= a -> (N <= M)%nat -> T N a <= T M a.
Proof. intros a N M Ha H. induction H; [lra|]. pose proof (T_grow a m Ha). lra. Qed.
Lemma T_exp : forall a N, 0 <= a -> T N a <= exp a.
Proof. intros a N Ha. apply (growing_ineq (fun N => T N a)); [intro; apply T_grow; auto|apply T_cv]. Qed.
Lemma T_pos : forall a N, 0 <= a -> 1 <= T N a.
Proof. intros a N Ha. apply Rle_trans with (T 0 a); [unfold T; simpl; rewrite Rinv_1; lra|apply T_mono; auto; lia]. Qed.
Lemma fact_product : forall m i, (fact m * fact i <= fact (m + i))%nat.
Proof.
  intros m i. induction i as [|i IH]; [rewrite Nat.add_0_r; simpl; lia|]. rewrite Nat.add_succ_r. change (fact (S (m + i))) with (S (m + i) * fact (m + i))%nat. change (fact (S i)) with (S i * fact i)%nat.
  apply Nat.le_trans with (S i * (fact m * fact i))%nat; [lia|]. apply Nat.mul_le_mono; lia.
Qed.
Lemma T_tail : forall a d j, 0 <= a -> T (d + j) a - T d a <= a ^ S d / INR (fact (S d)) * T j a.
Proof.
  intros a d j Ha. assert (0 <= a ^ S d / INR (fact (S d))) as C by (apply Rmult_le_pos; [apply pow_le; auto|left; apply Rinv_0_lt_compat; apply INR_fact_lt_0]).
  assert (forall j, T (d + S j) a - T d a <= a ^ S d / INR (fact (S d)) * T j a) as H.
  { intro i. induction i as [|i IH].
    - rewrite Nat.add_1_r. unfold T. cbn [sum_f_R0]. unfold Rdiv. simpl (fact 0). simpl (a ^ 0). change (INR 1) with 1. rewrite Rinv_1. lra.
    - rewrite Nat.add_succ_r. unfold T in *. cbn [sum_f_R0]. rewrite Rmult_plus_distr_l.
      assert (/ INR (fact (S (d + S i))) * a ^ S (d + S i) <= a ^ S d / INR (fact (S d)) * (/ INR (fact (S i)) * a ^ S i)) as K; [|lra].
      replace (a ^ S (d + S i)) with (a ^ S d * a ^ S i) by (rewrite <- pow_add; f_equal; lia).
      replace (a ^ S d / INR (fact (S d)) * (/ INR (fact (S i)) * a ^ S i)) with (/ (INR (fact (S d)) * INR (fact (S i))) * (a ^ S d * a ^ S i)) by (rewrite Rinv_mult; unfold Rdiv; ring).
      apply Rmult_le_compat_r; [apply Rmult_le_pos; apply pow_le; auto|]. apply Rinv_le_contravar; [apply Rmult_lt_0_compat; apply INR_fact_lt_0|].
      rewrite <- mult_INR. apply le_INR. apply (fact_product (S d) (S i)). }
  destruct j as [|j].
  - rewrite Nat.add_0_r. pose proof (T_pos a 0 Ha). assert (0 <= a ^ S d / INR (fact (S d)) * T 0 a) by (apply Rmult_le_pos; auto; lra). lra.
  - eapply Rle_trans; [apply H|]. apply Rmult_le_compat_l; auto. apply T_mono; auto.
Qed.

(* ---------- limits of matrices ---------- *)
Definition mcv (n : nat) (X : nat -> rmat) (L : rmat) : Prop := forall i j, (i < n)%nat -> (j < n)%nat -> Un_cv (fun k => X k i j) (L i j).
Lemma cv_const : forall c, Un_cv (fun _ => c) c.
Proof. intros c e He. exists 0%nat. intros. rewrite R_dist_eq. auto. Qed.
Lemma cv_ext : forall f g l, (forall k, f k = g k) -> Un_cv f l -> Un_cv g l.
Proof. intros f g l H C e He. destruct (C e He) as [N HN]. exists N. intros. rewrite <- H. auto. Qed.
Lemma cv_rsumn : forall n (f : nat -> nat -> R) l, (forall i, (i < n)%nat -> Un_cv (fun k => f k i) (l i)) -> Un_cv (fun k => rsumn n (f k)) (rsumn n l).
Proof.
  intros n f l. induction n as [|n IH]; intro H; [apply (cv_const 0)|]. rewrite rs_S. apply (cv_ext (fun k => rsumn n (f k) + f k n)); [intro; symmetry; apply rs_S|].
  apply (CV_plus (fun k => rsumn n (f k)) (fun k => f k n)); [apply IH; auto|apply H; auto].
Qed.
Lemma mcv_dot : forall n X Y A B, mcv n X A -> mcv n Y B -> mcv n (fun k => rdot n (X k) (Y k)) (rdot n A B).
Proof.
  intros n X Y A B HX HY i j Hi Hj. unfold rdot. apply (cv_rsumn n (fun k a => X k i a * Y k a j)). intros a Ha. apply (CV_mult (fun k => X k i a) (fun k => Y k a j)); auto.
Qed.
Lemma mcv_pow : forall n X A m, mcv n X A -> mcv n (fun k => rpow n (X k) m) (rpow n A m).
Proof. intros n X A m H. induction m as [|m IH]; cbn [rpow]; [intros i j _ _; apply cv_const|apply mcv_dot; auto]. Qed.
Lemma mcv_ext : forall n X Y A, (forall k, meq n (X k) (Y k)) -> mcv n X A -> mcv n Y A.
Proof. intros n X Y A H C i j Hi Hj. apply (cv_ext (fun k => X k i j)); auto. intro k. apply H; auto. Qed.
Lemma mcv_limit : forall n X A B, mcv n X A -> meq n A B -> mcv n X B.
Proof. intros n X A B H E i j Hi Hj. rewrite <- (E i j) by auto. auto. Qed.
Lemma mcv_unique : forall n X A B, mcv n X A -> mcv n X B -> meq n A B.
Proof. intros n X A B HA HB i j Hi Hj. eapply UL_sequence; eauto. Qed.
Lemma mcv_shift : forall n X A m, mcv n X A -> mcv n (fun k => X (k + m)%nat) A.
Proof. intros n X A m H i j Hi Hj. apply (CV_shift' (fun k => X k i j)). auto. Qed.
Lemma entry_norm1 : forall n A i j, (i < n)%nat -> (j < n)%nat -> Rabs (A i j) <= norm1 n A.
Proof.
  intros n A i j Hi Hj. apply Rle_trans with (rsumn n (fun j => Rabs (A i j))); [apply (rs_bound_one n (fun j => Rabs (A i j))); auto; intros; apply Rabs_pos|].
  apply (rs_bound_one n (fun i => rsumn n (fun j => Rabs (A i j)))); auto. intros. apply rs_nonneg. intros. apply Rabs_pos.
Qed.
(** If X k tends to L and the norm of B - X k is eventually at most b k, with b k tending
    to at most b, then the norm of B - L is at most b. *)
Lemma limit_norm : forall n N iota X L B b, normlike n N iota -> mcv n X L -> (forall k, N (difference B (X k)) b) -> N (difference B L) b.
Proof.
  intros n N iota X L B b HN HX HB. apply (nl_closed _ _ _ HN). intros e He.
  assert (Un_cv (fun k => norm1 n (difference (X k) L)) 0) as C.
  { unfold norm1. replace 0 with (rsumn n (fun _ => 0)) by (apply rs_zero; auto). apply (cv_rsumn n (fun k i => rsumn n (fun j => Rabs (difference (X k) L i j)))). intros i Hi.
    replace 0 with (rsumn n (fun _ => 0)) by (apply rs_zero; auto). apply (cv_rsumn n (fun k j => Rabs (difference (X k) L i j))). intros j Hj.
    intros d Hd. destruct (HX i j Hi Hj d Hd) as [K HK]. exists K. intros k Hk. specialize (HK k Hk). unfold R_dist, difference in *. rewrite Rminus_0_r, Rabs_Rabsolu. auto. }
  destruct (C e He) as [K HK]. specialize (HK K ltac:(lia)). unfold R_dist in HK. rewrite Rminus_0_r in HK.
  apply (nl_ext _ _ _ HN) with (radd (difference B (X K)) (difference (X K) L)); [intros i j _ _; unfold radd, difference; ring|].
  apply (nl_add _ _ _ HN); auto. apply (nl_mono _ _ _ HN) with (norm1 n (difference (X K) L)); [apply (nl_sum _ _ _ HN)|].
  pose proof (Rle_abs (norm1 n (difference (X K) L))). lra.
Qed.

(* ---------- existence ---------- *)
Lemma is_exp_mcv : forall n A E, is_exp n A E <-> mcv n (fun N => peval n A (tcoef N)) E.
Proof.
  intros n A E. split; intros H i j Hi Hj; [apply (cv_ext (fun N => truncated n N A i j))|apply (cv_ext (fun N => peval n A (tcoef N) i j))]; auto; intro k; [|symmetry]; apply truncated_peval; auto.
Qed.
Lemma nth_tcoef : forall N k, nth k (tcoef N) 0 = if Nat.ltb k (S N) then / INR (fact k) else 0.
Proof. intros. apply nth_map_seq. Qed.
Lemma inv_fact_pos : forall k, 0 < / INR (fact k).
Proof. intro. apply Rinv_0_lt_compat. apply INR_fact_lt_0. Qed.
Lemma tcoef_nonneg : forall N k, 0 <= nth k (tcoef N) 0.
Proof. intros. rewrite nth_tcoef. pose proof (inv_fact_pos k). destruct (Nat.ltb k (S N)); lra. Qed.
Lemma tcoef_more : forall N M, (N <= M)%nat -> maj (pminus (tcoef M) (tcoef N)) (pminus (tcoef M) (tcoef N)).
Proof.
  intros N M H. apply maj_self. intro k. rewrite nth_pminus, !nth_tcoef. pose proof (inv_fact_pos k). destruct (Nat.ltb_spec k (S M)), (Nat.ltb_spec k (S N)); lra || lia.
Qed.
Lemma exp_cauchy : forall n A i j, (i < n)%nat -> (j < n)%nat -> Cauchy_crit (fun N => peval n A (tcoef N) i j).
Proof.
  intros n A.
  intros i j Hi Hj e He. set (a := norm1 n A). assert (0 <= a) as Ha by apply norm1_nonneg.
    assert (forall N M, (N <= M)%nat -> Rabs (peval n A (tcoef M) i j - peval n A (tcoef N) i j) <= INR n * (T M a - T N a)) as B.
    { intros N M H. pose proof (peval_norm n (Nsum n) (INR n) A a _ _ (normlike_sum n) Ha (Rle_refl _) (tcoef_more N M H)) as P. unfold Nsum in P.
      rewrite seval_pminus, !seval_tcoef in P. rewrite (norm1_ext n _ _ (peval_pminus n A (tcoef M) (tcoef N))) in P.
      eapply Rle_trans; [|exact P]. apply (entry_norm1 n (difference (peval n A (tcoef M)) (peval n A (tcoef N))) i j Hi Hj). }
    assert (0 < INR n + 1) as Pn by (pose proof (pos_INR n); lra).
    assert (Cauchy_crit (fun N => T N a)) as CT by (apply CV_Cauchy; exists (exp a); apply T_cv).
    destruct (CT (e / (INR n + 1))) as [K HK]; [apply Rdiv_lt_0_compat; auto|]. exists K.
    assert (forall N M, (K <= N)%nat -> (N <= M)%nat -> R_dist (peval n A (tcoef M) i j) (peval n A (tcoef N) i j) < e) as W.
    { intros N M HN HM. unfold R_dist. eapply Rle_lt_trans; [apply B; auto|]. specialize (HK M N ltac:(lia) ltac:(lia)). unfold R_dist in HK.
      pose proof (Rle_abs (T M a - T N a)) as L. pose proof (T_mono a N M Ha HM) as G. apply Rle_lt_trans with ((INR n + 1) * (T M a - T N a)); [lra|].
      apply Rlt_le_trans with ((INR n + 1) * (e / (INR n + 1))); [apply Rmult_lt_compat_l; lra|]. right. field. lra. }
    intros N M HN HM. destruct (Nat.le_ge_cases N M) as [L|L]; [rewrite R_dist_sym|]; apply W; auto.
Qed.
Definition exp_limit (n : nat) (A : rmat) : rmat := fun i j =>
  match lt_dec i n, lt_dec j n with left Hi, left Hj => proj1_sig (R_complete _ (exp_cauchy n A i j Hi Hj)) | _, _ => 0 end.
Lemma exp_limit_ok : forall n A, is_exp n A (exp_limit n A).
Proof.
  intros n A. apply is_exp_mcv. unfold exp_limit.
  intros i j Hi Hj. destruct (lt_dec i n) as [Li|]; [|contradiction]. destruct (lt_dec j n) as [Lj|]; [|contradiction]. destruct (R_complete _ (exp_cauchy n A i j Li Lj)) as [l Hl]. exact Hl.
Qed.
Lemma exp_exists : forall n A, exists E, is_exp n A E.
Proof. intros n A. exists (exp_limit n A). apply exp_limit_ok. Qed.
Lemma exp_unique : forall n A E E', is_exp n A E -> is_exp n A E' -> meq n E E'.
Proof. intros n A E E' H H'. apply is_exp_mcv in H. apply is_exp_mcv in H'. eapply mcv_unique; eauto. Qed.
Lemma is_exp_ext : forall n A B E, meq n A B -> is_exp n A E -> is_exp n B E.
Proof.
  intros n A B E H HE. apply is_exp_mcv in HE. apply is_exp_mcv. refine (mcv_ext n _ _ _ _ HE). intro k. cbv beta. clear HE. generalize (tcoef k). intro p. induction p as [|c p IH]; cbn [peval]; [reflexivity|].
  rewrite IH. apply radd_proper; [reflexivity|]. apply rdot_proper; auto. reflexivity.
Qed.
Lemma is_exp_meq : forall n A E E', meq n E E' -> is_exp n A E -> is_exp n A E'.
Proof. intros n A E E' H HE i j Hi Hj. rewrite <- (H i j) by auto. auto. Qed.

(* ---------- exp (2 B) = exp B * exp B ---------- *)
Definition doubled (N : nat) : list R := map (fun k => / INR (fact k) * 2 ^ k) (seq 0 (S N)).
Lemma peval_doubled : forall n B c p, meq n (peval n (rscale c B) p) (peval n B (map (fun k => nth k p 0 * c ^ k) (seq 0 (length p)))).
Proof.
  intros n B c p. rewrite !peval_sum. rewrite map_length, seq_length. intros i j Hi Hj. apply rs_ext. intros k Hk. rewrite nth_map_seq. destruct (Nat.ltb_spec k (length p)); [|lia].
  assert (meq n (rpow n (rscale c B) k) (rscale (c ^ k) (rpow n B k))) as E.
  { clear. induction k as [|k IH]; cbn [rpow pow]; [intros i j _ _; unfold rscale; ring|]. rewrite IH, dot_scale_l, dot_scale_r. intros i j _ _. unfold rscale. ring. }
  rewrite (E i j) by auto. unfold rscale. ring.
Qed.
Lemma doubled_peval : forall n B N, meq n (peval n (rscale 2 B) (tcoef N)) (peval n B (doubled N)).
Proof.
  intros n B N. rewrite peval_doubled. apply peval_pad. intro k. unfold doubled, tcoef at 2. rewrite map_length, seq_length, !nth_map_seq. destruct (Nat.ltb_spec k (S N)); auto.
  rewrite nth_tcoef. destruct (Nat.ltb_spec k (S N)); [auto|lia].
Qed.
Lemma binomial_half : forall k, sum_f_R0 (fun i => / INR (fact i) * / INR (fact (k - i))) k = / INR (fact k) * 2 ^ k.
Proof.
  intro k. replace 2 with (1 + 1) by ring. rewrite binomial. rewrite <- scal_sum || rewrite scal_sum.
  apply sum_eq. intros i Hi. rewrite !pow1. unfold C. pose proof (INR_fact_neq_0 k). pose proof (INR_fact_neq_0 i). pose proof (INR_fact_neq_0 (k - i)). field. auto.
Qed.
Lemma square_more : forall N, maj (pminus (pmul (tcoef N) (tcoef N)) (doubled N)) (pminus (pmul (tcoef N) (tcoef N)) (doubled N)).
Proof.
  intro N. apply maj_self. intro k. rewrite nth_pminus, nth_pmul. unfold doubled. rewrite nth_map_seq. destruct (Nat.ltb_spec k (S N)) as [L|L].
  - rewrite <- binomial_half. right. symmetry. apply Rminus_diag_eq. apply sum_eq. intros i Hi. rewrite !nth_tcoef.
    destruct (Nat.ltb_spec i (S N)); [|lia]. destruct (Nat.ltb_spec (k - i) (S N)); [auto|lia].
  - rewrite Rminus_0_r. apply cond_pos_sum. intro i. apply Rmult_le_pos; apply tcoef_nonneg.
Qed.
Lemma seval_doubled : forall a N, seval a (doubled N) = T N (2 * a).
Proof. intros. unfold doubled. rewrite seval_seq. unfold T. apply sum_eq. intros k _. rewrite Rpow_mult_distr. ring. Qed.
Lemma exp_double : forall n B E, is_exp n B E -> is_exp n (rscale 2 B) (rdot n E E).
Proof.
  intros n B E HE. apply is_exp_mcv in HE. apply is_exp_mcv.
  assert (mcv n (fun N => rdot n (peval n B (tcoef N)) (peval n B (tcoef N))) (rdot n E E)) as C by (apply mcv_dot; auto).
  set (a := norm1 n B). assert (0 <= a) as Ha by apply norm1_nonneg.
  assert (Un_cv (fun N => INR n * (T N a * T N a - T N (2 * a))) 0) as Z.
  { replace 0 with (INR n * (exp a * exp a - exp (2 * a))) by (rewrite <- exp_plus; replace (a + a) with (2 * a) by ring; ring).
    apply (CV_mult (fun _ => INR n) (fun N => T N a * T N a - T N (2 * a))); [apply cv_const|]. apply (CV_minus (fun N => T N a * T N a)); [|apply T_cv].
    apply (CV_mult (fun N => T N a) (fun N => T N a)); apply T_cv. }
  assert (forall N i j, (i < n)%nat -> (j < n)%nat -> Rabs (rdot n (peval n B (tcoef N)) (peval n B (tcoef N)) i j - peval n (rscale 2 B) (tcoef N) i j) <= INR n * (T N a * T N a - T N (2 * a))) as D.
  { intros N i j Hi Hj. pose proof (peval_norm n (Nsum n) (INR n) B a _ _ (normlike_sum n) Ha (Rle_refl _) (square_more N)) as P. unfold Nsum in P.
    rewrite seval_pminus, seval_mul, seval_tcoef, seval_doubled in P. rewrite (norm1_ext n _ _ (peval_pminus n B (pmul (tcoef N) (tcoef N)) (doubled N))) in P.
    eapply Rle_trans; [|exact P]. rewrite (doubled_peval n B N i j Hi Hj). rewrite <- (peval_mul n B (tcoef N) (tcoef N) i j Hi Hj).
    apply (entry_norm1 n (difference (peval n B (pmul (tcoef N) (tcoef N))) (peval n B (doubled N))) i j Hi Hj). }
  intros i j Hi Hj e He. assert (0 < e / 2) as He2 by lra.
  destruct (C i j Hi Hj (e / 2) He2) as [K HK]. destruct (Z (e / 2) He2) as [K' HK']. exists (K + K')%nat. intros N HN.
  specialize (HK N ltac:(lia)). specialize (HK' N ltac:(lia)). specialize (D N i j Hi Hj). unfold R_dist in *. rewrite Rminus_0_r in HK'.
  pose proof (Rle_abs (INR n * (T N a * T N a - T N (2 * a)))).
  replace (peval n (rscale 2 B) (tcoef N) i j - rdot n E E i j) with
    (- (rdot n (peval n B (tcoef N)) (peval n B (tcoef N)) i j - peval n (rscale 2 B) (tcoef N) i j) + (rdot n (peval n B (tcoef N)) (peval n B (tcoef N)) i j - rdot n E E i j)) by ring.
  eapply Rle_lt_trans; [apply Rabs_triang|]. rewrite Rabs_Ropp. lra.
Qed.
