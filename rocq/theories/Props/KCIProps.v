(** C70: what the kernel test's answer depends on. *)

From Coq Require Import List Arith Lia Permutation Reals Lra.
From Verif Require Import Model.LocalScore Model.KCI Spec.KCISpec Spec.KernelSpec Proofs.KCIFacts Proofs.GaussianFacts.
Import ListNotations.
Open Scope nat_scope.

(** Exchanging the two variables changes neither the p-value nor the statistic. *)
Theorem C70_symmetric : forall gcdf n dx X dy Y, kci_test gcdf n dx X dy Y = kci_test gcdf n dy Y dx X.
Proof. exact kci_symmetric. Qed.
Print Assumptions C70_symmetric.

(** Units of measurement play no role. *)
Theorem C70_units : forall gcdf n dx X X' dy Y Y', other_units n dx X X' -> other_units n dy Y Y' ->
  kci_test gcdf n dx X' dy Y' = kci_test gcdf n dx X dy Y.
Proof.
  intros gcdf n dx X X' dy Y Y' (a & b & Ha & HX) (a' & b' & Ha' & HY).
  rewrite (kci_affine gcdf n dx X X' dy Y' a b Ha HX). rewrite !(kci_symmetric gcdf n dx X).
  apply (kci_affine gcdf n dy Y Y' dx X a' b' Ha' HY).
Qed.
Print Assumptions C70_units.

(** Nor does the order of the samples. *)
Theorem C70_sample_order : forall gcdf n p dx X X' dy Y Y', reordered n p X X' -> reordered n p Y Y' ->
  kci_test gcdf n dx X' dy Y' = kci_test gcdf n dx X dy Y.
Proof.
  intros gcdf n p dx X X' dy Y Y' [Hp HX] [_ HY]. rewrite <- (kci_rows n p Hp gcdf dx X dy Y).
  transitivity (kci_test gcdf n dx (rows p X) dy Y').
  - apply kci_affine with (a := fun _ => 1%R) (b := fun _ => 0%R); [intros; lra|]. intros i c _ _. rewrite HX. unfold rows. ring.
  - rewrite !(kci_symmetric gcdf n dx (rows p X)).
    apply kci_affine with (a := fun _ => 1%R) (b := fun _ => 0%R); [intros; lra|]. intros i c _ _. rewrite HY. unfold rows. ring.
Qed.
Print Assumptions C70_sample_order.

(** Constant data: the statistic is 0, and the p-value is NaN. *)
Theorem C70_constant : forall gcdf n dx X dy Y, 0 < n -> constant_data n dx X ->
  kci_test gcdf n dx X dy Y = (None, 0%R) /\ kci_test gcdf n dy Y dx X = (None, 0%R).
Proof.
  intros gcdf n dx X dy Y Hn HC. rewrite (kci_symmetric gcdf n dy Y).
  assert (kci_test gcdf n dx X dy Y = (None, 0%R)) as E; [|auto]. apply kci_flat; auto. intros c Hc. unfold col_std.
  assert (forall i, i < n -> X i c = col_mean n X c) as M.
  { intros i Hi. unfold col_mean. rewrite (rsumn_ext n _ (fun _ => X i c)) by (intros j Hj; apply HC; auto).
    rewrite rsumn_const. field. apply not_0_INR. lia. }
  rewrite (rsumn_ext n _ (fun _ => 0%R)) by (intros i Hi; rewrite <- (M i Hi); ring).
  rewrite rsumn_const. unfold Rdiv. rewrite Rmult_0_r, Rmult_0_l. apply sqrt_0.
Qed.
Print Assumptions C70_constant.

(** The statistic is never negative. *)
Theorem C70_nonneg : forall gcdf n dx X dy Y, (0 <= snd (kci_test gcdf n dx X dy Y))%R.
Proof.
  intros gcdf n dx X dy Y. unfold kci_test. cbn [snd].
  assert (forall d Z, multiplier n (gaussian_kernel d Z)) as M.
  { intros d Z. apply (gaussian_multiplier n d Z (/ 2)%R). lra. }
  assert (forall d Z, sym n (gaussian_kernel d Z)) as Sy.
  { intros d Z i j _ _. unfold gaussian_kernel, sq_dists. do 2 f_equal. apply rsumn_ext. intros. ring. }
  destruct n as [|n]; [unfold sum_prod, rsumn; simpl; lra|].
  rewrite (sum_prod_ext (S n) _ (fun i j => centered (S n) (gaussian_kernel dx (zscore (S n) X)) j i) _ (centered (S n) (gaussian_kernel dy (zscore (S n) Y)))).
  - apply stat_nonneg; auto. apply multiplier_psd. auto.
  - intros i j Hi Hj. apply (sym_centered (S n)); auto; lia.
  - intros i j _ _. auto.
Qed.
Print Assumptions C70_nonneg.

(** Two samples of one column: data for which the answer is a number. *)
Definition two_rows : rmat := fun i _ => INR i.
Lemma two_rows_z : forall i, i < 2 -> zscore 2 two_rows i 0 = (sqrt 2 * (INR i - / 2))%R.
Proof.
  intros i Hi. assert (col_mean 2 two_rows 0 = / 2)%R as M by (unfold col_mean, two_rows; cbn; field).
  assert (col_std 2 two_rows 0 = / sqrt 2)%R as S.
  { unfold col_std. rewrite M. unfold two_rows. cbn.
    replace (((0 - / 2) * (0 - / 2) + ((1 - / 2) * (1 - / 2) + 0)) / (1 + 1 - 1))%R with (/ 2)%R by field.
    apply sqrt_inv. }
  assert (0 < sqrt 2)%R as P by (apply sqrt_lt_R0; lra).
  unfold zscore. rewrite S, M. destruct (Req_EM_T (/ sqrt 2) 0) as [E|_].
  - exfalso. apply Rinv_neq_0_compat in E; lra.
  - unfold two_rows. field. lra.
Qed.
Example C70_example : other_units 2 1 two_rows (fun i c => (-3 * two_rows i c + 7)%R) /\
  reordered 2 (fun i => 1 - i) two_rows (fun i c => two_rows (1 - i) c) /\ ~ constant_data 2 1 two_rows /\
  constant_data 2 1 (fun _ _ => 5%R) /\
  exists s, (0 < s)%R /\ kci_test (fun _ _ _ => (1/4)%R) 2 1 two_rows 1 two_rows = (Some (3/4)%R, s).
Proof.
  split; [|split; [|split; [|split]]].
  - exists (fun _ => -3)%R, (fun _ => 7)%R. split; intros; lra.
  - split; auto. cbn. apply perm_swap.
  - intro H. specialize (H 0 1 0 ltac:(lia) ltac:(lia) ltac:(lia)). unfold two_rows in H. cbn in H. lra.
  - intros i j c _ _ _. auto.
  - set (K := centered 2 (gaussian_kernel 1 (zscore 2 two_rows))).
    set (q := ((1 - exp (-1)) / 2)%R).
    assert (0 < q)%R as Q by (unfold q; pose proof (exp_increasing (-1) 0 ltac:(lra)) as E; rewrite exp_0 in E; lra).
    assert (sqrt 2 * sqrt 2 = 2)%R as S2 by (apply sqrt_sqrt; lra).
    assert (forall i j, i < 2 -> j < 2 -> gaussian_kernel 1 (zscore 2 two_rows) i j = if Nat.eqb i j then 1%R else exp (-1)) as G.
    { intros i j Hi Hj. unfold gaussian_kernel, sq_dists. cbn [rsumn seq map]. 
      replace (rsumn 1 (fun c => ((zscore 2 two_rows i c - zscore 2 two_rows j c) * (zscore 2 two_rows i c - zscore 2 two_rows j c))%R))
        with (2 * (INR i - INR j) * (INR i - INR j))%R.
      - destruct i as [|[|]], j as [|[|]]; try lia; cbn [Nat.eqb INR];
          first [transitivity (exp 0); [f_equal; lra|apply exp_0] | f_equal; lra].
      - rewrite <- S2 at 1. cbn. rewrite !two_rows_z by auto. ring. }
    assert (forall i j, i < 2 -> j < 2 -> K i j = if Nat.eqb i j then q else (- q)%R) as HK.
    { intros i j Hi Hj. unfold K, centered, rdot. unfold rsumn; cbn [seq map fold_right].
      rewrite !G by lia. unfold centering, q. destruct i as [|[|]], j as [|[|]]; try lia; cbn; field. }
    unfold kci_test. fold K. exists (sum_prod 2 K K).
    assert (sum_prod 2 K K = 4 * (q * q))%R as SP by (unfold sum_prod, rsumn; cbn [seq map fold_right]; rewrite !HK by lia; cbn; ring).
    assert (rtrace 2 K = 2 * q)%R as T by (unfold rtrace, rsumn; cbn [seq map fold_right]; rewrite !HK by lia; cbn; ring).
    assert (0 < q * q)%R as QQ by nra.
    split; [lra|]. unfold gamma_pvalue. rewrite T, SP. f_equal. cbn [INR].
    destruct (Req_EM_T (2 * q * (2 * q) / (1 + 1)) 0) as [E|_]; [exfalso; nra|].
    destruct (Req_EM_T (2 * (4 * (q * q)) * (4 * (q * q)) / ((1 + 1) * (1 + 1))) 0) as [E|_]; [exfalso; nra|].
    f_equal. lra.
Qed.
