(** Model of /repo/cdmir/utils/independence/functional/kci.py (class KCI, the
    unconditional kernel test).  Numbers are exact reals. *)

From Coq Require Import List Arith Bool Reals.
From Verif Require Import Model.LocalScore.
Import ListNotations.
Open Scope nat_scope.

(** Data with n rows and d columns: [X i c] is the entry in row i, column c. *)

(** kci.py:39-43: [stats.zscore(X, ddof=1, axis=0)]; the NaN of a column without
    variation (or with one row) is replaced by 0. *)
Definition col_mean (n : nat) (X : rmat) (c : nat) : R := (rsumn n (fun i => X i c) / INR n)%R.
(** kci.py:40-41: the standard deviation with [ddof=1] that zscore divides by. *)
Definition col_std (n : nat) (X : rmat) (c : nat) : R :=
  sqrt (rsumn n (fun i => (X i c - col_mean n X c) * (X i c - col_mean n X c))%R / (INR n - 1)).
(** kci.py:40-43. *)
Definition zscore (n : nat) (X : rmat) : rmat := fun i c =>
  if Req_EM_T (col_std n X c) 0 then 0%R else ((X i c - col_mean n X c) / col_std n X c)%R.

(** kci.py:62-77 (_gaussian_kernel): squared Euclidean distances, [exp(-0.5 * d)]. *)
Definition sq_dists (d : nat) (X : rmat) : rmat := fun i j => rsumn d (fun c => (X i c - X j c) * (X i c - X j c))%R.
(** kci.py:75. *)
Definition gaussian_kernel (d : nat) (X : rmat) : rmat := fun i j => exp (- / 2 * sq_dists d X i j)%R.

(** kci.py:49-52: the matrix [H = np.eye(n) - np.ones((n, n)) / n]. *)
Definition centering (n : nat) : rmat := fun i j => ((if Nat.eqb i j then 1 else 0) - 1 / INR n)%R.
(** kci.py:51-52: the product [@] of two n x n matrices. *)
Definition rdot (n : nat) (A B : rmat) : rmat := fun i j => rsumn n (fun k => A i k * B k j)%R.
(** kci.py:51-52: [H @ K @ H]. *)
Definition centered (n : nat) (K : rmat) : rmat := rdot n (rdot n (centering n) K) (centering n).

(** kci.py:54-55: [np.sum(Kx * Ky)]. *)
Definition sum_prod (n : nat) (A B : rmat) : R := rsumn n (fun i => rsumn n (fun j => A i j * B i j))%R.
(** kci.py:94: [np.trace]. *)
Definition rtrace (n : nat) (A : rmat) : R := rsumn n (fun i => A i i).

(** kci.py:79-101 (_gamma_approx_pvalue); [gcdf s k theta] is scipy's gamma.cdf.
    [None] is NaN: with mean or variance 0 the parameters are NaN or not positive. *)
Definition gamma_pvalue (gcdf : R -> R -> R -> R) (n : nat) (Kx Ky : rmat) (test_stat : R) : option R :=
  let mean_approx := (rtrace n Kx * rtrace n Ky / INR n)%R in
  let var_approx := (2 * sum_prod n Kx Kx * sum_prod n Ky Ky / (INR n * INR n))%R in
  if Req_EM_T mean_approx 0 then None else if Req_EM_T var_approx 0 then None
  else Some (1 - gcdf test_stat (mean_approx * mean_approx / var_approx) (var_approx / mean_approx))%R.

(** kci.py:25-60 (test) for X with dx and Y with dy columns: p-value and statistic. *)
Definition kci_test (gcdf : R -> R -> R -> R) (n dx : nat) (X : rmat) (dy : nat) (Y : rmat) : option R * R :=
  let Kx := centered n (gaussian_kernel dx (zscore n X)) in
  let Ky := centered n (gaussian_kernel dy (zscore n Y)) in
  let test_stat := sum_prod n Kx Ky in
  (gamma_pvalue gcdf n Kx Ky test_stat, test_stat).
