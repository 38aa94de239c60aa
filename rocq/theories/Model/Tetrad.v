(** Model of /repo/cdmir/discovery/funtional_based/LearningHierarchicalStructure/VanishedTest.py
    (Wishart's test of a vanishing tetrad).  Numbers are exact reals. *)

From Coq Require Import List Arith Bool Reals.
From Verif Require Import Model.Py Model.LocalScore.
Import ListNotations.
Open Scope nat_scope.

(** A column of n samples: [x i] is the entry of sample i (VanishedTest.py:20,
    the arguments x, y, z, w). *)
Definition column := nat -> R.

(** VanishedTest.py:42-45: the mean [np.cov] subtracts. *)
Definition mean_of (n : nat) (x : column) : R := (rsumn n x / INR n)%R.
(** VanishedTest.py:42-45, 60-62: [np.cov(x, y)[0][1]] and the entries of
    [DataFrame.cov()]; both divide by n - 1. *)
Definition scov (n : nat) (x y : column) : R :=
  (rsumn n (fun i => (x i - mean_of n x) * (y i - mean_of n y)) / (INR n - 1))%R.

(** VanishedTest.py:65: [np.linalg.det], first for a 3 x 3 matrix given by the
    rows and columns kept ... *)
Definition det3 (M : rmat) (r0 r1 r2 c0 c1 c2 : nat) : R :=
  (M r0 c0 * (M r1 c1 * M r2 c2 - M r1 c2 * M r2 c1)
   - M r0 c1 * (M r1 c0 * M r2 c2 - M r1 c2 * M r2 c0)
   + M r0 c2 * (M r1 c0 * M r2 c1 - M r1 c1 * M r2 c0))%R.
(** VanishedTest.py:65: ... then for the 4 x 4 matrix [M_cov].  numpy computes it
    by an LU factorisation; here it is expanded along the first row. *)
Definition det4 (M : rmat) : R :=
  (M 0%nat 0%nat * det3 M 1 2 3 1 2 3 - M 0%nat 1%nat * det3 M 1 2 3 0 2 3
   + M 0%nat 2%nat * det3 M 1 2 3 0 1 3 - M 0%nat 3%nat * det3 M 1 2 3 0 1 2)%R.

(** VanishedTest.py:59-60: the covariance matrix of the four columns. *)
Definition cov4 (n : nat) (a0 a1 a2 a3 : column) : rmat := fun i j =>
  scov n (nth i [a0; a1; a2; a3] a0) (nth j [a0; a1; a2; a3] a0).

(** VanishedTest.py:61-66: [var] in wishartTestTetradDifference. *)
Definition wishart_var (n : nat) (a0 a1 a2 a3 : column) : R :=
  let p1 := (scov n a0 a0 * scov n a3 a3 - scov n a0 a3 * scov n a0 a3)%R in
  let p2 := (scov n a1 a1 * scov n a2 a2 - scov n a1 a2 * scov n a1 a2)%R in
  let product3 := ((INR n + 1) / ((INR n - 1) * (INR n - 2)) * p1 * p2)%R in
  let determinant := det4 (cov4 n a0 a1 a2 a3) in
  (product3 - determinant / (INR n - 2))%R.

(** VanishedTest.py:68: the returned standard deviation. *)
Definition wishart_sd (n : nat) (a0 a1 a2 a3 : column) : R := sqrt (Rabs (wishart_var n a0 a1 a2 a3)).

(** VanishedTest.py:42-47: [TAUijkl]. *)
Definition tau (n : nat) (i j k l : column) : R :=
  let a := scov n i k in
  let b := scov n j l in
  let c := scov n i l in
  let d := scov n j k in
  (a * b - c * d)%R.

(** VanishedTest.py:50-52: the ratio, made non-positive. *)
Definition ratio_of (t sd : R) : R := if Rlt_dec 0 (t / sd) then (- (t / sd))%R else (t / sd)%R.

(** VanishedTest.py:33-55 (tetradPValue, wishartEvalTetradDifference); [cdf] is
    [norm.cdf].  [None] is NaN.  With one or two samples line 64 divides the Python
    integer n + 1 by 0 and raises.  Without samples every covariance is NaN.  With
    SD = 0 numpy's division gives NaN for 0 / 0, and otherwise an infinity, whose
    p-value [2 * norm.cdf(-inf)] is 0. *)
Definition tetrad_pvalue (cdf : R -> R) (n : nat) (i j k l : column) : res (option R) :=
  match n with
  | 0 => Ok None
  | 1 | 2 => Err ZeroDivisionError
  | _ =>
      let t := tau n i j k l in
      let sd := wishart_sd n i j k l in
      if Req_EM_T sd 0 then if Req_EM_T t 0 then Ok None else Ok (Some 0%R)
      else Ok (Some (2 * cdf (ratio_of t sd))%R)
  end.

(** VanishedTest.py:20-25 (vanishes); a comparison with NaN is False. *)
Definition vanishes (cdf : R -> R) (n : nat) (x y z w : column) (alpha : R) : res bool :=
  match tetrad_pvalue cdf n x y z w with
  | Err e => Err e
  | Ok None => Ok false
  | Ok (Some p) => Ok (if Rlt_dec alpha p then true else false)
  end.
