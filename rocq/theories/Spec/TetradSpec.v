(** Covariances, tetrads and the sampling variance of a tetrad, as a textbook has them. *)

From Coq Require Import List Arith Permutation Reals.
From Verif Require Import Spec.Scores.
Import ListNotations.
Open Scope R_scope.

(** The covariance of two columns, from the differences of all pairs of samples. *)
Definition pair_cov (n : nat) (x y : nat -> R) : R :=
  sumRn n (fun i => sumRn n (fun j => (x i - x j) * (y i - y j))) / (2 * INR n * (INR n - 1)).

(** The 2 x 2 minor of the covariances with rows a, b and columns c, d. *)
Definition minor2 (n : nat) (a b c d : nat -> R) : R :=
  pair_cov n a c * pair_cov n b d - pair_cov n a d * pair_cov n b c.

(** Leibniz' formula for the determinant of the covariances of four columns. *)
Definition leibniz4 (S : nat -> nat -> R) : R :=
  let t s a b c d := s * (S 0%nat a * S 1%nat b * S 2%nat c * S 3%nat d) in
    t 1 0%nat 1%nat 2%nat 3%nat + t (-1) 0%nat 1%nat 3%nat 2%nat
  + t (-1) 0%nat 2%nat 1%nat 3%nat + t 1 0%nat 2%nat 3%nat 1%nat
  + t 1 0%nat 3%nat 1%nat 2%nat + t (-1) 0%nat 3%nat 2%nat 1%nat
  + t (-1) 1%nat 0%nat 2%nat 3%nat + t 1 1%nat 0%nat 3%nat 2%nat
  + t 1 1%nat 2%nat 0%nat 3%nat + t (-1) 1%nat 2%nat 3%nat 0%nat
  + t (-1) 1%nat 3%nat 0%nat 2%nat + t 1 1%nat 3%nat 2%nat 0%nat
  + t 1 2%nat 0%nat 1%nat 3%nat + t (-1) 2%nat 0%nat 3%nat 1%nat
  + t (-1) 2%nat 1%nat 0%nat 3%nat + t 1 2%nat 1%nat 3%nat 0%nat
  + t 1 2%nat 3%nat 0%nat 1%nat + t (-1) 2%nat 3%nat 1%nat 0%nat
  + t (-1) 3%nat 0%nat 1%nat 2%nat + t 1 3%nat 0%nat 2%nat 1%nat
  + t 1 3%nat 1%nat 0%nat 2%nat + t (-1) 3%nat 1%nat 2%nat 0%nat
  + t (-1) 3%nat 2%nat 0%nat 1%nat + t 1 3%nat 2%nat 1%nat 0%nat.

(** Its four columns. *)
Definition cov_of (n : nat) (a b c d : nat -> R) : nat -> nat -> R := fun i j =>
  pair_cov n (nth i [a; b; c; d] a) (nth j [a; b; c; d] a).

(** Wishart's variance of the tetrad with rows a, b and columns c, d: the principal
    minors belong to the two rows and to the two columns. *)
Definition wishart_variance (n : nat) (a b c d : nat -> R) : R :=
  ((INR n + 1) / (INR n - 1) * minor2 n a b a b * minor2 n c d c d - leibniz4 (cov_of n a b c d)) / (INR n - 2).

(** The column in another unit: shifted and rescaled, possibly reversed. *)
Definition in_unit (n : nat) (x x' : nat -> R) : Prop :=
  exists a b, a <> 0 /\ forall i, (i < n)%nat -> x' i = a * x i + b.

(** The column with its samples in another order. *)
Definition in_order (n : nat) (p : nat -> nat) (x x' : nat -> R) : Prop :=
  Permutation (map p (seq 0 n)) (seq 0 n) /\ forall i, (i < n)%nat -> x' i = x (p i).
