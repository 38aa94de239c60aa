(** Partial correlation, stated without reference to the model. *)

From Coq Require Import List Arith Reals.
From Verif Require Import Spec.Scores.
Import ListNotations.

(** [b] are coefficients of the least-squares regression of variable [i] on the
    variables [Z], given the covariances [C] (normal equations). *)
Definition regression (C : nat -> nat -> R) (Z : list nat) (i : nat) (b : nat -> R) : Prop :=
  forall q, In q Z -> sumR Z (fun p => b p * C p q)%R = C i q.

(** Covariance of the residuals of two such regressions. *)
Definition residual_cov (C : nat -> nat -> R) (Z : list nat) (i : nat) (b : nat -> R) (j : nat) (c : nat -> R) : R :=
  (C i j - sumR Z (fun p => b p * C p j) - sumR Z (fun q => c q * C i q)
   + sumR Z (fun p => sumR Z (fun q => b p * c q * C p q)))%R.

(** [r] is the partial correlation of [i] and [j] given [Z]: the correlation of
    what the regressions on [Z] leave over of [i] and of [j]. *)
Definition partial_correlation (C : nat -> nat -> R) (Z : list nat) (i j : nat) (r : R) : Prop :=
  exists b c, regression C Z i b /\ regression C Z j c /\
    (0 < residual_cov C Z i b i b)%R /\ (0 < residual_cov C Z j c j c)%R /\
    r = (residual_cov C Z i b j c / sqrt (residual_cov C Z i b i b * residual_cov C Z j c j c))%R.

(** Fisher's transformation of a correlation. *)
Definition fisher_transform (r : R) : R := (/ 2 * ln ((1 + r) / (1 - r)))%R.
