(** Linear structural equations x_j = sum_i W_ij x_i + e_j with independent noise:
    effects along directed paths, covariances and the least-squares risk. *)

From Coq Require Import List Arith Reals.
From Verif Require Import Spec.Scores.
Open Scope R_scope.

(** The edges of the d by d weight matrix [W]. *)
Definition weighted (d : nat) (W : nat -> nat -> R) (u v : nat) : Prop := (u < d)%nat /\ (v < d)%nat /\ W u v <> 0.

(** The sum, over all directed paths with [k] edges from [r] to [j], of the product of
    the weights on the path. *)
Fixpoint along (d : nat) (W : nat -> nat -> R) (k r j : nat) : R :=
  match k with
  | O => if Nat.eqb r j then 1 else 0
  | S k' => sumRn d (fun i => along d W k' r i * W i j)
  end.

(** The total effect of the noise of [r] on variable [j]: the sum over all directed
    paths; in a DAG with [d] nodes they have fewer than [d] edges. *)
Definition effect (d : nat) (W : nat -> nat -> R) (r j : nat) : R := sumRn d (fun k => along d W k r j).

(** The covariance of variables [i] and [j] when the noise of [r] has standard
    deviation [s r]. *)
Definition covariance (d : nat) (W : nat -> nat -> R) (s : nat -> R) (i j : nat) : R :=
  sumRn d (fun r => s r * s r * (effect d W r i * effect d W r j)).

(** The mean over the [d] rows of [X] of the squared errors when every variable is
    predicted from the others with the weights [B]. *)
Definition risk (d : nat) (X B : nat -> nat -> R) : R :=
  / INR d * sumRn d (fun r => sumRn d (fun j => Rsqr (X r j - sumRn d (fun i => X r i * B i j)))).
