(** Correlations and regressions of samples, stated without reference to the model.  A variable is the vector
    of its values in the records 0 .. N-1. *)

From Coq Require Import List Arith Reals.
From Verif Require Import Spec.Scores.
Import ListNotations.

Definition average (N : nat) (u : nat -> R) : R := (sumRn N u / INR N)%R.
Definition comoment (N : nat) (u v : nat -> R) : R := sumRn N (fun i => (u i - average N u) * (v i - average N v))%R.
(** Pearson's correlation. *)
Definition pearson (N : nat) (u v : nat -> R) : R := (comoment N u v / sqrt (comoment N u u * comoment N v v))%R.

(** b_0 z_0 + b_1 z_1 + ... in record i. *)
Definition combination (b : nat -> R) (Z : list (nat -> R)) (i : nat) : R :=
  sumRn (length Z) (fun a => b a * nth a Z (fun _ => 0) i)%R.
(** [r] is what the least-squares regression of [v] on an intercept and the variables [Z] leaves over. *)
Definition residual (N : nat) (Z : list (nat -> R)) (v r : nat -> R) : Prop :=
  (exists b0 b, forall i, i < N -> v i = (b0 + combination b Z i + r i)%R) /\
  sumRn N r = 0%R /\ forall z, In z Z -> sumRn N (fun i => r i * z i)%R = 0%R.
(** No variable is a linear combination of the others and a constant. *)
Definition nondegenerate (N : nat) (vs : list (nat -> R)) : Prop :=
  forall b0 b, (forall i, i < N -> (b0 + combination b vs i = 0)%R) -> forall a, a < length vs -> b a = 0%R.
(** A variable with one value. *)
Definition flat (N : nat) (v : nat -> R) : Prop := forall i j, i < N -> j < N -> v i = v j.
(** The variables of a matrix with the records as rows. *)
Definition column (D : nat -> nat -> R) (c : nat) : nat -> R := fun i => D i c.
