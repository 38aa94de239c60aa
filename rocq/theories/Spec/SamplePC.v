(** The p-value of a sample's partial correlation, for variables called by name; stated without reference to the model. *)

From Coq Require Import List Arith Reals.
From Verif Require Import Spec.Scores Spec.Partial Spec.SampleSpec.
Import ListNotations.

(** Where a name stands. *)
Fixpoint place (x : nat) (names : list nat) : nat :=
  match names with [] => 0 | a :: l => if Nat.eqb x a then 0 else S (place x l) end.
(** The values of the variable called [x] when the columns of [D] are called [names]. *)
Definition measured (names : list nat) (D : nat -> nat -> R) (x : nat) : nat -> R := column D (place x names).

(** Fisher's p-value, with the distribution function [cdf], of the correlation that the variables u and v of the sample [V] have
    after the regression of both on the variables z. *)
Definition sample_pvalue (cdf : R -> R) (N : nat) (V : nat -> nat -> R) (u v : nat) (z : list nat) (p : R) : Prop :=
  exists ru rv, residual N (map V z) (V u) ru /\ residual N (map V z) (V v) rv /\
    p = (2 * (1 - cdf (sqrt (INR (N - List.length z - 3)) * fisher_transform (Rmin 0.9999999 (Rabs (pearson N ru rv))))))%R.
