(** Pade approximants of the exponential and linear systems, independent of the code. *)

From Coq Require Import List Arith Reals.
From Verif Require Import Model.LocalScore Spec.Scores Spec.ExpmSpec.
Import ListNotations.
Open Scope nat_scope.

(** The coefficient of x^k in the numerator of the [m/m] Pade approximant of e^x:
    (2m - k)! m! / ((2m)! k! (m - k)!). *)
Definition pade_coef (m k : nat) : R :=
  (INR (fact (2 * m - k)) * INR (fact m) / (INR (fact (2 * m)) * INR (fact k) * INR (fact (m - k))))%R.
(** Numerator and denominator: the denominator is the numerator at -x. *)
Definition numerator (m : nat) : list R := map (pade_coef m) (seq 0 (S m)).
Definition denominator (m : nat) : list R := map (fun k => (-1) ^ k * pade_coef m k)%R (seq 0 (S m)).
(** U + V and V - U are a common multiple of numerator and denominator at A. *)
Definition pade_pair (n m : nat) (A U V : rmat) : Prop := exists c, (0 < c)%R /\
  same_matrix n (fun i j => U i j + V i j)%R (fun i j => c * polynomial n (numerator m) A i j)%R /\
  same_matrix n (fun i j => V i j - U i j)%R (fun i j => c * polynomial n (denominator m) A i j)%R.

(** The product of matrices, inverses, and what a solver of linear systems does. *)
Definition product (n : nat) (A B : rmat) : rmat := fun i j => sumRn n (fun a => A i a * B a j)%R.
Definition unit_matrix : rmat := fun i j => if Nat.eqb i j then 1%R else 0%R.
Definition invertible (n : nat) (Q : rmat) : Prop := exists Y, same_matrix n (product n Y Q) unit_matrix /\ same_matrix n (product n Q Y) unit_matrix.
Definition solves_systems (n : nat) (solve : nat -> rmat -> rmat -> rmat) : Prop := forall Q P, invertible n Q -> same_matrix n (product n Q (solve n Q P)) P.
