(** The likelihood of one type of events in a Hawkes process, on a list of times. *)

From Coq Require Import Arith Reals.
From Verif Require Import Spec.Scores.
Open Scope R_scope.

(** The intensity at time [r]: the base rate and what the causes, with their strengths, have left. *)
Definition intensity (n : nat) (left : nat -> nat -> R) (alpha : nat -> R) (mu : R) (r : nat) : R := mu + sumRn n (fun j => alpha j * left r j).
(** The expected number of events, if the unit effects of cause [j] add up to [mass j] and the process is observed for [T]. *)
Definition expected (n : nat) (mass : nat -> R) (T : R) (alpha : nat -> R) (mu : R) : R := mu * T + sumRn n (fun j => alpha j * mass j).
(** Log likelihood, with [x r] events at time [r]. *)
Definition loglik (rows n : nat) (x : nat -> R) (left : nat -> nat -> R) (mass : nat -> R) (T : R) (alpha : nat -> R) (mu : R) : R :=
  sumRn rows (fun r => x r * ln (intensity n left alpha mu r)) - expected n mass T alpha mu.
