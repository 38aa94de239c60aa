(** Model of /repo/cdmir/utils/independence/functional/fisherz.py and
    /repo/cdmir/utils/independence/fisherz.py.  Numbers are exact reals. *)

From Coq Require Import List Arith Bool ZArith Reals.
From Verif Require Import Model.Py Model.LocalScore.
Import ListNotations.
Open Scope nat_scope.
Open Scope res_scope.

(** functional/fisherz.py:30: [min(0.9999999, abs(stats))]. *)
Definition capped (stats : R) : R := Rmin (9999999 / 10000000) (Rabs stats).

(** functional/fisherz.py:31: [1 / 2 * log1p(2 * abs_stats / (1 - abs_stats))]. *)
Definition z_value (a : R) : R := (1 / 2 * ln (1 + 2 * a / (1 - a)))%R.

(** functional/fisherz.py:32-33, for [k] conditioning variables.  [None] is NaN:
    numpy's square root of a negative number.  [cdf] is scipy's norm.cdf. *)
Definition z_pvalue (cdf : R -> R) (num_records k : nat) (stats : R) : option R :=
  if Nat.ltb num_records (k + 3) then None
  else Some (2 * (1 - cdf (Rabs (sqrt (INR (num_records - k - 3)) * Rabs (z_value (capped stats))))))%R.

(** functional/fisherz.py:24-34 (fisherz_from_corr) for an n by n matrix [corr]
    and ids that are not negative; the p-value and [stats].  [inv] is
    numpy.linalg.inv with LinAlgError as PyException. *)
Definition fisherz_from_corr (inv : nat -> rmat -> res rmat) (cdf : R -> R) (n : nat) (corr : rmat) (num_records : nat)
    (x_id y_id : nat) (z_ids : option (list nat)) : res (option R * R) :=
  let z_ids := match z_ids with None => [] | Some l => l end in
  let var := x_id :: y_id :: z_ids in
  if negb (forallb (fun i => Nat.ltb i n) var) then Err IndexError
  else
    inv_mat <-? inv (List.length var) (fun a b => corr (nth a var 0) (nth b var 0)) ;;
    let stats := (- inv_mat 0%nat 1%nat / sqrt (Rabs (inv_mat 0%nat 0%nat * inv_mat 1%nat 1%nat)))%R in
    Ok (z_pvalue cdf num_records (List.length z_ids) stats, stats).

(** fisherz.py:18-19 (FisherZ.cal_stats) as the [cal_stats] argument of itest
    (Model/Independence.v): ids are ints (negative ones are not modelled). *)
Definition fisherz_stat (inv : nat -> rmat -> res rmat) (cdf : R -> R) (n : nat) (corr : rmat) (num_records : nat)
    (x y : Z) (z : option (list Z)) : res (option R * R) :=
  fisherz_from_corr inv cdf n corr num_records (Z.to_nat x) (Z.to_nat y) (option_map (map Z.to_nat) z).
