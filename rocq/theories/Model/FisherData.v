(** Model of /repo/cdmir/utils/independence/functional/fisherz.py:8-21 and of the matrix of correlations
    that fisherz.py:13-16 computes.  Numbers are exact reals; [None] is NaN. *)

From Coq Require Import List Arith Bool Reals.
From Verif Require Import Model.Py Model.LocalScore Model.FisherZ.
Import ListNotations.
Open Scope nat_scope.
Open Scope res_scope.

(** numpy's corrcoef (functional/fisherz.py:16 and fisherz.py:16, [rowvar=False]) of a matrix [D] with
    [N] rows: the columns less their means ... *)
Definition deviation (N : nat) (D : rmat) (i c : nat) : R := (D i c - rsumn N (fun k => D k c) / INR N)%R.
(** ... numpy's cov, with N - 1 below (functional/fisherz.py:16, fisherz.py:16) ... *)
Definition np_cov (N : nat) (D : rmat) (a b : nat) : R :=
  (rsumn N (fun i => deviation N D i a * deviation N D i b) * (1 / (INR N - 1)))%R.
(** ... divided by the standard deviations of both columns, and clipped to [-1, 1]
    (functional/fisherz.py:16, fisherz.py:16). *)
Definition np_corrcoef (N : nat) (D : rmat) (a b : nat) : R :=
  Rmax (-1) (Rmin 1 (np_cov N D a b / sqrt (np_cov N D a a) / sqrt (np_cov N D b b)))%R.
(** The division is 0/0 for a column without variance: its row and its column of the matrix are NaN
    (functional/fisherz.py:16, fisherz.py:16).  So with one record, or none. *)
Definition no_variance (N : nat) (D : rmat) (c : nat) : bool := if Req_EM_T (np_cov N D c c) 0 then true else false.

(** functional/fisherz.py:28-33 when the matrix of correlations holds a NaN.  numpy's inverse then is NaN
    everywhere and does not raise; [stats] is NaN; and Python's [min(0.9999999, nan)] is its first argument,
    as [nan < 0.9999999] is false. *)
Definition nan_pvalue (cdf : R -> R) (num_records k : nat) : option R :=
  if Nat.ltb num_records (k + 3) then None
  else Some (2 * (1 - cdf (Rabs (sqrt (INR (num_records - k - 3)) * Rabs (z_value (9999999 / 10000000))))))%R.

(** fisherz.py:13-19: FisherZ(data).cal_stats(x_id, y_id, z_ids) for a matrix with [N] rows and [d] columns
    and ids that are not negative; p-value and statistic.  The matrix of correlations of a single column is
    a scalar, which cannot be indexed. *)
Definition fisherz_on_data (inv : nat -> rmat -> res rmat) (cdf : R -> R) (N d : nat) (D : rmat)
    (x_id y_id : nat) (z_ids : option (list nat)) : res (option R * option R) :=
  let zs := match z_ids with None => [] | Some l => l end in
  let var := x_id :: y_id :: zs in
  if Nat.ltb d 2 || negb (forallb (fun i => Nat.ltb i d) var) then Err IndexError
  else if existsb (no_variance N D) var then Ok (nan_pvalue cdf N (List.length zs), None)
  else
    r <-? fisherz_from_corr inv cdf d (np_corrcoef N D) N x_id y_id z_ids ;;
    Ok (fst r, Some (snd r)).

(** An argument of fisherz (functional/fisherz.py:8): a vector, or a matrix with [d] columns.  All have the
    same number of records; arrays of more dimensions are not modelled. *)
Inductive arr : Type :=
| Vec (v : nat -> R)
| Mat (d : nat) (m : rmat).

(** functional/fisherz.py:12-14: [reshape(x, (-1, 1)) if x.ndim == 1 else x]. *)
Definition as_columns (a : arr) : nat * rmat :=
  match a with Vec v => (1, fun i _ => v i) | Mat d m => (d, m) end.

(** functional/fisherz.py:15: [concatenate((x, y, Z), axis=1)]. *)
Definition concatenated (dx : nat) (x : rmat) (dy : nat) (y : rmat) (z : rmat) : rmat :=
  fun i c => if Nat.ltb c dx then x i c else if Nat.ltb c (dx + dy) then y i (c - dx) else z i (c - dx - dy).

(** functional/fisherz.py:8-21 (fisherz).  Without [Z] the data are [array([x, y]).T] (line 10): numpy cannot
    stack a vector on a matrix, and the transposed stack of two matrices has three dimensions, which corrcoef
    rejects; both are ValueErrors. *)
Definition fisherz (inv : nat -> rmat -> res rmat) (cdf : R -> R) (N : nat) (x y : arr) (Z : option arr) : res (option R * option R) :=
  match Z with
  | None =>
      match x, y with
      | Vec u, Vec v => fisherz_on_data inv cdf N 2 (fun i c => if Nat.eqb c 0 then u i else v i) 0 1 None
      | _, _ => Err ValueError
      end
  | Some Z =>
      let '(dx, x) := as_columns x in
      let '(dy, y) := as_columns y in
      let '(dz, Z) := as_columns Z in
      fisherz_on_data inv cdf N (dx + dy + dz) (concatenated dx x dy y Z) 0 1 (Some (seq 2 dz))
  end.
