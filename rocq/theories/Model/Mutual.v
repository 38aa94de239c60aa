(** Model of mutual_information_2d in /repo/cdmir/discovery/funtional_based/LearningHierarchicalStructure/mutual.py, lines 105-148.
    Numbers are exact reals.  np.histogram2d is written out; ndimage.gaussian_filter (lines 127-128) is an argument [smooth].  The reshape of lines
    134-135 only adds an axis, as the histogram is square. *)

From Coq Require Import List Arith Reals.
From Verif Require Import Model.Py Model.LagTransitions.
Import ListNotations.
Open Scope nat_scope.
Open Scope res_scope.

(** mutual.py:18: EPS = np.finfo(float).eps. *)
Definition EPS : R := (/ 2 ^ 52)%R.
(** mutual.py:122: bins = (256, 256). *)
Definition bins : nat := 256.

(** mutual.py:124: the outer edges that np.histogram2d takes from the data: 0 and 1 without data, the value less and plus 1/2 if all are equal. *)
Definition outer_edges (x : list R) : R * R :=
  match x with
  | [] => (0, 1)%R
  | v :: r =>
      let lo := fold_right Rmin v r in
      let hi := fold_right Rmax v r in
      if Req_EM_T lo hi then (lo - / 2, hi + / 2)%R else (lo, hi)
  end.
(** mutual.py:124: the edges of [n] bins (np.linspace). *)
Definition edge (n : nat) (e : R * R) (i : nat) : R := (fst e + INR i * ((snd e - fst e) / INR n))%R.
(** mutual.py:124: np.searchsorted(edges, v, side='right'), less one if [v] is the last edge, and less one for the bin of the outliers. *)
Definition bin_of (n : nat) (e : R * R) (v : R) : nat :=
  let c := length (filter (fun i => if Rle_dec (edge n e i) v then true else false) (seq 0 (S n))) in
  (if Req_EM_T v (edge n e n) then c - 1 else c) - 1.
(** mutual.py:124: the bins of the samples. *)
Definition binned (n : nat) (x y : list R) : list (nat * nat) :=
  combine (map (bin_of n (outer_edges x)) x) (map (bin_of n (outer_edges y)) y).
(** mutual.py:124: the counts. *)
Definition histogram (b : list (nat * nat)) : mat :=
  fun i j => INR (length (filter (fun q => Nat.eqb (fst q) i && Nat.eqb (snd q) j)%bool b)).

(** mutual.py:131-148: from the smoothed histogram to the result. *)
Definition from_smoothed (n : nat) (g : mat) (normalized : bool) : R :=
  let jh1 : mat := fun i j => (g i j + EPS)%R in
  let sh := sum_n n (fun i => sum_n n (fun j => jh1 i j)) in
  let jh : mat := fun i j => (jh1 i j / sh)%R in
  let s1 := fun j => sum_n n (fun i => jh i j) in
  let s2 := fun i => sum_n n (fun j => jh i j) in
  let joint := sum_n n (fun i => sum_n n (fun j => (jh i j * ln (jh i j))%R)) in
  let e1 := sum_n n (fun j => (s1 j * ln (s1 j))%R) in
  let e2 := sum_n n (fun i => (s2 i * ln (s2 i))%R) in
  if normalized then ((e1 + e2) / joint - 1)%R else (joint - e1 - e2)%R.

(** mutual.py:105-148: mutual_information_2d; np.histogram2d raises ValueError for sequences of different lengths. *)
Definition mutual_information_2d (smooth : mat -> mat) (x y : list R) (normalized : bool) : res R :=
  if Nat.eqb (length x) (length y) then Ok (from_smoothed bins (smooth (histogram (binned bins x y))) normalized) else Err ValueError.
