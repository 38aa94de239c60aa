(** Model of /repo/cdmir/utils/kernel (_base.py, linear.py, polynomial.py,
    gaussian.py), of the two versions of [dist2]
    (/repo/cdmir/discovery/score_based/greedy_equivalence_search.py and
    /repo/cdmir/utils/local_score/score_utils.py) and of the unconditional
    kernel statistic of /repo/cdmir/utils/independence/kernel_based.py.

    Numbers are rationals; the exponential is a function argument. *)

From Coq Require Import List Arith Bool ZArith QArith.
From Verif Require Import Model.Py Model.SHP Model.Matrix.
Import ListNotations.
Open Scope nat_scope.
Open Scope res_scope.

(** A two-dimensional numpy array. *)
Record arr : Type := mkArr { rows : nat; cols : nat; val : qmat }.

(* ---------- centering ---------- *)
(** kernel/_base.py:29-33 (center_kernel_matrix). *)
Definition center_kernel_matrix (n : nat) (K : qmat) : qmat :=
  let colsums := fun j => msum n (fun i => K i j) in
  let allsum := msum n colsums in
  let nq := inject_Z (Z.of_nat n) in
  fun i j => (K i j - (colsums j + colsums i) / nq + allsum / (nq * nq))%Q.

(* ---------- the kernel functions ---------- *)
(** linear.py:16-17: [x.dot(y.T)]. *)
Definition linear_kernel (x y : arr) : qmat := fun i j => msum (cols x) (fun k => val x i k * val y j k)%Q.

(** polynomial.py:15-16: [pow(const + x.dot(y.T), degree)], for a natural degree. *)
Definition polynomial_kernel (degree : nat) (const : Q) (x y : arr) : qmat :=
  fun i j => Qpower (const + linear_kernel x y i j) (Z.of_nat degree).

(** [cdist(x, y, 'sqeuclidean')], gaussian.py:47. *)
Definition sq_dists (x y : arr) : qmat :=
  fun i j => msum (cols x) (fun k => (val x i k - val y j k) * (val x i k - val y j k))%Q.

(** gaussian.py:42-49 for [y] given, after the width assertion. *)
Definition gaussian_kernel (exp : Q -> Q) (width : Q) (x y : arr) : qmat :=
  fun i j => exp (-(1 # 2) * sq_dists x y i j * width)%Q.

(* ---------- the cache ---------- *)
(** The indices of an axis of length [n] that numpy prints: all of them, or the
    first three and the last three when the array is summarised (it has more
    than 1000 elements) and the axis is longer than six. *)
Definition shown (summarised : bool) (n : nat) : list nat :=
  if summarised && (6 <? n) then [0; 1; 2; n - 3; n - 2; n - 1] else seq 0 n.

(** The entries that appear in the text of an array. *)
Definition shown_entries (a : arr) : list (list Q) :=
  let s := 1000 <? rows a * cols a in
  map (fun i => map (fun j => val a i j) (shown s (cols a))) (shown s (rows a)).

(** [hash(str((xs, ys, ...)))] (_base.py:16, gaussian.py:33).  [text] stands for
    the formatting of numbers and the hash: it is any function of the shapes,
    the printed entries and the further numbers in the tuple. *)
Definition text_fun : Type := (nat * nat) -> list (list Q) -> (nat * nat) -> list (list Q) -> list Q -> Z.
Definition cache_key (text : text_fun) (xs ys : arr) (extra : list Q) : Z :=
  text (rows xs, cols xs) (shown_entries xs) (rows ys, cols ys) (shown_entries ys) extra.

Definition kcache : Type := list (Z * qmat).

(** _base.py:15-23 (BaseKernel.__kernel), and gaussian.py:33-40 with the width
    as extra element of the key. *)
Definition kernel_call (key : Z) (c : kcache) (f : qmat) : kcache * qmat :=
  match dget Z.eqb c key with
  | Some r => (c, r)
  | None => (dset Z.eqb c key f, f)
  end.

(** linear.py:13-14. *)
Definition linear_call (text : text_fun) (c : kcache) (xs ys : arr) : kcache * qmat :=
  kernel_call (cache_key text xs ys []) c (linear_kernel xs ys).

(** polynomial.py:28-29: the inherited [__kernel], whose key has neither the
    degree nor the constant. *)
Definition polynomial_call (text : text_fun) (degree : nat) (const : Q) (c : kcache) (xs ys : arr) : kcache * qmat :=
  kernel_call (cache_key text xs ys []) c (polynomial_kernel degree const xs ys).

(** gaussian.py:26-40, with a manual width. *)
Definition gaussian_call (text : text_fun) (exp : Q -> Q) (width : Q) (c : kcache) (xs ys : arr) : kcache * qmat :=
  kernel_call (cache_key text xs ys [width]) c (gaussian_kernel exp width xs ys).

(* ---------- dist2 ---------- *)
(** [n2[np.where(n2 < 0)] = 0]. *)
Definition clamp (A : qmat) : qmat := fun i j => if negb (Qle_bool 0 (A i j)) then 0%Q else A i j.

(** [np.sum(np.multiply(x, x).T, axis=0)]. *)
Definition row_squares (x : arr) (i : nat) : Q := msum (cols x) (fun k => val x i k * val x i k)%Q.

(** greedy_equivalence_search.py:330-357 (dist2). *)
Definition dist2 (x c : arr) : res arr :=
  if negb (Nat.eqb (cols x) (cols c)) then Err PyException
  else Ok (mkArr (rows x) (rows c)
    (clamp (fun i j => row_squares x i + row_squares c j - 2 * msum (cols x) (fun k => val x i k * val c j k))%Q)).

(** Broadcasting of two axis lengths; [None] when they do not fit.  [bidx n i]
    is the index that position [i] of the result reads on an axis of length [n]. *)
Definition broadcast (n m : nat) : option nat :=
  if Nat.eqb n m then Some n else if Nat.eqb n 1 then Some m else if Nat.eqb m 1 then Some n else None.
Definition bidx (n i : nat) : nat := if Nat.eqb n 1 then 0 else i.

(** An elementwise operation of two arrays with broadcasting. *)
Definition elementwise (f : Q -> Q -> Q) (a b : arr) : res arr :=
  match broadcast (rows a) (rows b), broadcast (cols a) (cols b) with
  | Some r, Some k => Ok (mkArr r k (fun i j => f (val a (bidx (rows a) i) (bidx (cols a) j)) (val b (bidx (rows b) i) (bidx (cols b) j))))
  | _, _ => Err ValueError
  end.

(** [c.T]. *)
Definition transpose (a : arr) : arr := mkArr (cols a) (rows a) (mT (val a)).

(** score_utils.py:21-47 (dist2): the product is [x * c.T], the matrix product
    for [numpy.matrix] arguments and the elementwise product for
    [numpy.ndarray] arguments. *)
Definition score_dist2 (is_matrix : bool) (x c : arr) : res arr :=
  if negb (Nat.eqb (cols x) (cols c)) then Err PyException
  else
    let s := mkArr (rows x) (rows c) (fun i j => row_squares x i + row_squares c j)%Q in
    p <-? (if is_matrix then Ok (mkArr (rows x) (rows c) (fun i j => msum (cols x) (fun k => val x i k * val c j k)%Q))
           else elementwise Qmult x (transpose c)) ;;
    n2 <-? elementwise (fun u v => u - 2 * v)%Q s p ;;
    Ok (mkArr (rows n2) (cols n2) (clamp (val n2))).

(* ---------- the unconditional kernel statistic ---------- *)
(** kernel_based.py:96-97 (HSIC_V_test_statistic_from_kernel_matrix). *)
Definition hsic_stat (n : nat) (Kx Ky : qmat) : Q := msum n (fun i => msum n (fun j => Kx i j * Ky i j)%Q).

(** kernel_based.py:79-93 and 69: the statistic for the (already standardised)
    data [x] and [y] with a kernel function [k] and an empty cache. *)
Definition kci_stat (k : arr -> arr -> qmat) (x y : arr) : Q :=
  hsic_stat (rows x) (center_kernel_matrix (rows x) (k x x)) (center_kernel_matrix (rows y) (k y y)).
