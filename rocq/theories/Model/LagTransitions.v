(** Model of /repo/cdmir/datasets/utils.py, lines 80-117: _generate_uniform_mat and generate_lag_transitions.
    Numbers are exact reals.  The random draws are arguments: [refs] are the matrices drawn by line 105 in turn, and [draw p] is the [p]-th
    matrix drawn by lines 85 and 91.  [cond] stands for np.linalg.cond; its value is a real number, so the infinity that numpy gives for a singular
    matrix has to be thought of as a number above all others.  A division by the norm 0 of a column (nan in numpy) is not modelled: the theorems
    ask for draws without a column of zeros. *)

From Coq Require Import List Arith ZArith Reals.
From Verif Require Import Model.Py.
Import ListNotations.
Open Scope nat_scope.
Open Scope res_scope.

(** utils.py:85: an array of n_nodes times n_nodes numbers; entries outside of the range are not looked at. *)
Definition mat : Type := nat -> nat -> R.

(** utils.py:87: the sum over one axis of an array. *)
Fixpoint sum_n (n : nat) (f : nat -> R) : R := match n with 0 => 0%R | S m => (sum_n m f + f m)%R end.

(** utils.py:87, 93 and 107: A[:, i] /= np.sqrt((A[:, i] ** 2).sum()). *)
Definition scale_col (n : nat) (A : mat) (i : nat) : mat :=
  let s := sqrt (sum_n n (fun r => A r i * A r i)%R) in
  fun r c => if Nat.eqb c i then (A r c / s)%R else A r c.

(** utils.py:86-87, 92-93 and 106-107: the loop over the columns. *)
Definition scale (n : nat) (A : mat) : mat := fold_left (scale_col n) (seq 0 n) A.

(** utils.py:110: the sorting inside np.percentile, one insertion. *)
Fixpoint insert (x : R) (l : list R) : list R :=
  match l with [] => [x] | y :: r => if Rle_dec x y then x :: l else y :: insert x r end.
(** utils.py:110: the sorting inside np.percentile. *)
Definition sorted_of (l : list R) : list R := fold_right insert [] l.

(** utils.py:110: np.percentile(cond_list, accept_per) with the default linear interpolation.  An accept_per outside of 0..100 raises ValueError.
    On an empty list newer versions of numpy raise IndexError and older ones give nan; the error is modelled. *)
Definition percentile (l : list R) (q : Z) : res R :=
  if ((q <? 0) || (100 <? q))%Z%bool then Err ValueError
  else match l with
  | [] => Err IndexError
  | _ =>
      let s := sorted_of l in
      let h := (length l - 1) * Z.to_nat q in
      let k := h / 100 in
      let lo := nth k s 0%R in
      let hi := nth (S k) s lo in
      Ok (lo + (hi - lo) * (INR (h mod 100) / 100))%R
  end.

(** utils.py:80-95: _generate_uniform_mat; [p] is the number of matrices drawn before, and the number drawn after it is returned with the matrix.
    The first draw (lines 85-87) and the draws of the loop (lines 91-93) are the same statements and are one step here. *)
Fixpoint generate_uniform_mat (fuel : nat) (cond : mat -> R) (n : nat) (draw : nat -> mat) (thresh : R) (p : nat) : res (nat * mat) :=
  match fuel with
  | 0 => Err OutOfFuel
  | S f =>
      let A := scale n (draw p) in
      if Rlt_dec thresh (cond A) then generate_uniform_mat f cond n draw thresh (S p) else Ok (S p, A)
  end.

(** utils.py:112-114: the loop over the lags; [acc] is the list transitions. *)
Fixpoint lag_loop (fuel : nat) (cond : mat -> R) (n : nat) (draw : nat -> mat) (thresh : R) (lags : nat) (p : nat) (acc : list mat) : res (list mat) :=
  match lags with
  | 0 => Ok acc
  | S m =>
      B <-? generate_uniform_mat fuel cond n draw thresh p ;;
      lag_loop fuel cond n draw thresh m (fst B) (acc ++ [snd B])
  end.

(** utils.py:98-117: generate_lag_transitions; n_nodes and max_lag are natural numbers here (negative ones fail the same assertions as 0).
    The list [refs] has int(niter4cond_thresh) members. *)
Definition generate_lag_transitions (fuel : nat) (cond : mat -> R) (n_nodes max_lag : nat) (accept_per : Z) (refs : list mat) (draw : nat -> mat)
  : res (list mat) :=
  if Nat.eqb n_nodes 0 then Err AssertionError
  else if Nat.eqb max_lag 0 then Err AssertionError
  else
    let cond_list := map (fun A => cond (scale n_nodes A)) refs in
    thresh <-? percentile cond_list accept_per ;;
    transitions <-? lag_loop fuel cond n_nodes draw thresh max_lag 0 [] ;;
    Ok (rev transitions).
