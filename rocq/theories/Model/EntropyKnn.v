(** Model of entropy_loss_knn in
    /repo/cdmir/discovery/score_based/entropy_based/entropy_based_discovery/utils.py, lines 444-467.
    Numbers are exact reals.  The residuals are given as a list of columns (one for each variable) of equal length.  A column of equal residuals, or of one, makes
    torch's loss NaN; this is not modelled, the theorems ask for columns with a deviation other than 0. *)

From Coq Require Import List Arith Bool Reals.
From Verif Require Import Model.Py Model.LocalScore Model.EntropyLoss Model.EntropyMore Model.LagTransitions.
Import ListNotations.
Open Scope nat_scope.
Open Scope res_scope.

(** utils.py:460: torch.log(torch.pow(sorted[i] - sorted[j], 2) + EPS) for one column; a place outside raises IndexError. *)
Definition term (eps : R) (s : list R) (i j : nat) : res R :=
  match nth_error s i, nth_error s j with
  | Some a, Some b => Ok (ln ((a - b) ^ 2 + eps))%R
  | _, _ => Err IndexError
  end.

(** utils.py:459-466: what is added for sample [i] and neighbour [j]. *)
Definition step (eps : R) (k : nat) (s : list R) (i j : nat) : res R :=
  if i <? k then term eps s i (i + j)
  else if length s - k <=? i then term eps s i (i - j)
  else
    left <-? term eps s i (i - j) ;;
    right <-? term eps s i (i + j) ;;
    Ok (Rmin left right).

(** utils.py:457-466: the sum of values, if none raises. *)
Definition rsum_res (l : list (res R)) : res R := fold_right (fun r acc => x <-? r ;; y <-? acc ;; Ok (x + y)%R) (Ok 0%R) l.

(** utils.py:456-466 for one column: torch sorts each column and adds the columns inside the two loops; here each column is summed by itself. *)
Definition knn_column (eps : R) (k : nat) (z : list R) : res R :=
  let s := sorted_of z in
  rsum_res (flat_map (fun i => map (step eps k s i) (seq 1 k)) (seq 0 (length s))).

(** utils.py:444-467: entropy_loss_knn; lines 450-454 standardise each column ([standard] in Model/EntropyMore.v).
    [k] is at least 1; for 0 the code divides by zero. *)
Definition entropy_loss_knn (eps : R) (k : nat) (columns : list (list R)) : res R :=
  loss <-? rsum_res (map (fun c => knn_column eps k (standard c)) columns) ;;
  Ok (loss / INR k)%R.
