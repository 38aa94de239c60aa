(** Model of get_performance in /repo/cdmir/utils/metrics/graph_evaluation.py
    (lines 78-94).  Numbers are exact rationals; arrays are two-dimensional and
    square (the broadcasting rules of numpy for other shapes are not modelled). *)

From Coq Require Import List Arith Bool ZArith QArith Qabs Qround.
From Verif Require Import Model.Py Model.Graph Model.Metrics.
Import ListNotations.
Open Scope nat_scope.
Open Scope res_scope.

(** The two kinds of arguments the function distinguishes (lines 79, 81). *)
Inductive perf_arg : Type := PGraph (g : graph) | PArray (m : list (list Q)).

(** graph_evaluation.py:79-82: [if isinstance(x, Graph): x = x.to_numpy()]. *)
Definition as_array (a : perf_arg) : res (list (list Q)) :=
  match a with
  | PGraph g => m <-? to_numpy g false ;; Ok (map (map inject_Z) m)
  | PArray m => Ok m
  end.

(** graph_evaluation.py:85-86: [m - np.diag(np.diag(m))]. *)
Definition minus_diag (m : list (list Q)) : list (list Q) :=
  map (fun p => map (fun q => (snd q - (if Nat.eqb (fst p) (fst q) then snd q else 0))%Q)
                    (enumerate_from 0 (snd p))) (enumerate_from 0 m).

(** Whether a number of the label array is an integer (sklearn's type_of_target:
    an array with another number has type 'continuous'). *)
Definition is_int (q : Q) : bool := Qeq_bool q (inject_Z (Qfloor q)).

(** [np.unique] of integer labels, as a list without repetitions. *)
Definition labels (l : list Z) : list Z := nodup Z.eq_dec l.

(** The checks of sklearn's precision_score, recall_score and f1_score with their
    default arguments (average='binary', pos_label=1), then the three scores: the
    lengths must agree, 'continuous' labels cannot be mixed with booleans, more
    than two labels are 'multiclass', and with two labels one of them must be 1. *)
Definition sk_scores (y_true : list Q) (y_pred : list bool) : res scores :=
  if negb (Nat.eqb (length y_true) (length y_pred)) then Err ValueError
  else if negb (forallb is_int y_true) then Err ValueError
  else
    let t := map Qfloor y_true in
    let present := labels (t ++ map (fun b : bool => if b then 1%Z else 0%Z) y_pred) in
    if Nat.ltb 2 (length present) then Err ValueError
    else if (negb (existsb (Z.eqb 1) present) && Nat.leb 2 (length present))%bool then Err ValueError
    else Ok (evaluate (map (Z.eqb 1) t) y_pred).

(** graph_evaluation.py:78-94 (get_performance).  The row of the returned data
    frame is the record of scores and the threshold; f1_score (line 88) runs
    first and raises first, with the same checks as the other two. *)
Definition get_performance (fitted real : perf_arg) (threshold : Q) (drop_diag : bool) : res (scores * Q) :=
  f <-? as_array fitted ;;
  r <-? as_array real ;;
  let fa := map (map Qabs) f in
  let f' := if drop_diag then minus_diag fa else fa in
  let r' := if drop_diag then minus_diag r else r in
  s <-? sk_scores (concat r') (map (fun x => negb (Qle_bool x threshold)) (concat f')) ;;
  Ok (s, threshold).
