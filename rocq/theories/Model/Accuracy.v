(** Model of count_accuracy in
    /repo/cdmir/discovery/score_based/entropy_based/entropy_based_discovery/utils.py. *)

From Coq Require Import List Arith Bool ZArith QArith.
From Verif Require Import Model.Py Model.Networkx Model.LHS.
Import ListNotations.
Open Scope nat_scope.
Open Scope res_scope.

(** Square integer arrays of a size that is passed separately. *)
Definition zmat : Type := nat -> nat -> Z.

(** [np.flatnonzero(..)] of a [d] by [d] boolean array: the linear indices. *)
Definition flatnonzero (d : nat) (p : nat -> nat -> bool) : list nat :=
  filter (fun k => p (k / d) (k mod d)) (seq 0 (d * d)).

(** [(..).any()] and [(..).all()] of a [d] by [d] boolean array. *)
Definition any2 (d : nat) (p : nat -> nat -> bool) : bool := existsb (fun i => existsb (p i) (seq 0 d)) (seq 0 d).
Definition all2 (d : nat) (p : nat -> nat -> bool) : bool := forallb (fun i => forallb (p i) (seq 0 d)) (seq 0 d).

(** [np.intersect1d(a, b, assume_unique=True)]: sort the concatenation and keep
    the elements that equal their successor. *)
Fixpoint equal_next (l : list nat) : list nat :=
  match l with
  | a :: ((b :: _) as r) => if Nat.eqb a b then a :: equal_next r else equal_next r
  | _ => []
  end.
Definition intersect1d (a b : list nat) : list nat := equal_next (py_sorted (a ++ b)).

(** [np.setdiff1d(a, b, assume_unique=True)]: the elements of [a] not in [b]. *)
Definition setdiff1d (a b : list nat) : list nat := filter (fun k => negb (memb k b)) a.

(** utils.py:19-21 (is_dag): igraph's test, for which the same algorithm as
    networkx's is used. *)
Definition is_dag_mat (d : nat) (B : zmat) : res bool := nx_is_dag d (fun i j => negb (Z.eqb (B i j) 0)).

(** utils.py:335-344: the checks of [B_est]. *)
Definition check_est (d : nat) (B : zmat) : res unit :=
  if any2 d (fun i j => Z.eqb (B i j) (-1)) then
    if negb (all2 d (fun i j => Z.eqb (B i j) 0 || Z.eqb (B i j) 1 || Z.eqb (B i j) (-1))) then Err ValueError
    else if any2 d (fun i j => Z.eqb (B i j) (-1) && Z.eqb (B j i) (-1)) then Err ValueError
    else Ok tt
  else if negb (all2 d (fun i j => Z.eqb (B i j) 0 || Z.eqb (B i j) 1)) then Err ValueError
  else
    b <-? is_dag_mat d B ;;
    if negb b then Err ValueError else Ok tt.

Record accuracy : Type := mkAcc { fdr : Q; tpr : Q; fpr : Q; shd : nat; nnz : nat }.

(** [float(a) / max(b, 1)]. *)
Definition ratio (a : nat) (b : Q) : Q :=
  (inject_Z (Z.of_nat a) / (if Qle_bool b 1 then 1 else b))%Q.
Definition qn (n : nat) : Q := inject_Z (Z.of_nat n).

(** utils.py:317-376 (count_accuracy). *)
Definition count_accuracy (d : nat) (B_true B_est : zmat) : res accuracy :=
  _ <-? check_est d B_est ;;
  let pred_und := flatnonzero d (fun i j => Z.eqb (B_est i j) (-1)) in
  let pred := flatnonzero d (fun i j => Z.eqb (B_est i j) 1) in
  let cond := flatnonzero d (fun i j => negb (Z.eqb (B_true i j) 0)) in
  let cond_reversed := flatnonzero d (fun i j => negb (Z.eqb (B_true j i) 0)) in
  let cond_skeleton := cond ++ cond_reversed in
  let true_pos := intersect1d pred cond ++ intersect1d pred_und cond_skeleton in
  let false_pos := setdiff1d pred cond_skeleton ++ setdiff1d pred_und cond_skeleton in
  let extra := setdiff1d pred cond in
  let reverse := intersect1d extra cond_reversed in
  let pred_size := length pred + length pred_und in
  let cond_neg_size := ((1 # 2) * qn d * (qn d - 1) - qn (length cond))%Q in
  let pred_lower := flatnonzero d (fun i j => Nat.leb j i && negb (Z.eqb (B_est i j + B_est j i) 0)) in
  let cond_lower := flatnonzero d (fun i j => Nat.leb j i && negb (Z.eqb (B_true i j + B_true j i) 0)) in
  let extra_lower := setdiff1d pred_lower cond_lower in
  let missing_lower := setdiff1d cond_lower pred_lower in
  Ok (mkAcc (ratio (length reverse + length false_pos) (qn pred_size))
            (ratio (length true_pos) (qn (length cond)))
            (ratio (length reverse + length false_pos) cond_neg_size)
            (length extra_lower + length missing_lower + length reverse)
            pred_size).
