(** Model of /repo/cdmir/utils/local_score: _base.py, bic_score.py and
    bdeu_score.py.  Scores are exact real numbers. *)

From Coq Require Import List Arith Bool ZArith String Reals.
From Verif Require Import Model.Py Model.Independence.
Import ListNotations.
Open Scope nat_scope.
Open Scope res_scope.

(* ---------- _base.py ---------- *)
(** The [parent_i: Iterable[int]] argument: a list, a tuple or a set with its
    elements in the order of iteration, or some iterator object with the text
    that [repr] gives for it (type and address). *)
Inductive parents_arg : Type :=
| PList (l : list Z)
| PTuple (l : list Z)
| PSet (l : list Z)
| PIter (repr : string) (l : list Z).

(** What iterating over the argument yields. *)
Definition elements (p : parents_arg) : list Z :=
  match p with PList l | PTuple l | PSet l | PIter _ l => l end.

(** [repr] of the argument. *)
Definition repr_parents (p : parents_arg) : string :=
  match p with
  | PList l => ("[" ++ stringize_list l ++ "]")%string
  | PTuple [x] => ("(" ++ str_int x ++ ",)")%string
  | PTuple l => ("(" ++ stringize_list l ++ ")")%string
  | PSet [] => "set()"%string
  | PSet l => ("{" ++ stringize_list l ++ "}")%string
  | PIter s _ => s
  end.

(** _base.py:19: [str((i, parent_i))]. *)
Definition score_key_text (i : Z) (p : parents_arg) : string :=
  ("(" ++ str_int i ++ ", " ++ repr_parents p ++ ")")%string.

(** _base.py:18-26 (BaseLocalScoreFunction._score) on the state
    [self.cache_dict]; [hash] is Python's hash of strings.  The score function
    is given the elements of the argument. *)
Definition cached_score {V} (hash : string -> Z) (score_function : Z -> list Z -> res V)
    (cache : list (Z * V)) (i : Z) (p : parents_arg) : list (Z * V) * res V :=
  let key := hash (score_key_text i p) in
  match dget Z.eqb cache key with
  | Some v => (cache, Ok v)
  | None =>
      match score_function i (elements p) with
      | Ok v => (dset Z.eqb cache key v, Ok v)
      | Err e => (cache, Err e)
      end
  end.

(** A sequence of calls on one score object. *)
Fixpoint cached_scores {V} (hash : string -> Z) (score_function : Z -> list Z -> res V)
    (cache : list (Z * V)) (qs : list (Z * parents_arg)) : list (Z * V) * list (res V) :=
  match qs with
  | [] => (cache, [])
  | (i, p) :: r =>
      let (c1, a) := cached_score hash score_function cache i p in
      let (c2, l) := cached_scores hash score_function c1 r in (c2, a :: l)
  end.

(* ---------- bic_score.py ---------- *)
Definition rmat : Type := nat -> nat -> R.

(** [sum] of a list, and of [f] over [range(n)]. *)
Definition rsum (l : list R) : R := fold_right Rplus 0%R l.
Definition rsumn (n : nat) (f : nat -> R) : R := rsum (map f (seq 0 n)).

(** bic_score.py:24-34 (BICScore._score_function).  [cov] is the matrix of
    correlations [self.cov] (line 16), [n] is [self.sample_count], [inv] is
    numpy.linalg.inv with LinAlgError as PyException.  Coq's [ln] is 0 where
    numpy's [log] is NaN or -inf. *)
Definition bic_local (inv : nat -> rmat -> res rmat) (cov : rmat) (n : nat) (lambda : R) (i : nat) (parents : list nat) : res R :=
  let k := List.length parents in
  if Nat.eqb k 0 then Ok (INR n * ln (cov i i))%R
  else
    let yX := fun a => cov i (nth a parents 0) in
    let XX := fun a b => cov (nth a parents 0) (nth b parents 0) in
    XXi <-? inv k XX ;;
    let H := ln (cov i i - rsumn k (fun b => rsumn k (fun a => yX a * XXi a b) * yX b))%R in
    Ok (- (INR n * H + ln (INR n) * INR k * lambda))%R.

(* ---------- bdeu_score.py ---------- *)
(** The data: a list of rows of integers (category codes). *)
Definition cell (row : list Z) (c : nat) : Z := nth c row 0%Z.
Definition config (parents : list nat) (row : list Z) : list Z := map (cell row) parents.

Definition keq (a b : list Z) : bool := if list_eq_dec Z.eq_dec a b then true else false.

(** bdeu_score.py:24: [self.r_i_map[c]]. *)
Definition r_i_map (data : list (list Z)) (c : nat) : nat :=
  List.length (nodup Z.eq_dec (map (fun row => cell row c) data)).

(** bdeu_score.py:37-39: [q_i]. *)
Definition q_i (data : list (list Z)) (parents : list nat) : nat :=
  fold_left (fun q pa => q * r_i_map data pa) parents 1.

(** bdeu_score.py:45-46: the keys of the groups, in order of first occurrence
    (pandas sorts them; the order only matters for rounding). *)
Definition group_keys (data : list (list Z)) (parents : list nat) : list (list Z) :=
  nodup (list_eq_dec Z.eq_dec) (map (config parents) data).
Definition group (data : list (list Z)) (parents : list nat) (key : list Z) : list (list Z) :=
  filter (fun row => keq (config parents row) key) data.

(** bdeu_score.py:50-53: the values of column [i] in a group; their counts. *)
Definition group_values (rows : list (list Z)) (i : nat) : list Z :=
  nodup Z.eq_dec (map (fun row => cell row i) rows).
Definition group_count (rows : list (list Z)) (i : nat) (v : Z) : nat :=
  List.length (filter (fun row => Z.eqb (cell row i) v) rows).

(** bdeu_score.py:56-58: the structure term; [vm] is the number of rows minus
    one. *)
Definition structure_term (vm : nat) (structure_prior : R) (k : nat) : R :=
  (INR k * ln (structure_prior / INR vm) + (INR vm - INR k) * ln (1 - structure_prior / INR vm))%R.

(** bdeu_score.py:61-71: the likelihood term. *)
Definition likelihood_term (lgamma : R -> R) (data : list (list Z)) (sample_prior : R) (i : nat) (parents : list nat) : R :=
  let q := INR (q_i data parents) in
  let r := INR (r_i_map data i) in
  rsum (map (fun key =>
    let rows := group data parents key in
    (lgamma (sample_prior / q) - lgamma (INR (List.length rows) + sample_prior / q)
     + rsum (map (fun v => lgamma (INR (group_count rows i v) + sample_prior / (r * q)) - lgamma (sample_prior / (r * q))) (group_values rows i)))%R)
    (group_keys data parents)).

(** bdeu_score.py:26-73 (BDeuScore._score_function) for non-empty data.  pandas
    raises ValueError ("No group keys passed!") for [groupby([])] (line 45), and
    [structure_prior / vm] divides by zero for one row. *)
Definition bdeu_local (lgamma : R -> R) (data : list (list Z)) (sample_prior structure_prior : R) (i : nat) (parents : list nat) : res R :=
  if Nat.eqb (List.length parents) 0 then Err ValueError
  else if Nat.eqb (List.length data) 1 then Err ZeroDivisionError
  else Ok (structure_term (List.length data - 1) structure_prior (List.length parents)
           + likelihood_term lgamma data sample_prior i parents)%R.

(* ---------- the score of a DAG ---------- *)
(** greedy_equivalence_search.py:44-55 (Score_G): the sum of the local scores
    over the variables, here for any listing of the parents and any local score. *)
Fixpoint dag_score (local : nat -> list nat -> res R) (pa : nat -> list nat) (vs : list nat) : res R :=
  match vs with
  | [] => Ok 0%R
  | v :: r => s <-? local v (pa v) ;; t <-? dag_score local pa r ;; Ok (s + t)%R
  end.
