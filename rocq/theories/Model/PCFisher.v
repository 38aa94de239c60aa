(** Model of /repo/cdmir/utils/adapters.py and of PC.fit on data with the Fisher-z test
    (/repo/cdmir/discovery/constraint/pc.py:30-47, utils/independence/basic_independence.py:24-46,
    utils/independence/fisherz.py).  Names are natural numbers. *)

From Coq Require Import List Arith Bool QArith Reals.
From Verif Require Import Model.Py Model.Graph Model.PDAG Model.Independence Model.PC Model.LocalScore Model.FisherZ Model.FisherData.
Import ListNotations.
Open Scope nat_scope.
Open Scope res_scope.

(** What a caller may pass as data (adapters.py:6-8): a DataFrame with the names of its columns, an array with
    two dimensions, a vector, or anything else.  Arrays of more dimensions are not modelled. *)
Inductive dataset : Type :=
| Frame (cols : list nat) (m : rmat)
| Array (d : nat) (m : rmat)
| Vector
| NotData.

(** adapters.py:6-17 (wrapper of data_form_converter_for_class_method): what is passed on.  [positional] is the
    number of further positional arguments: line 17 passes [self] by name, so that any of them is a second value
    for [self]. *)
Definition data_form_converter (data : dataset) (var_names : option (list nat)) (positional : nat) : res (dataset * list nat) :=
  r <-? match data with
        | NotData => Err AssertionError
        | Vector => Err IndexError
        | Frame cols m =>
            match var_names with
            | None => Ok (Array (List.length cols) m, cols)
            | Some names => if Nat.eqb (List.length names) (List.length cols) then Ok (data, names) else Err AssertionError
            end
        | Array d m =>
            match var_names with
            | None => Ok (data, seq 0 d)
            | Some names => if Nat.eqb (List.length names) d then Ok (data, names) else Err AssertionError
            end
        end ;;
  if Nat.eqb positional 0 then Ok r else Err TypeError.

(** The number of columns and the values of the data that reach corrcoef (fisherz.py:14-16; numpy takes the values
    of a DataFrame). *)
Definition values_of (data : dataset) : nat * rmat :=
  match data with Frame cols m => (List.length cols, m) | Array d m => (d, m) | _ => (0, fun _ _ => 0%R) end.

(** basic_independence.py:33-36 (test) of a FisherZ object: the p-value.  The cache of itest is left out (see C25
    and C69). *)
Definition fisherz_test (inv : nat -> rmat -> res rmat) (cdf : R -> R) (N : nat) (data : dataset) (names : list nat)
    (x y : nat) (z : list nat) : res (option R) :=
  x_id <-? get_name_id names x ;;
  y_id <-? get_name_id names y ;;
  z_ids <-? mapE (get_name_id names) z ;;
  r <-? fisherz_on_data inv cdf N (fst (values_of data)) (snd (values_of data)) x_id y_id (Some z_ids) ;;
  Ok (fst r).

(** adjacency_search.py:41 and 85: [pval >= alpha], false for NaN. *)
Definition at_least (alpha : R) (pval : option R) : bool :=
  match pval with None => false | Some p => if Rle_dec alpha p then true else false end.

(** The test as the searches of Model/PC.v take it.  They look at a p-value only in [pval >= alpha]
    (adjacency_search.py:41, 85); here the p-value is 1 or 0 as the comparison comes out, and the level is 1. *)
Definition decisions (t : nat -> nat -> list nat -> res (option R)) (alpha : R) : citest :=
  fun u v z => p <-? t u v z ;; Ok (if at_least alpha p then 1 else 0)%Q.

(** pc.py:30-47: PC(alpha, search).fit(data, var_names, indep_cls=FisherZ), for data with [N] records.  The
    converter runs for fit and again for the constructor of the test (basic_independence.py:24). *)
Definition pc_fit_data (adj_search : citest -> list nat -> Q -> res (graph * seps * list tcall))
    (inv : nat -> rmat -> res rmat) (cdf : R -> R) (alpha : R) (N : nat) (data : dataset) (var_names : option (list nat)) (positional : nat)
    : res (graph * graph * seps) :=
  r <-? data_form_converter data var_names positional ;;
  r' <-? data_form_converter (fst r) (Some (snd r)) 0 ;;
  pc_fit adj_search (decisions (fisherz_test inv cdf N (fst r') (snd r')) alpha) (snd r') 1.
