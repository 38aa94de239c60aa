(** Model of /repo/cdmir/utils/independence/_base.py
    (BaseConditionalIndependenceTest). *)

From Coq Require Import List Arith Bool ZArith String.
From Verif Require Import Model.Py Model.Graph Model.Independence.
Import ListNotations.
Open Scope nat_scope.
Open Scope res_scope.

(** An element of a list: an [int], a [str] or an object of another type. *)
Inductive item : Type := IInt (i : Z) | IStr (s : string) | IOther.

(** The arguments xs, ys, zs: [None], an [int], a [str], a [list], a
    one-dimensional numpy array (of integers or of strings), or an object of
    another type without a length (a numpy integer, a bool). *)
Inductive vars_arg : Type :=
| ANone
| AInt (i : Z)
| AStr (s : string)
| AList (l : list item)
| AArray (l : list item)
| AScalar.

(** _base.py:22-23: [name_dict] and [name_to_index]; a later column with the
    same name replaces the earlier one. *)
Definition name_dict (names : list string) : list (string * nat) :=
  fold_left (fun d p => dset String.eqb d (snd p) (fst p)) (enumerate_from 0 names) [].
Definition name_to_index (names : list string) (s : string) : res Z :=
  i <-? dgetE String.eqb (name_dict names) s ;; Ok (Z.of_nat i).

(** _base.py:16-17: the names of the columns of an array. *)
Definition array_names (n : nat) : list string := map (fun i => ("x" ++ str_int (Z.of_nat i))%string) (seq 0 n).

(** [self._name_to_index(name)] for an element of a list; an element that is no
    string is not a key of the dictionary (column names are strings). *)
Definition item_to_index (names : list string) (x : item) : res item :=
  match x with
  | IStr s => i <-? name_to_index names s ;; Ok (IInt i)
  | _ => Err KeyError
  end.

(** _base.py:32-53 (__input_to_list).  The two [raise Exception] and [len] of an
    object without a length. *)
Definition input_to_list (names : list string) (a : vars_arg) : res (option (list item)) :=
  match a with
  | ANone => Ok None
  | AInt i => Ok (Some [IInt i])
  | AStr s => i <-? name_to_index names s ;; Ok (Some [IInt i])
  | AList [] => Ok None
  | AList (IInt i :: r) => Ok (Some (IInt i :: r))
  | AList (IStr s :: r) => l <-? mapE (item_to_index names) (IStr s :: r) ;; Ok (Some l)
  | AList (IOther :: _) => Err PyException
  | AArray [] => Ok None
  | AArray l => Ok (Some l)
  | AScalar => Err TypeError
  end.

(** [repr] of an element and of a list of elements; strings are not escaped and
    other objects have some fixed text. *)
Definition repr_item (x : item) : string :=
  match x with IInt i => str_int i | IStr s => ("'" ++ s ++ "'")%string | IOther => "<object>"%string end.
Definition repr_ids (l : option (list item)) : string :=
  match l with None => "None"%string | Some l => ("[" ++ str_join ", " (map repr_item l) ++ "]")%string end.

(** _base.py:63: [str((x_ids, y_ids, z_ids))]. *)
Definition ids : Type := option (list item).
Definition pvalue_key_text (x y z : ids) : string :=
  ("(" ++ repr_ids x ++ ", " ++ repr_ids y ++ ", " ++ repr_ids z ++ ")")%string.

(** _base.py:55-77 (_compute_p_value) on the state [self.cache_dict].  The two
    functions may be [None]; [hash] is Python's hash of strings. *)
Definition compute_p_value {V} (names : list string) (hash : string -> Z)
    (without_condition : option (ids -> ids -> res V)) (with_condition : option (ids -> ids -> ids -> res V))
    (cache : list (Z * V)) (xs ys zs : vars_arg) : list (Z * V) * res V :=
  match (x <-? input_to_list names xs ;; y <-? input_to_list names ys ;; z <-? input_to_list names zs ;; Ok (x, y, z)) with
  | Err e => (cache, Err e)
  | Ok (x, y, z) =>
      let key := hash (pvalue_key_text x y z) in
      match dget Z.eqb cache key with
      | Some v => (cache, Ok v)
      | None =>
          let r := match z with
                   | None => match without_condition with None => Err PyException | Some f => f x y end
                   | Some _ => match with_condition with None => Err PyException | Some f => f x y z end
                   end in
          match r with
          | Ok v => (dset Z.eqb cache key v, Ok v)
          | Err e => (cache, Err e)
          end
      end
  end.

(** A sequence of calls on one test object. *)
Fixpoint p_values {V} (names : list string) (hash : string -> Z)
    (without_condition : option (ids -> ids -> res V)) (with_condition : option (ids -> ids -> ids -> res V))
    (cache : list (Z * V)) (qs : list (vars_arg * vars_arg * vars_arg)) : list (Z * V) * list (res V) :=
  match qs with
  | [] => (cache, [])
  | (xs, ys, zs) :: r =>
      let (c1, a) := compute_p_value names hash without_condition with_condition cache xs ys zs in
      let (c2, l) := p_values names hash without_condition with_condition c1 r in (c2, a :: l)
  end.
