(** Model of /repo/cdmir/utils/independence/basic_independence.py and dsep.py. *)

From Coq Require Import List Arith Bool ZArith QArith String Ascii DecimalString Permutation.
From Verif Require Import Model.Py Model.Graph Model.DiGraph.
Import ListNotations.
Open Scope res_scope.

(** Python's [str(i)] of an [int]. *)
Definition str_int (i : Z) : string := NilZero.string_of_int (Z.to_int i).

(** [sep.join(l)]. *)
Fixpoint str_join (sep : string) (l : list string) : string :=
  match l with
  | [] => EmptyString
  | [s] => s
  | s :: r => (s ++ sep ++ str_join sep r)%string
  end.

(** basic_independence.py:6-9 (_stringize_list); the [None] case is not
    reached from _get_cache_key. *)
Definition stringize_list (z : list Z) : string := str_join ", " (map str_int z).

(** [sorted(l)] on ints (basic_independence.py:18). *)
Fixpoint insertZ (x : Z) (l : list Z) : list Z :=
  match l with
  | [] => [x]
  | y :: r => if (x <=? y)%Z then x :: l else y :: insertZ x r
  end.
Definition sortedZ (l : list Z) : list Z := fold_right insertZ [] l.

(** basic_independence.py:12-19 (_get_cache_key); [None] for [z is None]. *)
Definition get_cache_key (x y : Z) (z : option (list Z)) : string :=
  let (x, y) := if (x >? y)%Z then (y, x) else (x, y) in
  match z with
  | None => ("I(" ++ str_int x ++ ", " ++ str_int y ++ ")")%string
  | Some z => ("I(" ++ str_int x ++ ", " ++ str_int y ++ " | " ++ stringize_list (sortedZ z) ++ ")")%string
  end.

(** basic_independence.py:38-46 (itest) on the state [self.cache].  [cal_stats]
    is the method of the subclass; [truthy v] is Python's [bool(v)] of a cached
    value, since line 40 tests the value and not the presence of the key. *)
Definition itest {V} (truthy : V -> bool) (cal_stats : Z -> Z -> option (list Z) -> res V)
    (cache : list (string * V)) (x y : Z) (z : option (list Z)) : list (string * V) * res V :=
  let key := get_cache_key x y z in
  let compute := match cal_stats x y z with
                 | Ok v => (dset String.eqb cache key v, Ok v)
                 | Err e => (cache, Err e)
                 end in
  match dget String.eqb cache key with
  | Some v => if truthy v then (cache, Ok v) else compute
  | None => compute
  end.

(** Answers of a sequence of itest calls on one test object. *)
Definition qry : Type := Z * Z * option (list Z).
Fixpoint itests {V} (truthy : V -> bool) (cal_stats : Z -> Z -> option (list Z) -> res V)
    (cache : list (string * V)) (qs : list qry) : list (string * V) * list (res V) :=
  match qs with
  | [] => (cache, [])
  | (x, y, z) :: r =>
      let (c1, a) := itest truthy cal_stats cache x y z in
      let (c2, l) := itests truthy cal_stats c1 r in (c2, a :: l)
  end.

(** basic_independence.py:27: [name_id]. *)
Definition name_id (names : list nat) : list (nat * nat) :=
  fold_left (fun d p => dset Nat.eqb d (snd p) (fst p)) (enumerate_from 0 names) [].

(** basic_independence.py:30-31 (_get_name_id). *)
Definition get_name_id (names : list nat) (name : nat) : res nat := dgetE Nat.eqb (name_id names) name.

(** [self.var_names[i]] with IndexError (dsep.py:14-15). *)
Definition name_of (names : list nat) (i : nat) : res nat :=
  match nth_error names i with Some u => Ok u | None => Err IndexError end.

(** dsep.py:13-18 (Dsep.cal_stats), the first component of the pair (both
    components are equal). *)
Definition dsep_cal_stats (dag : graph) (names : list nat) (x y : nat) (z : list nat) : res Q :=
  zs <-? mapE (name_of names) z ;;
  u <-? name_of names x ;;
  v <-? name_of names y ;;
  b <-? is_d_separate dag u v zs ;;
  Ok (if b : bool then 1 else 0)%Q.

(** basic_independence.py:33-36 (test) for Dsep, without the cache of itest. *)
Definition dsep_test (dag : graph) (names : list nat) (x y : nat) (z : list nat) : res Q :=
  x_id <-? get_name_id names x ;;
  y_id <-? get_name_id names y ;;
  z_ids <-? mapE (get_name_id names) z ;;
  dsep_cal_stats dag names x_id y_id z_ids.

(** dsep.py:13-18 as the [cal_stats] argument of itest: ids are ints (negative
    indices, which Python would accept, are not modelled), [None] is not
    iterable. *)
Definition dsep_stat (dag : graph) (names : list nat) (x y : Z) (z : option (list Z)) : res Q :=
  match z with
  | None => Err TypeError
  | Some l => dsep_cal_stats dag names (Z.to_nat x) (Z.to_nat y) (map Z.to_nat l)
  end.
