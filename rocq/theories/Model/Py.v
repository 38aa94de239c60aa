(** Python run-time conventions shared by all model files.

    There is no source file behind this module: it fixes how Python values
    and control flow are represented (see DESIGN.md, "Modelling conventions").
    Every definition below names the Python feature it stands for. *)

From Coq Require Import List Arith Bool ZArith.
Import ListNotations.

(** Python exceptions that the modelled code can raise; [PyException] is the
    base class [Exception] raised directly.  [OutOfFuel] is not a
    Python exception: it marks a [while] loop that has used up the fuel of the
    model and is shown to be unreachable by the termination theorems. *)
Inductive exn : Type :=
| AssertionError | KeyError | TypeError | IndexError | ValueError
| AttributeError | UnboundLocalError | ZeroDivisionError | SystemExit
| NetworkXUnfeasible | PyException | OutOfFuel.

(** Outcome of a Python expression: a value or a raised exception. *)
Inductive res (A : Type) : Type :=
| Ok (a : A)
| Err (e : exn).
Arguments Ok {A} a.
Arguments Err {A} e.

(** Sequencing of Python expressions: an exception skips the rest. *)
Definition rbind {A B} (m : res A) (f : A -> res B) : res B :=
  match m with Ok a => f a | Err e => Err e end.

(** Python [assert c]. *)
Definition rassert (c : bool) : res unit :=
  if c then Ok tt else Err AssertionError.

Declare Scope res_scope.
Delimit Scope res_scope with res.
Notation "x <-? m ;; k" := (rbind m (fun x => k))
  (at level 61, m at next level, right associativity) : res_scope.
Notation "m ;;? k" := (rbind m (fun _ => k))
  (at level 61, right associativity) : res_scope.

(** Python [dict] (insertion ordered, CPython >= 3.7): an association list.
    Updating an existing key keeps its position, [pop] removes it. *)
Section Dict.
  Context {K V : Type} (keqb : K -> K -> bool).

  (** [d.get(k)] *)
  Fixpoint dget (d : list (K * V)) (k : K) : option V :=
    match d with
    | [] => None
    | (k', v) :: r => if keqb k k' then Some v else dget r k
    end.

  (** [d[k] = v] / [d.update({k: v})] *)
  Fixpoint dset (d : list (K * V)) (k : K) (v : V) : list (K * V) :=
    match d with
    | [] => [(k, v)]
    | (k', v') :: r => if keqb k k' then (k', v) :: r else (k', v') :: dset r k v
    end.

  (** [d.pop(k, None)] *)
  Fixpoint dpop (d : list (K * V)) (k : K) : list (K * V) :=
    match d with
    | [] => []
    | (k', v') :: r => if keqb k k' then r else (k', v') :: dpop r k
    end.

  (** [k in d] *)
  Definition dmem (d : list (K * V)) (k : K) : bool :=
    match dget d k with Some _ => true | None => false end.

  (** [d[k]] with [KeyError] *)
  Definition dgetE (d : list (K * V)) (k : K) : res V :=
    match dget d k with Some v => Ok v | None => Err KeyError end.

  (** [d.keys()] in iteration order *)
  Definition dkeys (d : list (K * V)) : list K := map fst d.
End Dict.

(** [x in l] for lists, tuples and sets of node names. *)
Definition memb (x : nat) (l : list nat) : bool := existsb (Nat.eqb x) l.

(** [l.remove(x)]: the first occurrence (callers ensure presence). *)
Fixpoint lremove (x : nat) (l : list nat) : list nat :=
  match l with
  | [] => []
  | y :: r => if Nat.eqb x y then r else y :: lremove x r
  end.

(** Python [set(l)]: a duplicate-free list with the elements of [l].  The
    iteration order of a Python set is unspecified; code that iterates over a
    set takes the order as a separate argument in this model. *)
Definition py_set (l : list nat) : list nat := nodup Nat.eq_dec l.

(** [s |= t] on sets. *)
Definition set_union (s t : list nat) : list nat :=
  s ++ filter (fun x => negb (memb x s)) (py_set t).

(** [itertools.combinations(l, k)] in itertools' order. *)
Fixpoint combinations {A} (l : list A) (k : nat) : list (list A) :=
  match k, l with
  | 0, _ => [[]]
  | S _, [] => []
  | S k', x :: r => map (cons x) (combinations r k') ++ combinations r k
  end.

(** [itertools.combinations(l, 2)] as pairs. *)
Fixpoint comb2 {A} (l : list A) : list (A * A) :=
  match l with
  | [] => []
  | x :: r => map (fun y => (x, y)) r ++ comb2 r
  end.

(** [itertools.permutations(l, 2)]: ordered pairs of different positions,
    in itertools' (lexicographic) order. *)
Fixpoint perm2_from {A} (pre l : list A) : list (A * A) :=
  match l with
  | [] => []
  | x :: r => map (fun y => (x, y)) (pre ++ r) ++ perm2_from (pre ++ [x]) r
  end.
Definition perm2 {A} (l : list A) : list (A * A) := perm2_from [] l.
