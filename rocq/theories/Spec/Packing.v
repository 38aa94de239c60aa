(** Parameters laid out one after the other in one vector, and bounds on them. *)

From Coq Require Import List Arith QArith.
Import ListNotations.
Open Scope nat_scope.

(** Where parameter [k] starts, given the sizes of all parameters. *)
Definition start (sizes : list nat) (k : nat) : nat := list_sum (firstn k sizes).

(** [x] lies between the two ends, where given. *)
Definition between (b : option Q * option Q) (x : Q) : Prop :=
  match fst b with Some l => (l <= x)%Q | None => True end /\ match snd b with Some u => (x <= u)%Q | None => True end.

(** Some number lies between the two ends. *)
Definition feasible (b : option Q * option Q) : Prop := exists x, between b x.

(** An optimiser that returns a vector of the right length, and within its bounds if
    these can be met, whatever the start. *)
Definition within_bounds (f : list (option Q * option Q) -> list Q -> list Q) : Prop :=
  forall bs x0, length bs = length x0 -> length (f bs x0) = length x0 /\
    ((forall b, In b bs -> feasible b) -> forall i, i < length x0 -> between (nth i bs (None, None)) (nth i (f bs x0) 0%Q)).

(** Two data sets that differ at most in column [i]. *)
Definition same_but (i : nat) (x x' : nat -> nat -> Q) : Prop := forall r c, c <> i -> x r c = x' r c.
