(** Finite sums, stated without reference to the model. *)

From Coq Require Import QArith ZArith.

(** f 0 + f 1 + ... + f (n - 1), over the rationals. *)
Fixpoint sumQ (n : nat) (f : nat -> Q) : Q :=
  match n with O => 0%Q | S m => (sumQ m f + f m)%Q end.

(** The same over the integers. *)
Fixpoint sumZ (n : nat) (f : nat -> Z) : Z :=
  match n with O => 0%Z | S m => (sumZ m f + f m)%Z end.
