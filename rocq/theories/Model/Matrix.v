(** Numpy matrices of rational numbers as functions of the indices.

    There is no source file behind this module.  A matrix of shape (n, m) is a
    function that is only read below these bounds; operations take the sizes as
    arguments.  Each definition names the numpy operation it stands for. *)

From Coq Require Import List Arith Bool QArith Qabs.
From Verif Require Import Model.SHP.
Import ListNotations.
Open Scope nat_scope.

Definition qmat : Type := nat -> nat -> Q.

(** [sum] over [range(n)]. *)
Definition msum (n : nat) (f : nat -> Q) : Q := qsum (map f (seq 0 n)).

(** [np.eye(n)]. *)
Definition meye : qmat := fun i j => if Nat.eqb i j then 1%Q else 0%Q.

(** [A @ B] / [A.dot(B)] with inner dimension [n]. *)
Definition mdot (n : nat) (A B : qmat) : qmat := fun i j => msum n (fun k => A i k * B k j)%Q.

(** [A.T]. *)
Definition mT (A : qmat) : qmat := fun i j => A j i.

(** [A * B] elementwise, [A + B], [A - B], [c * A]. *)
Definition mmul (A B : qmat) : qmat := fun i j => (A i j * B i j)%Q.
Definition madd (A B : qmat) : qmat := fun i j => (A i j + B i j)%Q.
Definition msub (A B : qmat) : qmat := fun i j => (A i j - B i j)%Q.
Definition mscale (c : Q) (A : qmat) : qmat := fun i j => (c * A i j)%Q.

(** [np.trace(A)]. *)
Definition mtrace (n : nat) (A : qmat) : Q := msum n (fun i => A i i).

(** [np.linalg.matrix_power(A, k)]; numpy uses repeated squaring, which gives
    the same matrix in exact arithmetic. *)
Fixpoint mpow (n : nat) (A : qmat) (k : nat) : qmat :=
  match k with O => meye | S k' => mdot n A (mpow n A k') end.

(** [P.dot(A)] for the permutation matrix whose row [i] has its one in column
    [nth i s]: the rows of [A] in the order [s]. *)
Definition mrows (s : list nat) (A : qmat) : qmat := fun i j => A (nth i s 0) j.
