(** What is meant by a matrix with columns of length one, by a bound on its condition number and by a percentile. *)

From Coq Require Import List Arith ZArith Reals Permutation Sorted.
Import ListNotations.
Open Scope R_scope.

(** The sum of [f i] for [i < n]. *)
Definition total (n : nat) (f : nat -> R) : R := fold_right Rplus 0 (map f (seq 0 n)).
(** The inner product of two columns. *)
Definition inner (n : nat) (A : nat -> nat -> R) (j k : nat) : R := total n (fun i => A i j * A i k).
(** The squared length of a vector, and the vector A x. *)
Definition len2 (n : nat) (x : nat -> R) : R := total n (fun i => x i * x i).
Definition times (n : nat) (A : nat -> nat -> R) (x : nat -> R) : nat -> R := fun i => total n (fun j => A i j * x j).
(** The condition number of [A] is at most [K]: no two vectors of the same length are stretched with a ratio above [K]. *)
Definition condition_le (n : nat) (A : nat -> nat -> R) (K : R) : Prop :=
  0 <= K /\ forall x y, len2 n x = len2 n y -> len2 n (times n A x) <= K * K * len2 n (times n A y).
(** [B] is [A] with every column divided by its length. *)
Definition unit_columns_of (n : nat) (A B : nat -> nat -> R) : Prop :=
  forall j, (j < n)%nat -> inner n B j j = 1 /\ exists s, 0 < s /\ forall i, A i j = s * B i j.
(** No column is 0. *)
Definition no_zero_column (n : nat) (A : nat -> nat -> R) : Prop := forall j, (j < n)%nat -> exists i, (i < n)%nat /\ A i j <> 0.
(** The percentile [q]: at place [q] percent of the way from the first to the last of the values in ascending order, on the line through the two
    neighbours of that place. *)
Definition is_percentile (l : list R) (q : Z) (v : R) : Prop :=
  exists s k, Permutation s l /\ Sorted Rle s /\ (k < length s)%nat /\
    let place := INR (length l - 1) * IZR q / 100 in
    INR k <= place < INR k + 1 /\
    (place = INR k /\ v = nth k s 0 \/ (S k < length s)%nat /\ v = nth k s 0 + (place - INR k) * (nth (S k) s 0 - nth k s 0)).
(** How many values have a property. *)
Inductive at_least (P : R -> Prop) : list R -> nat -> Prop :=
| al_nil : at_least P [] 0
| al_yes : forall x l n, P x -> at_least P l n -> at_least P (x :: l) (S n)
| al_no : forall x l n, at_least P l n -> at_least P (x :: l) n.
(** The places of the draws that are kept: each is the first at or after the one before it that meets [ok]. *)
Inductive kept (ok : nat -> Prop) : nat -> list nat -> Prop :=
| kept_nil : forall p, kept ok p []
| kept_cons : forall p k l, (p <= k)%nat -> ok k -> (forall i, (p <= i < k)%nat -> ~ ok i) -> kept ok (S k) l -> kept ok p (k :: l).
