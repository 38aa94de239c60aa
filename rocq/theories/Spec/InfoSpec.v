(** Mutual information of a table of frequencies, and the cells of a histogram. *)

From Coq Require Import List Arith Reals.
From Verif Require Import Spec.LagSpec.
Import ListNotations.
Open Scope R_scope.

(** The marginal frequencies of a table. *)
Definition row_freq (n : nat) (p : nat -> nat -> R) (i : nat) : R := total n (fun j => p i j).
Definition col_freq (n : nat) (p : nat -> nat -> R) (j : nat) : R := total n (fun i => p i j).
(** Entropy of frequencies and of a table. *)
Definition entropy1 (n : nat) (s : nat -> R) : R := - total n (fun i => s i * ln (s i)).
Definition entropy2 (n : nat) (p : nat -> nat -> R) : R := - total n (fun i => total n (fun j => p i j * ln (p i j))).
(** Mutual information: how far the table is from the product of its marginals (Kullback-Leibler). *)
Definition information (n : nat) (p : nat -> nat -> R) : R :=
  total n (fun i => total n (fun j => p i j * ln (p i j / (row_freq n p i * col_freq n p j)))).
(** A table of frequencies without 0. *)
Definition frequencies (n : nat) (p : nat -> nat -> R) : Prop := (forall i j, (i < n)%nat -> (j < n)%nat -> 0 < p i j) /\ total n (fun i => total n (fun j => p i j)) = 1.
(** The frequencies of a table of weights to each of which [eps] is added. *)
Definition regularised (n : nat) (g : nat -> nat -> R) (eps : R) (p : nat -> nat -> R) : Prop :=
  forall i j, p i j * total n (fun i => total n (fun j => g i j + eps)) = g i j + eps.
(** [v] is in cell [i] of [n] cells of equal width between [lo] and [hi]; the last cell contains [hi]. *)
Definition in_cell (n : nat) (lo hi : R) (i : nat) (v : R) : Prop :=
  (i < n)%nat /\ let w := (hi - lo) / INR n in lo + INR i * w <= v /\ (v < lo + (INR i + 1) * w \/ S i = n /\ v = hi).
(** The range of the values: from the smallest to the largest, or of width 1 around the value if there is only one. *)
Definition range_of (x : list R) (lo hi : R) : Prop :=
  x <> [] /\ exists a b, In a x /\ In b x /\ (forall v, In v x -> a <= v <= b) /\ (a < b /\ lo = a /\ hi = b \/ a = b /\ lo = a - 1 / 2 /\ hi = a + 1 / 2).
(** Exactly [n] members have a property. *)
Inductive exactly {A : Type} (P : A -> Prop) : list A -> nat -> Prop :=
| ex_nil : exactly P [] 0
| ex_yes : forall x l n, P x -> exactly P l n -> exactly P (x :: l) (S n)
| ex_no : forall x l n, ~ P x -> exactly P l n -> exactly P (x :: l) n.
