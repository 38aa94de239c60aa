(** The matrix exponential, independent of the code. *)

From Coq Require Import List Arith Reals.
From Verif Require Import Model.LocalScore Spec.Scores.
Import ListNotations.
Open Scope nat_scope.

(** Powers of a matrix, and the first terms of its exponential series. *)
Fixpoint power (n : nat) (A : rmat) (k : nat) : rmat :=
  match k with
  | O => fun i j => if Nat.eqb i j then 1%R else 0%R
  | S k' => fun i j => sumRn n (fun a => A i a * power n A k' a j)%R
  end.
(** The sum of c_k A^k for k below the length of the list. *)
Definition polynomial (n : nat) (c : list R) (A : rmat) : rmat := fun i j => sumRn (length c) (fun k => nth k c 0 * power n A k i j)%R.
(** The sum of A^k / k! for k = 0 .. d. *)
Definition truncated (n d : nat) (A : rmat) : rmat := fun i j => sumRn (S d) (fun k => power n A k i j / INR (fact k))%R.
(** E is the exponential of A: the limit of the truncated series. *)
Definition is_exp (n : nat) (A E : rmat) : Prop := forall i j, i < n -> j < n -> Un_cv (fun d => truncated n d A i j) (E i j).

Definition same_matrix (n : nat) (A B : rmat) : Prop := forall i j, i < n -> j < n -> A i j = B i j.
Definition absolute (A : rmat) : rmat := fun i j => Rabs (A i j).
(** All row sums of absolute values are at most b: the maximum norm of the operator. *)
Definition norm_at_most (n : nat) (A : rmat) (b : R) : Prop := forall i, i < n -> (sumRn n (fun j => Rabs (A i j)) <= b)%R.
(** The sum of the absolute values of all entries; the Frobenius norm. *)
Definition entry_sum (n : nat) (A : rmat) : R := sumRn n (fun i => sumRn n (fun j => Rabs (A i j))).
Definition frobenius (n : nat) (A : rmat) : R := sqrt (sumRn n (fun i => sumRn n (fun j => A i j * A i j)))%R.
Definition difference (A B : rmat) : rmat := fun i j => (A i j - B i j)%R.
Definition inner (n : nat) (A B : rmat) : R := sumRn n (fun i => sumRn n (fun j => A i j * B i j))%R.
Definition transposed (A : rmat) : rmat := fun i j => A j i.
(** The list idx names each place of k once, in ascending order of k. *)
Definition sorts (idx k : list nat) : Prop :=
  NoDup idx /\ (forall p, In p idx <-> p < length k) /\ forall a b, a <= b < length k -> nth (nth a idx 0) k 0 <= nth (nth b idx 0) k 0.
(** D is the derivative of f at A in the direction E, entry by entry. *)
Definition directional (n : nat) (f : rmat -> rmat) (A E D : rmat) : Prop := forall i j, i < n -> j < n ->
  derivable_pt_lim (fun t => f (fun a b => A a b + t * E a b)%R i j) 0 (D i j).
