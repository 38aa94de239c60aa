(** Marginal likelihood of a Gaussian process regression of kernel features, independent of
    the code. *)

From Coq Require Import List Arith Reals.
From Verif Require Import Model.LocalScore Spec.Scores Spec.KernelSpec Spec.CVSpec.
Import ListNotations.
Open Scope nat_scope.

(** A function that inverts triangular factors and their transposes. *)
Definition inverts_factors (inv : nat -> rmat -> rmat) : Prop :=
  forall n A L, triangular_factor n A L -> inverse_of n L (inv n L) /\ inverse_of n (fun i j => L j i) (inv n (fun i j => L j i)).

(** The log of the density of the normal distribution with covariance [K] at each of the [m]
    columns of [y], summed; the determinant is the square of the product of the diagonal of
    the triangular factor. *)
Definition log_marginal (n : nat) (K : rmat) (m : nat) (y : rmat) (s : R) : Prop :=
  exists L alpha, triangular_factor n K L /\ (forall a c, a < n -> c < m -> sumRn n (fun b => K a b * alpha b c)%R = y a c) /\
    s = sumRn m (fun c => - (sumRn n (fun a => y a c * alpha a c) / 2) - sumRn n (fun a => 2 * ln (L a a)) / 2 - INR n / 2 * ln (2 * PI))%R.

(** [lam] and the columns of [V] are the [N] leading eigenvalues and orthonormal eigenvectors
    of [K]. *)
Definition leading_eigenpairs (n N : nat) (K : rmat) (lam : nat -> R) (V : rmat) : Prop :=
  (forall a c, a < n -> c < N -> sumRn n (fun b => K a b * V b c)%R = (lam c * V a c)%R) /\
  (forall c c', c < N -> c' < N -> sumRn n (fun a => V a c * V a c')%R = if Nat.eqb c c' then 1%R else 0%R) /\
  (forall c c', c <= c' -> c' < N -> (lam c' <= lam c)%R) /\
  (forall c v, c < N -> (forall c', c' < c -> sumRn n (fun a => v a * V a c')%R = 0%R) ->
     (sumRn n (fun a => sumRn n (fun b => v a * v b * K a b)) <= lam c * sumRn n (fun a => v a * v a))%R).

(** The regressed features of the kernel [K]: the leading eigenvectors of the centred kernel
    up to the first eigenvalue below 1e-5 times the largest, scaled by
    2 sqrt (n lambda_c / lambda_0). *)
Definition targets (n : nat) (K : rmat) (m : nat) (y : rmat) : Prop :=
  exists lam V, leading_eigenpairs n (Nat.min 400 (n / 4)) (doubly_centered n K) lam V /\ 0 < m <= Nat.min 400 (n / 4) /\
    (forall c, c < Nat.min 400 (n / 4) -> (c < m <-> (lam 0%nat / 100000 < lam c)%R)) /\
    forall a c, a < n -> c < m -> y a c = (2 * sqrt (INR n * (lam c / lam 0%nat)) * V a c)%R.

(** The covariance of the process: the product of the kernels of the parents, with widths
    from the medians of the distances, plus noise. *)
Definition covariance (n : nat) (data : rmat) (label : nat -> list nat) (parents : list nat) (noise : R) (K : rmat) : Prop :=
  exists Ks, (forall p, In p parents -> scaled_heuristic (25 / 4) n (length (label p)) (columns data (label p)) (Ks p)) /\
    forall a b, a < n -> b < n -> K a b = (product parents (fun p => Ks p a b) + if Nat.eqb a b then noise else 0)%R.

(** A function that returns the leading eigenpairs of every matrix with the entries of the
    centred kernel of the data. *)
Definition decomposes (eigs : nat -> rmat -> (nat -> R) * rmat) (n d : nat) (X : rmat) : Prop :=
  forall K H, scaled_heuristic (25 / 4) n d X K -> (forall a b, a < n -> b < n -> H a b = doubly_centered n K a b) ->
    leading_eigenpairs n (Nat.min 400 (n / 4)) H (fst (eigs (Nat.min 400 (n / 4)) H)) (snd (eigs (Nat.min 400 (n / 4)) H)).
