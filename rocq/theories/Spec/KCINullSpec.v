(** The spectral null distribution: a weighted sum of independent chi-squares with one degree of freedom. *)

From Coq Require Import List Arith Reals.
From Verif Require Import Model.LocalScore Spec.Scores Spec.CKCISpec.
Import ListNotations.
Open Scope nat_scope.

(** An expectation of the quantities that depend on a sequence of random numbers. *)
Definition expectation (E : ((nat -> R) -> R) -> R) : Prop :=
  (forall a b F G, E (fun f => a * F f + b * G f)%R = (a * E F + b * E G)%R) /\ E (fun _ => 1%R) = 1%R.
(** The first m of them have the means (1), variances (2) and covariances (0) of independent chi-squares. *)
Definition chi_squares (E : ((nat -> R) -> R) -> R) (m : nat) : Prop :=
  (forall k, k < m -> E (fun f => f k) = 1%R) /\
  forall k l, k < m -> l < m -> E (fun f => f k * f l)%R = if Nat.eqb k l then 3%R else 1%R.
Definition mean (E : ((nat -> R) -> R) -> R) (F : (nat -> R) -> R) : R := E F.
Definition variance (E : ((nat -> R) -> R) -> R) (F : (nat -> R) -> R) : R := E (fun f => Rsqr (F f - E F)).

(** The weighted sum whose distribution the null distribution is. *)
Definition mixture (ws : list R) (f : nat -> R) : R := sumRn (length ws) (fun k => nth k ws 0 * f k)%R.
(** The mean and the variance that the gamma approximation of the unconditional test has. *)
Definition gamma_mean (n : nat) (Kx Ky : rmat) : R := (sumRn n (fun i => Kx i i) * sumRn n (fun i => Ky i i) / INR n)%R.
Definition gamma_variance (n : nat) (Kx Ky : rmat) : R :=
  (2 * sumRn n (fun i => sumRn n (fun j => Rsqr (Kx i j))) * sumRn n (fun i => sumRn n (fun j => Rsqr (Ky i j))) / INR n / INR n)%R.

(** The numbers of [l] that exceed [t] times the largest. *)
Definition above_part (t : R) (l ws : list R) : Prop :=
  exists top, (In top l \/ l = []) /\ (forall x, In x l -> (x <= top)%R) /\ ws = filter (fun x => if Rlt_dec (t * top) x then true else false) l.
(** The products of the [m] largest eigenvalues of two matrices that exceed [t] times the largest product. *)
Definition eigenvalue_products (n m : nat) (t : R) (Kx Ky : rmat) (ws : list R) : Prop :=
  exists wx Vx wy Vy, eigendecomposition n Kx wx Vx /\ eigendecomposition n Ky wy Vy /\
    (forall c c', c <= c' -> c' < n -> (wx c' <= wx c)%R) /\ (forall c c', c <= c' -> c' < n -> (wy c' <= wy c)%R) /\
    above_part t (map (fun p => wx (fst p) * wy (snd p))%R (list_prod (seq 0 m) (seq 0 m))) ws.
(** [K] = sum of w_c v_c v_c^T with orthonormal v_c and w_c > 0: the positive eigenvalues of a positive
    semidefinite matrix with their multiplicities, in descending order. *)
Definition positive_eigenvalues (n : nat) (K : rmat) (ws : list R) : Prop :=
  exists V : rmat, (forall c, c < length ws -> (0 < nth c ws 0)%R) /\
    (forall c c', c <= c' -> c' < length ws -> (nth c' ws 0 <= nth c ws 0)%R) /\
    (forall c c', c < length ws -> c' < length ws -> sumRn n (fun i => V i c * V i c')%R = if Nat.eqb c c' then 1%R else 0%R) /\
    forall i j, i < n -> j < n -> K i j = sumRn (length ws) (fun c => nth c ws 0 * V i c * V j c)%R.
(** The weights of the conditional test: eigenvalues of the entrywise product of the dominant parts of
    the residual kernels. *)
Definition conditional_weights (n : nat) (t : R) (Kx Ky Kzx Kzy : rmat) (ex ey : R) (s : R) (ws : list R) : Prop :=
  exists Rx Ry A B ws0, residual_maker n Kzx ex Rx /\ residual_maker n Kzy ey Ry /\
    s = sumRn n (fun i => sumRn n (fun j => sandwich n Rx Kx i j * sandwich n Ry Ky i j))%R /\
    dominant_part n t (sandwich n Rx Kx) A /\ dominant_part n t (sandwich n Ry Ky) B /\
    positive_eigenvalues n (fun i j => A i j * B i j)%R ws0 /\ above_part t ws0 ws.

(** [p] is the proportion of the [N] cases in which [P] holds. *)
Definition proportion (N : nat) (P : nat -> Prop) (p : R) : Prop :=
  exists l, NoDup l /\ (forall j, In j l <-> j < N /\ P j) /\ p = (INR (length l) / INR N)%R.
