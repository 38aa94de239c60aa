(** The kernel-based conditional independence test of Zhang, Peters, Janzing and Schoelkopf (2011). *)

From Coq Require Import List Arith Reals.
From Verif Require Import Model.LocalScore Model.CKCI Spec.Scores Spec.KernelSpec Spec.CVSpec.
Import ListNotations.
Open Scope nat_scope.

(* ---------- data ---------- *)
Definition mean_of (n : nat) (X : rmat) (c : nat) : R := (sumRn n (fun i => X i c) / INR n)%R.
(** Columns with mean 0 and unbiased variance 1; a constant column becomes 0. *)
Definition standardised (n d : nat) (X Z : rmat) : Prop :=
  forall c, c < d ->
    ((forall i j, i < n -> j < n -> X i c = X j c) -> forall i, i < n -> Z i c = 0%R) /\
    ((exists i j, i < n /\ j < n /\ X i c <> X j c) ->
     forall i, i < n -> Z i c = ((X i c - mean_of n X c) / sqrt (sumRn n (fun k => Rsqr (X k c - mean_of n X c)) / (INR n - 1)))%R).
(** The columns of x, then those of z divided by 2. *)
Definition joined (n dx dz : nat) (X Z XZ : rmat) : Prop :=
  forall i, i < n -> (forall c, c < dx -> XZ i c = X i c) /\ forall c, c < dz -> XZ i (dx + c) = (Z i c / 2)%R.

(* ---------- kernels ---------- *)
(** The distances between different points, once for each ordered pair of m rows. *)
Definition positive_distances (m d : nat) (X : rmat) : list R :=
  filter (fun x => if Rlt_dec 0 x then true else false)
    (map (fun p => sqrt (squared_distance d X (fst p) (snd p))) (list_prod (seq 0 m) (seq 0 m))).
(** What the strategies promise; beyond 1000 samples the median is that of 1000 of them. *)
Definition width_of (rule : width_rule) (n d : nat) (X : rmat) (w : R) : Prop :=
  match rule with
  | Manual w' => w = w'
  | MedianRule => exists (pick : nat -> nat) m, (n <= 1000 -> forall i, pick i = i) /\
      is_median (positive_distances (Nat.min n 1000) d (fun i => X (pick i))) m /\ w = (/ (2 * (m * m)))%R
  | EmpiricalKCI => exists s, (n < 200 /\ s = (12 / 10)%R \/ 200 <= n < 1200 /\ s = (7 / 10)%R \/ 1200 <= n /\ s = (4 / 10)%R) /\ w = (/ (s * s * INR d))%R
  | EmpiricalHSIC => exists s, (n < 200 /\ s = (8 / 10)%R \/ 200 <= n < 1200 /\ s = (5 / 10)%R \/ 1200 <= n /\ s = (3 / 10)%R) /\ w = (INR d / (s * s))%R
  end.
(** [K] is the matrix of the kernel at the rows of [X]. *)
Definition is_kernel (k : kern) (n d : nat) (X K : rmat) : Prop :=
  match k with
  | Linear => forall i j, i < n -> j < n -> K i j = sumRn d (fun c => X i c * X j c)%R
  | Polynomial degree const => forall i j, i < n -> j < n -> K i j = ((const + sumRn d (fun c => X i c * X j c)) ^ degree)%R
  | Gaussian rule => exists w, width_of rule n d X w /\ forall i j, i < n -> j < n -> K i j = exp (- (w / 2 * squared_distance d X i j))%R
  end.
(** Kernels that are positive semidefinite: constants and widths are not negative. *)
Definition positive_kernel (k : kern) : Prop :=
  match k with Polynomial _ const => (0 <= const)%R | Gaussian (Manual w) => (0 <= w)%R | _ => True end.

(* ---------- regression ---------- *)
(** [Rm] maps every vector to the residual of its kernel ridge regression with kernel matrix [K] and
    penalty [e]: the coefficients solve (K + e I) a = v, and the residual is v - K a. *)
Definition residual_maker (n : nat) (K : rmat) (e : R) (Rm : rmat) : Prop :=
  forall v : nat -> R, exists a : nat -> R,
    (forall i, i < n -> (sumRn n (fun j => K i j * a j) + e * a i)%R = v i) /\
    forall i, i < n -> sumRn n (fun j => Rm i j * v j)%R = (v i - sumRn n (fun j => K i j * a j))%R.
Definition sandwich (n : nat) (Rm K : rmat) : rmat := fun i j => sumRn n (fun a => sumRn n (fun b => Rm i a * K a b * Rm b j))%R.

(* ---------- the null distribution ---------- *)
(** K = V diag(w) V^T with V orthogonal. *)
Definition eigendecomposition (n : nat) (K : rmat) (w : nat -> R) (V : rmat) : Prop :=
  (forall i j, i < n -> j < n -> K i j = sumRn n (fun c => w c * V i c * V j c)%R) /\
  (forall c c', c < n -> c' < n -> sumRn n (fun i => V i c * V i c')%R = if Nat.eqb c c' then 1%R else 0%R) /\
  (forall i j, i < n -> j < n -> sumRn n (fun c => V i c * V j c)%R = if Nat.eqb i j then 1%R else 0%R).
(** The part of [K] that belongs to the eigenvalues above [t] times the largest. *)
Definition dominant_part (n : nat) (t : R) (K K' : rmat) : Prop :=
  exists w V top, eigendecomposition n K w V /\
    (exists c, c < n /\ w c = top) /\ (forall c, c < n -> (w c <= top)%R) /\
    forall i j, i < n -> j < n -> K' i j = sumRn n (fun c => if Rlt_dec (t * top) (w c) then w c * V i c * V j c else 0)%R.
(** The moments of the weighted sum of chi-squares that the paper derives. *)
Definition cond_mean (n : nat) (Kx Ky : rmat) : R := sumRn n (fun i => Kx i i * Ky i i)%R.
Definition cond_variance (n : nat) (Kx Ky : rmat) : R := (2 * sumRn n (fun i => sumRn n (fun j => Rsqr (Kx i j * Ky i j))))%R.

(** The answer of the test for centred kernel matrices: the statistic is the sum of the products of
    the residual kernels, and the p-value comes from the gamma distribution with the mean and the
    variance of their dominant parts; NaN if that mean is 0. *)
Definition kci_answer (gcdf : R -> R -> R -> R) (n : nat) (t : R) (Kx Ky Kzx Kzy : rmat) (ex ey : R) (p : option R) (s : R) : Prop :=
  exists Rx Ry A B, residual_maker n Kzx ex Rx /\ residual_maker n Kzy ey Ry /\
    s = sumRn n (fun i => sumRn n (fun j => sandwich n Rx Kx i j * sandwich n Ry Ky i j))%R /\
    dominant_part n t (sandwich n Rx Kx) A /\ dominant_part n t (sandwich n Ry Ky) B /\
    (cond_mean n A B = 0%R -> p = None) /\
    (cond_mean n A B <> 0%R ->
     p = Some (1 - gcdf s (Rsqr (cond_mean n A B) / cond_variance n A B) (cond_variance n A B / cond_mean n A B))%R).

(** What the Gaussian process is fitted to: the leading quarter (at most 400) of the eigenvectors of
    [K], up to the first eigenvalue not above [t] times the largest, scaled by 2 sqrt (n w_c / w_0). *)
Definition process_targets (n : nat) (t : R) (K : rmat) (m : nat) (y : rmat) : Prop :=
  exists w V, eigendecomposition n K w V /\ (forall c c', c <= c' -> c' < n -> (w c' <= w c)%R) /\
    0 < m <= Nat.min 400 (n / 4) /\ (forall c, c < Nat.min 400 (n / 4) -> (c < m <-> (t * w 0%nat < w c)%R)) /\
    forall i c, i < n -> c < m -> y i c = (2 * sqrt (INR n * (w c / w 0%nat)) * V i c)%R.

(* ---------- the external functions ---------- *)
(** numpy's pinv: the inverse, where there is one. *)
Definition inverts (pinv : nat -> rmat -> rmat) : Prop :=
  forall n A B, inverse_of n A B -> forall i j, i < n -> j < n -> pinv n A i j = B i j.
(** numpy's eigh for symmetric matrices, and a sort. *)
Definition eigensolver (eigs : nat -> rmat -> (nat -> R) * rmat) : Prop :=
  forall n A, symmetric_matrix n A -> eigendecomposition n A (fst (eigs n A)) (snd (eigs n A)) /\
    forall c c', c <= c' -> c' < n -> (fst (eigs n A) c' <= fst (eigs n A) c)%R.
(** scikit-learn's process: a positive kernel and positive noise. *)
Definition regressor (gp : R -> nat -> rmat -> rmat -> rmat * R) (n : nat) : Prop :=
  forall wz m vx Z, symmetric_matrix n (fst (gp wz m vx Z)) /\ psd n (fst (gp wz m vx Z)) /\ (0 < snd (gp wz m vx Z))%R.
