(** Cross-validated likelihood of a kernel ridge regression, in terms of features,
    weights, residuals and their covariance. *)

From Coq Require Import List Arith Permutation Reals.
From Verif Require Import Model.LocalScore Spec.Scores Spec.KernelSpec.
Import ListNotations.
Open Scope nat_scope.

(** [L] is lower triangular with a positive diagonal and [L L^T = A]. *)
Definition triangular_factor (n : nat) (A L : rmat) : Prop :=
  (forall i j, i < n -> j < n -> i < j -> L i j = 0%R) /\
  (forall i, i < n -> (0 < L i i)%R) /\
  (forall i j, i < n -> j < n -> sumRn n (fun k => L i k * L j k)%R = A i j).

(** A function that inverts every upper triangular matrix without zeros on the diagonal. *)
Definition inverts_triangular (inv : nat -> rmat -> rmat) : Prop :=
  forall n U, (forall i j, i < n -> j < n -> j < i -> U i j = 0%R) -> (forall i, i < n -> U i i <> 0%R) -> inverse_of n U (inv n U).

(* ---------- the kernels ---------- *)
(** The Gaussian kernel exp (- |x - y|^2 / (s m)), where m is the median of the squared
    distances. *)
Definition scaled_heuristic (s : R) (n d : nat) (X K : rmat) : Prop :=
  exists m, is_median (distances n d X) m /\ forall i j, i < n -> j < n -> K i j = exp (- squared_distance d X i j / (s * m))%R.
(** The columns of one variable. *)
Definition columns (data : rmat) (cols : list nat) : rmat := fun r c => data r (nth c cols 0).
(** The kernel of a variable: s is 4 for GeneralCVScore, 9 times the number of columns for
    MultiCVScore. *)
Definition variable_kernel (multi : bool) (n : nat) (data : rmat) (cols : list nat) (K : rmat) : Prop :=
  scaled_heuristic (if multi then 9 * INR (length cols) else 4)%R n (length cols) (columns data cols) K.
(** The kernel of several variables: the product. *)
Fixpoint product (l : list nat) (f : nat -> R) : R := match l with [] => 1%R | p :: r => (f p * product r f)%R end.
Definition joint_kernel (multi : bool) (n : nat) (data : rmat) (label : nat -> list nat) (l : list nat) (K : rmat) : Prop :=
  exists Ks, (forall p, In p l -> variable_kernel multi n data (label p) (Ks p)) /\
    forall i j, i < n -> j < n -> K i j = product l (fun p => Ks p i j).

(* ---------- the rounds ---------- *)
(** Sample [t] is validated in round [t / (T / k)], the samples that are left over in the
    last one. *)
Definition round_of (T k t : nat) : nat := Nat.min (t / (T / k)) (k - 1).
Definition validated (T k kk : nat) : list nat := filter (fun t => Nat.eqb (round_of T k t) kk) (seq 0 T).
Definition training (T k kk : nat) : list nat := filter (fun t => negb (Nat.eqb (round_of T k t) kk)) (seq 0 T).

(* ---------- regression in feature space ---------- *)
(** [phi] are features whose inner products are the centred kernel [K]. *)
Definition features (n : nat) (K : rmat) (d : nat) (phi : nat -> nat -> R) : Prop :=
  forall a b, a < n -> b < n -> doubly_centered n K a b = sumRn d (fun c => phi a c * phi b c)%R.
(** Weights of the training samples in the prediction for sample [t]: the ridge equations
    with the parameter [lambda] times the number of training samples.  Without parents the
    prediction is 0. *)
Definition ridge_weights (n : nat) (P : option rmat) (lambda : R) (tr : list nat) (t : nat) (w : nat -> R) : Prop :=
  match P with
  | None => forall a, In a tr -> w a = 0%R
  | Some K => forall b, In b tr ->
      (sumR tr (fun a => doubly_centered n K b a * w a) + INR (length tr) * lambda * w b = doubly_centered n K b t)%R
  end.
(** What the prediction leaves of the features of sample [t]. *)
Definition residual (phi : nat -> nat -> R) (tr : list nat) (w : nat -> nat -> R) (t c : nat) : R :=
  (phi t c - sumR tr (fun a => w t a * phi a c))%R.
(** The covariance of the residuals of the training samples, plus [g] times the identity. *)
Definition residual_covariance (g : R) (tr : list nat) (r : nat -> nat -> R) (c c' : nat) : R :=
  ((if Nat.eqb c c' then g else 0) + sumR tr (fun a => r a c * r a c') / INR (length tr))%R.
(** The identity plus the inner products of the residuals of the training samples, which has
    the determinant of that covariance up to a power of [g]. *)
Definition residual_products (g : R) (d : nat) (tr : list nat) (r : nat -> nat -> R) (a b : nat) : R :=
  ((if Nat.eqb a b then 1 else 0) + sumRn d (fun c => r (nth a tr 0%nat) c * r (nth b tr 0%nat) c) / (g * INR (length tr)))%R.

(** The pieces of one round: residuals, solutions of (covariance) v = r for the validated
    samples, and the triangular factor of the products. *)
Record round_data : Type := mkRound { round_weights : nat -> nat -> R; round_solution : nat -> nat -> R; round_factor : rmat }.
Definition round_spec (n : nat) (P : option rmat) (lambda g : R) (d : nat) (phi : nat -> nat -> R) (te tr : list nat) (D : round_data) : Prop :=
  let r := residual phi tr (round_weights D) in
  (forall t, In t te \/ In t tr -> ridge_weights n P lambda tr t (round_weights D t)) /\
  (forall t c, In t te -> c < d -> sumRn d (fun c' => residual_covariance g tr r c c' * round_solution D t c')%R = r t c) /\
  triangular_factor (length tr) (residual_products g d tr r) (round_factor D).
(** The term of one round: with nv validated samples half of
    nv^2 log (2 pi) + nv (log of the product of the diagonal of the factor, that is half of
    the log-determinant) + the squared Mahalanobis lengths of the residuals. *)
Definition round_value (d : nat) (phi : nat -> nat -> R) (te tr : list nat) (D : round_data) : R :=
  let nv := INR (length te) in
  let r := residual phi tr (round_weights D) in
  ((nv * nv * ln (2 * PI) + nv * sumRn (length tr) (fun a => ln (round_factor D a a)) + sumR te (fun t => sumRn d (fun c => r t c * round_solution D t c))) / 2)%R.

(** [s] is the cross-validated score of a variable with kernel [K] given parents with joint
    kernel [P]. *)
Definition cross_validated (T k : nat) (lambda g : R) (K : rmat) (P : option rmat) (s : R) : Prop :=
  exists d phi (D : nat -> round_data), features T K d phi /\
    (forall kk, kk < k -> round_spec T P lambda g d phi (validated T k kk) (training T k kk) (D kk)) /\
    s = (- (sumRn k (fun kk => round_value d phi (validated T k kk) (training T k kk) (D kk)) / INR k))%R.
(** The score of variable [i] given [parents]. *)
Definition scored (multi : bool) (T k : nat) (lambda g : R) (data : rmat) (label : nat -> list nat) (i : nat) (parents : list nat) (s : R) : Prop :=
  exists K P, variable_kernel multi T data (label i) K /\
    match parents with
    | [] => P = None
    | _ => exists KP, P = Some KP /\ joint_kernel multi T data label parents KP
    end /\ cross_validated T k lambda g K P s.

(** The same with the whole logarithm of the determinant, as in the log-likelihood of the
    normal distribution; the determinant of [L L^T] is the square of the product of the
    diagonal. *)
Definition log_determinant (n : nat) (L : rmat) : R := sumRn n (fun a => 2 * ln (L a a))%R.
Definition likelihood_value (d : nat) (phi : nat -> nat -> R) (te tr : list nat) (D : round_data) : R :=
  let nv := INR (length te) in
  let r := residual phi tr (round_weights D) in
  ((nv * nv * ln (2 * PI) + nv * log_determinant (length tr) (round_factor D) + sumR te (fun t => sumRn d (fun c => r t c * round_solution D t c))) / 2)%R.
Definition log_likelihood (multi : bool) (T k : nat) (lambda g : R) (data : rmat) (label : nat -> list nat) (i : nat) (parents : list nat) (s : R) : Prop :=
  exists K P d phi (D : nat -> round_data), variable_kernel multi T data (label i) K /\
    match parents with
    | [] => P = None
    | _ => exists KP, P = Some KP /\ joint_kernel multi T data label parents KP
    end /\
    features T K d phi /\
    (forall kk, kk < k -> round_spec T P lambda g d phi (validated T k kk) (training T k kk) (D kk)) /\
    s = (- (sumRn k (fun kk => likelihood_value d phi (validated T k kk) (training T k kk) (D kk)) / INR k))%R.
