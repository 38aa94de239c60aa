(** Positive kernels, and the Hilbert-Schmidt criterion as it is printed in the
    literature. *)

From Coq Require Import List Arith Permutation Reals.
From Verif Require Import Model.LocalScore Spec.Scores.
Import ListNotations.
Open Scope nat_scope.

Definition symmetric_matrix (n : nat) (K : rmat) : Prop := forall i j, i < n -> j < n -> K i j = K j i.
(** Every quadratic form is nonnegative. *)
Definition psd (n : nat) (K : rmat) : Prop := forall v, (0 <= sumRn n (fun i => sumRn n (fun j => v i * v j * K i j)))%R.

(** The biased estimate with three sums (Gretton et al. 2005):
    1/n^2 sum K_ij L_ij + 1/n^4 sum K_ij sum L_qr - 2/n^3 sum K_ij L_iq. *)
Definition hsic_biased (n : nat) (K L : rmat) : R :=
  let N := INR n in
  (sumRn n (fun i => sumRn n (fun j => K i j * L i j)) / (N * N)
   + sumRn n (fun i => sumRn n (fun j => K i j)) * sumRn n (fun i => sumRn n (fun j => L i j)) / (N * N * N * N)
   - 2 * sumRn n (fun i => sumRn n (fun j => sumRn n (fun q => K i j * L i q))) / (N * N * N))%R.

(** The unbiased estimate: the mean over all quadruples of different samples. *)
Definition different4 (i j q r : nat) : bool :=
  negb (Nat.eqb i j || Nat.eqb i q || Nat.eqb i r || Nat.eqb j q || Nat.eqb j r || Nat.eqb q r).
Definition hsic_unbiased (n : nat) (K L : rmat) : R :=
  (sumRn n (fun i => sumRn n (fun j => sumRn n (fun q => sumRn n (fun r =>
     if different4 i j q r then K i j * (L i j + L q r - 2 * L i q) else 0))))
   / (INR n * (INR n - 1) * (INR n - 2) * (INR n - 3)))%R.

(** One factor for all columns, and shifts: distances change by a factor only. *)
Definition similar_units (n d : nat) (X X' : rmat) : Prop :=
  exists (a : R) (b : nat -> R), a <> 0%R /\ forall i c, i < n -> c < d -> X' i c = (a * X i c + b c)%R.

(** Two rows differ. *)
Definition varies (n d : nat) (X : rmat) : Prop := exists i j c, i < n /\ j < n /\ c < d /\ X i c <> X j c.

(** Textbook median: the mean of the lower and the upper one. *)
Definition below (x : R) (l : list R) : nat := length (filter (fun y => if Rlt_dec y x then true else false) l).
Definition above (x : R) (l : list R) : nat := length (filter (fun y => if Rlt_dec x y then true else false) l).
Definition lower_median (l : list R) (m : R) : Prop := In m l /\ 2 * below m l < length l /\ length l <= 2 * (length l - above m l).
Definition upper_median (l : list R) (m : R) : Prop := In m l /\ 2 * above m l < length l /\ length l <= 2 * (length l - below m l).
Definition is_median (l : list R) (m : R) : Prop := exists lo hi, lower_median l lo /\ upper_median l hi /\ m = ((lo + hi) / 2)%R.

(** The squared distances between different points, one for each pair of samples. *)
Definition squared_distance (d : nat) (X : rmat) (i j : nat) : R := sumRn d (fun c => (X i c - X j c) * (X i c - X j c))%R.
Definition pairs (n : nat) : list (nat * nat) := filter (fun p => Nat.ltb (fst p) (snd p)) (list_prod (seq 0 n) (seq 0 n)).
Definition distances (n d : nat) (X : rmat) : list R :=
  filter (fun x => if Rlt_dec 0 x then true else false) (map (fun p => squared_distance d X (fst p) (snd p)) (pairs n)).

(** The Gaussian kernel with the median heuristic: exp (- |x - y|^2 / median). *)
Definition median_heuristic (n d : nat) (X K : rmat) : Prop :=
  exists m, is_median (distances n d X) m /\ forall i j, i < n -> j < n -> K i j = exp (- squared_distance d X i j / m)%R.

(** The null distribution of n times the biased estimate is approximated by a gamma
    distribution with this mean and variance (Gretton et al. 2007), both times powers
    of n; all means are over pairs of different samples. *)
Definition pair_mean (n : nat) (f : nat -> nat -> R) : R :=
  (sumRn n (fun i => sumRn n (fun j => if Nat.eqb i j then 0 else f i j)) / (INR n * (INR n - 1)))%R.
Definition doubly_centered (n : nat) (K : rmat) (i j : nat) : R :=
  (K i j - sumRn n (fun a => K i a) / INR n - sumRn n (fun a => K a j) / INR n + sumRn n (fun a => sumRn n (fun b => K a b)) / (INR n * INR n))%R.
Definition null_mean (n : nat) (K L : rmat) : R := ((1 - pair_mean n K) * (1 - pair_mean n L) / INR n)%R.
Definition null_variance (n : nat) (K L : rmat) : R :=
  (2 * (INR n - 4) * (INR n - 5) / (INR n * (INR n - 1) * (INR n - 2) * (INR n - 3)) *
   pair_mean n (fun i j => Rsqr (doubly_centered n K i j * doubly_centered n L i j)))%R.
