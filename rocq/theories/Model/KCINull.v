(** Model of the spectral null distributions of the class KCI
    (/repo/cdmir/utils/independence/kernel_based.py, [approximate_mode=False]) on real numbers.
    See Model/CKCI.v for the statistic and the conventions.  [draws j k] is the chi-square number
    of component k in simulated value j ([f_rand[k, j]]). *)

From Coq Require Import List Arith Bool Reals.
From Verif Require Import Model.Py Model.LocalScore Model.KCI Model.HSIC Model.Expm Model.CVScore Model.CKCI.
Import ListNotations.
Open Scope nat_scope.
Open Scope res_scope.

(** kernel_based.py:122, 296: [a.max()] of an array that is not empty. *)
Definition list_max (l : list R) : R := fold_right Rmax (hd 0%R l) l.
(** kernel_based.py:122, 296: [a[a > a.max() * threshold]]; the maximum of no number is an error. *)
Definition keep_above (t : R) (l : list R) : res (list R) :=
  match l with
  | [] => Err ValueError
  | _ => Ok (filter (fun x => if Rlt_dec (list_max l * t) x then true else false) l)
  end.
(** kernel_based.py:124, 299: one entry of [weights.T.dot(f_rand)]. *)
Definition weighted (ws : list R) (f : nat -> R) : R := rsumn (length ws) (fun k => nth k ws 0 * f k)%R.
(** kernel_based.py:76, 171: [sum(null > test_stat) / float(sample_size)] for 1 or more values. *)
Definition share (N : nat) (null : nat -> R) (test_stat : R) : R :=
  (INR (length (filter (fun j => if Rlt_dec test_stat (null j) then true else false) (seq 0 N))) / INR N)%R.

(** kernel_based.py:110-122 (null_sample_spectral_from_centralized_kernel_matrix): the weights.
    [np_int]: this numpy still has [np.int] (removed in 1.24). *)
Definition product_weights (eigs : nat -> rmat -> (nat -> R) * rmat) (np_int : bool) (t : R) (n : nat) (Kxc Kyc : rmat) : res (list R) :=
  num_eig <-? (if Nat.ltb 1000 n then if np_int then Ok (n / 2) else Err AttributeError else Ok n) ;;
  let lambdax := fst (eigs n Kxc) in
  let lambday := fst (eigs n Kyc) in
  keep_above t (flat_map (fun a => map (fun b => lambdax a * lambday b)%R (seq 0 num_eig)) (seq 0 num_eig)).
(** kernel_based.py:66-77 with [approximate_mode=False]: p-value and statistic.  One simulated value
    alone: [null_dstr.squeeze()] has no dimension and [sum] raises TypeError; none: division by 0. *)
Definition unconditional_spectral (eigs : nat -> rmat -> (nat -> R) * rmat) (np_int : bool) (perm : nat -> nat -> nat)
    (draws : nat -> nat -> R) (N : nat) (t : R) (n : nat) (data : rmat) (kernel_x kernel_y : kern) (x_ids y_ids : list nat)
    : res (option (R * R)) :=
  let data_x := zscore n (select data x_ids) in
  let data_y := zscore n (select data y_ids) in
  match kernel_matrix (perm 0) kernel_x n (length x_ids) data_x, kernel_matrix (perm 1) kernel_y n (length y_ids) data_y with
  | Some Kx, Some Ky =>
      let Kx := center_real n Kx in
      let Ky := center_real n Ky in
      let test_stat := sum_prod n Kx Ky in
      ws <-? product_weights eigs np_int t n Kx Ky ;;
      if Nat.eqb N 0 then Err ZeroDivisionError
      else if Nat.eqb N 1 then Err TypeError
      else Ok (Some (share N (fun j => weighted ws (draws j) / INR n)%R test_stat, test_stat))
  | _, _ => Ok None
  end.

(** kernel_based.py:291-296 (null_sample_spectral): the weights; the slice to [min(T, size_u)] takes
    all eigenvalues of the matrix. *)
Definition product_eigenvalues (eigs : nat -> rmat -> (nat -> R) * rmat) (t : R) (uu_prod : rmat) (size : nat) : res (list R) :=
  keep_above t (map (fst (eigs size uu_prod)) (seq 0 size)).
(** kernel_based.py:161-172 with [approximate_mode=False]. *)
Definition conditional_spectral (pinv : nat -> rmat -> rmat) (eigs : nat -> rmat -> (nat -> R) * rmat)
    (perm : nat -> nat -> nat) (gp : R -> nat -> rmat -> rmat -> rmat * R) (draws : nat -> nat -> R) (N : nat)
    (s : settings) (n : nat) (data : rmat) (x_ids y_ids z_ids : list nat) : res (option (R * R)) :=
  m <-? kernel_matrices perm eigs gp s n data x_ids y_ids z_ids ;;
  match m with
  | None => Ok None
  | Some (Kx, Ky, Kzx, Kzy, ex, ey) =>
      let '(test_stat, KxR, KyR) :=
        kci_v_statistic pinv (match kernel_z s with None => true | Some _ => false end) n Kx Ky Kzx Kzy ex ey in
      let '(uu_prod, size) := get_uuprod eigs n (threshold s) KxR KyR in
      ws <-? product_eigenvalues eigs (threshold s) uu_prod size ;;
      if Nat.eqb N 0 then Err ZeroDivisionError
      else Ok (Some (share N (fun j => weighted ws (draws j)) test_stat, test_stat))
  end.
