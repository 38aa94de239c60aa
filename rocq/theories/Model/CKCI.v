(** Model of the class KCI of /repo/cdmir/utils/independence/kernel_based.py on real numbers:
    the unconditional and the conditional test with the gamma approximation
    ([approximate_mode=True]), and of the kernels of /repo/cdmir/utils/kernel it uses, with
    the width strategies of gaussian.py.

    The kernel objects are fresh (what their caches do is C48), the column numbers are valid,
    and numbers are exact.  [pinv], [eigs] and [gp] are numpy's pinv, its eigh followed by a
    sort, and scikit-learn's Gaussian process.  [kernel_x] and [kernel_y] are different objects. *)

From Coq Require Import List Arith Bool Reals.
From Verif Require Import Model.Py Model.LocalScore Model.KCI Model.HSIC Model.Expm Model.CVScore.
Import ListNotations.
Open Scope nat_scope.
Open Scope res_scope.

(* ---------- kernels ---------- *)
(** gaussian.py:14-18 (WidthStrategyEnum); the width of a manual kernel is gaussian.py:23. *)
Inductive width_rule : Type := Manual (width : R) | MedianRule | EmpiricalKCI | EmpiricalHSIC.
(** linear.py:8, polynomial.py:8-12 (for a natural degree), gaussian.py:20-24. *)
Inductive kern : Type := Linear | Polynomial (degree : nat) (const : R) | Gaussian (rule : width_rule).

(** gaussian.py:75: [squareform(pdist(data_x, 'euclidean'))], row by row. *)
Definition all_distances (n d : nat) (X : rmat) : list R :=
  flat_map (fun i => map (fun j => sqrt (sq_dists d X i j)) (seq 0 n)) (seq 0 n).
(** gaussian.py:70-79 (__cal_kernel_width_by_median); [perm] is [permutation(n)].  [None] is
    the NaN of the median of no numbers. *)
Definition width_by_median (perm : nat -> nat) (n d : nat) (X : rmat) : option R :=
  let '(m, X) := if Nat.ltb 1000 n then (1000, fun i => X (perm i)) else (n, X) in
  match median (positives (all_distances m d X)) with
  | None => None
  | Some median_dist => let width := (sqrt 2 * median_dist)%R in Some (1 / (width * width))%R
  end.
(** gaussian.py:81-91 (__cal_kernel_width_by_empirical_kci). *)
Definition width_by_empirical_kci (n d : nat) : R :=
  let width := if Nat.ltb n 200 then 1.2%R else if Nat.ltb n 1200 then 0.7%R else 0.4%R in
  (1 / (width * width) / INR d)%R.
(** gaussian.py:93-103 (__cal_kernel_width_by_empirical_hsic). *)
Definition width_by_empirical_hsic (n d : nat) : R :=
  let width := if Nat.ltb n 200 then 0.8%R else if Nat.ltb n 1200 then 0.5%R else 0.3%R in
  (1 / (width * width) * INR d)%R.
(** gaussian.py:29-31, 51-68 (__update_kernel_width_by_width_strategy). *)
Definition kernel_width (perm : nat -> nat) (rule : width_rule) (n d : nat) (X : rmat) : option R :=
  match rule with
  | Manual w => Some w
  | MedianRule => width_by_median perm n d X
  | EmpiricalKCI => Some (width_by_empirical_kci n d)
  | EmpiricalHSIC => Some (width_by_empirical_hsic n d)
  end.

(** [kernel(data, data)] for n rows and d columns: linear.py:16-17, polynomial.py:15-16,
    gaussian.py:42-49.  [None] is a matrix of NaN. *)
Definition kernel_matrix (perm : nat -> nat) (k : kern) (n d : nat) (X : rmat) : option rmat :=
  match k with
  | Linear => Some (fun i j => rsumn d (fun c => X i c * X j c)%R)
  | Polynomial degree const => Some (fun i j => ((const + rsumn d (fun c => X i c * X j c)) ^ degree)%R)
  | Gaussian rule =>
      match kernel_width perm rule n d X with
      | None => None
      | Some w => Some (fun i j => exp (- / 2 * sq_dists d X i j * w)%R)
      end
  end.

(** kernel/_base.py:35-42 (center_kernel_matrix_regression): [(RKR, R)]. *)
Definition center_regression (pinv : nat -> rmat -> rmat) (n : nat) (K Kz : rmat) (epsilon : R) : rmat * rmat :=
  let Rz := rscale epsilon (pinv n (radd Kz (rscale epsilon rident))) in
  (rdot n Rz (rdot n K Rz), Rz).

(* ---------- the unconditional test ---------- *)
(** kernel_based.py:66-93: [get_kappa_from_kernel_matrix] (99-107) computes what kci.py does.
    [None]: a width is NaN, and so are the p-value and the statistic. *)
Definition unconditional (gcdf : R -> R -> R -> R) (perm : nat -> nat -> nat) (n : nat) (data : rmat)
    (kernel_x kernel_y : kern) (x_ids y_ids : list nat) : option (option R * R) :=
  let data_x := zscore n (select data x_ids) in
  let data_y := zscore n (select data y_ids) in
  match kernel_matrix (perm 0) kernel_x n (length x_ids) data_x, kernel_matrix (perm 1) kernel_y n (length y_ids) data_y with
  | Some Kx, Some Ky =>
      let Kx := center_real n Kx in
      let Ky := center_real n Ky in
      let test_stat := sum_prod n Kx Ky in
      Some (gamma_pvalue gcdf n Kx Ky test_stat, test_stat)
  | _, _ => None
  end.

(* ---------- the conditional test ---------- *)
(** kernel_based.py:218: [np.concatenate((data_x, 0.5 * data_z), axis=1)]. *)
Definition concat_half (dx : nat) (X Z : rmat) : rmat := fun i c => if Nat.ltb c dx then X i c else (/ 2 * Z i (c - dx)%nat)%R.

(** The arguments of the constructor that matter, kernel_based.py:129-153; no [kernel_z] means
    the Gaussian process. *)
Record settings : Type := mkSettings
  { kernel_x : kern; kernel_y : kern; kernel_z : option kern; epsilon_x : R; epsilon_y : R; threshold : R }.

(** kernel_based.py:191, 259: [np.max(w)]. *)
Definition rmaxn (n : nat) (w : nat -> R) : R := fold_right Rmax (w 0) (map w (seq 0 n)).
(** kernel_based.py:191-192, 259-262: the positions of the eigenvalues that are kept. *)
Definition kept (n : nat) (t : R) (w : nat -> R) : list nat :=
  filter (fun c => if Rlt_dec (rmaxn n w * t) (w c) then true else false) (seq 0 n).

(** kernel_based.py:179-182: the width that the Gaussian process starts from, for [d] columns
    of x and z together. *)
Definition width_z (perm : nat -> nat) (k : kern) (n d : nat) (X : rmat) : R :=
  match k with
  | Gaussian rule => match kernel_width perm rule n d X with Some w => sqrt (1 / (w * INR d)) | None => 0 end
  | _ => 1
  end%R.
(** kernel_based.py:176-203 (kernel_matrix_for_z): [gp width_z m vx data_z] is the kernel of the
    process fitted to the m columns of [vx], and its noise. *)
Definition kernel_matrix_for_z (eigs : nat -> rmat -> (nat -> R) * rmat) (gp : R -> nat -> rmat -> rmat -> rmat * R)
    (t : R) (wz : R) (n : nat) (K data_z : rmat) : res (rmat * R) :=
  let '(w, v) := eigs n (rscale (/ 2) (radd K (rtranspose K))) in
  let topk := Nat.min 400 (n / 4) in
  if Nat.eqb topk 0 then Err ValueError
  else
    let idx := kept topk t w in
    match idx with
    | [] => Err IndexError
    | first :: _ =>
        let vx := fun i c => (2 * sqrt (INR n) * (v i (nth c idx 0%nat) * sqrt (w (nth c idx 0%nat))) / sqrt (w first))%R in
        Ok (gp wz (length idx) vx data_z)
    end.

(** kernel_based.py:174-237 (kernel_matrix): Kx, Ky, Kzx and Kzy, with the two epsilons that
    KCI_V_statistic reads; the Gaussian process overwrites them (230-231). *)
Definition kernel_matrices (perm : nat -> nat -> nat) (eigs : nat -> rmat -> (nat -> R) * rmat)
    (gp : R -> nat -> rmat -> rmat -> rmat * R) (s : settings) (n : nat) (data : rmat)
    (x_ids y_ids z_ids : list nat) : res (option (rmat * rmat * rmat * rmat * R * R)) :=
  let dx := length x_ids in
  let dz := length z_ids in
  let data_x := zscore n (select data x_ids) in
  let data_y := zscore n (select data y_ids) in
  let data_z := zscore n (select data z_ids) in
  let data_x := concat_half dx data_x data_z in
  match kernel_matrix (perm 0) (kernel_x s) n (dx + dz) data_x, kernel_matrix (perm 1) (kernel_y s) n (length y_ids) data_y with
  | Some Kx, Some Ky =>
      let Kx := center_real n Kx in
      let Ky := center_real n Ky in
      match kernel_z s with
      | None =>
          let wz := width_z (perm 0) (kernel_x s) n (dx + dz) data_x in
          zx <-? kernel_matrix_for_z eigs gp (threshold s) wz n Kx data_z ;;
          zy <-? kernel_matrix_for_z eigs gp (threshold s) wz n Ky data_z ;;
          Ok (Some (Kx, Ky, fst zx, fst zy, snd zx, snd zy))
      | Some kz =>
          match kernel_matrix (perm 2) kz n dz data_z with
          | None => Ok None
          | Some Kz => let Kz := center_real n Kz in Ok (Some (Kx, Ky, Kz, Kz, epsilon_x s, epsilon_y s))
          end
      end
  | _, _ => Ok None
  end.

(** kernel_based.py:239-247 (KCI_V_statistic). *)
Definition kci_v_statistic (pinv : nat -> rmat -> rmat) (use_gaussian_process : bool) (n : nat)
    (Kx Ky Kzx Kzy : rmat) (epsilon_x epsilon_y : R) : R * rmat * rmat :=
  let '(KxR, Rzx) := center_regression pinv n Kx Kzx epsilon_x in
  let KyR := if orb (if Req_EM_T epsilon_x epsilon_y then false else true) use_gaussian_process
             then fst (center_regression pinv n Ky Kzy epsilon_y)
             else rdot n Rzx (rdot n Ky Rzx) in
  (sum_prod n KxR KyR, KxR, KyR).

(** kernel_based.py:251-264: the scaled eigenvectors; [eigs] returns the eigenvalues in
    descending order and the eigenvectors as columns. *)
Definition scaled_vectors (eigs : nat -> rmat -> (nat -> R) * rmat) (n : nat) (t : R) (K : rmat) : nat * rmat :=
  let '(w, v) := eigs n (rscale (/ 2) (radd K (rtranspose K))) in
  let idx := kept n t w in
  (length idx, fun i c => (v i (nth c idx 0%nat) * sqrt (w (nth c idx 0%nat)))%R).
(** kernel_based.py:249-281 (get_uuprod): the matrix and its size. *)
Definition get_uuprod (eigs : nat -> rmat -> (nat -> R) * rmat) (n : nat) (t : R) (Kx Ky : rmat) : rmat * nat :=
  let '(num_eigx, vx) := scaled_vectors eigs n t Kx in
  let '(num_eigy, vy) := scaled_vectors eigs n t Ky in
  let size_u := num_eigx * num_eigy in
  let uu := fun r c => (vx r (c / num_eigy)%nat * vy r (c mod num_eigy)%nat)%R in
  if Nat.ltb n size_u then (fun a b => rsumn size_u (fun c => uu a c * uu b c)%R, n)
  else (fun c c' => rsumn n (fun a => uu a c * uu a c')%R, size_u).

(** kernel_based.py:283-289 (get_kappa) and 168; [gcdf] is gamma.cdf and [None] is NaN. *)
Definition conditional_pvalue (gcdf : R -> R -> R -> R) (uu_prod : rmat) (size : nat) (test_stat : R) : option R :=
  let mean_appr := rtrace size uu_prod in
  let var_appr := (2 * rtrace size (rdot size uu_prod uu_prod))%R in
  if Req_EM_T mean_appr 0 then None else if Req_EM_T var_appr 0 then None
  else Some (1 - gcdf test_stat (mean_appr * mean_appr / var_appr) (var_appr / mean_appr))%R.

(** kernel_based.py:161-172 (__compute_p_value_with_condition) with [approximate_mode].  [None]: a
    width is NaN; numpy then returns NaN or raises LinAlgError. *)
Definition conditional (gcdf : R -> R -> R -> R) (pinv : nat -> rmat -> rmat) (eigs : nat -> rmat -> (nat -> R) * rmat)
    (perm : nat -> nat -> nat) (gp : R -> nat -> rmat -> rmat -> rmat * R) (s : settings) (n : nat) (data : rmat)
    (x_ids y_ids z_ids : list nat) : res (option (option R * R)) :=
  m <-? kernel_matrices perm eigs gp s n data x_ids y_ids z_ids ;;
  match m with
  | None => Ok None
  | Some (Kx, Ky, Kzx, Kzy, ex, ey) =>
      let '(test_stat, KxR, KyR) :=
        kci_v_statistic pinv (match kernel_z s with None => true | Some _ => false end) n Kx Ky Kzx Kzy ex ey in
      let '(uu_prod, size) := get_uuprod eigs n (threshold s) KxR KyR in
      Ok (Some (conditional_pvalue gcdf uu_prod size test_stat, test_stat))
  end.
